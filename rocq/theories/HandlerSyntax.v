(** The typed source language of effect handlers, after normalization.
    Models crates/tribute-front/src/ast.rs (ExprKind, HandlerArm) as consumed by
    crates/tribute-front/src/ast_to_ir/lower/{expr,handle,lambda}.rs.
    Simplifications: names are numbers; values are integers and closures; every operation has one argument (several are
    packed into one product by lower_ability_perform.rs:158); a pattern is a variable; blocks are nested [ELet]s. *)
From Coq Require Export List ZArith Bool Lia.
Export ListNotations.

(** Whether an operation is declared with [op] or [fn] (new-plans/abilities.md:211). *)
Inductive okind : Type := KOp | KFn.

(** Expressions whose evaluation has no effect ([dexp]) and expressions ([expr]). *)
Inductive dexp : Type :=
| DInt (z : Z)
| DVar (x : nat)
| DAdd (d1 d2 : dexp)
| DMul (d1 d2 : dexp)
| DLam (xs : list nat) (body : expr)            (* a closure; its body is compiled in continuation-passing style *)
with expr : Type :=
| EPure (d : dexp)
| ELet (x : nat) (e1 e2 : expr)                 (* let x = e1; e2 *)
| EIf (d : dexp) (e1 e2 : expr)                 (* case on a Bool: zero is False *)
| ECall (f : nat) (ds : list dexp)              (* call of a declared function *)
| ECallV (x : nat) (ds : list dexp)             (* call of a closure *)
| EOp (a o : nat) (d : dexp)                    (* operation [o], declared with [op], of ability [a] *)
| EFn (a o : nat) (d : dexp)                    (* operation [o], declared with [fn], of ability [a] *)
| EHandle (body : expr) (h : handler)
| EResume (d : dexp)
with handler : Type :=
| Handler (completion : option (nat * expr)) (arms : list arm)   (* do x { e } and the other arms *)
with arm : Type :=
| Arm (k : okind) (a o x : nat) (body : expr).

Definition h_do (h : handler) := match h with Handler d _ => d end.
Definition h_arms (h : handler) := match h with Handler _ l => l end.
Definition arm_ability (m : arm) := match m with Arm _ a _ _ _ => a end.

(** The calling convention of a function follows from the abilities in its type
    (crates/tribute-front/src/ast_to_ir/calling_convention.rs, typeck/context.rs:284): one that has an ability with an
    [op] operation is compiled in continuation-passing style, any other returns its result. *)
Record func : Type := MkFunc { f_cps : bool; f_params : list nat; f_body : expr }.

(** [p_kind]: how each operation of each ability is declared. *)
Record program : Type := MkProgram { p_kind : nat -> nat -> okind; p_funcs : list func; p_main : expr }.
