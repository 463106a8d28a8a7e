(** Administrative normalisation before continuation-passing lowering.

    Models crates/tribute-front/src/ast_to_ir/normalize.rs:13-381 and the
    order in which the direct lowering visits the children of an expression
    (crates/tribute-front/src/ast_to_ir/lower/expr.rs:240-820).

    Simplifications.  Node ids, node types and source names are left out: the
    rewriting only copies them.  The lookup of the node type of a temporary
    (normalize.rs:318-321) is assumed to succeed.  A pattern is either a plain
    binding or an opaque test ([PShape]) together with the local ids it binds,
    because the normaliser never looks inside a pattern other than the binding
    it creates.  All literals are one constructor. *)
From Coq Require Export List NArith Bool.
From Verif Require Export Base.
Import ListNotations.
Open Scope N_scope.

(** ** Syntax *)

(** crates/tribute-front/src/ast/phases.rs:285-330 (ResolvedRef): a local
    variable or anything else (function, constructor, ...). *)
Inductive ref := RLocal (x : N) | RGlobal (g : N).

(** crates/tribute-front/src/ast/expr.rs:58-81 (the literal forms). *)
Inductive lit := LNum (n : N) | LBool (b : bool) | LText (s : N) | LNil.

(** crates/tribute-front/src/ast/pattern.rs:42-110 (PatternKind). *)
Inductive pat := PBind (x : N) | PShape (s : N) (xs : list N).

(** crates/tribute-front/src/ast/expr.rs:249-256 (BinOpKind). *)
Inductive binop := BAnd | BOr.

(** crates/tribute-front/src/ast/expr.rs:155-171 (Stmt). *)
Inductive stmt (E : Type) := SLet (p : pat) (v : E) | SExpr (v : E).
Arguments SLet {E}. Arguments SExpr {E}.

(** crates/tribute-front/src/ast/expr.rs:173-187 (Arm). *)
Inductive arm (E : Type) := mkArm (p : pat) (g : option E) (b : E).
Arguments mkArm {E}.

(** crates/tribute-front/src/ast/expr.rs:203-229 (HandlerKind). *)
Inductive hkind :=
| HDo (p : pat)
| HFn (ability op : N) (ps : list pat)
| HOp (ability op : N) (ps : list pat) (resume : option N).

(** crates/tribute-front/src/ast/expr.rs:189-201 (HandlerArm). *)
Inductive harm (E : Type) := mkHarm (k : hkind) (b : E).
Arguments mkHarm {E}.

(** crates/tribute-front/src/ast/expr.rs:49-153 (ExprKind). *)
Inductive expr :=
| EVar (r : ref)
| ELit (l : lit)
| ECall (c : expr) (args : list expr)
| ECons (ctor : N) (args : list expr)
| ETuple (args : list expr)
| EList (args : list expr)
| ERecord (ty : N) (spread : option expr) (fields : list (N * expr))
| EMethod (recv : expr) (m : N) (args : list expr)
| EBlock (ss : list (stmt expr)) (v : expr)
| ECase (s : expr) (arms : list (arm expr))
| ELambda (ps : list N) (b : expr)
| EHandle (b : expr) (hs : list (harm expr))
| EResume (a : expr) (k : option N)
| EBinOp (op : binop) (l r : expr)
| EError.

(** ** The normaliser *)

(** normalize.rs:367-381. *)
Definition is_atom (e : expr) : bool :=
  match e with
  | EVar _ | ELit _ | ELambda _ _ => true
  | _ => false
  end.

(** A suspended run of the normaliser on one subexpression: it takes the
    counter of local ids (context.rs:411-424) and returns it advanced. *)
Definition run := N -> expr * N.

(** normalize.rs:346-364 (with_prefix). *)
Definition with_prefix (ss : list (stmt expr)) (e : expr) : expr :=
  match ss with
  | [] => e
  | _ => EBlock ss e
  end.

(** The [match] on a block shell at normalize.rs:245, 263, 275 and 308. *)
Definition split (e : expr) : list (stmt expr) * expr :=
  match e with
  | EBlock ss v => (ss, v)
  | _ => ([], e)
  end.

(** normalize.rs:302-344 (normalize_to_atom). *)
Definition to_atom (r : run) (n : N) : list (stmt expr) * expr * N :=
  let (e, n1) := r n in
  let (prefix, v) := split e in
  if is_atom v then (prefix, v, n1)
  else (prefix ++ [SLet (PBind n1) v], EVar (RLocal n1), n1 + 1).

(** normalize.rs:288-300 (normalize_atoms). *)
Fixpoint to_atoms (rs : list run) (n : N)
  : list (stmt expr) * list expr * N :=
  match rs with
  | [] => ([], [], n)
  | r :: rs =>
      let '(ss1, a, n1) := to_atom r n in
      let '(ss2, l, n2) := to_atoms rs n1 in
      (ss1 ++ ss2, a :: l, n2)
  end.

(** normalize.rs:135-139: the spread of a record. *)
Definition to_atom_opt (r : option run) (n : N)
  : list (stmt expr) * option expr * N :=
  match r with
  | None => ([], None, n)
  | Some r => let '(ss, a, n1) := to_atom r n in (ss, Some a, n1)
  end.

(** normalize.rs:168-174: guard and body of each arm, as regions. *)
Fixpoint norm_arms (l : list (arm run)) (n : N) : list (arm expr) * N :=
  match l with
  | [] => ([], n)
  | mkArm p g b :: l =>
      let (g', n1) :=
        match g with
        | None => (None, n)
        | Some r => let (e, n1) := r n in (Some e, n1)
        end in
      let (b', n2) := b n1 in
      let (l', n3) := norm_arms l n2 in
      (mkArm p g' b' :: l', n3)
  end.

(** normalize.rs:184-190: the body of each handler arm, as a region. *)
Fixpoint norm_handlers (l : list (harm run)) (n : N) : list (harm expr) * N :=
  match l with
  | [] => ([], n)
  | mkHarm k b :: l =>
      let (b', n1) := b n in
      let (l', n2) := norm_handlers l n1 in
      (mkHarm k b' :: l', n2)
  end.

(** normalize.rs:228-272: the loop of normalize_block over the statements. *)
Fixpoint norm_stmts (l : list (stmt run)) (n : N) : list (stmt expr) * N :=
  match l with
  | [] => ([], n)
  | SLet p r :: l =>
      let (e, n1) := r n in
      let (ss, v) := split e in
      let (rest, n2) := norm_stmts l n1 in
      (ss ++ SLet p v :: rest, n2)
  | SExpr r :: l =>
      let (e, n1) := r n in
      let (ss, v) := split e in
      let (rest, n2) := norm_stmts l n1 in
      (ss ++ SExpr v :: rest, n2)
  end.

Definition map_stmt {A B : Type} (f : A -> B) (s : stmt A) : stmt B :=
  match s with SLet p v => SLet p (f v) | SExpr v => SExpr (f v) end.
Definition map_arm {A B : Type} (f : A -> B) (a : arm A) : arm B :=
  match a with mkArm p g b => mkArm p (option_map f g) (f b) end.
Definition map_harm {A B : Type} (f : A -> B) (h : harm A) : harm B :=
  match h with mkHarm k b => mkHarm k (f b) end.

(** normalize.rs:112-219 (normalize_expr) with normalize_block (221-286)
    folded in. *)
Fixpoint norm (e : expr) (n : N) {struct e} : expr * N :=
  match e with
  | ECall c args =>
      let '(ss1, c', n1) := to_atom (norm c) n in
      let '(ss2, args', n2) := to_atoms (map norm args) n1 in
      (with_prefix (ss1 ++ ss2) (ECall c' args'), n2)
  | ECons ctor args =>
      let '(ss, args', n1) := to_atoms (map norm args) n in
      (with_prefix ss (ECons ctor args'), n1)
  | ETuple args =>
      let '(ss, args', n1) := to_atoms (map norm args) n in
      (with_prefix ss (ETuple args'), n1)
  | EList args =>
      let '(ss, args', n1) := to_atoms (map norm args) n in
      (with_prefix ss (EList args'), n1)
  | ERecord ty spread fields =>
      let '(ss1, spread', n1) := to_atom_opt (option_map norm spread) n in
      let '(ss2, vals, n2) :=
        to_atoms (map (fun f => norm (snd f)) fields) n1 in
      (with_prefix (ss1 ++ ss2)
         (ERecord ty spread' (combine (map fst fields) vals)), n2)
  | EBinOp op l r =>
      let '(ss, l', n1) := to_atom (norm l) n in
      let (r', n2) := norm r n1 in
      (with_prefix ss (EBinOp op l' r'), n2)
  | EBlock stmts v =>
      let (ss, n1) := norm_stmts (map (map_stmt norm) stmts) n in
      let (v', n2) := norm v n1 in
      let (ss', w) := split v' in
      (EBlock (ss ++ ss') w, n2)
  | ECase s arms =>
      let '(ss, s', n1) := to_atom (norm s) n in
      let (arms', n2) := norm_arms (map (map_arm norm) arms) n1 in
      (with_prefix ss (ECase s' arms'), n2)
  | ELambda ps b =>
      let (b', n1) := norm b n in (ELambda ps b', n1)
  | EHandle b hs =>
      let (b', n1) := norm b n in
      let (hs', n2) := norm_handlers (map (map_harm norm) hs) n1 in
      (EHandle b' hs', n2)
  | EResume a k =>
      let '(ss, a', n1) := to_atom (norm a) n in
      (with_prefix ss (EResume a' k), n1)
  | EMethod recv m args =>
      let '(ss1, recv', n1) := to_atom (norm recv) n in
      let '(ss2, args', n2) := to_atoms (map norm args) n1 in
      (with_prefix (ss1 ++ ss2) (EMethod recv' m args'), n2)
  | EVar _ | ELit _ | EError => (e, n)
  end.

(** crates/tribute-front/src/ast_to_ir/context.rs:198: where the counter of
    synthetic ids starts, and 411-424: asking for the id [u32::MAX] panics.
    The counter only grows, so checking it once at the end is the same as
    checking at each request. *)
Definition first_synthetic : N := 0x80000000.
Definition unresolved_id : N := 0xFFFFFFFF.

(** normalize.rs:13-20 (normalize_for_cps); [None] is the panic. *)
Definition normalize_for_cps (n : N) (e : expr) : option (expr * N) :=
  let (e', n') := norm e n in
  if n' <=? unresolved_id then Some (e', n') else None.

(** ** The validator used in the debug assertion *)

(** normalize.rs:55-105 (validate_expr); true is Ok.  [root] is
    validate_region_root (31-36): one block shell is allowed, whose contents
    are validate_block_contents (38-50). *)
Fixpoint validate (root : bool) (e : expr) {struct e} : bool :=
  match e with
  | ECall c args => is_atom c && forallb is_atom args
  | ECons _ args | ETuple args | EList args => forallb is_atom args
  | ERecord _ spread fields =>
      match spread with Some s => is_atom s | None => true end
      && forallb (fun f => is_atom (snd f)) fields
  | EBinOp _ l r => is_atom l && validate true r
  | EBlock ss v =>
      root
      && forallb (fun s => match s with
                           | SLet _ w => validate false w
                           | SExpr w => validate false w
                           end) ss
      && validate false v
  | ECase s arms =>
      is_atom s
      && forallb (fun a => match a with
                           | mkArm _ g b =>
                               match g with
                               | Some g => validate true g
                               | None => true
                               end && validate true b
                           end) arms
  | ELambda _ b => validate true b
  | EHandle b hs =>
      validate true b
      && forallb (fun h => match h with mkHarm _ b => validate true b end) hs
  | EResume a _ => is_atom a
  | EMethod r _ args => is_atom r && forallb is_atom args
  | EVar _ | ELit _ | EError => true
  end.

(** normalize.rs:25-27. *)
Definition validate_normal_form (e : expr) : bool := validate true e.
