(** What a program with effect handlers means, after new-plans/abilities.md:211-470, implementation.md:690-755 and
    cps-effects.md:150-190: an operation is handled by the nearest handler of its ability that is active; [resume] in its
    arm continues the interrupted computation, under the same handler, with the result of the operation, and returns what
    the handle then gives; an arm that returns without resuming gives the result of the handle; a handled computation
    that returns goes through the completion arm.

    The documents do not say whether a handler that is installed around a resumption takes over the operations of the
    resumed computation (their [run_state] relies on it, see the end of this file) or the original handler keeps them
    (which programs that resume more than once with [resume 10] rely on).  Here the original handler keeps them; in the
    programs of the positive theorem no ability has two handlers at once, so that both readings agree.

    The meaning is a machine with one stack of pending work and no continuation closures, evidence or tags. *)
From Verif Require Export HandlerSyntax.

Inductive sval : Type :=
| SInt (z : Z)
| SLam (xs : list nat) (body : expr) (env : senv)
(** Variables and, inside of an arm, what [resume] continues. *)
with senv : Type :=
| SEnv (vars : list (nat * sval)) (resume : option (list sframe))
(** Pending work, the innermost first. *)
with sframe : Type :=
| FLet (x : nat) (e : expr) (env : senv)
| FHandle (h : handler) (env : senv)
| FReturn (c : list sframe).                (* the end of a [fn] arm: back to the interrupted computation *)

Definition s_vars (e : senv) := match e with SEnv v _ => v end.
Definition s_resume (e : senv) := match e with SEnv _ r => r end.
Definition s_set (x : nat) (v : sval) (env : senv) : senv := SEnv ((x, v) :: s_vars env) (s_resume env).

Fixpoint s_get (vars : list (nat * sval)) (x : nat) : option sval :=
  match vars with
  | [] => None
  | (y, v) :: rest => if Nat.eq_dec x y then Some v else s_get rest x
  end.

Fixpoint s_bind (xs : list nat) (vs : list sval) (vars : list (nat * sval)) : option (list (nat * sval)) :=
  match xs, vs with
  | [], [] => Some vars
  | x :: xs, v :: vs => s_bind xs vs ((x, v) :: vars)
  | _, _ => None
  end.

Fixpoint s_eval (env : senv) (d : dexp) : option sval :=
  match d with
  | DInt z => Some (SInt z)
  | DVar x => s_get (s_vars env) x
  | DAdd d1 d2 => match s_eval env d1, s_eval env d2 with Some (SInt a), Some (SInt b) => Some (SInt (a + b)) | _, _ => None end
  | DMul d1 d2 => match s_eval env d1, s_eval env d2 with Some (SInt a), Some (SInt b) => Some (SInt (a * b)) | _, _ => None end
  | DLam xs body => Some (SLam xs body env)
  end.

Fixpoint s_evals (env : senv) (ds : list dexp) : option (list sval) :=
  match ds with
  | [] => Some []
  | d :: ds => match s_eval env d, s_evals env ds with Some v, Some vs => Some (v :: vs) | _, _ => None end
  end.

(** The abilities that a handler handles. *)
Definition abilities (h : handler) : list nat := map arm_ability (h_arms h).

(** The nearest active handler of an ability: the work inside of it, the handler, and the work outside of it. *)
Fixpoint nearest (a : nat) (W : list sframe) : option (list sframe * handler * senv * list sframe) :=
  match W with
  | [] => None
  | FHandle h env :: rest =>
      if in_dec Nat.eq_dec a (abilities h) then Some ([], h, env, rest)
      else match nearest a rest with Some (c, h', env', r) => Some (FHandle h env :: c, h', env', r) | None => None end
  | f :: rest => match nearest a rest with Some (c, h', env', r) => Some (f :: c, h', env', r) | None => None end
  end.

(** The arm for an operation. *)
Fixpoint the_arm (k : okind) (a o : nat) (arms : list arm) : option (nat * expr) :=
  match arms with
  | [] => None
  | Arm k' a' o' x e :: rest =>
      match k, k' with
      | KOp, KOp | KFn, KFn => if Nat.eq_dec a a' then if Nat.eq_dec o o' then Some (x, e) else the_arm k a o rest else the_arm k a o rest
      | _, _ => the_arm k a o rest
      end
  end.

Inductive sstate : Type :=
| SEval (e : expr) (env : senv) (W : list sframe)
| SReturn (v : sval) (W : list sframe).

Section Program.
  Variable P : program.

  Definition sstep (s : sstate) : option sstate :=
    match s with
    | SEval e env W =>
        match e with
        | EPure d => match s_eval env d with Some v => Some (SReturn v W) | None => None end
        | ELet x e1 e2 => Some (SEval e1 env (FLet x e2 env :: W))
        | EIf d e1 e2 =>
            match s_eval env d with
            | Some (SInt z) => Some (SEval (if Z.eq_dec z 0 then e2 else e1) env W)
            | _ => None
            end
        | ECall f ds =>
            match nth_error (p_funcs P) f, s_evals env ds with
            | Some fn, Some vs =>
                match s_bind (f_params fn) vs [] with
                | Some vars => Some (SEval (f_body fn) (SEnv vars None) W)
                | None => None
                end
            | _, _ => None
            end
        | ECallV x ds =>
            match s_get (s_vars env) x, s_evals env ds with
            | Some (SLam xs body (SEnv vars r)), Some vs =>
                match s_bind xs vs vars with
                | Some vars' => Some (SEval body (SEnv vars' r) W)
                | None => None
                end
            | _, _ => None
            end
        | EOp a o d =>
            match s_eval env d, nearest a W with
            | Some v, Some (inner, h, henv, outer) =>
                match the_arm KOp a o (h_arms h) with
                | Some (x, body) =>
                    Some (SEval body (SEnv ((x, v) :: s_vars henv) (Some (inner ++ [FHandle h henv]))) outer)
                | None => None
                end
            | _, _ => None
            end
        | EFn a o d =>
            match s_eval env d, nearest a W with
            | Some v, Some (inner, h, henv, outer) =>
                match the_arm KFn a o (h_arms h) with
                | Some (x, body) => Some (SEval body (s_set x v henv) (FReturn (inner ++ [FHandle h henv]) :: outer))
                | None => None
                end
            | _, _ => None
            end
        | EHandle body h => Some (SEval body env (FHandle h env :: W))
        | EResume d =>
            match s_eval env d, s_resume env with
            | Some v, Some c => Some (SReturn v (c ++ W))
            | _, _ => None
            end
        end
    | SReturn v [] => None
    | SReturn v (FLet x e env :: W) => Some (SEval e (s_set x v env) W)
    | SReturn v (FHandle h env :: W) =>
        match h_do h with
        | Some (x, e) => Some (SEval e (s_set x v env) W)
        | None => Some (SReturn v W)
        end
    | SReturn v (FReturn c :: W) => Some (SReturn v (c ++ W))
    end.

  Definition sstart : sstate := SEval (p_main P) (SEnv [] None) [].

  Fixpoint srun (n : nat) (s : sstate) : option sstate :=
    match n with
    | 0 => Some s
    | S n => match sstep s with Some s' => srun n s' | None => None end
    end.

  (** ** The programs of the positive theorem *)

  (** Code that returns its value without transferring control: no operation declared with [op], no call of a function
      that may perform one, no [handle], no [resume]. *)
  Inductive plain : expr -> Prop :=
  | P_pure d : tidy_d d -> plain (EPure d)
  | P_let x e1 e2 : plain e1 -> plain e2 -> plain (ELet x e1 e2)
  | P_if d e1 e2 : tidy_d d -> plain e1 -> plain e2 -> plain (EIf d e1 e2)
  | P_call f fn ds : nth_error (p_funcs P) f = Some fn -> f_cps fn = false -> Forall tidy_d ds -> plain (ECall f ds)
  | P_fn a o d : tidy_d d -> plain (EFn a o d)
  (** Code in which every arm resumes only as its last action: [tidy true] may end with [resume], [tidy false] may not. *)
  with tidy : bool -> expr -> Prop :=
  | T_pure t d : tidy_d d -> tidy t (EPure d)
  | T_let t x e1 e2 : tidy false e1 -> tidy t e2 -> tidy t (ELet x e1 e2)
  | T_if t d e1 e2 : tidy_d d -> tidy t e1 -> tidy t e2 -> tidy t (EIf d e1 e2)
  | T_call t f ds : Forall tidy_d ds -> tidy t (ECall f ds)
  | T_callv t x ds : Forall tidy_d ds -> tidy t (ECallV x ds)
  | T_op t a o d : tidy_d d -> tidy t (EOp a o d)
  | T_fn t a o d : tidy_d d -> tidy t (EFn a o d)
  | T_handle t body h : tidy false body -> tidy_h h -> tidy t (EHandle body h)
  | T_resume d : tidy_d d -> tidy true (EResume d)
  with tidy_d : dexp -> Prop :=
  | TD_int z : tidy_d (DInt z)
  | TD_var x : tidy_d (DVar x)
  | TD_add d1 d2 : tidy_d d1 -> tidy_d d2 -> tidy_d (DAdd d1 d2)
  | TD_mul d1 d2 : tidy_d d1 -> tidy_d d2 -> tidy_d (DMul d1 d2)
  | TD_lam xs body : tidy false body -> tidy_d (DLam xs body)
  with tidy_h : handler -> Prop :=
  | TH arms : Forall tidy_arm arms -> tidy_h (Handler None arms)
  | TH_do x e arms : tidy false e -> Forall tidy_arm arms -> tidy_h (Handler (Some (x, e)) arms)
  with tidy_arm : arm -> Prop :=
  | TA_op a o x e : p_kind P a o = KOp -> tidy true e -> tidy_arm (Arm KOp a o x e)
  | TA_fn a o x e : p_kind P a o = KFn -> plain e -> tidy_arm (Arm KFn a o x e).

  (** A function that is not compiled in continuation-passing style is plain: its type has no ability with [op]. *)
  Definition tidy_func (f : func) : Prop := if f_cps f then tidy false (f_body f) else plain (f_body f).

  Definition tidy_program : Prop := Forall tidy_func (p_funcs P) /\ tidy false (p_main P).
End Program.

(** ** Abilities in use *)

(** The abilities with a handler that is active, or suspended because an arm has not yet resumed. *)
Fixpoint in_use (f : sframe) : list nat :=
  match f with
  | FLet _ _ env => env_in_use env
  | FHandle h env => abilities h ++ env_in_use env
  | FReturn c => flat_map in_use c
  end
with env_in_use (env : senv) : list nat :=
  match env with
  | SEnv _ (Some c) => flat_map in_use c
  | SEnv _ None => []
  end.

(** A [handle] that is about to run handles no ability that is already in use. *)
Definition calm_now (s : sstate) : bool :=
  match s with
  | SEval (EHandle _ h) env W =>
      forallb (fun a => negb (existsb (Nat.eqb a) (env_in_use env ++ flat_map in_use W))) (abilities h)
  | _ => true
  end.

Definition calm (P : program) : Prop := forall n s, srun P n (sstart P) = Some s -> calm_now s = true.

(** ** Outcomes *)

Definition gives (P : program) (z : Z) : Prop := exists n, srun P n (sstart P) = Some (SReturn (SInt z) []).
Definition runs_forever (P : program) : Prop := forall n, srun P n (sstart P) <> None.

(** ** State

    [run_state] of abilities.md:378: its arms install a new handler, with the new state, around the resumption. *)
Definition run_state : func :=
  MkFunc true [0; 1]
    (EHandle (ECallV 0 [])
       (Handler (Some (4, EPure (DVar 4)))
          [Arm KOp 0 0 2 (ECall 0 [DLam [] (EResume (DVar 1)); DVar 1]);
           Arm KOp 0 1 2 (ECall 0 [DLam [] (EResume (DInt 0)); DVar 2])])).

(** let x = State::get() and let x = State::set(d). *)
Inductive cmd : Type := CGet (x : nat) | CSet (x : nat) (d : dexp).

Fixpoint commands (l : list cmd) (d : dexp) : expr :=
  match l with
  | [] => EPure d
  | CGet x :: l => ELet x (EOp 0 0 (DInt 0)) (commands l d)
  | CSet x e :: l => ELet x (EOp 0 1 e) (commands l d)
  end.

Definition state_program (l : list cmd) (d : dexp) (init : Z) : program :=
  MkProgram (fun _ _ => KOp) [run_state] (ECall 0 [DLam [] (commands l d); DInt init]).

(** What the commands compute. *)
Fixpoint z_get (vars : list (nat * Z)) (x : nat) : option Z :=
  match vars with
  | [] => None
  | (y, z) :: rest => if Nat.eq_dec x y then Some z else z_get rest x
  end.

Fixpoint z_eval (vars : list (nat * Z)) (d : dexp) : option Z :=
  match d with
  | DInt z => Some z
  | DVar x => z_get vars x
  | DAdd a b => match z_eval vars a, z_eval vars b with Some x, Some y => Some (x + y)%Z | _, _ => None end
  | DMul a b => match z_eval vars a, z_eval vars b with Some x, Some y => Some (x * y)%Z | _, _ => None end
  | DLam _ _ => None
  end.

Fixpoint state_run (vars : list (nat * Z)) (state : Z) (l : list cmd) (d : dexp) : option Z :=
  match l with
  | [] => z_eval vars d
  | CGet x :: l => state_run ((x, state) :: vars) state l d
  | CSet x e :: l => match z_eval vars e with Some z => state_run ((x, 0%Z) :: vars) z l d | None => None end
  end.
