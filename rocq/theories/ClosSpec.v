(** What a program with lambdas means, independently of how they are compiled. *)
From Verif Require Export ClosModel.
Local Open Scope list_scope.

(** ** Conventions *)

Definition takes_evidence (c : conv) : bool := match c with Direct => false | EvidenceDirect | Cps => true end.
(** Evidence, and the continuation to call at the end. *)
Definition hidden_args (c : conv) : nat := match c with Direct => 0 | EvidenceDirect => 1 | Cps => 2 end.
(** Where a function made for a closure expects the environment: after the evidence, before all others. *)
Definition with_environment {A : Type} (c : conv) (e : A) (args : list A) : list A :=
  match c, args with
  | Direct, _ => e :: args
  | _, a :: args => a :: e :: args
  | _, [] => [e]
  end.
Definition evidence_name (f : func) : option nat :=
  match f_ev f, f_params f with true, e :: _ => Some e | _, _ => None end.

(** ** Values and execution *)

(** [VLam]: a lambda with the variables of the place where it was made (lexical scope).  [VNew]: a named function with
    an environment.  [VFun]: a plain function. *)
Inductive value : Type :=
| VInt (z : Z)
| VNull
| VData (k : kind) (fields : list value)
| VFun (f : string)
| VNew (f : string) (c : option conv) (env : value)
| VLam (c : option conv) (ev : option nat) (rho : nat -> option value) (ps : list nat) (b : code).

Definition env := nat -> option value.
Definition upd (rho : env) (x : nat) (v : value) : env := fun y => if y =? x then Some v else rho y.
Fixpoint upds (rho : env) (xs : list nat) (vs : list value) : env :=
  match xs, vs with
  | x :: xs, v :: vs => upds (upd rho x v) xs vs
  | _, _ => rho
  end.
Definition empty : env := fun _ => None.
Fixpoint values (rho : env) (xs : list nat) : option (list value) :=
  match xs with
  | [] => Some []
  | x :: xs => match rho x, values rho xs with Some v, Some vs => Some (v :: vs) | _, _ => None end
  end.

Fixpoint ints (vs : list value) : option (list Z) :=
  match vs with
  | [] => Some []
  | VInt z :: vs => match ints vs with Some zs => Some (z :: zs) | None => None end
  | _ => None
  end.

Definition find_func (P : cmodule) (f : string) : option func := find (fun g => String.eqb (f_name g) f) P.

Section Run.
  (** The world, and what an operation on integers does to it. *)
  Variable W : Type.
  Variable prim : nat -> list Z -> W -> option (Z * W).
  Variable P : cmodule.

  Inductive outcome : Type := Done (v : value) (w : W) | Wrong | Timeout.

  Section Exec.
    (** How to run the body of a function: evidence name, evidence, variables. *)
    Variable enter : option nat -> value -> env -> code -> W -> outcome.

    (** A function of the module: its first argument is its evidence if the parameter has that type. *)
    Definition call_func (f : string) (vs : list value) (w : W) : outcome :=
      match find_func P f with
      | None => Wrong
      | Some g =>
          if List.length vs =? List.length (f_params g)
          then enter (evidence_name g) (if f_ev g then match vs with v :: _ => v | [] => VNull end else VNull)
                     (upds empty (f_params g) vs) (f_body g) w
          else Wrong
      end.

    (** Calling a closure from code that runs with evidence [cur].  The convention of the call must be that of the
        closure.  A lambda runs in the scope where it was made.  Without a
        convention it runs with the evidence of its caller, under the name it had where it was made. *)
    Definition conv_eqb (a b : option conv) : bool :=
      match a, b with
      | None, None | Some Direct, Some Direct | Some EvidenceDirect, Some EvidenceDirect | Some Cps, Some Cps => true
      | _, _ => false
      end.
    Definition set_evidence (rho : env) (ev : option nat) (cur : value) : env :=
      match ev with Some e => upd rho e cur | None => rho end.
    Definition call_closure (cur : value) (cc : option conv) (callee : value) (vs : list value) (w : W) : outcome :=
      match callee with
      | VLam c ev rho ps b =>
          if conv_eqb c cc && (List.length vs =? List.length ps) then
            match c with
            | None => enter ev cur (upds (set_evidence rho ev cur) ps vs) b w
            | Some c =>
                if takes_evidence c
                then enter (match ps with p :: _ => Some p | [] => None end) (match vs with v :: _ => v | [] => VNull end)
                           (upds rho ps vs) b w
                else enter None VNull (upds rho ps vs) b w
            end
          else Wrong
      | VNew f c e =>
          if conv_eqb c cc then
            match c with
            | None => call_func f (cur :: e :: vs) w
            | Some c => call_func f (with_environment c e vs) w
            end
          else Wrong
      | _ => Wrong
      end.

    Definition step (cur : value) (i : inst) (rho : env) (w : W) : outcome :=
      match i with
      | IPrim k args =>
          match values rho args with
          | Some vs =>
              match ints vs with
              | Some zs => match prim k zs w with Some (z, w') => Done (VInt z) w' | None => Wrong end
              | None => Wrong
              end
          | None => Wrong
          end
      | IData k args => match values rho args with Some vs => Done (VData k vs) w | None => Wrong end
      | IField j x =>
          match rho x with
          | Some (VData _ vs) => match nth_error vs j with Some v => Done v w | None => Wrong end
          | _ => Wrong
          end
      | ICast x => match rho x with Some v => Done v w | None => Wrong end
      | INull => Done VNull w
      | ICall f args => match values rho args with Some vs => call_func f vs w | None => Wrong end
      | IInd c x args =>
          match rho x, values rho args with
          | Some v, Some vs => call_closure cur c v vs w
          | _, _ => Wrong
          end
      | INew f c e => match rho e with Some v => Done (VNew f c v) w | None => Wrong end
      | IFun f => Done (VFun f) w
      | ICallFn x args =>
          match rho x, values rho args with
          | Some (VFun f), Some vs => call_func f vs w
          | _, _ => Wrong
          end
      end.

    (** The evidence a lambda refers to by the name of its surroundings: only one without a convention, and only if it
        does not capture it as an ordinary variable. *)
    Definition inherited (c : option conv) (caps : list nat) (ev : option nat) : option nat :=
      match c, ev with
      | None, Some e => if existsb (Nat.eqb e) caps then None else Some e
      | _, _ => None
      end.

    Fixpoint exec (ev : option nat) (cur : value) (rho : env) (c : code) (w : W) : outcome :=
      match c with
      | Ret v => match rho v with Some x => Done x w | None => Wrong end
      | Seq i r k =>
          match step cur i rho w with
          | Done x w' => exec ev cur (upd rho r x) k w'
          | o => o
          end
      | If x t e r k =>
          match rho x with
          | Some (VInt z) =>
              match (if Z.eqb z 0 then exec ev cur rho e w else exec ev cur rho t w) with
              | Done y w' => exec ev cur (upd rho r y) k w'
              | o => o
              end
          | _ => Wrong
          end
      | Lam cv caps ps b r k => exec ev cur (upd rho r (VLam cv (inherited cv caps ev) rho ps b)) k w
      end.
  End Exec.

  (** The fuel bounds the depth of calls. *)
  Fixpoint enter (fuel : nat) (ev : option nat) (cur : value) (rho : env) (c : code) (w : W) : outcome :=
    match fuel with
    | O => Timeout
    | S fuel => exec (enter fuel) ev cur rho c w
    end.
  Definition run (fuel : nat) (f : string) (zs : list Z) (w : W) : outcome :=
    call_func (enter fuel) f (map VInt zs) w.
End Run.
Arguments Done {W} _ _.
Arguments Wrong {W}.
Arguments Timeout {W}.

(** ** What can be seen of a result: data down to closures *)

Inductive seen : Type := SInt (z : Z) | SNull | SData (k : kind) (fields : list seen) | SFun | SClosure.
Fixpoint see (v : value) : seen :=
  match v with
  | VInt z => SInt z
  | VNull => SNull
  | VData KClosure _ => SClosure
  | VData k vs => SData k (map see vs)
  | VFun _ => SFun
  | VNew _ _ _ | VLam _ _ _ _ _ => SClosure
  end.
Inductive result (W : Type) : Type := RDone (v : seen) (w : W) | RWrong | RTimeout.
Arguments RDone {W} _ _.
Arguments RWrong {W}.
Arguments RTimeout {W}.
Definition observe {W} (o : outcome W) : result W :=
  match o with Done v w => RDone (see v) w | Wrong => RWrong | Timeout => RTimeout end.

(** ** Programs the frontend hands over *)

Definition reads (i : inst) : list nat :=
  match i with
  | IPrim _ args | IData _ args | ICall _ args => args
  | IField _ x | ICast x => [x]
  | INull | IFun _ => []
  | IInd _ x args | ICallFn x args => x :: args
  | INew _ _ e => [e]
  end.
Definition call_shape (i : inst) : Prop :=
  match i with IInd (Some c) _ args => hidden_args c <= List.length args | _ => True end.

(** Each value is defined before its use and once; the body of a lambda reads only its parameters, its captures and the
    evidence it inherits; a lambda or call with a convention has the hidden
    parameters or arguments of that convention. *)
Fixpoint scoped (ev : option nat) (sc : list nat) (c : code) : Prop :=
  match c with
  | Ret v => In v sc
  | Seq i r k => incl (reads i) sc /\ call_shape i /\ ~ In r sc /\ scoped ev (r :: sc) k
  | If x t e r k => In x sc /\ scoped ev sc t /\ scoped ev sc e /\ ~ In r sc /\ scoped ev (r :: sc) k
  | Lam cv caps ps b r k =>
      incl caps sc /\ NoDup ps /\ (forall p, In p ps -> ~ In p sc)
      /\ match cv with Some c => hidden_args c <= List.length ps | None => True end
      /\ scoped (match cv with
                 | None => inherited cv caps ev
                 | Some c => if takes_evidence c then match ps with p :: _ => Some p | [] => None end else None
                 end)
                (ps ++ caps ++ match inherited cv caps ev with Some e => [e] | None => [] end) b
      /\ ~ In r sc /\ scoped ev (r :: sc) k
  end.

(** All numbers in a piece of code are below [n]. *)
Fixpoint below (n : nat) (c : code) : Prop :=
  match c with
  | Ret v => v < n
  | Seq i r k => Forall (fun v => v < n) (reads i) /\ r < n /\ below n k
  | If x t e r k => x < n /\ below n t /\ below n e /\ r < n /\ below n k
  | Lam _ caps ps b r k =>
      Forall (fun v => v < n) caps /\ Forall (fun v => v < n) ps /\ below n b /\ r < n /\ below n k
  end.

Definition func_ok (n : nat) (f : func) : Prop :=
  NoDup (f_params f) /\ Forall (fun v => v < n) (f_params f) /\ (f_ev f = true -> f_params f <> [])
  /\ below n (f_body f) /\ scoped (evidence_name f) (f_params f) (f_body f).

(** No function has a name of the form the compiler makes for lambdas. *)
Definition unclaimed (P : cmodule) : Prop :=
  forall parent count f, In f P -> f_name f <> (parent ++ "::__clam_" ++ MangleModel.decimal count)%string.

Definition program_ok (n : nat) (P : cmodule) : Prop :=
  Forall (func_ok n) P /\ NoDup (map f_name P) /\ unclaimed P.

(** ** Code without closures *)
Fixpoint first_order (c : code) : Prop :=
  match c with
  | Ret _ => True
  | Seq (IInd _ _ _) _ _ | Seq (INew _ _ _) _ _ | Lam _ _ _ _ _ _ => False
  | Seq _ _ k => first_order k
  | If _ t e _ k => first_order t /\ first_order e /\ first_order k
  end.

(** How deep lambdas are nested. *)
Fixpoint nesting (c : code) : nat :=
  match c with
  | Ret _ => 0
  | Seq _ _ k => nesting k
  | If _ t e _ k => Nat.max (nesting t) (Nat.max (nesting e) (nesting k))
  | Lam _ _ _ b _ k => Nat.max (S (nesting b)) (nesting k)
  end.
