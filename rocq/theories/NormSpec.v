(** What an expression means, for any language of values and effects.

    [sem] packages a universe of values and computations: sequencing of
    computations, the effect of a call, of a handler, and so on.  [lawful]
    says that sequencing is sequencing, and that every construct only depends
    on the meaning of its parts.  State, output, failure, non-termination
    markers and algebraic effects with handlers all fit.  [den] is then the
    source semantics: strict, callee first, arguments from left to right, a
    record's spread before its fields, and nothing evaluated twice. *)
From Coq Require Import List NArith Bool.
From Verif Require Import Base NormModel.
Import ListNotations.
Open Scope N_scope.

Inductive hlabel := LDo | LFn (ability op : N) | LOp (ability op : N).

Record sem := mkSem {
  V : Type;                       (* values *)
  M : Type;                       (* computations of a value *)
  veq : V -> V -> Prop;           (* same value *)
  ceq : M -> M -> Prop;           (* same behaviour *)
  ret : V -> M;
  bind : M -> (V -> M) -> M;      (* run the first, then the second *)
  undef : V;
  literal : lit -> V;
  global : N -> V;
  truth : V -> bool;
  test : N -> V -> option (list V);   (* pattern test *)
  lam : nat -> (list V -> M) -> V;
  call : V -> list V -> M;
  construct : N -> list V -> M;
  tuple : list V -> M;
  mklist : list V -> M;
  record : N -> option V -> list (N * V) -> M;
  method : V -> N -> list V -> M;
  resume : option V -> V -> M;
  handle : M -> list (hlabel * (list V -> M)) -> M;
  failure : M                     (* no arm or pattern matches, error node *)
}.

Section Den.
Variable S : sem.

Definition env := N -> V S.
Definition upd (rho : env) (x : N) (v : V S) : env :=
  fun y => if y =? x then v else rho y.
(** Missing values are undefined, surplus values are ignored. *)
Fixpoint upds (rho : env) (xs : list N) (vs : list (V S)) : env :=
  match xs, vs with
  | [], _ => rho
  | x :: xs, [] => upds (upd rho x (undef S)) xs []
  | x :: xs, v :: vs => upds (upd rho x v) xs vs
  end.

Definition bindp (p : pat) (v : V S) (rho : env) : option env :=
  match p with
  | PBind x => Some (upd rho x v)
  | PShape s xs =>
      match test S s v with
      | Some vs => Some (upds rho xs vs)
      | None => None
      end
  end.

Fixpoint bindps (ps : list pat) (vs : list (V S)) (rho : env) : option env :=
  match ps with
  | [] => Some rho
  | p :: ps =>
      let v := match vs with [] => undef S | v :: _ => v end in
      match bindp p v rho with
      | Some rho1 => bindps ps (tl vs) rho1
      | None => None
      end
  end.

(** Strict evaluation of a list of expressions from left to right. *)
Fixpoint den_list (ds : list (env -> M S)) (rho : env)
  (k : list (V S) -> M S) : M S :=
  match ds with
  | [] => k []
  | d :: ds => bind S (d rho) (fun v => den_list ds rho (fun vs => k (v :: vs)))
  end.

(** Arms are tried from top to bottom. *)
Fixpoint den_arms (arms : list (arm (env -> M S))) (v : V S) (rho : env)
  : M S :=
  match arms with
  | [] => failure S
  | mkArm p g b :: arms =>
      match bindp p v rho with
      | None => den_arms arms v rho
      | Some rho1 =>
          match g with
          | None => b rho1
          | Some g =>
              bind S (g rho1)
                (fun t => if truth S t then b rho1 else den_arms arms v rho)
          end
      end
  end.

(** Statements from first to last; [k] is what follows them. *)
Fixpoint den_stmts (ss : list (stmt (env -> M S))) (rho : env)
  (k : env -> M S) : M S :=
  match ss with
  | [] => k rho
  | SLet p d :: ss =>
      bind S (d rho)
        (fun v => match bindp p v rho with
                  | Some rho1 => den_stmts ss rho1 k
                  | None => failure S
                  end)
  | SExpr d :: ss => bind S (d rho) (fun _ => den_stmts ss rho k)
  end.

(** A handler arm as a function of the operation's arguments; a general
    operation passes the continuation as one more value. *)
Definition den_harm (h : harm (env -> M S)) (rho : env)
  : hlabel * (list (V S) -> M S) :=
  match h with
  | mkHarm (HDo p) b =>
      (LDo, fun vs => match bindps [p] vs rho with
                      | Some rho1 => b rho1
                      | None => failure S
                      end)
  | mkHarm (HFn a o ps) b =>
      (LFn a o, fun vs => match bindps ps vs rho with
                          | Some rho1 => b rho1
                          | None => failure S
                          end)
  | mkHarm (HOp a o ps k) b =>
      (LOp a o, fun vs =>
         match bindps (ps ++ match k with Some x => [PBind x] | None => [] end)
                      vs rho with
         | Some rho1 => b rho1
         | None => failure S
         end)
  end.

Fixpoint den (e : expr) (rho : env) {struct e} : M S :=
  match e with
  | EVar (RLocal x) => ret S (rho x)
  | EVar (RGlobal g) => ret S (global S g)
  | ELit l => ret S (literal S l)
  | ECall c args =>
      bind S (den c rho)
        (fun f => den_list (map den args) rho (fun vs => call S f vs))
  | ECons c args => den_list (map den args) rho (fun vs => construct S c vs)
  | ETuple args => den_list (map den args) rho (fun vs => tuple S vs)
  | EList args => den_list (map den args) rho (fun vs => mklist S vs)
  | ERecord ty spread fields =>
      let rest sp :=
        den_list (map (fun f => den (snd f)) fields) rho
          (fun vs => record S ty sp (combine (map fst fields) vs)) in
      match spread with
      | Some s => bind S (den s rho) (fun v => rest (Some v))
      | None => rest None
      end
  | EMethod r m args =>
      bind S (den r rho)
        (fun v => den_list (map den args) rho (fun vs => method S v m vs))
  | EBlock ss v => den_stmts (map (map_stmt den) ss) rho (den v)
  | ECase s arms =>
      bind S (den s rho) (fun v => den_arms (map (map_arm den) arms) v rho)
  | ELambda ps b =>
      ret S (lam S (length ps) (fun vs => den b (upds rho ps vs)))
  | EHandle b hs =>
      handle S (den b rho)
        (map (fun h => den_harm (map_harm den h) rho) hs)
  | EResume a k =>
      bind S (den a rho) (fun v => resume S (option_map rho k) v)
  | EBinOp BAnd l r =>
      bind S (den l rho)
        (fun v => if truth S v then den r rho else ret S (literal S (LBool false)))
  | EBinOp BOr l r =>
      bind S (den l rho)
        (fun v => if truth S v then ret S (literal S (LBool true)) else den r rho)
  | EError => failure S
  end.

(** *** Lawfulness *)

Definition resp1 (f f' : V S -> M S) : Prop :=
  forall v w, veq S v w -> ceq S (f v) (f' w).
Definition respl (f f' : list (V S) -> M S) : Prop :=
  forall vs ws, Forall2 (veq S) vs ws -> ceq S (f vs) (f' ws).
Inductive orel {A : Type} (R : A -> A -> Prop) : option A -> option A -> Prop :=
| orel_none : orel R None None
| orel_some a b : R a b -> orel R (Some a) (Some b).

Record lawful : Prop := mkLawful {
  veq_sym : forall a b, veq S a b -> veq S b a;
  veq_trans : forall a b c, veq S a b -> veq S b c -> veq S a c;
  ceq_sym : forall a b, ceq S a b -> ceq S b a;
  ceq_trans : forall a b c, ceq S a b -> ceq S b c -> ceq S a c;
  (* sequencing *)
  ret_ok : forall v w, veq S v w -> ceq S (ret S v) (ret S w);
  bind_ok : forall m m' f f', ceq S m m' -> resp1 f f' ->
    ceq S (bind S m f) (bind S m' f');
  bind_ret : forall v w f f', veq S v w -> resp1 f f' ->
    ceq S (bind S (ret S v) f) (f' w);
  bind_bind : forall m m' f f' g g', ceq S m m' -> resp1 f f' -> resp1 g g' ->
    ceq S (bind S (bind S m f) g) (bind S m' (fun v => bind S (f' v) g'));
  (* the constructs depend only on the meaning of their parts *)
  undef_ok : veq S (undef S) (undef S);
  literal_ok : forall l, veq S (literal S l) (literal S l);
  global_ok : forall g, veq S (global S g) (global S g);
  truth_ok : forall v w, veq S v w -> truth S v = truth S w;
  test_ok : forall s v w, veq S v w ->
    orel (Forall2 (veq S)) (test S s v) (test S s w);
  lam_ok : forall n f f', respl f f' -> veq S (lam S n f) (lam S n f');
  call_ok : forall v w vs ws, veq S v w -> Forall2 (veq S) vs ws ->
    ceq S (call S v vs) (call S w ws);
  construct_ok : forall c, respl (construct S c) (construct S c);
  tuple_ok : respl (tuple S) (tuple S);
  mklist_ok : respl (mklist S) (mklist S);
  record_ok : forall t s s' fs fs', orel (veq S) s s' ->
    Forall2 (fun f g => fst f = fst g /\ veq S (snd f) (snd g)) fs fs' ->
    ceq S (record S t s fs) (record S t s' fs');
  method_ok : forall v w m vs ws, veq S v w -> Forall2 (veq S) vs ws ->
    ceq S (method S v m vs) (method S w m ws);
  resume_ok : forall k k' v w, orel (veq S) k k' -> veq S v w ->
    ceq S (resume S k v) (resume S k' w);
  handle_ok : forall m m' hs hs', ceq S m m' ->
    Forall2 (fun h g => fst h = fst g /\ respl (snd h) (snd g)) hs hs' ->
    ceq S (handle S m hs) (handle S m' hs');
  (* a failure ends the computation *)
  failure_ok : ceq S (failure S) (failure S);
  bind_failure : forall f, resp1 f f ->
    ceq S (bind S (failure S) f) (failure S)
}.
End Den.

(** ** Binding structure *)

Definition pbinders (p : pat) : list N :=
  match p with PBind x => [x] | PShape _ xs => xs end.
Definition kbinders (k : hkind) : list N :=
  match k with
  | HDo p => pbinders p
  | HFn _ _ ps => flat_map pbinders ps
  | HOp _ _ ps k =>
      flat_map pbinders ps ++ match k with Some x => [x] | None => [] end
  end.

Definition sbinders (f : expr -> list N) (s : stmt expr) : list N :=
  match s with SLet p v => f v ++ pbinders p | SExpr v => f v end.
Definition abinders (f : expr -> list N) (a : arm expr) : list N :=
  match a with
  | mkArm p g b =>
      pbinders p ++ match g with Some g => f g | None => [] end ++ f b
  end.
Definition hbinders (f : expr -> list N) (h : harm expr) : list N :=
  match h with mkHarm k b => kbinders k ++ f b end.

(** Every local id bound anywhere in the expression. *)
Fixpoint binders (e : expr) : list N :=
  match e with
  | ECall c args => binders c ++ flat_map binders args
  | ECons _ args | ETuple args | EList args => flat_map binders args
  | ERecord _ s fs =>
      match s with Some s => binders s | None => [] end
      ++ flat_map (fun f => binders (snd f)) fs
  | EMethod r _ args => binders r ++ flat_map binders args
  | EBlock ss v => flat_map (sbinders binders) ss ++ binders v
  | ECase s arms => binders s ++ flat_map (abinders binders) arms
  | ELambda ps b => ps ++ binders b
  | EHandle b hs => binders b ++ flat_map (hbinders binders) hs
  | EResume a _ => binders a
  | EBinOp _ l r => binders l ++ binders r
  | EVar _ | ELit _ | EError => []
  end.

Definition fresh_in (xs G : list N) : Prop := forall x, In x xs -> ~ In x G.

Section All.
Context {A : Type} (P : A -> Prop).
Fixpoint all (l : list A) : Prop :=
  match l with [] => True | x :: l => P x /\ all l end.
End All.

(** [scoped G e]: every local variable is in [G] or bound around its use, and
    no binder reuses an id that is already in scope. *)
Fixpoint scoped (G : list N) (e : expr) {struct e} : Prop :=
  match e with
  | EVar (RLocal x) => In x G
  | EVar (RGlobal _) | ELit _ | EError => True
  | ECall c args => scoped G c /\ all (scoped G) args
  | ECons _ args | ETuple args | EList args => all (scoped G) args
  | ERecord _ s fs =>
      match s with Some s => scoped G s | None => True end
      /\ all (fun f => scoped G (snd f)) fs
  | EMethod r _ args => scoped G r /\ all (scoped G) args
  | EBlock ss v =>
      (fix go (ss : list (stmt expr)) (G : list N) : Prop :=
         match ss with
         | [] => scoped G v
         | SLet p w :: ss =>
             scoped G w /\ fresh_in (pbinders p) G /\ go ss (pbinders p ++ G)
         | SExpr w :: ss => scoped G w /\ go ss G
         end) ss G
  | ECase s arms =>
      scoped G s
      /\ all (fun a => match a with
                       | mkArm p g b =>
                           fresh_in (pbinders p) G
                           /\ match g with
                              | Some g => scoped (pbinders p ++ G) g
                              | None => True
                              end
                           /\ scoped (pbinders p ++ G) b
                       end) arms
  | ELambda ps b => fresh_in ps G /\ scoped (ps ++ G) b
  | EHandle b hs =>
      scoped G b
      /\ all (fun h => match h with
                       | mkHarm k b =>
                           fresh_in (kbinders k) G /\ scoped (kbinders k ++ G) b
                       end) hs
  | EResume a k =>
      scoped G a /\ match k with Some x => In x G | None => True end
  | EBinOp _ l r => scoped G l /\ scoped G r
  end.

(** What name resolution hands over: variables in scope, each binder with an
    id of its own, all ids below the first synthetic one. *)
Definition resolved_expr (G : list N) (n : N) (e : expr) : Prop :=
  scoped G e /\ NoDup (binders e)
  /\ (forall x, In x G -> x < n) /\ (forall x, In x (binders e) -> x < n).

(** ** Normal form *)

(** An atom: evaluating it does nothing but produce a value. *)
Inductive atomic : expr -> Prop :=
| atomic_var r : atomic (EVar r)
| atomic_lit l : atomic (ELit l)
| atomic_lam ps b : region b -> atomic (ELambda ps b)
(** One step of computation on atoms. *)
with step : expr -> Prop :=
| step_atom a : atomic a -> step a
| step_error : step EError
| step_call c args :
    atomic c -> (forall a, In a args -> atomic a) -> step (ECall c args)
| step_cons c args : (forall a, In a args -> atomic a) -> step (ECons c args)
| step_tuple args : (forall a, In a args -> atomic a) -> step (ETuple args)
| step_list args : (forall a, In a args -> atomic a) -> step (EList args)
| step_record t s fs :
    (forall a, s = Some a -> atomic a) ->
    (forall f a, In (f, a) fs -> atomic a) -> step (ERecord t s fs)
| step_method r m args :
    atomic r -> (forall a, In a args -> atomic a) -> step (EMethod r m args)
| step_case s arms :
    atomic s ->
    (forall p g b, In (mkArm p (Some g) b) arms -> region g) ->
    (forall p g b, In (mkArm p g b) arms -> region b) ->
    step (ECase s arms)
| step_handle b hs :
    region b ->
    (forall k b, In (mkHarm k b) hs -> region b) ->
    step (EHandle b hs)
| step_resume a k : atomic a -> step (EResume a k)
| step_binop op l r : atomic l -> region r -> step (EBinOp op l r)
(** A region of code: a straight line of steps, without nested blocks. *)
with region : expr -> Prop :=
| region_step e : step e -> region e
| region_block ss v :
    (forall p e, In (SLet p e) ss -> step e) ->
    (forall e, In (SExpr e) ss -> step e) ->
    step v -> region (EBlock ss v).

(** Number of expression nodes. *)
Definition total (l : list N) : N := fold_right N.add 0 l.
Fixpoint nodes (e : expr) : N :=
  1 + match e with
      | ECall c args => nodes c + total (map nodes args)
      | ECons _ args | ETuple args | EList args => total (map nodes args)
      | ERecord _ s fs =>
          match s with Some s => nodes s | None => 0 end
          + total (map (fun f => nodes (snd f)) fs)
      | EMethod r _ args => nodes r + total (map nodes args)
      | EBlock ss v =>
          total (map (fun s => match s with
                               | SLet _ w => nodes w
                               | SExpr w => nodes w
                               end) ss) + nodes v
      | ECase s arms =>
          nodes s
          + total (map (fun a => match a with
                                 | mkArm _ g b =>
                                     match g with Some g => nodes g | None => 0 end
                                     + nodes b
                                 end) arms)
      | ELambda _ b => nodes b
      | EHandle b hs =>
          nodes b
          + total (map (fun h => match h with mkHarm _ b => nodes b end) hs)
      | EResume a _ => nodes a
      | EBinOp _ l r => nodes l + nodes r
      | EVar _ | ELit _ | EError => 0
      end.
