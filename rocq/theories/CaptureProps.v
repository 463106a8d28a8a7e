(** Captures: theorems. *)
From Coq Require Import List NArith Bool Lia Permutation Sorted.
From Verif Require Import CaptureMain NormTree.
Import ListNotations.
Local Open Scope N_scope.

(** C70.  A lambda takes along exactly the variables of its surroundings that it uses, with their values, and the tag of
    the handler around it, if there is one. *)
Theorem lambda_captures_exact : forall (W : Type) (same : W -> W -> bool), (forall a b, same a b = true <-> a = b) ->
  forall ss owner ps b, scoped (ids W ss) (ELambda ps b) ->
  exactly ss (fun x => free x (ELambda ps b)) (optional owner) (lambda_captures W same ss owner ps b).
Proof. exact @lambda_exactly. Qed.
Print Assumptions lambda_captures_exact.

(** C70.  The rest of a computation after an effect, as a function of the variables [xs] bound to its result. *)
Theorem continuation_captures_exact : forall (W : Type) (same : W -> W -> bool), (forall a b, same a b = true <-> a = b) ->
  forall ss xs outer_k owner rest v, fresh_in xs (ids W ss) -> scoped (xs ++ ids W ss) (EBlock rest v) ->
  exactly ss (fun x => free x (EBlock rest v)) (outer_k :: optional owner) (continuation_captures W same ss outer_k owner rest v).
Proof. exact @continuation_exactly. Qed.
Print Assumptions continuation_captures_exact.

(** C70.  The body of a handler, its arms for operations, and its arms for fn operations. *)
Theorem handler_captures_exact : forall (W : Type) (same : W -> W -> bool), (forall a b, same a b = true <-> a = b) ->
  forall ss owner b hs, scoped (ids W ss) (EHandle b hs) ->
  exactly ss (fun x => free x b) (optional owner) (handle_body_captures W same ss owner b) /\
  exactly ss (fun x => exists h, In h hs /\ handles_operation h /\ free_in_arm x h) [] (dispatch_captures W ss hs) /\
  exactly ss (fun x => exists h, In h hs /\ handles_fn h /\ free_in_arm x h) [] (fn_dispatch_captures W ss hs).
Proof.
  intros W same H ss owner b hs Sc.
  exact (conj (handle_body_exactly same H ss owner b (proj1 Sc))
          (conj (arms_exactly ss b hs _ _ effect_arm_spec Sc) (arms_exactly ss b hs _ _ fn_arm_spec Sc))).
Qed.
Print Assumptions handler_captures_exact.

(** C70.  What follows the guard of an arm gets everything in scope, and nothing twice. *)
Theorem guard_captures_exact : forall (W : Type) (same : W -> W -> bool), (forall a b, same a b = true <-> a = b) ->
  forall ss scrutinee k owner, NoDup (guard_captures W same ss scrutinee k owner) /\
  forall v, In v (guard_captures W same ss scrutinee k owner) <->
    (exists x, In (x, v) (concat ss)) \/ v = scrutinee \/ v = k \/ owner = Some v.
Proof. exact @guard_exactly. Qed.
Print Assumptions guard_captures_exact.

(** C70.  Run with nothing but its captures, a lambda is the same value as with all variables in scope: [rho] has all
    variables of the scopes [ss], [rho'] the captured ones and anything for the others. *)
Theorem captures_are_enough : forall S, lawful S ->
  forall (same : V S -> V S -> bool) ss owner ps b rho rho', (forall a b, same a b = true <-> a = b) ->
  scoped (ids (V S) ss) (ELambda ps b) -> (forall x v, In (x, v) (concat ss) -> veq S v v) ->
  (forall x v, means (V S) ss x v -> rho x = v) ->
  (forall x v, In (x, v) (lambda_captures (V S) same ss owner ps b) -> means (V S) ss x v -> rho' x = v) ->
  ceq S (den S (ELambda ps b) rho) (den S (ELambda ps b) rho').
Proof. exact lambda_enough. Qed.
Print Assumptions captures_are_enough.

(** C70.  The same for the rest of a computation. *)
Theorem continuation_captures_are_enough : forall S, lawful S ->
  forall (same : V S -> V S -> bool) ss xs k owner rest v rho rho', (forall a b, same a b = true <-> a = b) ->
  fresh_in xs (ids (V S) ss) -> scoped (xs ++ ids (V S) ss) (EBlock rest v) -> (forall x v, In (x, v) (concat ss) -> veq S v v) ->
  (forall x, In x xs -> veq S (rho x) (rho' x)) ->
  (forall x v, means (V S) ss x v -> rho x = v) ->
  (forall x w, In (x, w) (continuation_captures (V S) same ss k owner rest v) -> means (V S) ss x w -> rho' x = w) ->
  ceq S (den S (EBlock rest v) rho) (den S (EBlock rest v) rho').
Proof. exact continuation_enough. Qed.
Print Assumptions continuation_captures_are_enough.

(** C70.  What an expression does depends on its free variables only. *)
Theorem only_free_variables_matter : forall S, lawful S -> forall e G rho rho', scoped G e ->
  (forall x, free x e -> In x G -> veq S (rho x) (rho' x)) -> ceq S (den S e rho) (den S e rho').
Proof. exact den_free. Qed.
Print Assumptions only_free_variables_matter.

(** C70.  Variables are captured in the order of their ids, and the order in which the hash maps are walked has no
    influence on any list of captures. *)
Theorem captures_are_ordered : forall (W : Type) ss ps b, NoDup (ids W ss) ->
  StronglySorted (fun c d : N * W => fst c < fst d) (analyze_captures W ss ps b).
Proof. intros W ss ps b. exact (all_bindings_sorted _ ss). Qed.
Print Assumptions captures_are_ordered.

Theorem captures_are_deterministic : forall (W : Type) (same : W -> W -> bool) ss ss', Forall2 (@Permutation (N * W)) ss ss' -> NoDup (ids W ss) ->
  (forall owner ps b, lambda_captures W same ss owner ps b = lambda_captures W same ss' owner ps b) /\
  (forall k owner rest v, continuation_captures W same ss k owner rest v = continuation_captures W same ss' k owner rest v) /\
  (forall owner b, handle_body_captures W same ss owner b = handle_body_captures W same ss' owner b) /\
  (forall hs, dispatch_captures W ss hs = dispatch_captures W ss' hs /\ fn_dispatch_captures W ss hs = fn_dispatch_captures W ss' hs) /\
  (forall s k owner, guard_captures W same ss s k owner = guard_captures W same ss' s k owner).
Proof.
  intros W same ss ss' P D. pose proof (all_bindings_perm ss ss' P D) as E.
  repeat split; intros; cbv beta delta [lambda_captures continuation_captures handle_body_captures dispatch_captures fn_dispatch_captures
    guard_captures analyze_captures analyze_continuation_captures]; rewrite E; reflexivity.
Qed.
Print Assumptions captures_are_deterministic.

(** C70.  A lookup finds the innermost binding; binding a variable changes no other one and keeps the keys of each
    scope distinct; leaving a scope restores what was there. *)
Theorem scopes_nest : forall (W : Type) (ss : list (list (N * W))), Forall (fun sc => NoDup (map fst sc)) ss ->
  (forall x v, lookup W ss x = Some v <-> means W ss x v) /\
  (forall x v, Forall (fun sc => NoDup (map fst sc)) (bind_local W ss x v)) /\
  (forall x v y w, ss <> [] -> means W (bind_local W ss x v) y w <-> (y = x /\ w = v) \/ (y <> x /\ means W ss y w)) /\
  (forall x v, exit_scope W (bind_local W (enter_scope W ss) x v) = ss).
Proof.
  intros W ss D. exact (conj (fun x v => lookup_means ss x v D) (conj (fun x v => bind_keys ss x v D)
    (conj (fun x v y w => bind_means ss x v y w) (fun x v => eq_refl)))).
Qed.
Print Assumptions scopes_nest.

(** ** An example *)

(** In scope: 1 (a function parameter), 2 and 3 (inner block); [fn(4) { let 5 = f(4, 2); fn(6) { 5 + 1 + 6 } }], with the
    handler tag 99. *)
Definition ex_scopes : list (list (N * N)) := [[(3, 30); (2, 20)]; [(1, 10)]].
Definition ex_body : expr :=
  EBlock [SLet (PBind 5) (ECall (EVar (RGlobal 7)) [EVar (RLocal 4); EVar (RLocal 2)])]
    (ELambda [6] (ETuple [EVar (RLocal 5); EVar (RLocal 1); EVar (RLocal 6)])).
Example ex_scoped : scoped (ids N ex_scopes) (ELambda [4] ex_body).
Proof.
  cbn. repeat split; auto 20; intros x [<-|[]] H; cbn in H; intuition discriminate.
Qed.
Example ex_captures : lambda_captures N N.eqb ex_scopes (Some 99) [4] ex_body = [(1, 10); (2, 20); (unresolved_id, 99)].
Proof. reflexivity. Qed.
Example ex_same : forall a b, N.eqb a b = true <-> a = b.
Proof. exact N.eqb_eq. Qed.
(** The inner lambda takes 1 and 5, not its own parameter. *)
Example ex_inner : lambda_captures N N.eqb ([(5, 50)] :: [(4, 40)] :: ex_scopes) None [6] (ETuple [EVar (RLocal 5); EVar (RLocal 1); EVar (RLocal 6)])
  = [(1, 10); (5, 50)].
Proof. reflexivity. Qed.
(** After [let 5 = perform ...], the rest is [fn(6) { ... }]. *)
Example ex_rest : continuation_captures N N.eqb ([(4, 40)] :: ex_scopes) 77 (Some 99) []
    (ELambda [6] (ETuple [EVar (RLocal 5); EVar (RLocal 1); EVar (RLocal 6)])) = [(1, 10); (unresolved_id, 77); (unresolved_id, 99)].
Proof. reflexivity. Qed.
Example ex_universe : lawful trees.
Proof. exact trees_lawful. Qed.
(** A handler: the do arm uses 3, the fn arm 1, the op arm 2 and its own continuation. *)
Definition ex_arms : list (harm expr) :=
  [mkHarm (HDo (PBind 8)) (EVar (RLocal 3)); mkHarm (HFn 0 1 []) (EVar (RLocal 1)); mkHarm (HOp 0 2 [] (Some 9)) (EResume (EVar (RLocal 2)) (Some 9))].
Example ex_handler : scoped (ids N ex_scopes) (EHandle (EVar (RLocal 2)) ex_arms) /\
  dispatch_captures N ex_scopes ex_arms = [(1, 10); (2, 20)] /\ fn_dispatch_captures N ex_scopes ex_arms = [(1, 10)].
Proof.
  split; [|split; reflexivity]. split; [cbn; auto|]. cbn. repeat split; auto 20; first [intros x [<-|[]] [H|[H|[H|[]]]]; discriminate | intros x []].
Qed.
Example ex_guard : guard_captures N N.eqb ex_scopes 20 88 (Some 99) = [10; 20; 30; 88; 99].
Proof. reflexivity. Qed.
