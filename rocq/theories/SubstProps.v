(** C31: instantiation and generalization substitute exactly the quantified variables. *)
From Coq Require Import String List.
From Verif Require Import SubstProofs.
Open Scope string_scope. Open Scope list_scope. Import ListNotations.

(** Substituting for the bound variables replaces variable [i] by the i-th argument everywhere
    and changes nothing else; it fails exactly when some occurring index has no argument, and
    then it names such an index. *)
Theorem bound_variables_replaced : forall s t,
  (Forall (fun i => i < List.length s) (bounds t) /\
   subst_bound s t = SOk (plug (fun i => nth i s TError) t)) \/
  (exists i, In i (bounds t) /\ List.length s <= i /\
     (subst_bound s t = SOut i (List.length s) \/ subst_bound s t = SPanic i (List.length s))).
Proof. exact subst_bound_exact. Qed.
Print Assumptions bound_variables_replaced.

(** An instance of a scheme is its body with the i-th parameter replaced by the i-th of a block
    of fresh type variables and the quantified row variables renamed apart to fresh ones; all
    the numbers used are at least the counter and above every row variable of the body, and the
    counter moves past them. *)
Theorem instance_is_fresh_renaming : forall sc next,
  Forall (fun i => i < sc_params sc) (bounds (sc_body sc)) ->
  exists base f t' next',
    instantiate sc next = (SOk t', next') /\
    next <= base /\ (forall v, In v (tails (sc_body sc)) -> v < base) /\
    t' = retail f (plug (fun i => TUni (solver_var (base + i))) (sc_body sc)) /\
    base + sc_params sc <= next' /\
    (forall v, ~ In v (sc_rows sc) -> f v = v) /\
    (forall v, In v (sc_rows sc) -> In v (tails (sc_body sc)) -> base + sc_params sc <= f v < next') /\
    (forall v w, In v (sc_rows sc) -> In w (sc_rows sc) -> In v (tails (sc_body sc)) -> In w (tails (sc_body sc)) ->
       f v = f w -> v = w).
Proof. exact instantiate_ok. Qed.
Print Assumptions instance_is_fresh_renaming.

(** The instance's type variables are distinct from each other and from the variables of the
    function being checked. *)
Lemma variables_apart : forall n m, solver_var n <> function_var m /\ (solver_var n = solver_var m -> n = m) /\
  (function_var n = function_var m -> n = m).
Proof. intros n m. unfold solver_var, function_var. lia. Qed.
Theorem instance_variables_are_apart : forall n m, solver_var n <> function_var m /\
  (solver_var n = solver_var m -> n = m) /\ (function_var n = function_var m -> n = m).
Proof. exact variables_apart. Qed.
Print Assumptions instance_variables_are_apart.

(** Generalizing abstracts exactly the unresolved variables that are not excluded, each once, in
    the order of their first occurrence in the resolved type. *)
Theorem generalization_abstracts_unresolved : forall fuel ts rs excluded t r,
  tapply fuel ts rs t = Some r ->
  let vs := filter (fun v => negb (existsb (Nat.eqb v) excluded)) (uniq (univars r)) in
  generalize_excluding fuel ts rs excluded t = Some (close_over vs r, List.length vs, number vs).
Proof. exact generalize_excluding_ok. Qed.
Print Assumptions generalization_abstracts_unresolved.

(** [uniq] keeps every element exactly once. *)
Theorem first_occurrences : forall l, NoDup (uniq l) /\ (forall x, In x (uniq l) <-> In x l).
Proof. exact (fun l => conj (uniq_NoDup l) (uniq_In l)). Qed.
Print Assumptions first_occurrences.

(** Instantiating a generalized type with the variables it abstracted gives back the type. *)
Theorem generalization_round_trip : forall vs r, bounds r = [] ->
  subst_bound (List.map TUni vs) (close_over vs r) = SOk r.
Proof. exact close_over_back. Qed.
Print Assumptions generalization_round_trip.

(** The variant without exclusions agrees when something is left unresolved ... *)
Theorem plain_generalization_partial : forall fuel ts rs t r,
  tapply fuel ts rs t = Some r -> univars r <> [] ->
  generalize fuel ts rs t =
    Some (close_over (uniq (univars r)) r, List.length (uniq (univars r)), number (uniq (univars r))).
Proof. exact generalize_ok. Qed.
Print Assumptions plain_generalization_partial.

(** ... but otherwise returns the type it was given instead of the resolved one. *)
Lemma generalize_unresolved : generalize 5 [(0, TPrim PInt)] [] (TUni 0) = Some (TUni 0, 0, []) /\
  tapply 5 [(0, TPrim PInt)] [] (TUni 0) = Some (TPrim PInt).
Proof. split; reflexivity. Qed.
Theorem plain_generalization_refuted : exists fuel ts rs t r,
  tapply fuel ts rs t = Some r /\ generalize fuel ts rs t = Some (t, 0, []) /\ t <> r.
Proof.
  exact (ex_intro _ 5 (ex_intro _ [(0, TPrim PInt)] (ex_intro _ [] (ex_intro _ (TUni 0) (ex_intro _ (TPrim PInt)
    (conj (proj2 generalize_unresolved) (conj (proj1 generalize_unresolved)
      (fun H : TUni 0 = TPrim PInt => eq_ind (TUni 0) (fun t => match t with TUni _ => True | _ => False end) I _ H)))))))).
Qed.
Print Assumptions plain_generalization_refuted.

(** A scheme with two type parameters and a quantified row: fn(b0, {e0|v7} fn() -> b1) -> b0. *)
Definition ab0 : ability := mkAbility false "State".
Definition ex_body : ty :=
  TFunc [TBound 0; TFunc [] (TBound 1) ([(ab0, [TBound 0])], Some 7) Direct] (TBound 0) ([], Some 7) Direct.
Example ex_instance :
  instantiate (mkScheme 2 [7] ex_body) 3 =
  (SOk (TFunc [TUni 17; TFunc [] (TUni 19) ([(ab0, [TUni 17])], Some 10) Direct] (TUni 17) ([], Some 10) Direct), 11).
Proof. reflexivity. Qed.
Example ex_out_of_range : subst_bound [TPrim PInt] ex_body = SOut 1 1.
Proof. reflexivity. Qed.
Definition ex_open : ty :=
  TFunc [TUni 4; TUni 2; TUni 4] (TUni 9) ([(ab0, [TUni 2; TUni 6])], None) Direct.
Example ex_resolved : tapply 5 [(9, TTuple [TUni 6; TUni 4])] [] ex_open =
  Some (TFunc [TUni 4; TUni 2; TUni 4] (TTuple [TUni 6; TUni 4]) ([(ab0, [TUni 2; TUni 6])], None) Direct).
Proof. reflexivity. Qed.
Example ex_generalized : generalize_excluding 5 [(9, TTuple [TUni 6; TUni 4])] [] [2] ex_open =
  Some (TFunc [TBound 0; TUni 2; TBound 0] (TTuple [TBound 1; TBound 0]) ([(ab0, [TUni 2; TBound 1])], None) Direct,
        2, [(4, 0); (6, 1)]).
Proof. reflexivity. Qed.
Example ex_round_trip : bounds (TFunc [TUni 4; TUni 2] (TUni 4) ([(ab0, [TUni 2])], None) Direct) = [].
Proof. reflexivity. Qed.
