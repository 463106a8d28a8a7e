(** C32, C33: the constraint solver. *)
From Coq Require Import String List.
From Verif Require Import UnifyModel UnifySpec UnifySound UnifyComplete UnifyFree UnifyFresh.
Open Scope string_scope.
Open Scope list_scope.
Import ListNotations.

(** * C32 *)

(** Solving first-order type equations ends.  Either it succeeds, and the substitution it
    leaves is a most general solution of all of them; or it reports an error, and they have
    no solution. *)
Theorem first_order_solving_decides : forall cs, first_order_constr (CAnd cs) ->
  exists N,
    (exists st' f, (forall n, N <= n -> solve n cs new_solver = (UOk tt, st')) /\
      (forall n v, N <= n -> tapply n (u_ts st') (u_rs st') (TUni v) = Some (f v)) /\ most_general f cs) \/
    (exists e st', (forall n, N <= n -> solve n cs new_solver = (UErr e, st')) /\ forall g, ~ satisfies g (CAnd cs)).
Proof. exact solve_from_scratch. Qed.
Print Assumptions first_order_solving_decides.

(** The same from any solver state without a cycle: the state afterwards is free of cycles
    again, even after an error, and its solutions are those of the state before that also
    solve the equations. *)
Theorem first_order_solving_keeps_the_solutions : forall st cs,
  acyclic (u_ts st) -> (forall v t, tget (u_ts st) v = Some t -> first_order t) ->
  first_order_constr (CAnd cs) ->
  exists o st' N, (forall n, N <= n -> solve n cs st = (o, st')) /\ o <> Out /\
    acyclic (u_ts st') /\ (forall v t, tget (u_ts st') v = Some t -> first_order t) /\
    u_rs st' = u_rs st /\
    (forall f, (o = UOk tt /\ solves_bindings f (u_ts st')) <-> (solves_bindings f (u_ts st) /\ satisfies f (CAnd cs))).
Proof. exact solve_first_order_ok. Qed.
Print Assumptions first_order_solving_keeps_the_solutions.

(** A state without a cycle stands for a substitution that solves its bindings. *)
Theorem acyclic_state_has_a_solution : forall ts, acyclic ts -> exists f N,
  (forall v n, N <= n -> tapply n ts [] (TUni v) = Some (f v)) /\ solves_bindings f ts.
Proof. exact resolved_solves. Qed.
Print Assumptions acyclic_state_has_a_solution.

Definition list_of (t : ty) : ty := TNamed (mkTyDef BuiltinList "List") "List" [t].
Definition fn (ps : list ty) (r : ty) : ty := TFunc ps r pure_row Cps.

(** List(?0) = ?1 and fn(?1) -> ?2 = fn(?3) -> ?3: solvable, first-order. *)
Definition sample : list constr :=
  [CType (list_of (TUni 0)) (TUni 1); CAnd [CType (fn [TUni 1] (TUni 2)) (fn [TUni 3] (TUni 3))]].
Example sample_first_order : first_order_constr (CAnd sample).
Proof. cbn. repeat split. Qed.
Example sample_solved :
  match solve 20 sample new_solver with
  | (UOk tt, st) => tapply 20 (u_ts st) (u_rs st) (TTuple [TUni 1; TUni 2; TUni 3]) =
                    Some (TTuple [list_of (TUni 0); list_of (TUni 0); list_of (TUni 0)])
  | _ => False
  end.
Proof. vm_compute. reflexivity. Qed.
(** ?0 = List(?1) and ?1 = List(?0) have no finite solution. *)
Example sample_rejected :
  match solve 20 [CType (TUni 0) (list_of (TUni 1)); CType (TUni 1) (list_of (TUni 0))] new_solver with
  | (UErr (EOccurs _ _), _) => True
  | _ => False
  end.
Proof. vm_compute. exact I. Qed.

(** * C33 *)

(** The solver accepts a set of constraints, of any types and rows.  If no effect list it
    looked into names an ability twice, and no row variable was bound twice, then every
    valuation of the variables that agrees with the final bindings agrees with the initial
    ones and satisfies all constraints -- in every semantics in which rows are sets, and for
    every notion of sameness that the type constructors respect, provided that it identifies
    [Never], error types and the pure row with anything if the solver did so. *)
Theorem solving_is_sound_partial : forall (S : semantics) (Q : sameness S) fuel cs st st',
  solve fuel cs st = (UOk tt, st') ->
  exists new, u_log st' = new ++ u_log st /\
    (Forall (fun e => ordinary e /\ (e = Coerced -> lenient S Q)) new ->
     forall th, solves S th st' -> solves S th st /\ holds S Q th (CAnd cs)).
Proof. exact solve_ok. Qed.
Print Assumptions solving_is_sound_partial.

Lemma rows_equal (S : semantics) fuel r1 r2 st st' : u_log st = [] ->
  solve fuel [CRow r1 r2] st = (UOk tt, st') -> Forall exact (u_log st') ->
  forall th, solves S th st' -> meaning_row S th r1 = meaning_row S th r2.
Proof.
  intros L0 E F th Hth. destruct (solve_ok S (equality S) fuel [CRow r1 r2] st st' E) as [new [L K]].
  rewrite L0, app_nil_r in L. rewrite L in F.
  destruct (K (Forall_impl _ (fun e X => conj (proj1 X) (fun C => False_ind _ (proj2 X C))) F) th Hth) as [_ [H _]].
  exact H.
Qed.

(** In particular two rows accepted without coercion are the same set of effects, whatever
    the remaining variables stand for. *)
Theorem row_unification_equates_rows_partial : forall (S : semantics) fuel r1 r2 st st', u_log st = [] ->
  solve fuel [CRow r1 r2] st = (UOk tt, st') -> Forall exact (u_log st') ->
  forall th, solves S th st' -> meaning_row S th r1 = meaning_row S th r2.
Proof. exact rows_equal. Qed.
Print Assumptions row_unification_equates_rows_partial.

(** Applying the final substitution to a type does not change its meaning. *)
Theorem applying_keeps_the_meaning : forall (S : semantics) th ts rs,
  (forall v t, tget ts v = Some t -> fst th v = meaning S th t) ->
  (forall v r, rget rs v = Some r -> snd th v = meaning_row S th r) ->
  forall fuel t r, tapply fuel ts rs t = Some r -> meaning S th r = meaning S th t.
Proof. exact tapply_meaning. Qed.
Print Assumptions applying_keeps_the_meaning.

(** [free] separates closed rows with different effects, so equality of meanings is
    equality of effect sets. *)
Theorem free_semantics_separates_rows : forall th es1 es2,
  meaning_row free th (es1, None) = meaning_row free th (es2, None) <->
  (forall a xs, (exists ys, In (a, ys) es1 /\ List.map (meaning free th) ys = xs) <->
                (exists ys, In (a, ys) es2 /\ List.map (meaning free th) ys = xs)).
Proof. exact free_closed_rows. Qed.
Print Assumptions free_semantics_separates_rows.

Definition State (t : ty) : effect := (mkAbility false "State", [t]).
Definition Ask : effect := (mkAbility false "Ask", []).
Definition Tick : effect := (mkAbility false "Tick", []).

(** {State(?0), Ask | 5} = {Tick, State(Int) | 6} is accepted with an exact log. *)
Example rows_accepted :
  match solve 20 [CRow ([State (TUni 0); Ask], Some 5) ([Tick; State (TPrim PInt)], Some 6)] new_solver with
  | (UOk tt, st) => Forall exact (u_log st) /\
      rapply (u_rs st) ([State (TUni 0); Ask], Some 5) = ([State (TUni 0); Ask; Tick], Some 7) /\
      rapply (u_rs st) ([Tick; State (TPrim PInt)], Some 6) = ([Tick; State (TPrim PInt); Ask], Some 7)
  | _ => False
  end.
Proof. vm_compute. repeat split; constructor. Qed.
(** Closed lists of the same length are compared. *)
Example rows_compared :
  match solve 20 [CRow ([State (TUni 0); Ask], None) ([Ask; State (TPrim PInt)], None)] new_solver with
  | (UOk tt, st) => Forall exact (u_log st) /\ u_log st <> []
  | _ => False
  end.
Proof.
  vm_compute. split; [|discriminate]. repeat constructor; try discriminate; cbn; intuition discriminate.
Qed.
Example some_semantics : meaning_row free (fun _ => xH, fun _ => s_empty free) ([State (TPrim PInt)], None) <>
                         meaning_row free (fun _ => xH, fun _ => s_empty free) ([State (TPrim PBool)], None).
Proof.
  intros H. pose proof (proj1 (free_closed_rows _ _ _) H (mkAbility false "State")) as K.
  destruct (proj1 (K _) (ex_intro _ [TPrim PInt] (conj (or_introl eq_refl) eq_refl))) as [ys [[E|[]] M]].
  injection E as <-. vm_compute in M. discriminate.
Qed.

(** Without the conditions the solver is unsound.  An ability listed twice:
    {State(?0), State(?1)} = {State(Int), State(Bool)} is accepted although under the
    resulting bindings the left row is {State(Int)}. *)
Theorem repeated_ability_unsound_refuted : exists fuel r1 r2 st',
  solve fuel [CRow r1 r2] new_solver = (UOk tt, st') /\
  forall th, solves free th st' -> meaning_row free th r1 <> meaning_row free th r2.
Proof.
  exists 20, ([State (TUni 0); State (TUni 1)], None), ([State (TPrim PInt); State (TPrim PBool)], None).
  eexists. split; [vm_compute; reflexivity|].
  intros th [T _] H. cbn [u_ts] in T.
  pose proof (proj1 (free_closed_rows _ _ _) H (mkAbility false "State")) as K.
  destruct (proj2 (K _) (ex_intro _ [TPrim PBool] (conj (or_intror (or_introl eq_refl)) eq_refl))) as [ys [[E|[E|[]]] M]];
    injection E as <-; cbn [List.map meaning] in M.
  - rewrite (T 0 (TPrim PInt) eq_refl) in M. vm_compute in M. discriminate.
  - rewrite (T 1 (TPrim PInt) eq_refl) in M. vm_compute in M. discriminate.
Qed.
Print Assumptions repeated_ability_unsound_refuted.

(** Row variables that the solver allocates are new.  If everything the solver knows mentions only row
    variables below its counter, so it is after solving, and the variables of the constraints are below it
    too: the next variable it takes occurs nowhere. *)
Theorem allocated_row_variables_are_new : forall fuel cs st r st',
  (forall v, mentions st v -> v < u_next st) -> solve fuel cs st = (r, st') ->
  (forall v, mentions st' v \/ mentions st v \/ In v (flat_map constr_tails cs) -> v < u_next st') /\ u_next st <= u_next st'.
Proof. exact solve_fresh. Qed.
Print Assumptions allocated_row_variables_are_new.
(** A new solver mentions nothing; after solving, it mentions the variable it took. *)
Example new_solver_clean : forall v, mentions new_solver v -> v < u_next new_solver.
Proof. intros v [w t E _|w r E _|r E]; discriminate E. Qed.
Example taken_variable_mentioned :
  let st := snd (solve 20 [CRow ([Ask], Some 5) ([Tick], Some 6)] new_solver) in mentions st 7 /\ u_next st = 8.
Proof. split; [|reflexivity]. apply (in_row _ 7 5 ([Tick], Some 7)); [reflexivity | cbn; auto]. Qed.

(** A row variable bound twice: unifying the arguments of [State] binds variable 1 to {Tick},
    after which it is bound to {Ask}. *)
Theorem row_variable_overwritten_refuted : exists fuel r1 r2 st',
  solve fuel [CRow r1 r2] new_solver = (UOk tt, st') /\
  forall th, solves free th st' -> meaning_row free th r1 <> meaning_row free th r2.
Proof.
  exists 20, ([State (TFunc [] (TPrim PInt) ([], Some 1) Cps)], Some 1),
             ([State (TFunc [] (TPrim PInt) ([Tick], None) Cps); Ask], None).
  eexists. split; [vm_compute; reflexivity|].
  intros th [_ R] H. cbn [u_rs] in R. pose proof (R 1 ([Ask], None) eq_refl) as R1.
  assert (X : meaning_row free th ([State (TFunc [] (TPrim PInt) ([Ask], None) Cps); Ask], None) =
              meaning_row free th ([State (TFunc [] (TPrim PInt) ([Tick], None) Cps); Ask], None)).
  { rewrite <- H. unfold meaning_row, meaning_effects, State. cbn [fst snd fold_right List.map meaning].
    rewrite R1. reflexivity. }
  pose proof (proj1 (free_closed_rows _ _ _) X (mkAbility false "State")) as K.
  destruct (proj1 (K _) (ex_intro _ [TFunc [] (TPrim PInt) ([Ask], None) Cps] (conj (or_introl eq_refl) eq_refl))) as [ys [[E|[E|[]]] M]].
  - injection E as <-. vm_compute in M. discriminate.
  - discriminate E.
Qed.
Print Assumptions row_variable_overwritten_refuted.

(** A cycle through an effect row escapes the occurs checks: the constraints
    {|0} = {State(?1)}, ?1 = List(?2), ?2 = fn() ->{|0} Int are all accepted, and afterwards
    applying the substitution to ?2 never ends. *)
Theorem cyclic_substitution_refuted : exists fuel cs st',
  solve fuel cs new_solver = (UOk tt, st') /\
  forall n, tapply n (u_ts st') (u_rs st') (TUni 2) = None.
Proof.
  exists 20, [CRow ([], Some 0) ([State (TUni 1)], None); CType (TUni 1) (list_of (TUni 2));
              CType (TUni 2) (TFunc [] (TPrim PInt) ([], Some 0) Cps)].
  eexists. split; [vm_compute; reflexivity|]. cbn [u_ts u_rs].
  intros n. enough (X : tapply n [(2, TFunc [] (TPrim PInt) ([], Some 0) Cps); (1, list_of (TUni 2))]
                          [(0, ([State (TUni 1)], None))] (TUni 2) = None) by exact X.
  set (ts := [(2, TFunc [] (TPrim PInt) ([], Some 0) Cps); (1, list_of (TUni 2))]).
  set (rs := [(0, ([State (TUni 1)], None))] : row_subst).
  induction n as [n IH] using lt_wf_ind.
  destruct n as [|n]; [reflexivity|].
  change (tapply (S n) ts rs (TUni 2)) with (tapply n ts rs (TFunc [] (TPrim PInt) ([], Some 0) Cps)).
  destruct n as [|[|[|n]]]; [reflexivity | reflexivity | reflexivity|].
  assert (H : tapply (S n) ts rs (list_of (TUni 2)) = None).
  { cbn [tapply list_of]. unfold otraverse. rewrite IH by lia. reflexivity. }
  change (tapply (S (S (S n))) ts rs (TFunc [] (TPrim PInt) ([], Some 0) Cps)) with
    (obind (omap_row (tapply (S (S n)) ts rs) ([State (TUni 1)], None))
           (fun e' => Some (TFunc [] (TPrim PInt) e' Cps))).
  unfold omap_row, State. cbn [fst snd otraverse]. unfold otraverse.
  change (tapply (S (S n)) ts rs (TUni 1)) with (tapply (S n) ts rs (list_of (TUni 2))). rewrite H. reflexivity.
Qed.
Print Assumptions cyclic_substitution_refuted.

(** A pure row is accepted against an open row with effects, and nothing is bound. *)
Theorem pure_row_accepted_refuted : exists fuel r1 r2 st',
  solve fuel [CRow r1 r2] new_solver = (UOk tt, st') /\
  forall th, meaning_row free th r1 <> meaning_row free th r2.
Proof.
  exists 5, ([], None), ([Ask], Some 0). eexists. split; [vm_compute; reflexivity|].
  intros th H. pose proof (proj2 (free_row th [Ask] (Some 0) (code_effect (fst Ask) []))) as K.
  specialize (K (or_introl (ex_intro _ (fst Ask) (ex_intro _ [] (conj (or_introl eq_refl) eq_refl))))).
  rewrite <- H in K. apply free_row in K as [[a [ys [[] _]]]|[v [E _]]]. discriminate.
Qed.
Print Assumptions pure_row_accepted_refuted.
