(** C30: effect rows behave as finite sets of effects with a tail.  C46: effect diagnostics. *)
From Coq Require Import String Permutation List.
Open Scope string_scope. Open Scope list_scope.
Import ListNotations.
From Verif Require Import InternModel.
From Verif Require Import EffectRowProofs.

Definition io := mkAbility true "std::io::Io".
Definition state := mkAbility false "app::State".
Definition fail := mkAbility false "app::Fail".
Definition e_io : effect := (io, []).
Definition e_int : effect := (state, [TPrim PInt]).
Definition e_bool : effect := (state, [TPrim PBool]).

(** Membership compares the ability and its type arguments; lookup by name compares the last
    segment of the ability's qualified name and ignores the arguments. *)
Theorem row_membership_exact : forall r e,
  contains r e = true <-> member e r.
Proof. exact contains_ok. Qed.
Print Assumptions row_membership_exact.

Theorem row_name_lookup_exact : forall r n,
  (contains_by_name r n = true <-> exists e, member e r /\ ability_name (fst e) = n) /\
  (forall e, In e (find_by_name r n) <-> member e r /\ ability_name (fst e) = n).
Proof. exact by_name_ok. Qed.
Print Assumptions row_name_lookup_exact.

Example membership_demo :
  contains ([e_int], None) e_int = true /\ contains ([e_int], None) e_bool = false /\
  contains_by_name ([e_int; e_io], None) "State" = true /\ find_by_name ([e_int; e_io; e_bool], None) "State" = [e_int; e_bool].
Proof. repeat split. Qed.

(** Adding: the members become those of the set with [e], the tail is kept, no duplicate
    appears, and adding a member changes nothing. *)
Theorem row_add_is_set_insert : forall r e,
  (forall x, member x (add_effect r e) <-> x = e \/ member x r) /\
  snd (add_effect r e) = snd r /\ (distinct r -> distinct (add_effect r e)) /\
  (member e r -> add_effect r e = r).
Proof. exact add_effect_ok. Qed.
Print Assumptions row_add_is_set_insert.

(** Removing: it succeeds exactly when [e] is a member, takes away one occurrence and nothing
    else, keeps the tail, and for duplicate-free rows the members are those of the set
    without [e]. *)
Theorem row_remove_is_set_remove : forall r e,
  (remove_effect r e <> None <-> member e r) /\
  forall r', remove_effect r e = Some r' ->
    snd r' = snd r /\ Permutation (fst r) (e :: fst r') /\
    (distinct r -> distinct r' /\ forall x, member x r' <-> member x r /\ x <> e).
Proof. exact remove_effect_ok. Qed.
Print Assumptions row_remove_is_set_remove.

(** Without duplicate-freeness it is not set removal: the effect may still be a member. *)
Theorem row_remove_with_duplicates_refuted : exists r e r',
  remove_effect r e = Some r' /\ member e r'.
Proof. exists ([e_int; e_int], None), e_int, ([e_int], None). split; [reflexivity | left; reflexivity]. Qed.
Print Assumptions row_remove_with_duplicates_refuted.

(** Removal from a possibly open row: the three outcomes are exact. *)
Theorem row_removal_outcomes : forall r e fresh,
  match remove_with_constraint r e fresh with
  | Removed r' => member e r /\ remove_effect r e = Some r'
  | NeedsConstraint v e' rest => ~ member e r /\ snd r = Some v /\ e' = e /\ rest = fresh
  | NotFound => ~ member e r /\ closed r
  end.
Proof. exact remove_with_constraint_ok. Qed.
Print Assumptions row_removal_outcomes.

(** And the constraint it asks for has the intended meaning: once the tail is bound to the
    effect followed by the fresh remainder, the row contains the effect and its members and
    tail are those of the original with the effect added and the remainder as tail. *)
Theorem row_removal_constraint_sound : forall s r e v fresh e0,
  remove_with_constraint r e fresh = NeedsConstraint v e0 fresh ->
  rget s fresh = None -> v <> fresh ->
  let s' := minsert Nat.eqb s v ([e], Some fresh) in
  member e (rapply s' r) /\ snd (rapply s' r) = Some fresh /\
  forall x, member x (rapply s' r) <-> x = e \/ member x r.
Proof. exact constraint_semantics. Qed.
Print Assumptions row_removal_constraint_sound.

Example removal_constraint_demo :
  remove_with_constraint ([e_io], Some 4) e_int 9 = NeedsConstraint 4 e_int 9 /\
  rapply (minsert Nat.eqb [(5, ([], None))] 4 ([e_int], Some 9)) ([e_io], Some 4) = ([e_io; e_int], Some 9).
Proof. split; reflexivity. Qed.

(** Union: set union of the members, and the tail is closed exactly when both are, the open
    one when one is open, and fresh when both are. *)
Theorem row_union_is_set_union : forall r1 r2 fresh,
  (forall e, member e (union r1 r2 fresh) <-> member e r1 \/ member e r2) /\
  (distinct r1 -> distinct (union r1 r2 fresh)) /\
  (closed (union r1 r2 fresh) <-> closed r1 /\ closed r2) /\
  (closed r2 -> snd (union r1 r2 fresh) = snd r1) /\
  (closed r1 -> snd (union r1 r2 fresh) = snd r2) /\
  (~ closed r1 -> ~ closed r2 -> snd (union r1 r2 fresh) = Some fresh).
Proof. exact union_ok. Qed.
Print Assumptions row_union_is_set_union.

Example union_demo :
  union ([e_io; e_int], Some 1) ([e_bool; e_int], Some 2) 7 = ([e_io; e_int; e_bool], Some 7) /\
  distinct (union ([e_io; e_int], Some 1) ([e_bool; e_int], Some 2) 7).
Proof.
  split; [reflexivity|]. apply row_union_is_set_union. unfold distinct. cbn.
  constructor; [intros [H|[]]; discriminate|]. constructor; [intros []|constructor].
Qed.

(** Conflict detection is complete and reports every occurrence of the effect that repeats
    first. *)
Theorem conflicting_effects_exact : forall r,
  (find_conflicting_effects r = None <-> distinct r) /\
  forall a ds, find_conflicting_effects r = Some (a, ds) ->
    exists e i j, first_repetition (fst r) i j /\ nth_error (fst r) j = Some e /\ fst e = a /\
      ds = repeat e (count_occ effect_eq_dec (fst r) e) /\ 2 <= List.length ds.
Proof. exact conflicting_ok. Qed.
Print Assumptions conflicting_effects_exact.

Example conflicting_demo :
  find_conflicting_effects ([e_int; e_bool; e_io], Some 3) = None /\
  find_conflicting_effects ([e_io; e_int; e_int; e_io; e_int], None) = Some (state, [e_int; e_int; e_int]).
Proof. split; reflexivity. Qed.

(** Duplicate annotations: found exactly when the annotated part of the row repeats an effect,
    and the two reported source positions are those of the first repetition. *)
Theorem duplicate_annotation_exact : forall origins r,
  let annotated := firstn (List.length origins) (fst r) in
  (find_duplicate origins r = None <-> NoDup annotated) /\
  forall ds first dup, find_duplicate origins r = Some (ds, first, dup) ->
    exists e i j, first_repetition annotated i j /\ nth_error annotated j = Some e /\
      nth_error origins i = Some first /\ nth_error origins j = Some dup /\
      ds = repeat e (count_occ effect_eq_dec annotated e).
Proof. exact find_duplicate_ok. Qed.
Print Assumptions duplicate_annotation_exact.

Example duplicate_demo :
  find_duplicate [10; 11; 12; 13] ([e_io; e_int; e_int; e_io], None) = Some ([e_int; e_int], 11, 12) /\
  find_duplicate [10; 11] ([e_io; e_int; e_int; e_io], None) = None.
Proof. split; reflexivity. Qed.

(** Applying a row substitution, cyclic or not, always ends, and the result lists exactly the
    effects found by following tails, without introducing duplicates. *)
Theorem row_application_exact : forall s r,
  (forall e, member e (rapply s r) <-> stands_for (rget s) r e) /\
  (distinct r -> distinct (rapply s r)) /\
  (exists t, fst (rapply s r) = fst r ++ t).
Proof. exact rapply_ok. Qed.
Print Assumptions row_application_exact.

Theorem row_application_terminates : forall s r,
  exists r', rloop (S (List.length s)) s [] r = Some r'.
Proof. exact rloop_total. Qed.
Print Assumptions row_application_terminates.

Theorem row_application_tail : forall s r r',
  chain_end (rget s) r r' -> snd (rapply s r) = snd r'.
Proof. exact rapply_tail. Qed.
Print Assumptions row_application_tail.

Example row_application_demo :
  chain_end (rget [(1, ([e_int], Some 2)); (2, ([e_bool; e_io], Some 3))]) ([e_io], Some 1) ([e_bool; e_io], Some 3) /\
  rapply [(1, ([e_int], Some 2)); (2, ([e_bool; e_io], Some 3))] ([e_io], Some 1) = ([e_io; e_int; e_bool], Some 3) /\
  rapply [(1, ([e_int], Some 2)); (2, ([e_bool], Some 1))] ([], Some 1) = ([e_int; e_bool], Some 1).
Proof.
  split; [|split; reflexivity]. split.
  - eapply chain_next; [reflexivity|reflexivity|]. eapply chain_next; [reflexivity|reflexivity|]. constructor.
  - right. exists 3. split; reflexivity.
Qed.

(** The calling convention of a row is the least one that meets the requirement of every
    effect (an unknown ability requires the most general one), and an open row always gets
    the most general one. *)
Theorem row_convention_is_least : forall req r k,
  conv_rank (row_convention req r) <= conv_rank k <->
  (forall e, member e r -> exists c, (req (fst e) = Some c \/ (req (fst e) = None /\ c = Cps)) /\
                                     conv_rank c <= conv_rank k) /\
  (snd r <> None -> k = Cps).
Proof. exact row_convention_least. Qed.
Print Assumptions row_convention_is_least.

Example row_convention_demo :
  let req a := if ability_eqb a io then Some Direct else if ability_eqb a state then Some EvidenceDirect else None in
  row_convention req ([e_io; e_int], None) = EvidenceDirect /\
  row_convention req ([e_io; (fail, [])], None) = Cps /\ row_convention req ([], Some 1) = Cps /\
  row_convention req ([e_io], None) = Direct.
Proof. repeat split. Qed.

(** Undeclared effects: against a closed annotation, the reported effects are exactly those of
    the body whose *ability* the annotation does not list; an open annotation is never
    checked. *)
Theorem undeclared_abilities_reported : forall s d b,
  (closed (rapply s d) -> forall e, In e (undeclared_effects s d b) <->
     stands_for (rget s) b e /\ forall e', stands_for (rget s) d e' -> fst e' <> fst e) /\
  (~ closed (rapply s d) -> undeclared_effects s d b = []).
Proof. exact undeclared_ok. Qed.
Print Assumptions undeclared_abilities_reported.

Example undeclared_demo :
  undeclared_effects [(1, ([(fail, [])], None))] ([e_int], None) ([e_io; e_int], Some 1) = [e_io; (fail, [])].
Proof. reflexivity. Qed.

(** An effect of the body that the annotation does not contain can go unreported: the
    comparison ignores type arguments. *)
Theorem undeclared_effects_reported_refuted : exists s d b e,
  closed (rapply s d) /\ stands_for (rget s) b e /\ ~ stands_for (rget s) d e /\
  undeclared_effects s d b = [].
Proof.
  exists [], ([e_int], None), ([e_bool], None), e_bool. split; [reflexivity|].
  split; [exists ([e_bool], None); split; [constructor | left; reflexivity]|].
  split; [|reflexivity]. intros [r [C H]]. inversion C; subst; [|discriminate].
  destruct H as [H|[]]. discriminate.
Qed.
Print Assumptions undeclared_effects_reported_refuted.

(** The entry point may perform nothing but the built-in I/O ability. *)
Theorem entry_point_effects_reported : forall s b e,
  In e (main_unhandled s b) <-> stands_for (rget s) b e /\ ab_builtin (fst e) = false.
Proof. exact main_unhandled_ok. Qed.
Print Assumptions entry_point_effects_reported.

Example entry_point_demo : main_unhandled [(1, ([e_int], None))] ([e_io], Some 1) = [e_int].
Proof. reflexivity. Qed.
