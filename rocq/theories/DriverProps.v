(** Property C80: the rewrite engine works until nothing is left to do, finishes for
    patterns that make progress, and its conversions report what is not legal. *)
From Verif Require Import DriverSpec DriverProofs DriverUses.

(** When the engine says it reached a fixpoint, no pattern has anything left to do
    at any operation that it has to look at. *)
Theorem a_fixpoint_leaves_nothing_to_do : forall ps constrained legal recursive at_module max n r a,
  apply ps constrained legal recursive at_module max 0 0 n r = a -> reached_fixpoint a = true ->
  forall x, in_region (fun o => constrained && recursive o) (a_region a) x -> constrained = false \/ legal x <> Legal -> at_rest ps x.
Proof. exact (fun ps c lg rc am max n r a => apply_rest ps c lg rc am max 0 0 n r a). Qed.
Print Assumptions a_fixpoint_leaves_nothing_to_do.

(** Patterns that work off ranks finish within one iteration more than the highest
    rank, and leave operations of rank 0 only. *)
Lemma descends ps legal recursive at_module rank R max n r : descending ps legal recursive rank -> region_below recursive rank R r -> R < max ->
  let a := apply ps true legal recursive at_module max 0 0 n r in
  reached_fixpoint a = true /\ iterations a <= S R /\ (forall x, in_region recursive (a_region a) x -> rank (kind (op_data x)) = 0) /\
  ((forall o, rank (kind (op_data o)) = 0 -> legal o = Legal) -> convert ps true legal recursive at_module Full max n r = Some a).
Proof.
  intros D B L a. destruct (apply_descends ps true legal recursive at_module rank D eq_refl R max 0 0 n r a B L eq_refl) as [F I].
  pose proof (apply_done ps true legal recursive at_module rank D eq_refl max n r F) as Z.
  repeat split; auto. intros Lg. unfold convert. fold a.
  assert (Rl : forall o, recursive o = true -> failed legal Full o = false).
  { intros o K. cbn [failed]. rewrite (recursive_legal _ _ _ _ D o K). reflexivity. }
  rewrite (proj2 (verify_region legal recursive Full Rl (a_region a))); [reflexivity|].
  intros x S. cbn [failed]. rewrite (Lg x (Z x S)). reflexivity.
Qed.
Theorem patterns_that_make_progress_finish : forall ps legal recursive at_module rank R max n r,
  descending ps legal recursive rank -> region_below recursive rank R r -> R < max ->
  let a := apply ps true legal recursive at_module max 0 0 n r in
  reached_fixpoint a = true /\ iterations a <= S R /\ (forall x, in_region recursive (a_region a) x -> rank (kind (op_data x)) = 0) /\
  ((forall o, rank (kind (op_data o)) = 0 -> legal o = Legal) -> convert ps true legal recursive at_module Full max n r = Some a).
Proof. exact descends. Qed.
Print Assumptions patterns_that_make_progress_finish.

(** The same without a target, where no operation is legal or skipped. *)
Lemma descends_free ps legal recursive at_module rank R max n r :
  descending ps (fun _ => Unknown) (fun _ => false) rank -> region_below (fun _ => false) rank R r -> R < max ->
  let a := apply ps false legal recursive at_module max 0 0 n r in
  reached_fixpoint a = true /\ iterations a <= S R /\ (forall x, in_region (fun _ => false) (a_region a) x -> rank (kind (op_data x)) = 0).
Proof.
  intros D B L. cbv zeta. rewrite apply_free. destruct (descends ps (fun _ => Unknown) (fun _ => false) at_module rank R max n r D B L) as (A1 & A2 & A3 & _). auto.
Qed.
Theorem patterns_without_a_target_finish : forall ps legal recursive at_module rank R max n r,
  descending ps (fun _ => Unknown) (fun _ => false) rank -> region_below (fun _ => false) rank R r -> R < max ->
  let a := apply ps false legal recursive at_module max 0 0 n r in
  reached_fixpoint a = true /\ iterations a <= S R /\ (forall x, in_region (fun _ => false) (a_region a) x -> rank (kind (op_data x)) = 0).
Proof. exact descends_free. Qed.
Print Assumptions patterns_without_a_target_finish.

(** A conversion succeeds exactly when no operation is left that its mode rejects. *)
Lemma converts ps constrained legal recursive at_module md max n r a : (forall o, recursive o = true -> legal o = Legal) ->
  convert ps constrained legal recursive at_module md max n r = Some a <->
  apply ps constrained legal recursive at_module max 0 0 n r = a /\
  forall x, in_region recursive (a_region a) x -> match md with Full => legal x = Legal | Partial => legal x <> Illegal end.
Proof.
  intros Rl. unfold convert. set (a' := apply _ _ _ _ _ _ _ _ _ _).
  assert (V : flat_map (flat_map (verify legal recursive md)) (a_region a') = [] <->
    forall x, in_region recursive (a_region a') x -> match md with Full => legal x = Legal | Partial => legal x <> Illegal end).
  { rewrite verify_region.
    - split; intros H x S; specialize (H x S); destruct md; cbn [failed] in *; destruct (legal x); congruence.
    - intros o K. destruct md; cbn [failed]; rewrite (Rl o K); reflexivity. }
  destruct (flat_map _ _) as [|f fs].
  - split; [intros E; injection E as <-; split; [reflexivity|]; apply V; reflexivity|intros [-> _]; reflexivity].
  - split; [discriminate|]. intros [<- H]. apply V in H. discriminate.
Qed.
Theorem conversions_report_what_is_left : forall ps constrained legal recursive at_module md max n r a,
  (forall o, recursive o = true -> legal o = Legal) ->
  convert ps constrained legal recursive at_module md max n r = Some a <->
  apply ps constrained legal recursive at_module max 0 0 n r = a /\
  forall x, in_region recursive (a_region a) x -> match md with Full => legal x = Legal | Partial => legal x <> Illegal end.
Proof. exact converts. Qed.
Print Assumptions conversions_report_what_is_left.

(** Code that is legal already is not touched, whatever the patterns are. *)
Theorem legal_code_is_left_alone : forall ps legal recursive at_module max n r,
  (forall x, in_region recursive r x -> legal x = Legal) ->
  let a := apply ps true legal recursive at_module (S max) 0 0 n r in a_region a = r /\ iterations a = 1 /\ total_changes a = 0 /\ reached_fixpoint a = true.
Proof. exact apply_legal. Qed.
Print Assumptions legal_code_is_left_alone.

(** ** An instance: kind [k] becomes kind [k - 1], its nested code stays *)
Definition step : pattern :=
  {| p_match o := negb (kind (op_data o) =? 0);
     p_make n o := ({| prefix := []; erase_values := None; module_ops := [];
                       replacement := Some (Op {| kind := pred (kind (op_data o)); operands := operands (op_data o);
                                                  results := List.map (fun i => n + i) (List.seq 0 (List.length (results (op_data o)))) |} (op_regions o)) |},
                    n + List.length (results (op_data o))) |}.
Definition zero_legal (o : op) : legality := if kind (op_data o) =? 0 then Legal else Unknown.
Definition never (_ : op) : bool := false.
Lemma step_descends : descending [step] zero_legal never (fun k => k).
Proof.
  constructor.
  - reflexivity.
  - discriminate.
  - intros o. unfold zero_legal. destruct (Nat.eqb_spec (kind (op_data o)) 0); congruence.
  - intros p o [<-|[]] M. cbn in M. destruct (Nat.eqb_spec (kind (op_data o)) 0); [discriminate|assumption].
  - intros o N. exists step. split; [cbn; auto|]. cbn. destruct (Nat.eqb_spec (kind (op_data o)) 0); [congruence|reflexivity].
  - intros p n o [<-|[]] _. left. cbn. discriminate.
  - intros p n o R x [<-|[]] _ L Ch [[]|[E|[]]]. cbn [step p_make fst replacement] in E. injection E as <-.
    apply (below_eq never (fun k => k)). right. split; [cbn [kind]; lia|exact Ch].
Qed.

Example step_descends_free : descending [step] (fun _ => Unknown) (fun _ => false) (fun k => k).
Proof.
  destruct step_descends as [A B C D E F G]. constructor; auto; discriminate.
Qed.

(** Eleven steps are too many for the default limit: a partial conversion succeeds
    although a pattern still has work to do, and a full one fails on a program that
    more iterations convert. *)
Definition long : list (list op) := [[Op {| kind := 11; operands := []; results := [0] |} []; Op {| kind := 0; operands := [0]; results := [] |} []]].
Lemma cut_short : let c md max := convert [step] true zero_legal never true md max 1 long in
  (exists a x, c Partial max_iterations = Some a /\ reached_fixpoint a = false /\ in_region never (a_region a) x /\ ~ at_rest [step] x) /\
  c Full max_iterations = None /\ exists a, c Full 12 = Some a /\ reached_fixpoint a = true.
Proof.
  split; [|split].
  - eexists _, (Op {| kind := 1; operands := []; results := [10] |} []). split; [vm_compute; reflexivity|]. split; [reflexivity|]. split.
    + exists [Op {| kind := 1; operands := []; results := [10] |} []; Op {| kind := 0; operands := [10]; results := [] |} []], (Op {| kind := 1; operands := []; results := [10] |} []).
      cbn. split; [auto|]. split; [auto|]. constructor. reflexivity.
    + intros H. destruct (H step (or_introl eq_refl) eq_refl) as [n (_ & E & _)]. discriminate.
  - vm_compute. reflexivity.
  - eexists. split; [vm_compute; reflexivity|reflexivity].
Qed.
Theorem ten_iterations_are_enough_refuted : let c md max := convert [step] true zero_legal never true md max 1 long in
  (exists a x, c Partial max_iterations = Some a /\ reached_fixpoint a = false /\ in_region never (a_region a) x /\ ~ at_rest [step] x) /\
  c Full max_iterations = None /\ exists a, c Full 12 = Some a /\ reached_fixpoint a = true.
Proof. exact cut_short. Qed.
Print Assumptions ten_iterations_are_enough_refuted.

(** The hypotheses can be met: nested code of ranks 2 and 1. *)
Definition two : list (list op) :=
  [[Op {| kind := 1; operands := []; results := [0] |} [[[Op {| kind := 2; operands := [0]; results := [1; 2] |} []]]]; Op {| kind := 0; operands := [0]; results := [] |} []]].
Example two_below : region_below never (fun k => k) 2 two.
Proof. intros b o [<-|[]] [<-|[<-|[]]]; cbn; right; repeat split; auto; right; auto. Qed.
Example two_runs : let a := apply [step] true zero_legal never true max_iterations 0 0 3 two in
  (iterations a, total_changes a, reached_fixpoint a) = (3, 3, true) /\
  a_region a = [[Op {| kind := 0; operands := []; results := [5] |} [[[Op {| kind := 0; operands := [5]; results := [6; 7] |} []]]]; Op {| kind := 0; operands := [5]; results := [] |} []]].
Proof. vm_compute. auto. Qed.
Example two_converts : convert [step] true zero_legal never true Full max_iterations 3 two = Some (apply [step] true zero_legal never true max_iterations 0 0 3 two).
Proof. vm_compute. reflexivity. Qed.
(** A pattern that erases, one that only adds code before, and an operation that is
    legal with all it contains. *)
Definition eraser : pattern :=
  {| p_match o := kind (op_data o) =? 3;
     p_make n o := ({| prefix := [Op {| kind := 0; operands := []; results := [n] |} []]; replacement := None; erase_values := Some (operands (op_data o));
                       module_ops := [Op {| kind := 0; operands := operands (op_data o); results := [] |} []] |}, S n) |}.
Example erased : let prog := [[Op {| kind := 3; operands := [7]; results := [1] |} []; Op {| kind := 9; operands := [1]; results := [] |} [[[Op {| kind := 3; operands := [1]; results := [2] |} []]]]]] in
  a_region (apply [eraser] true zero_legal (fun o => kind (op_data o) =? 9) true max_iterations 0 0 20 prog) =
  [[Op {| kind := 0; operands := []; results := [20] |} []; Op {| kind := 9; operands := [7]; results := [] |} [[[Op {| kind := 3; operands := [7]; results := [2] |} []]]];
    Op {| kind := 0; operands := [7]; results := [] |} []]] /\
  a_region (apply [eraser] true zero_legal (fun o => kind (op_data o) =? 9) false max_iterations 0 0 20 prog) =
  [[Op {| kind := 0; operands := []; results := [20] |} []; Op {| kind := 9; operands := [7]; results := [] |} [[[Op {| kind := 3; operands := [7]; results := [2] |} []]]]]].
Proof. vm_compute. auto. Qed.

(** What a pattern records is put in: code before the operation, its replacement, and
    the operations for the module behind everything. *)
Theorem recorded_code_is_put_in : forall p constrained legal recursive at_module n d m n', p_match p (Op d []) = true -> p_make p n (Op d []) = (m, n') -> ~ no_change m ->
  constrained = false \/ (legal (Op d []) <> Legal /\ recursive (Op d []) = false) ->
  exists r, iteration [p] constrained legal recursive at_module n [[Op d []]] = (r, n', 1) /\
  List.map (List.map (fun o => kind (op_data o))) r =
    [List.map (fun o => kind (op_data o)) (prefix m) ++
     match replacement m, erase_values m with Some x, _ => [kind (op_data x)] | None, Some _ => [] | None, None => [kind d] end ++
     if at_module then List.map (fun o => kind (op_data o)) (module_ops m) else []].
Proof. exact one_put_in. Qed.
Print Assumptions recorded_code_is_put_in.
Example eraser_records : let d := {| kind := 3; operands := [7]; results := [1] |} in p_match eraser (Op d []) = true /\ ~ no_change (fst (p_make eraser 0 (Op d []))) /\ zero_legal (Op d []) <> Legal.
Proof. cbn. split; [reflexivity|]. split; [intros (E & _); discriminate|discriminate]. Qed.

(** ** Uses *)

(** With patterns that keep to what their operation knows, no use of a removed value
    is left, however often the engine goes round: every use is a value of the region
    or one from outside. *)
Theorem no_use_is_left_hanging : forall ps constrained legal recursive at_module outside max n r,
  (forall p, In p ps -> sound p /\ counts p) -> closed outside r -> values_below n r ->
  let a := apply ps constrained legal recursive at_module max 0 0 n r in closed outside (a_region a) /\ values_below (a_next a) (a_region a).
Proof. exact (fun ps c lg rc am X max n r S => apply_closed ps c lg rc am S X max 0 0 n r). Qed.
Print Assumptions no_use_is_left_hanging.

(** The pattern of the instance is such a pattern. *)
Example step_sound : sound step /\ counts step.
Proof.
  split.
  - intros n o m n' M E B. injection E as <- <-. cbn [step p_match] in M.
    assert (U : forall d rs, uses (Op d rs) = operands d ++ flat_map (flat_map (flat_map uses)) rs) by reflexivity.
    assert (D : forall d rs, defs (Op d rs) = results d ++ flat_map (flat_map (flat_map defs)) rs) by reflexivity.
    destruct o as [d rs]. cbn [op_data op_regions] in *.
    constructor; cbn [prefix replacement erase_values module_ops made flat_map app].
    + lia.
    + intros x u [[]|Ex] I. injection Ex as <-. rewrite U in I |- *. cbn [operands] in I. rewrite !in_app_iff in *. tauto.
    + intros x u [].
    + intros x u [[]|[Ex|[]]] I. injection Ex as <-. rewrite D in I. cbn [results] in I. apply in_app_iff in I as [I|I].
      * apply in_map_iff in I as (i & <- & I). apply in_seq in I. lia.
      * assert (u < n) by (apply B; rewrite D, !in_app_iff; auto). lia.
    + intros x Ex. injection Ex as <-. cbn [op_data results]. rewrite map_length, seq_length. split; [reflexivity|].
      intros v I J. apply in_map_iff in I as (i & <- & _). assert (n + i < n) by (apply B; rewrite D, !in_app_iff; auto). lia.
    + discriminate.
    + intros _ v I. cbn [nested op_regions] in I. unfold nested in I. cbn [op_regions] in I. unfold made. cbn [prefix replacement flat_map app].
      rewrite D. apply in_app_iff. auto.
  - intros n o. cbn. lia.
Qed.
Example two_closed : closed (fun _ => False) two /\ values_below 3 two.
Proof.
  split; intros b o u [<-|[]] [<-|[<-|[]]] I; cbn in I.
  - destruct I as [<-|[]]. right. exists (nth 0 two []), (nth 0 (nth 0 two []) (Op (Build_data 0 [] []) [])). cbn. auto.
  - destruct I as [<-|[]]. right. exists (nth 0 two []), (nth 0 (nth 0 two []) (Op (Build_data 0 [] []) [])). cbn. auto.
  - lia.
  - lia.
Qed.

(** The number of results is only checked in debug builds.  A pattern that gives
    fewer leaves uses of removed values behind. *)
Definition short : pattern :=
  {| p_match o := negb (kind (op_data o) =? 0);
     p_make n o := ({| prefix := []; erase_values := None; module_ops := []; replacement := Some (Op {| kind := 0; operands := []; results := [n] |} []) |}, S n) |}.
Lemma short_hangs : let r := [[Op {| kind := 1; operands := []; results := [0; 1] |} []; Op {| kind := 0; operands := [0; 1]; results := [] |} []]] in
  closed (fun _ => False) r /\ values_below 2 r /\ counts short /\
  let a := apply [short] true zero_legal never true max_iterations 0 0 2 r in
  reached_fixpoint a = true /\ convert [short] true zero_legal never true Full max_iterations 2 r = Some a /\ ~ closed (fun _ => False) (a_region a).
Proof.
  intros r. split; [|split; [|split; [|split; [|split]]]].
  - intros b o u [<-|[]] [<-|[<-|[]]] I; cbn in I; [destruct I|].
    right. exists (nth 0 r []), (nth 0 (nth 0 r []) (Op (Build_data 0 [] []) [])). cbn. intuition.
  - intros b o u [<-|[]] [<-|[<-|[]]] I; cbn in I; lia.
  - intros n o. cbn. lia.
  - vm_compute. reflexivity.
  - vm_compute. reflexivity.
  - intros C. vm_compute in C. destruct (C _ _ 1 (or_introl eq_refl) (or_intror (or_introl eq_refl)) (or_intror (or_introl eq_refl))) as [[]|(b & o & [<-|[]] & [<-|[<-|[]]] & I)]; cbn in I; intuition discriminate.
Qed.
Theorem too_few_results_leave_uses_hanging : let r := [[Op {| kind := 1; operands := []; results := [0; 1] |} []; Op {| kind := 0; operands := [0; 1]; results := [] |} []]] in
  closed (fun _ => False) r /\ values_below 2 r /\ counts short /\
  let a := apply [short] true zero_legal never true max_iterations 0 0 2 r in
  reached_fixpoint a = true /\ convert [short] true zero_legal never true Full max_iterations 2 r = Some a /\ ~ closed (fun _ => False) (a_region a).
Proof. exact short_hangs. Qed.
Print Assumptions too_few_results_leave_uses_hanging.
