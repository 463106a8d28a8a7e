From Verif Require Import RcLiveModel RcLiveSpec.
From Coq Require Import Lia.
Import ListNotations.

(** ** Liveness in terms of the analysis' own sets *)
(** [v] is used from operation [k] of block [b] on, before any new definition of [v], along some path
    through the function. *)
Inductive used_later (f : nfunc) (i : info) (v : nat) : nat -> nat -> Prop :=
| used_here b k o x :
    nth_error (b_ops (blk f b)) k = Some o -> In x (o_args o) -> In v (refers i x) -> used_later f i v b k
| used_after b k o :
    nth_error (b_ops (blk f b)) k = Some o -> ~ In v (op_defs f i o) ->
    used_later f i v b (S k) -> used_later f i v b k
| used_next b s :
    In s (successors (blk f b)) -> ~ In v (arg_defs f (blk f s)) ->
    used_later f i v s 0 -> used_later f i v b (List.length (b_ops (blk f b))).

Definition live_at_start (f : nfunc) (i : info) (v b : nat) : Prop :=
  ~ In v (arg_defs f (blk f b)) /\ used_later f i v b 0.
Definition live_at_end (f : nfunc) (i : info) (v b : nat) : Prop :=
  exists s, In s (successors (blk f b)) /\ live_at_start f i v s.


Lemma has_In v s : has v s = true <-> In v s.
Proof.
  unfold has. rewrite existsb_exists. split.
  - intros [x [H E]]. apply Nat.eqb_eq in E. subst. exact H.
  - intros H. exists v. split; [exact H | apply Nat.eqb_refl].
Qed.
Lemma has_false v s : has v s = false <-> ~ In v s.
Proof. rewrite <- has_In. destruct (has v s); split; congruence. Qed.
Lemma subset_incl s t : subset s t = true <-> incl s t.
Proof.
  unfold subset. rewrite forallb_forall. split; intros H v I; apply has_In || apply (proj1 (has_In _ _)); apply H, I.
Qed.
Lemma same_set_ok s t : same_set s t = true <-> (forall v, In v s <-> In v t).
Proof.
  unfold same_set. rewrite andb_true_iff, !subset_incl. split.
  - intros [A B] v. split; [apply A | apply B].
  - intros H. split; intros v I; apply H, I.
Qed.
Lemma In_dec_nat (v : nat) s : In v s \/ ~ In v s.
Proof. destruct (in_dec Nat.eq_dec v s); auto. Qed.

(** ** The use and definition sets of a block *)

Definition ops_from (f : nfunc) (b k : nat) : list nop := skipn k (b_ops (blk f b)).

Lemma use_def_gen f i ops : forall uses defs v,
  let (u, d) := fold_left (use_def_step f i) ops (uses, defs) in
  (In v d <-> In v defs \/ exists o, In o ops /\ In v (op_defs f i o)) /\
  (In v u <-> In v uses \/ exists k o x, nth_error ops k = Some o /\ In x (o_args o) /\ In v (refers i x) /\
     ~ In v defs /\ forall j p, j < k -> nth_error ops j = Some p -> ~ In v (op_defs f i p)).
Proof.
  induction ops as [|o ops IH]; intros uses defs v; cbn [fold_left].
  - split; (split; [intros H; left; exact H|]).
    + intros [H|[o [[] _]]]; exact H.
    + intros [H|[k [o [x [E _]]]]]; [exact H | destruct k; discriminate].
  - cbn [use_def_step]. specialize (IH (uses ++ filter (fun v => negb (has v defs)) (flat_map (refers i) (o_args o))) (defs ++ op_defs f i o) v).
    destruct (fold_left (use_def_step f i) ops _) as [u d]. destruct IH as [IHd IHu]. split.
    + rewrite IHd, in_app_iff. split.
      * intros [[H|H]|[p [H1 H2]]]; [left; exact H | right; exists o; split; [left; reflexivity | exact H] | right; exists p; split; [right|]; assumption].
      * intros [H|[p [[->|H1] H2]]]; [left; left; exact H | left; right; exact H2 | right; exists p; split; assumption].
    + rewrite IHu, in_app_iff, filter_In, negb_true_iff, has_false, in_flat_map. split.
      * intros [[H|[[x [X1 X2]] N]]|(k & p & x & E & X1 & X2 & N & J)].
        -- left; exact H.
        -- right. exists 0, o, x. split; [reflexivity|]. split; [exact X1|]. split; [exact X2|]. split; [exact N|]. intros j p L. lia.
        -- right. exists (S k), p, x. split; [exact E|]. split; [exact X1|]. split; [exact X2|]. rewrite in_app_iff in N.
           split; [tauto|]. intros [|j] q L Q; [injection Q as <-; tauto | apply (J j q); [lia | exact Q]].
      * intros [H|([|k] & p & x & E & X1 & X2 & N & J)].
        -- left; left; exact H.
        -- injection E as <-. left. right. split; [exists x; split; assumption | exact N].
        -- right. exists k, p, x. split; [exact E|]. split; [exact X1|]. split; [exact X2|]. split.
           ++ rewrite in_app_iff. intros [H|H]; [exact (N H)|]. exact (J 0 o ltac:(lia) eq_refl H).
           ++ intros j q L Q. apply (J (S j) q); [lia | exact Q].
Qed.

Definition uses_of f i b := fst (use_def f i (blk f b)).
Definition defs_of f i b := snd (use_def f i (blk f b)).

Lemma defs_ok f i b v : In v (defs_of f i b) <-> In v (arg_defs f (blk f b)) \/ exists o, In o (b_ops (blk f b)) /\ In v (op_defs f i o).
Proof.
  unfold defs_of, use_def. pose proof (use_def_gen f i (b_ops (blk f b)) [] (arg_defs f (blk f b)) v) as H.
  destruct (fold_left _ _ _) as [u d]. apply H.
Qed.
Lemma uses_ok f i b v : In v (uses_of f i b) <->
  exists k o x, nth_error (b_ops (blk f b)) k = Some o /\ In x (o_args o) /\ In v (refers i x) /\
     ~ In v (arg_defs f (blk f b)) /\ forall j p, j < k -> nth_error (b_ops (blk f b)) j = Some p -> ~ In v (op_defs f i p).
Proof.
  unfold uses_of, use_def. pose proof (use_def_gen f i (b_ops (blk f b)) [] (arg_defs f (blk f b)) v) as H.
  destruct (fold_left _ _ _) as [u d]. cbn [fst]. destruct H as [_ ->]. cbn [In]. tauto.
Qed.

Lemma used_back f i v b n : forall k, (forall j p, k <= j < k + n -> nth_error (b_ops (blk f b)) j = Some p -> ~ In v (op_defs f i p)) ->
  k + n <= List.length (b_ops (blk f b)) -> used_later f i v b (k + n) -> used_later f i v b k.
Proof.
  induction n as [|n IH]; intros k D L U; [rewrite Nat.add_0_r in U; exact U|].
  destruct (nth_error (b_ops (blk f b)) k) as [o|] eqn:E; [|apply nth_error_None in E; lia].
  apply (used_after f i v b k o E); [apply (D k o ltac:(lia) E)|].
  apply IH; [intros j p J; apply D; lia | lia | replace (S k + n) with (k + S n) by lia; exact U].
Qed.

(** Path liveness satisfies the dataflow equations. *)
Lemma live_start_eq f i v b : live_at_start f i v b <-> In v (uses_of f i b) \/ (live_at_end f i v b /\ ~ In v (defs_of f i b)).
Proof.
  split.
  - intros [N U]. rewrite uses_ok, defs_ok.
    assert (G : forall b' k, used_later f i v b' k -> b' = b -> (forall j p, j < k -> nth_error (b_ops (blk f b)) j = Some p -> ~ In v (op_defs f i p)) ->
      (exists k o x, nth_error (b_ops (blk f b)) k = Some o /\ In x (o_args o) /\ In v (refers i x) /\
         ~ In v (arg_defs f (blk f b)) /\ forall j p, j < k -> nth_error (b_ops (blk f b)) j = Some p -> ~ In v (op_defs f i p)) \/
      (live_at_end f i v b /\ ~ (In v (arg_defs f (blk f b)) \/ exists o, In o (b_ops (blk f b)) /\ In v (op_defs f i o)))).
    { clear U. induction 1 as [b' k o x E X1 X2 | b' k o E D U IH | b' s S A U _]; intros -> J.
      - left. exists k, o, x. repeat split; assumption.
      - apply IH; [reflexivity|]. intros j p L P. destruct (Nat.eq_dec j k) as [->|J']; [rewrite E in P; injection P as <-; exact D | apply (J j p); [lia | exact P]].
      - right. split; [exists s; split; [exact S | split; assumption]|].
        intros [H|[o [I D]]]; [exact (N H)|]. apply In_nth_error in I as [j E]. apply (J j o); [apply nth_error_Some; congruence | exact E | exact D]. }
    apply (G b 0 U eq_refl). intros j p L. lia.
  - rewrite uses_ok, defs_ok. intros [(k & o & x & E & X1 & X2 & N & J)|[[s [S [A U]]] N]].
    + split; [exact N|]. apply (used_back f i v b k 0); [intros j p L P; apply (J j p); [lia | exact P]| |exact (used_here f i v b k o x E X1 X2)].
      assert (k < List.length (b_ops (blk f b))) by (apply nth_error_Some; congruence). lia.
    + split; [tauto|]. apply (used_back f i v b (List.length (b_ops (blk f b))) 0); [|lia|exact (used_next f i v b s S A U)].
      intros j p _ P D. apply N. right. exists p. split; [eapply nth_error_In, P | exact D].
Qed.

(** ** The iteration *)

Definition step_in f i (l : live) b := fst (use_def f i (blk f b)) ++ filter (fun v => negb (has v (snd (use_def f i (blk f b))))) (flat_map (l_in l) (successors (blk f b))).
Definition step_out f (l : live) b := flat_map (l_in l) (successors (blk f b)).

Lemma step_in_In f i l b v : In v (step_in f i l b) <-> In v (uses_of f i b) \/ (In v (step_out f l b) /\ ~ In v (defs_of f i b)).
Proof. unfold step_in, step_out. rewrite in_app_iff, filter_In, negb_true_iff, has_false. reflexivity. Qed.

Lemma visit_eq f i l c b : visit f i (l, c) b =
  (mkLive (if negb (same_set (step_in f i l b) (l_in l b)) then put (l_in l) b (step_in f i l b) else l_in l)
          (if negb (same_set (step_out f l b) (l_out l b)) then put (l_out l) b (step_out f l b) else l_out l),
   c || negb (same_set (step_in f i l b) (l_in l b)) || negb (same_set (step_out f l b) (l_out l b))).
Proof. unfold visit, step_in, step_out. destruct (use_def f i (blk f b)) as [u d]. reflexivity. Qed.

Definition leq (l l' : live) : Prop := forall b v, (In v (l_in l b) -> In v (l_in l' b)) /\ (In v (l_out l b) -> In v (l_out l' b)).
(** Every set is justified by the present ones. *)
Definition justified f i (l : live) : Prop := forall b v,
  (In v (l_in l b) -> In v (step_in f i l b)) /\ (In v (l_out l b) -> In v (step_out f l b)).

Lemma leq_refl l : leq l l.
Proof. intros b v. split; auto. Qed.
Lemma leq_trans l1 l2 l3 : leq l1 l2 -> leq l2 l3 -> leq l1 l3.
Proof. intros A B b v. destruct (A b v), (B b v). split; auto. Qed.

Lemma step_out_mono f l l' b v : leq l l' -> In v (step_out f l b) -> In v (step_out f l' b).
Proof. intros H. unfold step_out. rewrite !in_flat_map. intros [s [S I]]. exists s. split; [exact S | apply H, I]. Qed.
Lemma step_in_mono f i l l' b v : leq l l' -> In v (step_in f i l b) -> In v (step_in f i l' b).
Proof.
  intros H. rewrite !step_in_In. intros [U|[O D]]; [left; exact U | right; split; [apply (step_out_mono f l l' b v H O) | exact D]].
Qed.

(** One visit, up to the membership of the sets. *)
Lemma visit_sets f i l c b x v :
  let l' := fst (visit f i (l, c) b) in
  (In v (l_in l' x) <-> if x =? b then In v (step_in f i l b) else In v (l_in l x)) /\
  (In v (l_out l' x) <-> if x =? b then In v (step_out f l b) else In v (l_out l x)).
Proof.
  rewrite visit_eq. cbn [fst l_in l_out]. split.
  - destruct (same_set (step_in f i l b) (l_in l b)) eqn:E; cbn [negb].
    + destruct (Nat.eqb_spec x b) as [->|_]; [|reflexivity]. rewrite same_set_ok in E. symmetry. apply E.
    + unfold put. destruct (x =? b); reflexivity.
  - destruct (same_set (step_out f l b) (l_out l b)) eqn:E; cbn [negb].
    + destruct (Nat.eqb_spec x b) as [->|_]; [|reflexivity]. rewrite same_set_ok in E. symmetry. apply E.
    + unfold put. destruct (x =? b); reflexivity.
Qed.

Lemma visit_grows f i l c b : justified f i l -> leq l (fst (visit f i (l, c) b)) /\ justified f i (fst (visit f i (l, c) b)).
Proof.
  intros J. assert (L : leq l (fst (visit f i (l, c) b))).
  { intros x v. destruct (visit_sets f i l c b x v) as [A B]. rewrite A, B. destruct (Nat.eqb_spec x b) as [->|_]; [apply J | split; auto]. }
  split; [exact L|]. intros x v. destruct (visit_sets f i l c b x v) as [A B]. rewrite A, B. destruct (Nat.eqb_spec x b) as [->|_].
  - split; [apply (step_in_mono f i _ _ b v L) | apply (step_out_mono f _ _ b v L)].
  - split; intros H; [apply (step_in_mono f i _ _ x v L), J, H | apply (step_out_mono f _ _ x v L), J, H].
Qed.

Lemma visits_grow f i bs : forall l c, justified f i l -> leq l (fst (fold_left (visit f i) bs (l, c))) /\ justified f i (fst (fold_left (visit f i) bs (l, c))).
Proof.
  induction bs as [|b bs IH]; intros l c J; [split; [apply leq_refl | exact J]|]. cbn [fold_left].
  destruct (visit f i (l, c) b) as [l1 c1] eqn:E. destruct (visit_grows f i l c b J) as [L1 J1]. rewrite E in L1, J1. cbn [fst] in *.
  destruct (IH l1 c1 J1) as [L2 J2]. split; [apply (leq_trans _ _ _ L1 L2) | exact J2].
Qed.

Lemma changed_mono f i bs : forall l c, c = true -> snd (fold_left (visit f i) bs (l, c)) = true.
Proof.
  induction bs as [|b bs IH]; intros l c ->; [reflexivity|]. cbn [fold_left]. rewrite visit_eq. apply IH. reflexivity.
Qed.

(** A round without a change leaves the state, and every visited block is in order. *)
Lemma quiet_round f i bs : forall l, snd (fold_left (visit f i) bs (l, false)) = false ->
  fst (fold_left (visit f i) bs (l, false)) = l /\
  Forall (fun b => forall v, (In v (l_in l b) <-> In v (step_in f i l b)) /\ (In v (l_out l b) <-> In v (step_out f l b))) bs.
Proof.
  induction bs as [|b bs IH]; intros l H; [split; [reflexivity | constructor]|]. cbn [fold_left] in *. rewrite visit_eq in *.
  destruct (same_set (step_in f i l b) (l_in l b)) eqn:E1; destruct (same_set (step_out f l b) (l_out l b)) eqn:E2; cbn [negb orb] in *;
    try (rewrite changed_mono in H by reflexivity; discriminate).
  destruct l as [li lo]. cbn [l_in l_out] in *. destruct (IH _ H) as [A B]. split; [exact A|]. constructor; [|exact B].
  intros v. rewrite same_set_ok in E1, E2. split; symmetry; [apply E1 | apply E2].
Qed.

(** ** Soundness and completeness *)

Definition sound f i (l : live) : Prop := forall b v,
  (In v (l_in l b) -> live_at_start f i v b) /\ (In v (l_out l b) -> live_at_end f i v b).

Lemma visit_sound f i l c b : sound f i l -> sound f i (fst (visit f i (l, c) b)).
Proof.
  intros S x v. destruct (visit_sets f i l c b x v) as [A B]. rewrite A, B. destruct (Nat.eqb_spec x b) as [->|_]; [|apply S].
  assert (O : In v (step_out f l b) -> live_at_end f i v b).
  { unfold step_out. rewrite in_flat_map. intros [s [Hs I]]. exists s. split; [exact Hs | apply S, I]. }
  split; [|exact O]. rewrite step_in_In, live_start_eq. intros [U|[U D]]; [left; exact U | right; split; [apply O, U | exact D]].
Qed.
Lemma visits_sound f i bs : forall l c, sound f i l -> sound f i (fst (fold_left (visit f i) bs (l, c))).
Proof.
  induction bs as [|b bs IH]; intros l c S; [exact S|]. cbn [fold_left]. destruct (visit f i (l, c) b) as [l1 c1] eqn:E.
  apply IH. pose proof (visit_sound f i l c b S) as H. rewrite E in H. exact H.
Qed.

Lemma blk_out f b : List.length (f_blocks f) <= b -> blk f b = mkNblock [] [].
Proof. apply nth_overflow. Qed.

(** Stable states contain everything that is live. *)
Lemma stable_complete f i l : (forall b, b < List.length (f_blocks f) -> forall v, In v (step_in f i l b) -> In v (l_in l b)) ->
  forall v b k, used_later f i v b k -> 
    (forall j p, j < k -> nth_error (b_ops (blk f b)) j = Some p -> ~ In v (op_defs f i p)) ->
    ~ In v (arg_defs f (blk f b)) -> In v (l_in l b).
Proof.
  intros ST v b k U. induction U as [b k o x E X1 X2 | b k o E D U IH | b s S A U IH]; intros J N.
  - apply ST.
    { destruct (Nat.lt_ge_cases b (List.length (f_blocks f))) as [L|L]; [exact L|]. rewrite (blk_out f b L) in E. destruct k; discriminate. }
    rewrite step_in_In, uses_ok. left. exists k, o, x. repeat split; assumption.
  - apply IH; [|exact N]. intros j p L P. destruct (Nat.eq_dec j k) as [->|J']; [rewrite E in P; injection P as <-; exact D | apply (J j p); [lia | exact P]].
  - apply ST.
    { destruct (Nat.lt_ge_cases b (List.length (f_blocks f))) as [L|L]; [exact L|]. rewrite (blk_out f b L) in S. destruct S. }
    rewrite step_in_In, defs_ok. right. split.
    + unfold step_out. rewrite in_flat_map. exists s. split; [exact S|]. apply IH; [intros j p L; lia | exact A].
    + intros [H|[o [I D]]]; [exact (N H)|]. apply In_nth_error in I as [j E]. apply (J j o); [apply nth_error_Some; congruence | exact E | exact D].
Qed.

(** ** Termination *)

Definition universe f i : list nat := nodup Nat.eq_dec (flat_map (uses_of f i) (seq 0 (List.length (f_blocks f)))).
Definition indicator (v : nat) (s : list nat) : nat := if has v s then 1 else 0.
Definition size f i (l : live) : nat :=
  list_sum (List.map (fun b => list_sum (List.map (fun v => indicator v (l_in l b) + indicator v (l_out l b)) (universe f i))) (seq 0 (List.length (f_blocks f)))).

Lemma sum_le {A} (g h : A -> nat) xs : (forall x, In x xs -> g x <= h x) -> list_sum (List.map g xs) <= list_sum (List.map h xs).
Proof.
  induction xs as [|x xs IH]; intros H; [apply le_n|]. cbn [List.map list_sum fold_right]. unfold list_sum in *.
  specialize (H x (or_introl eq_refl)) as Hx. specialize (IH (fun y I => H y (or_intror I))). cbn. lia.
Qed.
Lemma sum_lt {A} (g h : A -> nat) xs y : (forall x, In x xs -> g x <= h x) -> In y xs -> g y < h y -> list_sum (List.map g xs) < list_sum (List.map h xs).
Proof.
  induction xs as [|x xs IH]; intros H I L; [destruct I|].
  change (list_sum (List.map g (x :: xs))) with (g x + list_sum (List.map g xs)).
  change (list_sum (List.map h (x :: xs))) with (h x + list_sum (List.map h xs)).
  pose proof (H x (or_introl eq_refl)) as Hx. pose proof (sum_le g h xs (fun z J => H z (or_intror J))) as Hs.
  destruct I as [->|I]; [lia|]. specialize (IH (fun z J => H z (or_intror J)) I L). lia.
Qed.
Lemma indicator_le v s t : (In v s -> In v t) -> indicator v s <= indicator v t.
Proof.
  intros H. unfold indicator. destruct (has v s) eqn:E; [|lia]. apply has_In, H, has_In in E. rewrite E. lia.
Qed.
Lemma indicator_lt v s t : ~ In v s -> In v t -> indicator v s < indicator v t.
Proof. intros N I. unfold indicator. apply has_false in N. apply has_In in I. rewrite N, I. lia. Qed.

Definition within f i (l : live) : Prop := forall b v, In v (l_in l b) \/ In v (l_out l b) -> In v (universe f i).
Lemma uses_universe f i b v : In v (uses_of f i b) -> In v (universe f i).
Proof.
  intros H. unfold universe. apply nodup_In, in_flat_map. exists b. split; [|exact H]. apply in_seq.
  destruct (Nat.lt_ge_cases b (List.length (f_blocks f))) as [L|L]; [lia|].
  rewrite uses_ok, (blk_out f b L) in H. destruct H as (k & o & x & E & _). destruct k; discriminate.
Qed.
Lemma used_universe f i v b k : used_later f i v b k ->
  (forall j p, j < k -> nth_error (b_ops (blk f b)) j = Some p -> ~ In v (op_defs f i p)) -> ~ In v (arg_defs f (blk f b)) -> In v (universe f i).
Proof.
  induction 1 as [b k o x E X1 X2 | b k o E D U IH | b s S A U IH]; intros J N.
  - apply (uses_universe f i b). rewrite uses_ok. exists k, o, x. repeat split; assumption.
  - apply IH; [|exact N]. intros j p L P. destruct (Nat.eq_dec j k) as [->|J']; [rewrite E in P; injection P as <-; exact D | apply (J j p); [lia | exact P]].
  - apply IH; [intros j p L; lia | exact A].
Qed.
Lemma live_universe f i v b : live_at_start f i v b -> In v (universe f i).
Proof. intros [N U]. apply (used_universe f i v b 0 U); [intros j p L; lia | exact N]. Qed.
Lemma sound_within f i l : sound f i l -> within f i l.
Proof.
  intros S b v [H|H].
  - apply (live_universe f i v b), S, H.
  - apply S in H as [s [_ H]]. apply (live_universe f i v s H).
Qed.

Lemma size_mono f i l l' : leq l l' -> size f i l <= size f i l'.
Proof.
  intros H. apply sum_le. intros b _. apply sum_le. intros v _. destruct (H b v) as [A B].
  pose proof (indicator_le v _ _ A). pose proof (indicator_le v _ _ B). lia.
Qed.
Lemma size_grows f i l l' b v : leq l l' -> b < List.length (f_blocks f) -> In v (universe f i) ->
  (~ In v (l_in l b) /\ In v (l_in l' b)) \/ (~ In v (l_out l b) /\ In v (l_out l' b)) -> size f i l < size f i l'.
Proof.
  intros H B U D. apply (sum_lt _ _ _ b).
  - intros x _. apply sum_le. intros w _. destruct (H x w) as [X Y]. pose proof (indicator_le w _ _ X). pose proof (indicator_le w _ _ Y). lia.
  - apply in_seq. lia.
  - apply (sum_lt _ _ _ v); [|exact U|].
    + intros w _. destruct (H b w) as [X Y]. pose proof (indicator_le w _ _ X). pose proof (indicator_le w _ _ Y). lia.
    + destruct (H b v) as [X Y]. pose proof (indicator_le v _ _ X). pose proof (indicator_le v _ _ Y).
      destruct D as [[N I]|[N I]]; pose proof (indicator_lt v _ _ N I); lia.
Qed.

Lemma not_same s t : same_set s t = false -> (forall v, In v t -> In v s) -> exists v, ~ In v t /\ In v s.
Proof.
  intros H L. unfold same_set in H. rewrite andb_false_iff in H. destruct H as [H|H].
  - unfold subset in H. induction s as [|x s IH]; [discriminate|]. cbn [forallb] in H. apply andb_false_iff in H as [H|H].
    + exists x. split; [apply has_false, H | left; reflexivity].
    + assert (E : exists v, ~ In v t /\ In v s).
      { clear IH L. induction s as [|y s IH]; [discriminate|]. cbn [forallb] in H. apply andb_false_iff in H as [H|H].
        - exists y. split; [apply has_false, H | left; reflexivity].
        - destruct (IH H) as [v [N I]]. exists v. split; [exact N | right; exact I]. }
      destruct E as [v [N I]]. exists v. split; [exact N | right; exact I].
  - assert (subset t s = true) by (apply subset_incl; exact L). congruence.
Qed.

Lemma visit_changes f i l b : sound f i l -> justified f i l -> b < List.length (f_blocks f) ->
  snd (visit f i (l, false) b) = true -> size f i l < size f i (fst (visit f i (l, false) b)).
Proof.
  intros S J B C. destruct (visit_grows f i l false b J) as [L _].
  pose proof (sound_within f i _ (visit_sound f i l false b S)) as W.
  pose proof (visit_sets f i l false b b) as V. rewrite Nat.eqb_refl in V.
  rewrite visit_eq in C. cbn [snd orb] in C. apply orb_true_iff in C as [C|C]; apply negb_true_iff in C.
  - destruct (not_same _ _ C (fun v => proj1 (J b v))) as [v [N I]]. specialize (V v). cbv zeta in V. destruct V as [V1 V2].
    apply V1 in I. apply (size_grows f i _ _ b v L B); [apply (W b v); left; exact I | left; split; assumption].
  - destruct (not_same _ _ C (fun v => proj2 (J b v))) as [v [N I]]. specialize (V v). cbv zeta in V. destruct V as [V1 V2].
    apply V2 in I. apply (size_grows f i _ _ b v L B); [apply (W b v); right; exact I | right; split; assumption].
Qed.

Lemma round_changes f i bs : forall l, sound f i l -> justified f i l -> Forall (fun b => b < List.length (f_blocks f)) bs ->
  snd (fold_left (visit f i) bs (l, false)) = true -> size f i l < size f i (fst (fold_left (visit f i) bs (l, false))).
Proof.
  induction bs as [|b bs IH]; intros l S J F C; [discriminate|]. inversion F as [|? ? B F']; subst. cbn [fold_left] in *.
  destruct (visit f i (l, false) b) as [l1 c1] eqn:E.
  pose proof (visit_sound f i l false b S) as S1. destruct (visit_grows f i l false b J) as [L1 J1]. rewrite E in S1, L1, J1. cbn [fst] in *.
  destruct c1.
  - pose proof (visit_changes f i l b S J B) as V. rewrite E in V. cbn [fst snd] in V. specialize (V eq_refl).
    destruct (visits_grow f i bs l1 true J1) as [L2 _]. pose proof (size_mono f i _ _ L2). lia.
  - specialize (IH l1 S1 J1 F' C). pose proof (size_mono f i _ _ L1). lia.
Qed.

Lemma sum_const {A} (c : nat) (xs : list A) : list_sum (List.map (fun _ => c) xs) = c * List.length xs.
Proof. induction xs as [|x xs IH]; [cbn; lia|]. change (list_sum (List.map (fun _ => c) (x :: xs))) with (c + list_sum (List.map (fun _ => c) xs)). cbn [List.length]. lia. Qed.
Definition bound f i : nat := 2 * List.length (universe f i) * List.length (f_blocks f).
Lemma size_bound f i l : size f i l <= bound f i.
Proof.
  unfold size, bound. transitivity (list_sum (List.map (fun _ : nat => 2 * List.length (universe f i)) (seq 0 (List.length (f_blocks f))))).
  - apply sum_le. intros b _. rewrite <- sum_const. apply sum_le. intros v _. unfold indicator. destruct (has v (l_in l b)), (has v (l_out l b)); lia.
  - rewrite sum_const, seq_length. lia.
Qed.

Definition exact_liveness f i l : Prop := forall b, b < List.length (f_blocks f) -> forall v,
  (In v (l_in l b) <-> live_at_start f i v b) /\ (In v (l_out l b) <-> live_at_end f i v b).

Lemma blocks_bounded f : Forall (fun b => b < List.length (f_blocks f)) (rev (seq 0 (List.length (f_blocks f)))).
Proof. apply Forall_rev, Forall_forall. intros b H. apply in_seq in H. lia. Qed.

Lemma iterate_ok f i : forall fuel l, sound f i l -> justified f i l -> bound f i < fuel + size f i l ->
  exists l', iterate fuel f i l = Some l' /\ exact_liveness f i l'.
Proof.
  induction fuel as [|fuel IH]; intros l S J F.
  - pose proof (size_bound f i l). lia.
  - cbn [iterate]. unfold round. set (bs := rev (seq 0 (List.length (f_blocks f)))).
    destruct (fold_left (visit f i) bs (l, false)) as [l' c] eqn:E.
    pose proof (visits_sound f i bs l false S) as S'. destruct (visits_grow f i bs l false J) as [L' J'].
    rewrite E in S', L', J'. cbn [fst] in *. destruct c.
    + apply IH; [exact S' | exact J'|]. pose proof (round_changes f i bs l S J (blocks_bounded f)) as R. rewrite E in R. cbn [fst snd] in R. specialize (R eq_refl). lia.
    + exists l'. split; [reflexivity|]. pose proof (quiet_round f i bs l) as Q. rewrite E in Q. cbn [fst snd] in Q. destruct (Q eq_refl) as [-> QF].
      assert (ST : forall b, b < List.length (f_blocks f) -> forall v, (In v (l_in l b) <-> In v (step_in f i l b)) /\ (In v (l_out l b) <-> In v (step_out f l b))).
      { intros b B. rewrite Forall_forall in QF. apply QF. unfold bs. rewrite <- in_rev. apply in_seq. lia. }
      assert (CP : forall v b, live_at_start f i v b -> In v (l_in l b)).
      { intros v b [N U]. apply (stable_complete f i l (fun b' B' v' => proj2 (proj1 (ST b' B' v'))) v b 0 U); [intros j p K; lia | exact N]. }
      intros b B v. split; split.
      * apply S.
      * apply CP.
      * apply S.
      * intros [s [Hs I]]. apply ST; [exact B|]. unfold step_out. rewrite in_flat_map. exists s. split; [exact Hs | apply CP, I].
Qed.

Lemma liveness_ok f i fuel : bound f i < fuel -> exists l, compute_liveness fuel f i = Some l /\ exact_liveness f i l.
Proof.
  intros F. apply iterate_ok; [intros b v; split; intros [] | intros b v; split; intros [] | lia].
Qed.
Lemma liveness_exact f i fuel l : compute_liveness fuel f i = Some l -> exact_liveness f i l.
Proof.
  intros H. destruct (liveness_ok f i (fuel + S (bound f i)) ltac:(lia)) as [l' [E X]].
  assert (M : forall a b l0, iterate a f i l0 = Some l -> iterate (a + b) f i l0 = Some l).
  { induction a as [|a IH]; intros b l0 K; [discriminate|]. cbn [iterate Nat.add] in *. destruct (round f i l0) as [l1 [|]]; [apply IH, K | exact K]. }
  unfold compute_liveness in *. rewrite (M _ _ _ H) in E. injection E as <-. exact X.
Qed.

Lemma NoDup_app_disj {A} (l m : list A) : NoDup (l ++ m) -> forall x, In x l -> ~ In x m.
Proof.
  induction l as [|y l IH]; intros H x I J; [destruct I|]. cbn [app] in H. inversion H as [|? ? N H']; subst. destruct I as [->|I].
  - apply N, in_or_app. right. exact J.
  - exact (IH H' x I J).
Qed.
Lemma NoDup_app_r {A} (l m : list A) : NoDup (l ++ m) -> NoDup m.
Proof. induction l as [|y l IH]; intros H; [exact H|]. cbn [app] in H. inversion H. auto. Qed.

(** ** Aliases *)
Section Alias.
  Variable f : nfunc.
  Notation step := (alias_step f).

  Definition added (st : list (nat * nat) * list nat) (o : nop) : option (nat * nat) :=
    match o_kind o with
    | KCast => match o_args o with
               | x :: _ => match (if has x (snd st) then Some x else aget (fst st) x) with
                           | Some r => match o_results o with
                                       | y :: _ => if f_int f y then None else Some (y, r)
                                       | [] => None
                                       end
                           | None => None
                           end
               | [] => None
               end
    | _ => None
    end.
  Lemma step_added st o : step st o =
    match added st o with
    | Some (y, r) => ((y, r) :: fst st, filter (fun v => negb (v =? y)) (snd st))
    | None => st
    end.
  Proof.
    destruct st as [al ps]. unfold alias_step, added. cbn [fst snd]. destruct (o_kind o); try reflexivity. destruct (o_args o) as [|x xs]; [reflexivity|].
    destruct (if has x ps then Some x else aget al x); [|reflexivity]. destruct (o_results o) as [|y ys]; [reflexivity|]. destruct (f_int f y); reflexivity.
  Qed.
  Lemma added_inv st o y r : added st o = Some (y, r) ->
    o_kind o = KCast /\ (exists more, o_results o = y :: more) /\ f_int f y = false /\
    exists x rest, o_args o = x :: rest /\ ((In x (snd st) /\ r = x) \/ (~ In x (snd st) /\ aget (fst st) x = Some r)).
  Proof.
    unfold added. destruct (o_kind o); try discriminate. destruct (o_args o) as [|x xs]; [discriminate|].
    destruct (has x (snd st)) eqn:H.
    - destruct (o_results o) as [|y' ys]; [discriminate|]. destruct (f_int f y') eqn:I; [discriminate|]. intros E. injection E as <- <-.
      apply has_In in H. split; [reflexivity|]. split; [eexists; reflexivity|]. split; [exact I|]. exists x, xs. split; [reflexivity | left; split; [exact H | reflexivity]].
    - destruct (aget (fst st) x) as [r'|] eqn:A; [|discriminate]. destruct (o_results o) as [|y' ys]; [discriminate|]. destruct (f_int f y') eqn:I; [discriminate|].
      intros E. injection E as <- <-. apply has_false in H. split; [reflexivity|]. split; [eexists; reflexivity|]. split; [exact I|]. exists x, xs. split; [reflexivity | right; split; assumption].
  Qed.

  Lemma aget_cons y r m z : aget ((y, r) :: m) z = if y =? z then Some r else aget m z.
  Proof. unfold aget. cbn [find fst]. destruct (y =? z); reflexivity. Qed.

  Lemma step_keep st o z : ~ In z (o_results o) -> aget (fst (step st o)) z = aget (fst st) z.
  Proof.
    intros N. rewrite step_added. destruct (added st o) as [[y r]|] eqn:E; [|reflexivity]. cbn [fst]. rewrite aget_cons.
    destruct (Nat.eqb_spec y z) as [->|_]; [|reflexivity]. apply added_inv in E as (_ & [m R] & _). rewrite R in N. elim N. left. reflexivity.
  Qed.
  Lemma step_shrink st o v : In v (snd (step st o)) -> In v (snd st).
  Proof. rewrite step_added. destruct (added st o) as [[y r]|]; [|auto]. cbn [snd]. rewrite filter_In. tauto. Qed.
  Lemma step_stay st o v : ~ In v (o_results o) -> In v (snd st) -> In v (snd (step st o)).
  Proof.
    intros N I. rewrite step_added. destruct (added st o) as [[y r]|] eqn:E; [|exact I]. cbn [snd]. apply filter_In. split; [exact I|].
    apply negb_true_iff, Nat.eqb_neq. intros ->. apply added_inv in E as (_ & [m R] & _). rewrite R in N. apply N. left. reflexivity.
  Qed.
  Lemma fold_keep os : forall st z, ~ In z (flat_map o_results os) -> aget (fst (fold_left step os st)) z = aget (fst st) z.
  Proof.
    induction os as [|o os IH]; intros st z N; [reflexivity|]. cbn [fold_left flat_map] in *. rewrite in_app_iff in N.
    rewrite IH, step_keep; tauto.
  Qed.
  Lemma fold_shrink os : forall st v, In v (snd (fold_left step os st)) -> In v (snd st).
  Proof. induction os as [|o os IH]; intros st v I; [exact I|]. cbn [fold_left] in I. apply IH in I. apply (step_shrink st o v I). Qed.
  Lemma fold_stay os : forall st v, ~ In v (flat_map o_results os) -> In v (snd st) -> In v (snd (fold_left step os st)).
  Proof.
    induction os as [|o os IH]; intros st v N I; [exact I|]. cbn [fold_left flat_map] in *. rewrite in_app_iff in N. apply IH; [tauto|]. apply step_stay; tauto.
  Qed.
  Lemma fold_removed os : forall st, (forall y r, aget (fst st) y = Some r -> ~ In y (snd st)) ->
    forall y r, aget (fst (fold_left step os st)) y = Some r -> ~ In y (snd (fold_left step os st)).
  Proof.
    induction os as [|o os IH]; intros st H; [exact H|]. cbn [fold_left]. apply IH. intros y r. rewrite step_added.
    destruct (added st o) as [[y' r']|]; [|apply H]. cbn [fst snd]. rewrite aget_cons, filter_In, negb_true_iff, Nat.eqb_neq.
    destruct (Nat.eqb_spec y' y) as [->|N]; [tauto|]. intros A [I _]. exact (H y r A I).
  Qed.

  Hypothesis order : casts_in_order f.

  Lemma alias_sound post : forall pre st, f_ops f = pre ++ post ->
    (forall y r, aget (fst st) y = Some r -> cast_of f r y /\ In r (snd st) /\ ~ In r (flat_map o_results post)) ->
    forall y r, aget (fst (fold_left step post st)) y = Some r -> cast_of f r y /\ In r (snd (fold_left step post st)).
  Proof.
    induction post as [|o post IH]; intros pre st E H y r; [intros A; destruct (H y r A) as (? & ? & _); split; assumption|].
    cbn [fold_left]. apply (IH (pre ++ [o])); [rewrite E, <- app_assoc; reflexivity|]. clear y r.
    assert (OLD : forall y r, aget (fst st) y = Some r -> cast_of f r y /\ In r (snd (step st o)) /\ ~ In r (flat_map o_results post)).
    { intros y r A. destruct (H y r A) as (C & I & N). cbn [flat_map] in N. rewrite in_app_iff in N. split; [exact C|]. split; [apply step_stay; tauto | tauto]. }
    intros y r. pose proof (step_added st o) as SA. destruct (added st o) as [[y' r']|] eqn:AD; [|rewrite SA; rewrite SA in OLD; apply OLD].
    rewrite SA at 1. cbn [fst]. rewrite aget_cons. destruct (Nat.eqb_spec y' y) as [->|_]; [|apply OLD].
    intros Q. injection Q as <-. destruct (added_inv st o y r' AD) as (K & [m R] & NI & x & rest & AR & X).
    destruct order as [_ ORD]. pose proof (ORD pre o post x rest E K AR) as NX. cbn [flat_map] in NX. rewrite in_app_iff in NX.
    assert (IO : In o (f_ops f)) by (rewrite E; apply in_or_app; right; left; reflexivity).
    destruct X as [[IX ->]|[_ A]].
    - split; [exact (cast_step f x o x y rest m IO K AR R NI (cast_self f x))|]. split; [apply step_stay; tauto | tauto].
    - destruct (OLD x r' A) as (C & I & N). split; [exact (cast_step f r' o x y rest m IO K AR R NI C)|]. split; assumption.
  Qed.

  Lemma NoDup_split_results pre o post v : f_ops f = pre ++ o :: post -> In v (o_results o) -> ~ In v (flat_map o_results pre) /\ ~ In v (flat_map o_results post).
  Proof.
    intros E I. destruct order as [ND _]. rewrite E, flat_map_app in ND. cbn [flat_map] in ND. split; intros J.
    - apply (NoDup_app_disj _ _ ND v J). apply in_or_app. left. exact I.
    - apply NoDup_app_r in ND. exact (NoDup_app_disj _ _ ND v I J).
  Qed.

  Lemma alias_exact ptrs :
    let (al, ps) := build_alias_map f ptrs in
    (forall y r, aget al y = Some r <-> (In r ps /\ cast_of f r y /\ y <> r)) /\
    (forall v, In v ps <-> (In v ptrs /\ forall r, In r ps -> cast_of f r v -> r = v)).
  Proof.
    unfold build_alias_map. destruct (fold_left step (f_ops f) ([], ptrs)) as [al ps] eqn:FE.
    assert (REM : forall y r, aget al y = Some r -> ~ In y ps).
    { pose proof (fold_removed (f_ops f) ([], ptrs)) as H. rewrite FE in H. apply H. intros y r A. discriminate. }
    assert (SND : forall y r, aget al y = Some r -> cast_of f r y /\ In r ps).
    { pose proof (alias_sound (f_ops f) [] ([], ptrs) eq_refl) as H. rewrite FE in H. apply H. intros y r A. discriminate. }
    assert (CMP : forall r, In r ps -> forall y, cast_of f r y -> y <> r -> aget al y = Some r).
    { intros r IR y C. induction C as [|o x y rest m IO K AR R NI C IH]; intros NE; [congruence|].
      destruct (in_split _ _ IO) as [pre [post E]].
      assert (YO : In y (o_results o)) by (rewrite R; left; reflexivity).
      destruct (NoDup_split_results pre o post y E YO) as [_ NP].
      destruct order as [ND ORD]. pose proof (ORD pre o post x rest E K AR) as NX.
      rewrite E, fold_left_app in FE. cbn [fold_left] in FE. set (st := fold_left step pre ([], ptrs)) in *.
      pose proof (fold_keep post (step st o) y NP) as KY. rewrite FE in KY. cbn [fst] in KY. rewrite KY, step_added.
      assert (AD : added st o = Some (y, r)).
      { unfold added. rewrite K, AR, R, NI. destruct (Nat.eq_dec x r) as [->|XR].
        - assert (I : In r (snd st)). { apply (step_shrink st o), (fold_shrink post). rewrite FE. exact IR. }
          apply has_In in I. rewrite I. reflexivity.
        - specialize (IH XR). assert (KX : aget (fst st) x = Some r).
          { cbn [flat_map] in NX. rewrite in_app_iff in NX. rewrite <- (step_keep st o x) by tauto. rewrite <- (fold_keep post (step st o) x) by tauto. rewrite FE. exact IH. }
          assert (NI' : ~ In x (snd st)). { pose proof (fold_removed pre ([], ptrs)) as H. fold st in H. apply (H ltac:(intros ? ? A; discriminate) x r KX). }
          apply has_false in NI'. rewrite NI', KX. reflexivity. }
      rewrite AD. cbn [fst]. rewrite aget_cons, Nat.eqb_refl. reflexivity. }
    split.
    - intros y r. split.
      + intros A. destruct (SND y r A) as [C I]. split; [exact I|]. split; [exact C|]. intros ->. exact (REM r r A I).
      + intros (I & C & N). apply (CMP r I y C N).
    - intros v. split.
      + intros I. split.
        * pose proof (fold_shrink (f_ops f) ([], ptrs) v) as S. rewrite FE in S. apply S, I.
        * intros r IR C. destruct (Nat.eq_dec r v) as [E|NE]; [exact E|]. elim (REM v r (CMP r IR v C (not_eq_sym NE)) I).
      + intros [I H]. destruct (In_dec_nat v ps) as [Y|N]; [exact Y|]. exfalso.
        assert (A : exists r, aget al v = Some r).
        { clear -FE I N. assert (G : forall os st al ps, fold_left step os st = (al, ps) -> In v (snd st) -> ~ In v ps -> exists r, aget al v = Some r \/ False).
          2: { destruct (G _ _ _ _ FE I N) as [r [A|[]]]. exists r. exact A. }
          induction os as [|o os IH]; intros st al' ps' FE' I' N'; [cbn in FE'; subst st; cbn in I'; contradiction|]. cbn [fold_left] in FE'.
          destruct (In_dec_nat v (snd (step st o))) as [Y|NY]; [apply (IH _ _ _ FE' Y N')|].
          assert (A : exists r, aget (fst (step st o)) v = Some r).
          { rewrite step_added in NY |- *. destruct (added st o) as [[y r]|]; [|contradiction]. cbn [snd fst] in *. rewrite filter_In, negb_true_iff, Nat.eqb_neq in NY.
            exists r. rewrite aget_cons. destruct (Nat.eqb_spec y v); [reflexivity|]. elim NY. split; [exact I' | congruence]. }
          destruct A as [r A].
          assert (G : forall os st r, aget (fst st) v = Some r -> exists r', aget (fst (fold_left step os st)) v = Some r').
          { clear. induction os as [|o os IH]; intros st r A; [exists r; exact A|]. cbn [fold_left]. rewrite step_added. destruct (added st o) as [[y r']|]; [|apply (IH _ r A)].
            destruct (Nat.eq_dec y v) as [->|NE]; [apply (IH _ r') | apply (IH _ r)]; cbn [fst]; rewrite aget_cons.
            - rewrite Nat.eqb_refl. reflexivity.
            - destruct (Nat.eqb_spec y v); [contradiction | exact A]. }
          destruct (G os (step st o) r A) as [r' B]. rewrite FE' in B. exists r'. left. exact B. }
        destruct A as [r A]. destruct (SND v r A) as [C IR]. pose proof (H r IR C) as E. subst r. exact (REM v v A IR).
  Qed.
End Alias.

(** ** Owners *)
Lemma owners_sound deps : forall fuel vis v w, In w (owners fuel deps vis v) -> keeps deps v w.
Proof.
  induction fuel as [|fuel IH]; intros vis v w H; [destruct H|]. cbn [owners] in H. destruct (deps v) as [u|] eqn:E; [|destruct H].
  destruct (has u vis); [destruct H|]. destruct H as [->|H]; [apply keeps_one, E | apply (keeps_more deps v u w E), (IH _ _ _ H)].
Qed.

Lemma owners_complete deps U : (forall v w, deps v = Some w -> In w U) ->
  forall fuel vis v, NoDup vis -> incl vis U -> List.length U - List.length vis < fuel ->
  (forall u, In u vis -> u = v \/ (forall w, deps u = Some w -> In w vis)) ->
  forall w, keeps deps v w -> In w vis \/ In w (owners fuel deps vis v).
Proof.
  intros HU. induction fuel as [|fuel IH]; intros vis v ND IC F CL w K; [lia|]. cbn [owners].
  destruct (deps v) as [u|] eqn:E; [|inversion K; congruence]. destruct (has u vis) eqn:HV.
  - left. apply has_In in HV.
    assert (ALL : forall x, (x = v \/ In x vis) -> forall y, keeps deps x y -> In y vis).
    { intros x X y Y. induction Y as [x y D|x z y D _ IHY].
      - destruct (Nat.eq_dec x v) as [->|NE]; [congruence|]. destruct X as [->|X]; [congruence|]. destruct (CL x X) as [->|C]; [congruence | apply (C y D)].
      - apply IHY. right. destruct (Nat.eq_dec x v) as [->|NE]; [congruence|]. destruct X as [->|X]; [congruence|]. destruct (CL x X) as [->|C]; [congruence | apply (C z D)]. }
    apply (ALL v (or_introl eq_refl) w K).
  - apply has_false in HV. assert (KU : w = u \/ keeps deps u w) by (inversion K; subst; [left | right]; congruence || (replace u with u0 by congruence; assumption)).
    destruct KU as [->|KU]; [right; left; reflexivity|].
    assert (IU : In u U) by apply (HU v u E).
    assert (LT : List.length (u :: vis) <= List.length U).
    { apply NoDup_incl_length; [constructor; assumption|]. intros x [->|X]; [exact IU | apply IC, X]. }
    cbn [List.length] in LT.
    destruct (IH (u :: vis) u) with (w := w) as [[->|I]|I].
    + constructor; assumption.
    + intros x [->|X]; [exact IU | apply IC, X].
    + cbn [List.length]. lia.
    + intros x [->|X]; [left; reflexivity|]. right. intros y D. destruct (CL x X) as [->|C]; [left; congruence | right; apply (C y D)].
    + exact KU.
    + right. left. reflexivity.
    + left. exact I.
    + right. right. exact I.
Qed.

Lemma owners_exact deps U fuel v w : (forall x y, deps x = Some y -> In y U) -> List.length U < fuel ->
  (In w (owners fuel deps [] v) <-> keeps deps v w).
Proof.
  intros HU F. split; [apply owners_sound|]. intros K.
  destruct (owners_complete deps U HU fuel [] v (NoDup_nil _) ltac:(intros x []) ltac:(cbn; lia) ltac:(intros u []) w K) as [[]|I]. exact I.
Qed.
