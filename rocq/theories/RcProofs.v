From Verif Require Import Base RcModel RcSpec.
Open Scope Z_scope.

(** * One counter *)
Lemma rc_run_owned ops : forall n, owned n ops ->
  rc_run n ops = (owners n ops, map (fun i =>
     match nth_error ops i with Some RcRelease => owners n (firstn (S i) ops) =? 0 | _ => false end)
     (seq 0 (length ops))).
Proof.
  induction ops as [|o ops IH]; intros n H; cbn [rc_run owned] in *; [reflexivity|].
  destruct H as [Hn Ho].
  assert (Hstep : rc_step n o = (owners_step n o, match o with RcRelease => owners_step n o =? 0 | _ => false end)).
  { destruct o; cbn [rc_step owners_step]; unfold u32_inc, u32_dec; f_equal.
    - cbn [owners_step] in Ho.
      assert (n + 1 < 2 ^ 32). { destruct ops; cbn [owned] in Ho; lia. }
      apply Z.mod_small. lia.
    - apply Z.mod_small. lia.
    - destruct (Z.eqb_spec n 1), (Z.eqb_spec (n - 1) 0); lia. }
  rewrite Hstep, (IH _ Ho). unfold owners. cbn [fold_left length seq map nth_error firstn].
  f_equal. f_equal.
  rewrite <- seq_shift, map_map. apply map_ext. intros i. cbn [nth_error firstn fold_left]. reflexivity.
Qed.

Lemma nth_error_map_seq {A} (f : nat -> A) n i : (i < n)%nat -> nth_error (map f (seq 0 n)) i = Some (f i).
Proof.
  intros H. rewrite nth_error_map. rewrite (nth_error_nth' _ 0%nat) by (rewrite seq_length; exact H).
  rewrite seq_nth by exact H. reflexivity.
Qed.

Lemma rc_exact_lemma ops : owned 1 ops ->
  fst (rc_run 1 ops) = owners 1 ops /\
  forall i o, nth_error ops i = Some o ->
    (nth_error (snd (rc_run 1 ops)) i = Some true <-> o = RcRelease /\ owners 1 (firstn (S i) ops) = 0).
Proof.
  intros H. rewrite (rc_run_owned ops 1 H). cbn [fst snd]. split; [reflexivity|].
  intros i o Ho. assert (Hi : (i < length ops)%nat) by (apply nth_error_Some; congruence).
  rewrite nth_error_map_seq by exact Hi. rewrite Ho. destruct o.
  - split; [discriminate | intros [? _]; discriminate].
  - destruct (Z.eqb_spec (owners 1 (firstn (S i) ops)) 0) as [E|E].
    + split; intros _; [split; [reflexivity | exact E] | reflexivity].
    + split; [discriminate | intros [_ ?]; contradiction].
Qed.

Lemma owned_app n ops o : owned n (ops ++ [o]) -> 0 < owners n ops /\ owned n ops.
Proof.
  revert n. induction ops as [|p ops IH]; intros n; cbn [app owned].
  - unfold owners; cbn. intros [[? ?] ?]. lia.
  - intros [Hn Ho]. destruct (IH _ Ho) as [H1 H2]. split; [exact H1 | split; assumption].
Qed.


Lemma owned_firstn ops : forall n i, owned n ops -> (i < length ops)%nat -> 0 < owners n (firstn i ops).
Proof.
  induction ops as [|p ops IH]; intros n i; cbn [length owned]; [lia|].
  intros [Hn Ho] Hi. destruct i as [|i]; [unfold owners; cbn; lia|].
  cbn [firstn]. unfold owners. cbn [fold_left]. apply (IH (owners_step n p) i Ho). lia.
Qed.

Lemma rc_free_last_lemma ops i o : owned 1 ops -> nth_error ops i = Some o ->
  nth_error (snd (rc_run 1 ops)) i = Some true -> length ops = S i.
Proof.
  intros H Ho Hf. destruct (rc_exact_lemma ops H) as [_ Hx]. apply (Hx i o Ho) in Hf. destruct Hf as [_ Hz].
  assert (Hi : (i < length ops)%nat) by (apply nth_error_Some; congruence).
  destruct (Nat.eq_dec (length ops) (S i)) as [E|E]; [exact E|].
  pose proof (owned_firstn ops 1 (S i) H ltac:(lia)). lia.
Qed.

(** Wrap-around. *)
Lemma rc_run_retains n : forall c, 0 <= c ->
  fst (rc_run c (repeat RcRetain n)) = (if Nat.eqb n 0 then c else (c + Z.of_nat n) mod 2 ^ 32).
Proof.
  induction n as [|n IH]; intros c Hc; [reflexivity|]. cbn [repeat rc_run rc_step].
  destruct (rc_run (u32_inc c) (repeat RcRetain n)) as [c2 fs] eqn:E.
  assert (Hi : 0 <= u32_inc c) by (unfold u32_inc; apply Z.mod_pos_bound; lia).
  specialize (IH (u32_inc c) Hi). rewrite E in IH. cbn [fst] in *. rewrite IH. cbn [Nat.eqb].
  destruct n as [|n]; cbn [Nat.eqb]; unfold u32_inc.
  - f_equal. 
  - rewrite Z.add_mod_idemp_l by lia. f_equal. lia.
Qed.

Lemma rc_run_app ops1 : forall c ops2, rc_run c (ops1 ++ ops2) =
  let '(c1, f1) := rc_run c ops1 in let '(c2, f2) := rc_run c1 ops2 in (c2, f1 ++ f2).
Proof.
  induction ops1 as [|o ops1 IH]; intros c ops2; cbn [app rc_run].
  - destruct (rc_run c ops2). reflexivity.
  - destruct (rc_step c o) as [c1 f]. rewrite IH. destruct (rc_run c1 ops1) as [c2 f1].
    destruct (rc_run c2 ops2) as [c3 f2]. reflexivity.
Qed.

Lemma rc_run_length ops : forall c, length (snd (rc_run c ops)) = length ops.
Proof.
  induction ops as [|o ops IH]; intros c; cbn [rc_run]; [reflexivity|].
  destruct (rc_step c o) as [c1 f]. specialize (IH c1). destruct (rc_run c1 ops). cbn in *. lia.
Qed.

Lemma owners_repeat n : forall m, owners m (repeat RcRetain n) = m + Z.of_nat n.
Proof.
  unfold owners. induction n as [|n IH]; intros m; cbn [repeat fold_left]; [lia|].
  rewrite IH. cbn [owners_step]. lia.
Qed.

Lemma rc_wrap_gen n : Z.of_nat n = 2 ^ 32 -> exists ops i,
  owners 1 ops = 2 ^ 32 /\ nth_error ops i = Some RcRelease /\
  nth_error (snd (rc_run 1 ops)) i = Some true.
Proof.
  intros Hn32. exists (repeat RcRetain n ++ [RcRelease]), n.
  assert (Hl : length (repeat RcRetain n) = n) by apply repeat_length.
  split; [|split].
  - unfold owners. rewrite fold_left_app. fold (owners 1 (repeat RcRetain n)).
    rewrite owners_repeat, Hn32. cbn [fold_left owners_step]. lia.
  - rewrite nth_error_app2 by (rewrite Hl; apply le_n). rewrite Hl, Nat.sub_diag. reflexivity.
  - rewrite rc_run_app.
    pose proof (rc_run_retains n 1 ltac:(lia)) as Hc.
    pose proof (rc_run_length (repeat RcRetain n) 1) as Hn.
    destruct (rc_run 1 (repeat RcRetain n)) as [c1 f1]. cbn [fst snd] in *.
    assert (Hc1 : c1 = 1).
    { rewrite Hc, Hn32. destruct (Nat.eqb_spec n 0) as [E|E]; reflexivity. }
    rewrite Hc1. cbn [rc_run rc_step Z.eqb Pos.eqb snd]. rewrite Hl in Hn.
    rewrite nth_error_app2 by (rewrite Hn; apply le_n). rewrite Hn, Nat.sub_diag. reflexivity.
Qed.

Lemma rc_wrap_lemma : exists ops i,
  owners 1 ops = 2 ^ 32 /\ nth_error ops i = Some RcRelease /\
  nth_error (snd (rc_run 1 ops)) i = Some true.
Proof. exact (rc_wrap_gen (Z.to_nat (2 ^ 32)) (Z2Nat.id (2 ^ 32) (Z.pow_nonneg 2 32 Z.le_0_2))). Qed.

(** * The object heap *)
Lemma upd_length {A} (l : list A) : forall i x, length (upd l i x) = length l.
Proof. induction l as [|y l IH]; intros [|i] x; cbn; auto. Qed.

Lemma upd_nth {A} (l : list A) : forall i x j, (i < length l)%nat ->
  nth_error (upd l i x) j = if Nat.eqb i j then Some x else nth_error l j.
Proof.
  induction l as [|y l IH]; intros i x j H; cbn [length] in H; [lia|].
  destruct i as [|i], j as [|j]; cbn [upd nth_error Nat.eqb]; try reflexivity. apply IH. lia.
Qed.

Definition contrib (a : nat) (o : obj) : Z := if 0 <? rc o then count_in a (fields o) else 0.
Fixpoint refs (h : list obj) (a : nat) : Z :=
  match h with [] => 0 | o :: h' => contrib a o + refs h' a end.

Lemma count_in_nonneg a fs : 0 <= count_in a fs.
Proof. unfold count_in. lia. Qed.

Lemma count_in_cons a f fs : count_in a (f :: fs) = (match f with Some b => if Nat.eqb a b then 1 else 0 | None => 0 end) + count_in a fs.
Proof. unfold count_in. cbn [filter]. destruct f as [b|]; [destruct (Nat.eqb a b)|]; cbn [length]; lia. Qed.

Lemma count_in_pos a fs : 0 < count_in a fs <-> In (Some a) fs.
Proof.
  induction fs as [|f fs IH]; [unfold count_in; cbn; lia|]. rewrite count_in_cons. cbn [In].
  pose proof (count_in_nonneg a fs). destruct f as [b|].
  - destruct (Nat.eqb_spec a b) as [E|E].
    + split; intros; [left; congruence | lia].
    + rewrite Z.add_0_l, IH. split; [auto | intros [H1|H1]; [congruence | exact H1]].
  - rewrite Z.add_0_l, IH. split; [auto | intros [H1|H1]; [discriminate | exact H1]].
Qed.

Lemma contrib_nonneg a o : 0 <= contrib a o.
Proof. unfold contrib. destruct (0 <? rc o); [apply count_in_nonneg | lia]. Qed.

Lemma refs_nonneg h a : 0 <= refs h a.
Proof. induction h as [|o h IH]; cbn [refs]; [lia|]. pose proof (contrib_nonneg a o). lia. Qed.

Lemma refs_app h1 h2 a : refs (h1 ++ h2) a = refs h1 a + refs h2 a.
Proof. induction h1 as [|o h1 IH]; cbn [app refs]; lia. Qed.

Lemma refs_upd h : forall i o o' a, nth_error h i = Some o ->
  refs (upd h i o') a = refs h a - contrib a o + contrib a o'.
Proof.
  induction h as [|y h IH]; intros [|i] o o' a H; cbn [nth_error upd refs] in *; try discriminate.
  - inv H. lia.
  - rewrite (IH i o o' a H). lia.
Qed.

Lemma refs_pos h a : 0 < refs h a -> exists b o, nth_error h b = Some o /\ 0 < rc o /\ In (Some a) (fields o).
Proof.
  induction h as [|y h IH]; cbn [refs]; [lia|]. intros H.
  destruct (Z.lt_ge_cases 0 (contrib a y)) as [Hc|Hc].
  - exists 0%nat, y. unfold contrib in Hc. destruct (Z.ltb_spec 0 (rc y)) as [Hr|Hr]; [|lia].
    split; [reflexivity|]. split; [exact Hr|]. apply count_in_pos. exact Hc.
  - destruct IH as (b & o & Hb); [lia|]. exists (S b), o. exact Hb.
Qed.

Lemma refs_ge_contrib h : forall b o a, nth_error h b = Some o -> contrib a o <= refs h a.
Proof.
  induction h as [|y h IH]; intros [|b] o a H; cbn [nth_error refs] in *; try discriminate.
  - inv H. pose proof (refs_nonneg h a). lia.
  - specialize (IH b o a H). pose proof (contrib_nonneg a y). lia.
Qed.

Record Inv (h : list obj) (R : nat -> Z) : Prop := {
  i_wf : forall b o a, nth_error h b = Some o -> In (Some a) (fields o) -> (a < b)%nat;
  i_typ : forall b o, nth_error h b = Some o -> typed o = false -> fields o = [];
  i_cnt : forall b o, nth_error h b = Some o -> rc o = R b + refs h b;
  i_bnd : forall b o, nth_error h b = Some o -> rc o < 2 ^ 32;
  i_pos : forall b, 0 <= R b;
  i_out : forall b, (length h <= b)%nat -> R b = 0;
  i_fr : forall b o, nth_error h b = Some o -> freed o = true -> rc o = 0;
  i_sz : forall b o, nth_error h b = Some o -> 0 < osize o }.

Lemma Inv_ext h R R' : (forall b, R b = R' b) -> Inv h R -> Inv h R'.
Proof.
  intros E H. destruct H. constructor; auto.
  - intros b o Hb. rewrite <- E. auto.
  - intros b. rewrite <- E. auto.
  - intros b Hb. rewrite <- E. auto.
Qed.

(** Heaps before and after releasing objects below [a]. *)
Definition ext (a : nat) (h h' : list obj) : Prop :=
  length h' = length h /\
  forall b o, nth_error h b = Some o -> exists o', nth_error h' b = Some o' /\
    fields o' = fields o /\ typed o' = typed o /\ osize o' = osize o /\
    rc o' <= rc o /\ (freed o = true -> freed o' = true) /\
    ((a <= b)%nat -> o' = o) /\
    (typed o = true -> 0 < rc o -> rc o' = 0 -> freed o' = true).

Lemma ext_refl a h : ext a h h.
Proof.
  split; [reflexivity|]. intros b o Hb. exists o. repeat split; auto; try lia.
Qed.

Lemma ext_trans a h1 h2 h3 : (forall b o, nth_error h3 b = Some o -> 0 <= rc o) ->
  (forall b o, nth_error h2 b = Some o -> 0 <= rc o) ->
  ext a h1 h2 -> ext a h2 h3 -> ext a h1 h3.
Proof.
  intros P3 P2 [L1 E1] [L2 E2]. split; [congruence|]. intros b o Hb.
  destruct (E1 b o Hb) as (o1 & Hb1 & F1 & T1 & S1 & R1 & Fr1 & Same1 & D1).
  destruct (E2 b o1 Hb1) as (o2 & Hb2 & F2 & T2 & S2 & R2 & Fr2 & Same2 & D2).
  exists o2. repeat split; try congruence; try lia.
  - auto.
  - intros H. rewrite (Same2 H). auto.
  - intros Ht Hr Hz. destruct (Z.lt_ge_cases 0 (rc o1)) as [Hp|Hp].
    + apply D2; congruence.
    + apply Fr2. apply D1; auto. pose proof (P2 b o1 Hb1). lia.
Qed.

Lemma ext_weaken a a' h h' : (a <= a')%nat -> ext a h h' -> ext a' h h'.
Proof.
  intros Hle [L E]. split; [exact L|]. intros b o Hb.
  destruct (E b o Hb) as (o1 & Hb1 & F1 & T1 & S1 & R1 & Fr1 & Same1 & D1).
  exists o1. repeat split; auto. intros H. apply Same1. lia.
Qed.

Lemma Inv_rc_nonneg h R b o : Inv h R -> nth_error h b = Some o -> 0 <= rc o.
Proof.
  intros H Hb. rewrite (i_cnt _ _ H b o Hb). pose proof (i_pos _ _ H b). pose proof (refs_nonneg h b). lia.
Qed.

Lemma count_in_le_0 fs a : ~ In (Some a) fs -> count_in a fs = 0.
Proof.
  intros H. pose proof (count_in_nonneg a fs). destruct (Z.eq_dec (count_in a fs) 0) as [E|E]; [exact E|].
  exfalso. apply H. apply count_in_pos. lia.
Qed.

(** A live object is accessible. *)
Lemma access_live h R a o : Inv h R -> nth_error h a = Some o -> 0 < rc o -> access h a = Some o.
Proof.
  intros H Ha Hr. unfold access. rewrite Ha. destruct (freed o) eqn:E; [|reflexivity].
  rewrite (i_fr _ _ H a o Ha E) in Hr. lia.
Qed.

(** Changing only an object's counter. *)
Lemma Inv_set_rc h R R' a o c : Inv h R -> nth_error h a = Some o ->
  0 <= c < 2 ^ 32 -> freed o = false ->
  (forall b, 0 <= R' b) -> (forall b, (length h <= b)%nat -> R' b = 0) ->
  (forall b, R' b = R b + (if Nat.eqb a b then c - rc o else 0) + contrib b o - contrib b (set_rc c o)) ->
  Inv (upd h a (set_rc c o)) R'.
Proof.
  intros H Ha Hc Hf Hp Ho HR.
  assert (Hl : (a < length h)%nat) by (apply nth_error_Some; congruence).
  constructor.
  - intros b o' x. rewrite upd_nth by exact Hl. destruct (Nat.eqb_spec a b) as [E|E].
    + intros Eo. inv Eo. cbn [fields set_rc]. apply (i_wf _ _ H); assumption.
    + apply (i_wf _ _ H).
  - intros b o'. rewrite upd_nth by exact Hl. destruct (Nat.eqb_spec a b) as [E|E].
    + intros Eo. inv Eo. cbn [fields typed set_rc]. eapply (i_typ _ _ H); eassumption.
    + apply (i_typ _ _ H).
  - intros b o'. rewrite upd_nth by exact Hl. rewrite (refs_upd h a o (set_rc c o) b Ha), HR.
    destruct (Nat.eqb_spec a b) as [E|E].
    + intros Eo. inv Eo. cbn [rc set_rc]. pose proof (i_cnt _ _ H b o Ha). lia.
    + intros Eb. rewrite (i_cnt _ _ H b o' Eb). lia.
  - intros b o'. rewrite upd_nth by exact Hl. destruct (Nat.eqb_spec a b) as [E|E].
    + intros Eo. inv Eo. cbn [rc set_rc]. lia.
    + apply (i_bnd _ _ H).
  - exact Hp.
  - intros b. rewrite upd_length. apply Ho.
  - intros b o'. rewrite upd_nth by exact Hl. destruct (Nat.eqb_spec a b) as [E|E].
    + intros Eo. inv Eo. cbn [freed set_rc]. congruence.
    + apply (i_fr _ _ H).
  - intros b o'. rewrite upd_nth by exact Hl. destruct (Nat.eqb_spec a b) as [E|E].
    + intros Eo. inv Eo. cbn [osize set_rc]. eapply (i_sz _ _ H); eassumption.
    + apply (i_sz _ _ H).
Qed.

Lemma Inv_set_freed h R a o : Inv h R -> nth_error h a = Some o -> rc o = 0 -> Inv (upd h a (set_freed o)) R.
Proof.
  intros H Ha Hz.
  assert (Hl : (a < length h)%nat) by (apply nth_error_Some; congruence).
  assert (Hrefs : forall b, refs (upd h a (set_freed o)) b = refs h b).
  { intros b. rewrite (refs_upd h a o _ b Ha). unfold contrib. cbn [rc fields set_freed]. lia. }
  constructor.
  - intros b o' x. rewrite upd_nth by exact Hl. destruct (Nat.eqb_spec a b) as [E|E].
    + intros Eo. inv Eo. cbn [fields set_freed]. apply (i_wf _ _ H); assumption.
    + apply (i_wf _ _ H).
  - intros b o'. rewrite upd_nth by exact Hl. destruct (Nat.eqb_spec a b) as [E|E].
    + intros Eo. inv Eo. cbn [fields typed set_freed]. eapply (i_typ _ _ H); eassumption.
    + apply (i_typ _ _ H).
  - intros b o'. rewrite upd_nth by exact Hl. rewrite Hrefs. destruct (Nat.eqb_spec a b) as [E|E].
    + intros Eo. inv Eo. cbn [rc set_freed]. apply (i_cnt _ _ H b o Ha).
    + apply (i_cnt _ _ H).
  - intros b o'. rewrite upd_nth by exact Hl. destruct (Nat.eqb_spec a b) as [E|E].
    + intros Eo. inv Eo. cbn [rc set_freed]. lia.
    + apply (i_bnd _ _ H).
  - apply (i_pos _ _ H).
  - intros b. rewrite upd_length. apply (i_out _ _ H).
  - intros b o'. rewrite upd_nth by exact Hl. destruct (Nat.eqb_spec a b) as [E|E].
    + intros Eo. inv Eo. cbn [rc set_freed]. auto.
    + apply (i_fr _ _ H).
  - intros b o'. rewrite upd_nth by exact Hl. destruct (Nat.eqb_spec a b) as [E|E].
    + intros Eo. inv Eo. cbn [osize set_freed]. eapply (i_sz _ _ H); eassumption.
    + apply (i_sz _ _ H).
Qed.

Definition release_good (fuel : nat) : Prop := forall h R a size o,
  Inv h (add_root R a 1) -> (forall b, 0 <= R b) -> (a < fuel)%nat -> nth_error h a = Some o ->
  size = 0 \/ size = osize o ->
  exists h', release fuel h (Some a) size = Ok h' /\ Inv h' R /\ ext (S a) h h'.

Lemma release_fields fuel : release_good fuel -> forall fs h R a,
  Inv h (fun b => R b + count_in b fs) -> (forall b, 0 <= R b) -> (a <= fuel)%nat -> (a <= length h)%nat ->
  (forall f, In (Some f) fs -> (f < a)%nat) ->
  exists h', fold_left (fun r f => bind r (fun h' => release fuel h' f 0)) fs (Ok h) = Ok h' /\
    Inv h' R /\ ext a h h'.
Proof.
  intros G. induction fs as [|f fs IH]; intros h R a H Hp Ha Hla Hf; cbn [fold_left].
  - exists h. split; [reflexivity|]. split; [|apply ext_refl].
    eapply Inv_ext; [|exact H]. intros b. unfold count_in. cbn. lia.
  - cbn [bind]. destruct f as [f|].
    + assert (Hfa : (f < a)%nat) by (apply Hf; left; reflexivity).
      destruct (nth_error h f) as [o|] eqn:Eo.
      2:{ apply nth_error_None in Eo. lia. }
      destruct (G h (fun b => R b + count_in b fs) f 0 o) as (h1 & E1 & I1 & X1).
      * eapply Inv_ext; [|exact H]. intros b. cbn beta. unfold add_root. rewrite count_in_cons.
        destruct (Nat.eqb_spec f b) as [E|E]; destruct (Nat.eqb_spec b f) as [E'|E']; try congruence; lia.
      * intros b. pose proof (Hp b). pose proof (count_in_nonneg b fs). lia.
      * lia.
      * exact Eo.
      * left. reflexivity.
      * rewrite E1. destruct (IH h1 R a I1 Hp Ha) as (h2 & E2 & I2 & X2).
        -- destruct X1 as [L1 _]. lia.
        -- intros g Hg. apply Hf. right. exact Hg.
        -- exists h2. split; [exact E2|]. split; [exact I2|].
           eapply ext_trans; [| |eapply ext_weaken; [|exact X1]; lia|exact X2].
           ++ intros b o' Hb. exact (Inv_rc_nonneg _ _ _ _ I2 Hb).
           ++ intros b o' Hb. exact (Inv_rc_nonneg _ _ _ _ I1 Hb).
    + replace (release fuel h None 0) with (Ok h) by (destruct fuel; reflexivity).
      apply (IH h R a H Hp Ha Hla). intros g Hg. apply Hf. right. exact Hg.
Qed.

Lemma release_all_good fuel : release_good fuel.
Proof.
  induction fuel as [|fuel IH]; intros h R a size o H Hp Hfuel Ha Hsz; [lia|].
  cbn [release].
  assert (Hl : (a < length h)%nat) by (apply nth_error_Some; congruence).
  pose proof (i_cnt _ _ H a o Ha) as Hcnt. unfold add_root in Hcnt. rewrite Nat.eqb_refl in Hcnt.
  pose proof (refs_nonneg h a) as Hrn. pose proof (Hp a) as Hpa. pose proof (i_bnd _ _ H a o Ha) as Hb32.
  assert (Hlive : 0 < rc o) by lia.
  rewrite (access_live _ _ _ _ H Ha Hlive).
  assert (Hfr : freed o = false).
  { destruct (freed o) eqn:E; [|reflexivity]. pose proof (i_fr _ _ H a o Ha E). lia. }
  assert (Hdec : u32_dec (rc o) = rc o - 1) by (unfold u32_dec; apply Z.mod_small; lia).
  rewrite Hdec.
  assert (Hout : forall b, (length h <= b)%nat -> R b = 0).
  { intros b Hb. pose proof (i_out _ _ H b Hb) as E. unfold add_root in E.
    destruct (Nat.eqb_spec a b); lia. }
  destruct (Z.eqb_spec (rc o) 1) as [E1|E1].
  - rewrite E1. cbn [Z.sub Z.add Z.opp Z.pos_sub Pos.compare Pos.compare_cont].
    change (1 - 1) with 0.
    assert (Hself : ~ In (Some a) (fields o)).
    { intros Hin. pose proof (i_wf _ _ H a o a Ha Hin). lia. }
    assert (I1 : Inv (upd h a (set_rc 0 o)) (fun b => R b + count_in b (fields o))).
    { apply (Inv_set_rc h (add_root R a 1) _ a o 0 H Ha); auto; try lia.
      - intros b. pose proof (Hp b). pose proof (count_in_nonneg b (fields o)). lia.
      - intros b Hb. rewrite (Hout b Hb). rewrite count_in_le_0; [reflexivity|].
        intros Hin. pose proof (i_wf _ _ H a o b Ha Hin). lia.
      - intros b. unfold add_root, contrib. cbn [rc set_rc fields].
        destruct (Z.ltb_spec 0 (rc o)); [|lia]. change (0 <? 0) with false. cbn iota.
        destruct (Nat.eqb_spec a b); lia. }
    destruct (typed o) eqn:Et.
    + destruct (release_fields fuel IH (fields o) _ R a I1 Hp) as (h2 & E2 & I2 & X2).
      * lia.
      * rewrite upd_length. lia.
      * intros f Hf. eapply (i_wf _ _ H); eassumption.
      * rewrite E2. cbn [bind]. unfold dealloc, access.
        destruct X2 as [L2 X2].
        destruct (X2 a (set_rc 0 o)) as (o2 & Ho2 & F2 & T2 & S2 & R2 & Fr2 & Same2 & D2).
        { rewrite upd_nth by exact Hl. rewrite Nat.eqb_refl. reflexivity. }
        rewrite (Same2 ltac:(lia)) in *. rewrite Ho2. cbn [freed set_rc osize]. rewrite Hfr.
        pose proof (i_sz _ _ H a o Ha) as Hs.
        destruct (Z.eqb_spec (osize o) 0) as [Ez|_]; [lia|].
        rewrite Z.eqb_refl.
        exists (upd h2 a (set_freed (set_rc 0 o))). split; [reflexivity|]. split.
        -- apply Inv_set_freed; [exact I2 | exact Ho2 | reflexivity].
        -- split; [rewrite upd_length, L2, upd_length; reflexivity|].
           assert (Hl2 : (a < length h2)%nat) by (rewrite L2, upd_length; exact Hl).
           intros b ob Hb. destruct (Nat.eq_dec a b) as [Eab|Eab].
           ++ subst b. rewrite Ha in Hb. inv Hb. exists (set_freed (set_rc 0 ob)).
              rewrite upd_nth by exact Hl2. rewrite Nat.eqb_refl.
              repeat split; cbn [fields typed osize rc freed set_freed set_rc]; auto; lia.
           ++ destruct (X2 b ob) as (o3 & Ho3 & F3 & T3 & S3 & R3 & Fr3 & Same3 & D3).
              { rewrite upd_nth by exact Hl. destruct (Nat.eqb_spec a b); [contradiction | exact Hb]. }
              exists o3. rewrite upd_nth by exact Hl2. destruct (Nat.eqb_spec a b); [contradiction|].
              repeat split; auto. intros Hge. apply Same3. lia.
    + pose proof (i_typ _ _ H a o Ha Et) as Hnil.
      assert (I2 : Inv (upd h a (set_rc 0 o)) R).
      { eapply Inv_ext; [|exact I1]. intros b. rewrite Hnil. unfold count_in. cbn. lia. }
      assert (Ha1 : nth_error (upd h a (set_rc 0 o)) a = Some (set_rc 0 o)).
      { rewrite upd_nth by exact Hl. rewrite Nat.eqb_refl. reflexivity. }
      assert (X1 : forall f : bool, ext (S a) h (upd h a (if f then set_freed (set_rc 0 o) else set_rc 0 o))).
      { intros f. split; [apply upd_length|]. intros b ob Hb. destruct (Nat.eq_dec a b) as [Eab|Eab].
        - subst b. rewrite Ha in Hb. inv Hb. eexists. rewrite upd_nth by exact Hl. rewrite Nat.eqb_refl.
          split; [reflexivity|].
          destruct f; repeat split; cbn [fields typed osize rc freed set_freed set_rc]; auto; try lia; congruence.
        - exists ob. rewrite upd_nth by exact Hl. destruct (Nat.eqb_spec a b); [contradiction|].
          repeat split; auto; lia. }
      unfold dealloc, access. rewrite Ha1. cbn [freed set_rc osize]. rewrite Hfr.
      destruct (Z.eqb_spec size 0) as [Es|Es].
      * eexists. split; [reflexivity|]. split; [exact I2 | apply (X1 false)].
      * destruct (Z.eqb_spec size (osize o)) as [Es'|Es']; [|destruct Hsz; contradiction].
        change (osize (set_rc 0 o)) with (osize o). rewrite <- Es', Z.eqb_refl.
        eexists. split; [reflexivity|]. split.
        -- apply (Inv_set_freed _ _ _ _ I2 Ha1). reflexivity.
        -- assert (Hupd : upd (upd h a (set_rc 0 o)) a (set_freed (set_rc 0 o)) = upd h a (set_freed (set_rc 0 o))).
           { apply list_eq_nth_error. intros j. rewrite !upd_nth by (rewrite ?upd_length; exact Hl).
             destruct (Nat.eqb a j); reflexivity. }
           rewrite Hupd. apply (X1 true).
  - eexists. split; [reflexivity|]. split.
    + apply (Inv_set_rc h (add_root R a 1) R a o (rc o - 1) H Ha); auto; try lia.
      intros b. unfold add_root, contrib. cbn [rc set_rc fields].
      destruct (Z.ltb_spec 0 (rc o)); [|lia]. destruct (Z.ltb_spec 0 (rc o - 1)); [|lia].
      destruct (Nat.eqb_spec a b); lia.
    + split; [apply upd_length|]. intros b ob Hb. destruct (Nat.eq_dec a b) as [Eab|Eab].
      * subst b. rewrite Ha in Hb. inv Hb. eexists. rewrite upd_nth by exact Hl. rewrite Nat.eqb_refl.
        split; [reflexivity|]. repeat split; cbn [fields typed osize rc freed set_rc]; auto; lia.
      * exists ob. rewrite upd_nth by exact Hl. destruct (Nat.eqb_spec a b); [contradiction|].
        repeat split; auto; lia.
Qed.

(** ** Histories *)
Record Rel (g : graph) (h : list obj) (szs : list Z) (k : Z) : Prop := {
  r_inv : Inv h (roots g);
  r_shape : map fields h = shape g;
  r_szs : map osize h = szs;
  r_dead : forall b o, nth_error h b = Some o -> typed o = true -> rc o = 0 -> freed o = true;
  r_max : forall b o, nth_error h b = Some o -> rc o <= 1 + k }.

Lemma shape_nth h g : map fields h = shape g -> forall b,
  nth_error (shape g) b = option_map fields (nth_error h b).
Proof. intros E b. rewrite <- E. apply nth_error_map. Qed.

Lemma reach_live g h szs k a : Rel g h szs k -> reachable g a -> exists o, nth_error h a = Some o /\ 0 < rc o.
Proof.
  intros H Hr. induction Hr as [a Ha | a b fs Hb IH Hs Hin].
  - destruct (nth_error h a) as [o|] eqn:E.
    + exists o. split; [reflexivity|]. rewrite (i_cnt _ _ (r_inv _ _ _ _ H) a o E).
      pose proof (refs_nonneg h a). lia.
    + apply nth_error_None in E. pose proof (i_out _ _ (r_inv _ _ _ _ H) a E). lia.
  - destruct IH as (o & Ho & Hpos).
    rewrite (shape_nth h g (r_shape _ _ _ _ H)), Ho in Hs. cbn in Hs. inv Hs.
    pose proof (i_wf _ _ (r_inv _ _ _ _ H) b o a Ho Hin) as Hlt.
    destruct (nth_error h a) as [oa|] eqn:E.
    2:{ apply nth_error_None in E. assert (b < length h)%nat by (apply nth_error_Some; congruence). lia. }
    exists oa. split; [reflexivity|]. rewrite (i_cnt _ _ (r_inv _ _ _ _ H) a oa E).
    pose proof (refs_ge_contrib h b o a Ho) as Hc. unfold contrib in Hc.
    destruct (Z.ltb_spec 0 (rc o)); [|lia]. apply count_in_pos in Hin.
    pose proof (i_pos _ _ (r_inv _ _ _ _ H) a). lia.
Qed.

Lemma live_reach g h szs k : Rel g h szs k -> forall n a o, (length h - a <= n)%nat ->
  nth_error h a = Some o -> 0 < rc o -> reachable g a.
Proof.
  intros H. induction n as [|n IH]; intros a o Hn Ha Hr.
  - assert (a < length h)%nat by (apply nth_error_Some; congruence). lia.
  - destruct (Z.lt_ge_cases 0 (roots g a)) as [Hp|Hp]; [apply reach_root; exact Hp|].
    pose proof (i_cnt _ _ (r_inv _ _ _ _ H) a o Ha) as Hc.
    destruct (refs_pos h a) as (b & ob & Hb & Hrb & Hin); [lia|].
    pose proof (i_wf _ _ (r_inv _ _ _ _ H) b ob a Hb Hin) as Hlt.
    apply (reach_field g a b (fields ob)); [|rewrite (shape_nth h g (r_shape _ _ _ _ H)), Hb; reflexivity|exact Hin].
    apply (IH b ob); [|exact Hb|exact Hrb].
    assert (b < length h)%nat by (apply nth_error_Some; congruence). lia.
Qed.

Lemma Rel_new g h szs k t size fs g' :
  Rel g h szs k -> 0 <= k -> legal g (HNew t size fs) g' ->
  exists h', hstep h (HNew t size fs) = Ok h' /\ Rel g' h' (szs ++ [size]) k.
Proof.
  intros H Hk Hl. inversion Hl as [g0 t0 s0 fs0 Hsz Ht Hfs| | | | |]; subst. eexists. split; [reflexivity|].
  assert (Hlen : length (shape g) = length h) by (rewrite <- (r_shape _ _ _ _ H), map_length; reflexivity).
  set (o := {| rc := 1; fields := fs; typed := t; osize := size; freed := false |}).
  pose proof (r_inv _ _ _ _ H) as I.
  assert (Hin : forall a, In (Some a) fs -> (a < length h)%nat).
  { intros a Ha. apply count_in_pos in Ha. specialize (Hfs a).
    destruct (Nat.lt_ge_cases a (length h)) as [?|Hge]; [assumption|]. rewrite (i_out _ _ I a Hge) in Hfs. lia. }
  assert (Hnth : forall b ob, nth_error (h ++ [o]) b = Some ob ->
            (nth_error h b = Some ob /\ (b < length h)%nat) \/ (b = length h /\ ob = o)).
  { intros b ob Hb. destruct (Nat.lt_ge_cases b (length h)) as [Hlt|Hge].
    - rewrite nth_error_app1 in Hb by exact Hlt. left. split; assumption.
    - rewrite nth_error_app2 in Hb by exact Hge. destruct (b - length h)%nat as [|m] eqn:Em; cbn in Hb.
      + inv Hb. right. split; [lia | reflexivity].
      + destruct m; discriminate. }
  assert (Hrefs : forall b, refs (h ++ [o]) b = refs h b + count_in b fs).
  { intros b. rewrite refs_app. cbn [refs]. unfold contrib. cbn [rc o fields]. change (0 <? 1) with true. cbn iota. lia. }
  constructor.
  - constructor.
    + intros b ob a Hb Ha. destruct (Hnth b ob Hb) as [[Hb' _]|[-> ->]].
      * eapply (i_wf _ _ I); eassumption.
      * cbn [fields o] in Ha. apply Hin. exact Ha.
    + intros b ob Hb Htt. destruct (Hnth b ob Hb) as [[Hb' _]|[-> ->]].
      * eapply (i_typ _ _ I); eassumption.
      * cbn [fields typed o] in *. apply Ht. exact Htt.
    + intros b ob Hb. cbn [roots]. rewrite Hrefs, Hlen. destruct (Hnth b ob Hb) as [[Hb' Hlt]|[Eb Eo]].
      * destruct (Nat.eqb_spec b (length h)) as [E|E]; [lia|]. rewrite (i_cnt _ _ I b ob Hb'). lia.
      * subst b ob. rewrite Nat.eqb_refl. cbn [rc o].
        assert (Hz : refs h (length h) = 0).
        { destruct (Z.eq_dec (refs h (length h)) 0) as [E|E]; [exact E|].
          pose proof (refs_nonneg h (length h)). destruct (refs_pos h (length h)) as (c & oc & Hc & _ & Hi); [lia|].
          pose proof (i_wf _ _ I c oc _ Hc Hi). assert (c < length h)%nat by (apply nth_error_Some; congruence). lia. }
        rewrite Hz. rewrite count_in_le_0; [lia|]. intros Hc. apply Hin in Hc. lia.
    + intros b ob Hb. destruct (Hnth b ob Hb) as [[Hb' _]|[-> ->]].
      * eapply (i_bnd _ _ I); eassumption.
      * cbn [rc o]. lia.
    + intros b. cbn [roots]. destruct (Nat.eqb b (length (shape g))); [lia|]. specialize (Hfs b). lia.
    + intros b Hb. rewrite app_length in Hb. cbn [length] in Hb. cbn [roots]. rewrite Hlen.
      destruct (Nat.eqb_spec b (length h)) as [E|E]; [lia|].
      rewrite (i_out _ _ I b) by lia. specialize (Hfs b). rewrite (i_out _ _ I b) in Hfs by lia.
      pose proof (count_in_nonneg b fs). lia.
    + intros b ob Hb Hf. destruct (Hnth b ob Hb) as [[Hb' _]|[-> ->]].
      * eapply (i_fr _ _ I); eassumption.
      * discriminate.
    + intros b ob Hb. destruct (Hnth b ob Hb) as [[Hb' _]|[-> ->]].
      * eapply (i_sz _ _ I); eassumption.
      * cbn [osize o]. lia.
  - cbn [shape]. rewrite map_app, (r_shape _ _ _ _ H). reflexivity.
  - rewrite map_app, (r_szs _ _ _ _ H). reflexivity.
  - intros b ob Hb Htt Hz. destruct (Hnth b ob Hb) as [[Hb' _]|[-> ->]].
    + eapply (r_dead _ _ _ _ H); eassumption.
    + discriminate.
  - intros b ob Hb. destruct (Hnth b ob Hb) as [[Hb' _]|[-> ->]].
    + eapply (r_max _ _ _ _ H); eassumption.
    + cbn [rc o]. lia.
Qed.

Lemma Rel_retain g h szs k a : Rel g h szs k -> 0 <= k -> k + 1 < 2 ^ 32 - 1 -> reachable g a ->
  exists h', retain h (Some a) = Ok h' /\
    Rel {| shape := shape g; roots := add_root (roots g) a 1 |} h' szs (k + 1).
Proof.
  intros H Hk0 Hk Hr. destruct (reach_live _ _ _ _ _ H Hr) as (o & Ho & Hp).
  pose proof (r_inv _ _ _ _ H) as I. cbn [retain]. rewrite (access_live _ _ _ _ I Ho Hp).
  pose proof (r_max _ _ _ _ H a o Ho) as Hm.
  assert (Hl : (a < length h)%nat) by (apply nth_error_Some; congruence).
  assert (Hinc : u32_inc (rc o) = rc o + 1) by (unfold u32_inc; apply Z.mod_small; lia).
  rewrite Hinc. eexists. split; [reflexivity|].
  assert (Hfr : freed o = false).
  { destruct (freed o) eqn:E; [|reflexivity]. pose proof (i_fr _ _ I a o Ho E). lia. }
  constructor.
  - cbn [roots]. apply (Inv_set_rc h (roots g) _ a o (rc o + 1) I Ho); auto; try lia.
    + intros b. unfold add_root. pose proof (i_pos _ _ I b). destruct (Nat.eqb a b); lia.
    + intros b Hb. unfold add_root. rewrite (i_out _ _ I b Hb). destruct (Nat.eqb_spec a b); lia.
    + intros b. unfold add_root, contrib. cbn [rc set_rc fields].
      destruct (Z.ltb_spec 0 (rc o)); [|lia]. destruct (Z.ltb_spec 0 (rc o + 1)); [|lia].
      destruct (Nat.eqb_spec a b); lia.
  - cbn [shape]. rewrite <- (r_shape _ _ _ _ H). apply list_eq_nth_error. intros j. rewrite !nth_error_map.
    rewrite upd_nth by exact Hl. destruct (Nat.eqb_spec a j) as [E|E]; [|reflexivity].
    subst j. rewrite Ho. reflexivity.
  - rewrite <- (r_szs _ _ _ _ H). apply list_eq_nth_error. intros j. rewrite !nth_error_map.
    rewrite upd_nth by exact Hl. destruct (Nat.eqb_spec a j) as [E|E]; [|reflexivity].
    subst j. rewrite Ho. reflexivity.
  - intros b ob. rewrite upd_nth by exact Hl. destruct (Nat.eqb_spec a b) as [E|E].
    + intros Eo. inv Eo. cbn [rc set_rc]. lia.
    + apply (r_dead _ _ _ _ H).
  - intros b ob. rewrite upd_nth by exact Hl. destruct (Nat.eqb_spec a b) as [E|E].
    + intros Eo. inv Eo. cbn [rc set_rc]. lia.
    + intros Hb. pose proof (r_max _ _ _ _ H b ob Hb). lia.
Qed.

Lemma Rel_release g h szs k a size : Rel g h szs k -> 0 < roots g a ->
  (size = 0 \/ nth_error szs a = Some size) ->
  exists h', release (length h) h (Some a) size = Ok h' /\
    Rel {| shape := shape g; roots := add_root (roots g) a (-1) |} h' szs k.
Proof.
  intros H Hr Hs. pose proof (r_inv _ _ _ _ H) as I.
  destruct (nth_error h a) as [o|] eqn:Ho.
  2:{ apply nth_error_None in Ho. rewrite (i_out _ _ I a Ho) in Hr. lia. }
  assert (Hl : (a < length h)%nat) by (apply nth_error_Some; congruence).
  destruct (release_all_good (length h) h (add_root (roots g) a (-1)) a size o) as (h' & E & I' & L & X).
  - eapply Inv_ext; [|exact I]. intros b. unfold add_root. destruct (Nat.eqb a b); lia.
  - intros b. unfold add_root. pose proof (i_pos _ _ I b). destruct (Nat.eqb_spec a b); [subst|]; lia.
  - exact Hl.
  - exact Ho.
  - destruct Hs as [Hs|Hs]; [left; exact Hs|]. right.
    rewrite <- (r_szs _ _ _ _ H), nth_error_map, Ho in Hs. cbn in Hs. congruence.
  - exists h'. split; [exact E|].
    assert (Hback : forall b o', nth_error h' b = Some o' -> exists o0, nth_error h b = Some o0).
    { intros b o' Hb. destruct (nth_error h b) as [o0|] eqn:E0; [exists o0; reflexivity|].
      apply nth_error_None in E0. assert (b < length h')%nat by (apply nth_error_Some; congruence). lia. }
    constructor.
    + exact I'.
    + cbn [shape]. rewrite <- (r_shape _ _ _ _ H). apply list_eq_nth_error. intros j. rewrite !nth_error_map.
      destruct (nth_error h j) as [o0|] eqn:E0.
      * destruct (X j o0 E0) as (o1 & Ho1 & F1 & _). rewrite Ho1. cbn. congruence.
      * destruct (nth_error h' j) as [o1|] eqn:E1; [|reflexivity].
        destruct (Hback j o1 E1) as [o0 E0']. congruence.
    + rewrite <- (r_szs _ _ _ _ H). apply list_eq_nth_error. intros j. rewrite !nth_error_map.
      destruct (nth_error h j) as [o0|] eqn:E0.
      * destruct (X j o0 E0) as (o1 & Ho1 & _ & _ & S1 & _). rewrite Ho1. cbn. congruence.
      * destruct (nth_error h' j) as [o1|] eqn:E1; [|reflexivity].
        destruct (Hback j o1 E1) as [o0 E0']. congruence.
    + intros b o' Hb Ht Hz. destruct (Hback b o' Hb) as [o0 E0].
      destruct (X b o0 E0) as (o1 & Ho1 & F1 & T1 & S1 & R1 & Fr1 & Same1 & D1).
      rewrite Hb in Ho1. inv Ho1. destruct (Z.lt_ge_cases 0 (rc o0)) as [Hp|Hp].
      * apply D1; congruence.
      * apply Fr1. eapply (r_dead _ _ _ _ H); [exact E0 | congruence |].
        pose proof (Inv_rc_nonneg _ _ _ _ I E0). lia.
    + intros b o' Hb. destruct (Hback b o' Hb) as [o0 E0].
      destruct (X b o0 E0) as (o1 & Ho1 & F1 & T1 & S1 & R1 & _).
      rewrite Hb in Ho1. inv Ho1. pose proof (r_max _ _ _ _ H b o0 E0). lia.
Qed.

Lemma retains_nonneg ops : 0 <= retains ops.
Proof. induction ops as [|o ops IH]; cbn [retains]; [lia|]. destruct o as [| [|] | |]; lia. Qed.

Lemma hrun_ok ops : forall g h szs k g', Rel g h szs k -> 0 <= k -> legal_run g ops g' ->
  sizes_ok szs ops -> k + retains ops < 2 ^ 32 - 1 ->
  exists h' szs' k', hrun h ops = Ok h' /\ Rel g' h' szs' k'.
Proof.
  induction ops as [|o ops IH]; intros g h szs k g' H Hk Hrun Hs Hb.
  - inversion Hrun; subst. exists h, szs, k. split; [reflexivity | exact H].
  - inversion Hrun as [|g0 o0 g1 ops0 g2 Hstep Hrest]; subst. cbn [hrun].
    destruct o as [t size fs|p|p size|a].
    + destruct (Rel_new _ _ _ _ _ _ _ _ H Hk Hstep) as (h1 & E1 & H1).
      rewrite E1. cbn [bind]. exact (IH _ _ _ _ _ H1 Hk Hrest Hs Hb).
    + inversion Hstep as [| |g0 a Hra| | |]; subst.
      * cbn [hstep retain bind]. cbn [sizes_ok retains] in *. exact (IH _ _ _ _ _ H Hk Hrest Hs Hb).
      * cbn [retains] in Hb. pose proof (retains_nonneg ops).
        destruct (Rel_retain _ _ _ _ a H Hk ltac:(lia) Hra) as (h1 & E1 & H1).
        cbn [hstep]. rewrite E1. cbn [bind]. apply (IH _ _ _ (k + 1) _ H1 ltac:(lia) Hrest Hs). lia.
    + inversion Hstep as [| | |g0 s0 |g0 a s0 Hra|]; subst.
      * replace (hstep h (HRelease None size)) with (Ok h) by (cbn [hstep]; destruct (length h); reflexivity).
        cbn [bind sizes_ok retains] in *. exact (IH _ _ _ _ _ H Hk Hrest Hs Hb).
      * cbn [sizes_ok retains] in *. destruct Hs as [Hs1 Hs2].
        destruct (Rel_release _ _ _ _ a size H Hra Hs1) as (h1 & E1 & H1).
        cbn [hstep]. rewrite E1. cbn [bind]. exact (IH _ _ _ _ _ H1 Hk Hrest Hs2 Hb).
    + inversion Hstep as [| | | | |g0 a0 Hra]; subst.
      destruct (reach_live _ _ _ _ _ H Hra) as (o & Ho & Hp).
      cbn [hstep]. rewrite (access_live _ _ _ _ (r_inv _ _ _ _ H) Ho Hp). cbn [bind].
      exact (IH _ _ _ _ _ H Hk Hrest Hs Hb).
Qed.

Lemma Rel_init : Rel graph_init [] [] 0.
Proof.
  constructor; try (intros [|?] ? ?; discriminate); try reflexivity.
  constructor; try (intros [|?] ? ?; discriminate); try (intros [|?] ? ? ?; discriminate).
  - intros b. reflexivity.
  - reflexivity.
Qed.

Lemma deep_release_exact_lemma ops g : legal_run graph_init ops g -> sizes_ok [] ops ->
  retains ops < 2 ^ 32 - 1 ->
  exists h, hrun [] ops = Ok h /\ map fields h = shape g /\
    forall a o, nth_error h a = Some o ->
      (rc o = 0 <-> ~ reachable g a) /\
      (freed o = true -> ~ reachable g a) /\
      (typed o = true -> ~ reachable g a -> freed o = true).
Proof.
  intros Hl Hs Hb. destruct (hrun_ok ops _ _ _ _ _ Rel_init ltac:(lia) Hl Hs ltac:(lia))
    as (h & szs & k & E & H).
  exists h. split; [exact E|]. split; [exact (r_shape _ _ _ _ H)|]. intros a o Ha.
  assert (Hiff : rc o = 0 <-> ~ reachable g a).
  { split.
    - intros Hz Hr. destruct (reach_live _ _ _ _ _ H Hr) as (o' & Ho' & Hp). rewrite Ha in Ho'. inv Ho'. lia.
    - intros Hn. pose proof (Inv_rc_nonneg _ _ _ _ (r_inv _ _ _ _ H) Ha).
      destruct (Z.eq_dec (rc o) 0) as [Ez|Ez]; [exact Ez|]. exfalso. apply Hn.
      apply (live_reach g h szs k H (length h) a o); [lia | exact Ha | lia]. }
  split; [exact Hiff|]. split.
  - intros Hf. apply Hiff. apply (i_fr _ _ (r_inv _ _ _ _ H) a o Ha Hf).
  - intros Ht Hn. apply (r_dead _ _ _ _ H a o Ha Ht). apply Hiff. exact Hn.
Qed.
