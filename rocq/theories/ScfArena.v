(** What the arena operations used by the lowering do. *)
From Verif Require Import ScfModel ScfSpec IrProofs IrInvProofs IrMainProofs ScfSim CastProofs.
From Coq Require Import Lia.

(** ** Links *)
Lemma linked_shift p m y y' l kept new : linked p m -> y <> y' -> (forall x, In x (m y) <-> In x kept \/ In x l) -> NoDup (kept ++ l) ->
  (forall x, In x new <-> In x l \/ In x (m y')) -> NoDup new ->
  linked (fun x => if memb x l then Some y' else p x) (fupd (fupd m y kept) y' new).
Proof.
  intros (A & B) N E1 N1 E2 N2. split.
  - intros x w. unfold fupd. destruct (Nat.eqb_spec w y') as [->|Nw].
    + rewrite E2. destruct (memb_spec x l) as [K|K]; [tauto|]. rewrite A. tauto.
    + destruct (Nat.eqb_spec w y) as [->|Nw'].
      * destruct (memb_spec x l) as [K|K].
        -- split; [|congruence]. intros K1. exfalso. clear - N1 K K1. induction kept as [|z kept IH]; [destruct K1|]. cbn in N1. inversion N1; subst. destruct K1 as [->|K1]; [apply H1; apply in_or_app; right; exact K | apply IH; assumption].
        -- rewrite <- A, E1. tauto.
      * destruct (memb_spec x l) as [K|K]; [|apply A]. split; [|congruence]. intros K1. exfalso. apply A in K1. assert (K2 : In x (m y)) by (apply E1; right; exact K). apply A in K2. congruence.
  - intros w. unfold fupd. destruct (Nat.eqb w y'); [exact N2|]. destruct (Nat.eqb w y); [|apply B]. apply NoDup_rev in N1. rewrite rev_app_distr in N1. clear - N1. apply NoDup_rev in N1. rewrite rev_app_distr, !rev_involutive in N1. induction kept as [|z kept IH]; [constructor|]. cbn in N1. inversion N1; subst. constructor; [intros K; apply H1; apply in_or_app; left; exact K | apply IH; assumption].
Qed.
Lemma fold_upd {X} (f : X -> X) : (forall d, f (f d) = f d) -> forall tl l x, nth_error (fold_left (fun l o => upd l o f) tl l) x = if memb x tl then option_map f (nth_error l x) else nth_error l x.
Proof.
  intros Hf. induction tl as [|y tl IH]; intros l x; [reflexivity|]. cbn [fold_left]. rewrite IH, nth_upd. unfold memb. cbn [existsb]. destruct (Nat.eqb_spec x y) as [->|]; cbn [orb]; [|reflexivity].
  destruct (existsb (Nat.eqb y) tl); [|reflexivity]. destruct (nth_error l y); cbn; [rewrite Hf|]; reflexivity.
Qed.
Lemma fold_upd_len {X} (f : X -> X) : forall tl l, length (fold_left (fun l o => upd l o f) tl l) = length l.
Proof. induction tl as [|y tl IH]; intros l; [reflexivity|]. cbn. rewrite IH. apply upd_len. Qed.

(** ** Changes that only move things *)
Record moves (c c' : ctx) : Prop := {
  mv_ops : forall x, option_map (fun d => set_parent d None) (nth_error (ops c') x) = option_map (fun d => set_parent d None) (nth_error (ops c) x);
  mv_args : forall x, x < length (blocks c) -> option_map b_arg_types (nth_error (blocks c') x) = option_map b_arg_types (nth_error (blocks c) x);
  mv_new : forall x d, length (blocks c) <= x -> nth_error (blocks c') x = Some d -> b_arg_types d = [];
  mv_blen : length (blocks c) <= length (blocks c');
  mv_vals : vals c' = vals c;
  mv_uses : uses c' = uses c;
  mv_results : op_results c' = op_results c;
  mv_bargs : forall b, block_args c' b = block_args c b;
  mv_rpar : forall q, rpar (regions c') q = rpar (regions c) q;
}.
Lemma mv_op c c' x d : moves c c' -> nth_error (ops c) x = Some d -> exists d', nth_error (ops c') x = Some d' /\ same_data d d' /\ o_operands d' = o_operands d.
Proof.
  intros M E. pose proof (mv_ops _ _ M x) as K. rewrite E in K. destruct (nth_error (ops c') x) as [d'|]; [|discriminate]. cbn in K. injection K as K1 K2 K3 K4 K5. exists d'. split; [reflexivity|]. repeat split; assumption.
Qed.
Lemma mv_len c c' : moves c c' -> length (ops c') = length (ops c).
Proof.
  intros M. assert (K : forall x, length (ops c') <= x <-> length (ops c) <= x).
  { intros x. rewrite <- !nth_error_None. pose proof (mv_ops _ _ M x) as K. destruct (nth_error (ops c') x), (nth_error (ops c) x); try discriminate; split; congruence. }
  pose proof (K (length (ops c))). pose proof (K (length (ops c'))). lia.
Qed.
Lemma moves_inv c c' dead : moves c c' -> inv c dead -> linked (par (ops c')) (bops (blocks c')) -> linked (bpar (blocks c')) (rblks (regions c')) -> inv c' dead.
Proof.
  intros M (U & P & D) L1 L2. split; [|split].
  - destruct U as (U1 & U2 & U3). rewrite (mv_uses _ _ M). split; [exact U1|]. split; [|rewrite (mv_len _ _ M); exact U3]. intros v o i. rewrite U2.
    replace (rd (ops c') o i) with (rd (ops c) o i); [reflexivity|]. unfold rd. pose proof (mv_ops _ _ M o) as K. destruct (nth_error (ops c') o) as [d'|], (nth_error (ops c) o) as [d|]; try discriminate; [|reflexivity]. injection K as K1 K2 K3 K4 K5. rewrite K2. reflexivity.
  - split; [exact L1|]. split; [exact L2|]. apply (linked_ext (rpar (regions c)) (oregs (ops c))); [apply (mv_rpar _ _ M) | | apply P].
    intros o. unfold oregs. pose proof (mv_ops _ _ M o) as K. destruct (nth_error (ops c') o) as [d'|], (nth_error (ops c) o) as [d|]; try discriminate; [|reflexivity]. injection K as K1 K2 K3 K4 K5. exact K4.
  - destruct D as [D1 D2 D3 D4 D5 D6]. constructor; rewrite ?(mv_vals _ _ M), ?(mv_results _ _ M).
    + exact D1.
    + intros b i v. rewrite (mv_bargs _ _ M). apply D2.
    + intros o d E. pose proof (mv_ops _ _ M o) as K. rewrite E in K. destruct (nth_error (ops c) o) as [d0|] eqn:E0; [|discriminate]. rewrite (D3 o d0 E0). cbn in K. injection K as K1 K2 K3 K4 K5. rewrite K3. reflexivity.
    + intros b d E. rewrite (mv_bargs _ _ M). destruct (Nat.lt_ge_cases b (length (blocks c))) as [Lb|Lb].
      * pose proof (mv_args _ _ M b Lb) as K. rewrite E in K. destruct (nth_error (blocks c) b) as [d0|] eqn:E0; [|discriminate]. rewrite (D4 b d0 E0). cbn in K. congruence.
      * rewrite (D6 b Lb). rewrite (mv_new _ _ M b d Lb E). reflexivity.
    + intros o K. apply D5. rewrite (mv_len _ _ M) in K. exact K.
    + intros b K. rewrite (mv_bargs _ _ M). apply D6. pose proof (mv_blen _ _ M). lia.
Qed.
Lemma moves_trans c c1 c2 : moves c c1 -> moves c1 c2 -> moves c c2.
Proof.
  intros A B. constructor.
  - intros x. rewrite (mv_ops _ _ B), (mv_ops _ _ A). reflexivity.
  - intros x Lx. rewrite (mv_args _ _ B), (mv_args _ _ A); [reflexivity | exact Lx | pose proof (mv_blen _ _ A); lia].
  - intros x d Lx E. destruct (Nat.lt_ge_cases x (length (blocks c1))) as [K|K]; [|exact (mv_new _ _ B x d K E)]. pose proof (mv_args _ _ B x K) as K1. rewrite E in K1. destruct (nth_error (blocks c1) x) as [d1|] eqn:E1; [|discriminate]. cbn in K1. injection K1 as K1. rewrite K1. exact (mv_new _ _ A x d1 Lx E1).
  - pose proof (mv_blen _ _ A). pose proof (mv_blen _ _ B). lia.
  - rewrite (mv_vals _ _ B). apply (mv_vals _ _ A).
  - rewrite (mv_uses _ _ B). apply (mv_uses _ _ A).
  - rewrite (mv_results _ _ B). apply (mv_results _ _ A).
  - intros b. rewrite (mv_bargs _ _ B). apply (mv_bargs _ _ A).
  - intros q. rewrite (mv_rpar _ _ B). apply (mv_rpar _ _ A).
Qed.

Lemma moved_ops x tl f (l : list op) : (forall d, set_parent (f d) None = set_parent d None) -> (forall d, f (f d) = f d) ->
  option_map (fun d => set_parent d None) (nth_error (fold_left (fun l o => upd l o f) tl l) x) = option_map (fun d => set_parent d None) (nth_error l x).
Proof. intros F1 F2. rewrite (fold_upd f F2). destruct (memb x tl); [|reflexivity]. destruct (nth_error l x); cbn; [rewrite F1|]; reflexivity. Qed.

(** A block without a region gets one. *)
Lemma place_moves c r pos b : moves c (place_block c r pos b).
Proof.
  unfold place_block. constructor; cbn [ops blocks regions vals uses op_results block_args set_blocks set_regions]; try reflexivity.
  - intros x _. apply omap_upd_keep. reflexivity.
  - intros x d Lx E. assert (x < length (blocks c)) by (erewrite <- upd_len; apply nth_error_Some; rewrite E; discriminate). lia.
  - rewrite upd_len. lia.
  - intros q. unfold rpar. apply view_upd_keep. reflexivity.
Qed.
Lemma place_ok c dead r pos b : inv c dead -> bpar (blocks c) b = None -> b < length (blocks c) -> r < length (regions c) ->
  let c' := place_block c r pos b in
  inv c' dead /\ ops c' = ops c /\ (forall x, bops (blocks c') x = bops (blocks c) x) /\ (forall x, bpar (blocks c') x = if Nat.eqb x b then Some r else bpar (blocks c) x) /\
  (forall q, rblks (regions c') q = if Nat.eqb q r then firstn pos (rblks (regions c) r) ++ b :: skipn pos (rblks (regions c) r) else rblks (regions c) q) /\ length (blocks c') = length (blocks c) /\ length (regions c') = length (regions c).
Proof.
  intros I Nb Lb Lr c'.
  assert (B1 : forall x, bops (blocks c') x = bops (blocks c) x) by (intros x; unfold c', place_block, bops; cbn [blocks set_blocks set_regions]; apply view_upd_keep; reflexivity).
  assert (B2 : forall x, bpar (blocks c') x = if Nat.eqb x b then Some r else bpar (blocks c) x).
  { intros x. unfold c', place_block, bpar. cbn [blocks set_blocks set_regions]. rewrite view_upd. cbn [b_parent set_bparent]. destruct (Nat.eqb x b); [|reflexivity]. destruct (nth_error (blocks c) b) eqn:E; [reflexivity|]. apply nth_error_None in E. lia. }
  assert (B3 : forall q, rblks (regions c') q = if Nat.eqb q r then firstn pos (rblks (regions c) r) ++ b :: skipn pos (rblks (regions c) r) else rblks (regions c) q).
  { intros q. unfold c', place_block, rblks. cbn [regions set_blocks set_regions]. rewrite view_upd. cbn [r_blocks]. destruct (Nat.eqb q r); [|reflexivity]. destruct (nth_error (regions c) r) eqn:E; [reflexivity|]. apply nth_error_None in E. lia. }
  split; [|split; [reflexivity|]; split; [exact B1|]; split; [exact B2|]; split; [exact B3|]; split; unfold c', place_block; cbn [blocks regions set_blocks set_regions]; apply upd_len].
  apply (moves_inv c c' dead (place_moves c r pos b) I).
  - eapply linked_ext; [reflexivity | exact B1 | apply I].
  - destruct I as (_ & (_ & L & _) & _). pose proof (proj2 L r) as Nd.
    assert (Nin : ~ In b (rblks (regions c) r)) by (intros K; apply L in K; congruence).
    apply (linked_ext (fupd (bpar (blocks c)) b (Some r)) (fupd (rblks (regions c)) r (firstn pos (rblks (regions c) r) ++ b :: skipn pos (rblks (regions c) r)))).
    + exact B2.
    + exact B3.
    + apply linked_add; [exact Nb | exact L | |].
      * intros z. rewrite <- (firstn_skipn pos (rblks (regions c) r)) at 3. rewrite !in_app_iff. cbn [In]. split; intros K; intuition congruence.
      * apply insert_NoDup; rewrite firstn_skipn; assumption.
Qed.

Lemma new_block c : let '(c', b) := create_block c [] in b = length (blocks c) /\ ops c' = ops c /\ regions c' = regions c /\ vals c' = vals c /\ uses c' = uses c /\ op_results c' = op_results c /\
  blocks c' = blocks c ++ [{| b_arg_types := []; b_ops := []; b_parent := None |}] /\ block_args c' = fupd (block_args c) b [].
Proof. cbn. rewrite app_nil_r. repeat split. Qed.
Lemma new_block_moves c dead : inv c dead -> moves c (fst (create_block c [])).
Proof.
  intros (_ & _ & D). cbn. constructor; cbn [ops blocks regions vals uses op_results block_args set_blocks set_vals set_block_args]; try reflexivity.
  - intros x Lx. rewrite nth_error_app1 by exact Lx. reflexivity.
  - intros x d Lx E. rewrite nth_error_app2 in E by exact Lx. destruct (x - length (blocks c)) as [|k]; [|destruct k; discriminate]. cbn in E. injection E as <-. reflexivity.
  - rewrite app_length. cbn. lia.
  - apply app_nil_r.
  - intros b. unfold fupd. destruct (Nat.eqb_spec b (length (blocks c))) as [->|]; [|reflexivity]. symmetry. apply (de_arg_range _ D). reflexivity.
Qed.

Lemma bops_nth c b bd : nth_error (blocks c) b = Some bd -> bops (blocks c) b = b_ops bd.
Proof. unfold bops. intros ->. reflexivity. Qed.
Lemma bpar_nth c b bd : nth_error (blocks c) b = Some bd -> bpar (blocks c) b = b_parent bd.
Proof. unfold bpar. intros ->. reflexivity. Qed.
Lemma rblks_nth c r rd : nth_error (regions c) r = Some rd -> rblks (regions c) r = r_blocks rd.
Proof. unfold rblks. intros ->. reflexivity. Qed.

(** A block is split before [s]. *)
Lemma split_ok c dead b s c' m : split_block c b s = Some (c', m) -> inv c dead ->
  exists pre post P X Y, bops (blocks c) b = pre ++ s :: post /\ ~ In s pre /\ bpar (blocks c) b = Some P /\ rblks (regions c) P = X ++ b :: Y /\ m = length (blocks c) /\ moves c c' /\ inv c' dead /\
    (forall x, bops (blocks c') x = if Nat.eqb x b then pre else if Nat.eqb x m then s :: post else bops (blocks c) x) /\
    (forall x, bpar (blocks c') x = if Nat.eqb x m then Some P else bpar (blocks c) x) /\
    (forall q, rblks (regions c') q = if Nat.eqb q P then X ++ b :: m :: Y else rblks (regions c) q) /\ length (blocks c') = S (length (blocks c)) /\ length (regions c') = length (regions c).
Proof.
  intros H I. unfold split_block in H. destruct (nth_error (blocks c) b) as [bd|] eqn:Eb; [|discriminate]. cbn [obind] in H. destruct (position s (b_ops bd)) as [p|] eqn:Ep; [|discriminate]. cbn [obind] in H.
  destruct (position_split _ _ _ Ep) as (pre & post & E & Lp & Ns). subst p. rewrite E in H. rewrite firstn_app_len, skipn_app_len in H. rewrite <- (bops_nth c b bd Eb) in E.
  set (c1 := set_blocks c (upd (blocks c) b (fun x => set_bops x pre))) in *. pose proof (new_block c1) as NB. destruct (create_block c1 []) as [c2 m0] eqn:E2. destruct NB as (-> & NB1 & NB2 & NB3 & NB4 & NB5 & NB6 & NB7).
  set (m1 := length (blocks c1)) in *. assert (Em : m1 = length (blocks c)) by (unfold m1, c1; cbn; apply upd_len).
  set (c3 := set_ops c2 (fold_left (fun l o => upd l o (fun x => set_parent x (Some m1))) (s :: post) (ops c2))) in *.
  set (c4 := set_blocks c3 (upd (blocks c3) m1 (fun x => set_bops x (s :: post)))) in *.
  destruct (b_parent bd) as [P|] eqn:EP; [|discriminate]. cbn [obind] in H. destruct (nth_error (regions c4) P) as [rd|] eqn:Er; [|discriminate]. cbn [obind] in H. destruct (position b (r_blocks rd)) as [q|] eqn:Eq; [|discriminate]. cbn [obind] in H. injection H as <- <-.
  assert (Lb : b < length (blocks c)) by (apply nth_error_Some; congruence).
  assert (Dok := proj2 (proj2 I)).
  assert (Bl : forall x, nth_error (blocks c4) x = if Nat.eqb x b then Some (set_bops bd pre) else if Nat.eqb x m1 then Some {| b_arg_types := []; b_ops := s :: post; b_parent := None |} else nth_error (blocks c) x).
  { intros x. unfold c4, c3. cbn [blocks set_blocks set_ops]. rewrite nth_upd, NB6. unfold c1. cbn [blocks set_blocks]. rewrite nth_error_snoc, upd_len, nth_upd. rewrite Em. destruct (Nat.eqb_spec x b) as [->|Nx].
    - destruct (Nat.eqb_spec b (length (blocks c))); [lia|]. rewrite Eb. reflexivity.
    - destruct (Nat.eqb_spec x (length (blocks c))) as [->|]; reflexivity. }
  assert (Lb4 : length (blocks c4) = S (length (blocks c))) by (unfold c4, c3; cbn [blocks set_blocks set_ops]; rewrite upd_len, NB6, app_length; unfold c1; cbn [blocks set_blocks length]; rewrite upd_len; lia).
  assert (R4 : regions c4 = regions c) by (unfold c4, c3; cbn [regions set_blocks set_ops]; rewrite NB2; reflexivity).
  assert (M4 : moves c c4).
  { constructor.
    - intros x. unfold c4, c3. cbn [ops set_blocks set_ops]. rewrite NB1. unfold c1. cbn [ops set_blocks]. apply moved_ops; reflexivity.
    - intros x Lx. rewrite Bl. destruct (Nat.eqb_spec x b) as [->|]; [rewrite Eb; reflexivity|]. destruct (Nat.eqb_spec x m1) as [->|]; [lia | reflexivity].
    - intros x d Lx E0. rewrite Bl in E0. destruct (Nat.eqb_spec x b) as [->|]; [lia|]. destruct (Nat.eqb_spec x m1) as [->|]; [injection E0 as <-; reflexivity|]. apply nth_error_None in Lx. congruence.
    - lia.
    - unfold c4, c3. cbn [vals set_blocks set_ops]. rewrite NB3. reflexivity.
    - unfold c4, c3. cbn [uses set_blocks set_ops]. rewrite NB4. reflexivity.
    - unfold c4, c3. cbn [op_results set_blocks set_ops]. rewrite NB5. reflexivity.
    - intros x. unfold c4, c3. cbn [block_args set_blocks set_ops]. rewrite NB7. unfold c1, fupd. cbn [block_args set_blocks]. destruct (Nat.eqb_spec x m1) as [->|]; [|reflexivity]. symmetry. apply (de_arg_range _ Dok). lia.
    - intros x. rewrite R4. reflexivity. }
  assert (B4 : forall x, bops (blocks c4) x = if Nat.eqb x b then pre else if Nat.eqb x m1 then s :: post else bops (blocks c) x).
  { intros x. unfold bops. rewrite Bl. destruct (Nat.eqb x b); [reflexivity|]. destruct (Nat.eqb x m1); reflexivity. }
  assert (P4 : forall x, bpar (blocks c4) x = bpar (blocks c) x).
  { intros x. unfold bpar. rewrite Bl. destruct (Nat.eqb_spec x b) as [->|]; [rewrite Eb; reflexivity|]. destruct (Nat.eqb_spec x m1) as [->|]; [|reflexivity]. rewrite (proj2 (nth_error_None (blocks c) m1)) by lia. reflexivity. }
  assert (I4 : inv c4 dead).
  { apply (moves_inv c c4 dead M4 I).
    - destruct I as (_ & (L & _) & _). pose proof (proj2 L b) as Nd. rewrite E in Nd.
      apply (linked_ext (fun x => if memb x (s :: post) then Some m1 else par (ops c) x) (fupd (fupd (bops (blocks c)) b pre) m1 (s :: post))).
      + intros x. unfold par at 1. unfold c4, c3. cbn [ops set_blocks set_ops]. rewrite NB1. unfold c1. cbn [ops set_blocks]. rewrite fold_upd by reflexivity. destruct (memb_spec x (s :: post)) as [K|K]; [|reflexivity].
        assert (K1 : In x (bops (blocks c) b)) by (rewrite E; apply in_or_app; right; exact K). apply L in K1. unfold par in K1. destruct (nth_error (ops c) x); [reflexivity | discriminate].
      + intros x. rewrite B4. unfold fupd. destruct (Nat.eqb_spec x b) as [->|]; [destruct (Nat.eqb_spec b m1); [lia | reflexivity]|]. reflexivity.
      + apply linked_shift; [exact L | lia | intros x; rewrite E; apply in_app_iff | exact Nd | |].
        * intros x. assert (E0 : bops (blocks c) m1 = []) by (unfold bops; rewrite (proj2 (nth_error_None (blocks c) m1)) by lia; reflexivity). rewrite E0. cbn [In]. tauto.
        * clear - Nd. induction pre as [|z pre IH]; [exact Nd|]. inversion Nd; subst. apply IH. assumption.
    - rewrite R4. eapply linked_ext; [exact P4 | reflexivity | apply I]. }
  destruct (position_split _ _ _ Eq) as (X & Y & EX & Lq & _). subst q.
  assert (LP : P < length (regions c4)) by (apply nth_error_Some; congruence).
  destruct (place_ok c4 dead P (S (length X)) m1 I4) as (I5 & O5 & B5 & P5 & R5 & L5 & L5'); [rewrite P4; unfold bpar; rewrite (proj2 (nth_error_None (blocks c) m1)) by lia; reflexivity | lia | exact LP |].
  exists pre, post, P, X, Y. split; [exact E|]. split; [exact Ns|]. split; [rewrite (bpar_nth c b bd Eb); exact EP|]. rewrite R4 in Er. split; [rewrite (rblks_nth c P rd Er); exact EX|]. split; [lia|].
  split; [eapply moves_trans; [exact M4 | apply place_moves]|]. split; [exact I5|]. split; [intros x; rewrite B5; apply B4|]. split; [intros x; rewrite P5, P4; reflexivity|]. split; [|split; [lia | rewrite L5', R4; reflexivity]].
  intros x. rewrite R5. destruct (Nat.eqb_spec x P) as [->|]; [|rewrite R4; reflexivity]. rewrite R4, (rblks_nth c P rd Er), EX. replace (X ++ b :: Y) with ((X ++ [b]) ++ Y) by (rewrite <- app_assoc; reflexivity). replace (S (length X)) with (length (X ++ [b])) by (rewrite app_length; cbn; lia). rewrite firstn_app_len, skipn_app_len, <- app_assoc. reflexivity.
Qed.

(** The blocks of a region go into another one, before [at_]. *)
Lemma inline_ok c dead src dest at_ c' bs : inline_region_blocks c src dest at_ = Some (c', bs) -> inv c dead -> src <> dest ->
  bs = rblks (regions c) src /\ moves c c' /\ inv c' dead /\ ops c' = ops c /\ (forall x, bops (blocks c') x = bops (blocks c) x) /\
  (forall x, bpar (blocks c') x = if memb x bs then Some dest else bpar (blocks c) x) /\
  (exists X Y, rblks (regions c) dest = X ++ at_ :: Y /\ forall q, rblks (regions c') q = if Nat.eqb q dest then X ++ bs ++ at_ :: Y else if Nat.eqb q src then [] else rblks (regions c) q) /\
  length (blocks c') = length (blocks c) /\ length (regions c') = length (regions c).
Proof.
  intros H I N. unfold inline_region_blocks in H. destruct (Nat.eqb_spec src dest) as [|_]; [contradiction|]. destruct (nth_error (regions c) src) as [sd|] eqn:Es; [|discriminate]. cbn [obind] in H.
  set (c1 := set_regions c _) in *. set (c2 := set_blocks c1 _) in *. destruct (nth_error (regions c2) dest) as [dd|] eqn:Ed; [|discriminate]. cbn [obind] in H. destruct (position at_ (r_blocks dd)) as [p|] eqn:Ep; [|discriminate]. cbn [obind] in H. injection H as <- <-.
  destruct (position_split _ _ _ Ep) as (X & Y & EX & Lp & _). subst p.
  assert (Ed0 : nth_error (regions c) dest = Some dd). { unfold c2, c1 in Ed. cbn [regions set_blocks set_regions] in Ed. rewrite nth_upd in Ed. destruct (Nat.eqb_spec dest src); [congruence | exact Ed]. }
  pose proof (rblks_nth c src sd Es) as Rs. pose proof (rblks_nth c dest dd Ed0) as Rd. set (c' := set_regions c2 _).
  assert (B1 : forall x, bops (blocks c') x = bops (blocks c) x).
  { intros x. unfold c', c2, c1, bops. cbn [blocks set_blocks set_regions]. rewrite fold_upd by reflexivity. destruct (memb x (r_blocks sd)); [|reflexivity]. destruct (nth_error (blocks c) x); reflexivity. }
  assert (B2 : forall x, bpar (blocks c') x = if memb x (r_blocks sd) then Some dest else bpar (blocks c) x).
  { intros x. unfold c', c2, c1, bpar. cbn [blocks set_blocks set_regions]. rewrite fold_upd by reflexivity. destruct (memb_spec x (r_blocks sd)) as [K|K]; [|reflexivity].
    rewrite <- Rs in K. destruct I as (_ & (_ & L & _) & _). apply L in K. unfold bpar in K. destruct (nth_error (blocks c) x); [reflexivity | discriminate]. }
  assert (B3 : forall q, rblks (regions c') q = if Nat.eqb q dest then X ++ r_blocks sd ++ at_ :: Y else if Nat.eqb q src then [] else rblks (regions c) q).
  { intros q. unfold c', rblks at 1. cbn [regions set_blocks set_regions]. rewrite view_upd. cbn [r_blocks]. destruct (Nat.eqb_spec q dest) as [->|Nq].
    - rewrite nth_upd. destruct (Nat.eqb_spec dest src); [congruence|]. rewrite Ed0, EX, firstn_app_len, skipn_app_len. reflexivity.
    - unfold c2, c1. cbn [regions set_blocks set_regions]. rewrite view_upd. cbn [r_blocks]. destruct (Nat.eqb q src); [rewrite Es|]; reflexivity. }
  assert (M : moves c c').
  { unfold c', c2, c1. constructor; cbn [ops blocks regions vals uses op_results block_args set_blocks set_regions]; try reflexivity.
    - intros x _. rewrite fold_upd by reflexivity. destruct (memb x (r_blocks sd)); [|reflexivity]. destruct (nth_error (blocks c) x); reflexivity.
    - intros x d Lx E0. exfalso. assert (x < length (blocks c)); [|lia]. erewrite <- fold_upd_len. apply nth_error_Some. rewrite E0. discriminate.
    - rewrite fold_upd_len. lia.
    - intros q. unfold rpar. rewrite view_upd_keep by reflexivity. apply view_upd_keep. reflexivity. }
  split; [symmetry; exact Rs|]. split; [exact M|]. split; [|split; [reflexivity|]; split; [exact B1|]; split; [exact B2|]; split].
  - apply (moves_inv c c' dead M I).
    + eapply linked_ext; [reflexivity | exact B1 | apply I].
    + destruct I as (_ & (_ & L & _) & _). apply (linked_ext (fun x => if memb x (r_blocks sd) then Some dest else bpar (blocks c) x) (fupd (fupd (rblks (regions c)) src []) dest (X ++ r_blocks sd ++ at_ :: Y))).
      * exact B2.
      * intros q. rewrite B3. reflexivity.
      * apply linked_shift; [exact L | exact N | intros x; rewrite Rs; cbn; tauto | cbn; rewrite <- Rs; apply L | |].
        -- intros x. rewrite Rd, EX, !in_app_iff. cbn [In]. tauto.
        -- pose proof (proj2 L dest) as N1. pose proof (proj2 L src) as N2. rewrite Rd, EX in N1. rewrite Rs in N2.
           assert (Dj : forall x, In x (r_blocks sd) -> ~ In x (X ++ at_ :: Y)). { intros x K1 K2. rewrite <- Rs in K1. apply L in K1. rewrite <- EX, <- Rd in K2. apply L in K2. congruence. }
           clear - N1 N2 Dj. induction (r_blocks sd) as [|z l IH]; cbn [app]; [exact N1|]. inversion N2; subst. apply insert_NoDup.
           ++ apply IH; [assumption|]. intros x K. apply Dj. right. exact K.
           ++ rewrite !in_app_iff. intros K. apply (Dj z (or_introl eq_refl)). apply in_or_app. tauto.
  - exists X, Y. split; [congruence | exact B3].
  - unfold c', c2, c1. cbn [blocks regions set_blocks set_regions]. rewrite fold_upd_len, !upd_len. split; reflexivity.
Qed.

Lemma detach_ok c dead o c' : detach_op c o = Some c' -> inv c dead ->
  moves c c' /\ inv c' dead /\ (forall x, bops (blocks c') x = without o (bops (blocks c) x)) /\ (forall x, bpar (blocks c') x = bpar (blocks c) x) /\ regions c' = regions c /\
  (forall x, par (ops c') x = if Nat.eqb x o then None else par (ops c) x) /\ length (blocks c') = length (blocks c).
Proof.
  intros H I. assert (I' : inv c' dead) by (apply (exec_inv c dead (Detach o)); [cbn; rewrite H; reflexivity | exact I]).
  unfold detach_op in H. destruct (nth_error (ops c) o) as [d|] eqn:Ed; [|discriminate]. destruct (o_parent d) as [b|] eqn:Ep.
  - unfold remove_op_from_block in H. rewrite Ed in H. destruct (nth_error (blocks c) b) as [bd|] eqn:Eb; [|discriminate]. rewrite Ep, Nat.eqb_refl in H. injection H as <-.
    assert (Pb : par (ops c) o = Some b) by (unfold par; rewrite Ed; exact Ep).
    split; [|split; [exact I'|]; split; [|split; [|split; [reflexivity|]; split]]].
    + constructor; cbn [ops blocks regions vals uses op_results block_args set_blocks set_ops]; try reflexivity.
      * intros x. apply omap_upd_keep. reflexivity.
      * intros x _. apply omap_upd_keep. reflexivity.
      * intros x d0 Lx E0. exfalso. assert (x < length (blocks c)); [|lia]. erewrite <- upd_len. apply nth_error_Some. rewrite E0. discriminate.
      * rewrite upd_len. lia.
    + intros x. unfold bops at 1. cbn [blocks set_blocks set_ops]. rewrite view_upd. cbn [b_ops set_bops]. destruct (Nat.eqb_spec x b) as [->|Nx].
      * rewrite Eb. unfold bops. rewrite Eb. reflexivity.
      * fold (bops (blocks c) x). symmetry. apply without_absent. intros K. apply (in_bops c dead o x I) in K. congruence.
    + intros x. unfold bpar. cbn [blocks set_blocks set_ops]. apply view_upd_keep. reflexivity.
    + intros x. unfold par at 1. cbn [ops set_blocks set_ops]. rewrite view_upd. cbn [o_parent set_parent]. destruct (Nat.eqb_spec x o); [rewrite Ed|]; reflexivity.
    + cbn [blocks set_blocks set_ops]. apply upd_len.
  - injection H as <-. assert (Pb : par (ops c) o = None) by (unfold par; rewrite Ed; exact Ep). split; [constructor; try reflexivity|].
    + intros x d0 Lx E0. apply nth_error_None in Lx. congruence.
    + split; [exact I|]. split; [|split; [reflexivity|]; split; [reflexivity|]; split; [|reflexivity]].
      * intros x. symmetry. apply without_absent. intros K. apply (in_bops c dead o x I) in K. congruence.
      * intros x. destruct (Nat.eqb_spec x o) as [->|]; [exact Pb | reflexivity].
Qed.

(** ** Disposal *)
Definition rooted (c : ctx) (o : nat) (l : list nat) : Prop := forall x, In x l -> x = o \/ (inside_op c o x /\ exists q o', stands c x q /\ region_parent c q o' /\ In o' l).
Lemma walk_rooted c dead : inv c dead -> forall fuel o l l', walk_op (B := Empty_set) fuel c (fun l x => (l ++ [x], Advance)) l o = Continued l' ->
  exists sub, l' = l ++ sub /\ In o sub /\ rooted c o sub.
Proof.
  intros I. induction fuel as [|n IH]; intros o l l' H; cbn [walk_op] in H; [discriminate|]. destruct (nth_error (ops c) o) as [d|] eqn:E; [|discriminate].
  pose (P := fun l' : list nat => exists sub, l' = l ++ o :: sub /\ rooted c o (o :: sub)).
  assert (K : P l'). 2:{ destruct K as (sub & -> & R). exists (o :: sub). split; [reflexivity|]. split; [left; reflexivity | exact R]. }
  assert (K : forall rs s s', (forall r, In r rs -> region_parent c r o) -> P s -> each (fun s r => match nth_error (regions c) r with None => Stuck | Some rd => each (fun s b => match nth_error (blocks c) b with None => Stuck | Some bd => each (walk_op n c (fun l x => (l ++ [x], Advance))) s (b_ops bd) end) s (r_blocks rd) end) s rs = Continued (B := Empty_set) s' -> P s').
  2:{ refine (K (o_regions d) _ _ _ _ H); [intros r Ir; eapply regions_owned; eassumption|]. exists []. split; [reflexivity|]. intros x [<-|[]]. left. reflexivity. }
  induction rs as [|r rs IHr]; intros s s' Hr Hs K; cbn [each] in K; [injection K as <-; exact Hs|].
  destruct (nth_error (regions c) r) as [rd|] eqn:Er; [|discriminate]. pose proof (Hr r (or_introl eq_refl)) as Ro.
  destruct (each _ s (r_blocks rd)) as [s1|s1 x|] eqn:K1; try discriminate. refine (IHr s1 s' (fun r' Ir => Hr r' (or_intror Ir)) _ K). clear K IHr s' Hr rs.
  assert (K2 : forall bs s s', (forall b, In b bs -> In b (r_blocks rd)) -> P s -> each (fun s b => match nth_error (blocks c) b with None => Stuck | Some bd => each (walk_op n c (fun l x => (l ++ [x], Advance))) s (b_ops bd) end) s bs = Continued (B := Empty_set) s' -> P s').
  2:{ exact (K2 _ _ _ (fun _ K => K) Hs K1). }
  clear K1 s Hs s1. induction bs as [|b bs IHb]; intros s s' Hb Hs K; cbn [each] in K; [injection K as <-; exact Hs|]. destruct (nth_error (blocks c) b) as [bd|] eqn:Eb; [|discriminate].
  destruct (each _ s (b_ops bd)) as [s1|s1 x|] eqn:K1; try discriminate. refine (IHb s1 s' (fun b' Ib => Hb b' (or_intror Ib)) _ K). clear K IHb s'. specialize (Hb b (or_introl eq_refl)).
  assert (K3 : forall os s s', (forall x, In x os -> In x (b_ops bd)) -> P s -> each (walk_op n c (fun l x => (l ++ [x], Advance))) s os = Continued (B := Empty_set) s' -> P s').
  2:{ exact (K3 _ _ _ (fun _ K => K) Hs K1). }
  clear K1 s Hs s1. induction os as [|x os IHo]; intros s s' Ho Hs K; cbn [each] in K; [injection K as <-; exact Hs|].
  destruct (walk_op n c _ s x) as [s1|s1 z|] eqn:K1; try discriminate. refine (IHo s1 s' (fun b' Ib => Ho b' (or_intror Ib)) _ K). clear K IHo s'. specialize (Ho x (or_introl eq_refl)).
  destruct (IH _ _ _ K1) as (sub & -> & Ix & Rx). destruct Hs as (sub0 & -> & R0). exists (sub0 ++ sub). rewrite <- app_assoc. split; [reflexivity|].
  intros y Iy. rewrite app_comm_cons in Iy. apply in_app_or in Iy. destruct Iy as [Iy|Iy].
  - destruct (R0 y Iy) as [->|(In1 & q & o' & S1 & S2 & S3)]; [left; reflexivity | right; split; [exact In1|]; exists q, o'; split; [exact S1|]; split; [exact S2|]]. rewrite app_comm_cons. apply in_or_app. left. exact S3.
  - right. assert (St : stands c x r) by (exists b; split; [exists bd; split; assumption | exists rd; split; assumption]). destruct (Rx y Iy) as [->|((q1 & Hq1 & Dq1) & q & o' & S1 & S2 & S3)].
    + split; [exists r; split; [exact Ro | apply deep_here; exact St]|]. exists r, o. split; [exact St | split; [exact Ro | left; reflexivity]].
    + split; [exists r; split; [exact Ro | eapply deep_trans; [apply deep_here; exact St | exact Hq1 | exact Dq1]]|]. exists q, o'. split; [exact S1|]. split; [exact S2|]. rewrite app_comm_cons. apply in_or_app. right. exact S3.
Qed.
Lemma remove_ok fuel c dead o c' sub : remove_op fuel c o = Some (c', sub) -> inv c dead ->
  inv c' (dead ++ sub) /\ ops c' = ops c /\ blocks c' = blocks c /\ regions c' = regions c /\ vals c' = vals c /\ op_results c' = op_results c /\ block_args c' = block_args c /\
  In o sub /\ rooted c o sub /\ par (ops c) o = None.
Proof.
  intros H I. assert (I' : inv c' (dead ++ sub)) by (apply (exec_inv c dead (Dispose fuel o)); [cbn; rewrite H; reflexivity | exact I]).
  unfold remove_op in H. destruct (nth_error (ops c) o) as [d|] eqn:Ed; [|discriminate]. destruct (o_parent d) eqn:Ep; [discriminate|]. destruct (forallb _ _); [|discriminate].
  destruct (walk_op _ _ _ _ _) as [l| |] eqn:E; try discriminate. injection H as <- <-. destruct (walk_rooted c dead I _ _ _ _ E) as (sub & -> & K1 & K2). cbn [app] in *.
  split; [exact I'|]. repeat (split; [reflexivity|]). split; [exact K1|]. split; [exact K2|]. unfold par. rewrite Ed. exact Ep.
Qed.

(** ** New operations without regions *)
Lemma create_leaf c k vs ts ss c' o : create_op c k vs ts [] ss = Some (c', o) ->
  o = length (ops c) /\ ops c' = ops c ++ [{| o_kind := k; o_operands := vs; o_result_types := ts; o_regions := []; o_succs := ss; o_parent := None |}] /\
  vals c' = vals c ++ map (OpResult o) (seq 0 (length ts)) /\ blocks c' = blocks c /\ regions c' = regions c /\ block_args c' = block_args c /\
  op_results c' = fupd (op_results c) o (seq (length (vals c)) (length ts)).
Proof. intros H. unfold create_op in H. cbn in H. injection H as <- <-. repeat split. Qed.
Lemma push_ok c dead b o c' : push_op c b o = Some c' -> inv c dead ->
  moves c c' /\ inv c' dead /\ (forall x, bops (blocks c') x = if Nat.eqb x b then bops (blocks c) b ++ [o] else bops (blocks c) x) /\ (forall x, bpar (blocks c') x = bpar (blocks c) x) /\
  regions c' = regions c /\ (forall x, par (ops c') x = if Nat.eqb x o then Some b else par (ops c) x) /\ length (blocks c') = length (blocks c) /\ b < length (blocks c).
Proof.
  intros H I. pose proof (push_op_inv _ _ _ _ _ H I) as I'. unfold push_op in H. destruct (nth_error (ops c) o) as [d|] eqn:Ed; [|discriminate]. destruct (nth_error (blocks c) b) as [bd|] eqn:Eb; [|discriminate].
  destruct (o_parent d) eqn:Ep; [discriminate|]. injection H as <-. split; [|split; [exact I'|]; split; [|split; [|split; [reflexivity|]; split; [|split]]]].
  - constructor; cbn [ops blocks regions vals uses op_results block_args set_blocks set_ops]; try reflexivity.
    + intros x. apply omap_upd_keep. reflexivity.
    + intros x _. apply omap_upd_keep. reflexivity.
    + intros x d0 Lx E0. exfalso. assert (x < length (blocks c)); [|lia]. erewrite <- upd_len. apply nth_error_Some. rewrite E0. discriminate.
    + rewrite upd_len. lia.
  - intros x. unfold bops. cbn [blocks set_blocks set_ops]. rewrite view_upd. cbn [b_ops set_bops]. destruct (Nat.eqb x b); [rewrite Eb|]; reflexivity.
  - intros x. unfold bpar. cbn [blocks set_blocks set_ops]. apply view_upd_keep. reflexivity.
  - intros x. unfold par. cbn [ops set_blocks set_ops]. rewrite view_upd. cbn [o_parent set_parent]. destruct (Nat.eqb x o); [rewrite Ed|]; reflexivity.
  - cbn [blocks set_blocks set_ops]. apply upd_len.
  - apply nth_error_Some. congruence.
Qed.

(** ** What all later steps of a lowering keep *)
Record keeps (c : ctx) (dead : list nat) (c' : ctx) (dead' : list nat) : Prop := {
  k_inv : inv c' dead';
  k_ops : forall x d, nth_error (ops c) x = Some d -> exists d', nth_error (ops c') x = Some d' /\ same_data d d' /\ o_operands d' = o_operands d;
  k_olen : length (ops c) <= length (ops c');
  k_results : forall x, x < length (ops c) -> op_results c' x = op_results c x;
  k_args : forall b, b < length (blocks c) -> block_args c' b = block_args c b;
  k_vals : length (vals c) <= length (vals c');
  k_blen : length (blocks c) <= length (blocks c');
  k_rpar : forall q, rpar (regions c') q = rpar (regions c) q;
  k_new : forall z d, length (ops c) <= z -> nth_error (ops c') z = Some d -> o_regions d = [] /\ forall v, In v (o_operands d) -> v < length (vals c') /\ ~ In v (op_results c' z);
  k_dead : forall x, In x dead -> In x dead';
}.
Lemma keeps_trans c dead c1 dead1 c2 dead2 : keeps c dead c1 dead1 -> keeps c1 dead1 c2 dead2 -> keeps c dead c2 dead2.
Proof.
  intros A B. constructor.
  - apply (k_inv _ _ _ _ B).
  - intros x d E. destruct (k_ops _ _ _ _ A x d E) as (d1 & E1 & (S1 & S2 & S3 & S4) & O1). destruct (k_ops _ _ _ _ B x d1 E1) as (d2 & E2 & (T1 & T2 & T3 & T4) & O2). exists d2. split; [exact E2|]. split; [|congruence]. repeat split; congruence.
  - pose proof (k_olen _ _ _ _ A). pose proof (k_olen _ _ _ _ B). lia.
  - intros x Lx. rewrite (k_results _ _ _ _ B), (k_results _ _ _ _ A); [reflexivity | exact Lx | pose proof (k_olen _ _ _ _ A); lia].
  - intros x Lx. rewrite (k_args _ _ _ _ B), (k_args _ _ _ _ A); [reflexivity | exact Lx | pose proof (k_blen _ _ _ _ A); lia].
  - pose proof (k_vals _ _ _ _ A). pose proof (k_vals _ _ _ _ B). lia.
  - pose proof (k_blen _ _ _ _ A). pose proof (k_blen _ _ _ _ B). lia.
  - intros q. rewrite (k_rpar _ _ _ _ B). apply (k_rpar _ _ _ _ A).
  - intros z d Lz E. destruct (Nat.lt_ge_cases z (length (ops c1))) as [K|K]; [|exact (k_new _ _ _ _ B z d K E)].
    destruct (nth_error (ops c1) z) as [d1|] eqn:E1; [|apply nth_error_None in E1; lia]. destruct (k_ops _ _ _ _ B z d1 E1) as (d2 & E2 & (T1 & T2 & T3 & T4) & O2). assert (d2 = d) as -> by congruence. destruct (k_new _ _ _ _ A z d1 Lz E1) as (R1 & V1). split; [congruence|].
    intros v Iv. rewrite O2 in Iv. destruct (V1 v Iv) as (V2 & V3). rewrite (k_results _ _ _ _ B z K). pose proof (k_vals _ _ _ _ B). split; [lia | exact V3].
  - intros x K. apply (k_dead _ _ _ _ B), (k_dead _ _ _ _ A), K.
Qed.
Lemma keeps_refl c dead : inv c dead -> keeps c dead c dead.
Proof.
  intros I. constructor; try reflexivity; try assumption; try (intros; assumption).
  - intros x d E. exists d. split; [exact E|]. repeat split; reflexivity.
  - intros z d L E. apply nth_error_None in L. congruence.
Qed.
Lemma moves_keeps c dead c' : moves c c' -> inv c' dead -> keeps c dead c' dead.
Proof.
  intros M I. constructor; try assumption; try (intros; assumption).
  - intros x d E. exact (mv_op c c' x d M E).
  - rewrite (mv_len _ _ M). reflexivity.
  - intros x _. rewrite (mv_results _ _ M). reflexivity.
  - intros x _. apply (mv_bargs _ _ M).
  - rewrite (mv_vals _ _ M). reflexivity.
  - apply (mv_blen _ _ M).
  - apply (mv_rpar _ _ M).
  - intros z d L E. rewrite <- (mv_len _ _ M) in L. apply nth_error_None in L. congruence.
Qed.
Lemma remove_keeps fuel c dead o c' sub : remove_op fuel c o = Some (c', sub) -> inv c dead -> keeps c dead c' (dead ++ sub).
Proof.
  intros H I. destruct (remove_ok _ _ _ _ _ _ H I) as (I' & E1 & E2 & E3 & E4 & E5 & E6 & _). constructor; rewrite ?E1, ?E2, ?E3, ?E4, ?E5, ?E6; try reflexivity; try assumption.
  - intros x d E. exists d. split; [exact E|]. repeat split; reflexivity.
  - intros z d L E. apply nth_error_None in L. congruence.
  - intros x K. apply in_or_app. left. exact K.
Qed.
Lemma create_keeps c dead k vs ts ss c' o : create_op c k vs ts [] ss = Some (c', o) -> inv c dead -> (forall v, In v vs -> v < length (vals c)) -> keeps c dead c' dead.
Proof.
  intros H I V. pose proof (create_op_inv _ _ _ _ _ _ _ _ _ H I) as I'. destruct (create_leaf _ _ _ _ _ _ _ H) as (-> & E1 & E2 & E3 & E4 & E5 & E6). constructor; try assumption; try (intros; assumption).
  - intros x d E. exists d. rewrite E1, nth_error_app1 by (apply nth_error_Some; congruence). split; [exact E|]. repeat split; reflexivity.
  - rewrite E1, app_length. lia.
  - intros x Lx. rewrite E6, fupd_other by lia. reflexivity.
  - intros x _. rewrite E5. reflexivity.
  - rewrite E2, app_length. lia.
  - rewrite E3. reflexivity.
  - intros q. rewrite E4. reflexivity.
  - intros z d Lz E. rewrite E1, nth_error_app2 in E by exact Lz. destruct (z - length (ops c)) as [|n] eqn:Ez; [|destruct n; discriminate]. cbn in E. injection E as <-. cbn. split; [reflexivity|]. intros v Iv. rewrite E2, app_length. split; [specialize (V v Iv); lia|].
    assert (z = length (ops c)) as -> by lia. rewrite E6, fupd_same. intros K. apply in_seq in K. specialize (V v Iv). lia.
Qed.
