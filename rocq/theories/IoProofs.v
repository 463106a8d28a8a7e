From Verif Require Import Base IoModel IoSpec.
Open Scope Z_scope.

(** ** Output *)

Lemma write_all_cons b bs e sched :
  write_all_with (b :: bs) (e :: sched) =
  let out := taken e (b :: bs) in
  match write_once e (b :: bs) with
  | WOk O => (WDone false, out, sched)
  | WOk written =>
      if (written <=? length (b :: bs))%nat
      then let '(r, out', s) := write_all_with (skipn written (b :: bs)) sched in
           (r, out ++ out', s)
      else (WDone false, out, sched)
  | WErrIntr => let '(r, out', s) := write_all_with (b :: bs) sched in (r, out ++ out', s)
  | WErr _ => (WDone false, out, sched)
  end.
Proof. reflexivity. Qed.

Lemma write_all_nil sched : write_all_with [] sched = (WDone true, [], sched).
Proof. destruct sched; reflexivity. Qed.

Lemma write_all_nil_sched b bs : write_all_with (b :: bs) [] = (WWaiting, [], []).
Proof. reflexivity. Qed.

Definition hard (e : wevent) : Prop :=
  match e with WAccept O => True | WBogus _ => True | WFail _ => True | _ => False end.

Lemma write_all_spec sched : forall bs r out s,
  write_all_with bs sched = (r, out, s) ->
  (exists rest, bs = out ++ rest) /\
  (exists used, sched = used ++ s /\ (r = WDone false -> exists e, In e used /\ hard e)) /\
  (r = WDone true -> out = bs).
Proof.
  induction sched as [|e sched IH]; intros bs r out s H.
  - destruct bs as [|b bs].
    + rewrite write_all_nil in H. inv H. split; [exists []; reflexivity|].
      split; [exists []; split; [reflexivity | discriminate]|]. reflexivity.
    + rewrite write_all_nil_sched in H. inv H. split; [exists (b :: bs); reflexivity|].
      split; [exists []; split; [reflexivity | discriminate]|]. discriminate.
  - destruct bs as [|b bs].
    { rewrite write_all_nil in H. inv H. split; [exists []; reflexivity|].
      split; [exists []; split; [reflexivity | discriminate]|]. reflexivity. }
    rewrite write_all_cons in H. cbv zeta in H.
    unfold taken in H. remember (b :: bs) as l eqn:El.
    assert (Hl1 : (1 <= length l)%nat) by (subst l; cbn [length]; lia).  clear El.
    destruct e as [k|extra| |c]; cbn [write_once] in H.
    + destruct k as [|k].
      * cbn in H. inv H. split; [eexists; reflexivity|].
        split; [|discriminate].
        exists [WAccept 0]. split; [reflexivity|]. intros _. exists (WAccept 0).
        split; [left; reflexivity | exact I].
      * set (n := Nat.min (S k) (length l)) in *.
        assert (Hn : (1 <= n <= length l)%nat) by (subst n; lia).
        destruct n as [|n']; [lia|].
        destruct (Nat.leb_spec (S n') (length l)) as [_|Hbad]; [|lia].
        destruct (write_all_with (skipn (S n') l) sched) as [[r' out'] s'] eqn:E.
        inv H. apply IH in E as ((rest & Hrest) & (used & Hu & Hf) & Ht).
        assert (Hsplit : l = firstn (S n') l ++ skipn (S n') l)
          by (symmetry; apply firstn_skipn).
        split; [exists rest; rewrite <- app_assoc, <- Hrest; exact Hsplit|].
        split.
        -- exists (WAccept (S k) :: used). split; [rewrite Hu; reflexivity|].
           intros Hr. apply Hf in Hr as (e & He & Hh). exists e. split; [right; exact He | exact Hh].
        -- intros Hr. rewrite (Ht Hr). symmetry. exact Hsplit.
    + destruct (Nat.leb_spec (S (length l + extra)) (length l)) as [Hb|_]; [lia|].
      inv H. split.
      * exists []. rewrite app_nil_r. symmetry.
        exact (firstn_all2 l (n := S (length l + extra)) ltac:(lia)).
      * split; [|discriminate].
        exists [WBogus extra]. split; [reflexivity|]. intros _. exists (WBogus extra).
        split; [left; reflexivity | exact I].
    + destruct (write_all_with l sched) as [[r' out'] s'] eqn:E.
      inv H. apply IH in E as ((rest & Hrest) & (used & Hu & Hf) & Ht).
      split; [exists rest; exact Hrest|]. split.
      * exists (WIntr :: used). split; [rewrite Hu; reflexivity|].
        intros Hr. apply Hf in Hr as (e & He & Hh). exists e. split; [right; exact He | exact Hh].
      * exact Ht.
    + inv H. split; [eexists; reflexivity|]. split; [|discriminate].
      exists [WFail c]. split; [reflexivity|]. intros _. exists (WFail c).
      split; [left; reflexivity | exact I].
Qed.

Definition soft (e : wevent) : Prop :=
  match e with WAccept (S _) => True | WIntr => True | _ => False end.
Definition accepts (s : list wevent) : nat :=
  length (filter (fun e => match e with WAccept _ => true | _ => false end) s).

Lemma write_all_progress sched : forall bs,
  Forall soft sched -> (length bs <= accepts sched)%nat ->
  exists s, write_all_with bs sched = (WDone true, bs, s).
Proof.
  induction sched as [|e sched IH]; intros bs Hs Hc.
  - destruct bs; [|cbn in Hc; lia]. exists []. apply write_all_nil.
  - destruct bs as [|b bs]; [exists (e :: sched); apply write_all_nil|].
    inversion Hs as [|? ? He Hs']; subst. rewrite write_all_cons. cbv zeta. unfold taken.
    destruct e as [[|k]| | |]; try contradiction; cbn [write_once].
    + set (n := Nat.min (S k) (length (b :: bs))).
      assert (Hn : (1 <= n <= length (b :: bs))%nat) by (subst n; cbn [length]; lia).
      destruct n as [|n']; [lia|].
      destruct (Nat.leb_spec (S n') (length (b :: bs))) as [_|Hbad]; [|lia].
      destruct (IH (skipn (S n') (b :: bs)) Hs') as [s E].
      { rewrite skipn_length. unfold accepts in *. cbn [filter length] in Hc |- *. lia. }
      rewrite E. exists s. rewrite firstn_skipn. reflexivity.
    + destruct (IH (b :: bs) Hs') as [s E]; [exact Hc|]. rewrite E. exists s. reflexivity.
Qed.

Lemma bytes_print_eq content sched : bytes_print content sched = write_all_with content sched.
Proof. destruct content; [destruct sched|]; reflexivity. Qed.

Lemma io_write_success_lemma content newline sched out r2 :
  io_write content newline sched = (WDone true, r2, out) ->
  (newline = 1 -> r2 = Some (WDone true)) ->
  out = content ++ (if newline =? 1 then [LF] else []).
Proof.
  unfold io_write. rewrite bytes_print_eq.
  destruct (write_all_with content sched) as [[r1 out1] s1] eqn:E1.
  apply write_all_spec in E1 as (_ & _ & H1).
  destruct r1 as [ok|]; [|intros H; inv H].
  destruct (Z.eqb_spec newline 1) as [Hn|Hn].
  - destruct (write_all_with [LF] s1) as [[r2' out2] s2] eqn:E2.
    apply write_all_spec in E2 as (_ & _ & H2).
    intros H Hr. inv H. specialize (Hr eq_refl). inv Hr.
    rewrite (H1 eq_refl), (H2 eq_refl). reflexivity.
  - intros H _. inv H. rewrite (H1 eq_refl). rewrite app_nil_r. reflexivity.
Qed.

Lemma io_write_no_newline_prefix_lemma content newline sched r1 r2 out :
  newline <> 1 -> io_write content newline sched = (r1, r2, out) ->
  exists rest, content = out ++ rest.
Proof.
  unfold io_write. rewrite bytes_print_eq. intros Hn.
  destruct (write_all_with content sched) as [[r1' out1] s1] eqn:E1.
  apply write_all_spec in E1 as (H1 & _ & _).
  destruct r1' as [ok|]; [|intros H; inv H; exact H1].
  destruct (Z.eqb_spec newline 1) as [H|_]; [contradiction|].
  intros H. inv H. exact H1.
Qed.

Lemma write_all_split_accepts n : forall sched,
  Forall soft sched -> (n <= accepts sched)%nat ->
  forall bs s, length bs = n -> write_all_with bs sched = (WDone true, bs, s) ->
  Forall soft s /\ (accepts sched - n <= accepts s)%nat.
Proof.
  intros sched. revert n. induction sched as [|e sched IH]; intros n Hs Hc bs s Hl H.
  - destruct bs; [|cbn in *; lia]. rewrite write_all_nil in H. inv H. split; [constructor | cbn; lia].
  - destruct bs as [|b bs].
    { rewrite write_all_nil in H. inv H. split; [exact Hs | cbn [length]; lia]. }
    inversion Hs as [|? ? He Hs']; subst. rewrite write_all_cons in H. cbv zeta in H. unfold taken in H.
    destruct e as [[|k]| | |]; try contradiction; cbn [write_once] in H.
    + remember (Nat.min (S k) (length (b :: bs))) as n eqn:Hdn.
      assert (Hn : (1 <= n <= length (b :: bs))%nat) by (subst n; cbn [length]; lia).
      destruct n as [|n']; [lia|].
      destruct (Nat.leb_spec (S n') (length (b :: bs))) as [_|Hbad]; [|lia].
      destruct (write_all_with (skipn (S n') (b :: bs)) sched) as [[r' out'] s'] eqn:E.
      inversion H as [[Hr Ho Hss]]. subst r' s'. pose proof E as E'.
      apply write_all_spec in E' as (_ & _ & Ht). specialize (Ht eq_refl). subst out'.
      apply IH with (n := length (skipn (S n') (b :: bs))) in E; [| exact Hs' | | reflexivity].
      * destruct E as [E1 E2]. split; [exact E1|].
        rewrite skipn_length in E2. clear Hdn IH Hs Hs' H. unfold accepts in *. cbn [filter length] in *.
        rewrite ?Ho in *. lia.
      * rewrite skipn_length. clear Hdn IH Hs Hs' H. unfold accepts in *. cbn [filter length] in *. lia.
    + destruct (write_all_with (b :: bs) sched) as [[r' out'] s'] eqn:E.
      inversion H as [[Hr Ho Hss]]. subst r' s' out'. exact (IH _ Hs' Hc _ _ eq_refl E).
Qed.

Lemma io_write_progress_lemma content newline sched :
  Forall soft sched -> (length content + 1 <= accepts sched)%nat ->
  exists r2, io_write content newline sched =
    (WDone true, r2, content ++ (if newline =? 1 then [LF] else [])) /\
    (newline = 1 -> r2 = Some (WDone true)).
Proof.
  intros Hs Hc. unfold io_write. rewrite bytes_print_eq.
  destruct (write_all_progress sched content Hs ltac:(lia)) as [s E]. rewrite E.
  assert (Hn : (length content <= accepts sched)%nat) by lia.
  destruct (write_all_split_accepts _ _ Hs Hn _ _ eq_refl E) as [Hs2 Ha].
  destruct (Z.eqb_spec newline 1) as [->|Hne].
  - destruct (write_all_progress s [LF] Hs2) as [s' E']; [cbn [length]; lia|].
    rewrite E'. eexists. split; [reflexivity | reflexivity].
  - eexists. split; [rewrite app_nil_r; reflexivity | contradiction].
Qed.

(** ** Input *)

Lemma buffer_ok_new : buffer_ok stdin_new.
Proof. unfold buffer_ok, stdin_new; cbn [position blen]; lia. Qed.

Lemma pending_step st b : buffer_ok st -> (position st < blen st)%nat ->
  nth_error (buf st) (position st) = Some b ->
  pending st = b :: pending {| buf := buf st; position := S (position st); blen := blen st |}.
Proof.
  intros [H1 H2] Hlt Hb. unfold pending; cbn [buf position blen].
  assert (Hsk : skipn (position st) (buf st) = b :: skipn (S (position st)) (buf st)).
  { apply list_eq_nth_error. intros i. rewrite nth_error_skipn. destruct i as [|i].
    - rewrite Nat.add_0_r. exact Hb.
    - cbn [nth_error]. rewrite nth_error_skipn. f_equal. lia. }
  rewrite Hsk. replace (blen st - position st)%nat with (S (blen st - S (position st))) by lia.
  reflexivity.
Qed.

Lemma pending_empty st : (blen st <= position st)%nat -> pending st = [].
Proof. intros H. unfold pending. replace (blen st - position st)%nat with 0%nat by lia. reflexivity. Qed.

Definition rbyte_item (r : rbyte) : item :=
  match r with BByte b => IByte b | BEof => IEof | BIntr => IIntr | BErr c => IErr c | BPanic => IEof end.

Lemma read_byte_items st sched : buffer_ok st ->
  match read_byte st sched with
  | None => to_come st sched = []
  | Some (r, st', sched') =>
      r <> BPanic /\ buffer_ok st' /\
      to_come st sched = rbyte_item r :: to_come st' sched' /\
      (fuel_for st' sched' < fuel_for st sched)%nat
  end.
Proof.
  intros Hok. unfold read_byte.
  destruct (Nat.ltb_spec (position st) (blen st)) as [Hlt|Hge].
  - destruct (nth_error (buf st) (position st)) as [b|] eqn:Eb.
    + split; [discriminate|]. split; [destruct Hok; split; cbn [position blen buf]; lia|].
      split.
      * unfold to_come. rewrite (pending_step st b Hok Hlt Eb). reflexivity.
      * unfold fuel_for; cbn [position blen]. lia.
    + apply nth_error_None in Eb. destruct Hok. lia.
  - assert (Hp : pending st = []) by (apply pending_empty; exact Hge).
    destruct sched as [|c sched].
    { unfold to_come. rewrite Hp. reflexivity. }
    destruct c as [b bs| | |c].
    + cbn [nth_error store_chunk app].
      split; [discriminate|]. split.
      { split; cbn [position blen buf length]; [lia|].
        unfold store_chunk. rewrite app_length, skipn_length. cbn [length]. lia. }
      split.
      * unfold to_come. rewrite Hp. cbn [map app sched_items flat_map chunk_items rbyte_item].
        f_equal. unfold pending; cbn [position blen buf length].
        cbn [skipn].
        replace (S (length bs) - 1)%nat with (length bs) by lia.
        rewrite firstn_length_app. reflexivity.
      * unfold fuel_for; cbn [position blen fold_right chunk_weight length]. lia.
    + split; [discriminate|]. split; [exact Hok|]. split.
      * unfold to_come. rewrite Hp. reflexivity.
      * unfold fuel_for; cbn [fold_right chunk_weight]. lia.
    + split; [discriminate|]. split; [exact Hok|]. split.
      * unfold to_come. rewrite Hp. reflexivity.
      * unfold fuel_for; cbn [fold_right chunk_weight]. lia.
    + split; [discriminate|]. split; [exact Hok|]. split.
      * unfold to_come. rewrite Hp. reflexivity.
      * unfold fuel_for; cbn [fold_right chunk_weight]. lia.
Qed.

Lemma pop_cr_spec bs : strip_cr bs (pop_cr bs).
Proof.
  unfold pop_cr, strip_cr. destruct (rev bs) as [|c rest] eqn:E.
  - right. split; [reflexivity|]. intros [p Hp]. apply (f_equal (@rev byte)) in Hp.
    rewrite E, rev_app_distr in Hp. discriminate.
  - assert (Hb : bs = rev rest ++ [c]) by (rewrite <- (rev_involutive bs), E; reflexivity).
    destruct (Z.eqb_spec c CR) as [->|Hne].
    + left. exact Hb.
    + right. split; [reflexivity|]. intros [p Hp]. rewrite Hb in Hp.
      apply app_inj_tail in Hp as [_ Hc]. contradiction.
Qed.

Lemma strip_cr_fun bs l1 l2 : strip_cr bs l1 -> strip_cr bs l2 -> l1 = l2.
Proof.
  intros [H1|[H1 N1]] [H2|[H2 N2]].
  - rewrite H1 in H2. apply app_inj_tail in H2 as [H _]. exact H.
  - exfalso. apply N2. exists l1. exact H1.
  - exfalso. apply N1. exists l2. exact H2.
  - congruence.
Qed.

Section Utf8.
Variable utf8_ok : list byte -> bool.

Lemma line_result_spec_lf bs : read_spec utf8_ok bs (IByte LF) (line_result utf8_ok (pop_cr bs)).
Proof.
  unfold line_result. destruct (utf8_ok (pop_cr bs)) eqn:E.
  - apply RS_line; [apply pop_cr_spec | exact E].
  - apply RS_line_bad with (pop_cr bs); [apply pop_cr_spec | exact E].
Qed.

(** The loop started with accumulated bytes [acc]. *)
Lemma loop_classify pre : forall acc st sched term post fuel,
  buffer_ok st -> Forall continues pre -> ~ continues term ->
  to_come st sched = pre ++ term :: post -> (fuel_for st sched <= fuel)%nat ->
  exists r st' sched',
    read_line_loop utf8_ok fuel acc st sched = Some (r, st', sched') /\
    read_spec utf8_ok (acc ++ flat_map item_bytes pre) term r /\
    buffer_ok st' /\ to_come st' sched' = post.
Proof.
  induction pre as [|i pre IH]; intros acc st sched term post fuel Hok Hc Ht Hitems Hfuel;
    (destruct fuel as [|fuel]; [unfold fuel_for in Hfuel; lia|]); cbn [read_line_loop];
    pose proof (read_byte_items st sched Hok) as Hrb;
    (destruct (read_byte st sched) as [[[r st'] sched']|];
     [| rewrite Hitems in Hrb; try destruct pre; discriminate]);
    destruct Hrb as (Hnp & Hok' & Hit & Hf); rewrite Hitems in Hit;
    cbn [app] in Hit; injection Hit as Hi Hpost.
  - cbn [flat_map]. rewrite app_nil_r.
    destruct r as [b| | |c|]; cbn [rbyte_item] in Hi; subst term; try contradiction.
    + cbn [continues] in Ht. destruct (Z.eqb_spec b LF) as [->|Hne]; [|contradiction].
      exists (line_result utf8_ok (pop_cr acc)), st', sched'. split; [reflexivity|].
      split; [apply line_result_spec_lf|]. split; [exact Hok' | symmetry; exact Hpost].
    + destruct acc as [|a acc].
      * exists REndOfFile, st', sched'. split; [reflexivity|].
        split; [constructor|]. split; [exact Hok' | symmetry; exact Hpost].
      * exists (line_result utf8_ok (a :: acc)), st', sched'. split; [reflexivity|].
        split; [|split; [exact Hok' | symmetry; exact Hpost]].
        unfold line_result. destruct (utf8_ok (a :: acc)) eqn:E;
          constructor; try discriminate; exact E.
    + exfalso. apply Ht. exact I.
    + exists (RSystem c), st', sched'. split; [reflexivity|].
      split; [constructor|]. split; [exact Hok' | symmetry; exact Hpost].
  - inversion Hc as [|? ? Hci Hc']; subst.
    destruct r as [b| | |c|]; cbn [rbyte_item continues] in Hci; try contradiction.
    + destruct (Z.eqb_spec b LF) as [->|Hne]; [contradiction|].
      destruct (IH (acc ++ [b]) st' sched' term post fuel Hok' Hc' Ht (eq_sym Hpost))
        as (r & st2 & s2 & E & Hs & Hok2 & Hp2); [lia|].
      exists r, st2, s2. split; [exact E|]. split; [|split; assumption].
      rewrite <- app_assoc in Hs. exact Hs.
    + destruct (IH acc st' sched' term post fuel Hok' Hc' Ht (eq_sym Hpost))
        as (r & st2 & s2 & E & Hs & Hok2 & Hp2); [lia|].
      exists r, st2, s2. split; [exact E|]. split; [exact Hs|]. split; assumption.
Qed.

Lemma loop_blocks pre : forall acc st sched fuel,
  buffer_ok st -> Forall continues pre -> to_come st sched = pre ->
  (fuel_for st sched <= fuel)%nat ->
  read_line_loop utf8_ok fuel acc st sched = None.
Proof.
  induction pre as [|i pre IH]; intros acc st sched fuel Hok Hc Hitems Hfuel;
    (destruct fuel as [|fuel]; [unfold fuel_for in Hfuel; lia|]); cbn [read_line_loop];
    pose proof (read_byte_items st sched Hok) as Hrb;
    destruct (read_byte st sched) as [[[r st'] sched']|]; try reflexivity;
    destruct Hrb as (Hnp & Hok' & Hit & Hf); rewrite Hitems in Hit; [discriminate|].
  injection Hit as Hi Hpost. inversion Hc as [|? ? Hci Hc']; subst.
  destruct r as [b| | |c|]; cbn [rbyte_item continues] in Hci; try contradiction.
  - destruct (Z.eqb_spec b LF) as [->|Hne]; [contradiction|].
    apply IH; [exact Hok' | exact Hc' | reflexivity | lia].
  - apply IH; [exact Hok' | exact Hc' | reflexivity | lia].
Qed.

Lemma read_line_classify_lemma st sched pre term post :
  buffer_ok st -> to_come st sched = pre ++ term :: post ->
  Forall continues pre -> ~ continues term ->
  exists r st' sched',
    read_line utf8_ok st sched = Some (r, st', sched') /\
    read_spec utf8_ok (flat_map item_bytes pre) term r /\
    buffer_ok st' /\ to_come st' sched' = post.
Proof.
  intros Hok Hit Hc Ht. unfold read_line.
  exact (loop_classify pre [] st sched term post _ Hok Hc Ht Hit (Nat.le_refl _)).
Qed.

Lemma read_line_blocks_lemma st sched :
  buffer_ok st -> (read_line utf8_ok st sched = None <-> Forall continues (to_come st sched)).
Proof.
  intros Hok. split.
  - intros Hn. destruct (Forall_Exists_dec continues) with (l := to_come st sched) as [H|H].
    + intros [b| | |c]; cbn [continues]; try (left; exact I); try (right; tauto).
      destruct (Z.eq_dec b LF); [right; tauto | left; assumption].
    + exact H.
    + exfalso.
      assert (Hd : exists pre term post, to_come st sched = pre ++ term :: post /\
                     Forall continues pre /\ ~ continues term).
      { clear Hn. induction H as [i l Hi|i l Hl IH].
        - exists [], i, l. split; [reflexivity|]. split; [constructor | exact Hi].
        - destruct (ltac:(destruct i as [b| | |c]; cbn [continues];
              [destruct (Z.eq_dec b LF); [right; tauto | left; assumption]
              |right; tauto | left; exact I | right; tauto]) : {continues i} + {~ continues i}) as [Hi|Hi].
          + destruct IH as (pre & term & post & E & Hp & Ht).
            exists (i :: pre), term, post. split; [rewrite E; reflexivity|].
            split; [constructor; assumption | exact Ht].
          + exists [], i, l. split; [reflexivity|]. split; [constructor | exact Hi]. }
      destruct Hd as (pre & term & post & E & Hp & Ht).
      destruct (read_line_classify_lemma st sched pre term post Hok E Hp Ht) as (r & st' & s' & Hr & _).
      congruence.
  - intros H. unfold read_line. exact (loop_blocks _ [] st sched _ Hok H eq_refl (Nat.le_refl _)).
Qed.

(** ** Whole streams *)

(** Peel the interrupts and non-newline bytes of a segment. *)
Lemma items_split : forall items l rest,
  Forall (fun i => match i with IByte _ | IIntr => True | _ => False end) items ->
  ~ In LF l -> flat_map item_bytes items = l ++ LF :: rest ->
  exists pre post, items = pre ++ IByte LF :: post /\ Forall continues pre /\
    flat_map item_bytes pre = l /\ flat_map item_bytes post = rest.
Proof.
  induction items as [|i items IH]; intros l rest Hd Hl Hb; cbn [flat_map] in Hb.
  - destruct l; discriminate.
  - inversion Hd as [|? ? Hi Hd']; subst. destruct i as [b| | |c]; try contradiction; cbn [item_bytes app] in Hb.
    + destruct l as [|x l]; cbn [app] in Hb; injection Hb as Hb1 Hb2.
      * subst b. exists [], items. repeat split; [constructor | exact Hb2].
      * subst b. assert (Hl' : ~ In LF l) by (intros H; apply Hl; right; exact H).
        destruct (IH l rest Hd' Hl' Hb2) as (pre & post & E & Hp & Hbp & Hbr).
        exists (IByte x :: pre), post. split; [rewrite E; reflexivity|].
        split; [constructor; [cbn; intros ->; apply Hl; left; reflexivity | exact Hp]|].
        split; [cbn; rewrite Hbp; reflexivity | exact Hbr].
    + destruct (IH l rest Hd' Hl Hb) as (pre & post & E & Hp & Hbp & Hbr).
      exists (IIntr :: pre), post. split; [rewrite E; reflexivity|].
      split; [constructor; [exact I | exact Hp]|]. split; assumption.
Qed.

Lemma data_items s : Forall is_data s ->
  Forall (fun i => match i with IByte _ | IIntr => True | _ => False end) (sched_items s).
Proof.
  intros H. induction H as [|c s Hc _ IH]; [constructor|].
  unfold sched_items; cbn [flat_map]. apply Forall_app. split; [|exact IH].
  destruct c as [b bs| | |c]; try contradiction.
  - cbn [chunk_items]. apply Forall_forall. intros i Hi. apply in_map_iff in Hi as (x & <- & _). exact I.
  - constructor; [exact I | constructor].
Qed.

(** Items of the end-of-file part. *)
Lemma eof_items s : Forall is_eof_or_intr s ->
  Forall (fun i => match i with IEof | IIntr => True | _ => False end) (sched_items s) /\
  length (filter (fun i => match i with IEof => true | _ => false end) (sched_items s)) = count_eof s.
Proof.
  intros H. induction H as [|c s Hc _ [IH1 IH2]]; [split; [constructor | reflexivity]|].
  destruct c as [b bs| | |c]; try contradiction; unfold sched_items, count_eof in *;
    cbn [flat_map chunk_items app filter length]; split;
    try (constructor; [exact I | exact IH1]); rewrite <- IH2; reflexivity.
Qed.

Definition eofi (i : item) : bool := match i with IEof => true | _ => false end.

Lemma eof_split items : Forall (fun i => match i with IEof | IIntr => True | _ => False end) items ->
  (1 <= length (filter eofi items))%nat ->
  exists pre post, items = pre ++ IEof :: post /\ Forall continues pre /\
    flat_map item_bytes pre = [] /\
    Forall (fun i => match i with IEof | IIntr => True | _ => False end) post /\
    length (filter eofi items) = S (length (filter eofi post)).
Proof.
  intros H. induction H as [|i items Hi Hd IH]; intros Hc; [cbn in Hc; lia|].
  destruct i as [b| | |c]; try contradiction.
  - exists [], items. repeat split; try constructor; exact Hd.
  - destruct (IH Hc) as (pre & post & E & Hp & Hb & Hpost & Hn).
    exists (IIntr :: pre), post. split; [rewrite E; reflexivity|].
    split; [constructor; [exact I | exact Hp]|]. split; [exact Hb|]. split; [exact Hpost | exact Hn].
Qed.

Lemma read_lines_eof n : forall st sched,
  buffer_ok st ->
  Forall (fun i => match i with IEof | IIntr => True | _ => False end) (to_come st sched) ->
  (n <= length (filter eofi (to_come st sched)))%nat ->
  read_lines utf8_ok n st sched = repeat REndOfFile n.
Proof.
  induction n as [|n IH]; intros st sched Hok Hi Hn; [reflexivity|].
  cbn [read_lines repeat].
  destruct (eof_split _ Hi ltac:(lia)) as (pre & post & E & Hp & Hb & Hpost & Hc).
  destruct (read_line_classify_lemma st sched pre IEof post Hok E Hp) as (r & st' & s' & Hr & Hs & Hok' & Htc);
    [cbn; tauto|].
  rewrite Hr. rewrite Hb in Hs. inversion Hs; subst; try congruence.
  f_equal. apply IH; [exact Hok' | exact Hpost | lia].
Qed.

Lemma items_all_continue items bs :
  Forall (fun i => match i with IByte _ | IIntr => True | _ => False end) items ->
  flat_map item_bytes items = bs -> ~ In LF bs -> Forall continues items.
Proof.
  intros H. revert bs. induction H as [|i items Hi _ IH]; intros bs Hb Hn; [constructor|].
  cbn [flat_map] in Hb. destruct i as [b| | |c]; try contradiction; cbn [item_bytes app] in Hb.
  - subst bs. constructor.
    + cbn. intros ->. apply Hn. left; reflexivity.
    + apply (IH _ eq_refl). intros Hin. apply Hn. right. exact Hin.
  - constructor; [exact I|]. apply (IH _ Hb Hn).
Qed.

Lemma read_lines_stream_aux ls : forall ls' lst items_d items_e n st sched,
  buffer_ok st -> to_come st sched = items_d ++ items_e ->
  Forall (fun i => match i with IByte _ | IIntr => True | _ => False end) items_d ->
  Forall (fun i => match i with IEof | IIntr => True | _ => False end) items_e ->
  Forall (fun l => ~ In LF l) ls -> ~ In LF lst ->
  Forall2 strip_cr ls ls' ->
  flat_map item_bytes items_d = flat_map (fun l => l ++ [LF]) ls ++ lst ->
  (n <= length (filter eofi items_e))%nat ->
  read_lines utf8_ok n st sched =
  firstn n (map (line_res utf8_ok) ls'
            ++ (match lst with [] => [] | _ => [line_res utf8_ok lst] end)
            ++ repeat REndOfFile n).
Proof.
  induction ls as [|l ls IH]; intros ls' lst items_d items_e n st sched Hok Hit Hd He Hls Hlst Hstrip Hb Hn.
  - inversion Hstrip; subst. cbn [map app flat_map] in *.
    destruct lst as [|x lst'] eqn:El.
    + cbn [app]. rewrite firstn_all2 by (rewrite repeat_length; lia).
      assert (Hi : Forall (fun i => match i with IEof | IIntr => True | _ => False end) (to_come st sched)).
      { rewrite Hit. apply Forall_app. split; [|exact He].
        clear -Hd Hb. induction Hd as [|i l Hi _ IHd]; [constructor|].
        cbn [flat_map] in Hb. apply app_eq_nil in Hb as [Hb1 Hb2].
        constructor; [destruct i; try contradiction; [discriminate | exact I] | exact (IHd Hb2)]. }
      apply read_lines_eof; [exact Hok | exact Hi|].
      rewrite Hit, filter_app, app_length. lia.
    + rewrite <- El in *. destruct n as [|n]; [reflexivity|].
      cbn [read_lines]. 
      destruct (eof_split _ He ltac:(lia)) as (pre & post & E & Hp & Hbp & Hpost & Hc).
      assert (Hit' : to_come st sched = (items_d ++ pre) ++ IEof :: post)
        by (rewrite Hit, E, <- app_assoc; reflexivity).
      destruct (read_line_classify_lemma st sched (items_d ++ pre) IEof post Hok Hit')
        as (r & st' & s' & Hr & Hs & Hok' & Htc).
      { apply Forall_app. split; [|exact Hp]. exact (items_all_continue _ _ Hd Hb Hlst). }
      { cbn; tauto. }
      rewrite Hr. rewrite flat_map_app, Hbp, app_nil_r, Hb in Hs.
      assert (Hres : r = line_res utf8_ok lst).
      { inversion Hs; subst; unfold line_res; try congruence;
          match goal with H : utf8_ok _ = _ |- _ => rewrite H; reflexivity end. }
      rewrite Hres. cbn [app firstn]. f_equal.
      change (repeat REndOfFile (S n)) with (REndOfFile :: repeat REndOfFile n).
      assert (Hrep : firstn n (REndOfFile :: repeat REndOfFile n) = repeat REndOfFile n).
      { change (REndOfFile :: repeat REndOfFile n) with (repeat REndOfFile (S n)).
        replace (S n) with (n + 1)%nat by lia. rewrite repeat_app.
        rewrite firstn_app, repeat_length, Nat.sub_diag. cbn [firstn].
        rewrite app_nil_r. apply firstn_all2. rewrite repeat_length. lia. }
      rewrite Hrep. apply read_lines_eof; [exact Hok' | rewrite Htc; exact Hpost | rewrite Htc; lia].
  - inversion Hstrip as [|? l' ? ls'' Hl Hstrip']; subst.
    inversion Hls as [|? ? Hln Hls']; subst.
    destruct n as [|n]; [reflexivity|].
    cbn [flat_map] in Hb. rewrite <- !app_assoc in Hb. cbn [app] in Hb.
    destruct (items_split items_d l _ Hd Hln Hb) as (pre & post & E & Hp & Hbp & Hbr).
    cbn [read_lines].
    assert (Hit' : to_come st sched = pre ++ IByte LF :: (post ++ items_e))
      by (rewrite Hit, E, <- app_assoc; reflexivity).
    destruct (read_line_classify_lemma st sched pre (IByte LF) (post ++ items_e) Hok Hit' Hp)
      as (r & st' & s' & Hr & Hs & Hok' & Htc); [cbn; tauto|].
    rewrite Hr. rewrite Hbp in Hs.
    assert (Hres : r = line_res utf8_ok l').
    { inversion Hs as [? l2 Hst Hu|? l2 Hst Hu| | | |]; subst; unfold line_res;
        rewrite (strip_cr_fun _ _ _ Hl Hst), Hu; reflexivity. }
    rewrite Hres. cbn [map app firstn]. f_equal.
    assert (Hdp : Forall (fun i => match i with IByte _ | IIntr => True | _ => False end) post).
    { rewrite E in Hd. apply Forall_app in Hd as [_ Hd]. inversion Hd; assumption. }
    rewrite (IH ls'' lst post items_e n st' s' Hok' Htc Hdp He Hls' Hlst Hstrip' Hbr ltac:(lia)).
    rewrite !app_assoc. rewrite !firstn_app. f_equal.
    set (k := (n - length _)%nat). assert (Hk : (k <= n)%nat) by (subst k; lia). clearbody k.
    change (repeat REndOfFile (S n)) with (repeat REndOfFile (S n)).
    replace (S n) with (n + 1)%nat by lia. rewrite repeat_app, firstn_app, repeat_length.
    replace (k - n)%nat with 0%nat by lia. cbn [firstn]. rewrite app_nil_r. reflexivity.
Qed.

Lemma read_lines_stream_lemma data eofs ls ls' lst n :
  Forall is_data data -> Forall is_eof_or_intr eofs ->
  sched_bytes data = flat_map (fun l => l ++ [LF]) ls ++ lst ->
  Forall (fun l => ~ In LF l) ls -> ~ In LF lst -> Forall2 strip_cr ls ls' ->
  (n <= count_eof eofs)%nat ->
  read_lines utf8_ok n stdin_new (data ++ eofs) =
  firstn n (map (line_res utf8_ok) ls'
            ++ (match lst with [] => [] | _ => [line_res utf8_ok lst] end)
            ++ repeat REndOfFile n).
Proof.
  intros Hd He Hb Hls Hlst Hstrip Hn.
  destruct (eof_items _ He) as [Hei Hec].
  apply read_lines_stream_aux with (ls := ls) (items_d := sched_items data) (items_e := sched_items eofs).
  - exact buffer_ok_new.
  - unfold to_come. rewrite (pending_empty stdin_new) by (cbn; lia).
    unfold sched_items. rewrite flat_map_app. reflexivity.
  - apply data_items. exact Hd.
  - exact Hei.
  - exact Hls.
  - exact Hlst.
  - exact Hstrip.
  - exact Hb.
  - unfold eofi. rewrite Hec. exact Hn.
Qed.
End Utf8.

(** Every byte stream has a decomposition into lines, so the theorem applies. *)
Lemma stream_decomposes bs : exists ls lst,
  bs = flat_map (fun l => l ++ [LF]) ls ++ lst /\
  Forall (fun l => ~ In LF l) ls /\ ~ In LF lst.
Proof.
  induction bs as [|b bs IH].
  - exists [], []. repeat split; [constructor | intros []].
  - destruct IH as (ls & lst & E & Hls & Hlst).
    destruct (Z.eq_dec b LF) as [->|Hne].
    + exists ([] :: ls), lst. split; [cbn; rewrite E; reflexivity|].
      split; [constructor; [intros [] | exact Hls] | exact Hlst].
    + destruct ls as [|l ls].
      * exists [], (b :: lst). cbn in *. split; [rewrite E; reflexivity|].
        split; [constructor|]. intros [H|H]; [congruence | exact (Hlst H)].
      * exists ((b :: l) :: ls), lst. cbn in *. split; [rewrite E; reflexivity|].
        inversion Hls as [|? ? Hl Hls']; subst. split; [|exact Hlst].
        constructor; [|exact Hls']. intros [H|H]; [congruence | exact (Hl H)].
Qed.

Lemma strip_cr_total l : exists l', strip_cr l l'.
Proof. exists (pop_cr l). apply pop_cr_spec. Qed.
