(** The order of blocks during a lowering, and the kinds of the operations it makes. *)
From Verif Require Import ScfModel ScfSpec IrProofs IrInvProofs IrMainProofs ScfSim ScfRun ScfArena ScfLower ScfIf ScfSwitch.
From Coq Require Import Lia.

Definition kd (c : ctx) (x : nat) : option nat := option_map o_kind (nth_error (ops c) x).
Lemma kd_upd l x o f : (forall d, o_kind (f d) = o_kind d) -> option_map o_kind (nth_error (upd l o f) x) = option_map o_kind (nth_error l x).
Proof. intros K. rewrite nth_upd. destruct (Nat.eqb x o); [|reflexivity]. destruct (nth_error l x) as [d|]; cbn; [rewrite K|]; reflexivity. Qed.
Lemma kd_fold tl f : (forall d, o_kind (f d) = o_kind d) -> forall l x, option_map o_kind (nth_error (fold_left (fun l o => upd l o f) tl l) x) = option_map o_kind (nth_error l x).
Proof. intros K. induction tl as [|o tl IH]; intros l x; cbn [fold_left]; [reflexivity|]. rewrite IH. apply kd_upd. exact K. Qed.
Lemma position_at x l : forall p, position x l = Some p -> exists A B, l = A ++ x :: B /\ length A = p /\ ~ In x A.
Proof.
  induction l as [|y l IH]; intros p H; cbn in H; [discriminate|]. destruct (Nat.eqb_spec y x) as [->|N].
  - injection H as <-. exists [], l. split; [reflexivity|]. split; [reflexivity | intros []].
  - destruct (position x l) as [p'|] eqn:E; [|discriminate]. injection H as <-. destruct (IH p' eq_refl) as (A & B & -> & <- & Na). exists (y :: A), B. split; [reflexivity|]. split; [reflexivity|]. intros [K|K]; [congruence | contradiction].
Qed.
(** A prefix without [m] is kept by an insertion before [m]. *)
Lemma insert_prefix m X Y Z l p : X ++ Y = l -> ~ In m X -> position m l = Some p -> exists Y', firstn p l ++ Z ++ skipn p l = X ++ Y'.
Proof.
  intros E N Hp. destruct (position_at m l p Hp) as (A & B & E2 & Lp & Na). assert (L : length X <= p).
  { destruct (Nat.le_gt_cases (length X) p) as [K|K]; [exact K|]. exfalso. apply N. assert (Hm : nth_error l p = Some m) by (rewrite E2, <- Lp, nth_error_app2, Nat.sub_diag by lia; reflexivity). rewrite <- E, nth_error_app1 in Hm by lia. eapply nth_error_In. exact Hm. }
  exists (firstn (p - length X) Y ++ Z ++ skipn p l). rewrite (app_assoc X). f_equal. rewrite <- E, firstn_app, firstn_all2 by lia. reflexivity.
Qed.

Section Order.
  Variable shape_of : nat -> shape.
  Variables P m : nat.
  Variable D : nat -> Prop.
  Record ord (c c' : ctx) : Prop := {
    od_other : forall q, q <> P -> ~ D q -> rblks (regions c') q = rblks (regions c) q;
    od_front : forall X Y, rblks (regions c) P = X ++ Y -> ~ In m X -> exists Y', rblks (regions c') P = X ++ Y';
    od_kind : forall x k, kd c' x = Some k -> kd c x = Some k \/ control (shape_of k) = false;
  }.
  Lemma ord_refl c : ord c c.
  Proof. constructor; [reflexivity | intros X Y E _; exists Y; exact E | auto]. Qed.
  Lemma ord_trans c1 c2 c3 : ord c1 c2 -> ord c2 c3 -> ord c1 c3.
  Proof.
    intros A B. constructor.
    - intros q N Nd. rewrite (od_other _ _ B q N Nd). apply (od_other _ _ A q N Nd).
    - intros X Y E N. destruct (od_front _ _ A X Y E N) as (Y1 & E1). apply (od_front _ _ B X Y1 E1 N).
    - intros x k K. destruct (od_kind _ _ B x k K) as [K1|K1]; [apply (od_kind _ _ A x k K1) | right; exact K1].
  Qed.
  Lemma ord_same c c' : regions c' = regions c -> (forall x, kd c' x = kd c x) -> ord c c'.
  Proof. intros R K. constructor; rewrite ?R; [reflexivity | intros X Y E _; exists Y; exact E | intros x k; rewrite K; auto]. Qed.
  Lemma iter_ord {X} (f : ctx -> X -> option ctx) l : (forall c x c', In x l -> f c x = Some c' -> ord c c') -> forall c c', iter f c l = Some c' -> ord c c'.
  Proof.
    induction l as [|x l IH]; intros F c c' H; cbn [iter] in H; [injection H as <-; apply ord_refl|]. bindin H c1 E1. eapply ord_trans; [eapply F; [left; reflexivity | exact E1] | apply IH; [|exact H]]. intros c0 y c2 K. apply F. right. exact K.
  Qed.
  Lemma detach_ord c o c' : detach_op c o = Some c' -> ord c c'.
  Proof.
    unfold detach_op. destruct (nth_error (ops c) o) as [d|] eqn:Ed; [|discriminate]. destruct (o_parent d) as [b|] eqn:Ep; [|intros [= <-]; apply ord_refl]. unfold remove_op_from_block. rewrite Ed, Ep. destruct (nth_error (blocks c) b); [|discriminate]. intros [= <-].
    destruct (Nat.eqb b b); apply ord_same; cbn; try reflexivity. intros x. unfold kd. cbn. apply kd_upd. reflexivity.
  Qed.
  Lemma discard_ord depth c o c' : discard depth c o = Some c' -> ord c c'.
  Proof.
    unfold discard. destruct (remove_op depth c o) as [[c1 l]|] eqn:Er; [|discriminate]. cbn [obind]. intros [= <-]. unfold remove_op in Er. destruct (nth_error (ops c) o) as [d|]; [|discriminate]. destruct (o_parent d); [discriminate|]. destruct (forallb _ _); [|discriminate]. destruct (walk_op _ _ _ _ _); try discriminate. injection Er as <- _. apply ord_same; reflexivity.
  Qed.
  Lemma erase_ord depth c o c' : erase depth c o = Some c' -> ord c c'.
  Proof. unfold erase. intros H. bindin H c1 E1. eapply ord_trans; [eapply detach_ord; exact E1|]. apply (discard_ord depth c1 o). exact H. Qed.
  Lemma push_ord c b o c' : push_op c b o = Some c' -> ord c c'.
  Proof.
    unfold push_op. destruct (nth_error (ops c) o) as [d|]; [|discriminate]. destruct (nth_error (blocks c) b); [|discriminate]. destruct (o_parent d); [discriminate|]. intros [= <-]. apply ord_same; [reflexivity|]. intros x. unfold kd. cbn. apply kd_upd. reflexivity.
  Qed.
  Lemma create_ord c k vs ts ss c' o : control (shape_of k) = false -> create_op c k vs ts [] ss = Some (c', o) -> ord c c'.
  Proof.
    intros Ck H. apply create_leaf in H. destruct H as (_ & Eo & _ & _ & Er & _). constructor; rewrite ?Er; [reflexivity | intros X Y E _; exists Y; exact E|].
    intros x k'. unfold kd. rewrite Eo. destruct (Nat.lt_ge_cases x (length (ops c))) as [K|K]; [rewrite nth_error_app1 by exact K; auto|]. rewrite nth_error_app2 by exact K. destruct (x - length (ops c)) as [|[|n]]; cbn; [intros [= <-]; right; exact Ck | discriminate | discriminate].
  Qed.
  Lemma replace_ord r a c : ord c (replace_all_uses c r a).
  Proof.
    unfold replace_all_uses. destruct (Nat.eqb r a); [apply ord_refl|].
    assert (K : forall l c0, ord c0 (fold_left (replace_one a) l c0)).
    { induction l as [|u l IH]; intros c0; cbn [fold_left]; [apply ord_refl|]. eapply ord_trans; [|apply IH]. unfold replace_one. apply ord_same; [reflexivity|]. intros x. unfold kd. cbn. apply kd_upd. reflexivity. }
    eapply ord_trans; [|apply K]. apply ord_same; reflexivity.
  Qed.
  Lemma carry_ord c r c' : carry c m r = Some c' -> ord c c'.
  Proof.
    unfold carry. destruct r as [r|]; [|intros [= <-]; apply ord_refl]. intros H. bindin H ty Et. bindin H y Ey. destruct y as [c1 a]. injection H as <-. unfold add_block_arg in Ey. destruct (nth_error (blocks c) m); [|discriminate]. injection Ey as <- <-. eapply ord_trans; [|apply replace_ord]. apply ord_same; reflexivity.
  Qed.
  Lemma rblks_upd rs r g q : rblks (upd rs r (fun x => {| r_blocks := g (r_blocks x); r_parent := r_parent x |})) q = if Nat.eqb q r && (r <? length rs) then g (rblks rs q) else rblks rs q.
  Proof.
    unfold rblks. rewrite nth_upd. destruct (Nat.eqb_spec q r) as [->|N]; [|reflexivity]. destruct (Nat.ltb_spec r (length rs)) as [K|K]; cbn [andb].
    - destruct (nth_error rs r) as [d|] eqn:E; [reflexivity | apply nth_error_None in E; lia].
    - apply nth_error_None in K. rewrite K. reflexivity.
  Qed.
  Lemma place_ord c b k rd : nth_error (regions c) P = Some rd -> position m (r_blocks rd) = Some k -> ord c (place_block c P k b).
  Proof.
    intros Er Hp. assert (Hr : forall q, rblks (regions (place_block c P k b)) q = if Nat.eqb q P then firstn k (rblks (regions c) q) ++ b :: skipn k (rblks (regions c) q) else rblks (regions c) q).
    { intros q. unfold place_block. cbn [regions set_regions set_blocks]. rewrite (rblks_upd (regions c) P (fun l => firstn k l ++ b :: skipn k l)). assert (L : P < length (regions c)) by (apply nth_error_Some; congruence). destruct (Nat.ltb_spec P (length (regions c))); [|lia]. rewrite andb_true_r. reflexivity. }
    constructor.
    - intros q N _. rewrite Hr. destruct (Nat.eqb_spec q P); [contradiction | reflexivity].
    - intros X Y E N. rewrite Hr, Nat.eqb_refl. rewrite <- (rblks_nth c P rd Er) in Hp. eapply (insert_prefix m X Y [b]); [symmetry; exact E | exact N | exact Hp].
    - intros x k' K. left. exact K.
  Qed.
  Lemma inline_ord c r c' bs : D r -> inline_region_blocks c r P m = Some (c', bs) -> ord c c'.
  Proof.
    intros Dr. unfold inline_region_blocks. destruct (Nat.eqb_spec r P) as [->|N]; [intros [= <- _]; apply ord_refl|]. intros H. bindin H sd Es. bindin H dd Edd. bindin H p Ep. injection H as <- <-. cbn [regions set_regions set_blocks] in *.
    assert (Ep' : rblks (regions c) P = r_blocks dd). { rewrite nth_upd in Edd. destruct (Nat.eqb_spec P r) as [->|_]; [contradiction|]. unfold rblks. rewrite Edd. reflexivity. }
    assert (L : P < length (regions c)). { assert (L0 : P < length (upd (regions c) r (fun x => {| r_blocks := []; r_parent := r_parent x |}))) by (apply nth_error_Some; congruence). rewrite upd_len in L0. exact L0. }
    assert (Hr : forall q, q <> r -> rblks (upd (upd (regions c) r (fun x => {| r_blocks := []; r_parent := r_parent x |})) P (fun x => {| r_blocks := firstn p (r_blocks x) ++ r_blocks sd ++ skipn p (r_blocks x); r_parent := r_parent x |})) q = if Nat.eqb q P then firstn p (rblks (regions c) q) ++ r_blocks sd ++ skipn p (rblks (regions c) q) else rblks (regions c) q).
    { intros q Nq. rewrite (rblks_upd _ P (fun l => firstn p l ++ r_blocks sd ++ skipn p l)), upd_len. destruct (Nat.ltb_spec P (length (regions c))); [|lia]. rewrite andb_true_r. rewrite (rblks_upd _ r (fun l => [])). destruct (Nat.eqb_spec q r); [contradiction|]. reflexivity. }
    constructor; cbn [regions set_regions set_blocks].
    - intros q Nq Nd. rewrite Hr by congruence. destruct (Nat.eqb_spec q P); [contradiction | reflexivity].
    - intros X Y E Nm. rewrite Hr by congruence. rewrite Nat.eqb_refl. rewrite <- Ep' in Ep. eapply insert_prefix; [symmetry; exact E | exact Nm | exact Ep].
    - intros x k K. left. exact K.
  Qed.
  Lemma new_block_ord c : ord c (fst (create_block c [])).
  Proof. apply ord_same; reflexivity. Qed.
  Lemma before_ord c c' b : block_before c P m = Some (c', b) -> ord c c'.
  Proof.
    unfold block_before. pose proof (new_block_ord c) as N. destruct (create_block c []) as [c1 b1]. cbn [fst] in N. intros H. bindin H rgd Er. bindin H p Ep. injection H as <- _. eapply ord_trans; [exact N|]. eapply place_ord; eassumption.
  Qed.
  Variables br_kind cond_br_kind cmp_kind bool_type : nat.
  Variable const_kind : nat -> nat.
  Hypothesis Kb : shape_of br_kind = SBr.
  Hypothesis Kc : shape_of cond_br_kind = SCondBr.
  Hypothesis Kk : forall a, shape_of (const_kind a) = SPlain.
  Hypothesis Kq : shape_of cmp_kind = SPlain.
  Lemma turn_ord depth c b o vs t c' : turn_into_br br_kind depth c b o vs t = Some c' -> ord c c'.
  Proof.
    unfold turn_into_br. intros H. bindin H y E1. destruct y as [c1 z]. bindin H c2 E2. eapply ord_trans; [eapply create_ord; [|exact E1]; rewrite Kb; reflexivity|]. eapply ord_trans; [eapply erase_ord; exact E2 | eapply push_ord; exact H].
  Qed.
  Lemma yield_ord depth c bs t c' : replace_yield shape_of br_kind depth c bs t = Some c' -> ord c c'.
  Proof.
    unfold replace_yield. apply iter_ord. intros c0 b c1 _ H. bindin H bd Eb. revert H. apply iter_ord. intros c2 o c3 _ H. bindin H d Ed. destruct (shape_of (o_kind d)); try (injection H as <-; apply ord_refl). eapply turn_ord. exact H.
  Qed.
  Lemma exits_ord depth h t fuel : forall c bs c', replace_exits shape_of br_kind fuel depth c bs h t = Some c' -> ord c c'.
  Proof.
    induction fuel as [|fuel IH]; intros c bs c' H; cbn [replace_exits] in H; [discriminate|]. revert H. apply iter_ord. intros c0 b c1 _ H. bindin H bd Eb. revert H. apply iter_ord. intros c2 o c3 _ H. bindin H d Ed.
    assert (Nest : forall l c4 c5, iter (fun c r => rd <- nth_error (regions c) r ;; replace_exits shape_of br_kind fuel depth c (r_blocks rd) h t) c4 l = Some c5 -> ord c4 c5).
    { intros l c4 c5. apply iter_ord. intros c6 r c7 _ H6. bindin H6 rgd Er. eapply IH. exact H6. }
    destruct (shape_of (o_kind d)); try (eapply Nest; exact H); try (injection H as <-; apply ord_refl); try (eapply turn_ord; exact H). bindin H v Ev. eapply turn_ord. exact H.
  Qed.
  Lemma case_ord depth c r c' e bs : D r -> inline_case shape_of br_kind depth c r P m = Some (c', (e, bs)) -> ord c c'.
  Proof. intros Dr. unfold inline_case. intros H. bindin H y E1. destruct y as [c1 bs1]. bindin H c2 E2. bindin H e1 E3. injection H as <- _ _. eapply ord_trans; [eapply inline_ord; eassumption | eapply yield_ord; exact E2]. Qed.
  Lemma cases_ord depth rs : forall c c' es bs, (forall r, In r rs -> D r) -> inline_cases shape_of br_kind depth c rs P m = Some (c', (es, bs)) -> ord c c'.
  Proof.
    induction rs as [|r rs IH]; intros c c' es bs Dr H; cbn [inline_cases] in H; [injection H as <- _ _; apply ord_refl|]. bindin H y E1. destruct y as [c1 [e b1]]. bindin H z E2. destruct z as [c2 [es2 all]]. injection H as <- _ _.
    eapply ord_trans; [eapply case_ord; [apply Dr; left; reflexivity | exact E1] | eapply IH; [|exact E2]]. intros q K. apply Dr. right. exact K.
  Qed.
  Lemma default_ord depth c def c' e bs : (forall r, def = Some r -> D r) -> inline_default shape_of br_kind depth c def P m = Some (c', (e, bs)) -> ord c c'.
  Proof.
    intros Dr. unfold inline_default. destruct def as [r|]; [apply case_ord; apply Dr; reflexivity|]. pose proof (new_block_ord c) as N. destruct (create_block c []) as [c1 b1]. cbn [fst] in N. intros H. bindin H y E1. destruct y as [c2 z]. bindin H c3 E2. bindin H rgd Er. bindin H k Ek. injection H as <- _ _.
    eapply ord_trans; [exact N|]. eapply ord_trans; [eapply create_ord; [|exact E1]; rewrite Kb; reflexivity|]. eapply ord_trans; [eapply push_ord; exact E2 | eapply place_ord; eassumption].
  Qed.
  Lemma chain_ord disc ty default l : forall c b c', chain cond_br_kind cmp_kind bool_type const_kind c b disc ty l default P m = Some c' -> ord c c'.
  Proof.
    induction l as [|[v e] l IH]; intros c b c' H; cbn [chain] in H; [injection H as <-; apply ord_refl|]. bindin H y1 E1. destruct y1 as [c1 k]. bindin H c2 E2. bindin H kv E3. bindin H y4 E4. destruct y4 as [c3 q]. bindin H c4 E5. bindin H y5 E6. destruct y5 as [c5 other]. bindin H qv E7. bindin H y6 E8. destruct y6 as [c6 z]. bindin H c7 E9.
    assert (O5 : ord c4 c5) by (destruct l; [injection E6 as <- _; apply ord_refl | eapply before_ord; exact E6]).
    assert (O7 : ord c c7).
    { eapply ord_trans; [eapply create_ord; [|exact E1]; rewrite Kk; reflexivity|]. eapply ord_trans; [eapply push_ord; exact E2|]. eapply ord_trans; [eapply create_ord; [|exact E4]; rewrite Kq; reflexivity|]. eapply ord_trans; [eapply push_ord; exact E5|]. eapply ord_trans; [exact O5|]. eapply ord_trans; [eapply create_ord; [|exact E8]; rewrite Kc; reflexivity|]. eapply push_ord; exact E9. }
    destruct l; [injection H as <-; exact O7|]. eapply ord_trans; [exact O7 | eapply IH; exact H].
  Qed.
End Order.

(** ** One lowering *)
Lemma split_front (b : nat) : forall X Y A B, X ++ b :: Y = A ++ b :: B -> NoDup (A ++ b :: B) -> X = A /\ Y = B.
Proof.
  induction X as [|x X IH]; intros Y [|a A] B E N; cbn in *.
  - injection E as ->. auto.
  - injection E as -> E. exfalso. inversion N; subst. apply H1. apply in_elt.
  - injection E as -> E. exfalso. inversion N; subst. apply H1. apply in_elt.
  - injection E as -> E. inversion N; subst. destruct (IH Y A B E H2) as (-> & ->). auto.
Qed.
Section One.
  Variable shape_of : nat -> shape.
  Variable case_value : nat -> nat.
  Variables br_kind cond_br_kind cmp_kind bool_type : nat.
  Variable const_kind : nat -> nat.
  Hypothesis Kb : shape_of br_kind = SBr.
  Hypothesis Kc : shape_of cond_br_kind = SCondBr.
  Hypothesis Kk : forall a, shape_of (const_kind a) = SPlain.
  Hypothesis Kq : shape_of cmp_kind = SPlain.
  Variable c : ctx.
  Variable dead : list nat.
  Hypothesis I : inv c dead.
  Variables b s P : nat.
  Hypothesis Bp : bpar (blocks c) b = Some P.
  Hypothesis Li : live c dead P.
  Hypothesis Pl : forall o, region_parent c P o -> shape_at shape_of c o <> Some SSwitch.
  Variables A B : list nat.
  Hypothesis Front : rblks (regions c) P = A ++ b :: B.
  Definition ordered (c' : ctx) : Prop :=
    (forall q, q <> P -> ~ child shape_of c s q -> rblks (regions c') q = rblks (regions c) q) /\ (exists B', rblks (regions c') P = A ++ b :: B') /\
    (forall x k, kd c' x = Some k -> kd c x = Some k \/ control (shape_of k) = false).
  Local Notation ord m := (ord shape_of P m (child shape_of c s)).
  Lemma split_ordered c1 m c' : split_block c b s = Some (c1, m) -> ord m c1 c' -> ordered c'.
  Proof.
    intros E1 O. destruct (split_ok c dead b s c1 m E1 I) as (pre & post & P0 & X & Y & _ & _ & Ep & Er & Em & Mv & _ & _ & _ & R1 & _ & _).
    assert (P0 = P) as -> by congruence. assert (N : NoDup (A ++ b :: B)). { destruct I as (_ & (_ & (_ & N) & _) & _). rewrite <- Front. apply N. } rewrite Front in Er. destruct (split_front b X Y A B (eq_sym Er) N) as (-> & ->).
    split; [|split].
    - intros q Nq Nd. rewrite (od_other _ _ _ _ _ _ O q Nq Nd), R1. destruct (Nat.eqb_spec q P); [contradiction | reflexivity].
    - specialize (R1 P). rewrite Nat.eqb_refl in R1. destruct (od_front _ _ _ _ _ _ O (A ++ [b]) (m :: B)) as (B' & E'); [rewrite R1, <- app_assoc; reflexivity | |].
      + intros K. assert (Km : In m (rblks (regions c) P)) by (rewrite Front; apply in_app_or in K; apply in_or_app; destruct K as [K|[->|[]]]; [left; exact K | right; left; reflexivity]). apply (in_rblks c dead m P I) in Km. apply bpar_old in Km. lia.
      + exists B'. rewrite E', <- app_assoc. reflexivity.
    - intros x k K. destruct (od_kind _ _ _ _ _ _ O x k K) as [K1|K1]; [left | right; exact K1]. unfold kd in *. pose proof (mv_ops _ _ Mv x) as M. destruct (nth_error (ops c1) x) as [d|], (nth_error (ops c) x) as [d'|]; cbn in *; try discriminate. injection M as M _ _ _ _. congruence.
  Qed.
  Lemma if_ordered depth c' bs : lower_if shape_of br_kind cond_br_kind depth c b s = Some (c', bs) -> shape_at shape_of c s = Some SIf -> (c' = c /\ bs = []) \/ ordered c'.
  Proof.
    intros H Sh. unfold lower_if in H. bindin H d Ed. bindin H cond Ec. bindin H t Et. bindin H e Ee.
    assert (Go : forall result, fits c s result -> if_blocks shape_of br_kind cond_br_kind depth c b s cond t e result = Some (c', bs) -> ordered c').
    2:{ destruct (op_results c s) as [|r [|r2 l]] eqn:Er.
        - right. apply (Go None); [left; exact Er | exact H].
        - right. destruct (uses c r) eqn:Eu; [apply (Go None); [right; exists r; auto | exact H] | apply (Go (Some r)); [exact Er | exact H]].
        - left. injection H as <- <-. auto. }
    clear H. intros result Fi H. unfold if_blocks in H. bindin H y1 E1. destruct y1 as [c1 m]. bindin H c2 E2. bindin H c3 E3.
    assert (Sh' : exists x, shape_at shape_of c s = Some x /\ control x = true) by (exists SIf; auto).
    destruct (opened_if shape_of c dead I b s P Bp Li Pl Sh' result c1 m c2 c3 E1 E2 E3 Fi) as (pre & post & a & _ & Ep & _).
    rewrite Ep in H. cbn [obind] in H. bindin H y4 E4. destruct y4 as [c4 ts]. bindin H y5 E5. destruct y5 as [c5 es]. bindin H c6 E6. bindin H tb Etb. bindin H eb Eeb. bindin H c7 E7. bindin H c8 E8. bindin H y9 E9. destruct y9 as [c9 z]. bindin H c10 E10. injection H as <- <-.
    pose proof (region_of c dead s d 0 t I Ed Et) as Rt. pose proof (region_of c dead s d 1 e I Ed Ee) as Re.
    assert (Ct : child shape_of c s t) by (unfold child; rewrite Sh; exact Rt). assert (Ce : child shape_of c s e) by (unfold child; rewrite Sh; exact Re).
    apply (split_ordered c1 m c10 E1). eapply ord_trans; [eapply carry_ord; exact E2|]. eapply ord_trans; [eapply detach_ord; exact E3|]. eapply ord_trans; [eapply inline_ord; [exact Ct | exact E4]|]. eapply ord_trans; [eapply inline_ord; [exact Ce | exact E5]|]. eapply ord_trans; [eapply discard_ord; exact E6|].
    eapply ord_trans; [eapply yield_ord; [exact Kb | exact E7]|]. eapply ord_trans; [eapply yield_ord; [exact Kb | exact E8]|]. eapply ord_trans; [eapply create_ord; [rewrite Kc; reflexivity | exact E9] | eapply push_ord; exact E10].
  Qed.
  Lemma loop_ordered fuel depth c' bs : lower_loop shape_of br_kind fuel depth c b s = Some (c', bs) -> shape_at shape_of c s = Some SLoop -> (c' = c /\ bs = []) \/ ordered c'.
  Proof.
    intros H Sh. unfold lower_loop in H. bindin H d Ed. bindin H body Et.
    assert (Go : forall result, fits c s result -> loop_blocks shape_of br_kind fuel depth c b s (o_operands d) body result = Some (c', bs) -> ordered c').
    2:{ destruct (op_results c s) as [|r [|r2 l]] eqn:Er.
        - right. apply (Go None); [left; exact Er | exact H].
        - right. apply (Go (Some r)); [exact Er | exact H].
        - left. injection H as <- <-. auto. }
    clear H. intros result Fi H. unfold loop_blocks in H. bindin H y1 E1. destruct y1 as [c1 m]. bindin H c2 E2. bindin H c3 E3.
    assert (Sh' : exists x, shape_at shape_of c s = Some x /\ control x = true) by (exists SLoop; auto).
    destruct (opened_late shape_of c dead I b s P Bp Li Pl Sh' result c1 m c2 c3 E1 E2 E3 Fi) as (pre & post & a & _ & Ep & _).
    rewrite Ep in H. cbn [obind] in H. bindin H y4 E4. destruct y4 as [c4 ts]. bindin H c5 E5. bindin H header Eh. bindin H c6 E6. bindin H y7 E7. destruct y7 as [c7 z]. bindin H c8 E8. injection H as <- <-.
    pose proof (region_of c dead s d 0 body I Ed Et) as Rt. assert (Ct : child shape_of c s body) by (unfold child; rewrite Sh; exact Rt).
    apply (split_ordered c1 m c8 E1). eapply ord_trans; [eapply detach_ord; exact E2|]. eapply ord_trans; [eapply carry_ord; exact E3|]. eapply ord_trans; [eapply inline_ord; [exact Ct | exact E4]|]. eapply ord_trans; [eapply discard_ord; exact E5|].
    eapply ord_trans; [eapply exits_ord; [exact Kb | exact E6]|]. eapply ord_trans; [eapply create_ord; [rewrite Kb; reflexivity | exact E7] | eapply push_ord; exact E8].
  Qed.
  Lemma switch_ordered depth c' bs : lower_switch shape_of br_kind cond_br_kind cmp_kind bool_type const_kind case_value depth c b s = Some (c', bs) -> shape_at shape_of c s = Some SSwitch -> (c' = c /\ bs = []) \/ ordered c'.
  Proof.
    intros H Sh. unfold lower_switch in H. destruct (op_results c s) as [|r0 rl] eqn:Rs; [|left; injection H as <- <-; auto]. right.
    bindin H d Ed. bindin H disc Eo. bindin H body Er. bindin H rgd Eg. bindin H bb Ebb. bindin H bbd Ebd. bindin H y0 Ey. destruct y0 as [cases def]. bindin H y1 E1. destruct y1 as [c1 m]. bindin H c2 E2.
    assert (Sh' : exists x, shape_at shape_of c s = Some x /\ control x = true) by (exists SSwitch; auto).
    destruct (opened_late shape_of c dead I b s P Bp Li Pl Sh' None c1 m c2 c2 E1 E2 eq_refl (or_introl Rs)) as (pre & post & a & _ & Ep & _).
    rewrite Ep in H. cbn [obind] in H. bindin H y3 E3. destruct y3 as [c3 [entries inl]]. bindin H y4 E4. destruct y4 as [c4 [default more]]. bindin H c5 E5. bindin H ty E6. bindin H c7 E7. injection H as <- <-.
    pose proof (region_of c dead s d 0 body I Ed Er) as Rb.
    assert (Sb : forall o, In o (b_ops bbd) -> stands c o body).
    { intros o K. apply (stands_par c dead o body I). exists bb. split; [apply (in_bops c dead o bb I); unfold bops; rewrite Ebd; exact K|]. apply (in_rblks c dead bb body I). unfold rblks. rewrite Eg. eapply nth_error_In. exact Ebb. }
    assert (Ch : forall o r x, In o (b_ops bbd) -> body_of shape_of c o r x -> x = SCase \/ x = SDefault -> child shape_of c s r).
    { intros o r x K (do & E' & S' & R') X. unfold child. rewrite Sh. exists o, body. split; [eapply region_of; eassumption|]. split; [unfold shape_at; rewrite E'; cbn [option_map]; rewrite S'; destruct X as [->| ->]; auto|]. split; [apply Sb; exact K | exact Rb]. }
    apply (split_ordered c1 m c7 E1). eapply ord_trans; [eapply detach_ord; exact E2|]. eapply ord_trans; [eapply cases_ord; [exact Kb | | exact E3]|].
    { intros r K. apply in_map_iff in K. destruct K as ([v r'] & <- & K). destruct (collect_case shape_of case_value c _ _ _ Ey v r' K) as (o & K1 & K2). eapply Ch; eauto. }
    eapply ord_trans; [eapply default_ord; [exact Kb | | exact E4]|]. { intros r K. destruct (collect_default shape_of case_value c _ _ _ Ey r K) as (o & K1 & K2). eapply Ch; eauto. }
    eapply ord_trans; [eapply discard_ord; exact E5|]. destruct cases; [bindin E7 y8 E8; destruct y8 as [c6 z]; eapply ord_trans; [eapply create_ord; [rewrite Kb; reflexivity | exact E8] | eapply push_ord; exact E7] | eapply chain_ord; [exact Kc | exact Kk | exact Kq | exact E7]].
  Qed.
End One.
