(** Lemmas for C67. *)
From Coq Require Import List Lia PeanoNat Bool.
From Verif Require Import OwnSpec TarjanProofs CallGraphProofs.
Local Open Scope nat_scope.
Local Open Scope list_scope.
Import ListNotations.

Lemma omem_In x l : omem x l = true <-> In x l.
Proof.
  unfold omem. rewrite existsb_exists. split.
  - intros (y & I & E). apply Nat.eqb_eq in E. now subst.
  - intros I. exists x. split; [exact I | apply Nat.eqb_refl].
Qed.
Lemma omem_false x l : omem x l = false <-> ~ In x l.
Proof. rewrite <- omem_In. destruct (omem x l); split; intros; try discriminate; auto; now destruct H. Qed.

Lemma in_positions v args : forall k i, In i (positions v k args) <-> k <= i /\ nth_error args (i - k) = Some v.
Proof.
  induction args as [|x args IH]; intros k i; cbn [positions].
  - split; [intros [] | intros [_ H]; destruct (i - k); discriminate].
  - rewrite in_app_iff, IH. split.
    + intros [H|[L H]].
      * destruct (Nat.eqb_spec x v) as [->|]; [|destruct H]. destruct H as [<-|[]]. rewrite Nat.sub_diag. split; [lia | reflexivity].
      * split; [lia|]. replace (i - k) with (S (i - S k)) by lia. exact H.
    + intros [L H]. destruct (Nat.eq_dec i k) as [->|N].
      * rewrite Nat.sub_diag in H. injection H as ->. rewrite Nat.eqb_refl. left. now left.
      * right. split; [lia|]. replace (i - k) with (S (i - S k)) in H by lia. exact H.
Qed.
Lemma in_uses ops v o i : In (o, i) (uses ops v) <-> In o ops /\ nth_error (q_args o) i = Some v.
Proof.
  unfold uses. rewrite in_flat_map. split.
  - intros (o' & I & H). apply in_map_iff in H as (j & E & H). injection E as -> ->. apply in_positions in H as [_ H].
    rewrite Nat.sub_0_r in H. auto.
  - intros [I H]. exists o. split; [exact I|]. apply in_map_iff. exists i. split; [reflexivity|]. apply in_positions.
    rewrite Nat.sub_0_r. split; [lia | exact H].
Qed.

(** ** One value *)
Section Value.
  Variables (ops : list oop) (s : summary).
  Let T : nat -> nat -> Prop := fun g j => s g j = true.

  Lemma classify_safe o i : classify o i = Safe -> harmless T o i.
  Proof.
    unfold classify, harmless. destruct (q_nested o); [discriminate|]. destruct (q_kind o); try discriminate; intros H; split; auto.
    - destruct (Nat.eqb_spec i 0); [assumption | discriminate].
    - destruct (Nat.eqb_spec i address); [assumption | discriminate].
    - destruct (i =? 0); [|discriminate]. destruct (q_args o) as [|a [|]], (q_results o) as [|r [|]]; discriminate.
  Qed.
  Lemma classify_alias o i r : classify o i = Alias r ->
    harmless T o i /\ q_kind o = OCast /\ exists x, q_args o = [x] /\ q_results o = [r] /\ i = 0.
  Proof.
    unfold classify, harmless. destruct (q_nested o); [discriminate|]. destruct (q_kind o); try discriminate.
    - destruct (i =? 0); discriminate.
    - destruct (i =? address); discriminate.
    - destruct (Nat.eqb_spec i 0) as [->|]; [|discriminate]. destruct (q_args o) as [|a [|]], (q_results o) as [|r' [|]]; try discriminate.
      intros H. injection H as ->. split; [auto|]. split; [reflexivity|]. exists a. auto.
  Qed.
  Lemma classify_direct o i g : classify o i = Direct g -> q_nested o = false /\ q_kind o = OCall g.
  Proof.
    unfold classify. destruct (q_nested o); [discriminate|]. destruct (q_kind o); try discriminate; auto.
    - intros H. injection H as ->. auto.
    - destruct (i =? 0); discriminate.
    - destruct (i =? address); discriminate.
    - destruct (i =? 0); [|discriminate]. destruct (q_args o) as [|a [|]], (q_results o) as [|r' [|]]; discriminate.
  Qed.
  Lemma classify_escapes o i : classify o i = Escapes -> ~ harmless T o i.
  Proof.
    unfold classify, harmless. destruct (q_nested o); [intros _ [E _]; discriminate|].
    destruct (q_kind o); try discriminate; intros H [_ K]; try exact K.
    - subst. discriminate.
    - subst. rewrite Nat.eqb_refl in H. discriminate.
    - destruct K as (-> & A & R). cbn in H. destruct (q_args o) as [|a [|]], (q_results o) as [|r' [|]]; try discriminate.
  Qed.

  Definition good (v : nat) : Prop := forall o i, In (o, i) (uses ops v) -> harmless T o i.
  Definition next_ok (v : nat) (seen : list nat) : Prop := forall o i r, In (o, i) (uses ops v) -> classify o i = Alias r -> In r seen.

  Definition sound_result (v : nat) (seen : list nat) (res : bool * list nat) : Prop :=
    let (b, seen') := res in
    if b then incl seen seen' /\ In v seen' /\ forall w, In w seen' -> ~ In w seen -> good w /\ next_ok w seen'
    else exists w, alias ops v w /\ ~ good w.

  Lemma all_uses_sound rec v : (forall sn w r, rec sn w = Some r -> sound_result w sn r) ->
    forall us sn r, (forall p, In p us -> In p (uses ops v)) -> all_uses s rec us sn = Some r ->
    let (b, sn') := r in
    if b then incl sn sn' /\ (forall o i, In (o, i) us -> harmless T o i) /\ (forall o i x, In (o, i) us -> classify o i = Alias x -> In x sn') /\
         forall w, In w sn' -> ~ In w sn -> good w /\ next_ok w sn'
    else exists w, alias ops v w /\ ~ good w.
  Proof.
    intros R. induction us as [|[o i] us IH]; intros sn r U E; cbn [all_uses] in E.
    - injection E as <-. split; [apply incl_refl|]. split; [intros ? ? []|]. split; [intros ? ? ? []|]. intros w I N. contradiction.
    - assert (U' : forall p, In p us -> In p (uses ops v)) by (intros p I; apply U; now right).
      assert (Here : In (o, i) (uses ops v)) by (apply U; now left).
      destruct (classify o i) as [|x|g|] eqn:C.
      + specialize (IH sn r U' E). destruct r as [[] sn']; [|exact IH]. destruct IH as (A & B & D & F). split; [exact A|].
        split. { intros o' i' [H|H]; [injection H as <- <-; now apply classify_safe | now apply B]. }
        split; [|exact F]. intros o' i' x [H|H] K; [injection H as <- <-; congruence | eapply D; eauto].
      + destruct (rec sn x) as [[[] sn1]|] eqn:E1; [| |discriminate].
        * apply R in E1. destruct E1 as (A1 & B1 & D1). specialize (IH sn1 r U' E). destruct r as [[] sn']; [|exact IH].
          destruct IH as (A & B & D & F). split; [eapply incl_tran; eassumption|].
          split. { intros o' i' [H|H]; [injection H as <- <-; now apply classify_alias in C as [C _] | now apply B]. }
          split. { intros o' i' y [H|H] K; [injection H as <- <-; rewrite C in K; injection K as <-; now apply A | eapply D; eauto]. }
          intros w I N. destruct (in_dec Nat.eq_dec w sn1) as [I1|N1]; [|now apply F].
          destruct (D1 w I1 N) as [G1 G2]. split; [exact G1|]. intros o' i' y H K. apply A. eapply G2; eauto.
        * injection E as <-. apply R in E1. destruct E1 as (w & A & N). exists w. split; [|exact N].
          apply classify_alias in C as (_ & K & y & EA & ER & ->). apply in_uses in Here as [I H]. rewrite EA in H. injection H as ->.
          clear - A I K EA ER. induction A.
          -- eapply alias_cast; [apply alias_self | | | |]; eauto.
          -- apply (alias_cast _ _ o0 y z); auto.
      + destruct (s g i) eqn:S.
        * specialize (IH sn r U' E). destruct r as [[] sn']; [|exact IH]. destruct IH as (A & B & D & F). split; [exact A|].
          split. { intros o' i' [H|H]; [injection H as <- <-|now apply B]. apply classify_direct in C as [C1 C2]. split; [exact C1|]. rewrite C2. exact S. }
          split; [|exact F]. intros o' i' x [H|H] K; [injection H as <- <-; congruence | eapply D; eauto].
        * injection E as <-. exists v. split; [apply alias_self|]. intros G. specialize (G o i Here). destruct G as [_ G].
          apply classify_direct in C as [_ C2]. rewrite C2 in G. unfold T in G. congruence.
      + injection E as <-. exists v. split; [apply alias_self|]. intros G. specialize (G o i Here). now apply classify_escapes in C.
  Qed.

  Lemma borrowed_sound fuel : forall sn v r, value_is_borrowed ops s fuel sn v = Some r -> sound_result v sn r.
  Proof.
    induction fuel as [|fuel IH]; intros sn v r E; cbn [value_is_borrowed] in E; [discriminate|].
    destruct (omem v sn) eqn:M.
    - injection E as <-. apply omem_In in M. split; [apply incl_refl|]. split; [exact M|]. intros w I N. contradiction.
    - pose proof (all_uses_sound _ v IH (uses ops v) (v :: sn) r (fun p H => H) E) as H. destruct r as [[] sn']; [|exact H].
      destruct H as (A & B & D & F). split; [intros x I; apply A; now right|]. split; [apply A; now left|].
      intros w I N. destruct (Nat.eq_dec w v) as [->|W].
      + split; [exact B | exact D].
      + apply F; [exact I|]. intros [->|H]; [now apply W | contradiction].
  Qed.

  (** Enough fuel. *)
  Definition fresh (sn univ : list nat) : nat := List.length (filter (fun x => negb (omem x sn)) univ).
  Lemma filter_le {A} (p q : A -> bool) l : (forall x, p x = true -> q x = true) -> List.length (filter p l) <= List.length (filter q l).
  Proof.
    intros H. induction l as [|x l IH]; [reflexivity|]. cbn. destruct (p x) eqn:E; [rewrite (H x E); cbn; lia|]. destruct (q x); cbn; lia.
  Qed.
  Lemma filter_lt {A} (p q : A -> bool) l a : (forall x, p x = true -> q x = true) -> In a l -> p a = false -> q a = true ->
    List.length (filter p l) < List.length (filter q l).
  Proof.
    intros H I P Q. induction l as [|x l IH]; [destruct I|]. destruct I as [->|I].
    - cbn. rewrite P, Q. cbn. pose proof (filter_le p q l H). lia.
    - specialize (IH I). cbn. destruct (p x) eqn:E; [rewrite (H x E); cbn; lia|]. destruct (q x); cbn; lia.
  Qed.
  Lemma filter_all {A} (l : list A) : filter (fun _ => true) l = l.
  Proof. induction l; cbn; congruence. Qed.
  Lemma fresh_incl sn sn' univ : incl sn sn' -> fresh sn' univ <= fresh sn univ.
  Proof.
    intros I. apply filter_le. intros x H. apply negb_true_iff, omem_false in H. apply negb_true_iff, omem_false. auto.
  Qed.

  Lemma borrowed_enough univ : incl (flat_map q_results ops) univ ->
    forall fuel sn v, In v univ -> fresh sn univ < fuel ->
    value_is_borrowed ops s fuel sn v <> None /\ forall b sn', value_is_borrowed ops s fuel sn v = Some (b, sn') -> incl sn sn'.
  Proof.
    intros U. induction fuel as [|fuel IH]; intros sn v I L; [lia|]. cbn [value_is_borrowed]. destruct (omem v sn) eqn:M.
    { split; [discriminate|]. intros b sn' H. injection H as <- <-. apply incl_refl. }
    assert (L' : fresh (v :: sn) univ < fuel).
    { enough (fresh (v :: sn) univ < fresh sn univ) by lia. apply filter_lt with (a := v); auto.
      - intros x H. apply negb_true_iff, omem_false in H. apply negb_true_iff, omem_false. intros K. apply H. now right.
      - apply negb_false_iff, omem_In. now left.
      - now rewrite M. }
    assert (G : forall us sn0, (forall p, In p us -> In (fst p) ops) -> fresh sn0 univ < fuel ->
      all_uses s (value_is_borrowed ops s fuel) us sn0 <> None /\
      forall b sn', all_uses s (value_is_borrowed ops s fuel) us sn0 = Some (b, sn') -> incl sn0 sn').
    { clear L L' M I sn v. induction us as [|[o i] us IHu]; intros sn0 HU L0; cbn [all_uses].
      - split; [discriminate|]. intros b sn' H. injection H as <- <-. apply incl_refl.
      - assert (HU' : forall p, In p us -> In (fst p) ops) by (intros p H; apply HU; now right).
        destruct (classify o i) as [|x|g|] eqn:C.
        + now apply IHu.
        + apply classify_alias in C as (_ & _ & y & _ & ER & _).
          assert (X : In x univ). { apply U, in_flat_map. exists o. split; [apply (HU (o, i)); now left | rewrite ER; now left]. }
          destruct (IH sn0 x X L0) as [N B]. destruct (value_is_borrowed ops s fuel sn0 x) as [[[] sn1]|] eqn:E; [| |congruence].
          * specialize (B true sn1 eq_refl). destruct (IHu sn1 HU') as [N1 B1].
            { eapply Nat.le_lt_trans; [apply fresh_incl; exact B | exact L0]. }
            split; [exact N1|]. intros b sn' H. eapply incl_tran; [exact B | eapply B1; exact H].
          * split; [discriminate|]. intros b sn' H. injection H as <- <-. eapply B; reflexivity.
        + destruct (s g i); [now apply IHu|]. split; [discriminate|]. intros b sn' H. injection H as <- <-. apply incl_refl.
        + split; [discriminate|]. intros b sn' H. injection H as <- <-. apply incl_refl. }
    destruct (G (uses ops v) (v :: sn)) as [N B]; [intros [o i] H; now apply in_uses in H | exact L'|].
    split; [exact N|]. intros b sn' H x X. eapply B; [exact H | now right].
  Qed.

  Lemma alias_seen sn' v w : (forall x, In x sn' -> good x /\ next_ok x sn') -> In v sn' -> alias ops v w -> In w sn'.
  Proof.
    intros H I A. induction A as [|o y z A IH Io K EA ER]; [exact I|]. destruct (H y IH) as [G N].
    assert (U : In (o, 0) (uses ops y)) by (apply in_uses; split; [exact Io | rewrite EA; reflexivity]).
    apply (N o 0 z U). destruct (G o 0 U) as [Q _]. unfold classify. rewrite Q, K, EA, ER. reflexivity.
  Qed.

  (** The answer of [value_is_borrowed]. *)
  Lemma borrowed_exact v fuel : S (List.length (flat_map q_results ops)) < fuel ->
    exists b sn, value_is_borrowed ops s fuel [] v = Some (b, sn) /\ (b = true <-> only_lent T ops v).
  Proof.
    intros L. destruct (borrowed_enough (v :: flat_map q_results ops) (fun x H => or_intror H) fuel [] v (or_introl eq_refl)) as [N _].
    { eapply Nat.le_lt_trans; [|exact L]. unfold fresh. rewrite (filter_le _ (fun _ => true)) by auto. rewrite filter_all. cbn. lia. }
    destruct (value_is_borrowed ops s fuel [] v) as [[b sn]|] eqn:E; [|congruence]. exists b, sn. split; [reflexivity|].
    apply borrowed_sound in E. destruct b.
    - split; [intros _|reflexivity]. destruct E as (_ & I & H). intros x A o i Io Ho.
      assert (X : In x sn) by (eapply alias_seen; eauto). destruct (H x X (fun F => F)) as [G _]. apply G, in_uses. auto.
    - split; [discriminate|]. intros O. destruct E as (w & A & B). destruct B. intros o i U. apply in_uses in U as [Io Ho]. eapply O; eauto.
  Qed.
End Value.
