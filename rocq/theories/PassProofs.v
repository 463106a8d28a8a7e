(** Proofs about the pass manager. *)
From Verif Require Import Base IrModel IrTreeSpec IrWalkProofs PassModel PassSpec.
From Coq Require Import Lia.

Section proofs.
  Variable St : Type.
  Variable tag : nat -> nat.
  Variable isolated : nat -> bool.
  Notation world := (world St).
  Notation event := (event St).
  Notation manager := (manager St).
  Notation sub := (sub St).
  Notation pass_at := (pass_at St).
  Notation follows := (follows St tag).
  Notation well_sequenced := (well_sequenced St tag).
  Notation goes_on := (goes_on St).
  Notation reports := (reports St).
  Notation now := (now St).
  Notation proper_visit := (proper_visit St tag isolated).
  Notation failure := (failure St).
  Notation run_on := (run_on St tag isolated).
  Notation run_own := (run_own St tag).
  Notation each_target := (each_target St tag isolated).

  Lemma manager_ind' : forall P : manager -> Prop, (forall c ps ns v o, Forall P ns -> P (Manager St c ps ns v o)) -> forall m, P m.
  Proof.
    intros P H. fix IH 1. intros [c ps ns v o]. apply H. induction ns as [|n ns IHns]; constructor; [apply IH|exact IHns].
  Qed.

  Lemma matches_iff : forall cls (w : world) t, matches St tag cls w t = true <-> exists d, nth_error (ops (fst w)) t = Some d /\ tag (o_kind d) = cls.
  Proof.
    intros cls w t. unfold matches. destruct (nth_error (ops (fst w)) t) as [d|]; [rewrite Nat.eqb_eq; split; [eauto|intros (d' & [= <-] & E); exact E]|]. split; [discriminate|intros (d & E & _); discriminate].
  Qed.
  Lemma attached_iff : forall (w : world) t, attached St w t = true <-> is_attached St w t.
  Proof.
    intros w t. unfold attached, is_attached. destruct (nth_error (ops (fst w)) t) as [d|]; [|split; [discriminate|intros (d & E & _); discriminate]].
    destruct (o_parent d) eqn:E; [split; [exists d; split; [reflexivity|congruence]|reflexivity]|split; [discriminate|intros (d' & [= <-] & N); congruence]].
  Qed.

  Section at_root.
    Variable m : manager.
    Definition starts (e : event) (w : world) : Prop :=
      match e with Visit _ _ _ w' | NotIsolated _ _ _ w' => w' = w | _ => False end.
    Definition ends (tr : list event) (w w' : world) : Prop := (tr = [] /\ w' = w) \/ exists pre e, tr = pre ++ [e] /\ now m e w'.
    Record J (w : world) (tr : list event) (w' : world) (r : result) : Prop := {
      j_seq : well_sequenced m tr; j_rep : reports tr r; j_vis : Forall (proper_visit m) tr; j_end : ends tr w w';
      j_start : match tr with [] => True | e :: _ => starts e w end }.

    Lemma J_nil : forall w r, r = Ok \/ r = Diverged -> J w [] w r.
    Proof. intros w r H. constructor; [exact I|right; split; [exact H|intros x []]|constructor|left; split; reflexivity|exact I]. Qed.

    Lemma goes_on_start : forall p i t a w e, goes_on m p i t a w None -> starts e w -> goes_on m p i t a w (Some e).
    Proof. intros p i t a w e H S. unfold PassSpec.goes_on in *. destruct (pass_at m p i); [discriminate|]. destruct e; cbn in S; try contradiction; exact S. Qed.
    Lemma follows_start : forall e w e2, follows m e None -> failure e = None -> now m e w -> starts e2 w -> follows m e (Some e2).
    Proof.
      intros e w e2 H F N S. destruct e as [p t w0|p i t a w0|p i t x w0|p i t w0|p i t a o w0|p i t a w0|p i t x w0|p t w0]; cbn in *; try discriminate; subst.
      - destruct H as (a & A & G). exists a. split; [exact A|apply goes_on_start; assumption].
      - destruct H as (f & E & H). exists f. split; [exact E|]. destruct N as (f' & E' & N). rewrite E in E'. injection E' as <-. destruct (f w0 t) as [w1 [x|]]; cbn in N; subst w1; [discriminate|].
        destruct H as [(_ & H)|(A & H)]; [discriminate|]. right. split; [exact A|]. destruct (observer_at St m p); [discriminate|]. destruct (verifier_at St m p) as [v|]; [destruct (v w t); discriminate|]. apply goes_on_start; assumption.
      - destruct e2; cbn in S; try contradiction; exact S.
      - destruct (verifier_at St m p) as [v|]; [destruct (v w t); discriminate|]. apply goes_on_start; assumption.
      - apply goes_on_start; assumption.
    Qed.
    Lemma seq_app : forall tr tr2 w w1, well_sequenced m tr -> (forall x, In x tr -> failure x = None) -> ends tr w w1 -> well_sequenced m tr2 -> match tr2 with [] => True | e :: _ => starts e w1 end -> well_sequenced m (tr ++ tr2).
    Proof.
      induction tr as [|e tr IH]; intros tr2 w w1 H F E H2 S; [exact H2|]. cbn [app well_sequenced] in *. destruct H as (H1 & H). destruct tr as [|e' tr].
      - cbn [app]. split; [|exact H2]. destruct tr2 as [|e2 tr2]; [exact H1|]. destruct E as [(E & _)|([|? [|]] & x & E & N)]; try discriminate. injection E as <-. apply follows_start with (w := w1); [exact H1|apply F; left; reflexivity|exact N|exact S].
      - cbn [app] in *. split; [exact H1|]. apply IH with (w := w) (w1 := w1); try assumption; [intros x Hx; apply F; right; exact Hx|].
        destruct E as [(E & _)|(pre & x & E & N)]; [discriminate|]. right. destruct pre as [|y pre]; [discriminate|]. injection E as <- E. exists pre, x. split; assumption.
    Qed.
    Lemma reports_ok_none : forall tr, reports tr Ok -> forall x, In x tr -> failure x = None.
    Proof. intros tr [(pre & e & -> & F & _)|(_ & H)]; [destruct e; cbn in F; discriminate|exact H]. Qed.
    Lemma reports_app : forall tr tr2 r, (forall x, In x tr -> failure x = None) -> reports tr2 r -> reports (tr ++ tr2) r.
    Proof.
      intros tr tr2 r H [(pre & e & -> & F & N)|(R & N)].
      - left. exists (tr ++ pre), e. split; [apply app_assoc|]. split; [exact F|]. intros x Hx. apply in_app_or in Hx as [Hx|Hx]; auto.
      - right. split; [exact R|]. intros x Hx. apply in_app_or in Hx as [Hx|Hx]; auto.
    Qed.
    Lemma ends_app : forall tr tr2 w w1 w2, ends tr w w1 -> ends tr2 w1 w2 -> ends (tr ++ tr2) w w2.
    Proof.
      intros tr tr2 w w1 w2 E [(-> & ->)|(pre & e & -> & N)]; [rewrite app_nil_r; exact E|]. right. exists (tr ++ pre), e. split; [apply app_assoc|exact N].
    Qed.
    Lemma J_app : forall w tr w1 tr2 w2 r, J w tr w1 Ok -> J w1 tr2 w2 r -> J w (tr ++ tr2) w2 r.
    Proof.
      intros w tr w1 tr2 w2 r [A1 A2 A3 A4 A5] [B1 B2 B3 B4 B5]. pose proof (reports_ok_none _ A2) as F. constructor.
      - eapply seq_app; eassumption.
      - apply reports_app; assumption.
      - apply Forall_app. auto.
      - eapply ends_app; eassumption.
      - destruct tr as [|e tr]; [|exact A5]. destruct A4 as [(_ & ->)|([|] & e & E & _)]; try discriminate. exact B5.
    Qed.

    Section own.
      Variables (p : list nat) (n : manager) (h : hooks St) (t : nat) (a : bool).
      Hypothesis Hsub : sub m p = Some n.
      Hypothesis Hobs : observer_at St m p = h_obs St h.
      Hypothesis Hver : verifier_at St m p = h_ver St h.
      Record K (i : nat) (w : world) (tr : list event) (w' : world) (r : result) : Prop := {
        k_seq : well_sequenced m tr; k_rep : reports tr r; k_vis : Forall (proper_visit m) tr; k_end : ends tr w w';
        k_go : goes_on m p i t a w (hd_error tr) }.

      Lemma alive_iff : forall w, still_alive St tag (cls_of St n) w t a = true <-> survives St tag m p w t a.
      Proof.
        intro w. unfold still_alive, survives. rewrite Bool.andb_true_iff, Bool.orb_true_iff, Bool.negb_true_iff, matches_iff, attached_iff. unfold is_attached. split.
        - intros ((d & E & C) & O). exists n, d. split; [exact Hsub|]. split; [exact E|]. split; [exact C|]. intros ->. destruct O as [O|(d' & E' & N)]; [discriminate|]. rewrite E in E'. injection E' as <-. exact N.
        - intros (n' & d & S & E & C & A). rewrite Hsub in S. injection S as <-. split; [eauto|]. destruct a; [right; exists d; auto|left; reflexivity].
      Qed.
      (** Prepending a passing, hook-approved pass. *)
      Lemma hd_app : forall A (l l' : list A), hd_error (l ++ l') = match l with [] => hd_error l' | x :: _ => Some x end.
      Proof. intros A [|x l] l'; reflexivity. Qed.
      Lemma seq_cons : forall e tr, follows m e (hd_error tr) -> well_sequenced m tr -> well_sequenced m (e :: tr).
      Proof. intros e [|e' tr] H S; cbn in *; split; assumption. Qed.
      Lemma rep_cons : forall e tr r, failure e = None -> reports tr r -> reports (e :: tr) r.
      Proof. intros e tr r F R. apply (reports_app [e] tr r); [intros x [<-|[]]; exact F|exact R]. Qed.
      Lemma ends_cons : forall e tr w w1 w2, now m e w1 -> ends tr w1 w2 -> ends (e :: tr) w w2.
      Proof. intros e tr w w1 w2 N E. apply (ends_app [e] tr w w1 w2); [right; exists [], e; split; [reflexivity|exact N]|exact E]. Qed.

      Lemma K_pass : forall i f w w1 tr w' r, pass_at m p i = Some f -> f w t = (w1, None) -> survives St tag m p w1 t a ->
        match h_ver St h with Some v => v w1 t | None => None end = None -> K (S i) w1 tr w' r ->
        K i w (Ran St p i t a w :: (match h_obs St h with Some o => [Observed St p i t a o w1] | None => [] end) ++ (match h_ver St h with Some _ => [Verified St p i t a w1] | None => [] end) ++ tr) w' r.
      Proof.
        intros i f w w1 tr w' r Ep Ef Sv Ev [K1 K2 K3 K4 K5]. assert (Nw : now m (Ran St p i t a w) w1) by (exists f; split; [exact Ep|rewrite Ef; reflexivity]).
        assert (Go : goes_on m p i t a w (Some (Ran St p i t a w))) by (unfold PassSpec.goes_on; rewrite Ep; reflexivity).
        assert (Fl : forall nx, match h_obs St h, h_ver St h with
             | Some o, _ => nx = Some (Observed St p i t a o w1)
             | None, Some v => nx = Some (match v w1 t with Some err => Rejected St p i t err w1 | None => Verified St p i t a w1 end)
             | None, None => goes_on m p (S i) t a w1 nx end -> follows m (Ran St p i t a w) nx).
        { intros nx Q. cbn [PassSpec.follows]. exists f. split; [exact Ep|]. rewrite Ef. right. split; [exact Sv|]. rewrite Hobs, Hver. exact Q. }
        assert (Fo : forall o nx, match h_ver St h with
             | Some v => nx = Some (match v w1 t with Some err => Rejected St p i t err w1 | None => Verified St p i t a w1 end)
             | None => goes_on m p (S i) t a w1 nx end -> follows m (Observed St p i t a o w1) nx) by (intros o nx Q; cbn [PassSpec.follows]; rewrite Hver; exact Q).
        assert (E1 : ends [] w1 w1) by (left; auto).
        destruct (h_obs St h) as [o|], (h_ver St h) as [v|]; cbn [app].
        - constructor; [|repeat apply rep_cons; try reflexivity; exact K2|repeat (constructor; [exact I|]); exact K3|repeat (eapply ends_cons; [first [exact Nw|reflexivity]|]); exact K4|exact Go].
          apply seq_cons; [apply Fl; reflexivity|]. apply seq_cons; [apply Fo; rewrite Ev; reflexivity|]. apply seq_cons; [exact K5|exact K1].
        - constructor; [|repeat apply rep_cons; try reflexivity; exact K2|repeat (constructor; [exact I|]); exact K3|repeat (eapply ends_cons; [first [exact Nw|reflexivity]|]); exact K4|exact Go].
          apply seq_cons; [apply Fl; reflexivity|]. apply seq_cons; [apply Fo; exact K5|exact K1].
        - constructor; [|repeat apply rep_cons; try reflexivity; exact K2|repeat (constructor; [exact I|]); exact K3|repeat (eapply ends_cons; [first [exact Nw|reflexivity]|]); exact K4|exact Go].
          apply seq_cons; [apply Fl; rewrite Ev; reflexivity|]. apply seq_cons; [exact K5|exact K1].
        - constructor; [|repeat apply rep_cons; try reflexivity; exact K2|repeat (constructor; [exact I|]); exact K3|repeat (eapply ends_cons; [first [exact Nw|reflexivity]|]); exact K4|exact Go].
          apply seq_cons; [apply Fl; exact K5|exact K1].
      Qed.

      Lemma own_ok : forall ps i w w1 tr e, skipn i (passes_of St n) = ps -> run_own p (cls_of St n) h t a i ps w = (w1, tr, e) ->
        match e with
        | Finished => forall tr2 w2 r, J w1 tr2 w2 r -> K i w (tr ++ tr2) w2 r
        | Stopped => K i w tr w1 Ok
        | Broken r => K i w tr w1 r
        end.
      Proof.
        induction ps as [|f ps IH]; intros i w w1 tr e Hs H; cbn [PassModel.run_own] in H.
        - injection H as <- <- <-. intros tr2 w2 r [J1 J2 J3 J4 J5]. cbn [app]. constructor; try assumption.
          assert (Ep : pass_at m p i = None). { unfold PassSpec.pass_at. rewrite Hsub. apply nth_error_None. apply (f_equal (@length _)) in Hs. rewrite skipn_length in Hs. cbn in Hs. lia. }
          unfold PassSpec.goes_on. rewrite Ep. destruct tr2 as [|x tr2]; cbn [hd_error]; [exact I|]. destruct x; cbn in J5; try contradiction; exact J5.
        - assert (Ep : pass_at m p i = Some f). { unfold PassSpec.pass_at. rewrite Hsub. rewrite <- (Nat.add_0_r i), <- nth_error_skipn, Hs. reflexivity. }
          assert (Hs' : skipn (S i) (passes_of St n) = ps). { revert Hs. clear. generalize (passes_of St n) as l. induction i as [|i IH]; intros [|x l] Q; cbn in *; try discriminate; [congruence|apply IH, Q]. }
          destruct (f w t) as [wx [x|]] eqn:Ef.
          + injection H as <- <- <-. constructor.
            * cbn. split; [|auto]. exists f. split; [exact Ep|]. rewrite Ef. reflexivity.
            * left. exists [Ran St p i t a w], (Failed St p i t x wx). split; [reflexivity|]. split; [reflexivity|]. intros y [<-|[]]. reflexivity.
            * repeat constructor.
            * right. exists [Ran St p i t a w], (Failed St p i t x wx). split; reflexivity.
            * unfold PassSpec.goes_on. rewrite Ep. reflexivity.
          + destruct (still_alive St tag (cls_of St n) wx t a) eqn:Al; cbn [negb] in H.
            * apply alive_iff in Al. destruct (match h_ver St h with Some v => v wx t | None => None end) as [x|] eqn:Ev.
              -- injection H as <- <- <-. destruct (h_ver St h) as [v|] eqn:Hv; [|discriminate]. constructor.
                 ++ apply seq_cons; [cbn [PassSpec.follows]; exists f; split; [exact Ep|]; rewrite Ef; right; split; [exact Al|]; rewrite Hobs, Hver; destruct (h_obs St h); cbn [app hd_error]; [reflexivity|rewrite Ev; reflexivity]|].
                    destruct (h_obs St h) as [o|]; cbn [app]; [apply seq_cons; [cbn [PassSpec.follows]; rewrite Hver, Ev; reflexivity|]|]; cbn; auto.
                 ++ apply rep_cons; [reflexivity|]. apply reports_app; [destruct (h_obs St h); [intros y [<-|[]]; reflexivity|intros y []]|]. left. exists [], (Rejected St p i t x wx). split; [reflexivity|]. split; [reflexivity|intros y []].
                 ++ constructor; [exact I|]. apply Forall_app. split; [destruct (h_obs St h); repeat constructor|repeat constructor].
                 ++ right. exists (Ran St p i t a w :: match h_obs St h with Some n0 => [Observed St p i t a n0 wx] | None => [] end), (Rejected St p i t x wx). split; reflexivity.
                 ++ unfold PassSpec.goes_on. rewrite Ep. reflexivity.
              -- destruct (run_own p (cls_of St n) h t a (S i) ps wx) as [[w2 tr'] e'] eqn:R. specialize (IH (S i) wx w2 tr' e' Hs' R). injection H as <- <- <-.
                 destruct e' as [| |r']; [|eapply K_pass; eassumption|eapply K_pass; eassumption].
                 intros tr2 w3 r Hj. cbn [app]. rewrite <- !app_assoc. eapply K_pass; try eassumption. apply IH, Hj.
            * injection H as <- <- <-. assert (Na : ~ survives St tag m p wx t a) by (intro Q; apply alive_iff in Q; congruence). constructor.
              -- cbn. split; [|split; exact I]. exists f. split; [exact Ep|]. rewrite Ef. left. split; [exact Na|reflexivity].
              -- right. split; [left; reflexivity|]. intros y [<-|[<-|[]]]; reflexivity.
              -- repeat constructor.
              -- right. exists [Ran St p i t a w], (Vanished St p i t wx). split; reflexivity.
              -- unfold PassSpec.goes_on. rewrite Ep. reflexivity.
      Qed.
    End own.

    Lemma each_target_ok : forall dispatch p n ts w w' tr r, sub m p = Some n ->
      (forall w t w1 tr1 r1, matches St tag (cls_of St n) w t = true -> anchor_isolated St tag isolated w t = true -> dispatch w t = (w1, tr1, r1) -> J w tr1 w1 r1) ->
      each_target dispatch p (cls_of St n) ts w = (w', tr, r) -> J w tr w' r.
    Proof.
      intros dispatch p n ts w w' tr r Hsub D. revert w w' tr r. induction ts as [|t ts IH]; intros w w' tr r H; cbn [PassModel.each_target] in H.
      - injection H as <- <- <-. apply J_nil. left. reflexivity.
      - destruct (matches St tag (cls_of St n) w t) eqn:M; cbn [negb] in H; [|apply IH, H]. destruct (anchor_isolated St tag isolated w t) eqn:A; cbn [negb] in H.
        + destruct (dispatch w t) as [[w1 tr1] r1] eqn:E. pose proof (D w t w1 tr1 r1 M A E) as Dj. destruct r1; try (injection H as <- <- <-; exact Dj).
          destruct (each_target dispatch p (cls_of St n) ts w1) as [[w2 tr2] r2] eqn:E2. injection H as <- <- <-. eapply J_app; [exact Dj|apply IH; exact E2].
        + injection H as <- <- <-. apply matches_iff in M as (d & Ed & Ct). unfold anchor_isolated in A. rewrite Ed in A. constructor; [cbn; auto| | | |reflexivity].
          * left. exists [], (NotIsolated St p t w). split; [reflexivity|]. split; [reflexivity|intros x []].
          * constructor; [|constructor]. exists n, d. auto.
          * right. exists [], (NotIsolated St p t w). split; reflexivity.
    Qed.

    Lemma nearest_app : forall A (sel : manager -> option A) q j n outer,
      nearest St sel n (j :: q) outer = match n with Manager _ _ _ ns _ _ => match nth_error ns j with Some k => nearest St sel k q (or_else (sel n) outer) | None => None end end.
    Proof. intros A sel q j [c ps ns v o] outer. cbn [nearest]. unfold or_else. destruct (sel (Manager St c ps ns v o)); reflexivity. Qed.

    Lemma run_on_ok : forall n fuel p inh w t w' tr r,
      (forall q, sub m (p ++ q) = sub n q) ->
      (forall q, observer_at St m (p ++ q) = nearest St (own_observer St) n q (h_obs St inh)) ->
      (forall q, verifier_at St m (p ++ q) = nearest St (own_verifier St) n q (h_ver St inh)) ->
      (p = [] \/ (matches St tag (cls_of St n) w t = true /\ anchor_isolated St tag isolated w t = true)) ->
      run_on fuel p n inh w t = (w', tr, r) -> J w tr w' r.
    Proof.
      induction n as [cls ps ns v o IHn] using manager_ind'. intros fuel p inh w t w' tr r Hsub Hobs Hver Hv H. set (n := Manager St cls ps ns v o) in *.
      pose proof (Hsub []) as S0. pose proof (Hobs []) as O0. pose proof (Hver []) as V0. rewrite app_nil_r in S0, O0, V0. cbn [PassSpec.sub nearest] in S0, O0, V0.
      set (h := {| h_ver := or_else v (h_ver St inh); h_obs := or_else o (h_obs St inh) |}).
      assert (O1 : observer_at St m p = h_obs St h) by (rewrite O0; unfold n, h; cbn; destruct o; reflexivity). assert (V1 : verifier_at St m p = h_ver St h) by (rewrite V0; unfold n, h; cbn; destruct v; reflexivity).
      assert (Wrap : forall tr0 r0 w0, K p t (attached St w t) 0 w tr0 w0 r0 -> J w (Visit St p t w :: tr0) w0 r0).
      { intros tr0 r0 w0 [K1 K2 K3 K4 K5]. constructor; [| |constructor; [|exact K3]| |reflexivity].
        - apply seq_cons; [|exact K1]. cbn [PassSpec.follows]. exists (attached St w t). split; [apply attached_iff|exact K5].
        - apply rep_cons; [reflexivity|exact K2].
        - cbn. destruct Hv as [Hv|(M & A)]; [left; exact Hv|]. right. apply matches_iff in M as (d & Ed & Ct). unfold anchor_isolated in A. rewrite Ed in A. exists n, d. auto.
        - eapply ends_cons; [reflexivity|exact K4]. }
      unfold n in H at 1. cbn [PassModel.run_on] in H. fold h in H. destruct (run_own p cls h t (attached St w t) 0 ps w) as [[w1 tr1] e] eqn:R.
      pose proof (own_ok p n h t (attached St w t) S0 O1 V1 ps 0 w w1 tr1 e eq_refl R) as Own.
      destruct e as [| |r0]; [|injection H as <- <- <-; apply Wrap, Own|injection H as <- <- <-; apply Wrap, Own].
      match type of H with (let '(_, _) := ?X in _) = _ => destruct X as [[w2 tr2] r2] eqn:G end. injection H as <- <- <-. apply Wrap, Own.
      (* the nested managers *)
      assert (Kids : forall j k, nth_error ns j = Some k -> forall q, sub m ((p ++ [j]) ++ q) = sub k q /\
         observer_at St m ((p ++ [j]) ++ q) = nearest St (own_observer St) k q (h_obs St h) /\ verifier_at St m ((p ++ [j]) ++ q) = nearest St (own_verifier St) k q (h_ver St h)).
      { intros j k Ej q. rewrite <- app_assoc. cbn [app]. rewrite Hsub, Hobs, Hver, !nearest_app. unfold n. cbn [PassSpec.sub]. rewrite Ej. split; [reflexivity|]. split; reflexivity. }
      assert (Gen : forall ns' j w1 w2 tr2 r2, (forall i k, nth_error ns' i = Some k -> nth_error ns (j + i) = Some k) -> Forall (fun k => In k ns) ns' ->
        (fix go (j : nat) (ns : list manager) (w : world) : world * list event * result :=
                 match ns with
                 | [] => (w, [], Ok)
                 | n :: rest =>
                     let '(w1, tr, r) :=
                       match collect_targets St tag fuel (cls_of St n) w t with
                       | None => (w, [], Diverged)
                       | Some ts => each_target (fun w t => run_on fuel (p ++ [j]) n h w t) (p ++ [j]) (cls_of St n) ts w
                       end in
                     match r with
                     | Ok => let '(w2, tr2, r2) := go (S j) rest w1 in (w2, tr ++ tr2, r2)
                     | _ => (w1, tr, r)
                     end
                 end) j ns' w1 = (w2, tr2, r2) -> J w1 tr2 w2 r2).
      { clear Own G Wrap R. clear tr1 tr2 w1 w2 r2. induction ns' as [|k ns' IHk]; intros j w1 w2 tr2 r2 Hn Hin Q.
        - injection Q as <- <- <-. apply J_nil. left. reflexivity.
        - apply Forall_cons_iff in Hin as (Hk & Hin). assert (Ej : nth_error ns j = Some k) by (rewrite <- (Nat.add_0_r j); apply Hn; reflexivity).
          assert (Jk : forall w3 tr3 r3, match collect_targets St tag fuel (cls_of St k) w1 t with
                       | None => (w1, [], Diverged)
                       | Some ts => each_target (fun w t => run_on fuel (p ++ [j]) k h w t) (p ++ [j]) (cls_of St k) ts w1
                       end = (w3, tr3, r3) -> J w1 tr3 w3 r3).
          { intros w3 tr3 r3 X. destruct (collect_targets St tag fuel (cls_of St k) w1 t) as [ts|]; [|injection X as <- <- <-; apply J_nil; right; reflexivity].
            eapply each_target_ok; [|intros wa ta wb trb rb Ma Aa Y|exact X].
            - rewrite <- (app_nil_r (p ++ [j])). apply (Kids j k Ej []).
            - rewrite Forall_forall in IHn. eapply (IHn k Hk fuel (p ++ [j]) h); [intro q; apply (Kids j k Ej q)|intro q; apply (Kids j k Ej q)|intro q; apply (Kids j k Ej q)|right; split; [exact Ma|exact Aa]|exact Y]. }
          match type of Q with (let '(_, _) := ?X in _) = _ => destruct X as [[w3 tr3] r3] eqn:X1 end. specialize (Jk _ _ _ eq_refl).
          destruct r3; try (injection Q as <- <- <-; exact Jk).
          match type of Q with (let '(_, _) := ?X in _) = _ => destruct X as [[w4 tr4] r4] eqn:X2 end. injection Q as <- <- <-.
          eapply J_app; [exact Jk|]. eapply IHk; [|exact Hin|exact X2]. intros i k' Ei. replace (S j + i) with (j + S i) by lia. apply Hn. exact Ei. }
      eapply Gen; [|apply Forall_forall; intros k Hk; exact Hk|exact G]. intros i k Ei. exact Ei.
    Qed.
  End at_root.

  Lemma run_ok : forall fuel m w t w' tr r, run St tag isolated fuel m w t = (w', tr, r) ->
    well_sequenced m tr /\ reports tr r /\ Forall (proper_visit m) tr /\
    (exists rest, tr = Visit St [] t w :: rest) /\ (exists pre e, tr = pre ++ [e] /\ now m e w').
  Proof.
    intros fuel m w t w' tr r H. assert (St0 : exists rest, tr = Visit St [] t w :: rest).
    { revert H. unfold run. destruct m as [cls ps ns v o]. cbn [PassModel.run_on]. destruct (run_own [] cls _ t _ 0 ps w) as [[w1 tr1] [| |r0]]; [|intros [= <- <- <-]; eauto|intros [= <- <- <-]; eauto].
      match goal with |- (let '(_, _) := ?X in _) = _ -> _ => destruct X as [[w2 tr2] r2] end. intros [= <- <- <-]. eauto. }
    assert (Jr : J m w tr w' r). { apply (run_on_ok m m fuel [] {| h_ver := None; h_obs := None |} w t w' tr r); [intro q; reflexivity|intro q; reflexivity|intro q; reflexivity|left; reflexivity|exact H]. }
    destruct Jr as [J1 J2 J3 J4 _]. repeat (split; [assumption|]). destruct J4 as [(-> & _)|J4]; [destruct St0; discriminate|exact J4].
  Qed.

  (** ** Nested targets *)
  Lemma collect_ok : forall fuel cls (w : world) tree, tree_of (fst w) tree -> height tree <= fuel ->
    exists l, collect_targets St tag fuel cls w (root tree) = Some l /\ l = filter (matches St tag cls w) (preorder tree).
  Proof.
    intros fuel cls w tree Ht Hh. unfold collect_targets. rewrite walk_run by assumption.
    assert (E : forall L s, IrTreeSpec.run (B := unit) (fun l o => (if matches St tag cls w o then l ++ [o] else l, Advance)) s 0 L = Continued (s ++ filter (matches St tag cls w) (map fst L))).
    { induction L as [|[o k] L IH]; intro s; cbn [IrTreeSpec.run map filter fst]; [rewrite app_nil_r; reflexivity|]. rewrite IH. destruct (matches St tag cls w o); [rewrite <- app_assoc|]; reflexivity. }
    rewrite E. eexists. split; [reflexivity|]. cbn [app]. f_equal. clear. induction tree as [o rs IH] using tree_induct. cbn [marks preorder map fst]. f_equal. rewrite !inner_trees. induction IH as [|u us Hu _ IHu]; [reflexivity|]. cbn [flat_map]. rewrite map_app, Hu, IHu. reflexivity.
  Qed.
  Lemma turns_ok : forall dispatch p cls ts w w' tr, each_target dispatch p cls ts w = (w', tr, Ok) -> takes_turns tag cls dispatch w ts tr w'.
  Proof.
    intros dispatch p cls. induction ts as [|t ts IH]; intros w w' tr H; cbn [PassModel.each_target] in H; [injection H as <- <-; constructor|].
    pose proof (matches_iff cls w t) as M. destruct (matches St tag cls w t); cbn [negb] in H.
    - destruct M as (M & _). destruct (M eq_refl) as (d & Ed & Ct). destruct (anchor_isolated St tag isolated w t); cbn [negb] in H; [|discriminate].
      destruct (dispatch w t) as [[w1 tr1] r1] eqn:E. destruct r1; try discriminate. destruct (each_target dispatch p cls ts w1) as [[w2 tr2] r2] eqn:E2. injection H as <- <- ->. eapply tt_visit; try eassumption. apply IH, E2.
    - apply tt_skip; [|apply IH, H]. intros d Ed Ct. destruct M as (_ & M). discriminate M. eauto.
  Qed.
  Lemma nested_ok : forall fuel p h parent j n (w : world) w' tr tree, root tree = parent -> tree_of (fst w) tree -> height tree <= fuel ->
    run_nested St tag isolated fuel p h parent j n w = (w', tr, Ok) ->
    takes_turns tag (cls_of St n) (run_on fuel (p ++ [j]) n h) w (filter (matches St tag (cls_of St n) w) (preorder tree)) tr w'.
  Proof.
    intros fuel p h parent j n w w' tr tree <- Ht Hh H. unfold run_nested in H. destruct (collect_ok fuel (cls_of St n) w tree Ht Hh) as (l & El & ->). rewrite El in H. eapply turns_ok. exact H.
  Qed.
End proofs.
