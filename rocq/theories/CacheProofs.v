(** Proofs about the analysis cache. *)
From Verif Require Import Base CacheModel CacheSpec.
From Coq Require Import Lia.

Lemma ckey_eqb_eq : forall a b, ckey_eqb a b = true <-> a = b.
Proof.
  intros [a1 a2] [b1 b2]. unfold ckey_eqb. cbn [fst snd]. rewrite Bool.andb_true_iff, !Nat.eqb_eq. split; [intros (-> & ->); reflexivity|intros [= -> ->]; auto].
Qed.
Lemma ckey_eqb_refl : forall a, ckey_eqb a a = true.
Proof. intro a. apply ckey_eqb_eq. reflexivity. Qed.
Lemma snoc_split : forall A (h : list A) x b y a, h ++ [x] = b ++ y :: a -> (a = [] /\ b = h /\ y = x) \/ exists a', a = a' ++ [x] /\ h = b ++ y :: a'.
Proof.
  intros A h x b y a. destruct a as [|z a] using rev_ind; intro H.
  - left. apply app_inj_tail in H as (-> & ->). auto.
  - clear IHa. right. change (b ++ y :: a ++ [z]) with (b ++ (y :: a) ++ [z]) in H. rewrite app_assoc in H. apply app_inj_tail in H as (-> & ->). exists a. auto.
Qed.

  Definition discards_dec : forall St a t (e : req St), {discards St a t e} + {~ discards St a t e}.
  Proof.
    intros St a t [ | | a' t' | t' | | ]; cbn; try (right; tauto); try (left; exact I).
    - destruct (Nat.eq_dec a' a), (Nat.eq_dec t' t); [left; tauto|right; tauto..].
    - apply Nat.eq_dec.
  Defined.

Section proofs.
  Variables (St V : Type) (compute : nat -> St -> nat -> V).
  Notation in_force := (in_force St).
  Notation discards := (discards St).
  Notation serve_all := (serve_all St V compute).
  Notation serve := (serve St V compute).

  Lemma in_force_other : forall h a t s e, (forall s', e <> Get a t s') -> ~ discards a t e -> (in_force (h ++ [e]) a t s <-> in_force h a t s).
  Proof.
    intros h a t s e N D. split.
    - intros (b & f & E & K & F). apply snoc_split in E as [(-> & -> & E)|(f' & -> & ->)]; [exfalso; exact (N s (eq_sym E))|].
      exists b, f'. split; [reflexivity|]. split; [|exact F]. intros e' He. apply K. apply in_or_app. left. exact He.
    - intros (b & f & -> & K & F). exists b, (f ++ [e]). split; [rewrite <- app_assoc; reflexivity|]. split; [|exact F]. intros e' He. apply in_app_or in He as [He|[<-|[]]]; [apply K, He|exact D].
  Qed.
  Lemma in_force_discard : forall h a t s e, discards a t e -> ~ in_force (h ++ [e]) a t s.
  Proof.
    intros h a t s e D (b & f & E & K & F). apply snoc_split in E as [(-> & -> & <-)|(f' & -> & ->)]; [exact D|].
    apply (K e); [apply in_or_app; right; left; reflexivity|exact D].
  Qed.
  Lemma in_force_get : forall h a t s s', in_force (h ++ [Get a t s']) a t s <-> (in_force h a t s \/ (s = s' /\ forall s0, ~ in_force h a t s0)).
  Proof.
    intros h a t s s'. split.
    - intros (b & f & E & K & F). apply snoc_split in E as [(-> & -> & [= ->])|(f' & -> & ->)].
      + right. split; [reflexivity|]. intros s0 (b & f & -> & K' & F'). destruct (F b s0 f eq_refl) as (e & He & D). exact (K' e He D).
      + left. exists b, f'. split; [reflexivity|]. split; [|exact F]. intros e' He. apply K. apply in_or_app. left. exact He.
    - intros [(b & f & -> & K & F)|(-> & N)].
      + exists b, (f ++ [Get a t s']). split; [rewrite <- app_assoc; reflexivity|]. split; [|exact F]. intros e' He. apply in_app_or in He as [He|[<-|[]]]; [apply K, He|intros []].
      + exists h, []. split; [reflexivity|]. split; [intros e []|].
        (* any earlier get is followed by a discard, else something would be in force *)
        intros x s1 y E. destruct (Exists_dec (discards a t) y (discards_dec St a t)) as [X|X]; [apply Exists_exists in X; exact X|]. exfalso.
        assert (NY : forall e, In e y -> ~ discards a t e) by (intros e He D; apply X, Exists_exists; eauto). clear X. subst h. revert y s1 NY N.
        induction x as [x IH] using (well_founded_induction (Wf_nat.well_founded_ltof _ (@length (req St)))). intros y s1 NY N.
        (* either x has an undiscarded get, which is earlier, or this one is in force *)
        assert (P : (exists x1 s2 y1, x = x1 ++ Get a t s2 :: y1 /\ forall e, In e y1 -> ~ discards a t e) \/ (forall x1 s2 y1, x = x1 ++ Get a t s2 :: y1 -> exists e, In e y1 /\ discards a t e)).
        { clear. induction x as [|e x IH] using rev_ind; [right; intros [|] ? ? Q; discriminate|].
          destruct (discards_dec St a t e) as [D|D].
          - right. intros x1 s2 y1 Q. apply snoc_split in Q as [(-> & -> & <-)|(f' & -> & ->)]; [destruct D|]. exists e. split; [apply in_or_app; right; left; reflexivity|exact D].
          - destruct IH as [(x1 & s2 & y1 & -> & NY)|IH].
            + left. exists x1, s2, (y1 ++ [e]). split; [rewrite <- app_assoc; reflexivity|]. intros e' He. apply in_app_or in He as [He|[<-|[]]]; [apply NY, He|exact D].
            + assert (G : (exists s2, e = Get a t s2) \/ forall s2, e <> Get a t s2).
              { destruct e as [a' t' s2| | | | |]; try (right; discriminate). destruct (Nat.eq_dec a' a) as [->|Na]; [|right; intros s3 [= ? ?]; contradiction]. destruct (Nat.eq_dec t' t) as [->|Nt]; [left; eauto|right; intros s3 [= ?]; contradiction]. }
              destruct G as [(s2 & ->)|G]; [left; exists x, s2, []; split; [reflexivity|intros e []]|].
              right. intros x1 s2 y1 Q. apply snoc_split in Q as [(-> & -> & Q)|(f' & -> & ->)]; [exfalso; exact (G s2 (eq_sym Q))|].
              destruct (IH _ _ _ eq_refl) as (e' & He & De). exists e'. split; [apply in_or_app; left; exact He|exact De]. }
        destruct P as [(x1 & s2 & y1 & -> & NY1)|P].
        * rewrite <- app_assoc in N. cbn [app] in N. apply (IH x1) with (y := y1 ++ Get a t s1 :: y) (s1 := s2); [unfold Wf_nat.ltof; rewrite app_length; cbn; lia| |exact N].
          intros e He. apply in_app_or in He as [He|[<-|He]]; [apply NY1, He|intros []|apply NY, He].
        * apply (N s1). exists x, y. split; [reflexivity|]. split; [exact NY|exact P].
  Qed.

  Lemma clookup_filter : forall (p : ckey * V -> bool) c k, (forall v v', p (k, v) = p (k, v')) -> (forall v, p (k, v) = true) -> clookup V (filter p c) k = clookup V c k.
  Proof.
    intros p c k _ Hp. induction c as [|[k' v] c IH]; [reflexivity|]. cbn [filter clookup]. destruct (ckey_eqb k k') eqn:E.
    - apply ckey_eqb_eq in E. subst k'. rewrite Hp. cbn [clookup]. rewrite ckey_eqb_refl. reflexivity.
    - destruct (p (k', v)); [cbn [clookup]; rewrite E; exact IH|exact IH].
  Qed.
  Lemma clookup_filter_none : forall (p : ckey * V -> bool) c k, (forall v, p (k, v) = false) -> clookup V (filter p c) k = None.
  Proof.
    intros p c k Hp. induction c as [|[k' v] c IH]; [reflexivity|]. cbn [filter]. destruct (p (k', v)) eqn:E; [|exact IH]. cbn [clookup].
    destruct (ckey_eqb k k') eqn:E2; [|exact IH]. apply ckey_eqb_eq in E2. subst k'. rewrite Hp in E. discriminate.
  Qed.

  Lemma serve_all_app : forall h1 h2 c, serve_all c (h1 ++ h2) = serve_all (serve_all c h1) h2.
  Proof. induction h1 as [|r h1 IH]; intros h2 c; [reflexivity|]. apply IH. Qed.

  (** Lookup after one request. *)
  Lemma serve_lookup : forall c r a t, clookup V (fst (serve c r)) (a, t) =
    if discards_dec St a t r then None else
    match clookup V c (a, t), r with
    | Some v, _ => Some v
    | None, Get a' t' s => if Nat.eqb a a' && Nat.eqb t t' then Some (compute a s t) else None
    | None, _ => None
    end.
  Proof.
    intros c r a t. destruct r as [a' t' s|a' t'|a' t'|t'| |]; cbn [CacheModel.serve fst].
    - destruct (discards_dec St a t (Get a' t' s)) as [[]|_]. destruct (Nat.eqb a a' && Nat.eqb t t') eqn:E.
      + apply Bool.andb_true_iff in E as (E1 & E2). apply Nat.eqb_eq in E1, E2. subst a' t'. destruct (clookup V c (a, t)) eqn:L; cbn [fst]; [exact L|]. cbn [clookup]. rewrite ckey_eqb_refl. reflexivity.
      + destruct (clookup V c (a', t')) eqn:L; cbn [fst]; [destruct (clookup V c (a, t)); reflexivity|]. cbn [clookup]. unfold ckey_eqb at 1. cbn [fst snd]. rewrite E. destruct (clookup V c (a, t)); reflexivity.
    - destruct (discards_dec St a t (GetCached a' t')) as [[]|_]. destruct (clookup V c (a, t)); reflexivity.
    - destruct (discards_dec St a t (Invalidate a' t')) as [(-> & ->)|N].
      + apply clookup_filter_none. intro v. cbn [fst]. rewrite ckey_eqb_refl. reflexivity.
      + rewrite clookup_filter; [destruct (clookup V c (a, t)); reflexivity|reflexivity|]. intro v. cbn [fst]. destruct (ckey_eqb (a', t') (a, t)) eqn:E; [|reflexivity]. apply ckey_eqb_eq in E. injection E as -> ->. exfalso. apply N. split; reflexivity.
    - destruct (discards_dec St a t (InvalidateAll t')) as [->|N].
      + apply clookup_filter_none. intro v. cbn [fst snd]. rewrite Nat.eqb_refl. reflexivity.
      + rewrite clookup_filter; [destruct (clookup V c (a, t)); reflexivity|reflexivity|]. intro v. cbn [fst snd]. destruct (Nat.eqb_spec t t'); [subst; exfalso; apply N; reflexivity|reflexivity].
    - destruct (discards_dec St a t Clear) as [_|N]; [reflexivity|]. exfalso. apply N. exact I.
    - destruct (discards_dec St a t Len) as [[]|_]. destruct (clookup V c (a, t)); reflexivity.
  Qed.

  Lemma lookup_exact : forall h a t,
    (forall v, clookup V (serve_all [] h) (a, t) = Some v -> exists s, in_force h a t s /\ v = compute a s t) /\
    (clookup V (serve_all [] h) (a, t) = None -> forall s, ~ in_force h a t s).
  Proof.
    intros h a t. induction h as [|e h (IH1 & IH2)] using rev_ind.
    - split; [discriminate|]. intros _ s ([|] & f & E & _); discriminate.
    - rewrite serve_all_app. cbn [CacheModel.serve_all]. rewrite serve_lookup. destruct (discards_dec St a t e) as [D|D]; [split; [discriminate|intros _ s; apply in_force_discard, D]|].
      destruct (clookup V (serve_all [] h) (a, t)) as [v0|] eqn:L.
      + split; [|discriminate]. intros v [= <-]. destruct (IH1 v0 eq_refl) as (s & Hs & ->). exists s. split; [|reflexivity].
        destruct e as [a' t' s'| | | | |]; try (apply in_force_other; [discriminate|exact D|exact Hs]).
        destruct (Nat.eq_dec a' a) as [->|Na]; [destruct (Nat.eq_dec t' t) as [->|Nt]|]; [apply in_force_get; left; exact Hs| |]; (apply in_force_other; [intros s1 [= ? ?]; contradiction|exact D|exact Hs]).
      + destruct e as [a' t' s'| | | | |]; try (split; [discriminate|intros _ s Q; apply in_force_other in Q; [exact (IH2 eq_refl s Q)|discriminate|exact D]]).
        destruct (Nat.eqb_spec a a') as [<-|Na]; [destruct (Nat.eqb_spec t t') as [<-|Nt]|]; cbn [andb].
        * split; [|discriminate]. intros v [= <-]. exists s'. split; [apply in_force_get; right; split; [reflexivity|apply IH2; reflexivity]|reflexivity].
        * split; [discriminate|]. intros _ s Q. apply in_force_other in Q; [exact (IH2 eq_refl s Q)|intros s1 [= ?]; congruence|exact D].
        * split; [discriminate|]. intros _ s Q. apply in_force_other in Q; [exact (IH2 eq_refl s Q)|intros s1 [= ?]; congruence|exact D].
  Qed.
  Lemma in_force_unique : forall h a t s s', in_force h a t s -> in_force h a t s' -> s = s'.
  Proof.
    intros h a t. induction h as [|e h IH] using rev_ind; intros s s' H H'; [destruct H as ([|] & f & E & _); discriminate|].
    destruct (discards_dec St a t e) as [D|D]; [exfalso; exact (in_force_discard _ _ _ _ _ D H)|].
    assert (G : (exists s2, e = Get a t s2) \/ forall s2, e <> Get a t s2).
    { destruct e as [a' t' s2| | | | |]; try (right; discriminate). destruct (Nat.eq_dec a' a) as [->|Na]; [|right; intros s3 [= ? ?]; contradiction]. destruct (Nat.eq_dec t' t) as [->|Nt]; [left; eauto|right; intros s3 [= ?]; contradiction]. }
    destruct G as [(s2 & ->)|G].
    - apply in_force_get in H as [H|(-> & N)], H' as [H'|(-> & N')]; [eauto|exfalso; exact (N' _ H)|exfalso; exact (N _ H')|reflexivity].
    - apply in_force_other in H, H'; try assumption. eauto.
  Qed.

  Lemma get_exact : forall h a t s v fresh, answer_after St V compute h (Get a t s) = Value v fresh <->
    ((fresh = false /\ exists s', in_force h a t s' /\ v = compute a s' t) \/ (fresh = true /\ v = compute a s t /\ forall s', ~ in_force h a t s')).
  Proof.
    intros h a t s v fresh. unfold answer_after. cbn [CacheModel.serve]. destruct (lookup_exact h a t) as (H1 & H2). destruct (clookup V (serve_all [] h) (a, t)) as [w|]; cbn [snd].
    - destruct (H1 w eq_refl) as (s' & Hs & ->). split.
      + intros [= <- <-]. left. split; [reflexivity|]. exists s'. auto.
      + intros [(-> & s1 & H & ->)|(_ & _ & N)]; [rewrite (in_force_unique _ _ _ _ _ H Hs); reflexivity|exfalso; exact (N _ Hs)].
    - split.
      + intros [= <- <-]. right. split; [reflexivity|]. split; [reflexivity|apply H2; reflexivity].
      + intros [(-> & s1 & H & ->)|(-> & -> & N)]; [exfalso; exact (H2 eq_refl _ H)|reflexivity].
  Qed.
  Lemma get_cached_exact : forall h a t ans, answer_after St V compute h (GetCached a t) = ans <->
    ((exists s, in_force h a t s /\ ans = Value (compute a s t) false) \/ (ans = Absent /\ forall s, ~ in_force h a t s)).
  Proof.
    intros h a t ans. unfold answer_after. cbn [CacheModel.serve snd]. destruct (lookup_exact h a t) as (H1 & H2). destruct (clookup V (serve_all [] h) (a, t)) as [w|].
    - destruct (H1 w eq_refl) as (s' & Hs & ->). split; [intros <-; left; eauto|]. intros [(s1 & H & ->)|(_ & N)]; [rewrite (in_force_unique _ _ _ _ _ H Hs); reflexivity|exfalso; exact (N _ Hs)].
    - split; [intros <-; right; split; [reflexivity|apply H2; reflexivity]|]. intros [(s1 & H & ->)|(-> & N)]; [exfalso; exact (H2 eq_refl _ H)|reflexivity].
  Qed.

  (** ** Size *)
  Lemma keys_nodup : forall h, NoDup (map fst (serve_all [] h)).
  Proof.
    intro h. induction h as [|e h IH] using rev_ind; [constructor|]. rewrite serve_all_app. cbn [CacheModel.serve_all]. revert IH. generalize (serve_all [] h) as c. intros c IH.
    assert (F : forall p : ckey * V -> bool, NoDup (map fst (filter p c))).
    { intro p. clear -IH. induction c as [|x c IHc]; [constructor|]. cbn [map] in IH. apply NoDup_cons_iff in IH as (N & IH). cbn [filter]. destruct (p x); [|apply IHc, IH]. cbn [map]. constructor; [|apply IHc, IH].
      intro Q. apply N. apply in_map_iff in Q as (y & E & Hy). apply filter_In in Hy as (Hy & _). rewrite <- E. apply in_map, Hy. }
    destruct e as [a t s| | | | |]; cbn [CacheModel.serve fst]; try exact IH; try apply F; [|constructor].
    destruct (clookup V c (a, t)) eqn:L; cbn [fst]; [exact IH|]. cbn [map fst]. constructor; [|exact IH]. clear -L. intro Q. induction c as [|[k v] c IHc]; [destruct Q|]. cbn [clookup] in L. cbn [map fst] in Q.
    destruct (ckey_eqb (a, t) k) eqn:E; [discriminate|]. destruct Q as [->|Q]; [rewrite ckey_eqb_refl in E; discriminate|apply IHc; assumption].
  Qed.
  Lemma clookup_in : forall c k, (exists v, clookup V c k = Some v) <-> In k (map fst c).
  Proof.
    intros c k. induction c as [|[k' v] c IH]; cbn [clookup map In fst]; [split; [intros (v & H); discriminate|intros []]|].
    destruct (ckey_eqb k k') eqn:E; [apply ckey_eqb_eq in E; subst; split; [intros _; left; reflexivity|intros _; eauto]|]. rewrite IH. split; [right; assumption|]. intros [->|Q]; [rewrite ckey_eqb_refl in E; discriminate|exact Q].
  Qed.
  Lemma len_exact : forall h n, answer_after St V compute h Len = Count n -> exists ks, NoDup ks /\ length ks = n /\ forall a t, In (a, t) ks <-> exists s, in_force h a t s.
  Proof.
    intros h n. unfold answer_after. cbn [CacheModel.serve snd]. intros [= <-]. exists (map fst (serve_all [] h)). split; [apply keys_nodup|]. split; [apply map_length|].
    intros a t. rewrite <- clookup_in. destruct (lookup_exact h a t) as (H1 & H2). split.
    - intros (v & Hv). destruct (H1 v Hv) as (s & Hs & _). eauto.
    - intros (s & Hs). destruct (clookup V (serve_all [] h) (a, t)) as [v|]; [eauto|]. exfalso. exact (H2 eq_refl s Hs).
  Qed.

  Lemma get_fresh : forall h a t s v fresh,
    (forall b f s', h = b ++ Get a t s' :: f -> compute a s' t = compute a s t \/ exists e, In e f /\ discards a t e) ->
    answer_after St V compute h (Get a t s) = Value v fresh -> v = compute a s t.
  Proof.
    intros h a t s v fresh H Q. apply get_exact in Q as [(_ & s' & (b & f & E & K & _) & ->)|(_ & -> & _)]; [|reflexivity].
    destruct (H b f s' E) as [Q|(e & He & D)]; [exact Q|exfalso; exact (K e He D)].
  Qed.
  Lemma answers_total : forall h a t s, exists v fresh, answer_after St V compute h (Get a t s) = Value v fresh.
  Proof. intros h a t s. unfold answer_after. cbn [CacheModel.serve]. destruct (clookup V (serve_all [] h) (a, t)); eexists; eexists; reflexivity. Qed.
End proofs.
