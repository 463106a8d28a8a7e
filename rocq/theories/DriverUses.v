(** No use of a removed value is left by the rewrite engine. *)
From Verif Require Import DriverSpec DriverProofs.

Lemma sub_app s t v : sub (s ++ t) v = sub t (sub s v).
Proof. unfold sub. apply fold_left_app. Qed.
Lemma sub_out rs vs v : ~ In v rs -> sub (combine rs vs) v = v.
Proof.
  revert vs. induction rs as [|r rs IH]; intros [|w vs] N; cbn [combine]; try reflexivity. unfold sub. cbn [fold_left fst snd].
  destruct (Nat.eqb_spec v r) as [->|E]; [destruct N; cbn; auto|]. apply IH. intros I. apply N. cbn. auto.
Qed.
Lemma sub_combine rs : forall vs v, List.length vs = List.length rs -> (forall w, In w vs -> ~ In w rs) ->
  (~ In v rs /\ sub (combine rs vs) v = v) \/ In (sub (combine rs vs) v) vs.
Proof.
  induction rs as [|r rs IH]; intros [|w vs] v L D; try discriminate; cbn [combine].
  - left. auto.
  - unfold sub. cbn [fold_left fst snd]. destruct (Nat.eqb_spec v r) as [->|E].
    + right. fold (sub (combine rs vs) w). rewrite sub_out; [cbn; auto|]. intros I. apply (D w); cbn; auto.
    + fold (sub (combine rs vs) v). destruct (IH vs v) as [[N K]|I]; [cbn in L; lia| | |].
      * intros x Ix I. apply (D x); cbn; auto.
      * left. split; [|exact K]. cbn. intros [Z|Z]; auto.
      * right. cbn. auto.
Qed.

Definition uses_l (l : list op) : list nat := flat_map uses l.
Definition defs_l (l : list op) : list nat := flat_map defs l.
Lemma map_flat_map {A B C} (g : B -> C) (f : A -> list B) l : List.map g (flat_map f l) = flat_map (fun x => List.map g (f x)) l.
Proof. induction l as [|x l IH]; cbn; [reflexivity|]. rewrite map_app, IH. reflexivity. Qed.
Lemma flat_map_map {A B C} (f : B -> list C) (g : A -> B) l : flat_map f (List.map g l) = flat_map (fun x => f (g x)) l.
Proof. induction l as [|x l IH]; cbn; [reflexivity|]. rewrite IH. reflexivity. Qed.
Lemma flat_map_eq {A B} (f g : A -> list B) l : (forall x, In x l -> f x = g x) -> flat_map f l = flat_map g l.
Proof. induction l as [|x l IH]; intros H; cbn; [reflexivity|]. rewrite (H x) by (cbn; auto). rewrite IH; [reflexivity|]. intros y I. apply H. cbn. auto. Qed.
Lemma uses_rop s o : uses (rop s o) = List.map (sub s) (uses o).
Proof.
  induction o as [d rs H] using op_ind'. cbn [rop uses rdata operands]. rewrite map_app. f_equal.
  rewrite flat_map_map, map_flat_map. apply flat_map_eq. intros r Ir. rewrite flat_map_map, map_flat_map. apply flat_map_eq. intros b Ib.
  rewrite flat_map_map, map_flat_map. apply flat_map_eq. intros o Io. rewrite Forall_forall in H. specialize (H r Ir). rewrite Forall_forall in H. specialize (H b Ib).
  rewrite Forall_forall in H. auto.
Qed.
Lemma defs_rop s o : defs (rop s o) = defs o.
Proof.
  induction o as [d rs H] using op_ind'. cbn [rop defs rdata results]. f_equal.
  rewrite flat_map_map. apply flat_map_eq. intros r Ir. rewrite flat_map_map. apply flat_map_eq. intros b Ib.
  rewrite flat_map_map. apply flat_map_eq. intros o Io. rewrite Forall_forall in H. specialize (H r Ir). rewrite Forall_forall in H. specialize (H b Ib).
  rewrite Forall_forall in H. auto.
Qed.
Lemma uses_rops s l : uses_l (rops s l) = List.map (sub s) (uses_l l).
Proof. unfold uses_l, rops. rewrite flat_map_map, map_flat_map. apply flat_map_eq. intros o _. apply uses_rop. Qed.
Lemma defs_rops s l : defs_l (rops s l) = defs_l l.
Proof. unfold defs_l, rops. rewrite flat_map_map. apply flat_map_eq. intros o _. apply defs_rop. Qed.

(** What a visit of [a] has to keep. *)
Definition good {A B} (uA dA : A -> list nat) (uB dB : B -> list nat) (f : subst -> nat -> A -> res B) (a : A) : Prop :=
  forall s n (O : nat -> Prop),
  (forall u, In u (uA a) -> O (sub s u) \/ In (sub s u) (dA a)) -> (forall u, In u (uA a) -> sub s u < n) -> (forall v, In v (dA a) -> v < n) ->
  let x := f s n a in let D v := In v (dB (out x)) \/ In v (defs_l (extra x)) in
  n <= next x /\ (forall u, In u (uB (out x)) \/ In u (uses_l (extra x)) -> u < next x /\ (O u \/ D u)) /\ (forall v, D v -> v < next x) /\
  (forall v, v < n -> sub (ren x) v < next x) /\ (forall v, O v \/ In v (dA a) -> O (sub (ren x) v) \/ D (sub (ren x) v)).

Lemma good_seq {A B} uA dA uB dB (rn : subst -> B -> B) f
  (Ru : forall t b, uB (rn t b) = List.map (sub t) (uB b)) (Rd : forall t b, dB (rn t b) = dB b) l :
  (forall a : A, In a l -> good uA dA uB dB f a) -> good (flat_map uA) (flat_map dA) (flat_map uB) (flat_map dB) (seq rn f) l.
Proof.
  induction l as [|a l IH]; intros H s n O Hu Hn Hd; cbn [seq flat_map] in *.
  - cbn. repeat split; auto; try tauto; intros v [Z|[]]; auto.
  - unfold chain, both. cbn [out ren next changes extra flat_map].
    pose proof (H a (or_introl eq_refl) s n (fun v => O v \/ In v (flat_map dA l))) as G1. cbn zeta in G1. set (x := f s n a) in *.
    destruct G1 as (N1 & U1 & D1 & B1 & R1).
    { intros u Iu. destruct (Hu u) as [Z|Z]; [apply in_app_iff; auto|auto|]. apply in_app_iff in Z. tauto. }
    { intros u Iu. apply Hn, in_app_iff. auto. }
    { intros v Iv. apply Hd, in_app_iff. auto. }
    pose proof (IH (fun b Ib => H b (or_intror Ib)) (s ++ ren x) (next x) (fun v => O v \/ In v (dB (out x)) \/ In v (defs_l (extra x)))) as G2.
    cbn zeta in G2. set (y := seq rn f (s ++ ren x) (next x) l) in *.
    destruct G2 as (N2 & U2 & D2 & B2 & R2).
    { intros u Iu. rewrite sub_app. destruct (R1 (sub s u)) as [Z|Z]; [|tauto|tauto].
      destruct (Hu u) as [Z|Z]; [apply in_app_iff; auto|auto|]. apply in_app_iff in Z. tauto. }
    { intros u Iu. rewrite sub_app. apply B1, Hn, in_app_iff. auto. }
    { intros v Iv. apply Nat.lt_le_trans with n; [|exact N1]. apply Hd, in_app_iff. auto. }
    split; [lia|].
    assert (X : forall v, O v \/ In v (dB (out x)) \/ In v (defs_l (extra x)) \/ In v (flat_map dA l) -> 
       O (sub (ren y) v) \/ (In (sub (ren y) v) (dB (rn (ren y) (out x)) ++ flat_map dB (out y)) \/ In (sub (ren y) v) (defs_l (rops (ren y) (extra x) ++ extra y)))).
    { intros v Iv. unfold defs_l. rewrite flat_map_app. fold (defs_l (rops (ren y) (extra x))) (defs_l (extra y)). rewrite defs_rops, Rd, !in_app_iff. destruct (R2 v); tauto. }
    assert (Dl : forall v, In v (dB (rn (ren y) (out x)) ++ flat_map dB (out y)) \/ In v (defs_l (rops (ren y) (extra x) ++ extra y)) ->
       (In v (dB (out x)) \/ In v (defs_l (extra x))) \/ (In v (flat_map dB (out y)) \/ In v (defs_l (extra y)))).
    { intros v. unfold defs_l. rewrite flat_map_app. fold (defs_l (rops (ren y) (extra x))) (defs_l (extra y)). rewrite defs_rops, Rd, !in_app_iff. tauto. }
    assert (Dr : forall v, (In v (dB (out x)) \/ In v (defs_l (extra x))) \/ (In v (flat_map dB (out y)) \/ In v (defs_l (extra y))) ->
       In v (dB (rn (ren y) (out x)) ++ flat_map dB (out y)) \/ In v (defs_l (rops (ren y) (extra x) ++ extra y))).
    { intros v. unfold defs_l. rewrite flat_map_app. fold (defs_l (rops (ren y) (extra x))) (defs_l (extra y)). rewrite defs_rops, Rd, !in_app_iff. tauto. }
    split; [|split; [|split]].
    + intros u Iu. unfold uses_l in Iu. rewrite flat_map_app in Iu. fold (uses_l (rops (ren y) (extra x))) (uses_l (extra y)) in Iu.
      rewrite uses_rops, Ru, !in_app_iff in Iu.
      assert (Iu' : (exists w, u = sub (ren y) w /\ (In w (uB (out x)) \/ In w (uses_l (extra x)))) \/ (In u (flat_map uB (out y)) \/ In u (uses_l (extra y)))).
      { destruct Iu as [[Z|Z]|[Z|Z]]; try tauto; apply in_map_iff in Z as (w & <- & Z); left; exists w; auto. }
      destruct Iu' as [(w & -> & Iw)|Iu'].
      * destruct (U1 w Iw) as [L W]. split; [apply B2, L|]. apply X. tauto.
      * destruct (U2 u Iu') as [L W]. split; [exact L|]. destruct W as [[W|W]|W]; [auto| |]; right; apply Dr; tauto.
    + intros v Iv. apply Dl in Iv as [Iv|Iv]; [|apply D2, Iv]. apply Nat.lt_le_trans with (next x); [apply D1, Iv|exact N2].
    + intros v Lv. rewrite sub_app. apply B2, B1, Lv.
    + intros v Iv. rewrite sub_app. apply X. rewrite in_app_iff in Iv. destruct (R1 v); tauto.
Qed.

Section Engine.
  Variable ps : list pattern.
  Variable constrained : bool.
  Variable legal : op -> legality.
  Variable recursive : op -> bool.
  Variable at_module : bool.
  Hypothesis Sound : forall p, In p ps -> sound p /\ counts p.
  Let vis := visit ps constrained legal recursive at_module.

  Lemma try_count l : (forall p, In p l -> counts p) -> forall n o, n <= snd (try l n o).
  Proof.
    induction l as [|p l IH]; intros H n o; cbn [try]; [cbn; lia|]. pose proof (H p ltac:(cbn; auto) n o) as C. destruct (p_make p n o) as [m n1]. cbn [snd] in C.
    destruct (p_match p o && has_mutations m); [exact C|]. apply Nat.le_trans with n1; [exact C|]. apply IH. intros q I. apply H. cbn. auto.
  Qed.
  Lemma try_at l : (forall p, In p l -> counts p) -> forall n o m n', try l n o = (Some m, n') -> exists p n1, In p l /\ n <= n1 /\ p_match p o = true /\ p_make p n1 o = (m, n').
  Proof.
    induction l as [|p l IH]; intros H n o m n' E; cbn [try] in E; [discriminate|]. pose proof (H p ltac:(cbn; auto) n o) as C.
    destruct (p_make p n o) as [m1 n1] eqn:Em. cbn [snd] in C.
    destruct (p_match p o && has_mutations m1) eqn:B.
    - injection E as -> ->. apply andb_true_iff in B as [B1 B2]. exists p, n. cbn. auto.
    - destruct (IH ltac:(intros q I; apply H; cbn; auto) _ _ _ _ E) as (q & k & I & L & R). exists q, k. cbn. split; [auto|]. split; [lia|exact R].
  Qed.

  (** The changes of a sound pattern. *)
  Lemma mutated n o m n' (X : nat -> Prop) (S : sound_for n o m n') :
    (forall u, In u (uses o) -> u < n /\ (X u \/ In u (defs o))) -> (forall v, In v (defs o) -> v < n) ->
    let '(new, t, mops) := apply_mutations at_module o m in let D v := In v (defs_l new) \/ In v (defs_l mops) in
    (forall u, In u (uses_l new) \/ In u (uses_l mops) -> u < n' /\ (X u \/ D u)) /\ (forall v, D v -> v < n') /\
    (forall v, v < n -> sub t v < n') /\ (forall v, X v \/ In v (defs o) -> X (sub t v) \/ D (sub t v)).
  Proof.
    intros Hu Hd. pose proof (counter _ _ _ _ S) as Nn.
    assert (De : forall v, In v (defs o) <-> In v (results (op_data o)) \/ In v (nested o)).
    { intros v. destruct o as [d rs]. cbn [defs op_data nested op_regions]. rewrite in_app_iff. reflexivity. }
    assert (Mb : forall v, In v (made m) -> v < n').
    { intros v I. unfold made in I. apply in_app_iff in I as [I|I].
      - apply in_flat_map in I as (x & Ix & I). apply (new_values _ _ _ _ S x v); auto.
      - destruct (replacement m) as [x|] eqn:E; [|destruct I]. apply (new_values _ _ _ _ S x v); auto. }
    assert (Kb : forall u, In u (uses o ++ defs o ++ made m) -> u < n').
    { intros u. rewrite !in_app_iff. intros [I|[I|I]]; [destruct (Hu u I); lia|specialize (Hd u I); lia|auto]. }
    assert (Ob : forall v, In v (defs_l (module_ops m)) -> v < n').
    { intros v I. apply in_flat_map in I as (x & Ix & I). apply (new_values _ _ _ _ S x v); auto. }
    assert (Cu : forall u, In u (flat_map uses (prefix m)) \/ (exists x, replacement m = Some x /\ In u (uses x)) -> In u (uses o ++ defs o ++ made m)).
    { intros u [I|(x & Ex & I)]; [apply in_flat_map in I as (x & Ix & I)|]; apply (new_code _ _ _ _ S x u); auto. }
    assert (Mu : forall u, In u (uses_l (module_ops m)) -> In u (uses o ++ defs o ++ made m ++ defs_l (module_ops m))).
    { intros u I. apply in_flat_map in I as (x & Ix & I). apply (module_code _ _ _ _ S x u); auto. }
    set (mops := if at_module then module_ops m else []).
    assert (Mo : forall u, In u (uses_l mops) -> In u (uses o ++ defs o ++ made m) \/ In u (defs_l mops)).
    { intros u. unfold mops. case at_module; [|intros []]. intros I. specialize (Mu u I). rewrite !in_app_iff in *. tauto. }
    assert (Mob : forall v, In v (defs_l mops) -> v < n').
    { intros v. unfold mops. case at_module; [apply Ob|intros []]. }
    (* the common part of replacement and erasure *)
    assert (Common : forall vs new, List.length vs = List.length (results (op_data o)) ->
      (forall v, In v vs -> ~ In v (results (op_data o))) ->
      (forall v, In v vs -> v < n' /\ (X v \/ In v (made m))) ->
      (forall v, In v (nested o) -> In v (made m)) ->
      (forall u, In u (uses_l new) -> In u (uses o ++ defs o ++ made m)) -> (forall v, In v (defs_l new) <-> In v (made m)) ->
      let t := combine (results (op_data o)) vs in let D v := In v (defs_l (rops t new)) \/ In v (defs_l (rops t mops)) in
      (forall u, In u (uses_l (rops t new)) \/ In u (uses_l (rops t mops)) -> u < n' /\ (X u \/ D u)) /\ (forall v, D v -> v < n') /\
      (forall v, v < n -> sub t v < n') /\ (forall v, X v \/ In v (defs o) -> X (sub t v) \/ D (sub t v))).
    { intros vs new Le Dj Vb Nk Un Dn t D.
      assert (Dd : forall v, D v <-> In v (made m) \/ In v (defs_l mops)) by (intros v; unfold D; rewrite !defs_rops, Dn; tauto).
      assert (Vs : forall v, In v vs -> X v \/ D v) by (intros v I; rewrite Dd; destruct (Vb v I) as [_ [Z|Z]]; auto).
      assert (Sb : forall v, v < n' -> sub t v < n').
      { intros v L. unfold t. destruct (sub_combine (results (op_data o)) vs v Le Dj) as [[_ ->]|I]; [exact L|]. apply Vb, I. }
      assert (Sx : forall v, X v \/ In v (defs o) \/ In v (made m) \/ In v (defs_l mops) -> X (sub t v) \/ D (sub t v)).
      { intros v Iv. destruct (sub_combine (results (op_data o)) vs v Le Dj) as [[Nr E]|I]; [|apply Vs, I]. fold t in E. rewrite E.
        rewrite Dd. rewrite De in Iv. destruct Iv as [Z|[[Z|Z]|[Z|Z]]]; auto. contradiction. }
      assert (Sk : forall u, In u (uses o ++ defs o ++ made m) -> sub t u < n' /\ (X (sub t u) \/ D (sub t u))).
      { intros u I. split; [apply Sb, Kb, I|]. apply Sx. rewrite !in_app_iff in I. destruct I as [I|[I|I]]; auto. destruct (Hu u I) as [_ [Z|Z]]; auto. }
      repeat split.
      - rewrite !uses_rops in H. destruct H as [I|I]; apply in_map_iff in I as (w & <- & I); [apply Sk, Un, I|].
        destruct (Mo w I) as [I'|I']; [apply Sk, I'|apply Sb, Mob, I'].
      - rewrite !uses_rops in H. destruct H as [I|I]; apply in_map_iff in I as (w & <- & I); [apply Sk, Un, I|].
        destruct (Mo w I) as [I'|I']; [apply Sk, I'|apply Sx; auto].
      - intros v I. apply Dd in I as [I|I]; auto.
      - intros v L. apply Sb. lia.
      - intros v [I|I]; apply Sx; auto. }
    unfold apply_mutations. fold mops. destruct (replacement m) as [x|] eqn:Er; [|destruct (erase_values m) as [vs|] eqn:Ee].
    - destruct (new_results _ _ _ _ S x Er) as [Le Dj].
      assert (Rx : forall v, In v (results (op_data x)) -> In v (made m)).
      { intros v I. unfold made. rewrite Er. apply in_app_iff. right. destruct x as [d rs]. cbn [defs op_data] in *. apply in_app_iff. auto. }
      pose proof (Common (results (op_data x)) (prefix m ++ [x]) Le Dj) as C. cbn zeta in C. unfold rops at 1 3 5 7 in C. rewrite !map_app in C. cbn [List.map] in C.
      apply C; clear C.
      + intros v I. split; [apply Mb, Rx, I|]. auto.
      + apply (nested_kept _ _ _ _ S). left. congruence.
      + intros u I. apply Cu. unfold uses_l in I. rewrite flat_map_app in I. apply in_app_iff in I as [I|I]; [auto|]. cbn in I. rewrite app_nil_r in I. right. exists x. auto.
      + intros v. unfold made, defs_l. rewrite Er, flat_map_app. cbn. rewrite app_nil_r. reflexivity.
    - destruct (new_erased _ _ _ _ S vs Er Ee) as [Le Ve].
      apply (Common vs (prefix m) Le).
      + intros v I. apply Ve, I.
      + intros v I. destruct (Ve v I) as [K N]. split; [apply Kb; rewrite !in_app_iff in *; rewrite De; tauto|].
        rewrite !in_app_iff in K. destruct K as [K|[K|K]]; auto.
        * destruct (Hu v K) as [_ [Z|Z]]; auto. apply De in Z as [Z|Z]; [contradiction|]. right. apply (nested_kept _ _ _ _ S); [right; congruence|exact Z].
        * right. apply (nested_kept _ _ _ _ S); [right; congruence|exact K].
      + apply (nested_kept _ _ _ _ S). right. congruence.
      + intros u I. apply Cu. auto.
      + intros v. unfold made, defs_l. rewrite Er, app_nil_r. reflexivity.
    - assert (Dm : forall v, In v (defs_l (prefix m ++ [o])) <-> In v (made m) \/ In v (defs o)).
      { intros v. unfold made, defs_l. rewrite Er, flat_map_app, app_nil_r. cbn. rewrite app_nil_r, in_app_iff. reflexivity. }
      assert (Sk : forall u, In u (uses o ++ defs o ++ made m) -> X u \/ In u (made m) \/ In u (defs o)).
      { intros u I. rewrite !in_app_iff in I. destruct I as [I|[I|I]]; auto. destruct (Hu u I) as [_ [Z|Z]]; auto. }
      repeat split.
      + destruct H as [I|I].
        * apply Kb. unfold uses_l in I. rewrite flat_map_app in I. apply in_app_iff in I as [I|I]; [apply Cu; auto|]. cbn in I. rewrite app_nil_r in I. apply in_app_iff. auto.
        * destruct (Mo u I) as [I'|I']; auto.
      + rewrite Dm. destruct H as [I|I].
        * assert (K : In u (uses o ++ defs o ++ made m)).
          { unfold uses_l in I. rewrite flat_map_app in I. apply in_app_iff in I as [I|I]; [apply Cu; auto|]. cbn in I. rewrite app_nil_r in I. apply in_app_iff. auto. }
          destruct (Sk u K); tauto.
        * destruct (Mo u I) as [I'|I']; [destruct (Sk u I'); tauto|tauto].
      + intros v. rewrite Dm. intros [[I|I]|I]; auto. specialize (Hd v I). lia.
      + intros v L. rewrite sub_nil. lia.
      + intros v I. rewrite sub_nil, Dm. tauto.
  Qed.

  Lemma good_flat uA dA f l : good uA dA (flat_map uses_l) (flat_map defs_l) f l -> good uA dA uses_l defs_l (fun s n (b : list op) => flat (f s n b)) l.
  Proof.
    intros G s n O H1 H2 H3. specialize (G s n O H1 H2 H3). cbn zeta in *. unfold flat. cbn [out ren next extra].
    assert (E : forall (g : op -> list nat) ls, flat_map g (concat ls) = flat_map (flat_map g) ls).
    { intros g ls. induction ls as [|x ls IH]; cbn; [reflexivity|]. rewrite flat_map_app, IH. reflexivity. }
    unfold uses_l at 1, defs_l at 1 3 5. rewrite !E. exact G.
  Qed.

  Lemma op_good o : good uses defs uses_l defs_l vis o.
  Proof.
    induction o as [d rs H] using op_ind'. intros s n O Hu Hn Hd. cbn zeta. unfold vis. rewrite visit_eq.
    destruct (constrained && recursive (rop s (Op d rs))) eqn:K.
    - cbn [out ren next extra]. unfold uses_l, defs_l. cbn [flat_map]. rewrite !app_nil_r, uses_rop, defs_rop.
      repeat split; auto; try (intros v [Z|[]]; auto).
      + destruct H0 as [I|[]]. apply in_map_iff in I as (w & <- & I). auto.
      + destruct H0 as [I|[]]. apply in_map_iff in I as (w & <- & I). destruct (Hu w I); auto.
      + intros v [Z|Z]; rewrite sub_nil; auto.
    - assert (G : good (flat_map (flat_map (flat_map uses))) (flat_map (flat_map (flat_map defs))) (flat_map (flat_map (flat_map uses))) (flat_map (flat_map (flat_map defs)))
        (seq (fun s r => List.map (rops s) r) (visit_region ps constrained legal recursive at_module)) rs).
      { apply good_seq.
        - intros t r. rewrite flat_map_map, map_flat_map. apply flat_map_eq. intros b _. apply uses_rops.
        - intros t r. rewrite flat_map_map. apply flat_map_eq. intros b _. apply defs_rops.
        - intros r Ir. apply good_seq.
          + apply uses_rops.
          + apply defs_rops.
          + intros b Ib. apply good_flat. apply good_seq; [apply uses_rops|apply defs_rops|].
            intros o Io. rewrite Forall_forall in H. specialize (H r Ir). rewrite Forall_forall in H. specialize (H b Ib). rewrite Forall_forall in H. apply H, Io. }
      specialize (G s n (fun v => O v \/ In v (results d))). cbn zeta in G. cbn [uses defs] in Hu, Hn, Hd.
      destruct G as (N1 & U1 & D1 & B1 & R1).
      { intros u I. destruct (Hu u) as [Z|Z]; [apply in_app_iff; auto|auto|]. apply in_app_iff in Z. tauto. }
      { intros u I. apply Hn, in_app_iff. auto. }
      { intros v I. apply Hd, in_app_iff. auto. }
      unfold work. set (a := seq _ _ s n rs) in *. set (o := Op (rdata (s ++ ren a) d) (out a)).
      assert (Uo : forall u, In u (uses o) -> u < next a /\ ((O u \/ In u (defs_l (extra a))) \/ In u (defs o))).
      { intros u I. unfold o in I |- *. cbn [uses defs rdata operands results] in *. apply in_app_iff in I as [I|I].
        - apply in_map_iff in I as (w & <- & I). rewrite sub_app. split; [apply B1, Hn, in_app_iff; auto|]. rewrite in_app_iff.
          destruct (R1 (sub s w)) as [Z|Z]; [|tauto|tauto]. destruct (Hu w) as [Z|Z]; [apply in_app_iff; auto|auto|]. apply in_app_iff in Z. tauto.
        - destruct (U1 u (or_introl I)) as [L Z]. split; [exact L|]. rewrite in_app_iff. tauto. }
      assert (Do : forall v, In v (defs o) -> v < next a).
      { intros v I. unfold o in I. cbn [defs rdata results] in I. apply in_app_iff in I as [I|I]; [|auto]. apply Nat.lt_le_trans with n; [|exact N1]. apply Hd, in_app_iff. auto. }
      assert (Ue : forall u, In u (uses_l (extra a)) -> u < next a /\ ((O u \/ In u (defs_l (extra a))) \/ In u (defs o))).
      { intros u I. destruct (U1 u (or_intror I)) as [L Z]. split; [exact L|]. unfold o. cbn [defs rdata results]. rewrite in_app_iff. tauto. }
      assert (De : forall v, In v (defs_l (extra a)) -> v < next a) by auto.
      assert (Ro : forall v, O v \/ In v (results d ++ flat_map (flat_map (flat_map defs)) rs) -> (O (sub (ren a) v) \/ In (sub (ren a) v) (defs_l (extra a))) \/ In (sub (ren a) v) (defs o)).
      { intros v I. unfold o. cbn [defs rdata results]. rewrite in_app_iff in *. destruct (R1 v); tauto. }
      clearbody o. clear U1 D1 R1 Hu Hn Hd H.
      assert (Keep : forall k, next a <= k ->
        n <= k /\ (forall u, In u (uses_l [o]) \/ In u (uses_l (extra a)) -> u < k /\ (O u \/ (In u (defs_l [o]) \/ In u (defs_l (extra a))))) /\
        (forall v, In v (defs_l [o]) \/ In v (defs_l (extra a)) -> v < k) /\ (forall v, v < n -> sub (ren a) v < k) /\
        (forall v, O v \/ In v (results d ++ flat_map (flat_map (flat_map defs)) rs) -> O (sub (ren a) v) \/ (In (sub (ren a) v) (defs_l [o]) \/ In (sub (ren a) v) (defs_l (extra a))))).
      { intros k Lk. unfold uses_l at 1, defs_l at 1 3 5. cbn [flat_map]. rewrite !app_nil_r. split; [lia|]. split; [|split; [|split]].
        - intros u [I|I]; [destruct (Uo u I)|destruct (Ue u I)]; (split; [lia|tauto]).
        - intros v [I|I]; [specialize (Do v I)|specialize (De v I)]; lia.
        - intros v L. specialize (B1 v L). lia.
        - intros v I. destruct (Ro v I); tauto. }
      destruct (constrained && match legal o with Legal => true | _ => false end); [cbn [out ren next extra]; apply Keep; lia|].
      pose proof (try_count ps (fun p I => proj2 (Sound p I)) (next a) o) as Ct.
      destruct (try ps (next a) o) as [[m|] n'] eqn:T; cbn [snd] in Ct; [|cbn [out ren next extra]; apply Keep; exact Ct].
      destruct (try_at ps (fun p I => proj2 (Sound p I)) _ _ _ _ T) as (p & k & I & Lk & M & E).
      assert (Sf : sound_for k o m n').
      { apply (proj1 (Sound p I) k o m n' M E). intros v Iv. apply in_app_iff in Iv as [Iv|Iv]; [destruct (Uo v Iv); lia|specialize (Do v Iv); lia]. }
      pose proof (mutated k o m n' (fun v => O v \/ In v (defs_l (extra a))) Sf) as Mt.
      destruct (apply_mutations at_module o m) as [[new t] mops]. cbn zeta in Mt. cbn [out ren next extra].
      destruct Mt as (M1 & M2 & M3 & M4).
      { intros u Iu. destruct (Uo u Iu) as [L Z]. split; [lia|exact Z]. }
      { intros v Iv. specialize (Do v Iv). lia. }
      assert (Da : forall v, In v (defs_l (rops t (extra a) ++ mops)) <-> In v (defs_l (extra a)) \/ In v (defs_l mops)).
      { intros v. unfold defs_l. rewrite flat_map_app, in_app_iff. fold (defs_l (rops t (extra a))). rewrite defs_rops. reflexivity. }
      split; [lia|]. split; [|split; [|split]].
      + intros u Iu. rewrite Da.
        assert (Iu' : (In u (uses_l new) \/ In u (uses_l mops)) \/ exists w, u = sub t w /\ In w (uses_l (extra a))).
        { destruct Iu as [Iu|Iu]; [auto|]. unfold uses_l in Iu. rewrite flat_map_app, in_app_iff in Iu. fold (uses_l (rops t (extra a))) in Iu. rewrite uses_rops in Iu.
          destruct Iu as [Iu|Iu]; [|auto]. apply in_map_iff in Iu as (w & <- & Iu). right. exists w. auto. }
        destruct Iu' as [Iu'|(w & -> & Iw)].
        * destruct (M1 u Iu') as [L Z]. split; [exact L|tauto].
        * destruct (Ue w Iw) as [L Z]. split; [apply M3; lia|]. destruct (M4 w); tauto.
      + intros v. rewrite Da. intros [Iv|[Iv|Iv]]; [apply M2; auto|specialize (De v Iv); lia|apply M2; auto].
      + intros v L. rewrite sub_app. apply M3. specialize (B1 v L). lia.
      + intros v Iv. rewrite sub_app, Da. destruct (M4 (sub (ren a) v)); [|tauto|tauto]. destruct (Ro v Iv); tauto.
  Qed.

  Lemma in_values n r : values_below n r -> (forall u, In u (flat_map uses_l r) -> u < n) /\ (forall v, In v (flat_map defs_l r) -> v < n).
  Proof.
    intros H. split; intros u I; apply in_flat_map in I as (b & Ib & I); apply in_flat_map in I as (o & Io & I); apply (H b o u Ib Io); apply in_app_iff; auto.
  Qed.
  Lemma in_closed X r : closed X r <-> forall u, In u (flat_map uses_l r) -> X u \/ In u (flat_map defs_l r).
  Proof.
    assert (Dd : forall u, In u (flat_map defs_l r) <-> exists b' o', In b' r /\ In o' b' /\ In u (defs o')).
    { intros u. rewrite in_flat_map. split.
      - intros (b & Ib & I). apply in_flat_map in I as (o & Io & I). eauto.
      - intros (b & o & Ib & Io & I). exists b. split; [exact Ib|]. apply in_flat_map. eauto. }
    split.
    - intros C u I. apply in_flat_map in I as (b & Ib & I). apply in_flat_map in I as (o & Io & I). rewrite Dd. eapply C; eauto.
    - intros C b o u Ib Io Iu. rewrite <- Dd. apply C. apply in_flat_map. exists b. split; [exact Ib|]. apply in_flat_map. eauto.
  Qed.

  Lemma iteration_closed X n r : closed X r -> values_below n r ->
    let '(r', n', _) := iteration ps constrained legal recursive at_module n r in closed X r' /\ values_below n' r'.
  Proof.
    intros C B. apply in_values in B as [B1 B2]. rewrite in_closed in C. unfold iteration.
    assert (G : good (flat_map uses_l) (flat_map defs_l) (flat_map uses_l) (flat_map defs_l) (visit_region ps constrained legal recursive at_module) r).
    { apply good_seq; [apply uses_rops|apply defs_rops|]. intros b Ib. apply good_flat. apply good_seq; [apply uses_rops|apply defs_rops|]. intros o _. apply op_good. }
    specialize (G [] n X). cbn zeta in G. destruct G as (_ & U & D & _); [intros u I; rewrite sub_nil; auto|intros u I; rewrite sub_nil; auto|exact B2|].
    set (x := visit_region _ _ _ _ _ [] n r) in *.
    assert (E : forall g : op -> list nat, forall u, (In u (flat_map (flat_map g) (out x)) \/ In u (flat_map g (extra x))) <-> In u (flat_map (flat_map g) (push (extra x) (out x)))).
    { intros g u. assert (Em : out x = [] -> extra x = []).
      { unfold x, visit_region. destruct r as [|b r']; [reflexivity|]. cbn. discriminate. }
      destruct (out x) as [|b bs]; cbn [push flat_map].
      - rewrite (Em eq_refl). cbn. tauto.
      - rewrite flat_map_app, !in_app_iff. tauto. }
    split.
    - apply in_closed. intros u I. apply (E uses) in I. destruct (U u I) as [_ Z]. pose proof (proj1 (E defs u)) as W. destruct Z as [Z|Z]; [auto|]. right. apply W. exact Z.
    - intros b o u Ib Io Iu. apply in_app_iff in Iu as [Iu|Iu].
      + apply U. apply (E uses). apply in_flat_map. exists b. split; [exact Ib|]. apply in_flat_map. eauto.
      + apply D. apply (E defs). apply in_flat_map. exists b. split; [exact Ib|]. apply in_flat_map. eauto.
  Qed.

  Lemma apply_closed X max : forall done total n r, closed X r -> values_below n r ->
    let a := apply ps constrained legal recursive at_module max done total n r in closed X (a_region a) /\ values_below (a_next a) (a_region a).
  Proof.
    induction max as [|max IH]; intros done total n r C B; cbn [apply]; [cbn; auto|].
    pose proof (iteration_closed X n r C B) as W. destruct (iteration _ _ _ _ _ n r) as [[r' n'] c]. destruct W as [C' B'].
    destruct (c =? 0); [cbn; auto|]. apply IH; auto.
  Qed.
End Engine.
