(** The main results about the normaliser. *)
From Coq Require Import List NArith Bool Lia.
From Verif Require Import Base NormModel NormSpec NormDirectModel NormProofs NormMain.
Import ListNotations.
Open Scope N_scope.

(** ** Meaning *)

Section Done.
Variable S : sem.
Hypothesis L : lawful S.

Notation "a ~ b" := (ceq S a b) (at level 70).
Notation "a == b" := (veq S a b) (at level 70).
Notation env := (env S).
Notation T ss := (den_stmts S (map (map_stmt (den S)) ss)).

Lemma parts_of G n e1 es B : scoped G e1 -> all (scoped G) es ->
  B = binders e1 ++ flat_map binders es -> NoDup B ->
  (forall x, In x G -> x < n) -> (forall x, In x B -> x < n) ->
  resolved_expr G n e1 /\ resolved_list G n es
  /\ (forall x, In x (binders e1) -> ~ In x (flat_map binders es)).
Proof.
  intros S1 S2 -> Nd HG HB. apply NoDup_app_parts in Nd.
  destruct Nd as (A1 & A2 & A3).
  repeat split; auto; intros x I; apply HB, in_or_app; auto.
Qed.

Lemma resolved_list_later G n n1 es : n <= n1 -> resolved_list G n es -> resolved_list G n1 es.
Proof.
  intros L1 (A1 & A2 & A3 & A4). repeat split; auto.
  - intros x I. specialize (A3 x I). lia.
  - intros x I. specialize (A4 x I). lia.
Qed.

(** A strict head followed by strict arguments: calls and method calls. *)
Lemma head_args_ok c args (op : V S -> list (V S) -> M S)
  (mk : expr -> list expr -> expr) G n ss1 a n1 ss2 as_ n2 r r' :
  keeps_meaning S c -> Forall (keeps_meaning S) args ->
  (forall v w vs ws, v == w -> Forall2 (veq S) vs ws -> op v vs ~ op w ws) ->
  (forall a as_ r, den S (mk a as_) r
     = bind S (den S a r) (fun f => den_list S (map (den S) as_) r (fun vs => op f vs))) ->
  (forall a as_, is_atom (mk a as_) = false) ->
  to_atom (norm c) n = (ss1, a, n1) ->
  to_atoms (map norm args) n1 = (ss2, as_, n2) ->
  scoped G c -> all (scoped G) args ->
  NoDup (binders c ++ flat_map binders args) ->
  (forall x, In x G -> x < n) ->
  (forall x, In x (binders c ++ flat_map binders args) -> x < n) ->
  agree S G r r' -> forall fr rest K, frame_ok S fr ->
  (forall m r1, keeps S (binders c ++ flat_map binders args) n n2 r' r1 ->
     meaning S m (mk a as_) (sees S G (binders c ++ flat_map binders args) n n2 r1) ->
     plug S fr m ~ T rest r1 K) ->
  plug S fr (bind S (den S c r)
    (fun f => den_list S (map (den S) args) r (fun vs => op f vs)))
  ~ T ((ss1 ++ ss2) ++ rest) r' K.
Proof.
  intros Hc Ha Hop Hmk Hat E1 E2 Sc Sa Nd HG HB A fr rest K Hf C.
  destruct (parts_of G n c args _ Sc Sa eq_refl Nd HG HB) as (Rc & Ra & Dj).
  assert (L1 : n <= n1) by (eapply to_atom_grows; [apply norm_grows|eauto]).
  assert (L2 : n1 <= n2) by (eapply to_atoms_grows; [apply norms_grow|eauto]).
  pose proof (agree_self S L _ _ _ A) as Ar.
  assert (R1 : resp1 S (fun f => den_list S (map (den S) args) r (fun vs => op f vs))
                       (fun f => den_list S (map (den S) args) r (fun vs => op f vs))).
  { intros x y Exy. apply den_list_rel; auto.
    - apply (selfs_den S L args G); auto.
    - intros vs ws Es. apply Hop; auto. }
  eapply (ceq_trans S L).
  - apply (plug_bind S L fr _ (den S c r) _
      (fun f => den_list S (map (den S) args) r (fun vs => op f vs))); auto.
    apply (den_self S L c G); auto.
  - rewrite <- app_assoc.
    apply (atom_ok S L c G n ss1 a n1 r r' Hc E1 Rc A).
    { intros x y Exy. apply plug_ok; auto. }
    intros v r1 Ev K1 V1.
    eapply (atoms_ok S L args Ha G n1 ss2 as_ n2 r r1 E2); auto.
    + eapply resolved_list_later; eauto.
    + apply (resolved_keep S G n n1 (binders c) r' r1 r HG); auto.
      apply scoped_fresh; auto.
    + intros vs ws Es. apply Hop; auto.
    + intros vs r2 Evs K2 V2. apply C.
      * eapply keeps_trans; eauto.
      * split; [|rewrite Hat; discriminate].
        intros r3 S3. rewrite Hmk.
        apply (atom_value S L a v r3 (V1 r3
           ltac:(apply (sees_before S G (binders c) (flat_map binders args) n n1 n2 r1 r2 r3);
                 auto; [apply Rc|apply (proj2 (proj2 (proj2 Ra)))|apply list_fresh; auto]))
           (fun f => op f vs)).
        intros x y Exy.
        apply (atoms_values S L as_ vs r3).
        -- apply V2. apply (sees_after S G (binders c) (flat_map binders args) n n1 n2); auto.
        -- intros us ws Es. apply Hop; auto.
Qed.

(** Strict arguments only: constructors, tuples, lists. *)
Lemma args_only_ok args (op : list (V S) -> M S)
  (mk : list expr -> expr) G n ss as_ n1 r r' :
  Forall (keeps_meaning S) args -> respl S op op ->
  (forall as_ r, den S (mk as_) r = den_list S (map (den S) as_) r (fun vs => op vs)) ->
  (forall as_, is_atom (mk as_) = false) ->
  to_atoms (map norm args) n = (ss, as_, n1) ->
  resolved_list G n args ->
  agree S G r r' -> forall fr rest K, frame_ok S fr ->
  (forall m r1, keeps S (flat_map binders args) n n1 r' r1 ->
     meaning S m (mk as_) (sees S G (flat_map binders args) n n1 r1) ->
     plug S fr m ~ T rest r1 K) ->
  plug S fr (den_list S (map (den S) args) r (fun vs => op vs))
  ~ T (ss ++ rest) r' K.
Proof.
  intros Ha Hop Hmk Hat E R A fr rest K Hf C.
  eapply (atoms_ok S L args Ha G n ss as_ n1 r r' E); auto.
  intros vs r2 Evs K2 V2. apply C; auto.
  split; [|rewrite Hat; discriminate].
  intros r3 S3. rewrite Hmk.
  apply (atoms_values S L as_ vs r3 (V2 r3 S3) op). exact Hop.
Qed.

(** A strict head followed by regions: case, resume, short-circuit. *)
Lemma head_only_ok c (op op' : env -> V S -> M S) (v : expr) B2 G n ss a n1 n2 r r' :
  keeps_meaning S c ->
  (forall r r', agree S G r r' -> forall x y, x == y -> op r x ~ op r' y) ->
  (forall r r', agree S G r r' -> forall x y, x == y -> op r x ~ op' r' y) ->
  (forall r, den S v r = bind S (den S a r) (op' r)) ->
  is_atom v = false ->
  to_atom (norm c) n = (ss, a, n1) -> n1 <= n2 -> scoped G c ->
  NoDup (binders c) ->
  (forall x, In x G -> x < n) ->
  (forall x, In x (binders c) -> x < n) ->
  agree S G r r' -> forall fr rest K, frame_ok S fr ->
  (forall m r1, keeps S (binders c ++ B2) n n2 r' r1 ->
     meaning S m v (sees S G (binders c ++ B2) n n2 r1) ->
     plug S fr m ~ T rest r1 K) ->
  plug S fr (bind S (den S c r) (op r)) ~ T (ss ++ rest) r' K.
Proof.
  intros Hc Hop Hop' Hv Hat E L2 Sc Nd HG HB A fr rest K Hf C.
  assert (L1 : n <= n1) by (eapply to_atom_grows; [apply norm_grows|eauto]).
  pose proof (agree_self S L _ _ _ A) as Ar.
  assert (Rc : resolved_expr G n c) by (repeat split; auto).
  eapply (ceq_trans S L).
  - apply (plug_bind S L fr _ (den S c r) _ (op r)); auto.
    + apply (den_self S L c G); auto.
    + intros x y Exy. apply Hop; auto.
  - apply (atom_ok S L c G n ss a n1 r r' Hc E Rc A).
    { intros x y Exy. apply plug_ok; auto. }
    intros x r1 Ex K1 V1. apply C.
    + intros z Nz Oz. rewrite in_app_iff in Nz. apply K1; [tauto|].
      destruct Oz; [auto|right; lia].
    + split; [|rewrite Hat; discriminate].
      intros r2 S2. rewrite Hv.
      assert (S1 : sees S G (binders c) n n1 r1 r2).
      { intros z Hz. apply S2. rewrite in_app_iff.
        destruct Hz as [Hz|[Hz|Hz]]; auto. right; right; lia. }
      apply (atom_value S L a x r2 (V1 r2 S1) (op r)).
      intros y y' Ey. apply Hop'; auto.
      intros z Iz. rewrite S2 by auto. rewrite K1; auto.
      intros J. apply (scoped_fresh c G Sc z J Iz).
Qed.

Lemma flat_snd (fs : list (N * expr)) :
  flat_map (fun f => binders (snd f)) fs = flat_map binders (map snd fs).
Proof. induction fs; cbn; congruence. Qed.

Lemma all_snd G (fs : list (N * expr)) :
  all (fun f => scoped G (snd f)) fs -> all (scoped G) (map snd fs).
Proof. induction fs; cbn; tauto. Qed.

Lemma combine_snd (names : list N) : forall (l : list expr), length l = length names ->
  map snd (combine names l) = l /\ map fst (combine names l) = names.
Proof.
  induction names as [|x names IH]; intros [|e l] E; cbn in *; try discriminate; auto.
  destruct (IH l) as [A B]; [congruence|]. split; congruence.
Qed.

Lemma to_atoms_length rs : forall n ss l n', to_atoms rs n = (ss, l, n') -> length l = length rs.
Proof.
  induction rs as [|r rs IH]; cbn; intros n ss l n' E; [inv E; reflexivity|].
  destruct (to_atom r n) as [[ss1 a] n1]. destruct (to_atoms rs n1) as [[ss2 l2] n2] eqn:E2.
  inv E. cbn. f_equal. eauto.
Qed.

(** The fields of a record, once the spread is known. *)
Lemma fields_ok fs t sp G n ss vals n1 r r' :
  Forall (fun f => keeps_meaning S (snd f)) fs -> orel (veq S) sp sp ->
  to_atoms (map (fun f => norm (snd f)) fs) n = (ss, vals, n1) ->
  resolved_list G n (map snd fs) ->
  agree S G r r' -> forall fr rest K, frame_ok S fr ->
  (forall vs r1, keeps S (flat_map binders (map snd fs)) n n1 r' r1 ->
     (forall r2, sees S G (flat_map binders (map snd fs)) n n1 r1 r2 ->
        forall s s', orel (veq S) s s' ->
        record S t s (combine (map fst fs) vs)
        ~ den_list S (map (fun f => den S (snd f)) (combine (map fst fs) vals)) r2
            (fun vs => record S t s'
               (combine (map fst (combine (map fst fs) vals)) vs))) ->
     plug S fr (record S t sp (combine (map fst fs) vs)) ~ T rest r1 K) ->
  plug S fr (den_list S (map (fun f => den S (snd f)) fs) r
     (fun vs => record S t sp (combine (map fst fs) vs)))
  ~ T (ss ++ rest) r' K.
Proof.
  intros Hf Hsp E R A fr rest K Fo C.
  assert (X : map (fun f => norm (snd f)) fs = map norm (map snd fs)) by (rewrite map_map; auto).
  rewrite X in E.
  assert (Y : map (fun f => den S (snd f)) fs = map (den S) (map snd fs)) by (rewrite map_map; auto).
  rewrite Y.
  assert (Ln : length vals = length (map fst fs)).
  { apply to_atoms_length in E. rewrite !map_length in *. auto. }
  destruct (combine_snd _ _ Ln) as [C1 C2].
  assert (Rk : forall s s', orel (veq S) s s' ->
     respl S (fun vs => record S t s (combine (map fst fs) vs))
             (fun vs => record S t s' (combine (map fst fs) vs))).
  { intros s s' Es vs ws Ev. apply (record_ok S L); auto. apply record_fields; auto. }
  eapply (atoms_ok S L (map snd fs)); eauto.
  { apply Forall_map_iff. auto. }
  intros vs r1 Ev K1 V1. apply C; auto.
  intros r2 S2 s s' Es. rewrite C2.
  assert (Z : map (fun f => den S (snd f)) (combine (map fst fs) vals) = map (den S) vals).
  { rewrite <- (map_map snd (den S)). rewrite C1. auto. }
  rewrite Z.
  apply (atoms_values S L vals vs r2 (V1 r2 S2)
           (fun vs => record S t s (combine (map fst fs) vs))); auto.
Qed.

Lemma norm_keeps_meaning e : keeps_meaning S e.
Proof.
  induction e using expr_ind'; intros G n e' n' ss0 v0 E Es R rho rho' A fr rest K Fo C;
    destruct R as (Sc & Nd & HG & HB);
    try rewrite scoped_block in Sc; cbn [scoped] in Sc;
    cbn [norm] in E; cbn [binders] in *.
  - (* variable *)
    inv E. cbn in Es. inv Es. cbn [app]. apply C.
    + intros x _ _. reflexivity.
    + assert (X : forall r1, sees S G [] n' n' rho' r1 ->
         exists w, den S (EVar r) r1 = ret S w
           /\ match r with RLocal x => rho x | RGlobal g => global S g end == w).
      { intros r1 S1. destruct r as [x|g]; cbn.
        - exists (r1 x). split; auto. rewrite S1; auto.
        - exists (global S g). split; auto. apply (global_ok S L). }
      assert (Y : den S (EVar r) rho
         = ret S (match r with RLocal x => rho x | RGlobal g => global S g end))
        by (destruct r; reflexivity).
      rewrite Y. split.
      * intros r1 S1. destruct (X r1 S1) as (w & -> & Ew). apply (ret_ok S L); auto.
      * intros _. eexists. split; [reflexivity|]. exact X.
  - (* literal *)
    inv E. cbn in Es. inv Es. cbn [app]. apply C.
    + intros x _ _. reflexivity.
    + cbn. split.
      * intros. apply (ret_ok S L), (literal_ok S L).
      * intros _. eexists. split; [reflexivity|]. intros.
        eexists. split; [reflexivity|]. apply (literal_ok S L).
  - (* call *)
    destruct (to_atom (norm e) n) as [[ss1 a] n1] eqn:E1.
    destruct (to_atoms (map norm args) n1) as [[ss2 l] n2] eqn:E2. inv E.
    rewrite split_prefix in Es by discriminate. inv Es. destruct Sc.
    eapply (head_args_ok e args (call S) ECall); eauto.
    intros. apply (call_ok S L); auto.
  - (* constructor *)
    destruct (to_atoms (map norm args) n) as [[ss2 l] n2] eqn:E2. inv E.
    rewrite split_prefix in Es by discriminate. inv Es.
    eapply (args_only_ok args (construct S c) (ECons c)); eauto.
    + apply (construct_ok S L).
    + repeat split; auto.
  - (* tuple *)
    destruct (to_atoms (map norm args) n) as [[ss2 l] n2] eqn:E2. inv E.
    rewrite split_prefix in Es by discriminate. inv Es.
    eapply (args_only_ok args (tuple S) ETuple); eauto.
    + apply (tuple_ok S L).
    + repeat split; auto.
  - (* list *)
    destruct (to_atoms (map norm args) n) as [[ss2 l] n2] eqn:E2. inv E.
    rewrite split_prefix in Es by discriminate. inv Es.
    eapply (args_only_ok args (mklist S) EList); eauto.
    + apply (mklist_ok S L).
    + repeat split; auto.
  - (* record *)
    destruct Sc as [Ss Sf]. apply all_snd in Sf. rewrite flat_snd in *.
    pose proof (agree_self S L _ _ _ A) as Ar.
    destruct s as [s|]; cbn [option_map to_atom_opt] in E.
    + destruct (to_atom (norm s) n) as [[ss1 a] n1] eqn:E1.
      destruct (to_atoms (map (fun f => norm (snd f)) fs) n1) as [[ss2 l] n2] eqn:E2. inv E.
      rewrite split_prefix in Es by discriminate. inv Es.
      destruct (parts_of G n s (map snd fs) _ Ss Sf eq_refl Nd HG HB) as (Rc & Ra & Dj).
      assert (L1 : n <= n1) by (eapply to_atom_grows; [apply norm_grows|eauto]).
      assert (L2 : n1 <= n').
      { eapply to_atoms_grows; [|exact E2]. rewrite <- (map_map snd norm). apply norms_grow. }
      assert (Rl : resolved_list G n1 (map snd fs)) by (eapply resolved_list_later; eauto).
      cbn [den].
      assert (Q : forall x y, x == y ->
        den_list S (map (fun f => den S (snd f)) fs) rho
          (fun vs => record S t (Some x) (combine (map fst fs) vs))
        ~ den_list S (map (fun f => den S (snd f)) fs) rho
          (fun vs => record S t (Some y) (combine (map fst fs) vs))).
      { intros x y Exy. apply den_list_rel; auto.
        - rewrite <- (map_map snd (den S)). apply (selfs_den S L _ G); auto.
        - intros vs ws Ev. apply (record_ok S L); [constructor; auto|].
          apply record_fields; auto. }
      eapply (ceq_trans S L).
      * apply (plug_bind S L fr _ (den S s rho) _
          (fun v => den_list S (map (fun f => den S (snd f)) fs) rho
             (fun vs => record S t (Some v) (combine (map fst fs) vs)))); auto.
        apply (den_self S L s G); auto.
      * rewrite <- app_assoc.
        apply (atom_ok S L s G n ss1 a n1 rho rho' (H s eq_refl) E1 Rc A).
        { intros x y Exy. apply plug_ok; auto. }
        intros v r1 Ev K1 V1.
        eapply (fields_ok fs t (Some v) G n1 ss2 l n' rho r1); auto.
        -- constructor; auto.
        -- apply (resolved_keep S G n n1 (binders s) rho' r1 rho HG); auto.
           apply scoped_fresh; auto.
        -- intros vs r2 K2 V2. apply C.
           ++ eapply keeps_trans; eauto.
           ++ split; [|discriminate]. intros r3 S3. cbn [den].
              assert (Vs : avalue S r3 a v).
              { apply V1. apply (sees_before S G (binders s) (flat_map binders (map snd fs)) n n1 n' r1 r2 r3);
                  auto; [apply Rc|apply (proj2 (proj2 (proj2 Ra)))|apply list_fresh; auto]. }
              assert (X2 : sees S G (flat_map binders (map snd fs)) n1 n' r2 r3).
              { apply (sees_after S G (binders s) (flat_map binders (map snd fs)) n n1 n'); auto. }
              apply (atom_value S L a v r3 Vs
                (fun x => record S t (Some x) (combine (map fst fs) vs))).
              intros x y Exy. apply (V2 r3 X2). constructor. auto.
    + destruct (to_atoms (map (fun f => norm (snd f)) fs) n) as [[ss2 l] n2] eqn:E2. inv E.
      rewrite split_prefix in Es by discriminate. inv Es. cbn [app] in *.
      cbn [den].
      eapply (fields_ok fs t None G n ss0 l n' rho rho'); auto.
      * constructor.
      * repeat split; auto.
      * intros vs r2 K2 V2. apply C; auto.
        split; [|discriminate]. intros r3 S3. cbn [den]. apply (V2 r3 S3). constructor.
  - (* method call *)
    destruct (to_atom (norm e) n) as [[ss1 a] n1] eqn:E1.
    destruct (to_atoms (map norm args) n1) as [[ss2 l] n2] eqn:E2. inv E.
    rewrite split_prefix in Es by discriminate. inv Es. destruct Sc.
    eapply (head_args_ok e args (fun v vs => method S v m vs) (fun a l => EMethod a m l)); eauto.
    intros. apply (method_ok S L); auto.
  - (* block *)
    destruct (norm_stmts (map (map_stmt norm) ss) n) as [ss1 n1] eqn:E1.
    destruct (norm e n1) as [v' n2] eqn:E2.
    destruct (split v') as [ss' w] eqn:E3. inv E. cbn in Es. inv Es.
    rewrite <- app_assoc. cbn [den].
    eapply (block_ok S L e IHe ss H G n ss1 n1 v' n' ss' v0); eauto.
  - (* case *)
    destruct (to_atom (norm e) n) as [[ss1 a] n1] eqn:E1.
    destruct (norm_arms (map (map_arm norm) arms) n1) as [l n2] eqn:E2. inv E.
    rewrite split_prefix in Es by discriminate. inv Es. destruct Sc as [Sc Sa].
    apply NoDup_app_parts in Nd. destruct Nd as (Nd1 & Nd2 & Nd3).
    assert (L1 : n <= n1) by (eapply to_atom_grows; [apply norm_grows|eauto]).
    assert (L2 : n1 <= n').
    { eapply norm_arms_grows; [|exact E2]. apply Forall_map_iff, Forall_forall.
      intros [p g b] _. cbn. split; [|apply norm_grows].
      intros r. destruct g; cbn; intros X; inv X. apply norm_grows. }
    eapply (head_only_ok e
      (fun r v => den_arms S (map (map_arm (den S)) arms) v r)
      (fun r v => den_arms S (map (map_arm (den S)) l) v r)
      (ECase a l) (flat_map (abinders binders) arms) G n ss0 a n1 n'); eauto.
    + intros r r' Ar x y Exy. eapply den_arms_rel; eauto. apply arms_self; auto.
      eapply Forall_impl; [|exact H]. intros [p g b] _. cbn. split; intros; apply den_self; auto.
    + intros r r' Ar x y Exy. eapply den_arms_rel; eauto.
      eapply (arms_ok S arms H G n1); eauto.
      * intros z I. specialize (HG z I). lia.
      * intros z I. assert (z < n) by (apply HB, in_or_app; auto). lia.
    + intros z I. apply HB, in_or_app. auto.
  - (* lambda *)
    destruct (norm e n) as [b' n1] eqn:E1. inv E. cbn in Es. inv Es. cbn [app].
    destruct Sc as [Sf Sb].
    apply NoDup_app_parts in Nd. destruct Nd as (Nd1 & Nd2 & Nd3).
    assert (X : forall r2, sees S G (ps ++ binders e) n n' rho' r2 ->
       lam S (length ps) (fun vs => den S e (upds S rho ps vs))
       == lam S (length ps) (fun vs => den S b' (upds S r2 ps vs))).
    { intros r2 S2. apply (lam_ok S L). intros vs ws Ev.
      eapply (region_ok S e (ps ++ G)); eauto.
      - repeat split; auto.
        + intros x I. apply in_app_or in I. destruct I; auto. apply HB, in_or_app. auto.
        + intros x I. apply HB, in_or_app. auto.
      - apply upds_agree; auto. intros x I. rewrite S2 by auto. auto. }
    apply C.
    + intros x _ _. reflexivity.
    + cbn [den]. split.
      * intros r2 S2. apply (ret_ok S L). auto.
      * intros _. eexists. split; [reflexivity|]. intros r2 S2.
        eexists. split; [reflexivity|]. auto.
  - (* handle *)
    destruct (norm e n) as [b' n1] eqn:E1.
    destruct (norm_handlers (map (map_harm norm) hs) n1) as [l n2] eqn:E2. inv E.
    cbn in Es. inv Es. cbn [app]. destruct Sc as [Sc Sa].
    apply NoDup_app_parts in Nd. destruct Nd as (Nd1 & Nd2 & Nd3).
    assert (L1 : n <= n1) by (eapply norm_le; eauto).
    apply C.
    + intros x _ _. reflexivity.
    + split; [|discriminate]. intros r2 S2. cbn [den].
      assert (A2 : agree S G rho r2).
      { intros x I. rewrite S2 by auto. auto. }
      apply (handle_ok S L).
      * eapply (region_ok S e G n); eauto. repeat split; auto.
        intros x I. apply HB, in_or_app. auto.
      * assert (X : Forall2 (harm_rel S G) (map (map_harm (den S)) hs) (map (map_harm (den S)) l)).
        { eapply (harms_ok S hs H G n1); eauto.
          - intros z I. specialize (HG z I). lia.
          - intros z I. assert (z < n) by (apply HB, in_or_app; auto). lia. }
        pose proof (harms_rel S L G _ _ rho r2 X A2) as Y.
        rewrite !map_map in Y. exact Y.
  - (* resume *)
    destruct (to_atom (norm e) n) as [[ss1 a] n1] eqn:E1. inv E.
    rewrite split_prefix in Es by discriminate. inv Es. destruct Sc as [Sc Sk].
    assert (X : forall r r', agree S G r r' -> forall x y, x == y ->
       resume S (option_map r k) x ~ resume S (option_map r' k) y).
    { intros r r' Ar x y Exy. apply (resume_ok S L); auto.
      destruct k; cbn; constructor. auto. }
    eapply (head_only_ok e
      (fun r v => resume S (option_map r k) v) (fun r v => resume S (option_map r k) v)
      (EResume a k) [] G n ss0 a n' n'); eauto; try lia.
    rewrite app_nil_r. exact C.
  - (* short circuit *)
    destruct (to_atom (norm e1) n) as [[ss1 a] n1] eqn:E1.
    destruct (norm e2 n1) as [r' n2] eqn:E2. inv E.
    rewrite split_prefix in Es by discriminate. inv Es. destruct Sc as [Sl Sr].
    apply NoDup_app_parts in Nd. destruct Nd as (Nd1 & Nd2 & Nd3).
    assert (L1 : n <= n1) by (eapply to_atom_grows; [apply norm_grows|eauto]).
    assert (L2 : n1 <= n') by (eapply norm_le; eauto).
    set (sc := fun e r v => match op with
       | BAnd => if truth S v then den S e r else ret S (literal S (LBool false))
       | BOr => if truth S v then ret S (literal S (LBool true)) else den S e r
       end).
    assert (Lit : forall b, ret S (literal S (LBool b)) ~ ret S (literal S (LBool b))).
    { intros b. apply (ret_ok S L), (literal_ok S L). }
    assert (D : forall l r q, den S (EBinOp op l r) q = bind S (den S l q) (sc r q)).
    { intros. unfold sc. destruct op; reflexivity. }
    rewrite D.
    eapply (head_only_ok e1 (sc e2) (sc r') (EBinOp op a r') (binders e2) G n ss0 a n1 n'); eauto.
    + intros q q' Aq x y Exy. unfold sc. rewrite (truth_ok S L x y Exy).
      assert (den S e2 q ~ den S e2 q') by (apply (den_self S L e2 G); auto).
      destruct op, (truth S y); auto.
    + intros q q' Aq x y Exy. unfold sc. rewrite (truth_ok S L x y Exy).
      assert (den S e2 q ~ den S r' q').
      { eapply (region_ok S e2 G n1); eauto. repeat split; auto.
        - intros z I. specialize (HG z I). lia.
        - intros z I. assert (z < n) by (apply HB, in_or_app; auto). lia. }
      destruct op, (truth S y); auto.
    + intros z I. apply HB, in_or_app. auto.
  - (* error *)
    inv E. cbn in Es. inv Es. cbn [app]. apply C.
    + intros x _ _. reflexivity.
    + split; [|discriminate]. intros. apply (failure_ok S L).
Qed.

(** Normalised code behaves like its source. *)
Lemma norm_same_meaning G n e e' n' r :
  resolved_expr G n e -> norm e n = (e', n') ->
  (forall x, In x G -> r x == r x) -> den S e r ~ den S e' r.
Proof.
  intros R E A. eapply region_ok; eauto. apply norm_keeps_meaning.
Qed.
End Done.
