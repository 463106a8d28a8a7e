(** The normaliser keeps the meaning of expressions. *)
From Coq Require Import List NArith Bool Lia.
From Verif Require Import Base NormModel NormSpec NormDirectModel NormProofs.
Import ListNotations.
Open Scope N_scope.

(** ** The counter only grows *)

Definition grows (r : run) : Prop := forall n, n <= snd (r n).

Lemma to_atom_grows r n ss a n' : grows r -> to_atom r n = (ss, a, n') -> n <= n'.
Proof.
  unfold to_atom. intros G. specialize (G n).
  destruct (r n) as [e n1]. cbn in G.
  destruct (split e) as [p v]. destruct (is_atom v); intros E; inv E; lia.
Qed.

Lemma to_atoms_grows rs : Forall grows rs -> forall n ss l n',
  to_atoms rs n = (ss, l, n') -> n <= n'.
Proof.
  induction 1 as [|r rs Hr H IH]; cbn; intros n ss l n' E; [inv E; lia|].
  destruct (to_atom r n) as [[ss1 a] n1] eqn:E1.
  destruct (to_atoms rs n1) as [[ss2 l2] n2] eqn:E2. inv E.
  apply to_atom_grows in E1; auto. apply IH in E2. lia.
Qed.

Definition on_stmt_run (s : stmt run) : Prop :=
  match s with SLet _ r => grows r | SExpr r => grows r end.
Definition on_arm_run (a : arm run) : Prop :=
  match a with mkArm _ g b => (forall r, g = Some r -> grows r) /\ grows b end.
Definition on_harm_run (h : harm run) : Prop :=
  match h with mkHarm _ b => grows b end.

Lemma norm_stmts_grows l : Forall on_stmt_run l -> forall n ss n',
  norm_stmts l n = (ss, n') -> n <= n'.
Proof.
  induction 1 as [|[p r|r] l Hr H IH]; cbn; intros n ss n' E; [inv E; lia| |].
  - specialize (Hr n). destruct (r n) as [e n1]. cbn in Hr.
    destruct (split e). destruct (norm_stmts l n1) eqn:E1. inv E.
    apply IH in E1. lia.
  - specialize (Hr n). destruct (r n) as [e n1]. cbn in Hr.
    destruct (split e). destruct (norm_stmts l n1) eqn:E1. inv E.
    apply IH in E1. lia.
Qed.

Lemma norm_arms_grows l : Forall on_arm_run l -> forall n l' n',
  norm_arms l n = (l', n') -> n <= n'.
Proof.
  induction 1 as [|[p g b] l [Hg Hb] H IH]; cbn; intros n l' n' E; [inv E; lia|].
  destruct (match g with
            | Some r => let (e, n1) := r n in (Some e, n1)
            | None => (None, n)
            end) as [g' n1] eqn:E1.
  assert (n <= n1).
  { destruct g as [r|]; [|inv E1; lia]. specialize (Hg r eq_refl n).
    destruct (r n). cbn in Hg. inv E1. lia. }
  specialize (Hb n1). destruct (b n1) as [b' n2]. cbn in Hb.
  destruct (norm_arms l n2) as [l2 n3] eqn:E2. inv E. apply IH in E2. lia.
Qed.

Lemma norm_handlers_grows l : Forall on_harm_run l -> forall n l' n',
  norm_handlers l n = (l', n') -> n <= n'.
Proof.
  induction 1 as [|[k b] l Hb H IH]; cbn; intros n l' n' E; [inv E; lia|].
  specialize (Hb n). destruct (b n) as [b' n2]. cbn in Hb.
  destruct (norm_handlers l n2) as [l2 n3] eqn:E2. inv E. apply IH in E2. lia.
Qed.

Lemma Forall_map_iff {A B} (f : A -> B) (P : B -> Prop) l :
  Forall (fun x => P (f x)) l -> Forall P (map f l).
Proof. induction 1; cbn; constructor; auto. Qed.

Lemma norm_grows e : grows (norm e).
Proof.
  induction e using expr_ind'; intros n; cbn [norm].
  - cbn; lia.
  - cbn; lia.
  - destruct (to_atom (norm e) n) as [[ss1 a] n1] eqn:E1.
    destruct (to_atoms (map norm args) n1) as [[ss2 l] n2] eqn:E2.
    apply to_atom_grows in E1; auto. apply to_atoms_grows in E2; [cbn; lia|].
    apply Forall_map_iff; auto.
  - destruct (to_atoms (map norm args) n) as [[ss2 l] n2] eqn:E2.
    apply to_atoms_grows in E2; [cbn; lia|]. apply Forall_map_iff; auto.
  - destruct (to_atoms (map norm args) n) as [[ss2 l] n2] eqn:E2.
    apply to_atoms_grows in E2; [cbn; lia|]. apply Forall_map_iff; auto.
  - destruct (to_atoms (map norm args) n) as [[ss2 l] n2] eqn:E2.
    apply to_atoms_grows in E2; [cbn; lia|]. apply Forall_map_iff; auto.
  - destruct (to_atom_opt (option_map norm s) n) as [[ss1 a] n1] eqn:E1.
    destruct (to_atoms (map (fun f => norm (snd f)) fs) n1) as [[ss2 l] n2] eqn:E2.
    apply to_atoms_grows in E2.
    2: { apply Forall_map_iff; auto. }
    assert (n <= n1); [|cbn; lia].
    destruct s as [s|]; cbn in E1; [|inv E1; lia].
    destruct (to_atom (norm s) n) as [[ss0 a0] n0] eqn:E0. inv E1.
    apply to_atom_grows in E0; auto.
  - destruct (to_atom (norm e) n) as [[ss1 a] n1] eqn:E1.
    destruct (to_atoms (map norm args) n1) as [[ss2 l] n2] eqn:E2.
    apply to_atom_grows in E1; auto. apply to_atoms_grows in E2; [cbn; lia|].
    apply Forall_map_iff; auto.
  - destruct (norm_stmts (map (map_stmt norm) ss) n) as [ss1 n1] eqn:E1.
    apply norm_stmts_grows in E1.
    2: { apply Forall_map_iff. eapply Forall_impl; [|exact H]. intros []; cbn; auto. }
    specialize (IHe n1). destruct (norm e n1) as [v' n2]. cbn in IHe.
    destruct (split v'). cbn. lia.
  - destruct (to_atom (norm e) n) as [[ss1 a] n1] eqn:E1.
    destruct (norm_arms (map (map_arm norm) arms) n1) as [l n2] eqn:E2.
    apply to_atom_grows in E1; auto. apply norm_arms_grows in E2; [cbn; lia|].
    apply Forall_map_iff. eapply Forall_impl; [|exact H].
    intros [p g b] [Hg Hb]. cbn. split; auto.
    intros r. destruct g as [g|]; cbn; [|discriminate]. intros E; inv E. auto.
  - specialize (IHe n). destruct (norm e n). cbn in *. lia.
  - specialize (IHe n). destruct (norm e n) as [b' n1]. cbn in IHe.
    destruct (norm_handlers (map (map_harm norm) hs) n1) as [l n2] eqn:E2.
    apply norm_handlers_grows in E2; [cbn; lia|].
    apply Forall_map_iff. eapply Forall_impl; [|exact H]. intros []; cbn; auto.
  - destruct (to_atom (norm e) n) as [[ss1 a] n1] eqn:E1.
    apply to_atom_grows in E1; auto.
  - destruct (to_atom (norm e1) n) as [[ss1 a] n1] eqn:E1.
    apply to_atom_grows in E1; auto. specialize (IHe2 n1).
    destruct (norm e2 n1). cbn in *. lia.
  - cbn; lia.
Qed.

Lemma norm_le e n e' n' : norm e n = (e', n') -> n <= n'.
Proof. intros E. pose proof (norm_grows e n) as H. rewrite E in H. exact H. Qed.

Lemma norms_grow es : Forall grows (map norm es).
Proof. apply Forall_map_iff, Forall_forall. intros e _. apply norm_grows. Qed.

(** ** Resolved expressions *)

Lemma NoDup_app_parts {A} (l l' : list A) : NoDup (l ++ l') ->
  NoDup l /\ NoDup l' /\ (forall x, In x l -> ~ In x l').
Proof.
  induction l as [|a l IH]; cbn; intros H.
  - split; [constructor|]. split; auto.
  - inv H. apply IH in H3. destruct H3 as (A1 & A2 & A3).
    rewrite in_app_iff in H2. split; [constructor; tauto|]. split; auto.
    intros x [<-|I]; auto.
Qed.

Lemma split_prefix ss e : (forall s v, e <> EBlock s v) ->
  split (with_prefix ss e) = (ss, e).
Proof.
  intros N. destruct ss; cbn; [|reflexivity].
  destruct e; cbn; auto. exfalso. eapply N; reflexivity.
Qed.

Section Main.
Variable S : sem.
Hypothesis L : lawful S.

Notation "a ~ b" := (ceq S a b) (at level 70).
Notation "a == b" := (veq S a b) (at level 70).
Notation env := (env S).
Notation Fveq := (Forall2 (veq S)).
Notation T ss := (den_stmts S (map (map_stmt (den S)) ss)).

Definition plug (fr : option (V S -> M S)) (m : M S) : M S :=
  match fr with None => m | Some k => bind S m k end.
Definition frame_ok (fr : option (V S -> M S)) : Prop :=
  match fr with None => True | Some k => resp1 S k k end.

Lemma plug_ok fr m m' : frame_ok fr -> m ~ m' -> plug fr m ~ plug fr m'.
Proof. destruct fr; cbn; auto. intros F E. apply (bind_ok S L); auto. Qed.

Lemma plug_bind fr m m' f f' : frame_ok fr -> m ~ m' -> resp1 S f f' ->
  plug fr (bind S m f) ~ bind S m' (fun x => plug fr (f' x)).
Proof.
  destruct fr as [k|]; cbn; intros F E R.
  - apply (bind_bind S L); auto.
  - apply (bind_ok S L); auto.
Qed.

Lemma plug_failure fr : frame_ok fr -> plug fr (failure S) ~ failure S.
Proof.
  destruct fr as [k|]; cbn; intros F.
  - apply (bind_failure S L); auto.
  - apply (failure_ok S L).
Qed.

Lemma map_stmt_app ss rest : map (map_stmt (den S)) (ss ++ rest)
  = map (map_stmt (den S)) ss ++ map (map_stmt (den S)) rest.
Proof. apply map_app. Qed.

Definition keeps (B : list N) (n n' : N) (r r1 : env) : Prop :=
  forall x, ~ In x B -> (x < n \/ n' <= x) -> r1 x = r x.
Definition sees (G B : list N) (n n' : N) (r r2 : env) : Prop :=
  forall x, In x G \/ In x B \/ (n <= x /\ x < n') -> r2 x = r x.

Lemma sees_refl G B n n' r : sees G B n n' r r.
Proof. intros x _. reflexivity. Qed.

(** [m] is what the residual expression [v] computes wherever [P] holds. *)
Definition meaning (m : M S) (v : expr) (P : env -> Prop) : Prop :=
  (forall r, P r -> m ~ den S v r)
  /\ (is_atom v = true ->
      exists x, m = ret S x
        /\ forall r, P r -> exists w, den S v r = ret S w /\ x == w).

Definition keeps_meaning (e : expr) : Prop :=
  forall G n e' n' ss v, norm e n = (e', n') -> split e' = (ss, v) ->
  resolved_expr G n e ->
  forall r r', agree S G r r' -> forall fr rest K, frame_ok fr ->
  (forall m r1, keeps (binders e) n n' r' r1 ->
     meaning m v (sees G (binders e) n n' r1) ->
     plug fr m ~ T rest r1 K) ->
  plug fr (den S e r) ~ T (ss ++ rest) r' K.

Lemma region_ok e G n e' n' r r' : keeps_meaning e ->
  norm e n = (e', n') -> resolved_expr G n e -> agree S G r r' ->
  den S e r ~ den S e' r'.
Proof.
  intros H E R A. destruct (split e') as [ss v] eqn:Es.
  pose proof (H G n e' n' ss v E Es R r r' A None [] (den S v) I) as X.
  rewrite app_nil_r in X. cbn [plug] in X.
  assert (Y : T ss r' (den S v) = den S e' r').
  { destruct e'; inv Es; reflexivity. }
  rewrite Y in X. apply X. intros m r1 _ [Hm _]. cbn. apply Hm, sees_refl.
Qed.

(** *** Strict children *)

Definition avalue (r : env) (a : expr) (v : V S) : Prop :=
  exists w, den S a r = ret S w /\ v == w.

Lemma atom_ok e G n ss a n' r r' : keeps_meaning e ->
  to_atom (norm e) n = (ss, a, n') -> resolved_expr G n e -> agree S G r r' ->
  forall k rest K, resp1 S k k ->
  (forall v r1, v == v -> keeps (binders e) n n' r' r1 ->
     (forall r2, sees G (binders e) n n' r1 r2 -> avalue r2 a v) ->
     k v ~ T rest r1 K) ->
  bind S (den S e r) k ~ T (ss ++ rest) r' K.
Proof.
  intros H E R A k rest K Hk C. unfold to_atom in E.
  destruct (norm e n) as [e' n1] eqn:En.
  pose proof (norm_le _ _ _ _ En) as Le.
  destruct (split e') as [p v] eqn:Es.
  destruct (is_atom v) eqn:Ea; inv E.
  - apply (H G n e' n' ss a En Es R r r' A (Some k) rest K Hk).
    intros m r1 Kp [_ Hm]. destruct (Hm Ea) as (x & -> & Hx). cbn.
    assert (X : x == x).
    { destruct (Hx r1 (sees_refl _ _ _ _ _)) as (w & _ & Ew).
      eapply veq_l; eauto. }
    eapply (ceq_trans S L); [apply (bind_ret S L); eauto|].
    apply C; auto.
  - rewrite <- app_assoc.
    apply (H G n e' n1 p v En Es R r r' A (Some k) _ K Hk).
    intros m r1 Kp [Hm _]. cbn.
    apply (bind_ok S L); [apply Hm, sees_refl|].
    intros x y Exy. apply C.
    + eapply veq_l; eauto.
    + intros z Nz Oz. unfold upd. destruct (z =? n1) eqn:Z.
      * apply N.eqb_eq in Z. lia.
      * apply Kp; auto. destruct Oz; lia.
    + intros r2 Sr. exists (r2 n1). split; [reflexivity|].
      rewrite Sr by (right; right; lia). unfold upd. rewrite N.eqb_refl. auto.
Qed.

Lemma atoms_values as_ vs r : Forall2 (avalue r) as_ vs ->
  forall k k', respl S k k' -> k vs ~ den_list S (map (den S) as_) r k'.
Proof.
  induction 1 as [|a v as_ vs (w & E & Ew) F IH]; intros k k' Hk; cbn.
  - apply Hk. constructor.
  - rewrite E. apply (ceq_sym S L).
    refine (bind_ret S L w v _ (fun x => k (x :: vs)) _ _).
    + eapply veq_sym; eauto.
    + intros x y Exy. apply (ceq_sym S L).
      apply (IH (fun l => k (y :: l)) (fun l => k' (x :: l))).
      intros l l' El. apply Hk. constructor; auto. eapply veq_sym; eauto.
Qed.

Lemma atom_value a v r : avalue r a v -> forall f f', resp1 S f f' ->
  f v ~ bind S (den S a r) f'.
Proof.
  intros (w & E & Ew) f f' Hf. rewrite E. apply (ceq_sym S L).
  refine (bind_ret S L w v f' f _ _).
  - eapply veq_sym; eauto.
  - intros x y Exy. apply (ceq_sym S L), Hf. eapply veq_sym; eauto.
Qed.

Lemma resolved_keep G n n1 B r r1 r0 :
  (forall x, In x G -> x < n) -> fresh_in B G ->
  keeps B n n1 r r1 -> agree S G r0 r -> agree S G r0 r1.
Proof.
  intros HG F Kp A x I. rewrite Kp; auto.
  intros J. apply (F x J I).
Qed.

Lemma keeps_trans B1 B2 n n1 n2 r r1 r2 : n <= n1 -> n1 <= n2 ->
  keeps B1 n n1 r r1 -> keeps B2 n1 n2 r1 r2 -> keeps (B1 ++ B2) n n2 r r2.
Proof.
  intros L1 L2 K1 K2 x Nx Ox. rewrite in_app_iff in Nx.
  rewrite K2, K1; auto; destruct Ox; auto; lia.
Qed.

(** What was visible before further bindings still is. *)
Lemma sees_before G B1 B2 n n1 n2 r1 r2 r3 : n <= n1 -> n1 <= n2 ->
  (forall x, In x G -> x < n) -> (forall x, In x B1 -> x < n) ->
  (forall x, In x B2 -> x < n) -> fresh_in B2 G ->
  (forall x, In x B1 -> ~ In x B2) ->
  keeps B2 n1 n2 r1 r2 -> sees G (B1 ++ B2) n n2 r2 r3 -> sees G B1 n n1 r1 r3.
Proof.
  intros L1 L2 HG H1 H2 F D Kp Sr x Hx.
  assert (X : r3 x = r2 x).
  { apply Sr. rewrite in_app_iff. destruct Hx as [Hx|[Hx|Hx]]; auto.
    right; right; lia. }
  rewrite X. apply Kp.
  - destruct Hx as [Hx|[Hx|Hx]].
    + intros J. apply (F x J Hx).
    + auto.
    + intros J. specialize (H2 x J). lia.
  - left. destruct Hx as [Hx|[Hx|Hx]].
    + specialize (HG x Hx). lia.
    + specialize (H1 x Hx). lia.
    + lia.
Qed.

Lemma sees_after G B1 B2 n n1 n2 r2 r3 : n <= n1 -> n1 <= n2 ->
  sees G (B1 ++ B2) n n2 r2 r3 -> sees G B2 n1 n2 r2 r3.
Proof.
  intros L1 L2 Sr x Hx. apply Sr. rewrite in_app_iff.
  destruct Hx as [Hx|[Hx|Hx]]; auto. right; right; lia.
Qed.

(** A list of expressions that are all resolved and bind distinct ids. *)
Definition resolved_list (G : list N) (n : N) (es : list expr) : Prop :=
  all (scoped G) es /\ NoDup (flat_map binders es)
  /\ (forall x, In x G -> x < n) /\ (forall x, In x (flat_map binders es) -> x < n).

Lemma list_fresh G es : all (scoped G) es -> fresh_in (flat_map binders es) G.
Proof.
  intros A. apply all_Forall in A. intros x I.
  apply in_flat_map in I. destruct I as [e [I J]].
  rewrite Forall_forall in A. apply (scoped_fresh e G (A e I) x J).
Qed.

Lemma agree_self G r r' : agree S G r r' -> agree S G r r.
Proof. apply agree_l. exact L. Qed.

Lemma selfs_den args G r : all (scoped G) args -> agree S G r r ->
  Forall2 (fun d d' => d r ~ d' r) (map (den S) args) (map (den S) args).
Proof.
  intros A R. eapply selfs; eauto. apply Forall_forall. intros e _. apply den_self, L.
Qed.

Lemma atoms_ok es : Forall keeps_meaning es ->
  forall G n ss as_ n' r r', to_atoms (map norm es) n = (ss, as_, n') ->
  resolved_list G n es -> agree S G r r' ->
  forall fr k rest K, frame_ok fr -> respl S k k ->
  (forall vs r1, Fveq vs vs -> keeps (flat_map binders es) n n' r' r1 ->
     (forall r2, sees G (flat_map binders es) n n' r1 r2 ->
        Forall2 (avalue r2) as_ vs) ->
     plug fr (k vs) ~ T rest r1 K) ->
  plug fr (den_list S (map (den S) es) r k) ~ T (ss ++ rest) r' K.
Proof.
  induction 1 as [|e es He H IH]; cbn; intros G n ss as_ n' r r' E R A fr k rest K Hf Hk C.
  - inv E. cbn. apply C; try constructor.
  - destruct (to_atom (norm e) n) as [[ss1 a] n1] eqn:E1.
    destruct (to_atoms (map norm es) n1) as [[ss2 l] n2] eqn:E2. inv E.
    destruct R as ([Se Ss] & Nd & HG & HB). cbn in Nd, HB.
    apply NoDup_app_parts in Nd. destruct Nd as (Nd1 & Nd2 & Nd3).
    assert (L1 : n <= n1) by (eapply to_atom_grows; [apply norm_grows|eauto]).
    assert (L2 : n1 <= n') by (eapply to_atoms_grows; [apply norms_grow|eauto]).
    assert (Re : resolved_expr G n e).
    { repeat split; auto. intros x I. apply HB, in_or_app. auto. }
    assert (Rs : resolved_list G n1 es).
    { repeat split; auto.
      - intros x I. specialize (HG x I). lia.
      - intros x I. assert (x < n) by (apply HB, in_or_app; auto). lia. }
    pose proof (agree_self _ _ _ A) as Ar.
    assert (Hk1 : resp1 S (fun v => plug fr (den_list S (map (den S) es) r (fun vs => k (v :: vs))))
                          (fun v => plug fr (den_list S (map (den S) es) r (fun vs => k (v :: vs))))).
    { intros x y Exy. apply plug_ok; auto. apply den_list_rel; auto.
      - eapply selfs_den; eauto.
      - intros vs ws Es. apply Hk. constructor; auto. }
    eapply (ceq_trans S L).
    + apply (plug_bind fr _ (den S e r) _ (fun v => den_list S (map (den S) es) r (fun vs => k (v :: vs)))); auto.
      * apply (den_self S L e G); [exact Se|exact Ar].
      * intros x y Exy. apply den_list_rel; [exact L|apply (selfs_den es G); auto|].
        intros vs ws Es. apply Hk. constructor; auto.
    + rewrite <- app_assoc. eapply atom_ok; eauto.
      intros v r1 Ev K1 V1.
      eapply (IH G n1 ss2 l n' r r1 E2 Rs); auto.
      * eapply resolved_keep; eauto. apply scoped_fresh; auto.
      * intros vs ws Es. apply Hk. constructor; auto.
      * intros vs r2 Evs K2 V2. apply C.
        -- constructor; auto.
        -- eapply keeps_trans; eauto.
        -- intros r3 S3. constructor.
           ++ apply V1. apply (sees_before G (binders e) (flat_map binders es) n n1 n' r1 r2 r3); auto.
              ** intros x I. apply HB, in_or_app. auto.
              ** intros x I. apply HB, in_or_app. auto.
              ** apply list_fresh; auto.
           ++ apply V2. apply (sees_after G (binders e) (flat_map binders es) n n1 n'); auto.
Qed.

(** *** Regions *)

Definition arm_binders := flat_map (abinders binders).
Definition harm_binders := flat_map (hbinders binders).

Lemma arms_ok arms : Forall (on_arm keeps_meaning) arms ->
  forall G n arms' n', norm_arms (map (map_arm norm) arms) n = (arms', n') ->
  all (fun a => match a with
                | mkArm p g b =>
                    fresh_in (pbinders p) G
                    /\ match g with
                       | Some g => scoped (pbinders p ++ G) g
                       | None => True
                       end
                    /\ scoped (pbinders p ++ G) b
                end) arms ->
  NoDup (arm_binders arms) -> (forall x, In x G -> x < n) ->
  (forall x, In x (arm_binders arms) -> x < n) ->
  Forall2 (arm_rel S G) (map (map_arm (den S)) arms) (map (map_arm (den S)) arms').
Proof.
  induction 1 as [|[p g b] arms [Hg Hb] H IH]; intros G n arms' n' E Sc Nd HG HB.
  - cbn in E. inv E. constructor.
  - cbn in E. cbn [all] in Sc. destruct Sc as [(Sf & Sg & Sb) Sc].
    unfold arm_binders in Nd, HB. cbn in Nd, HB.
    apply NoDup_app_parts in Nd. destruct Nd as (Nd1 & Nd2 & _).
    apply NoDup_app_parts in Nd1. destruct Nd1 as (_ & Nd1 & _).
    apply NoDup_app_parts in Nd1. destruct Nd1 as (Ndg & Ndb & _).
    lazymatch type of E with
    | (let (_, _) := ?x in _) = _ => destruct x as [g' n1] eqn:Eg
    end.
    destruct (norm b n1) as [b' n2] eqn:Eb.
    destruct (norm_arms (map (map_arm norm) arms) n2) as [l n3] eqn:El. inv E.
    assert (L1 : n <= n1).
    { destruct g as [g|]; cbn in Eg; [|inv Eg; lia].
      destruct (norm g n) as [e n0] eqn:E0. inv Eg. eapply norm_le; eauto. }
    assert (L2 : n1 <= n2) by (eapply norm_le; eauto).
    assert (HB' : forall x, In x (pbinders p) \/ (exists e, g = Some e /\ In x (binders e))
                       \/ In x (binders b) \/ In x (arm_binders arms) -> x < n).
    { intros x I. apply HB. rewrite !in_app_iff. unfold arm_binders in I.
      destruct I as [I|[(e & -> & I)|[I|I]]]; tauto. }
    assert (HGp : forall x, In x (pbinders p ++ G) -> x < n).
    { intros x I. apply in_app_or in I. destruct I; auto. }
    cbn. constructor.
    + split; [reflexivity|]. intros r r' A. split.
      * destruct g as [g|]; cbn in Eg.
        -- destruct (norm g n) as [e n0] eqn:E0. inv Eg. cbn. constructor.
           eapply region_ok; eauto. repeat split; auto.
           intros x I. apply HB'. eauto.
        -- inv Eg. constructor.
      * eapply region_ok; eauto. repeat split; auto.
        -- intros x I. specialize (HGp x I). lia.
        -- intros x I. assert (x < n) by (apply HB'; auto). lia.
    + eapply IH; eauto.
      * intros x I. specialize (HG x I). lia.
      * intros x I. assert (x < n) by (apply HB'; auto). lia.
Qed.

Lemma harms_ok hs : Forall (on_harm keeps_meaning) hs ->
  forall G n hs' n', norm_handlers (map (map_harm norm) hs) n = (hs', n') ->
  all (fun h => match h with
                | mkHarm k b => fresh_in (kbinders k) G /\ scoped (kbinders k ++ G) b
                end) hs ->
  NoDup (harm_binders hs) -> (forall x, In x G -> x < n) ->
  (forall x, In x (harm_binders hs) -> x < n) ->
  Forall2 (harm_rel S G) (map (map_harm (den S)) hs) (map (map_harm (den S)) hs').
Proof.
  induction 1 as [|[k b] hs Hb H IH]; intros G n hs' n' E Sc Nd HG HB.
  - cbn in E. inv E. constructor.
  - cbn in E. cbn [all] in Sc. destruct Sc as [(Sf & Sb) Sc].
    unfold harm_binders in Nd, HB. cbn in Nd, HB.
    apply NoDup_app_parts in Nd. destruct Nd as (Nd1 & Nd2 & _).
    apply NoDup_app_parts in Nd1. destruct Nd1 as (_ & Ndb & _).
    destruct (norm b n) as [b' n2] eqn:Eb.
    destruct (norm_handlers (map (map_harm norm) hs) n2) as [l n3] eqn:El. inv E.
    assert (L2 : n <= n2) by (eapply norm_le; eauto).
    cbn. constructor.
    + split; [reflexivity|]. intros r r' A.
      eapply region_ok; eauto. repeat split; auto.
      * intros x I. apply in_app_or in I. destruct I as [I|I]; auto.
        apply HB. rewrite !in_app_iff. auto.
      * intros x I. apply HB. rewrite !in_app_iff. auto.
    + eapply IH; eauto.
      * intros x I. specialize (HG x I). lia.
      * intros x I. assert (x < n) by (apply HB; rewrite !in_app_iff; auto). lia.
Qed.

(** *** Blocks *)

Definition stmt_binders := flat_map (sbinders binders).

Lemma block_ok v : keeps_meaning v -> forall stmts,
  Forall (on_stmt keeps_meaning) stmts ->
  forall G n ss n1 v' n2 ss' w, norm_stmts (map (map_stmt norm) stmts) n = (ss, n1) ->
  norm v n1 = (v', n2) -> split v' = (ss', w) ->
  scoped_stmts v stmts G -> NoDup (stmt_binders stmts ++ binders v) ->
  (forall x, In x G -> x < n) ->
  (forall x, In x (stmt_binders stmts ++ binders v) -> x < n) ->
  forall r r', agree S G r r' -> forall fr rest K, frame_ok fr ->
  (forall m r1, keeps (stmt_binders stmts ++ binders v) n n2 r' r1 ->
     meaning m w (sees G (stmt_binders stmts ++ binders v) n n2 r1) ->
     plug fr m ~ T rest r1 K) ->
  plug fr (den_stmts S (map (map_stmt (den S)) stmts) r (den S v))
  ~ T (ss ++ ss' ++ rest) r' K.
Proof.
  intros Hv. induction 1 as [|s stmts Hs H IH];
    intros G n ss n1 v' n2 ss' w E Ev Es Sc Nd HG HB r r' A fr rest K Hf C.
  - cbn in E. inv E. cbn in *. eapply Hv; eauto. repeat split; auto.
  - assert (L2 : n1 <= n2) by (eapply norm_le; eauto).
    pose proof (agree_self _ _ _ A) as Ar.
    destruct s as [p e|e]; cbn in E.
    + destruct (norm e n) as [e' m1] eqn:Ee.
      destruct (split e') as [s1 w1] eqn:E1.
      destruct (norm_stmts (map (map_stmt norm) stmts) m1) as [s2 m2] eqn:E2. inv E.
      cbn in Sc. destruct Sc as (Se & Sf & Ss).
      assert (L0 : n <= m1) by (eapply norm_le; eauto).
      assert (L1 : m1 <= n1).
      { eapply norm_stmts_grows; [|eauto]. apply Forall_map_iff, Forall_forall.
        intros [] _; cbn; apply norm_grows. }
      unfold stmt_binders in Nd, HB, C. cbn [flat_map sbinders] in Nd, HB, C.
      fold stmt_binders in Nd, HB, C.
      rewrite <- !app_assoc in Nd. rewrite <- !app_assoc in HB.
      change (flat_map (sbinders binders) stmts) with (stmt_binders stmts) in *.
      apply NoDup_app_parts in Nd. destruct Nd as (Nd1 & Nd2 & Nd3).
      apply NoDup_app_parts in Nd2. destruct Nd2 as (Nd4 & Nd2 & Nd5).
      assert (HBe : forall x, In x (binders e) -> x < n).
      { intros x I. apply HB, in_or_app. auto. }
      assert (HBp : forall x, In x (pbinders p) -> x < n).
      { intros x I. apply HB. rewrite !in_app_iff. auto. }
      assert (HBr : forall x, In x (stmt_binders stmts ++ binders v) -> x < n).
      { intros x I. apply HB. rewrite !in_app_iff in *. tauto. }
      assert (Re : resolved_expr G n e) by (repeat split; auto).
      cbn [map map_stmt den_stmts].
      assert (Sel : forall x y, x == y ->
        match bindp S p x r with
        | Some r1 => den_stmts S (map (map_stmt (den S)) stmts) r1 (den S v)
        | None => failure S
        end ~
        match bindp S p y r with
        | Some r1 => den_stmts S (map (map_stmt (den S)) stmts) r1 (den S v)
        | None => failure S
        end).
      { intros x y Exy.
        destruct (bindp_rel S L p G r r _ _ Ar Exy) as [|q q' Aq]; [apply (failure_ok S L)|].
        apply (den_self S L (EBlock stmts v) (pbinders p ++ G)); auto.
        apply scoped_block. auto. }
      eapply (ceq_trans S L).
      * apply plug_bind; auto; [apply (den_self S L e G); [exact Se|exact Ar]|exact Sel].
      * rewrite <- app_assoc. cbn [app].
        eapply (Hs G n e' m1 s1 w1 Ee E1 Re r r' A (Some _)).
        { cbn. intros x y Exy. apply plug_ok; auto. }
        intros m r1 K1 [Hm _]. cbn [plug map map_stmt den_stmts].
        apply (bind_ok S L); [apply Hm, sees_refl|].
        intros x y Exy.
        assert (A1 : agree S G r r1).
        { apply (resolved_keep G n m1 (binders e) r' r1 r HG); [apply scoped_fresh| |]; assumption. }
        pose proof (bindp_rel S L p G r r1 x y A1 Exy) as B.
        destruct (bindp S p y r1) as [q'|] eqn:Eq'.
        2: { inv B. apply plug_failure; auto. }
        inversion B as [|q q0 Aq Eqx Eqy]; subst.
        eapply (IH (pbinders p ++ G) m1 s2 n1 v' n2 ss' w); eauto.
        { intros z I. apply in_app_or in I. destruct I as [I|I];
            [specialize (HBp z I); lia|specialize (HG z I); lia]. }
        { intros z I. specialize (HBr z I). lia. }
        intros m0 r2 K2 [M1 M2].
        assert (SS : forall r3, sees G ((binders e ++ pbinders p) ++ stmt_binders stmts ++ binders v) n n2 r2 r3 ->
                  sees (pbinders p ++ G) (stmt_binders stmts ++ binders v) m1 n2 r2 r3).
        { intros r3 S3 z Hz. apply S3. rewrite !in_app_iff in *.
          destruct Hz as [Hz|[Hz|Hz]]; try tauto. right; right. lia. }
        apply C.
        -- intros z Nz Oz. rewrite !in_app_iff in Nz. rewrite K2.
           ++ rewrite (bindp_other S p y r1 q' z Eq') by tauto.
              apply K1; [tauto|]. destruct Oz; [auto|right; lia].
           ++ rewrite in_app_iff. tauto.
           ++ destruct Oz; [left; lia|auto].
        -- rewrite <- app_assoc. rewrite <- app_assoc in SS. split.
           ++ intros r3 S3. apply M1, SS. rewrite <- app_assoc in S3. exact S3.
           ++ intros Ia. destruct (M2 Ia) as (x0 & -> & Hx0).
              exists x0. split; auto. intros r3 S3. apply Hx0, SS.
              rewrite <- app_assoc in S3. exact S3.
    + destruct (norm e n) as [e' m1] eqn:Ee.
      destruct (split e') as [s1 w1] eqn:E1.
      destruct (norm_stmts (map (map_stmt norm) stmts) m1) as [s2 m2] eqn:E2. inv E.
      cbn in Sc. destruct Sc as (Se & Ss).
      assert (L0 : n <= m1) by (eapply norm_le; eauto).
      assert (L1 : m1 <= n1).
      { eapply norm_stmts_grows; [|eauto]. apply Forall_map_iff, Forall_forall.
        intros [] _; cbn; apply norm_grows. }
      unfold stmt_binders in Nd, HB, C. cbn [flat_map sbinders] in Nd, HB, C.
      rewrite <- !app_assoc in Nd. rewrite <- !app_assoc in HB.
      change (flat_map (sbinders binders) stmts) with (stmt_binders stmts) in *.
      apply NoDup_app_parts in Nd. destruct Nd as (Nd1 & Nd2 & Nd3).
      assert (HBe : forall x, In x (binders e) -> x < n).
      { intros x I. apply HB, in_or_app. auto. }
      assert (HBr : forall x, In x (stmt_binders stmts ++ binders v) -> x < n).
      { intros x I. apply HB. rewrite !in_app_iff in *. tauto. }
      assert (Re : resolved_expr G n e) by (repeat split; auto).
      cbn [map map_stmt den_stmts].
      assert (Sel : den_stmts S (map (map_stmt (den S)) stmts) r (den S v)
                    ~ den_stmts S (map (map_stmt (den S)) stmts) r (den S v)).
      { apply (den_self S L (EBlock stmts v) G); auto. apply scoped_block. auto. }
      eapply (ceq_trans S L).
      * apply plug_bind; auto; [apply (den_self S L e G); [exact Se|exact Ar]|]. intros x y _. exact Sel.
      * rewrite <- app_assoc. cbn [app].
        eapply (Hs G n e' m1 s1 w1 Ee E1 Re r r' A (Some _)).
        { cbn. intros x y Exy. apply plug_ok; auto. }
        intros m r1 K1 [Hm _]. cbn [plug map map_stmt den_stmts].
        apply (bind_ok S L); [apply Hm, sees_refl|].
        intros x y Exy.
        assert (A1 : agree S G r r1).
        { apply (resolved_keep G n m1 (binders e) r' r1 r HG); [apply scoped_fresh| |]; assumption. }
        eapply (IH G m1 s2 n1 v' n2 ss' w); eauto.
        { intros z I. specialize (HG z I). lia. }
        { intros z I. specialize (HBr z I). lia. }
        intros m0 r2 K2 [M1 M2].
        assert (SS : forall r3, sees G ((binders e) ++ stmt_binders stmts ++ binders v) n n2 r2 r3 ->
                  sees G (stmt_binders stmts ++ binders v) m1 n2 r2 r3).
        { intros r3 S3 z Hz. apply S3. rewrite !in_app_iff in *.
          destruct Hz as [Hz|[Hz|Hz]]; try tauto. right; right. lia. }
        apply C.
        -- intros z Nz Oz. rewrite !in_app_iff in Nz. rewrite K2.
           ++ apply K1; [tauto|]. destruct Oz; [auto|right; lia].
           ++ rewrite in_app_iff. tauto.
           ++ destruct Oz; [left; lia|auto].
        -- split.
           ++ intros r3 S3. apply M1, SS. rewrite <- app_assoc in S3. exact S3.
           ++ intros Ia. destruct (M2 Ia) as (x0 & -> & Hx0).
              exists x0. split; auto. intros r3 S3. apply Hx0, SS.
              rewrite <- app_assoc in S3. exact S3.
Qed.

End Main.
