(** The compiled code simulates the reference: lemmas. *)
From Verif Require Import Base HandlerModel HandlerSpec.
Import ListNotations.

Section Sim.
Variable P : program.
Variable checked : bool.

Notation plain := (plain P).
Notation tidy := (tidy P).
Notation tidy_d := (tidy_d P).
Notation tidy_h := (tidy_h P).
Notation tidy_arm := (tidy_arm P).

(** ** Runs *)

Definition star (s s' : nat * tstate) : Prop := exists n, trun P checked n s = Some s'.
Definition plus (s s' : nat * tstate) : Prop := exists n, trun P checked (S n) s = Some s'.

Lemma trun_app m : forall n s s', trun P checked m s = Some s' -> trun P checked (m + n) s = trun P checked n s'.
Proof.
  induction m; cbn; intros n s s' H. { now inv H. }
  destruct (tstep P checked (fst s) (snd s)); [|discriminate]. eauto.
Qed.

Lemma star_refl s : star s s.
Proof. now exists 0. Qed.

Lemma star_trans s1 s2 s3 : star s1 s2 -> star s2 s3 -> star s1 s3.
Proof. intros [m A] [n B]. exists (m + n). rewrite (trun_app m n s1 s2 A). exact B. Qed.

Lemma star_plus s1 s2 s3 : star s1 s2 -> plus s2 s3 -> plus s1 s3.
Proof. intros [m A] [n B]. exists (m + n). replace (S (m + n)) with (m + S n) by lia. rewrite (trun_app m (S n) s1 s2 A). exact B. Qed.

Lemma plus_star s1 s2 s3 : plus s1 s2 -> star s2 s3 -> plus s1 s3.
Proof. intros [m A] [n B]. exists (m + n). change (S (m + n)) with (S m + n). rewrite (trun_app (S m) n s1 s2 A). exact B. Qed.

Lemma plus_one n s s' : tstep P checked n s = Some s' -> plus (n, s) s'.
Proof. intros H. exists 0. cbn. now rewrite H. Qed.

Lemma star_one n s s' : tstep P checked n s = Some s' -> star (n, s) s'.
Proof. intros H. exists 1. cbn. now rewrite H. Qed.

Lemma plus_is_star s s' : plus s s' -> star s s'.
Proof. intros [n H]. now exists (S n). Qed.

(** ** Values and environments *)

Inductive vrel : sval -> tval -> Prop :=
| vr_int z : vrel (SInt z) (TInt z)
| vr_lam xs body env env' :
    tidy false body ->
    Forall2 (fun p q => fst p = fst q /\ vrel (snd p) (snd q)) (s_vars env) (t_vars env') ->
    vrel (SLam xs body env) (TLam xs body env').

Definition vsrel := Forall2 (fun (p : nat * sval) (q : nat * tval) => fst p = fst q /\ vrel (snd p) (snd q)).
Definition envR (env : senv) (env' : tenv) : Prop := vsrel (s_vars env) (t_vars env').

Lemma get_rel l l' x : vsrel l l' ->
  match s_get l x with Some v => exists v', t_get l' x = Some v' /\ vrel v v' | None => t_get l' x = None end.
Proof.
  induction 1 as [|[y v] [y' v'] l l' [A B] _ IH]; cbn in *; [reflexivity|]. subst y'.
  destruct (Nat.eq_dec x y) as [->|E].
  - rewrite Nat.eqb_refl. eauto.
  - apply Nat.eqb_neq in E. rewrite E. exact IH.
Qed.

Lemma eval_rel env env' d : envR env env' -> tidy_d d -> forall v, s_eval env d = Some v ->
  exists v', t_eval env' d = Some v' /\ vrel v v'.
Proof.
  intros E. induction d; cbn; intros G w H; inv G.
  - inv H. eexists; split; [reflexivity|constructor].
  - pose proof (get_rel _ _ x E) as A. rewrite H in A. exact A.
  - destruct (s_eval env d1) as [[z1|]|]; try discriminate.
    destruct (s_eval env d2) as [[z2|]|]; try discriminate. inv H.
    edestruct IHd1 as (v1 & A1 & B1); [assumption|reflexivity|]. edestruct IHd2 as (v2 & A2 & B2); [assumption|reflexivity|].
    inv B1. inv B2. rewrite A1, A2. eexists; split; [reflexivity|constructor].
  - destruct (s_eval env d1) as [[z1|]|]; try discriminate.
    destruct (s_eval env d2) as [[z2|]|]; try discriminate. inv H.
    edestruct IHd1 as (v1 & A1 & B1); [assumption|reflexivity|]. edestruct IHd2 as (v2 & A2 & B2); [assumption|reflexivity|].
    inv B1. inv B2. rewrite A1, A2. eexists; split; [reflexivity|constructor].
  - inv H. eexists; split; [reflexivity|]. constructor; assumption.
Qed.

Lemma evals_rel env env' ds : envR env env' -> Forall tidy_d ds -> forall vs, s_evals env ds = Some vs ->
  exists vs', t_evals env' ds = Some vs' /\ Forall2 vrel vs vs'.
Proof.
  intros E. induction 1 as [|d ds G _ IH]; cbn; intros vs H.
  - inv H. exists []. split; [reflexivity|constructor].
  - destruct (s_eval env d) as [v|] eqn:D; [|discriminate]. destruct (s_evals env ds) as [ws|]; [|discriminate]. inv H.
    destruct (eval_rel _ _ _ E G _ D) as (v' & A & B). destruct (IH _ eq_refl) as (vs' & C & F).
    rewrite A, C. eexists; split; [reflexivity|]. now constructor.
Qed.

Lemma bind_rel xs : forall vs vs' l l' l2, Forall2 vrel vs vs' -> vsrel l l' -> s_bind xs vs l = Some l2 ->
  exists l2', t_bind xs vs' l' = Some l2' /\ vsrel l2 l2'.
Proof.
  induction xs as [|x xs IH]; intros vs vs' l l' l2 F E H; destruct F; cbn in *; try discriminate.
  - inv H. eauto.
  - eapply IH; [exact F| |exact H]. constructor; [split; [reflexivity|assumption]|assumption].
Qed.

Lemma set_rel x v v' env env' : envR env env' -> vrel v v' -> envR (s_set x v env) (t_set x v' env').
Proof. intros A B. constructor; [split; [reflexivity|assumption]|exact A]. Qed.

Lemma set_in_use x v env : env_in_use (s_set x v env) = env_in_use env.
Proof. now destruct env. Qed.

(** ** Plain code *)

Lemma callee_false f fn : nth_error (p_funcs P) f = Some fn -> callee_cps P f = f_cps fn.
Proof. intros H. unfold callee_cps. now rewrite H. Qed.

Lemma plain_tidy e : plain e -> forall t b, tidy t e /\ direct P b e = true.
Proof.
  induction e; intros H t b; inv H; cbn.
  - split; [now constructor|reflexivity].
  - destruct (IHe1 ltac:(assumption) false b) as [A1 B1]. destruct (IHe2 ltac:(assumption) t b) as [A2 B2].
    rewrite B1, B2. split; [now constructor|reflexivity].
  - destruct (IHe1 ltac:(assumption) t b) as [A1 B1]. destruct (IHe2 ltac:(assumption) t b) as [A2 B2].
    rewrite B1, B2. split; [now constructor|reflexivity].
  - split; [now constructor|]. rewrite (callee_false _ _ H2), H3. reflexivity.
  - split; [now constructor|reflexivity].
Qed.

Lemma direct_plain e : forall t, tidy t e -> direct P true e = true -> plain e.
Proof.
  induction e; intros t H D; inv H; cbn in D; try discriminate.
  - now constructor.
  - apply andb_true_iff in D as [D1 D2]. constructor; eauto.
  - apply andb_true_iff in D as [D1 D2]. constructor; eauto.
  - apply negb_true_iff in D. unfold callee_cps in D. destruct (nth_error (p_funcs P) f) eqn:E; [|discriminate]. econstructor; eauto.
  - now constructor.
Qed.

(** ** Arms *)

Lemma the_arm_op a o arms x e : Forall tidy_arm arms -> the_arm KOp a o arms = Some (x, e) ->
  op_arm arms a o = Some (Arm KOp a o x e) /\ tidy true e /\ In a (map arm_ability arms).
Proof.
  induction 1 as [|m arms G GS IH]; cbn; intros H; [discriminate|]. inv G.
  - destruct (Nat.eq_dec a a0) as [<-|N1].
    + destruct (Nat.eq_dec o o0) as [<-|N2].
      * inv H. rewrite !Nat.eqb_refl. cbn. destruct arms; auto.
      * destruct (IH H) as (A & B & C). apply Nat.eqb_neq in N2. rewrite N2, andb_false_r. rewrite A.
        destruct arms; [discriminate|]. auto.
    + destruct (IH H) as (A & B & C). apply Nat.eqb_neq in N1. rewrite N1. cbn. rewrite A. destruct arms; [discriminate|]. auto.
  - destruct (IH H) as (A & B & C). destruct ((a =? a0) && (o =? o0)) eqn:E.
    + apply andb_true_iff in E as [E1 E2]. apply Nat.eqb_eq in E1, E2. subst. exfalso.
      clear - H GS H0. induction GS as [|m arms G GS IH]; cbn in H; [discriminate|]. inv G.
      * destruct (Nat.eq_dec a0 a). { subst. destruct (Nat.eq_dec o0 o); [congruence|auto]. } auto.
      * auto.
    + rewrite A. destruct arms; [discriminate|]. auto.
Qed.

Lemma the_arm_fn a o arms x e : Forall tidy_arm arms -> the_arm KFn a o arms = Some (x, e) ->
  fn_arm arms a o = Some (Arm KFn a o x e) /\ plain e /\ In a (map arm_ability arms).
Proof.
  unfold fn_arm. induction 1 as [|m arms G GS IH]; cbn; intros H; [discriminate|]. inv G; cbn.
  - destruct (IH H) as (A & B & C). auto.
  - destruct (Nat.eq_dec a a0) as [<-|N1].
    + destruct (Nat.eq_dec o o0) as [<-|N2].
      * inv H. rewrite !Nat.eqb_refl. cbn. destruct (filter is_fn arms); auto.
      * destruct (IH H) as (A & B & C). apply Nat.eqb_neq in N2. rewrite N2, andb_false_r. rewrite A.
        destruct (filter is_fn arms); [discriminate|]. auto.
    + destruct (IH H) as (A & B & C). apply Nat.eqb_neq in N1. rewrite N1. cbn. rewrite A.
      destruct (filter is_fn arms); [discriminate|]. auto.
Qed.

Lemma tidy_h_arms h : tidy_h h -> Forall tidy_arm (h_arms h).
Proof. intros H. now inv H. Qed.

(** ** Evidence *)

Definition evok (ev : evidence) (O : list marker) : Prop :=
  forall r a, In r O -> In a (abilities (m_handler r)) -> ev_lookup ev a = Some r.

Definition covered (O : list marker) (L : list nat) : Prop :=
  forall r a, In r O -> In a (abilities (m_handler r)) -> In a L.

Lemma lookup_extend arms m : forall ev a,
  ev_lookup (ev_extend arms m ev) a = if in_dec Nat.eq_dec a (map arm_ability arms) then Some m else ev_lookup ev a.
Proof.
  induction arms as [|[k b o x e] arms IH]; intros ev a; cbn [ev_extend map arm_ability].
  - now destruct (in_dec _ _ _).
  - rewrite IH. cbn [ev_lookup].
    destruct (in_dec Nat.eq_dec a (map arm_ability arms)) as [I|I]; destruct (in_dec Nat.eq_dec a (b :: map arm_ability arms)) as [J|J]; cbn in J.
    + reflexivity.
    + tauto.
    + destruct J as [->|J]; [|tauto]. now rewrite Nat.eqb_refl.
    + destruct (Nat.eqb_spec a b); [subst; tauto|reflexivity].
Qed.

Lemma evok_incl ev O O' : incl O' O -> evok ev O -> evok ev O'.
Proof. intros A B r a I J. apply B; auto. Qed.

Lemma evok_extend ev O L h r : evok ev O -> covered O L -> m_handler r = h ->
  (forall a, In a (abilities h) -> ~ In a L) -> evok (ev_extend (h_arms h) r ev) O.
Proof.
  intros A B E D r' a I J. rewrite lookup_extend. destruct (in_dec _ _ _) as [K|K]; [|auto].
  exfalso. eapply D; [exact K|]. eauto.
Qed.

(** ** Contexts *)

Definition benign (f : nframe) : Prop := match f with NHandle _ _ _ _ _ _ _ | NResume _ _ _ => True | _ => False end.
Definition transparent (f : nframe) : Prop := exists o ev, f = NResume o ev (KEscape o).

Definition owner_of (f : nframe) : list nat := match f with NHandle o _ _ _ _ _ _ => [o] | _ => [] end.
Definition owners (N : list nframe) : list nat := flat_map owner_of N.

Definition inv_n (n : nat) (N : list nframe) : Prop := NoDup (owners N) /\ Forall (fun o => o < n) (owners N).

Definition has_handle (W : list sframe) : Prop := exists h env, In (FHandle h env) W.
Definition used (W : list sframe) : list nat := flat_map in_use W.

(** The code of main outside of its handles. *)
Inductive MR : list sframe -> list nframe -> Prop :=
| MR_nil : MR [] []
| MR_let x e env env' evp evc W N :
    envR env env' -> tidy false e -> direct P false e = true -> MR W N ->
    MR (FLet x e env :: W) (NLet x e env' evp evc :: N).

(** Pending work against a continuation closure and a native stack; the markers are those that evidence must hold. *)
Inductive CR : list sframe -> kont -> list nframe -> list marker -> Prop :=
| CR_bind t x e env env' dom k W N O :
    envR env env' -> tidy t e -> CR W k N O -> TI t env env' W k N O -> covered O (env_in_use env ++ used W) ->
    propagates dom = true ->
    CR (FLet x e env :: W) (KBind x e env' dom k) N O
| CR_normal h env env' o evp evx dom k T W N O :
    Forall transparent T -> CR W k N O -> evok evp O -> evok evx O -> envR env env' -> tidy_h h ->
    covered O (env_in_use env ++ used W) -> propagates dom = true ->
    CR (FHandle h env :: W) KNormal (T ++ NHandle o h env' evp evx dom k :: N) (MkMarker o h env' :: O)
| CR_escape o h env' evp evx dom k M W N O O' :
    Forall benign M -> CR W k N O -> evok evp O -> incl O O' ->
    CR W (KEscape o) (M ++ NHandle o h env' evp evx dom k :: N) O'
| CR_ident W N : MR W N -> CR W KIdent N []
(** Code that may end with [resume]. *)
with TI : bool -> senv -> tenv -> list sframe -> kont -> list nframe -> list marker -> Prop :=
| TI_no env env' W k N O : TI false env env' W k N O
| TI_yes env env' W o kc c N O O' :
    s_resume env = Some c -> t_resume env' = Some kc -> t_owner env' = Some o ->
    CR (c ++ W) kc N O -> incl O O' -> has_handle (c ++ W) ->
    TI true env env' W (KEscape o) N O'.

Scheme CR_mut := Induction for CR Sort Prop
  with TI_mut := Induction for TI Sort Prop.
Combined Scheme CR_TI_ind from CR_mut, TI_mut.

(** Pending work against a native stack that waits for a bare value. *)
Inductive DR : list sframe -> list nframe -> list marker -> Prop :=
| DR_let x e env env' evp evc W N O :
    envR env env' -> plain e -> DR W N O -> evok evp O -> evok evc O ->
    DR (FLet x e env :: W) (NLet x e env' evp evc :: N) O
| DR_bind t x e env env' evp evc dom k W N O :
    envR env env' -> tidy t e -> CR W k N O -> TI t env env' W k N O -> evok evp O -> evok evc O ->
    covered O (env_in_use env ++ used W) -> propagates dom = true ->
    DR (FLet x e env :: W) (NBind x e env' evp evc dom k :: N) O
| DR_invoke k evc W N O : CR W k N O -> evok evc O -> DR W (NInvoke evc k :: N) O
| DR_return c ev W N O : DR (c ++ W) N O -> DR (FReturn c :: W) (NInvoke ev KIdent :: N) O.

Lemma MR_no_handle W N : MR W N -> ~ has_handle W.
Proof.
  induction 1 as [|x e env env' evp evc W N A B D H IH]; intros (h & henv & I); cbn in I; [exact I|].
  destruct I as [I|I]; [discriminate|]. apply IH. now exists h, henv.
Qed.

Lemma has_handle_cons f W : has_handle W -> has_handle (f :: W).
Proof. intros (h & e & I). exists h, e. now right. Qed.

Lemma has_handle_app c W : has_handle W -> has_handle (c ++ W).
Proof. intros (h & e & I). exists h, e. apply in_or_app. now right. Qed.

Lemma push_transparent :
  (forall W k N O, CR W k N O -> has_handle W -> forall f, transparent f -> CR W k (f :: N) O) /\
  (forall t env env' W k N O, TI t env env' W k N O -> has_handle W -> forall f, transparent f -> TI t env env' W k (f :: N) O).
Proof.
  apply CR_TI_ind.
  - intros t x e env env' dom k W N O ER G C IC T IT CV PR (h & henv & I) f TF. destruct I as [I|I]; [discriminate|].
    assert (HH : has_handle W) by now exists h, henv. apply (CR_bind t); auto.
  - intros h env env' o evp evx dom k T W N O FT C IC E1 E2 ER G CV PR HH f TF.
    apply (CR_normal h env env' o evp evx dom k (f :: T)); auto.
  - intros o h env' evp evx dom k M W N O O' FB C IC E1 I HH f TF.
    apply (CR_escape o h env' evp evx dom k (f :: M) W N O O'); auto. constructor; [|assumption].
    destruct TF as (o' & ev & ->). exact Logic.I.
  - intros W N M HH f TF. exfalso. eapply MR_no_handle; eauto.
  - constructor.
  - intros env env' W o kc c N O O' A B D C IC I HC HH f TF. econstructor; eauto.
Qed.

Lemma CR_shrink W k N O : CR W k N O -> exists O', CR W k N O' /\ incl O' O /\ covered O' (used W).
Proof.
  induction 1 as [t x e env env' dom k W N O ER G C IC T CV PR
                 |h env env' o evp evx dom k T W N O FT C IC E1 E2 ER G CV PR
                 |o h env' evp evx dom k M W N O O' FB C IC E1 I|W N M].
  - exists O. split; [apply (CR_bind t); assumption|]. split; [apply incl_refl|]. exact CV.
  - eexists. split; [apply CR_normal; eassumption|]. split; [apply incl_refl|].
    intros r a [<-|J] K; cbn in *; apply in_or_app; [left; apply in_or_app; now left|].
    specialize (CV r a J K). apply in_app_or in CV as [V|V]; [left; apply in_or_app; now right|now right].
  - destruct IC as (O1 & A & B & D). exists O1. split; [|split; [|exact D]].
    + eapply CR_escape; [exact FB|exact A| |apply incl_refl]. eapply evok_incl; eauto.
    + eapply incl_tran; eauto.
  - exists []. split; [now constructor|]. split; [apply incl_refl|]. intros r a [].
Qed.

(** Each handler in a context has its marker. *)
Lemma CR_marker W k N O : CR W k N O -> forall h env, In (FHandle h env) W ->
  exists r, In r O /\ m_handler r = h /\ envR env (m_env r) /\ tidy_h h.
Proof.
  induction 1 as [t x e env env' dom k W N O ER G C IC T CV PR
                 |h env env' o evp evx dom k T W N O FT C IC E1 E2 ER G CV PR
                 |o h env' evp evx dom k M W N O O' FB C IC E1 I|W N M]; intros h1 env1 J.
  - destruct J as [J|J]; [discriminate|]. auto.
  - destruct J as [J|J].
    + inv J. eexists. split; [left; reflexivity|]. auto.
    + destruct (IC _ _ J) as (r & A & B). exists r. split; [now right|exact B].
  - destruct (IC _ _ J) as (r & A & B). exists r. split; auto.
  - exfalso. eapply MR_no_handle; [exact M|]. now exists h1, env1.
Qed.

Lemma DR_marker W N O : DR W N O -> forall h env, In (FHandle h env) W ->
  exists r, In r O /\ m_handler r = h /\ envR env (m_env r) /\ tidy_h h.
Proof.
  induction 1 as [x e env env' evp evc W N O ER G D ID E1 E2|t x e env env' evp evc dom k W N O ER G C T E1 E2 CV PR
                 |k evc W N O C E|c ev W N O D ID]; intros h1 env1 J.
  - destruct J as [J|J]; [discriminate|]. auto.
  - destruct J as [J|J]; [discriminate|]. eapply CR_marker; eauto.
  - eapply CR_marker; eauto.
  - destruct J as [J|J]; [discriminate|]. apply ID. apply in_or_app. now right.
Qed.

Lemma nearest_spec a : forall W c h env W', nearest a W = Some (c, h, env, W') ->
  W = c ++ FHandle h env :: W' /\ In a (abilities h).
Proof.
  induction W as [|f W IH]; cbn; intros c h env W' H; [discriminate|].
  destruct f as [x e env1|h1 env1|c1].
  - destruct (nearest a W) as [[[[c2 h2] env2] W2]|]; [|discriminate]. inv H.
    destruct (IH _ _ _ _ eq_refl) as [-> I]. now split.
  - destruct (in_dec Nat.eq_dec a (abilities h1)) as [I|I].
    + inv H. now split.
    + destruct (nearest a W) as [[[[c2 h2] env2] W2]|]; [|discriminate]. inv H.
      destruct (IH _ _ _ _ eq_refl) as [-> J]. now split.
  - destruct (nearest a W) as [[[[c2 h2] env2] W2]|]; [|discriminate]. inv H.
    destruct (IH _ _ _ _ eq_refl) as [-> I]. now split.
Qed.

Lemma benign_transparent T : Forall transparent T -> Forall benign T.
Proof. apply Forall_impl. intros f (o & ev & ->). exact Logic.I. Qed.

(** The part of the native stack inside of a handler only passes its carriers on. *)
Lemma CR_split W k N O : CR W k N O -> forall c h env W', W = c ++ FHandle h env :: W' ->
  exists o env' evp evx dom k2 M N2 O2,
    N = M ++ NHandle o h env' evp evx dom k2 :: N2 /\ Forall benign M /\ CR W' k2 N2 O2 /\ evok evp O2 /\ incl O2 O /\
    In (MkMarker o h env') O /\ envR env env' /\ tidy_h h.
Proof.
  induction 1 as [t x e env env' dom k W N O ER G C IC T CV PR
                 |h env env' o evp evx dom k T W N O FT C IC E1 E2 ER G CV PR
                 |o h env' evp evx dom k M W N O O' FB C IC E1 I|W N M]; intros c h1 env1 W1 E.
  - destruct c as [|f c]; cbn in E; inv E. eapply IC. reflexivity.
  - destruct c as [|f c]; cbn in E; inv E.
    + exists o, env', evp, evx, dom, k, T, N, O. repeat split; auto using benign_transparent.
      * intros r J. now right.
      * now left.
    + destruct (IC _ _ _ _ eq_refl) as (o2 & env2 & evp2 & evx2 & dom2 & k2 & M2 & N2 & O2 & -> & B & D & E & I & J & K).
      exists o2, env2, evp2, evx2, dom2, k2, (T ++ NHandle o h env' evp evx dom k :: M2), N2, O2.
      split; [now rewrite <- app_assoc|]. split; [|split; [exact D|split; [exact E|split; [|split; [now right|exact K]]]]].
      * apply Forall_app. split; [now apply benign_transparent|]. now constructor.
      * intros r L. right. auto.
  - destruct (IC _ _ _ _ E) as (o2 & env2 & evp2 & evx2 & dom2 & k2 & M2 & N2 & O2 & -> & B & D & E2 & I2 & J & K).
    exists o2, env2, evp2, evx2, dom2, k2, (M ++ NHandle o h env' evp evx dom k :: M2), N2, O2.
    split; [now rewrite <- app_assoc|]. split; [|split; [exact D|split; [exact E2|split; [|split; [auto|exact K]]]]].
    + apply Forall_app. split; [assumption|]. now constructor.
    + intros r L. auto.
  - exfalso. eapply MR_no_handle; [exact M|]. exists h1, env1. rewrite E. apply in_or_app. right. now left.
Qed.

(** ** The native stack *)

Lemma owners_app M N : owners (M ++ N) = owners M ++ owners N.
Proof. apply flat_map_app. Qed.

Lemma inv_suffix n M N : inv_n n (M ++ N) -> inv_n n N.
Proof.
  unfold inv_n. rewrite owners_app. intros [A B]. apply Forall_app in B as [_ B]. split; [|exact B].
  clear B. induction (owners M); cbn in A; [exact A|]. inv A. auto.
Qed.

Lemma inv_out n M o h env evp evx dom k N : inv_n n (M ++ NHandle o h env evp evx dom k :: N) -> ~ In o (owners M).
Proof.
  unfold inv_n. rewrite owners_app. intros [A _] I. cbn in A. apply NoDup_remove_2 in A. apply A. apply in_or_app. now left.
Qed.

Lemma pass_escape n o v M : Forall benign M -> ~ In o (owners M) -> forall N,
  star (n, TAnswer (AEscape o v) (M ++ N)) (n, TAnswer (AEscape o v) N).
Proof.
  induction 1 as [|f M B _ IH]; intros A N; [apply star_refl|].
  destruct f; try destruct B; cbn in A.
  - eapply star_trans; [apply star_one|apply IH; tauto]. cbn.
    destruct (Nat.eqb_spec o o0); [subst; tauto|reflexivity].
  - eapply star_trans; [apply star_one; reflexivity|apply IH; tauto].
Qed.

Lemma pass_normal n v T : Forall transparent T -> forall N,
  star (n, TAnswer (ANormal v) (T ++ N)) (n, TAnswer (ANormal v) N).
Proof.
  induction 1 as [|f T (o & ev & ->) _ IH]; intros N; [apply star_refl|].
  eapply star_trans; [apply star_one; reflexivity|]. eapply star_trans; [apply star_one; reflexivity|].
  eapply star_trans; [apply star_one; reflexivity|]. rewrite Nat.eqb_refl. apply IH.
Qed.

(** A value given to the escape continuation reaches the continuation of its handle. *)
Lemma settle W k N O : CR W k N O -> forall n v ev, evok ev O -> inv_n n N ->
  exists k' ev' N' O', star (n, TInvoke k v ev N) (n, TInvoke k' v ev' N') /\ CR W k' N' O' /\ evok ev' O' /\ inv_n n N' /\
    (forall o, k' <> KEscape o).
Proof.
  induction 1 as [t x e env env' dom k W N O ER G C IC T CV PR
                 |h env env' o evp evx dom k T W N O FT C IC E1 E2 ER G CV PR
                 |o h env' evp evx dom k M W N O O' FB C IC E1 I|W N M]; intros n v ev E IN.
  - do 4 eexists. split; [apply star_refl|]. split; [apply (CR_bind t); eassumption|]. repeat split; auto; try apply IN; discriminate.
  - do 4 eexists. split; [apply star_refl|]. split; [apply CR_normal; eassumption|]. repeat split; auto; try apply IN; discriminate.
  - destruct (IC n v evp E1 (inv_suffix n (M ++ [_]) N ltac:(rewrite <- app_assoc; exact IN))) as (k' & ev' & N' & O1 & A & B).
    exists k', ev', N', O1. split; [|exact B].
    eapply star_trans; [apply star_one; reflexivity|]. eapply star_trans; [apply pass_escape; [exact FB|eapply inv_out; exact IN]|].
    eapply star_trans; [apply star_one; cbn; rewrite Nat.eqb_refl; reflexivity|]. exact A.
  - do 4 eexists. split; [apply star_refl|]. split; [now apply CR_ident|]. repeat split; auto; try apply IN; discriminate.
Qed.

(** ** The relation between states *)

Inductive R : sstate -> nat * tstate -> Prop :=
| R_main n e env env' evp evc W N :
    envR env env' -> tidy false e -> direct P false e = true -> MR W N ->
    R (SEval e env W) (n, TDirect e env' evp evc N)
| R_plain n e env env' evp evc W N O :
    envR env env' -> plain e -> DR W N O -> evok evp O -> evok evc O -> inv_n n N ->
    R (SEval e env W) (n, TDirect e env' evp evc N)
| R_comp n t dom e env env' evp evc k W N O :
    envR env env' -> tidy t e -> CR W k N O -> TI t env env' W k N O -> evok evp O -> evok evc O ->
    covered O (env_in_use env ++ used W) -> propagates dom = true -> inv_n n N ->
    R (SEval e env W) (n, TComp dom e env' evp evc k N)
| R_invoke n v v' k ev W N O :
    vrel v v' -> CR W k N O -> evok ev O -> inv_n n N ->
    R (SReturn v W) (n, TInvoke k v' ev N)
| R_answer_main n v v' W N : vrel v v' -> MR W N -> R (SReturn v W) (n, TAnswer (AVal v') N)
| R_answer n v v' W N O : vrel v v' -> DR W N O -> inv_n n N -> R (SReturn v W) (n, TAnswer (AVal v') N).

Hypothesis funcs_tidy : Forall (tidy_func P) (p_funcs P).

Definition simulated (s' : sstate) (t : nat * tstate) : Prop := exists t', plus t t' /\ R s' t'.

Lemma simulated_one s' n t t' : tstep P checked n t = Some t' -> R s' t' -> simulated s' (n, t).
Proof. intros A B. exists t'. split; [now apply plus_one|exact B]. Qed.

Lemma simulated_star s' t1 t2 : star t1 t2 -> simulated s' t2 -> simulated s' t1.
Proof. intros A (t' & B & C). exists t'. split; [eapply star_plus; eauto|exact C]. Qed.

Lemma inv_main n W N : MR W N -> inv_n n N.
Proof.
  intros H. unfold inv_n. replace (owners N) with (@nil nat); [split; constructor|]. now induction H.
Qed.

(** A new handle. *)
Lemma enter_sim n dom body h env env' evp evc k W N O :
  envR env env' -> tidy false body -> tidy_h h -> CR W k N O -> evok evp O -> evok evc O ->
  covered O (env_in_use env ++ used W) -> propagates dom = true -> inv_n n N ->
  (forall a, In a (abilities h) -> ~ In a (env_in_use env ++ used W)) ->
  R (SEval body env (FHandle h env :: W)) (enter_handle n dom body h env' evp evc k N).
Proof.
  intros ER G GH C E1 E2 CV PR [ND FA] D. unfold enter_handle. set (r := MkMarker n h env').
  assert (EX : evok (ev_extend (h_arms h) r evc) O) by (eapply evok_extend; eauto).
  assert (EX2 : evok (ev_extend (h_arms h) r evc) (r :: O)).
  { intros r' a [<-|I] J; [|now apply EX]. rewrite lookup_extend. destruct (in_dec _ _ _) as [K|K]; [reflexivity|]. now destruct K. }
  eapply R_comp with (t := false) (O := r :: O); auto.
  - apply (CR_normal h env env' n evp (ev_extend (h_arms h) r evc) dom k []); auto.
  - constructor.
  - intros r' a [<-|I] J; cbn; apply in_or_app; right; apply in_or_app.
    + left. apply in_or_app. now left.
    + specialize (CV r' a I J). apply in_app_or in CV as [V|V]; [left; apply in_or_app; now right|now right].
  - unfold inv_n in *. cbn. split.
    + constructor; [|exact ND]. intros I. rewrite Forall_forall in FA. specialize (FA _ I). lia.
    + constructor; [lia|]. eapply Forall_impl; [|exact FA]. cbn. intros; lia.
Qed.

Lemma func_tidy f fn : nth_error (p_funcs P) f = Some fn -> tidy_func P fn.
Proof. intros H. rewrite Forall_forall in funcs_tidy. apply funcs_tidy. eapply nth_error_In; eauto. Qed.

(** Plain code. *)
Lemma plain_sim n e env env' evp evc W N O s' :
  envR env env' -> plain e -> DR W N O -> evok evp O -> evok evc O -> inv_n n N ->
  sstep P (SEval e env W) = Some s' -> simulated s' (n, TDirect e env' evp evc N).
Proof.
  intros ER G D E1 E2 IN H. inv G; cbn [sstep] in H.
  - destruct (s_eval env d) as [v|] eqn:V; [|discriminate]. inv H.
    destruct (eval_rel _ _ _ ER H0 _ V) as (v' & A & B).
    eapply simulated_one; [cbn; rewrite A; reflexivity|]. eapply R_answer; eauto.
  - inv H. eapply simulated_one; [reflexivity|]. eapply R_plain; eauto. constructor; auto.
  - destruct (s_eval env d) as [[z|]|] eqn:V; try discriminate. inv H.
    destruct (eval_rel _ _ _ ER H0 _ V) as (v' & A & B). inv B.
    eapply simulated_one; [cbn; rewrite A; reflexivity|].
    destruct (Z.eq_dec z 0) as [->|NZ]; [|apply Z.eqb_neq in NZ; rewrite NZ]; eapply R_plain; eauto.
  - rewrite H0 in H. destruct (s_evals env ds) as [vs|] eqn:V; [|discriminate].
    destruct (s_bind (f_params fn) vs []) as [vars|] eqn:B; [|discriminate]. inv H.
    destruct (evals_rel _ _ _ ER H2 _ V) as (vs' & A & F).
    destruct (bind_rel _ _ _ _ [] _ F ltac:(constructor) B) as (l2 & A2 & F2).
    pose proof (func_tidy _ _ H0) as G. unfold tidy_func in G. rewrite H1 in G.
    eapply simulated_one; [cbn; rewrite H0, A, H1, A2; reflexivity|]. eapply R_plain; eauto.
  - destruct (s_eval env d) as [v|] eqn:V; [|discriminate].
    destruct (nearest a W) as [[[[c h] henv] W2]|] eqn:NR; [|discriminate].
    destruct (the_arm KFn a o (h_arms h)) as [[x body]|] eqn:AR; [|discriminate]. inv H.
    destruct (eval_rel _ _ _ ER H0 _ V) as (v' & A & B).
    destruct (nearest_spec _ _ _ _ _ _ NR) as [-> I].
    destruct (DR_marker _ _ _ D h henv) as (r & IR & HR & RE & GH). { apply in_or_app. right. now left. }
    destruct (the_arm_fn _ _ _ _ _ (tidy_h_arms _ GH) AR) as (A1 & G & _).
    assert (L : ev_lookup evp a = Some r) by (apply E1; [exact IR|now rewrite HR]).
    eapply simulated_star; [apply star_one; cbn; rewrite A, L, HR, A1; reflexivity|].
    eapply simulated_one. { cbn. rewrite (proj2 (plain_tidy _ G false false)). reflexivity. }
    eapply R_plain; [now apply set_rel|exact G| |exact E1|exact E1|exact IN].
    apply DR_return. rewrite <- app_assoc. exact D.
Qed.

(** Main outside of its handles. *)
Lemma main_sim n e env env' evp evc W N s' :
  envR env env' -> tidy false e -> direct P false e = true -> MR W N ->
  (forall body h, e = EHandle body h -> forall a, In a (abilities h) -> ~ In a (env_in_use env ++ used W)) ->
  sstep P (SEval e env W) = Some s' -> simulated s' (n, TDirect e env' evp evc N).
Proof.
  intros ER G DI D CALM H. inv G; cbn [sstep] in H; cbn in DI; try discriminate.
  - destruct (s_eval env d) as [v|] eqn:V; [|discriminate]. inv H.
    destruct (eval_rel _ _ _ ER H0 _ V) as (v' & A & B).
    eapply simulated_one; [cbn; rewrite A; reflexivity|]. now apply R_answer_main.
  - apply andb_true_iff in DI as [D1 D2]. inv H. eapply simulated_one; [reflexivity|]. apply R_main; auto. constructor; auto.
  - apply andb_true_iff in DI as [D1 D2]. destruct (s_eval env d) as [[z|]|] eqn:V; try discriminate. inv H.
    destruct (eval_rel _ _ _ ER H0 _ V) as (v' & A & B). inv B.
    eapply simulated_one; [cbn; rewrite A; reflexivity|].
    destruct (Z.eq_dec z 0) as [->|NZ]; [|apply Z.eqb_neq in NZ; rewrite NZ]; apply R_main; auto.
  - destruct (nth_error (p_funcs P) f) as [fn|] eqn:F; [|discriminate].
    destruct (s_evals env ds) as [vs|] eqn:V; [|discriminate].
    destruct (s_bind (f_params fn) vs []) as [vars|] eqn:B; [|discriminate]. inv H.
    destruct (evals_rel _ _ _ ER H0 _ V) as (vs' & A & FF).
    destruct (bind_rel _ _ _ _ [] _ FF ltac:(constructor) B) as (l2 & A2 & F2).
    apply negb_true_iff in DI. rewrite (callee_false _ _ F) in DI.
    pose proof (func_tidy _ _ F) as G. unfold tidy_func in G. rewrite DI in G.
    eapply simulated_one; [cbn; rewrite F, A, DI, A2; reflexivity|].
    destruct (plain_tidy _ G false false). apply R_main; auto.
  - destruct (s_eval env d) as [v|] eqn:V; [|discriminate].
    destruct (nearest a W) as [[[[c h] henv] W2]|] eqn:NR; [|discriminate].
    destruct (nearest_spec _ _ _ _ _ _ NR) as [-> I]. exfalso. eapply MR_no_handle; [exact D|].
    exists h, henv. apply in_or_app. right. now left.
  - inv H. eapply simulated_one; [reflexivity|]. eapply enter_sim; eauto.
    + now apply CR_ident.
    + intros r a [].
    + intros r a [].
    + intros r a [].
    + eapply inv_main; eauto.
Qed.

(** Code in continuation-passing style. *)
Lemma comp_sim n t dom e env env' evp evc k W N O s' :
  envR env env' -> tidy t e -> CR W k N O -> TI t env env' W k N O -> evok evp O -> evok evc O ->
  covered O (env_in_use env ++ used W) -> propagates dom = true -> inv_n n N ->
  (forall body h, e = EHandle body h -> forall a, In a (abilities h) -> ~ In a (env_in_use env ++ used W)) ->
  sstep P (SEval e env W) = Some s' -> simulated s' (n, TComp dom e env' evp evc k N).
Proof.
  intros ER G C TI E1 E2 CV PR IN CALM H.
  destruct (direct P true e) eqn:DI.
  { eapply simulated_star; [apply star_one; cbn [tstep]; rewrite PR, DI; reflexivity|].
    eapply plain_sim; eauto using direct_plain. now constructor. }
  destruct (CR_shrink _ _ _ _ C) as (O1 & C1 & I1 & V1).
  inv G; cbn [sstep] in H; try (cbn in DI; discriminate).
  - inv H. destruct (direct P true e1) eqn:D1.
    + eapply simulated_one; [cbn [tstep]; rewrite PR, DI, D1; reflexivity|].
      eapply R_plain; eauto using direct_plain. eapply DR_bind; eauto.
    + eapply simulated_one; [cbn [tstep]; rewrite PR, DI, D1; reflexivity|].
      eapply R_comp with (t := false); eauto. { eapply CR_bind; eauto. } { constructor. }
      intros r a I J. apply in_or_app. right. apply (CV r a I J).
  - destruct (s_eval env d) as [[z|]|] eqn:V; try discriminate. inv H.
    destruct (eval_rel _ _ _ ER H0 _ V) as (v' & A & B). inv B.
    eapply simulated_one; [cbn [tstep]; rewrite PR, DI, A; reflexivity|].
    destruct (Z.eq_dec z 0) as [->|NZ]; [|apply Z.eqb_neq in NZ; rewrite NZ]; eapply R_comp with (O := O); eauto.
  - destruct (nth_error (p_funcs P) f) as [fn|] eqn:F; [|discriminate].
    destruct (s_evals env ds) as [vs|] eqn:V; [|discriminate].
    destruct (s_bind (f_params fn) vs []) as [vars|] eqn:B; [|discriminate]. inv H.
    destruct (evals_rel _ _ _ ER H0 _ V) as (vs' & A & FF).
    destruct (bind_rel _ _ _ _ [] _ FF ltac:(constructor) B) as (l2 & A2 & F2).
    cbn in DI. apply negb_false_iff in DI. pose proof DI as DI2. rewrite (callee_false _ _ F) in DI.
    pose proof (func_tidy _ _ F) as G. unfold tidy_func in G. rewrite DI in G.
    eapply simulated_one; [cbn [tstep direct]; rewrite DI2, F, A, A2; reflexivity|].
    eapply R_comp with (t := false); eauto using evok_incl. constructor.
  - destruct (s_get (s_vars env) x) as [[|xs body [vars r]]|] eqn:VX; try discriminate.
    destruct (s_evals env ds) as [vs|] eqn:V; [|discriminate].
    destruct (s_bind xs vs vars) as [vars'|] eqn:B; [|discriminate]. inv H.
    destruct (evals_rel _ _ _ ER H0 _ V) as (vs' & A & FF).
    pose proof (get_rel _ _ x ER) as GX. rewrite VX in GX. destruct GX as (w & GX & VR). inv VR.
    destruct env'0 as [tvars tr to].
    destruct (bind_rel _ _ _ _ _ _ FF H5 B) as (l2 & A2 & F2). cbn [t_vars] in A2.
    eapply simulated_one; [cbn [tstep direct]; rewrite GX, A, A2; reflexivity|].
    eapply R_comp with (t := false); eauto using evok_incl. { constructor. }
    intros r1 a I J. apply in_or_app. right. eauto.
  - destruct (s_eval env d) as [v|] eqn:V; [|discriminate].
    destruct (nearest a W) as [[[[c h] henv] W2]|] eqn:NR; [|discriminate].
    destruct (the_arm KOp a o (h_arms h)) as [[x body]|] eqn:AR; [|discriminate]. inv H.
    destruct (eval_rel _ _ _ ER H0 _ V) as (v' & A & B).
    destruct (nearest_spec _ _ _ _ _ _ NR) as [EW I].
    destruct (CR_split _ _ _ _ C1 _ _ _ _ EW) as (o2 & env2 & evp2 & evx2 & dom2 & k2 & M & N2 & O2 & -> & FB & C2 & EV2 & I2 & IR & RE & GH).
    destruct (the_arm_op _ _ _ _ _ (tidy_h_arms _ GH) AR) as (A1 & G & _).
    assert (L : ev_lookup evp a = Some (MkMarker o2 h env2)) by (apply E1; [apply I1; exact IR|exact I]).
    eapply simulated_one. { cbn [tstep direct]. rewrite A, L. cbn [m_handler m_owner m_env]. rewrite A1. reflexivity. }
    assert (EW2 : (c ++ [FHandle h henv]) ++ W2 = W) by now rewrite <- app_assoc.
    eapply R_comp with (t := true) (O := O1); eauto using evok_incl.
    + constructor; [split; [reflexivity|exact B]|exact RE].
    + eapply CR_escape; eauto.
    + econstructor; try reflexivity; [rewrite EW2; exact C1|apply incl_refl|].
      exists h, henv. rewrite EW2, EW. apply in_or_app. right. now left.
    + cbn. unfold used. rewrite <- flat_map_app, EW2. exact V1.
  - inv H. eapply simulated_one; [cbn [tstep]; rewrite PR, DI; reflexivity|]. eapply enter_sim with (O := O); eauto.
  - destruct (s_eval env d) as [v|] eqn:V; [|discriminate].
    destruct (eval_rel _ _ _ ER H0 _ V) as (v' & A & B). inv TI. rewrite H1 in H. inv H.
    eapply simulated_one; [cbn [tstep direct]; rewrite A, H2, H3; reflexivity|].
    eapply R_invoke with (O := O0); eauto using evok_incl.
    apply (proj1 push_transparent); auto. now exists o, evc.
Qed.

Lemma return_sim n v v' k ev W N O s' :
  vrel v v' -> CR W k N O -> evok ev O -> inv_n n N -> sstep P (SReturn v W) = Some s' ->
  simulated s' (n, TInvoke k v' ev N).
Proof.
  intros VR C0 E0 IN0 H. destruct (settle _ _ _ _ C0 n v' ev E0 IN0) as (k' & ev' & N' & O' & ST & C & E & IN & NE).
  eapply simulated_star; [exact ST|]. clear C0 E0 IN0 ST. inv C.
  - inv H. eapply simulated_one; [reflexivity|]. eapply R_comp; eauto; [now apply set_rel| |now rewrite set_in_use].
    match goal with X : TI _ _ _ _ _ _ _ |- _ => inv X; econstructor; eauto end.
  - eapply simulated_star; [apply star_one; reflexivity|]. eapply simulated_star; [apply pass_normal; assumption|].
    cbn in H. assert (IN1 : inv_n n N0). { apply (inv_suffix n (T ++ [NHandle o h env' evp evx dom k0])). rewrite <- app_assoc. exact IN. }
    inv H5; cbn in H.
    + inv H. eapply simulated_one; [reflexivity|]. eapply R_invoke; eauto.
    + inv H. eapply simulated_one; [reflexivity|]. eapply R_comp with (t := false); eauto; [now apply set_rel|constructor|now rewrite set_in_use].
  - exfalso. eapply NE. reflexivity.
  - destruct H0 as [|x e env env' evp evc W1 N1 G1 G2 G3 G4]; [discriminate|]. inv H.
    eapply simulated_star; [apply star_one; reflexivity|]. eapply simulated_one; [reflexivity|]. apply R_main; auto. now apply set_rel.
Qed.

Lemma answer_sim n v v' W N O s' :
  vrel v v' -> DR W N O -> inv_n n N -> sstep P (SReturn v W) = Some s' -> simulated s' (n, TAnswer (AVal v') N).
Proof.
  intros VR D IN H. inv D.
  - inv H. eapply simulated_one; [reflexivity|]. eapply R_plain; eauto; now apply set_rel.
  - inv H. eapply simulated_one; [reflexivity|]. eapply R_comp; eauto; [now apply set_rel| |now rewrite set_in_use].
    match goal with X : TI _ _ _ _ _ _ _ |- _ => inv X; econstructor; eauto end.
  - eapply simulated_star; [apply star_one; reflexivity|]. eapply return_sim; eauto.
  - inv H. eapply simulated_star; [apply star_one; reflexivity|]. eapply simulated_one; [reflexivity|].
    eapply R_answer; eauto.
Qed.

Lemma calm_disjoint e env W : calm_now (SEval e env W) = true ->
  forall body h, e = EHandle body h -> forall a, In a (abilities h) -> ~ In a (env_in_use env ++ used W).
Proof.
  intros C body h -> a I J. cbn in C. rewrite forallb_forall in C. specialize (C a I). apply negb_true_iff in C.
  assert (X : existsb (Nat.eqb a) (env_in_use env ++ flat_map in_use W) = true).
  { apply existsb_exists. exists a. split; [exact J|apply Nat.eqb_refl]. }
  congruence.
Qed.

Theorem step_sim s t s' : R s t -> calm_now s = true -> sstep P s = Some s' -> simulated s' t.
Proof.
  intros HR C H. destruct HR.
  - eapply main_sim; eauto using calm_disjoint.
  - eapply plain_sim; eauto.
  - eapply comp_sim; eauto using calm_disjoint.
  - eapply return_sim; eauto.
  - destruct H1 as [|x e env env' evp evc W N G1 G2 G3 G4]; [discriminate|]. inv H.
    eapply simulated_one; [reflexivity|]. apply R_main; auto. now apply set_rel.
  - eapply answer_sim; eauto.
Qed.

Lemma invoke_done n v v' k ev N O : vrel v v' -> CR [] k N O -> evok ev O -> inv_n n N ->
  star (n, TInvoke k v' ev N) (n, TAnswer (AVal v') []).
Proof.
  intros VR C0 E0 IN0. destruct (settle _ _ _ _ C0 n v' ev E0 IN0) as (k' & ev' & N' & O' & ST & C & E & IN & NE).
  eapply star_trans; [exact ST|]. inv C.
  - exfalso. eapply NE. reflexivity.
  - inv H. apply star_one. reflexivity.
Qed.

Theorem done_sim v t : R (SReturn v []) t -> exists n v', star t (n, TAnswer (AVal v') []) /\ vrel v v'.
Proof.
  intros HR. inv HR.
  - exists n, v'. split; [|assumption]. eapply invoke_done; eauto.
  - match goal with X : MR [] _ |- _ => inv X end. exists n, v'. split; [apply star_refl|assumption].
  - match goal with X : DR [] _ _ |- _ => inv X end. exists n, v'. split; [|assumption]. eapply star_trans; [apply star_one; reflexivity|].
    eapply invoke_done; eauto.
Qed.

(** ** Whole runs *)

Hypothesis main_tidy : tidy false (p_main P).

Lemma start_sim : R (sstart P) (tstart P).
Proof.
  unfold sstart, tstart. destruct (direct P false (p_main P)) eqn:D.
  - apply R_main; auto; constructor.
  - apply R_comp with (t := false) (O := []); auto.
    + constructor.
    + apply CR_ident. constructor.
    + constructor.
    + intros r a [].
    + intros r a [].
    + intros r a [].
    + split; constructor.
Qed.

Lemma srun_last n : forall s s', srun P (S n) s = Some s' -> exists s1, srun P n s = Some s1 /\ sstep P s1 = Some s'.
Proof.
  induction n; intros s s' H.
  - cbn in H. destruct (sstep P s) eqn:E; [|discriminate]. exists s. cbn. now inv H.
  - cbn in H. destruct (sstep P s) as [s2|] eqn:E; [|discriminate].
    destruct (IHn s2 s') as (s1 & A & B). { exact H. } exists s1. cbn. now rewrite E.
Qed.

Lemma run_sim n : calm P -> forall s, srun P n (sstart P) = Some s ->
  exists m t, n <= m /\ trun P checked m (tstart P) = Some t /\ R s t.
Proof.
  intros C. induction n; intros s H.
  - inv H. exists 0, (tstart P). split; [lia|]. split; [reflexivity|apply start_sim].
  - destruct (srun_last _ _ _ H) as (s1 & A & B). destruct (IHn _ A) as (m & t & L & T & HR).
    destruct (step_sim _ _ _ HR (C _ _ A) B) as (t' & [j J] & HR').
    exists (m + S j), t'. split; [lia|]. split; [|exact HR']. now rewrite (trun_app m (S j) _ _ T).
Qed.

Lemma trun_final m : forall n s c v, trun P checked m s = Some (c, TAnswer (AVal v) []) -> trun P checked n s <> None -> n <= m.
Proof.
  induction m; intros n s c v H NN.
  - inv H. destruct n; [lia|]. cbn in NN. congruence.
  - destruct n; [lia|]. cbn in *. destruct (tstep P checked (fst s) (snd s)) as [s1|]; [|discriminate].
    specialize (IHm n _ _ _ H NN). lia.
Qed.

Lemma trun_prefix m : forall n s, n <= m -> trun P checked m s <> None -> trun P checked n s <> None.
Proof.
  induction m; intros n s L H; [now replace n with 0 by lia|]. destruct n; [discriminate|]. cbn in *.
  destruct (tstep P checked (fst s) (snd s)); [|assumption]. apply IHm; [lia|assumption].
Qed.

Lemma trun_unique m : forall n s c v c' v', trun P checked m s = Some (c, TAnswer (AVal v) []) ->
  trun P checked n s = Some (c', TAnswer (AVal v') []) -> v = v'.
Proof.
  induction m; intros n s c v c' v' A B.
  - inv A. destruct n; cbn in B; [now inv B|discriminate].
  - cbn in A. destruct n.
    + inv B. cbn in A. discriminate.
    + cbn in B. destruct (tstep P checked (fst s) (snd s)); [|discriminate]. eauto.
Qed.

Lemma gives_compiled z : calm P -> gives P z -> exists m c, trun P checked m (tstart P) = Some (c, TAnswer (AVal (TInt z)) []).
Proof.
  intros C [n H]. destruct (run_sim n C _ H) as (m & t & _ & T & HR).
  destruct (done_sim _ _ HR) as (c & v' & [j J] & V). inv V. exists (m + j), c. now rewrite (trun_app m j _ _ T).
Qed.

Lemma forever_compiled : calm P -> runs_forever P -> forall n, trun P checked n (tstart P) <> None.
Proof.
  intros C H n. destruct (srun P n (sstart P)) as [s|] eqn:E; [|now destruct (H n)].
  destruct (run_sim n C _ E) as (m & t & L & T & _). apply (trun_prefix m); [exact L|congruence].
Qed.

Lemma srun_stop n : forall s, srun P n s = None -> exists j s', srun P j s = Some s' /\ sstep P s' = None.
Proof.
  induction n; intros s H; [discriminate|]. cbn in H. destruct (sstep P s) as [s1|] eqn:E.
  - destruct (IHn _ H) as (j & s' & A & B). exists (S j), s'. cbn. now rewrite E.
  - exists 0, s. now split.
Qed.

Lemma compiled_gives_back z m c : calm P -> (forall n s, srun P n (sstart P) = Some s -> sstep P s = None -> exists z', s = SReturn (SInt z') []) ->
  trun P checked m (tstart P) = Some (c, TAnswer (AVal (TInt z)) []) -> gives P z.
Proof.
  intros C SAFE T. destruct (srun P (S m) (sstart P)) as [s|] eqn:E.
  - destruct (run_sim _ C _ E) as (j & t & L & T2 & _).
    assert (j <= m) by (eapply trun_final; [exact T|rewrite T2; discriminate]). lia.
  - destruct (srun_stop _ _ E) as (j & s & A & B). destruct (SAFE _ _ A B) as (z' & ->).
    assert (G : gives P z') by now exists j. destruct (gives_compiled z' C G) as (m2 & c2 & T2).
    pose proof (trun_unique _ _ _ _ _ _ _ T T2) as X. inv X. exact G.
Qed.

End Sim.
