(** Lemmas: one turn of the first pass keeps what programs do. *)
From Verif Require Export ClosPair.
From Coq Require Import Lia.
Local Open Scope list_scope.

Definition lam_ev (c : option conv) (ev : option nat) (ps : list nat) : option nat :=
  match c with
  | None => ev
  | Some c => if takes_evidence c then match ps with p :: _ => Some p | [] => None end else None
  end.
Definition hid (c : option conv) : nat := match c with Some c => hidden_args c | None => 0 end.
Definition olist (o : option nat) : list nat := match o with Some e => [e] | None => [] end.

(** ** Renamings *)

Lemma lookup_app_out l m v : ~ In v (map fst l) -> lookup (l ++ m) v = lookup m v.
Proof.
  induction l as [|[a b] l IH]; cbn; intros H; [reflexivity|].
  destruct (a =? v) eqn:E; [apply Nat.eqb_eq in E; exfalso; apply H; now left|]. apply IH. intros Hi. apply H. now right.
Qed.
Lemma lookup_app_in l m v : In v (map fst l) -> In (v, lookup (l ++ m) v) l.
Proof.
  induction l as [|[a b] l IH]; cbn; intros H; [destruct H|].
  destruct (a =? v) eqn:E; [apply Nat.eqb_eq in E; subst; now left|].
  apply Nat.eqb_neq in E. destruct H as [H|H]; [contradiction|]. right. now apply IH.
Qed.

Lemma in_combine_nth {A B : Type} (xs : list A) : forall (ys : list B) a b, In (a, b) (combine xs ys) ->
  exists j, nth_error xs j = Some a /\ nth_error ys j = Some b.
Proof.
  induction xs as [|x xs IH]; intros ys a b H; [destruct H|]. destruct ys as [|y ys]; [destruct H|].
  cbn in H. destruct H as [H|H].
  - injection H as -> ->. now exists 0.
  - destruct (IH _ _ _ H) as (j & H1 & H2). now exists (S j).
Qed.
Lemma map_fst_combine {A B : Type} (xs : list A) : forall (ys : list B), List.length xs = List.length ys -> map fst (combine xs ys) = xs.
Proof.
  induction xs as [|x xs IH]; intros [|y ys] H; cbn in *; try discriminate; [reflexivity|]. now rewrite IH by lia.
Qed.

Lemma lookup_pairs_out xs ys m v : List.length xs = List.length ys -> ~ In v xs ->
  lookup (map_values (combine xs ys) m) v = lookup m v.
Proof.
  intros Hl Hv. unfold map_values. apply lookup_app_out. rewrite map_rev, <- in_rev, map_fst_combine by assumption. assumption.
Qed.
Lemma lookup_pairs_in xs ys m v : List.length xs = List.length ys -> In v xs ->
  exists j, nth_error xs j = Some v /\ nth_error ys j = Some (lookup (map_values (combine xs ys) m) v).
Proof.
  intros Hl Hv. unfold map_values. apply in_combine_nth.
  rewrite in_rev. apply lookup_app_in. rewrite map_rev, <- in_rev, map_fst_combine by assumption. assumption.
Qed.

Lemma map_lookup_nil l : map (lookup []) l = l.
Proof. induction l; cbn in *; congruence. Qed.
Lemma rename_nil i : rename [] i = i.
Proof. destruct i; cbn; rewrite ?map_lookup_nil; reflexivity. Qed.

Lemma nth_error_seq n len j : j < len -> nth_error (seq n len) j = Some (n + j).
Proof.
  intros H. rewrite (nth_error_nth' _ 0) by (rewrite seq_length; lia). now rewrite seq_nth by lia.
Qed.

(** ** Frames: how the names of a piece of code go over to its copy *)

Definition evr (ev ev' : option nat) (sc : list nat) (m : nat -> nat) (n : nat) : Prop :=
  match ev with
  | Some e => In e sc /\ ev' = Some (m e)
  | None => match ev' with Some a => a < n /\ ~ In a (map m sc) | None => True end
  end.
Definition frame (ev ev' : option nat) (sc : list nat) (m : nat -> nat) (n : nat) : Prop :=
  (forall v, In v sc -> m v < n) /\ (forall u v, In u sc -> In v sc -> m u = m v -> u = v) /\ evr ev ev' sc m n.

Lemma frame_weaken ev ev' sc m n n' : frame ev ev' sc m n -> n <= n' -> frame ev ev' sc m n'.
Proof.
  intros (H1 & H2 & H3) Hn. repeat split; [intros v Hv; specialize (H1 v Hv); lia|assumption|].
  unfold evr in *. destruct ev; [assumption|]. destruct ev'; [|exact I]. destruct H3. split; [lia|assumption].
Qed.

Lemma frame_sub ev ev' ev1 ev1' sc sc1 m n : frame ev ev' sc m n -> incl sc1 sc -> evr ev1 ev1' sc1 m n -> frame ev1 ev1' sc1 m n.
Proof. intros (H1 & H2 & H3) Hi He. repeat split; auto. Qed.

Lemma lookup_same r n m : lookup ((r, n) :: m) r = n.
Proof. cbn. now rewrite Nat.eqb_refl. Qed.
Lemma lookup_diff r n m v : v <> r -> lookup ((r, n) :: m) v = lookup m v.
Proof. intros H. cbn. rewrite (proj2 (Nat.eqb_neq r v)); [reflexivity|congruence]. Qed.
Lemma map_lookup_diff r n m l : ~ In r l -> map (lookup ((r, n) :: m)) l = map (lookup m) l.
Proof. intros H. apply map_ext_in. intros a Ha. apply lookup_diff. intros ->. contradiction. Qed.

Lemma frame_extend ev ev' sc m n r : frame ev ev' sc (lookup m) n -> ~ In r sc ->
  frame ev ev' (r :: sc) (lookup ((r, n) :: m)) (S n).
Proof.
  intros (H1 & H2 & H3) Hr.
  assert (D : forall v, In v sc -> lookup ((r, n) :: m) v = lookup m v) by (intros v Hv; apply lookup_diff; intros ->; contradiction).
  repeat split.
  - intros v [<-|Hv]; [rewrite lookup_same; lia|]. rewrite D by assumption. specialize (H1 v Hv). lia.
  - intros u v [<-|Hu] [<-|Hv] E; auto.
    + rewrite lookup_same, D in E by assumption. specialize (H1 v Hv). lia.
    + rewrite lookup_same, D in E by assumption. specialize (H1 u Hu). lia.
    + rewrite !D in E by assumption. auto.
  - unfold evr in *. destruct ev as [e|].
    + destruct H3 as [H3 ->]. split; [now right|]. now rewrite D.
    + destruct ev' as [a|]; [|exact I]. destruct H3 as [H3 H4]. split; [lia|]. cbn [map In].
      rewrite lookup_same. rewrite map_lookup_diff by assumption. intros [E|E]; [lia|contradiction].
Qed.

  Lemma inherited_none c caps ev : c <> None -> inherited c caps ev = None.
  Proof. destruct c; [reflexivity|congruence]. Qed.

  Lemma clone_grows c : forall m n, n <= snd (clone m n c).
  Proof.
    induction c as [v|i r k IH|x t IHt e IHe r k IHk|cv caps ps b IHb r k IHk]; intros m n; cbn [clone]; [cbn; lia| | |].
    - specialize (IH ((r, n) :: m) (S n)). destruct (clone _ (S n) k). cbn in *. lia.
    - specialize (IHt m n). destruct (clone m n t) as [t' n1]. specialize (IHe m n1). destruct (clone m n1 e) as [e' n2].
      specialize (IHk ((r, n2) :: m) (S n2)). destruct (clone _ (S n2) k). cbn in *. lia.
    - cbv zeta. specialize (IHb (map_values (combine ps (seq n (List.length ps))) m) (n + List.length ps)).
      destruct (clone _ (n + List.length ps) b) as [b' n1]. specialize (IHk ((r, n1) :: m) (S n1)).
      destruct (clone _ (S n1) k). cbn in *. lia.
  Qed.

  Lemma existsb_mem x l : existsb (Nat.eqb x) l = true <-> In x l.
  Proof.
    rewrite existsb_exists. split; [intros (y & Hy & E); apply Nat.eqb_eq in E; now subst|]. intros H. exists x. split; [assumption|apply Nat.eqb_refl].
  Qed.

  (** What a lambda inherits goes over to its copy. *)
  Lemma inherited_frame c caps ev ev' sc m n : frame ev ev' sc m n -> incl caps sc ->
    let sc1 := caps ++ olist (inherited c caps ev) in
    incl sc1 sc /\ frame (inherited c caps ev) (inherited c (map m caps) ev') sc1 m n.
  Proof.
    intros Hf Hi sc1. pose proof Hf as (H1 & H2 & H3). unfold sc1, inherited.
    destruct c as [c|].
    { cbn. rewrite app_nil_r. split; [assumption|]. apply (frame_sub ev ev' _ _ sc); auto. exact I. }
    destruct ev as [e|].
    - destruct H3 as [He ->].
      destruct (existsb (Nat.eqb e) caps) eqn:Ee.
      + apply existsb_mem in Ee. cbn. rewrite app_nil_r. split; [assumption|].
        apply (frame_sub (Some e) (Some (m e)) _ _ sc); auto.
        replace (existsb (Nat.eqb (m e)) (map m caps)) with true; [exact I|]. symmetry. apply existsb_mem. now apply in_map.
      + assert (Hn : ~ In e caps) by (intros Hc; apply existsb_mem in Hc; congruence).
        assert (Hi1 : incl (caps ++ [e]) sc) by (intros v Hv; apply in_app_or in Hv as [Hv|[<-|[]]]; auto).
        cbn [olist]. split; [assumption|]. apply (frame_sub (Some e) (Some (m e)) _ _ sc); auto.
        replace (existsb (Nat.eqb (m e)) (map m caps)) with false.
        * split; [apply in_or_app; right; now left|reflexivity].
        * symmetry. apply not_true_iff_false. rewrite existsb_mem. intros Hm. apply in_map_iff in Hm as (v & Ev & Hv).
          apply Hn. rewrite <- (H2 v e); auto.
    - cbn. rewrite app_nil_r. split; [assumption|]. apply (frame_sub None ev' _ _ sc); auto.
      cbn in H3 |- *. destruct ev' as [a|]; [|exact I]. destruct H3 as [Ha Hn].
      destruct (existsb (Nat.eqb a) (map m caps)); [exact I|]. split; [assumption|].
      intros Hc. apply Hn. apply in_map_iff in Hc as (v & Ev & Hv). apply in_map_iff. exists v. auto.
  Qed.

(** ** The relation between values *)

Section Turn.
  Variable W : Type.
  Variable prim : nat -> list Z -> W -> option (Z * W).
  Variable P P' : cmodule.

  Inductive lv : value -> value -> Prop :=
  | lv_int z : lv (VInt z) (VInt z)
  | lv_null : lv VNull VNull
  | lv_data k vs vs' : Forall2 lv vs vs' -> lv (VData k vs) (VData k vs')
  | lv_fun f : lv (VFun f) (VFun f)
  | lv_new f c e e' : lv e e' -> lv (VNew f c e) (VNew f c e')
  | lv_keep c ev ev' rho rho' ps m sc n b :
      NoDup ps -> (forall p, In p ps -> ~ In p sc) -> frame ev ev' sc (lookup m) n -> hid c <= List.length ps ->
      scoped (lam_ev c ev ps) (ps ++ sc) b ->
      (forall v, In v sc -> rho v <> None) ->
      (forall v x, In v sc -> rho v = Some x -> exists x', rho' (lookup m v) = Some x' /\ lv x x') ->
      lv (VLam c ev rho ps b)
         (VLam c ev' rho' (seq n (List.length ps))
            (fst (clone (map_values (combine ps (seq n (List.length ps))) m) (n + List.length ps) b)))
  | lv_lift c ev ev0 rho caps ps n b name env' vs vs' :
      find_func P' name = Some (fst (build_lifted name c ev0 caps ps b n)) ->
      ev = inherited c caps ev0 -> NoDup ps -> (forall p, In p ps -> ~ In p (caps ++ olist ev)) ->
      hid c <= List.length ps ->
      scoped (lam_ev c ev ps) (ps ++ caps ++ olist ev) b ->
      env' = match caps with [] => VNull | _ => VData KEnv vs' end -> values rho caps = Some vs -> Forall2 lv vs vs' ->
      lv (VLam c ev rho ps b) (VNew name c env').

  Lemma lv_ints vs vs' zs : Forall2 lv vs vs' -> ints vs = Some zs -> ints vs' = Some zs.
  Proof.
    intros H. revert zs. induction H as [|v v' vs vs' Hv Hr IH]; intros zs Hz; [exact Hz|].
    cbn in Hz. destruct v; try discriminate. inversion Hv; subst. cbn.
    destruct (ints vs) as [l|]; [|discriminate]. now rewrite (IH l).
  Qed.

  Fixpoint lv_see (v v' : value) (H : lv v v') {struct H} : see v = see v'.
  Proof.
    destruct H; try reflexivity. cbn.
    assert (E : map see vs = map see vs').
    { clear k. induction H as [|a b l l' Hab Hl IH]; cbn; [reflexivity|]. rewrite (lv_see _ _ Hab), IH. reflexivity. }
    now rewrite E.
  Qed.

  Definition er (sc : list nat) (m : nat -> nat) (rho rho' : env) : Prop :=
    (forall v, In v sc -> rho v <> None) /\ erel lv sc m rho rho'.

  Lemma er_sub sc sc1 m rho rho' : er sc m rho rho' -> incl sc1 sc -> er sc1 m rho rho'.
  Proof. intros [H1 H2] Hi. split; [auto|]. intros v x Hv. apply H2. auto. Qed.

  Lemma er_values sc m rho rho' xs : er sc m rho rho' -> incl xs sc ->
    exists vs vs', values rho xs = Some vs /\ values rho' (map m xs) = Some vs' /\ Forall2 lv vs vs'.
  Proof.
    intros [H1 H2] Hi. induction xs as [|x xs IH]; cbn; [exists [], []; auto|].
    destruct IH as (vs & vs' & E1 & E2 & Hv); [intros y Hy; apply Hi; now right|].
    destruct (rho x) as [a|] eqn:Ea; [|exfalso; apply (H1 x); [apply Hi; now left|assumption]].
    destruct (H2 x a) as (a' & Ha & Ra); [apply Hi; now left|assumption|].
    rewrite E1, E2, Ha. exists (a :: vs), (a' :: vs'). auto.
  Qed.

  Lemma er_get sc m rho rho' x : er sc m rho rho' -> In x sc -> exists a a', rho x = Some a /\ rho' (m x) = Some a' /\ lv a a'.
  Proof.
    intros [H1 H2] Hx. destruct (rho x) as [a|] eqn:Ea; [|exfalso; now apply (H1 x)].
    destruct (H2 x a Hx Ea) as (a' & Ha & Ra). eauto.
  Qed.

  Lemma er_extend sc m n r rho rho' y y' : er sc (lookup m) rho rho' -> ~ In r sc -> (forall v, In v sc -> lookup m v < n) -> lv y y' ->
    er (r :: sc) (lookup ((r, n) :: m)) (upd rho r y) (upd rho' n y').
  Proof.
    intros [H1 H2] Hr Hlt Ry.
    assert (D : forall v, In v sc -> v <> r) by (intros v Hv ->; contradiction).
    split.
    - intros v [<-|Hv]; [rewrite upd_same; discriminate|]. rewrite upd_other by auto. auto.
    - intros v x [<-|Hv] Hx.
      + rewrite upd_same in Hx. injection Hx as <-. rewrite lookup_same, upd_same. eauto.
      + rewrite upd_other in Hx by auto. rewrite lookup_diff by auto.
        destruct (H2 v x Hv Hx) as (x' & Hx' & Rx). exists x'. split; [|assumption].
        rewrite upd_other; [assumption|]. specialize (Hlt v Hv). lia.
  Qed.

  (** ** Calls of smaller depth are related *)

  Definition calls fuel : Prop :=
    (forall f vs vs' w, Forall2 lv vs vs' ->
      orel lv (call_func W P (enter W prim P fuel) f vs w) (call_func W P' (enter W prim P' fuel) f vs' w))
    /\ (forall cur cur' cc g g' vs vs' w, lv cur cur' -> lv g g' -> Forall2 lv vs vs' ->
      orel lv (call_closure W P (enter W prim P fuel) cur cc g vs w) (call_closure W P' (enter W prim P' fuel) cur' cc g' vs' w)).

  Lemma step_rel fuel i cur cur' sc m rho rho' w : calls fuel -> lv cur cur' -> er sc (lookup m) rho rho' -> incl (reads i) sc ->
    orel lv (step W prim P (enter W prim P fuel) cur i rho w)
            (step W prim P' (enter W prim P' fuel) cur' (rename m i) rho' w).
  Proof.
    intros [HC1 HC2] Hcur He Hi. destruct i; cbn in Hi |- *.
    - destruct (er_values _ _ _ _ _ He Hi) as (vs & vs' & -> & -> & Rv).
      destruct (ints vs) as [zs|] eqn:Ez; [|exact I]. rewrite (lv_ints _ _ _ Rv Ez).
      destruct (prim k zs w) as [[z w']|]; cbn; [|exact I]. eexists; split; [reflexivity|constructor].
    - destruct (er_values _ _ _ _ _ He Hi) as (vs & vs' & -> & -> & Rv). cbn. eexists; split; [reflexivity|now constructor].
    - destruct (er_get _ _ _ _ x He) as (a & a' & -> & -> & Ra); [apply Hi; now left|].
      destruct a; try exact I. inversion Ra; subst.
      destruct (nth_error fields i) as [y|] eqn:Ey; [|exact I].
      destruct (forall2_nth _ _ _ _ _ H2 Ey) as (y' & -> & Ry). cbn. eauto.
    - destruct (er_get _ _ _ _ x He) as (a & a' & -> & -> & Ra); [apply Hi; now left|]. cbn. eauto.
    - eexists; split; [reflexivity|constructor].
    - destruct (er_values _ _ _ _ _ He Hi) as (vs & vs' & -> & -> & Rv). now apply HC1.
    - destruct (er_get _ _ _ _ x He) as (a & a' & -> & -> & Ra); [apply Hi; now left|].
      destruct (er_values _ _ _ _ args He) as (vs & vs' & -> & -> & Rv); [intros y Hy; apply Hi; now right|].
      now apply HC2.
    - destruct (er_get _ _ _ _ env He) as (a & a' & -> & -> & Ra); [apply Hi; now left|].
      cbn. eexists; split; [reflexivity|now constructor].
    - eexists; split; [reflexivity|constructor].
    - destruct (er_get _ _ _ _ x He) as (a & a' & -> & -> & Ra); [apply Hi; now left|].
      destruct (er_values _ _ _ _ args He) as (vs & vs' & -> & -> & Rv); [intros y Hy; apply Hi; now right|].
      destruct a; try exact I. inversion Ra; subst. now apply HC1.
  Qed.

  Lemma clone_exec fuel : calls fuel -> forall c ev ev' cur cur' sc m rho rho' n w,
    lv cur cur' -> scoped ev sc c -> frame ev ev' sc (lookup m) n -> er sc (lookup m) rho rho' ->
    orel lv (exec W prim P (enter W prim P fuel) ev cur rho c w)
            (exec W prim P' (enter W prim P' fuel) ev' cur' rho' (fst (clone m n c)) w).
  Proof.
    intros HC c.
    induction c as [v|i r k IH|x t IHt e IHe r k IHk|cv caps ps b IHb r k IHk];
      intros ev ev' cur cur' sc m rho rho' n w Hcur Hs Hf He; cbn [clone].
    - cbn. destruct (er_get _ _ _ _ v He Hs) as (a & a' & -> & -> & Ra). cbn. eauto.
    - destruct Hs as (Hi & _ & Hr & Hs).
      pose proof (step_rel fuel i cur cur' sc m rho rho' w HC Hcur He Hi) as Hst.
      pose proof (frame_extend _ _ _ _ _ _ Hf Hr) as Hf1.
      assert (Hk : forall y y' w', lv y y' -> orel lv (exec W prim P (enter W prim P fuel) ev cur (upd rho r y) k w')
        (exec W prim P' (enter W prim P' fuel) ev' cur' (upd rho' n y') (fst (clone ((r, n) :: m) (S n) k)) w')).
      { intros y y' w' Ry. apply (IH ev ev' cur cur' (r :: sc)); auto. apply er_extend; auto. apply Hf. }
      destruct (clone ((r, n) :: m) (S n) k) as [k' n1]. cbn [fst exec] in *.
      destruct (step W prim P (enter W prim P fuel) cur i rho w) as [y w'| |]; cbn in Hst.
      + destruct Hst as (y' & -> & Ry). now apply Hk.
      + exact I.
      + now rewrite Hst.
    - destruct Hs as (Hx & Ht & He0 & Hr & Hk).
      pose proof (clone_grows t m n) as G1.
      specialize (IHt ev ev' cur cur' sc m rho rho' n w Hcur Ht Hf He).
      destruct (clone m n t) as [t' n1]. cbn [snd fst] in *.
      pose proof (frame_weaken _ _ _ _ _ n1 Hf G1) as Hf1.
      pose proof (clone_grows e m n1) as G2.
      specialize (IHe ev ev' cur cur' sc m rho rho' n1 w Hcur He0 Hf1 He).
      destruct (clone m n1 e) as [e' n2]. cbn [snd fst] in *.
      pose proof (frame_weaken _ _ _ _ _ n2 Hf1 G2) as Hf2.
      assert (Hk' : forall y y' w', lv y y' -> orel lv (exec W prim P (enter W prim P fuel) ev cur (upd rho r y) k w')
        (exec W prim P' (enter W prim P' fuel) ev' cur' (upd rho' n2 y') (fst (clone ((r, n2) :: m) (S n2) k)) w')).
      { intros y y' w' Ry. apply (IHk ev ev' cur cur' (r :: sc)); auto; [now apply frame_extend|]. apply er_extend; auto. apply Hf2. }
      destruct (clone ((r, n2) :: m) (S n2) k) as [k' n3]. cbn [fst exec] in *.
      destruct (er_get _ _ _ _ x He Hx) as (a & a' & -> & -> & Ra).
      destruct a; try exact I. inversion Ra; subst.
      destruct (Z.eqb z 0).
      + destruct (exec W prim P (enter W prim P fuel) ev cur rho e w) as [y w'| |]; cbn in IHe.
        * destruct IHe as (y' & -> & Ry). now apply Hk'.
        * exact I.
        * now rewrite IHe.
      + destruct (exec W prim P (enter W prim P fuel) ev cur rho t w) as [y w'| |]; cbn in IHt.
        * destruct IHt as (y' & -> & Ry). now apply Hk'.
        * exact I.
        * now rewrite IHt.
    - destruct Hs as (Hi & Hnd & Hd & Hh & Hb & Hr & Hk). cbv zeta.
      set (ps' := seq n (List.length ps)) in *.
      destruct (inherited_frame cv caps ev ev' sc (lookup m) n Hf Hi) as [Hi1 Hf1].
      assert (Rl : lv (VLam cv (inherited cv caps ev) rho ps b)
        (VLam cv (inherited cv (map (lookup m) caps) ev') rho' ps' (fst (clone (map_values (combine ps ps') m) (n + List.length ps) b)))).
      { apply (lv_keep _ _ _ _ _ _ _ (caps ++ olist (inherited cv caps ev))); auto.
        - intros p Hp Hq. apply (Hd p Hp). auto.
        - destruct cv; [exact Hh|cbn; lia].
        - destruct He as [E1 E2]. auto.
        - destruct He as [E1 E2]. intros v y Hv Hy. apply E2; auto. }
      pose proof (clone_grows b (map_values (combine ps ps') m) (n + List.length ps)) as G.
      destruct (clone (map_values (combine ps ps') m) (n + List.length ps) b) as [b' n1]. cbn [fst snd] in *.
      assert (Hf2 : frame ev ev' sc (lookup m) n1) by (apply (frame_weaken _ _ _ _ _ _ Hf); lia).
      specialize (IHk ev ev' cur cur' (r :: sc) ((r, n1) :: m) (upd rho r (VLam cv (inherited cv caps ev) rho ps b))
         (upd rho' n1 (VLam cv (inherited cv (map (lookup m) caps) ev') rho' ps' b')) (S n1) w Hcur Hk
         (frame_extend _ _ _ _ _ _ Hf2 Hr)).
      destruct (clone ((r, n1) :: m) (S n1) k) as [k' n2]. cbn [fst exec] in *.
      apply IHk. apply er_extend; auto. apply Hf2.
  Qed.

End Turn.

  (** ** Entering a lambda *)

  Lemma upds_lookup ps vs rho j p : NoDup ps -> List.length vs = List.length ps -> nth_error ps j = Some p ->
    exists x, nth_error vs j = Some x /\ upds rho ps vs p = Some x.
  Proof.
    intros Hn Hl Hp. assert (j < List.length vs) by (rewrite Hl; apply nth_error_Some; congruence).
    destruct (nth_error vs j) as [x|] eqn:Ex; [|apply nth_error_None in Ex; lia].
    exists x. split; [reflexivity|]. eapply upds_in; eauto.
  Qed.

  Lemma keep_frame ev ev' sc m n ps ev1 ev1' : frame ev ev' sc (lookup m) n -> NoDup ps -> (forall p, In p ps -> ~ In p sc) ->
    let ps' := seq n (List.length ps) in
    let m1 := map_values (combine ps ps') m in
    evr ev1 ev1' (ps ++ sc) (lookup m1) (n + List.length ps) ->
    frame ev1 ev1' (ps ++ sc) (lookup m1) (n + List.length ps).
  Proof.
    intros (H1 & H2 & H3) Hnd Hd ps' m1 Hev.
    assert (Hlen : List.length ps = List.length ps') by (unfold ps'; now rewrite seq_length).
    assert (In1 : forall v, In v ps -> exists j, nth_error ps j = Some v /\ j < List.length ps /\ lookup m1 v = n + j).
    { intros v Hv. destruct (lookup_pairs_in ps ps' m v Hlen Hv) as (j & Hj & Hj').
      assert (j < List.length ps) by (apply nth_error_Some; congruence).
      exists j. repeat split; auto. unfold ps' in Hj' at 1. rewrite nth_error_seq in Hj' by assumption. injection Hj' as ->. reflexivity. }
    assert (Out1 : forall v, In v sc -> lookup m1 v = lookup m v).
    { intros v Hv. apply lookup_pairs_out; auto. intros Hp. now apply (Hd v). }
    repeat split; [| |exact Hev].
    - intros v Hv. apply in_app_or in Hv as [Hv|Hv].
      + destruct (In1 v Hv) as (j & _ & Hj & ->). lia.
      + rewrite Out1 by assumption. specialize (H1 v Hv). lia.
    - intros u v Hu Hv E. apply in_app_or in Hu as [Hu|Hu]; apply in_app_or in Hv as [Hv|Hv].
      + destruct (In1 u Hu) as (i & Hi & Hi1 & Ei). destruct (In1 v Hv) as (j & Hj & Hj1 & Ej).
        assert (i = j) by lia. subst. congruence.
      + destruct (In1 u Hu) as (i & Hi & Hi1 & Ei). rewrite (Out1 v Hv) in E. specialize (H1 v Hv). lia.
      + destruct (In1 v Hv) as (i & Hi & Hi1 & Ei). rewrite (Out1 u Hu) in E. specialize (H1 u Hu). lia.
      + rewrite !Out1 in E by assumption. auto.
  Qed.
