(** Lemmas: the second pass keeps what programs do. *)
From Verif Require Export ClosSpec.
From Coq Require Import Lia.
Local Open Scope list_scope.

(** ** General lemmas *)

Lemma upd_same rho x v : upd rho x v x = Some v.
Proof. unfold upd. now rewrite Nat.eqb_refl. Qed.
Lemma upd_other rho x v y : y <> x -> upd rho x v y = rho y.
Proof. intros H. unfold upd. now rewrite (proj2 (Nat.eqb_neq y x) H). Qed.

Lemma upds_out xs : forall rho vs y, ~ In y xs -> upds rho xs vs y = rho y.
Proof.
  induction xs as [|x xs IH]; intros rho vs y Hy; [reflexivity|].
  destruct vs as [|v vs]; [reflexivity|]. cbn. rewrite IH by (intros H; apply Hy; now right).
  apply upd_other. intros ->. apply Hy. now left.
Qed.

Lemma upds_in xs : forall rho vs i x v, NoDup xs -> nth_error xs i = Some x -> nth_error vs i = Some v ->
  upds rho xs vs x = Some v.
Proof.
  induction xs as [|a xs IH]; intros rho vs i x v Hnd Hx Hv; [destruct i; discriminate|].
  destruct vs as [|b vs]; [destruct i; discriminate|].
  inversion Hnd; subst. destruct i as [|i]; cbn in *.
  - injection Hx as ->. injection Hv as ->. rewrite upds_out by assumption. apply upd_same.
  - eapply IH; eauto.
Qed.

Lemma values_length rho xs vs : values rho xs = Some vs -> List.length vs = List.length xs.
Proof.
  revert vs. induction xs as [|x xs IH]; intros vs H; cbn in H; [injection H as <-; reflexivity|].
  destruct (rho x), (values rho xs) as [l|] eqn:E; try discriminate. injection H as <-. cbn. f_equal. now apply IH.
Qed.

Section Rel.
  Variable R : value -> value -> Prop.
  Definition orel {W} (o o' : outcome W) : Prop :=
    match o with
    | Done v w => exists v', o' = Done v' w /\ R v v'
    | Wrong => True
    | Timeout => o' = Timeout
    end.
  (** Variables of [sc], renamed by [m]. *)
  Definition erel (sc : list nat) (m : nat -> nat) (rho rho' : env) : Prop :=
    forall v x, In v sc -> rho v = Some x -> exists x', rho' (m v) = Some x' /\ R x x'.

  Lemma erel_values sc m rho rho' xs vs : erel sc m rho rho' -> incl xs sc -> values rho xs = Some vs ->
    exists vs', values rho' (map m xs) = Some vs' /\ Forall2 R vs vs'.
  Proof.
    intros He. revert vs. induction xs as [|x xs IH]; intros vs Hi H; cbn in *.
    - injection H as <-. exists []. auto.
    - destruct (rho x) as [a|] eqn:Ea; [|discriminate]. destruct (values rho xs) as [l|] eqn:El; [|discriminate].
      injection H as <-.
      destruct (He x a) as (a' & Ha & Ra); [apply Hi; now left|assumption|].
      destruct (IH l) as (l' & Hl & Rl); [intros y Hy; apply Hi; now right|reflexivity|].
      exists (a' :: l'). rewrite Ha, Hl. auto.
  Qed.
End Rel.

Lemma find_func_in P f g : find_func P f = Some g -> In g P /\ f_name g = f.
Proof.
  unfold find_func. intros H. apply find_some in H as [H1 H2]. apply String.eqb_eq in H2. auto.
Qed.

Lemma find_func_nodup P g : NoDup (map f_name P) -> In g P -> find_func P (f_name g) = Some g.
Proof.
  unfold find_func. induction P as [|h P IH]; intros Hn Hg; [destruct Hg|]. cbn in *. inversion Hn; subst.
  destruct (String.eqb (f_name h) (f_name g)) eqn:E.
  - apply String.eqb_eq in E. destruct Hg as [->|Hg]; [reflexivity|]. exfalso. apply H1. rewrite E. now apply in_map.
  - destruct Hg as [->|Hg]; [rewrite String.eqb_refl in E; discriminate|]. now apply IH.
Qed.

Lemma nodup_app_elim {A : Type} (l l' : list A) : NoDup (l ++ l') -> NoDup l /\ NoDup l' /\ forall x, In x l -> ~ In x l'.
Proof.
  induction l as [|a l IH]; cbn; intros H; [repeat split; auto; constructor|].
  inversion H; subst. destruct (IH H3) as (H4 & H5 & H6). repeat split; auto.
  - constructor; auto. intros Hi. apply H2. apply in_or_app; auto.
  - intros x [->|Hx] Hi; [apply H2; apply in_or_app; auto|now apply (H6 x)].
Qed.

Lemma nodup_app_intro {A : Type} (l l' : list A) :
  NoDup l -> NoDup l' -> (forall x, In x l -> ~ In x l') -> NoDup (l ++ l').
Proof.
  induction l as [|a l IH]; cbn; intros H H' Hd; [assumption|]. inversion H; subst. constructor.
  - rewrite in_app_iff. intros [Hi|Hi]; [auto|apply (Hd a); auto].
  - apply IH; auto.
Qed.

Lemma forall2_length {A B : Type} (Q : A -> B -> Prop) l l' : Forall2 Q l l' -> List.length l = List.length l'.
Proof. induction 1; cbn; congruence. Qed.

Lemma forall2_nth {A B : Type} (Q : A -> B -> Prop) l l' i x : Forall2 Q l l' -> nth_error l i = Some x ->
  exists y, nth_error l' i = Some y /\ Q x y.
Proof.
  intros H. revert i x. induction H; intros i z Hz; destruct i; cbn in *; try discriminate.
  - injection Hz as ->. eauto.
  - auto.
Qed.

Lemma takes_needs c : needs_evidence c = takes_evidence c.
Proof. now destruct c. Qed.
Lemma hidden_hidden c : hidden c = hidden_args c.
Proof. now destruct c. Qed.
Lemma insert_with {A : Type} c (e : A) args : insert_at (closure_environment_index c) e args = with_environment c e args.
Proof. destruct c, args; reflexivity. Qed.
Lemma evidence_same f : func_evidence f = evidence_name f.
Proof. unfold func_evidence, evidence_name. destruct (f_ev f), (f_params f); reflexivity. Qed.
Lemma inherited_same c caps ev : implicit_evidence c caps ev = inherited c caps ev.
Proof. unfold implicit_evidence, inherited, mem. destruct c, ev; reflexivity. Qed.

(** ** The second pass *)

Inductive pv : value -> value -> Prop :=
| pv_int z : pv (VInt z) (VInt z)
| pv_null : pv VNull VNull
| pv_data k vs vs' : Forall2 pv vs vs' -> pv (VData k vs) (VData k vs')
| pv_fun f : pv (VFun f) (VFun f)
| pv_new f c e e' : pv e e' -> pv (VNew f c e) (VData KClosure [VFun f; e']).

Lemma pv_ints vs vs' zs : Forall2 pv vs vs' -> ints vs = Some zs -> ints vs' = Some zs.
Proof.
  intros H. revert zs. induction H as [|v v' vs vs' Hv Hr IH]; intros zs Hz; [exact Hz|].
  cbn in Hz. destruct v; try discriminate. inversion Hv; subst. cbn.
  destruct (ints vs) as [l|]; [|discriminate]. now rewrite (IH l).
Qed.

Fixpoint pv_see (v v' : value) (H : pv v v') {struct H} : see v = see v'.
Proof.
  destruct H; try reflexivity. cbn.
  assert (E : map see vs = map see vs').
  { clear k. induction H as [|a b l l' Hab Hl IH]; cbn; [reflexivity|]. rewrite (pv_see _ _ Hab), IH. reflexivity. }
  now rewrite E.
Qed.

Lemma pair_up_grows ev c : forall n, n <= snd (pair_up ev n c).
Proof.
  induction c as [v|i r k IH|x t IHt e IHe r k IHk|cv caps ps b IHb r k IHk]; intros n; cbn [pair_up]; [cbn; lia| | |].
  - destruct i; cbn [pair_up].
    all: try (specialize (IH n); destruct (pair_up ev n k); cbn in *; lia).
    + destruct c as [cv|].
      * destruct (hidden cv <=? List.length args).
        -- specialize (IH (n + 2)); destruct (pair_up ev (n + 2) k); cbn in *; lia.
        -- specialize (IH n); destruct (pair_up ev n k); cbn in *; lia.
      * destruct ev.
        -- specialize (IH (n + 2)); destruct (pair_up (Some n0) (n + 2) k); cbn in *; lia.
        -- specialize (IH (n + 3)); destruct (pair_up None (n + 3) k); cbn in *; lia.
    + specialize (IH (S n)); destruct (pair_up ev (S n) k); cbn in *; lia.
  - specialize (IHt n). destruct (pair_up ev n t) as [t' n1]. specialize (IHe n1). destruct (pair_up ev n1 e) as [e' n2].
    specialize (IHk n2). destruct (pair_up ev n2 k). cbn in *. lia.
  - specialize (IHk n). destruct (pair_up ev n k). cbn in *. lia.
Qed.

Lemma pair_first_order ev c : forall n sc, lambda_free c = true -> scoped ev sc c -> forall ev', first_order (fst (pair_up ev' n c)).
Proof.
  induction c as [v|i r k IH|x t IHt e IHe r k IHk|cv caps ps b IHb r k IHk]; intros n sc Hl Hs ev'; cbn [pair_up]; [exact I| | |discriminate].
  - cbn in Hl. destruct Hs as (_ & Hc & _ & Hs).
    destruct i; cbn [pair_up].
    all: try (specialize (IH n _ Hl Hs ev'); destruct (pair_up ev' n k); exact IH).
    + destruct c as [cv|].
      * cbn in Hc. rewrite hidden_hidden. rewrite (proj2 (Nat.leb_le _ _) Hc).
        specialize (IH (n + 2) _ Hl Hs ev'); destruct (pair_up ev' (n + 2) k); exact IH.
      * destruct ev'.
        -- specialize (IH (n + 2) _ Hl Hs (Some n0)); destruct (pair_up (Some n0) (n + 2) k); exact IH.
        -- specialize (IH (n + 3) _ Hl Hs None); destruct (pair_up None (n + 3) k); exact IH.
    + specialize (IH (S n) _ Hl Hs ev'); destruct (pair_up ev' (S n) k); exact IH.
  - cbn in Hl. apply andb_prop in Hl as [Hl Hlk]. apply andb_prop in Hl as [Hlt Hle].
    destruct Hs as (_ & Ht & He & _ & Hk).
    specialize (IHt n _ Hlt Ht ev'). destruct (pair_up ev' n t) as [t' n1].
    specialize (IHe n1 _ Hle He ev'). destruct (pair_up ev' n1 e) as [e' n2].
    specialize (IHk n2 _ Hlk Hk ev'). destruct (pair_up ev' n2 k). cbn in *. auto.
Qed.

Lemma lower_closures_find P : forall n f g, find_func P f = Some g ->
  exists n1, n <= n1 /\ find_func (fst (lower_closures P n)) f
    = Some (mkFunc (f_name g) (f_ev g) (f_params g) (fst (pair_up (func_evidence g) n1 (f_body g)))).
Proof.
  induction P as [|h P IH]; intros n f g H; [discriminate|].
  unfold find_func in *. cbn [find] in H. cbn [lower_closures].
  pose proof (pair_up_grows (func_evidence h) (f_body h) n) as Hg.
  destruct (pair_up (func_evidence h) n (f_body h)) as [b' n1] eqn:Eb.
  specialize (IH n1). destruct (lower_closures P n1) as [P' n2]. cbn [fst find f_name] in *.
  destruct (String.eqb (f_name h) f).
  - injection H as <-. exists n. split; [lia|]. now rewrite Eb.
  - destruct (IH f g H) as (m & Hm & Hf). exists m. split; [cbn in Hg; lia|exact Hf].
Qed.

Section Second.
  Variable W : Type.
  Variable prim : nat -> list Z -> W -> option (Z * W).
  Variable P : cmodule.
  Variable n0 : nat.
  Hypothesis Hok : forall g, In g P -> Forall (fun v => v < n0) (f_params g) /\ NoDup (f_params g)
    /\ (f_ev g = true -> f_params g <> []) /\ below n0 (f_body g) /\ lambda_free (f_body g) = true
    /\ scoped (evidence_name g) (f_params g) (f_body g).
  Let P2 := fst (lower_closures P n0).
  Let calls fuel := forall f vs vs' w, Forall2 pv vs vs' ->
    orel pv (call_func W P (enter W prim P fuel) f vs w) (call_func W P2 (enter W prim P2 fuel) f vs' w).

  Definition idm (v : nat) := v.
  Lemma map_idm l : map idm l = l.
  Proof. induction l; cbn; unfold idm in *; congruence. Qed.

  Lemma pair_exec fuel : calls fuel -> forall ev c cur cur' sc rho rho' n w,
    n0 <= n -> below n0 c -> lambda_free c = true -> scoped ev sc c -> Forall (fun v => v < n0) sc ->
    pv cur cur' -> match ev with Some e => In e sc /\ rho' e = Some cur' | None => cur' = VNull end ->
    erel pv sc idm rho rho' ->
    orel pv (exec W prim P (enter W prim P fuel) ev cur rho c w)
            (exec W prim P2 (enter W prim P2 fuel) ev cur' rho' (fst (pair_up ev n c)) w).
  Proof.
    intros HC ev c.
    induction c as [v|i r k IH|x t IHt e IHe r k IHk|cv caps ps b IHb r k IHk];
      intros cur cur' sc rho rho' n w Hn Hb Hl Hs Hsc Hcur Hev He; cbn [pair_up].
    - cbn. destruct (rho v) as [a|] eqn:Ea; [|exact I].
      destruct (He v a Hs Ea) as (a' & Ha & Ra). unfold idm in Ha. rewrite Ha. cbn. eauto.
    - destruct Hb as (Hbr & Hr & Hbk). cbn in Hl. destruct Hs as (Hi & Hc & Hnr & Hsk).
      (* what follows, after any target environment that agrees *)
      assert (Next : forall n1 o o' rho1, n0 <= n1 -> orel pv o o' ->
        (forall v, v < n0 -> rho1 v = rho' v) ->
        orel pv (match o with Done x w' => exec W prim P (enter W prim P fuel) ev cur (upd rho r x) k w' | Wrong => Wrong | Timeout => Timeout end)
                (match o' with Done x w' => exec W prim P2 (enter W prim P2 fuel) ev cur' (upd rho1 r x) (fst (pair_up ev n1 k)) w' | Wrong => Wrong | Timeout => Timeout end)).
      { intros n1 o o' rho1 Hn1 Ho Hrho. destruct o as [a w1| |]; cbn in Ho.
        - destruct Ho as (a' & -> & Ra).
          apply (IH cur cur' (r :: sc)); auto.
          + destruct ev as [e|]; [|assumption]. destruct Hev as [H1 H2]. split; [now right|].
            rewrite upd_other by (intros ->; contradiction). rewrite Hrho; [assumption|].
            rewrite Forall_forall in Hsc. auto.
          + intros v y Hv Hy. unfold idm. destruct (Nat.eq_dec v r) as [->|Hd].
            * rewrite upd_same in Hy |- *. injection Hy as <-. eauto.
            * rewrite upd_other in Hy |- * by assumption. destruct Hv as [->|Hv]; [contradiction|].
              rewrite Forall_forall in Hsc. rewrite Hrho by auto. apply (He v y Hv Hy).
        - exact I.
        - subst o'. reflexivity. }
      assert (Same : (match i with INew _ _ _ | IInd _ _ _ => False | _ => True end) ->
         orel pv (step W prim P (enter W prim P fuel) cur i rho w) (step W prim P2 (enter W prim P2 fuel) cur' i rho' w)).
      { intros Hi'. destruct i; try contradiction; cbn in Hi |- *.
        - destruct (values rho args) as [vs|] eqn:Ev; [|exact I].
          destruct (erel_values _ _ _ _ _ _ _ He Hi Ev) as (vs' & Ev' & Rv). rewrite map_idm in Ev'. rewrite Ev'.
          destruct (ints vs) as [zs|] eqn:Ez; [|exact I]. rewrite (pv_ints _ _ _ Rv Ez).
          destruct (prim k0 zs w) as [[z w']|]; cbn; [|exact I]. eexists; split; [reflexivity|constructor].
        - destruct (values rho args) as [vs|] eqn:Ev; [|exact I].
          destruct (erel_values _ _ _ _ _ _ _ He Hi Ev) as (vs' & Ev' & Rv). rewrite map_idm in Ev'. rewrite Ev'.
          cbn. eexists; split; [reflexivity|now constructor].
        - destruct (rho x) as [a|] eqn:Ea; [|exact I]. destruct (He x a) as (a' & Ha & Ra); [apply Hi; now left|assumption|].
          unfold idm in Ha. rewrite Ha. destruct a; try exact I. inversion Ra; subst.
          destruct (nth_error fields i) as [y|] eqn:Ey; [|exact I].
          destruct (forall2_nth _ _ _ _ _ H2 Ey) as (y' & Ey' & Ry). rewrite Ey'. cbn. eauto.
        - destruct (rho x) as [a|] eqn:Ea; [|exact I]. destruct (He x a) as (a' & Ha & Ra); [apply Hi; now left|assumption|].
          unfold idm in Ha. rewrite Ha. cbn. eauto.
        - eexists; split; [reflexivity|constructor].
        - destruct (values rho args) as [vs|] eqn:Ev; [|exact I].
          destruct (erel_values _ _ _ _ _ _ _ He Hi Ev) as (vs' & Ev' & Rv). rewrite map_idm in Ev'. rewrite Ev'.
          now apply HC.
        - eexists; split; [reflexivity|constructor].
        - destruct (rho x) as [a|] eqn:Ea; [|exact I]. destruct (He x a) as (a' & Ha & Ra); [apply Hi; now left|assumption|].
          unfold idm in Ha. rewrite Ha. destruct a; try exact I. inversion Ra; subst.
          destruct (values rho args) as [vs|] eqn:Ev; [|exact I].
          destruct (erel_values _ _ _ _ _ _ _ He (fun y Hy => Hi y (or_intror Hy)) Ev) as (vs' & Ev' & Rv).
          rewrite map_idm in Ev'. rewrite Ev'. now apply HC. }
      destruct i; cbn [pair_up].
      all: try (specialize (Next n _ _ rho' Hn (Same I) (fun _ _ => eq_refl));
                destruct (pair_up ev n k) as [k' n1]; exact Next).
      + (* an indirect call *)
        assert (Hx : x < n0) by (inversion Hbr; assumption).
        assert (Hargs : Forall (fun v => v < n0) args) by (inversion Hbr; assumption).
        assert (Hvals : forall rho1 l, (forall v, v < n0 -> rho1 v = rho' v) -> Forall (fun v => v < n0) l -> values rho1 l = values rho' l).
        { intros rho1 l Hr1 Hl1. induction Hl1; cbn; [reflexivity|]. rewrite Hr1, IHHl1 by assumption. reflexivity. }
        cbn [exec step].
        destruct (rho x) as [a|] eqn:Ea; [|exact I].
        destruct (values rho args) as [vs|] eqn:Ev; [|exact I].
        destruct (He x a) as (a' & Ha & Ra); [apply Hi; now left|assumption|]. unfold idm in Ha.
        destruct (erel_values _ _ _ _ _ _ _ He (fun y Hy => Hi y (or_intror Hy)) Ev) as (vs' & Ev' & Rv).
        rewrite map_idm in Ev'.
        destruct a; try exact I; inversion Ra; subst.
        cbn [call_closure].
        destruct (conv_eqb c0 c) eqn:Ecc; [|exact I].
        destruct c as [cv|].
        * assert (c0 = Some cv) as -> by (destruct c0 as [[]|], cv; try discriminate; reflexivity).
          cbn in Hc. rewrite hidden_hidden, (proj2 (Nat.leb_le _ _) Hc).
          pose proof (Next (n + 2)) as Nx. destruct (pair_up ev (n + 2) k) as [k' n1]. cbn [fst exec step].
          rewrite Ha. cbn [nth_error]. rewrite upd_other by lia. rewrite Ha. cbn [nth_error].
          rewrite upd_other by lia. rewrite upd_same.
          assert (Hv2 : values (upd (upd rho' n (VFun f)) (n + 1) e') (insert_at (closure_environment_index cv) (n + 1) args)
                        = Some (with_environment cv e' vs')).
          { rewrite insert_with. pose proof (values_length _ _ _ Ev') as Hlen.
            assert (Hr1 : forall v, v < n0 -> upd (upd rho' n (VFun f)) (n + 1) e' v = rho' v)
              by (intros v Hv; rewrite !upd_other by lia; reflexivity).
            destruct cv; cbn [with_environment].
            - cbn [values]. rewrite upd_same, (Hvals _ _ Hr1 Hargs), Ev'. reflexivity.
            - destruct args as [|y args]; [cbn in Hc; lia|]. apply Forall_cons_iff in Hargs as [Hy Hargs].
              cbn [values] in Ev' |- *. rewrite upd_same, (Hvals _ _ Hr1 Hargs), Hr1 by assumption.
              destruct (rho' y); [|discriminate]. destruct (values rho' args); [|discriminate]. injection Ev' as <-. reflexivity.
            - destruct args as [|y args]; [cbn in Hc; lia|]. apply Forall_cons_iff in Hargs as [Hy Hargs].
              cbn [values] in Ev' |- *. rewrite upd_same, (Hvals _ _ Hr1 Hargs), Hr1 by assumption.
              destruct (rho' y); [|discriminate]. destruct (values rho' args); [|discriminate]. injection Ev' as <-. reflexivity. }
          rewrite Hv2. apply Nx; [lia| |intros v Hv; rewrite !upd_other by lia; reflexivity].
          apply HC. destruct cv; cbn; [now constructor| |];
            (destruct Rv; [repeat constructor; assumption|now repeat constructor]).
        * assert (c0 = None) as -> by (destruct c0 as [[]|]; try discriminate; reflexivity).
          destruct ev as [e0|].
          -- destruct Hev as [Hin Hcv].
             assert (He0 : e0 < n0) by (rewrite Forall_forall in Hsc; auto).
             pose proof (Next (n + 2)) as Nx. destruct (pair_up (Some e0) (n + 2) k) as [k' n1]. cbn [fst exec step].
             rewrite Ha. cbn [nth_error]. rewrite upd_other by lia. rewrite Ha. cbn [nth_error].
             rewrite upd_other by lia. rewrite upd_same. cbn [values].
             rewrite (Hvals _ args) by (try (intros v Hv; rewrite !upd_other by lia; reflexivity); assumption).
             rewrite !upd_same, !upd_other by lia. rewrite Hcv, Ev'.
             apply Nx; [lia| |intros v Hv; rewrite !upd_other by lia; reflexivity].
             apply HC. now repeat constructor.
          -- subst cur'.
             pose proof (Next (n + 3)) as Nx. destruct (pair_up None (n + 3) k) as [k' n1]. cbn [fst exec step].
             rewrite upd_other by lia. rewrite Ha. cbn [nth_error]. rewrite !upd_other by lia. rewrite Ha. cbn [nth_error].
             rewrite upd_other by lia. rewrite upd_same. cbn [values].
             rewrite (Hvals _ args) by (try (intros v Hv; rewrite !upd_other by lia; reflexivity); assumption).
             rewrite upd_same. rewrite (upd_other _ (n + 1)) by lia. rewrite (upd_other _ n) by lia. rewrite upd_same, Ev'.
             apply Nx; [lia| |intros v Hv; rewrite !upd_other by lia; reflexivity].
             apply HC. now repeat constructor.
      + (* closure.new *)
        cbn [exec step]. destruct (rho env) as [a|] eqn:Ea; [|exact I].
        assert (Henv : env < n0) by (inversion Hbr; assumption).
        destruct (He env a) as (a' & Ha & Ra); [apply Hi; now left|assumption|]. unfold idm in Ha.
        pose proof (Next (S n) (Done (VNew f c a) w) (Done (VData KClosure [VFun f; a']) w) (upd rho' n (VFun f))) as Nx.
        destruct (pair_up ev (S n) k) as [k' n1]. cbn [fst exec step values].
        rewrite upd_same, upd_other by lia. rewrite Ha.
        apply Nx; [lia|eexists; split; [reflexivity|now constructor]|intros v Hv; apply upd_other; lia].
    - destruct Hb as (Hx & Hbt & Hbe & Hr & Hbk). cbn in Hl. apply andb_prop in Hl as [Hl Hlk]. apply andb_prop in Hl as [Hlt Hle].
      destruct Hs as (Hix & Hst & Hse & Hnr & Hsk).
      pose proof (pair_up_grows ev t n) as G1.
      specialize (IHt cur cur' sc rho rho' n w Hn Hbt Hlt Hst Hsc Hcur Hev He).
      destruct (pair_up ev n t) as [t' n1]. cbn in G1.
      pose proof (pair_up_grows ev e n1) as G2.
      specialize (IHe cur cur' sc rho rho' n1 w ltac:(lia) Hbe Hle Hse Hsc Hcur Hev He).
      destruct (pair_up ev n1 e) as [e' n2]. cbn in G2.
      assert (IHk' : forall y y' w', pv y y' -> orel pv (exec W prim P (enter W prim P fuel) ev cur (upd rho r y) k w')
         (exec W prim P2 (enter W prim P2 fuel) ev cur' (upd rho' r y') (fst (pair_up ev n2 k)) w')).
      { intros y y' w' Ry. apply (IHk cur cur' (r :: sc)); auto; [lia| |].
        - destruct ev as [e0|]; [|assumption]. destruct Hev as [H1 H2]. split; [now right|].
          rewrite upd_other by (intros ->; contradiction). assumption.
        - intros v z Hv Hz. unfold idm. destruct (Nat.eq_dec v r) as [->|Hd].
          + rewrite upd_same in Hz |- *. injection Hz as <-. eauto.
          + rewrite upd_other in Hz |- * by assumption. destruct Hv as [->|Hv]; [contradiction|]. apply (He v z Hv Hz). }
      destruct (pair_up ev n2 k) as [k' n3]. cbn [fst exec].
      destruct (rho x) as [a|] eqn:Ea; [|exact I]. destruct (He x a Hix Ea) as (a' & Ha & Ra). unfold idm in Ha. rewrite Ha.
      destruct a; try exact I. inversion Ra; subst.
      cbn [fst] in IHt, IHe.
      destruct (Z.eqb z 0).
      + destruct (exec W prim P (enter W prim P fuel) ev cur rho e w) as [y w'| |]; cbn in IHe.
        * destruct IHe as (y' & -> & Ry). apply IHk'; assumption.
        * exact I.
        * rewrite IHe. reflexivity.
      + destruct (exec W prim P (enter W prim P fuel) ev cur rho t w) as [y w'| |]; cbn in IHt.
        * destruct IHt as (y' & -> & Ry). apply IHk'; assumption.
        * exact I.
        * rewrite IHt. reflexivity.
    - discriminate.
  Qed.

  Lemma pair_calls fuel : calls fuel.
  Proof.
    induction fuel as [|fuel IH]; intros f vs vs' w Hv; unfold call_func.
    - destruct (find_func P f) as [g|] eqn:Ef; [|exact I].
      destruct (lower_closures_find P n0 f g Ef) as (n1 & Hn1 & Eg). fold P2 in Eg. rewrite Eg. cbn [f_params].
      rewrite <- (forall2_length _ _ _ Hv). destruct (List.length vs =? List.length (f_params g)); [reflexivity|exact I].
    - destruct (find_func P f) as [g|] eqn:Ef; [|exact I].
      destruct (lower_closures_find P n0 f g Ef) as (n1 & Hn1 & Eg). fold P2 in Eg. rewrite Eg. cbn [f_params f_ev f_body].
      rewrite <- (forall2_length _ _ _ Hv). destruct (List.length vs =? List.length (f_params g)) eqn:El; [|exact I].
      apply Nat.eqb_eq in El. cbn [enter].
      destruct (find_func_in _ _ _ Ef) as [Hg _]. destruct (Hok g Hg) as (H1 & H2 & H3 & H4 & H5 & H6).
      change (evidence_name (mkFunc (f_name g) (f_ev g) (f_params g) (fst (pair_up (func_evidence g) n1 (f_body g)))))
        with (evidence_name g).
      rewrite (evidence_same g).
      apply (pair_exec fuel IH (evidence_name g) (f_body g) _ _ (f_params g)); auto.
      + destruct (f_ev g); [|constructor]. destruct Hv; [constructor|assumption].
      + unfold evidence_name. destruct (f_ev g) eqn:Ee.
        * destruct (f_params g) as [|e ps] eqn:Ep; [exfalso; apply H3; auto|]. split; [now left|].
          destruct Hv as [|a a' l l' Ra Rl]; [discriminate|]. eapply (upds_in _ _ _ 0); auto.
        * reflexivity.
      + intros v x Hin Hx. unfold idm. apply In_nth_error in Hin as [j Hj].
        assert (Hlt : j < List.length vs) by (rewrite El; apply nth_error_Some; congruence).
        destruct (nth_error vs j) as [y|] eqn:Ey; [|apply nth_error_None in Ey; lia].
        rewrite (upds_in _ _ _ _ _ _ H2 Hj Ey) in Hx. injection Hx as <-.
        destruct (forall2_nth _ _ _ _ _ Hv Ey) as (y' & Ey' & Ry). exists y'. split; [|assumption].
        apply (upds_in _ _ _ _ _ _ H2 Hj Ey').
  Qed.

  Lemma pair_run fuel f zs w : observe (run W prim P fuel f zs w) <> RWrong ->
    observe (run W prim P2 fuel f zs w) = observe (run W prim P fuel f zs w).
  Proof.
    intros H. unfold run in *. assert (Hz : Forall2 pv (map VInt zs) (map VInt zs)).
    { clear H. induction zs; cbn; constructor; auto. constructor. }
    pose proof (pair_calls fuel f _ _ w Hz) as HC.
    destruct (call_func W P (enter W prim P fuel) f (map VInt zs) w) as [v w'| |]; cbn in HC.
    - destruct HC as (v' & -> & Rv). cbn. now rewrite (pv_see _ _ Rv).
    - now elim H.
    - now rewrite HC.
  Qed.
End Second.
