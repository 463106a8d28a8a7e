(** Lemmas: calling a lambda and calling the function made from it. *)
From Verif Require Export ClosLift.
From Coq Require Import Lia.
Local Open Scope list_scope.

(** ** The function made from a lambda *)

Definition lg (c : option conv) : nat := match c with None => 1 | Some _ => 0 end.
(** The place of parameter [j]. *)
Definition pos (c : option conv) (j : nat) : nat :=
  match c with
  | None => j + 2
  | Some Direct => S j
  | Some _ => match j with O => 0 | S j => S (S j) end
  end.

Lemma lg_eq c : bool_index (is_legacy c) = lg c.
Proof. now destruct c. Qed.
Lemma pos_eq c j : lg c + j + bool_index (environment_index c - lg c <=? j) = pos c j.
Proof. destruct c as [[]|]; destruct j; cbn; lia. Qed.
Lemma pos_lt c j l : j < l -> pos c j < l + 1 + lg c.
Proof. destruct c as [[]|]; destruct j; cbn; lia. Qed.
Lemma pos_inj c i j : pos c i = pos c j -> i = j.
Proof. destruct c as [[]|]; destruct i, j; cbn; lia. Qed.

Definition lift_args (c : option conv) (ps : list nat) (n : nat) : list nat := seq n (List.length ps + 1 + lg c).
Definition lift_params (c : option conv) (ps : list nat) (n : nat) : list nat := map (fun j => n + pos c j) (seq 0 (List.length ps)).
Definition lift_map (c : option conv) (ev : option nat) (caps ps : list nat) (n : nat) : vmap :=
  let n1 := n + (List.length ps + 1 + lg c) in
  map_values (combine caps (seq (S n1) (List.length caps)))
    (map_values (combine (olist ev) (map (fun _ => n) (olist ev))) (map_values (combine ps (lift_params c ps n)) [])).
Definition lift_next (c : option conv) (caps ps : list nat) (n : nat) : nat :=
  match caps with [] => n + (List.length ps + 1 + lg c) | _ => S (n + (List.length ps + 1 + lg c)) + List.length caps end.
Definition lift_head (c : option conv) (caps ps : list nat) (n : nat) (k : code) : code :=
  let n1 := n + (List.length ps + 1 + lg c) in
  match caps with
  | [] => k
  | _ => Seq (ICast (n + environment_index c)) n1 (extract n1 0 (seq (S n1) (List.length caps)) k)
  end.

Lemma env_pos c l : hid c <= l -> environment_index c < l + 1 + lg c.
Proof. destruct c as [[]|]; cbn; lia. Qed.

Lemma build_lifted_eq name c ev caps ps b n : hid c <= List.length ps ->
  build_lifted name c ev caps ps b n =
  let (b', n2) := clone (lift_map c (inherited c caps ev) caps ps n) (lift_next c caps ps n) b in
  (mkFunc name (match c with None => true | Some c => takes_evidence c end) (lift_args c ps n) (lift_head c caps ps n b'), n2).
Proof.
  intros Hh. unfold build_lifted. cbv zeta. rewrite lg_eq. fold (lift_args c ps n).
  assert (Ha : List.length (lift_args c ps n) = List.length ps + 1 + lg c) by (unfold lift_args; apply seq_length).
  assert (E1 : map (fun i => nth (lg c + i + bool_index (environment_index c - lg c <=? i)) (lift_args c ps n) 0) (seq 0 (List.length ps))
               = lift_params c ps n).
  { unfold lift_params. apply map_ext_in. intros j Hj. apply in_seq in Hj. rewrite pos_eq. unfold lift_args.
    apply seq_nth. apply pos_lt. lia. }
  rewrite E1, inherited_same, Ha.
  assert (E2 : nth 0 (lift_args c ps n) 0 = n).
  { unfold lift_args. rewrite seq_nth by lia. lia. }
  assert (E3 : nth (environment_index c) (lift_args c ps n) 0 = n + environment_index c).
  { unfold lift_args. apply seq_nth. now apply env_pos. }
  rewrite E2, E3.
  assert (E4 : map_values match inherited c caps ev with Some e => [(e, n)] | None => [] end (map_values (combine ps (lift_params c ps n)) [])
             = map_values (combine (olist (inherited c caps ev)) (map (fun _ => n) (olist (inherited c caps ev)))) (map_values (combine ps (lift_params c ps n)) [])).
  { destruct (inherited c caps ev); reflexivity. }
  rewrite E4.
  assert (E5 : match c with None => true | Some c => needs_evidence c end = match c with None => true | Some c => takes_evidence c end)
    by (destruct c as [c|]; [apply takes_needs|reflexivity]).
  rewrite E5. unfold lift_map, lift_next, lift_head. cbv zeta.
  destruct caps as [|a caps]; reflexivity.
Qed.

Section LiftMap.
  Variables (c : option conv) (ev : option nat) (caps ps : list nat) (n : nat).
  Hypothesis Hnd : NoDup ps.
  Hypothesis Hd : forall p, In p ps -> ~ In p (caps ++ olist ev).
  Hypothesis Hev : match ev with Some e => c = None /\ ~ In e caps | None => True end.
  Let m := lookup (lift_map c ev caps ps n).
  Let n1 := n + (List.length ps + 1 + lg c).

  Lemma lift_map_cap v : In v caps -> exists j, nth_error caps j = Some v /\ j < List.length caps /\ m v = S n1 + j.
  Proof.
    intros Hv. unfold m, lift_map. cbv zeta.
    edestruct (lookup_pairs_in caps (seq (S n1) (List.length caps))) as (j & Hj & Hj'); [now rewrite seq_length|exact Hv|].
    assert (j < List.length caps) by (apply nth_error_Some; congruence).
    exists j. repeat split; auto. rewrite (nth_error_seq (S n1)) in Hj' by assumption. injection Hj' as E. symmetry. exact E.
  Qed.
  Lemma lift_map_ev e : ev = Some e -> m e = n.
  Proof.
    intros E. unfold m, lift_map. cbv zeta. rewrite lookup_pairs_out; [|now rewrite seq_length|].
    - rewrite E. cbn. now rewrite Nat.eqb_refl.
    - rewrite E in Hev. apply Hev.
  Qed.
  Lemma lift_map_param p : In p ps -> exists j, nth_error ps j = Some p /\ j < List.length ps /\ m p = n + pos c j.
  Proof.
    intros Hp. assert (Hn : ~ In p caps /\ ~ In p (olist ev)).
    { split; intros Hi; apply (Hd p Hp); apply in_or_app; auto. }
    unfold m, lift_map. cbv zeta. rewrite lookup_pairs_out; [|now rewrite seq_length|apply Hn].
    rewrite lookup_pairs_out; [|now rewrite map_length|apply Hn].
    edestruct (lookup_pairs_in ps (lift_params c ps n)) as (j & Hj & Hj');
      [unfold lift_params; now rewrite map_length, seq_length|exact Hp|].
    assert (j < List.length ps) by (apply nth_error_Some; congruence).
    exists j. repeat split; auto. unfold lift_params in Hj' at 1.
    rewrite nth_error_map, nth_error_seq in Hj' by assumption. cbn in Hj'. injection Hj' as E. symmetry. exact E.
  Qed.

  Lemma lift_frame : hid c <= List.length ps ->
    frame (lam_ev c ev ps) (if match c with None => true | Some c => takes_evidence c end then Some n else None)
          (ps ++ caps ++ olist ev) m (lift_next c caps ps n).
  Proof.
    intros Hh.
    assert (Hnext : n1 <= lift_next c caps ps n) by (unfold lift_next, n1; destruct caps; lia).
    assert (Hcap : forall v, In v caps -> n1 < m v < lift_next c caps ps n).
    { intros v Hv. destruct (lift_map_cap v Hv) as (j & _ & Hj & ->). unfold lift_next. destruct caps as [|a l]; [cbn in Hj; lia|].
      fold n1. lia. }
    assert (Hpar : forall p, In p ps -> n <= m p < n1 /\ (c = None -> n < m p)).
    { intros p Hp. destruct (lift_map_param p Hp) as (j & _ & Hj & ->). pose proof (pos_lt c j _ Hj). split; [unfold n1; lia|].
      intros ->. cbn. lia. }
    assert (Hevn : forall e, ev = Some e -> m e = n /\ c = None).
    { intros e E. split; [now apply lift_map_ev|]. rewrite E in Hev. apply Hev. }
    assert (Hin : forall v, In v (ps ++ caps ++ olist ev) -> In v ps \/ In v caps \/ ev = Some v).
    { intros v Hv. apply in_app_or in Hv as [Hv|Hv]; [auto|]. apply in_app_or in Hv as [Hv|Hv]; [auto|].
      destruct ev as [e|]; [|destruct Hv]. destruct Hv as [<-|[]]. auto. }
    assert (Hn1 : n < n1) by (unfold n1; lia).
    assert (Hfirst : forall p l, ps = p :: l -> m p = n + pos c 0).
    { intros p l Ep. destruct (lift_map_param p) as (j & Hj & _ & Ej); [rewrite Ep; now left|].
      rewrite Ep in Hj. assert (j = 0).
      { destruct j as [|j]; [reflexivity|]. cbn in Hj. apply nth_error_In in Hj. rewrite Ep in Hnd. inversion Hnd; contradiction. }
      subst j. exact Ej. }
    repeat split.
    - intros v Hv. destruct (Hin v Hv) as [H|[H|H]].
      + destruct (Hpar v H). lia.
      + apply Hcap in H. lia.
      + apply Hevn in H as [-> _]. lia.
    - intros u v Hu Hv E. destruct (Hin u Hu) as [A|[A|A]]; destruct (Hin v Hv) as [B|[B|B]].
      + destruct (lift_map_param u A) as (i & Hi & _ & Ei). destruct (lift_map_param v B) as (j & Hj & _ & Ej).
        assert (pos c i = pos c j) by lia. apply pos_inj in H. subst. congruence.
      + destruct (Hpar u A). apply Hcap in B. lia.
      + destruct (Hpar u A) as [_ F]. apply Hevn in B as [B1 B2]. specialize (F B2). lia.
      + destruct (Hpar v B). apply Hcap in A. lia.
      + destruct (lift_map_cap u A) as (i & Hi & _ & Ei). destruct (lift_map_cap v B) as (j & Hj & _ & Ej).
        assert (i = j) by lia. subst. congruence.
      + apply Hcap in A. apply Hevn in B as [B1 _]. lia.
      + destruct (Hpar v B) as [_ F]. apply Hevn in A as [B1 B2]. specialize (F B2). lia.
      + apply Hcap in B. apply Hevn in A as [B1 _]. lia.
      + congruence.
    - unfold lam_ev, evr. destruct c as [cv|] eqn:Ec.
      + destruct (takes_evidence cv) eqn:Et; [|exact I].
        destruct ps as [|p l] eqn:Ep; [destruct cv; cbn in Et, Hh; try discriminate; lia|].
        split; [now left|]. f_equal.
        rewrite (Hfirst p l eq_refl). destruct cv; cbn in Et |- *; try discriminate; lia.
      + destruct ev as [e|] eqn:Ee.
        * split; [apply in_or_app; right; apply in_or_app; right; now left|]. f_equal. symmetry. now apply (Hevn e).
        * split; [lia|]. intros Hm. apply in_map_iff in Hm as (v & Ev & Hv). destruct (Hin v Hv) as [A|[A|A]].
          -- destruct (Hpar v A) as [_ F]. specialize (F eq_refl). lia.
          -- apply Hcap in A. lia.
          -- congruence.
  Qed.
End LiftMap.

Section Turn.
  Variable W : Type.
  Variable prim : nat -> list Z -> W -> option (Z * W).
  Variable P P' : cmodule.
  Notation lv := (lv P').
  Notation er := (er P').

  Lemma extract_exec ent ev cur w k fs kd env : forall gets i rho,
    rho env = Some (VData kd fs) -> NoDup gets -> ~ In env gets ->
    (forall j, j < List.length gets -> nth_error fs (i + j) <> None) ->
    exists rho2, exec W prim P' ent ev cur rho (extract env i gets k) w = exec W prim P' ent ev cur rho2 k w
      /\ (forall v, ~ In v gets -> rho2 v = rho v)
      /\ (forall j g x, nth_error gets j = Some g -> nth_error fs (i + j) = Some x -> rho2 g = Some x).
  Proof.
    induction gets as [|g gets IH]; intros i rho Hr Hnd He Hfs.
    - exists rho. repeat split. intros [|j] g x H; discriminate.
    - inversion Hnd; subst. cbn [extract exec step]. rewrite Hr.
      destruct (nth_error fs i) as [x|] eqn:Ex; [|exfalso; apply (Hfs 0); [cbn; lia|now rewrite Nat.add_0_r]].
      destruct (IH (S i) (upd rho g x)) as (rho2 & E & Hout & Hin).
      + rewrite upd_other; [assumption|]. intros ->. apply He. now left.
      + assumption.
      + intros Hi. apply He. now right.
      + intros j Hj. replace (S i + j) with (i + S j) by lia. apply Hfs. cbn. lia.
      + exists rho2. split; [exact E|]. split.
        * intros v Hv. rewrite Hout by (intros Hi; apply Hv; now right). apply upd_other. intros ->. apply Hv. now left.
        * intros [|j] g' x' Hg Hx'.
          -- cbn in Hg. injection Hg as <-. rewrite Nat.add_0_r in Hx'. rewrite Hout by assumption. rewrite upd_same. congruence.
          -- cbn in Hg. apply (Hin j g' x' Hg). now replace (S i + j) with (i + S j) by lia.
  Qed.

  (** The arguments of the function made from a lambda. *)
  Definition lift_actuals (c : option conv) (cur e : value) (vs : list value) : list value :=
    match c with None => cur :: e :: vs | Some c => with_environment c e vs end.
  Lemma actuals_length c cur e vs : hid c <= List.length vs -> List.length (lift_actuals c cur e vs) = List.length vs + 1 + lg c.
  Proof. destruct c as [[]|]; cbn; try lia; destruct vs; cbn; lia. Qed.
  Lemma actuals_pos c cur e vs j : hid c <= List.length vs -> nth_error (lift_actuals c cur e vs) (pos c j) = nth_error vs j.
  Proof.
    destruct c as [[]|]; cbn [lift_actuals with_environment pos hid hidden_args]; intros H.
    - reflexivity.
    - destruct vs as [|v vs]; [cbn in H; lia|]. destruct j; reflexivity.
    - destruct vs as [|v vs]; [cbn in H; lia|]. destruct j; reflexivity.
    - now rewrite Nat.add_comm.
  Qed.
  Lemma actuals_env c cur e vs : hid c <= List.length vs -> nth_error (lift_actuals c cur e vs) (environment_index c) = Some e.
  Proof. destruct c as [[]|]; cbn; intros H; try reflexivity; destruct vs; cbn in *; try lia; reflexivity. Qed.
  Lemma actuals_legacy cur e vs : nth_error (lift_actuals None cur e vs) 0 = Some cur.
  Proof. reflexivity. Qed.

  Definition lam_cur (c : option conv) (cur : value) (vs : list value) : value :=
    match c with
    | None => cur
    | Some c => if takes_evidence c then match vs with v :: _ => v | [] => VNull end else VNull
    end.
  Definition lam_env (c : option conv) (ev : option nat) (cur : value) (rho : env) : env :=
    match c with None => set_evidence rho ev cur | Some _ => rho end.

  Lemma call_lam Q ent cur cc c ev rho ps b vs w :
    call_closure W Q ent cur cc (VLam c ev rho ps b) vs w
    = if conv_eqb c cc && (List.length vs =? List.length ps)
      then ent (lam_ev c ev ps) (lam_cur c cur vs) (upds (lam_env c ev cur rho) ps vs) b w else Wrong.
  Proof.
    cbn [call_closure]. destruct (conv_eqb c cc && (List.length vs =? List.length ps)); [|reflexivity].
    destruct c as [[]|]; reflexivity.
  Qed.

  Lemma keep_call fuel : calls W prim P P' fuel -> forall c ev ev' rho rho' ps m sc n b cur cur' vs vs' w,
    NoDup ps -> (forall p, In p ps -> ~ In p sc) -> frame ev ev' sc (lookup m) n -> hid c <= List.length ps ->
    scoped (lam_ev c ev ps) (ps ++ sc) b -> er sc (lookup m) rho rho' -> lv cur cur' -> Forall2 lv vs vs' ->
    List.length vs = List.length ps ->
    let ps' := seq n (List.length ps) in
    orel lv (exec W prim P (enter W prim P fuel) (lam_ev c ev ps) (lam_cur c cur vs) (upds (lam_env c ev cur rho) ps vs) b w)
            (exec W prim P' (enter W prim P' fuel) (lam_ev c ev' ps') (lam_cur c cur' vs') (upds (lam_env c ev' cur' rho') ps' vs')
               (fst (clone (map_values (combine ps ps') m) (n + List.length ps) b)) w).
  Proof.
    intros HC c ev ev' rho rho' ps m sc n b cur cur' vs vs' w Hnd Hd Hf Hh Hs He Hcur Hv Hlen ps'.
    pose proof Hf as (F1 & F2 & F3).
    assert (Hl' : List.length ps = List.length ps') by (unfold ps'; now rewrite seq_length).
    assert (Out1 : forall v, In v sc -> lookup (map_values (combine ps ps') m) v = lookup m v).
    { intros v Hi. apply lookup_pairs_out; auto. intros Hp. now apply (Hd v). }
    assert (In1 : forall v, In v ps -> exists j, nth_error ps j = Some v /\ j < List.length ps /\ lookup (map_values (combine ps ps') m) v = n + j).
    { intros v Hi. destruct (lookup_pairs_in ps ps' m v Hl' Hi) as (j & Hj & Hj').
      assert (j < List.length ps) by (apply nth_error_Some; congruence).
      exists j. repeat split; auto. unfold ps' in Hj' at 1. rewrite nth_error_seq in Hj' by assumption. injection Hj' as ->. reflexivity. }
    apply (clone_exec W prim P P' fuel HC b _ _ _ _ (ps ++ sc)).
    - destruct c as [cv|]; cbn; [|assumption]. destruct (takes_evidence cv); [|constructor]. destruct Hv; [constructor|assumption].
    - assumption.
    - apply (keep_frame ev ev'); auto. fold ps'. unfold evr, lam_ev. destruct c as [cv|].
      + destruct (takes_evidence cv) eqn:Et; [|exact I].
        destruct ps as [|p l] eqn:Ep; [exact I|]. split; [now left|].
        change (Some n = Some (lookup (map_values (combine (p :: l) ps') m) p)). f_equal.
        destruct (In1 p) as (j & Hj & _ & Ej); [now left|].
        assert (j = 0). { destruct j as [|j]; [reflexivity|]. cbn in Hj. apply nth_error_In in Hj. inversion Hnd; contradiction. }
        subst j. rewrite Ej. lia.
      + unfold evr in F3. destruct ev as [e|].
        * destruct F3 as [F3 ->]. split; [apply in_or_app; now right|]. now rewrite Out1.
        * destruct ev' as [a|]; [|exact I]. destruct F3 as [F3 F4]. split; [lia|]. rewrite map_app, in_app_iff.
          intros [Hm|Hm]; apply in_map_iff in Hm as (v & Ev & Hi).
          -- destruct (In1 v Hi) as (j & _ & _ & Ej). lia.
          -- rewrite Out1 in Ev by assumption. apply F4. apply in_map_iff. eauto.
    - assert (Hps' : forall v, In v sc -> ~ In (lookup m v) ps').
      { intros v Hi Hp. unfold ps' in Hp. apply in_seq in Hp. specialize (F1 v Hi). lia. }
      split.
      + intros v Hi. apply in_app_or in Hi as [Hi|Hi].
        * apply In_nth_error in Hi as [j Hj]. destruct (upds_lookup ps vs (lam_env c ev cur rho) j v Hnd Hlen Hj) as (x & _ & ->). discriminate.
        * rewrite upds_out by (intros Hp; now apply (Hd v)). destruct He as [He _]. unfold lam_env, set_evidence.
          destruct c; [auto|]. destruct ev as [e|]; [|auto]. unfold upd. destruct (v =? e); [discriminate|auto].
      + intros v x Hi Hx. apply in_app_or in Hi as [Hi|Hi].
        * destruct (In1 v Hi) as (j & Hj & Hj1 & ->).
          destruct (upds_lookup ps vs (lam_env c ev cur rho) j v Hnd Hlen Hj) as (y & Hy & Ey). rewrite Ey in Hx. injection Hx as <-.
          destruct (forall2_nth _ _ _ _ _ Hv Hy) as (y' & Hy' & Ry). exists y'. split; [|assumption].
          apply (upds_in ps' _ vs' j); [apply seq_NoDup| |assumption]. unfold ps'. now apply nth_error_seq.
        * rewrite Out1 by assumption. rewrite upds_out in Hx by (intros Hp; now apply (Hd v)).
          rewrite upds_out by auto.
          destruct He as [He1 He2]. unfold lam_env, set_evidence in *.
          destruct c as [cv|]; [now apply He2|]. unfold evr in F3. destruct ev as [e|].
          -- destruct F3 as [F3 ->]. destruct (Nat.eq_dec v e) as [->|Hne].
             ++ rewrite upd_same in Hx |- *. injection Hx as <-. eauto.
             ++ rewrite upd_other in Hx by assumption. rewrite upd_other by (intros E; apply Hne; now apply F2). now apply He2.
          -- destruct ev' as [a|]; [|now apply He2]. destruct F3 as [F3 F4].
             rewrite upd_other; [now apply He2|]. intros E. apply F4. rewrite <- E. now apply in_map.
  Qed.

  Lemma lift_call fuel : calls W prim P P' fuel -> forall c ev ev0 rho caps ps n b name cur cur' vs vs' cs cs' w,
    ev = inherited c caps ev0 -> NoDup ps -> (forall p, In p ps -> ~ In p (caps ++ olist ev)) ->
    hid c <= List.length ps -> scoped (lam_ev c ev ps) (ps ++ caps ++ olist ev) b ->
    values rho caps = Some cs -> Forall2 lv cs cs' -> lv cur cur' -> Forall2 lv vs vs' -> List.length vs = List.length ps ->
    let g := fst (build_lifted name c ev0 caps ps b n) in
    let e' := match caps with [] => VNull | _ => VData KEnv cs' end in
    let l := lift_actuals c cur' e' vs' in
    List.length l = List.length (f_params g) /\
    orel lv (exec W prim P (enter W prim P fuel) (lam_ev c ev ps) (lam_cur c cur vs) (upds (lam_env c ev cur rho) ps vs) b w)
            (exec W prim P' (enter W prim P' fuel) (evidence_name g) (if f_ev g then match l with v :: _ => v | [] => VNull end else VNull)
               (upds empty (f_params g) l) (f_body g) w).
  Proof.
    intros HC c ev ev0 rho caps ps n b name cur cur' vs vs' cs cs' w Eev Hnd Hd Hh Hs Ecs Rcs Hcur Hv Hlen g e' l.
    assert (Hlen' : List.length vs' = List.length ps) by (rewrite <- (forall2_length _ _ _ Hv); assumption).
    assert (Hev : match ev with Some e => c = None /\ ~ In e caps | None => True end).
    { subst ev. unfold inherited. destruct c; [exact I|]. destruct ev0 as [e|]; [|exact I].
      destruct (existsb (Nat.eqb e) caps) eqn:Ee; [exact I|]. split; [reflexivity|]. intros Hi. apply existsb_mem in Hi. congruence. }
    assert (Eg : g = mkFunc name (match c with None => true | Some c => takes_evidence c end) (lift_args c ps n)
                   (lift_head c caps ps n (fst (clone (lift_map c ev caps ps n) (lift_next c caps ps n) b)))).
    { unfold g. rewrite build_lifted_eq by assumption. rewrite <- Eev. destruct (clone _ _ b). reflexivity. }
    clearbody g. subst g. cbn [f_params f_ev f_body].
    assert (Hl : List.length l = List.length ps + 1 + lg c).
    { unfold l. rewrite actuals_length by (rewrite Hlen'; assumption). now rewrite Hlen'. }
    split; [unfold lift_args; now rewrite seq_length|].
    set (first := match c with None => true | Some c => takes_evidence c end).
    assert (E1 : evidence_name (mkFunc name first (lift_args c ps n)
       (lift_head c caps ps n (fst (clone (lift_map c ev caps ps n) (lift_next c caps ps n) b)))) = if first then Some n else None).
    { unfold evidence_name. cbn [f_ev f_params]. destruct first; [|reflexivity]. unfold lift_args.
      replace (List.length ps + 1 + lg c) with (S (List.length ps + lg c)) by lia. reflexivity. }
    rewrite E1.
    assert (E2 : (if first then match l with v :: _ => v | [] => VNull end else VNull) = lam_cur c cur' vs').
    { unfold first, l, lam_cur, lift_actuals. destruct c as [[]|]; cbn; try reflexivity; destruct vs'; try reflexivity;
        (cbn in Hh, Hlen'; lia). }
    rewrite E2.
    assert (Rcur : lv (lam_cur c cur vs) (lam_cur c cur' vs')).
    { destruct c as [cv|]; cbn; [|assumption]. destruct (takes_evidence cv); [|constructor]. destruct Hv; [constructor|assumption]. }
    pose proof (lift_frame c ev caps ps n Hnd Hd Hev Hh) as Hf. fold first in Hf.
    set (n1 := n + (List.length ps + 1 + lg c)) in *.
    set (rho1 := upds empty (lift_args c ps n) l).
    assert (Harg : forall j x, nth_error l j = Some x -> rho1 (n + j) = Some x).
    { intros j x Hj. assert (j < List.length l) by (apply nth_error_Some; congruence).
      apply (upds_in _ _ _ j); [apply seq_NoDup| |assumption]. apply nth_error_seq. lia. }
    (* the body starts in an environment that agrees *)
    assert (Hbody : exists rho2, 
       exec W prim P' (enter W prim P' fuel) (if first then Some n else None) (lam_cur c cur' vs') rho1
         (lift_head c caps ps n (fst (clone (lift_map c ev caps ps n) (lift_next c caps ps n) b))) w
       = exec W prim P' (enter W prim P' fuel) (if first then Some n else None) (lam_cur c cur' vs') rho2
           (fst (clone (lift_map c ev caps ps n) (lift_next c caps ps n) b)) w
       /\ (forall v, v < n1 -> rho2 v = rho1 v)
       /\ (forall j x, nth_error cs' j = Some x -> rho2 (S n1 + j) = Some x)).
    { assert (Hcase : (cs' = [] /\ forall k, lift_head c caps ps n k = k)
         \/ (e' = VData KEnv cs' /\ forall k, lift_head c caps ps n k
              = Seq (ICast (n + environment_index c)) n1 (extract n1 0 (seq (S n1) (List.length caps)) k))).
      { unfold e', lift_head. fold n1. clear - Ecs Rcs. destruct caps as [|a0 caps0]; [left|right; auto].
        cbn in Ecs. injection Ecs as <-. inversion Rcs. auto. }
      assert (Hcl : List.length cs' = List.length caps).
      { rewrite <- (forall2_length _ _ _ Rcs). now apply (values_length rho). }
      destruct Hcase as [[Ec Ek]|[Ec Ek]]; rewrite Ek.
      - exists rho1. repeat split. rewrite Ec. intros [|j] x H; discriminate.
      - assert (Henv : rho1 (n + environment_index c) = Some (VData KEnv cs')).
        { apply Harg. unfold l. rewrite <- Ec. apply actuals_env. rewrite Hlen'. assumption. }
        cbn [exec step]. rewrite Henv.
        destruct (extract_exec (enter W prim P' fuel) (if first then Some n else None) (lam_cur c cur' vs') w
          (fst (clone (lift_map c ev caps ps n) (lift_next c caps ps n) b)) cs' KEnv n1
          (seq (S n1) (List.length caps)) 0 (upd rho1 n1 (VData KEnv cs'))) as (rho2 & E & Hout & Hin).
        + apply upd_same.
        + apply seq_NoDup.
        + rewrite in_seq. lia.
        + intros j Hj. rewrite seq_length in Hj. apply nth_error_Some. cbn [Nat.add]. lia.
        + exists rho2. split; [exact E|]. split.
          * intros v Hlt. rewrite Hout by (rewrite in_seq; lia). apply upd_other. lia.
          * intros j x Hj. apply (Hin j); [|exact Hj]. apply nth_error_seq.
            rewrite <- Hcl. apply nth_error_Some. congruence. }
    destruct Hbody as (rho2 & -> & Hlow & Hcaps).
    apply (clone_exec W prim P P' fuel HC b _ _ _ _ (ps ++ caps ++ olist ev)); auto.
    assert (Hin : forall v, In v (ps ++ caps ++ olist ev) -> In v ps \/ (~ In v ps /\ In v caps) \/ (~ In v ps /\ ev = Some v)).
    { intros v Hi. apply in_app_or in Hi as [Hi|Hi]; [auto|]. assert (~ In v ps) by (intros Hp; now apply (Hd v)).
      apply in_app_or in Hi as [Hi|Hi]; [auto|].
      destruct ev as [e|]; [|destruct Hi]. destruct Hi as [<-|[]]. auto. }
    assert (Hcv : forall j v, nth_error caps j = Some v -> exists x, nth_error cs j = Some x /\ rho v = Some x).
    { clear - Ecs. revert cs Ecs. induction caps as [|a l IH]; intros cs Ecs [|j] v Hj; try discriminate; cbn in *;
        destruct (rho a) as [y|] eqn:Ey; try discriminate; destruct (values rho l) as [ys|]; try discriminate; injection Ecs as <-.
      - injection Hj as <-. eauto.
      - cbn. now apply IH. }
    split.
    - intros v Hi. destruct (Hin v Hi) as [H|[[H0 H]|[H0 H]]].
      + apply In_nth_error in H as [j Hj]. destruct (upds_lookup ps vs (lam_env c ev cur rho) j v Hnd Hlen Hj) as (x & _ & ->). discriminate.
      + rewrite upds_out by assumption. apply In_nth_error in H as [j Hj]. destruct (Hcv j v Hj) as (x & _ & Ex).
        unfold lam_env, set_evidence. destruct c; [congruence|]. destruct ev as [e|]; [|congruence]. unfold upd. destruct (v =? e); congruence.
      + rewrite upds_out by assumption. rewrite H in Hev |- *. destruct Hev as [-> _]. cbn. rewrite upd_same. discriminate.
    - intros v x Hi Hx. destruct (Hin v Hi) as [H|[[H0 H]|[H0 H]]].
      + destruct (lift_map_param c ev caps ps n Hd v H) as (j & Hj & Hj1 & ->).
        destruct (upds_lookup ps vs (lam_env c ev cur rho) j v Hnd Hlen Hj) as (y & Hy & Ey). rewrite Ey in Hx. injection Hx as <-.
        destruct (forall2_nth _ _ _ _ _ Hv Hy) as (y' & Hy' & Ry). exists y'. split; [|assumption].
        pose proof (pos_lt c j _ Hj1). rewrite Hlow by (unfold n1; lia). apply Harg. unfold l.
        rewrite actuals_pos by (rewrite Hlen'; assumption). assumption.
      + rewrite upds_out in Hx by assumption.
        destruct (lift_map_cap c ev caps ps n v H) as (j & Hj & Hj1 & ->). fold n1.
        destruct (Hcv j v Hj) as (y & Hy & Ey).
        assert (x = y).
        { unfold lam_env, set_evidence in Hx. destruct c; [congruence|]. destruct ev as [e|]; [|congruence].
          rewrite upd_other in Hx; [congruence|]. intros ->. now apply Hev. }
        subst y. destruct (forall2_nth _ _ _ _ _ Rcs Hy) as (y' & Hy' & Ry). exists y'. split; [|assumption]. now apply Hcaps.
      + rewrite upds_out in Hx by assumption. rewrite (lift_map_ev c ev caps ps n Hev v H).
        rewrite H in Hev, Hx. destruct Hev as [-> _]. cbn in Hx. rewrite upd_same in Hx. injection Hx as <-.
        exists cur'. split; [|assumption]. rewrite Hlow by (unfold n1; lia). replace n with (n + 0) by lia. apply Harg. reflexivity.
  Qed.
End Turn.
