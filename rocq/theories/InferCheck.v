(** A function with a closed signature keeps it. *)
From Verif Require Import TyProofs UnifySpec UnifyComplete SubstProofs InferRun InferSolve InferFo InferMain.

Lemma fill_closed f t : univars t = [] -> fill f t = t.
Proof.
  assert (A : forall l, Forall (fun t => univars t = [] -> fill f t = t) l -> flat_map univars l = [] -> List.map (fill f) l = l).
  { induction 1 as [|x l H F IH]; cbn; intros E; [reflexivity|]. apply app_eq_nil in E as [E1 E2]. rewrite H, IH; auto. }
  assert (R : forall e : row, Forall (fun x => Forall (fun t => univars t = [] -> fill f t = t) (snd x)) (fst e) ->
    flat_map (fun x => match x with (_, xs) => flat_map univars xs end) (fst e) = [] ->
    List.map (fun x => match x with (a, xs) => (a, List.map (fill f) xs) end) (fst e) = fst e).
  { intros [es v]. cbn. induction 1 as [|[a xs] es H F IH]; cbn; intros E; [reflexivity|]. cbn in H. apply app_eq_nil in E as [E1 E2].
    rewrite (A xs H E1), IH; auto. }
  induction t as [p|i|s i|v|d n args IH|ps r e c IHps IHr IHe|xs IH|c xs IHc IH|a r e IHa IHr IHe|] using ty_induct;
    cbn; intros E; try reflexivity; try discriminate.
  - rewrite A by assumption. reflexivity.
  - apply app_eq_nil in E as [E1 E]. apply app_eq_nil in E as [E2 E3]. rewrite (A ps IHps E1), (IHr E2). rewrite ?app_nil_r in E3.
    pose proof (R e IHe E3) as X. destruct e as [es v]. cbn in X |- *. rewrite X. reflexivity.
  - rewrite A by assumption. reflexivity.
  - apply app_eq_nil in E as [E1 E2]. rewrite IHc, A; auto.
  - apply app_eq_nil in E as [E1 E]. apply app_eq_nil in E as [E2 E3]. rewrite (IHa E1), (IHr E2). rewrite ?app_nil_r in E3.
    pose proof (R e IHe E3) as X. destruct e as [es v]. cbn in X |- *. rewrite X. reflexivity.
Qed.

Lemma closed_signature_kept fns ctors solver pure d sc : plain_sig (declared d) -> fd_arity d = 0 ->
  check_fn fns ctors solver pure d = Some sc -> sc = declared d.
Proof.
  intros [U [B _]] A E. unfold check_fn in E. destruct (solver _) as [f|]; [|discriminate]. cbn [option_map] in E.
  set (t := snd (declared d)) in *. assert (E' : generalize_over [] (fill f (opened t)) = sc) by congruence. subst sc.
  assert (X : bounds t = []).
  { cbn [declared fst] in B. rewrite A in B. destruct (bounds t) as [|i l]; [reflexivity | inversion B; lia]. }
  unfold opened. rewrite (plug_none _ _ X), (fill_closed _ _ U). unfold generalize_over. rewrite U. cbn [uniq filter List.length].
  unfold close_over. rewrite (fill_closed _ _ U). unfold t, declared. cbn. rewrite A. reflexivity.
Qed.

Lemma check_fns_closed cs solver pure : forall ds sigs i final, (forall d, In d ds -> plain_sig (declared d)) ->
  check_fns cs solver pure sigs i ds = Some final -> i + List.length ds <= List.length sigs ->
  forall j d, nth_error ds j = Some d -> fd_arity d = 0 -> nth_error final (i + j) = Some (declared d).
Proof.
  induction ds as [|d ds IH]; intros sigs i final P E L j d' Hj A; [destruct j; discriminate|]. cbn in E, L.
  destruct (check_fn (nth_error sigs) (ctor_table cs) solver pure d) as [sc|] eqn:Ec; [|discriminate]. destruct j as [|j].
  - injection Hj as ->. destruct (check_fns_prefix cs solver pure ds _ _ _ E) as [_ Q]; [rewrite length_set; lia|].
    rewrite Nat.add_0_r, Q by lia. rewrite nth_set by lia. rewrite Nat.eqb_refl. f_equal. eapply closed_signature_kept; eauto. apply P. left. reflexivity.
  - replace (i + S j) with (S i + j) by lia. eapply IH; eauto; [intros; apply P; right; assumption|]. rewrite length_set; lia.
Qed.

Lemma closed_no_early_promises cs solver pure ds final : (forall d, In d ds -> plain_sig (declared d)) ->
  check_program cs solver pure ds = Some final ->
  (forall i d j e, nth_error ds i = Some d -> mentions j (fd_body d) -> i <= j -> nth_error ds j = Some e -> fd_arity e = 0) ->
  no_early_promises ds final.
Proof.
  intros P E H i d j t Hi M L [sc [Hs Ht]]. rewrite nth_error_map in Hs. destruct (nth_error ds j) as [e|] eqn:Ej; [|discriminate]. injection Hs as <-.
  exists (declared e). split; [|exact Ht]. apply (check_fns_closed cs solver pure ds _ 0 final P E); [rewrite map_length; lia | exact Ej|].
  apply (H i d j e Hi M L Ej).
Qed.
