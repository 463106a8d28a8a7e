(** The call graph builder and dead-function elimination. *)
From Verif Require Import CallGraphModel CallGraphSpec TarjanProofs.
From Coq Require Import Lia.

Section ind.
  Variable P : bop -> Prop.
  Hypothesis H : forall k l, Forall P l -> P (BOp k l).
  Fixpoint bop_ind' (b : bop) : P b :=
    match b with BOp k l => H k l ((fix go l := match l return Forall P l with [] => Forall_nil P | x :: r => Forall_cons x (bop_ind' x) (go r) end) l) end.
End ind.
Section ind2.
  Variable P : item -> Prop.
  Hypothesis HF : forall s a b, P (Func s a b).
  Hypothesis HM : forall n s l, Forall P l -> P (Mod n s l).
  Hypothesis HE : forall f, P (Export f).
  Hypothesis HX : forall t, P (Misc t).
  Fixpoint item_ind' (i : item) : P i :=
    match i with
    | Func s a b => HF s a b
    | Mod n s l => HM n s l ((fix go l := match l return Forall P l with [] => Forall_nil P | x :: r => Forall_cons x (item_ind' x) (go r) end) l)
    | Export f => HE f
    | Misc t => HX t
    end.
End ind2.

Lemma flat_map_ext_Forall : forall A B (f h : A -> list B) l, Forall (fun x => f x = h x) l -> flat_map f l = flat_map h l.
Proof. intros A B f h l H. induction H as [|x l E _ IH]; [reflexivity|]. cbn [flat_map]. rewrite E, IH. reflexivity. Qed.

(** ** References of a body *)
Lemma kinds_body : forall k l, op_in_body k l <-> In k (flat_map body_kinds l).
Proof.
  intros k l. split.
  - intro H. induction H as [k nested l H|k k' nested l H _ IH]; rewrite in_flat_map.
    + exists (BOp k nested). split; [exact H|left; reflexivity].
    + exists (BOp k' nested). split; [exact H|right; exact IH].
  - rewrite in_flat_map. intros (b & Hb & Hk). revert l Hb Hk. induction b as [k' nested IH] using bop_ind'. intros l Hb [->|Hk]; [eapply oib_here, Hb|].
    eapply oib_deep; [exact Hb|]. rewrite in_flat_map in Hk. destruct Hk as (b' & Hb' & Hk). rewrite Forall_forall in IH. eapply IH; eassumption.
Qed.
Lemma body_refs_ok : forall body c, In c (body_refs body) <-> refers body c.
Proof.
  intros body c. unfold body_refs, refers. rewrite in_flat_map, !kinds_body. split.
  - intros (k & Hk & Hc). destruct k as [[x|]|[x|]|[x|]|]; try destruct Hc as [->|[]]; try destruct Hc; auto.
  - intros [H|[H|H]]; eexists; (split; [exact H|left; reflexivity]).
Qed.

(** ** The builder *)
Lemma cg_fold_funcs : forall l, cg_funcs (fold_right cg_app cg_nil l) = flat_map cg_funcs l.
Proof. induction l as [|x l IH]; [reflexivity|]. cbn. rewrite IH. reflexivity. Qed.
Lemma cg_fold_edges : forall l, cg_edges (fold_right cg_app cg_nil l) = flat_map cg_edges l.
Proof. induction l as [|x l IH]; [reflexivity|]. cbn. rewrite IH. reflexivity. Qed.
Lemma cg_fold_calls : forall l, cg_calls (fold_right cg_app cg_nil l) = flat_map cg_calls l.
Proof. induction l as [|x l IH]; [reflexivity|]. cbn. rewrite IH. reflexivity. Qed.
Lemma cg_fold_consts : forall l, cg_consts (fold_right cg_app cg_nil l) = flat_map cg_consts l.
Proof. induction l as [|x l IH]; [reflexivity|]. cbn. rewrite IH. reflexivity. Qed.
Lemma fold_map : forall A B (f : A -> B) (h : B -> B -> B) z l, fold_right (fun x acc => h (f x) acc) z l = fold_right h z (map f l).
Proof. induction l as [|x l IH]; [reflexivity|]. cbn. rewrite IH. reflexivity. Qed.
Lemma flat_map_map : forall A B C (f : A -> B) (h : B -> list C) l, flat_map h (map f l) = flat_map (fun x => h (f x)) l.
Proof. induction l as [|x l IH]; [reflexivity|]. cbn. rewrite IH. reflexivity. Qed.
Lemma flat_map_flat_map : forall A B C (f : A -> list B) (h : B -> list C) l, flat_map h (flat_map f l) = flat_map (fun x => flat_map h (f x)) l.
Proof. induction l as [|x l IH]; [reflexivity|]. cbn. rewrite flat_map_app, IH. reflexivity. Qed.

(** Whatever is collected per function, the builder collects over all functions. *)
Definition per {A} (h : list bop -> list A) (fs : list (string * item)) : list A := flat_map (fun p => h (body_of (snd p))) fs.
Lemma analyze_ok : forall i path,
  cg_funcs (analyze path i) = map fst (functions_in by_sym path i) /\
  cg_edges (analyze path i) = flat_map (fun p => map (pair (fst p)) (body_refs (body_of (snd p)))) (functions_in by_sym path i) /\
  cg_calls (analyze path i) = per (fun b => flat_map calls_of (flat_map body_kinds b)) (functions_in by_sym path i) /\
  cg_consts (analyze path i) = per (fun b => flat_map consts_of (flat_map body_kinds b)) (functions_in by_sym path i).
Proof.
  induction i as [s a b|n s l IH|f|t] using item_ind'; intro path; cbn [analyze functions_in]; try (repeat split; reflexivity).
  - destruct s as [n|]; cbn; rewrite ?app_nil_r; repeat split; reflexivity.
  - rewrite fold_map, cg_fold_funcs, cg_fold_edges, cg_fold_calls, cg_fold_consts, !flat_map_map. unfold per, by_sym. rewrite !flat_map_flat_map.
    repeat split.
    + rewrite flat_map_concat_map with (f := fun x => functions_in _ _ x), concat_map, map_map, <- flat_map_concat_map. apply flat_map_ext_Forall. eapply Forall_impl; [|exact IH]. intros x Hx. apply Hx.
    + apply flat_map_ext_Forall. eapply Forall_impl; [|exact IH]. intros x Hx. apply Hx.
    + apply flat_map_ext_Forall. eapply Forall_impl; [|exact IH]. intros x Hx. apply Hx.
    + apply flat_map_ext_Forall. eapply Forall_impl; [|exact IH]. intros x Hx. apply Hx.
Qed.
Lemma build_ok : forall items,
  cg_funcs (build_call_graph items) = map fst (functions by_sym items) /\
  cg_edges (build_call_graph items) = flat_map (fun p => map (pair (fst p)) (body_refs (body_of (snd p)))) (functions by_sym items) /\
  cg_calls (build_call_graph items) = per (fun b => flat_map calls_of (flat_map body_kinds b)) (functions by_sym items) /\
  cg_consts (build_call_graph items) = per (fun b => flat_map consts_of (flat_map body_kinds b)) (functions by_sym items).
Proof.
  intro items. destruct (analyze_ok (Mod None None items) []) as (A & B & C & D). auto.
Qed.
Lemma edges_ok : forall (fs : list (string * item)) f c,
  In (f, c) (flat_map (fun p => map (pair (fst p)) (body_refs (body_of (snd p)))) fs) <-> refers_to fs f c.
Proof.
  intros fs f c. unfold refers_to. rewrite in_flat_map. split.
  - intros ((f' & i) & Hi & Hc). apply in_map_iff in Hc as (c' & [= -> ->] & Hc). exists i. split; [exact Hi|apply body_refs_ok, Hc].
  - intros (i & Hi & Hc). exists (f, i). split; [exact Hi|]. apply in_map_iff. exists c. split; [reflexivity|apply body_refs_ok, Hc].
Qed.

Lemma call_graph_ok : forall items,
  (forall f, In f (cg_funcs (build_call_graph items)) <-> exists i, In (f, i) (functions by_sym items)) /\
  (forall f c, In (f, c) (cg_edges (build_call_graph items)) <-> refers_to (functions by_sym items) f c) /\
  (forall c, In c (cg_consts (build_call_graph items)) <-> exists f i, In (f, i) (functions by_sym items) /\ op_in_body (BConstant (Some c)) (body_of i)) /\
  (forall f, call_site_count (build_call_graph items) f = list_sum (map (fun p => list_sum (map (call_sites f) (body_of (snd p)))) (functions by_sym items))).
Proof.
  intro items. destruct (build_ok items) as (A & B & C & D). repeat split.
  - rewrite A. intro H. apply in_map_iff in H as ((f' & i) & <- & H). exists i. exact H.
  - rewrite A. intros (i & H). apply in_map_iff. exists (f, i). auto.
  - rewrite B. apply edges_ok.
  - rewrite B. apply edges_ok.
  - rewrite D. unfold per. rewrite in_flat_map. intros ((f & i) & Hi & Hc). apply in_flat_map in Hc as (k & Hk & Hc). destruct k as [[x|]|[x|]|[x|]|]; try destruct Hc as [->|[]]; try destruct Hc.
    exists f, i. split; [exact Hi|apply kinds_body, Hk].
  - rewrite D. unfold per. intros (f & i & Hi & Hk). apply in_flat_map. exists (f, i). split; [exact Hi|]. apply in_flat_map. exists (BConstant (Some c)). split; [apply kinds_body, Hk|left; reflexivity].
  - intro f. unfold call_site_count. rewrite C. unfold per.
    assert (K : forall k, List.length (filter (String.eqb f) (calls_of k)) = is_call f k).
    { intros [[x|]|[x|]|[x|]|]; cbn; try reflexivity; destruct (String.eqb_spec f x), (string_dec x f); congruence || reflexivity. }
    assert (KS : forall (l : list bkind), List.length (filter (String.eqb f) (flat_map calls_of l)) = list_sum (map (is_call f) l)).
    { induction l as [|k l IH]; [reflexivity|]. cbn [flat_map map list_sum fold_right]. rewrite filter_app, app_length, K, IH. reflexivity. }
    assert (BS : forall l, list_sum (map (is_call f) (flat_map body_kinds l)) = list_sum (map (call_sites f) l)).
    { assert (B1 : forall b, list_sum (map (is_call f) (body_kinds b)) = call_sites f b).
      { induction b as [k l IH] using bop_ind'. cbn [body_kinds call_sites map]. change (list_sum (is_call f k :: ?r)) with (is_call f k + list_sum r). f_equal.
        induction IH as [|b l E _ IH2]; [reflexivity|]. cbn [flat_map map]. rewrite map_app, list_sum_app, E, IH2. reflexivity. }
      induction l as [|b l IH]; [reflexivity|]. cbn [flat_map map]. rewrite map_app, list_sum_app, B1, IH. reflexivity. }
    clear -KS BS. induction (functions by_sym items) as [|p l IH]; [reflexivity|]. cbn [flat_map map]. rewrite filter_app, app_length, IH, KS, BS. reflexivity.
Qed.

(** ** Reachability *)
Lemma smem_In : forall x l, smem x l = true <-> In x l.
Proof.
  intros x l. unfold smem. rewrite existsb_exists. split; [intros (y & H & E); apply String.eqb_eq in E; subst; exact H|intro H; exists x; split; [exact H|apply String.eqb_refl]].
Qed.
Lemma callees_In : forall es f c, In c (callees es f) <-> In (f, c) es.
Proof.
  intros es f c. unfold callees. rewrite in_map_iff. split.
  - intros ((f' & c') & E & H). cbn in E. subst c'. apply filter_In in H as (H & E). apply String.eqb_eq in E. cbn in E. subst. exact H.
  - intro H. exists (f, c). split; [reflexivity|]. apply filter_In. split; [exact H|apply String.eqb_refl].
Qed.
Definition todo (es : list (string * string)) (seen : list string) : nat := List.length (filter (fun e => negb (smem (fst e) seen)) es).
Lemma todo_step : forall es seen f, smem f seen = false -> List.length (callees es f) + todo es (f :: seen) = todo es seen.
Proof.
  intros es seen f Hf. unfold todo, callees. rewrite map_length. induction es as [|(a & b) es IH]; [reflexivity|]. cbn [filter fst]. cbn [smem existsb]. fold (smem a seen).
  destruct (String.eqb_spec a f) as [->|N]; cbn [orb negb].
  - rewrite Hf. cbn [negb List.length]. cbn [smem existsb] in IH. lia.
  - destruct (smem a seen); cbn [negb List.length]; cbn [smem existsb] in IH; lia.
Qed.
Lemma filter_le : forall A (p : A -> bool) l, List.length (filter p l) <= List.length l.
Proof. intros A p l. induction l as [|x l IH]; [apply Nat.le_refl|]. cbn. destruct (p x); cbn; lia. Qed.

Lemma compute_reachable_ok : forall es roots fuel work seen, List.length work + todo es seen <= fuel ->
  (forall x, In x work \/ In x seen -> exists r, In r roots /\ reach (fun a b => In (a, b) es) r x) ->
  (forall r, In r roots -> In r work \/ In r seen) ->
  (forall x y, In x seen -> In (x, y) es -> In y work \/ In y seen) ->
  exists live, compute_reachable fuel es work seen = Some live /\ forall x, In x live <-> exists r, In r roots /\ reach (fun a b => In (a, b) es) r x.
Proof.
  intros es roots fuel. induction fuel as [|n IH]; intros work seen Hf Hr Hroots Hclosed.
  - destruct work as [|f work]; [|cbn in Hf; lia]. exists seen. split; [reflexivity|]. intro x. split; [intro H; apply Hr; right; exact H|].
    intros (r & R1 & R2). induction R2 as [|y z R IHR E]; [destruct (Hroots r R1) as [[]|Q]; exact Q|]. destruct (Hclosed y z IHR E) as [[]|Q]; exact Q.
  - destruct work as [|f work].
    { exists seen. split; [reflexivity|]. intro x. split; [intro H; apply Hr; right; exact H|].
      intros (r & R1 & R2). induction R2 as [|y z R IHR E]; [destruct (Hroots r R1) as [[]|Q]; exact Q|]. destruct (Hclosed y z IHR E) as [[]|Q]; exact Q. }
    cbn [compute_reachable]. cbn [List.length] in Hf. destruct (smem f seen) eqn:Ef.
    + apply smem_In in Ef. apply IH.
      * lia.
      * intros x Hx. apply Hr. destruct Hx as [Hx|Hx]; [left; right; exact Hx|right; exact Hx].
      * intros r H. destruct (Hroots r H) as [[<-|Q]|Q]; auto.
      * intros x y Hx E. destruct (Hclosed x y Hx E) as [[<-|Q]|Q]; auto.
    + apply IH.
      * rewrite app_length. pose proof (todo_step es seen f Ef). pose proof (filter_le _ (fun c => negb (smem c (f :: seen))) (callees es f)). lia.
      * destruct (Hr f (or_introl (or_introl eq_refl))) as (r & R1 & R2).
        intros x [Hx|[<-|Hx]].
        -- apply in_app_iff in Hx as [Hx|Hx]; [apply Hr; left; right; exact Hx|]. apply filter_In in Hx as (Hx & _). apply callees_In in Hx. exists r. split; [exact R1|]. eapply reach_step; [exact R2|exact Hx].
        -- exists r. auto.
        -- apply Hr. right. exact Hx.
      * intros r H. destruct (Hroots r H) as [[<-|Q]|Q]; [right; left; reflexivity|left; apply in_app_iff; left; exact Q|right; right; exact Q].
      * intros x y [<-|Hx] E.
        -- destruct (smem y (f :: seen)) eqn:Ey; [right; apply smem_In, Ey|]. left. apply in_app_iff. right. apply filter_In. split; [apply callees_In, E|]. rewrite Ey. reflexivity.
        -- destruct (Hclosed x y Hx E) as [[<-|Q]|Q]; [right; left; reflexivity|left; apply in_app_iff; left; exact Q|right; right; exact Q].
Qed.

(** ** Analysis for dead-function elimination *)
Lemma an_fold_roots : forall l, a_roots (fold_right an_app an_nil l) = flat_map a_roots l.
Proof. induction l as [|x l IH]; [reflexivity|]. cbn. rewrite IH. reflexivity. Qed.
Lemma an_fold_edges : forall l, a_edges (fold_right an_app an_nil l) = flat_map a_edges l.
Proof. induction l as [|x l IH]; [reflexivity|]. cbn. rewrite IH. reflexivity. Qed.
Definition edges_in (fs : list (string * item)) := flat_map (fun p => map (pair (fst p)) (body_refs (body_of (snd p)))) fs.

Lemma is_root_ok : forall cfg q b abi, is_root cfg q b abi = true <->
  (b = "main"%string \/ b = "_start"%string \/ abi = true \/ In q (extra_entry_points cfg) \/ In b (extra_entry_points cfg)).
Proof.
  intros cfg q b abi. unfold is_root. rewrite !Bool.orb_true_iff, !String.eqb_eq, existsb_exists. split.
  - intros [[[H|H]|H]|(e & He & H)]; auto. apply Bool.orb_true_iff in H as [H|H]; apply String.eqb_eq in H; subst; auto.
  - intros [H|[H|[H|[H|H]]]]; auto; right; [exists q|exists b]; (split; [exact H|]); rewrite String.eqb_refl; auto. apply Bool.orb_true_r.
Qed.

Lemma dce_analyze_ok : forall cfg i path, visible cfg i = true -> recursive cfg = true \/ (forall n s l, i <> Mod n s l) ->
  a_edges (dce_analyze cfg path i) = edges_in (functions_in by_name path i) /\
  (forall r, In r (a_roots (dce_analyze cfg path i)) <-> entry cfg (functions_in by_name path i) (exports_in i) r).
Proof.
  intros cfg i. induction i as [s a b|n s l IH|f|t] using item_ind'; intros path Hv Hrec.
  - destruct s as [n|]; cbn [dce_analyze functions_in exports_in].
    + split; [unfold edges_in; cbn; rewrite app_nil_r; reflexivity|]. intro r. unfold entry. cbn [a_roots].
      destruct (is_root cfg (join path n) n a) eqn:E; cbn [In].
      * apply is_root_ok in E. split.
        -- intros [<-|[]]. right. exists n, a, b. split; [left; reflexivity|exact E].
        -- intros [[]|(n' & a' & b' & [H|[]] & _)]. injection H as -> _ _ _. left. reflexivity.
      * split; [intros []|]. intros [[]|(n' & a' & b' & [H|[]] & Q)]. injection H as <- -> -> ->. apply is_root_ok in Q. congruence.
    + split; [reflexivity|]. intro r. unfold entry. cbn. split; [intros []|intros [[]|(n' & a' & b' & [] & _)]].
  - cbn [visible] in Hv. cbn [dce_analyze functions_in exports_in]. rewrite Hv, fold_map, an_fold_roots, an_fold_edges, !flat_map_map.
    assert (IH' : Forall (fun i => a_edges (dce_analyze cfg (extend path n) i) = edges_in (functions_in by_name (extend path n) i) /\
      (forall r, In r (a_roots (dce_analyze cfg (extend path n) i)) <-> entry cfg (functions_in by_name (extend path n) i) (exports_in i) r)) l).
    { eapply Forall_impl; [|exact IH]. intros x Hx. apply Hx; [|left; exact Hv]. destruct x; cbn; auto. }
    clear IH. split.
    + unfold edges_in, by_name. rewrite flat_map_flat_map. apply flat_map_ext_Forall. eapply Forall_impl; [|exact IH']. intros x (Hx & _). exact Hx.
    + intro r. rewrite in_flat_map. rewrite Forall_forall in IH'. unfold by_name. split.
      * intros (x & Hx & H). apply (IH' x Hx) in H. destruct H as [H|(n' & a' & b' & H & Q)].
        -- left. apply in_flat_map. exists x. auto.
        -- right. exists n', a', b'. split; [apply in_flat_map; exists x; auto|exact Q].
      * intros [H|(n' & a' & b' & H & Q)]; apply in_flat_map in H as (x & Hx & H); exists x; (split; [exact Hx|]); apply (IH' x Hx).
        -- left. exact H.
        -- right. exists n', a', b'. auto.
  - destruct f as [f|]; cbn [dce_analyze functions_in exports_in]; (split; [reflexivity|]); intro r; unfold entry; cbn.
    + split; [intros [H|[]]; left; left; exact H|]. intros [[H|[]]|(n' & a' & b' & [] & _)]. left. exact H.
    + split; [intros []|intros [[]|(n' & a' & b' & [] & _)]].
  - split; [reflexivity|]. intro r. unfold entry. cbn. split; [intros []|intros [[]|(n' & a' & b' & [] & _)]].
Qed.
Lemma dce_analysis_ok : forall cfg items,
  a_edges (dce_analysis cfg items) = edges_in (dce_functions cfg items) /\
  (forall r, In r (a_roots (dce_analysis cfg items)) <-> entry cfg (dce_functions cfg items) (dce_exports cfg items) r).
Proof.
  intros cfg items. unfold dce_analysis, dce_functions, dce_exports, functions. rewrite fold_map, an_fold_roots, an_fold_edges, !flat_map_map.
  assert (V : forall i, visible cfg i = true -> recursive cfg = true \/ (forall n s l, i <> Mod n s l)).
  { intros [s a b|n s l|f|t] H; try (right; intros; discriminate). left. exact H. }
  assert (NV : forall i, visible cfg i = false -> dce_analyze cfg [] i = an_nil).
  { intros [s a b|n s l|f|t] H; try discriminate. cbn [dce_analyze]. cbn in H. rewrite H. reflexivity. }
  split.
  - induction items as [|i items IH]; [reflexivity|]. cbn [flat_map filter]. destruct (visible cfg i) eqn:E.
    + cbn [flat_map]. unfold edges_in in *. rewrite flat_map_app, <- IH. destruct (dce_analyze_ok cfg i [] E (V i E)) as (A & _). rewrite A. reflexivity.
    + rewrite NV by exact E. exact IH.
  - intro r. rewrite in_flat_map. split.
    + intros (i & Hi & H). destruct (visible cfg i) eqn:E; [|rewrite NV in H by exact E; destruct H].
      apply (dce_analyze_ok cfg i [] E (V i E)) in H. assert (Hf : In i (filter (visible cfg) items)) by (apply filter_In; auto).
      destruct H as [H|(n' & a' & b' & H & Q)]; [left; apply in_flat_map; exists i; auto|right; exists n', a', b'; split; [apply in_flat_map; exists i; auto|exact Q]].
    + intros [H|(n' & a' & b' & H & Q)]; apply in_flat_map in H as (i & Hi & H); apply filter_In in Hi as (Hi & E); exists i; (split; [exact Hi|]); apply (dce_analyze_ok cfg i [] E (V i E)).
      * left. exact H.
      * right. exists n', a', b'. auto.
Qed.

(** ** What is left *)
Definition kept (lv : list string) (p : string * item) : bool := smem (fst p) lv.
Lemma filter_flat_map : forall A B (p : B -> bool) (f : A -> list B) l, filter p (flat_map f l) = flat_map (fun x => filter p (f x)) l.
Proof. induction l as [|x l IH]; [reflexivity|]. cbn. rewrite filter_app, IH. reflexivity. Qed.
Lemma map_flat_map : forall A B C (h : B -> C) (f : A -> list B) l, map h (flat_map f l) = flat_map (fun x => map h (f x)) l.
Proof. induction l as [|x l IH]; [reflexivity|]. cbn. rewrite map_app, IH. reflexivity. Qed.

Lemma filter_item_ok : forall cfg lv, recursive cfg = true -> forall i path,
  flat_map (functions_in by_name path) (fst (filter_item cfg lv path i)) = filter (kept lv) (functions_in by_name path i) /\
  snd (filter_item cfg lv path i) = map fst (filter (fun p => negb (kept lv p)) (functions_in by_name path i)) /\
  flat_map rest_of (fst (filter_item cfg lv path i)) = rest_of i.
Proof.
  intros cfg lv Hrec i. induction i as [s a b|n s l IH|f|t] using item_ind'; intro path.
  - destruct s as [n|]; cbn [filter_item functions_in]; [|repeat split; reflexivity].
    unfold kept. destruct (smem (join path n) lv) eqn:E; cbn; rewrite ?E; repeat split; reflexivity.
  - cbn [filter_item functions_in rest_of]. rewrite Hrec. cbn [fst snd flat_map functions_in rest_of]. rewrite !app_nil_r, !flat_map_map.
    unfold by_name. repeat split.
    + rewrite flat_map_flat_map, filter_flat_map. apply flat_map_ext_Forall. eapply Forall_impl; [|exact IH]. intros x Hx. apply Hx.
    + rewrite filter_flat_map, map_flat_map. apply flat_map_ext_Forall. eapply Forall_impl; [|exact IH]. intros x Hx. apply Hx.
    + rewrite flat_map_flat_map. f_equal. f_equal. apply flat_map_ext_Forall. eapply Forall_impl; [|exact IH]. intros x Hx. apply (Hx (extend path n)).
  - destruct f; cbn; repeat split; reflexivity.
  - cbn. repeat split; reflexivity.
Qed.
Lemma visible_filter : forall cfg lv i path, visible cfg i = true ->
  Forall (fun j => visible cfg j = true) (fst (filter_item cfg lv path i)) /\
  flat_map (functions_in by_name path) (fst (filter_item cfg lv path i)) = filter (kept lv) (functions_in by_name path i) /\
  snd (filter_item cfg lv path i) = map fst (filter (fun p => negb (kept lv p)) (functions_in by_name path i)) /\
  flat_map rest_of (fst (filter_item cfg lv path i)) = rest_of i.
Proof.
  intros cfg lv i path H. destruct (recursive cfg) eqn:E.
  - split; [|apply filter_item_ok, E]. apply Forall_forall. intros j _. destruct j; cbn; auto.
  - destruct i as [s a b|n s l|f|t].
    + destruct s as [n|]; cbn [filter_item functions_in].
      * unfold kept. destruct (smem (join path n) lv) eqn:E'; cbn; rewrite ?E'; repeat split; auto.
      * cbn. repeat split; auto.
    + cbn in H. congruence.
    + destruct f; cbn; repeat split; auto.
    + cbn; repeat split; auto.
Qed.

Lemma eliminate_ok : forall cfg items, exists items' removed keep,
  eliminate_dead_functions cfg items = Some (items', removed) /\
  (forall f, keep f = true <-> live cfg items f) /\
  dce_functions cfg items' = filter (fun p => keep (fst p)) (dce_functions cfg items) /\
  removed = map fst (filter (fun p => negb (keep (fst p))) (dce_functions cfg items)) /\
  flat_map (dce_rest cfg) items' = flat_map (dce_rest cfg) items.
Proof.
  intros cfg items. destruct (dce_analysis_ok cfg items) as (Ae & Ar). unfold eliminate_dead_functions.
  set (a := dce_analysis cfg items) in *.
  destruct (compute_reachable_ok (a_edges a) (a_roots a) (List.length (a_roots a) + List.length (a_edges a)) (a_roots a) []) as (lv & E & Hlv).
  - unfold todo. pose proof (filter_le _ (fun e : string * string => negb (smem (fst e) [])) (a_edges a)). lia.
  - intros x [H|[]]. exists x. split; [exact H|apply reach_refl].
  - auto.
  - intros x y [].
  - rewrite E. do 2 eexists. exists (fun f => smem f lv). split; [reflexivity|]. split.
    { intro f. rewrite smem_In, Hlv. unfold live. assert (RR : forall r, reach (fun x y => In (x, y) (a_edges a)) r f <-> reach (refers_to (dce_functions cfg items)) r f).
      { intro r. split; intro H; induction H as [|y z H IH R]; try apply reach_refl; eapply reach_step; try exact IH.
        - rewrite Ae in R. apply edges_ok, R.
        - rewrite Ae. apply edges_ok, R. }
      split; intros (r & R1 & R2); exists r; (split; [apply Ar, R1|apply RR, R2]). }
    rewrite !flat_map_map. unfold dce_functions, functions. clear -lv.
    assert (NV : forall i, visible cfg i = false -> filter_item cfg lv [] i = ([i], [])).
    { intros [s x b|n s l|f|t] H; try discriminate. cbn in H. cbn [filter_item]. rewrite H. reflexivity. }
    induction items as [|i items (IH1 & IH2 & IH3)]; [repeat split; reflexivity|]. cbn [flat_map filter].
    rewrite filter_app. destruct (visible cfg i) eqn:E; cbn [flat_map].
    + destruct (visible_filter cfg lv i [] E) as (V1 & V2 & V3 & V4). rewrite !flat_map_app, !filter_app, map_app. rewrite IH1, IH2, IH3.
      assert (Q : filter (visible cfg) (fst (filter_item cfg lv [] i)) = fst (filter_item cfg lv [] i)).
      { clear -V1. induction V1 as [|x l H _ IH]; [reflexivity|]. cbn. rewrite H, IH. reflexivity. }
      rewrite Q, V2, V3. repeat split; try reflexivity. f_equal. unfold dce_rest at 2. rewrite E, <- V4. clear -V1. induction V1 as [|x l H _ IH]; [reflexivity|]. cbn. unfold dce_rest at 1. rewrite H, IH. reflexivity.
    + rewrite (NV i E). cbn [fst snd filter flat_map app]. rewrite E. cbn [flat_map app]. repeat split; try assumption. rewrite IH3. reflexivity.
Qed.

(** ** Calls between surviving functions *)
Lemma named_alike_functions : forall i path, named_alike i -> functions_in by_name path i = functions_in by_sym path i.
Proof.
  induction i as [s a b|n s l IH|f|t] using item_ind'; intros path H; try reflexivity.
  cbn [functions_in]. cbn [named_alike] in H. destruct H as (-> & H). unfold by_name, by_sym. apply flat_map_ext_Forall. induction IH as [|x l Hx _ IHl]; [constructor|]. cbn in H. destruct H as (H1 & H2). constructor; [apply Hx, H1|apply IHl, H2].
Qed.
Lemma dce_keeps_calls : forall cfg items items' removed, recursive cfg = true -> Forall named_alike items ->
  eliminate_dead_functions cfg items = Some (items', removed) ->
  forall f i c j, In (f, i) (functions by_sym items) -> live cfg items f -> refers (body_of i) c -> In (c, j) (functions by_sym items) ->
  In (f, i) (functions by_name items') /\ In (c, j) (functions by_name items').
Proof.
  intros cfg items items' removed Hrec Hn E f i c j Hf Hl Hc Hj. destruct (eliminate_ok cfg items) as (it & rm & keep & E' & K1 & K2 & _). rewrite E in E'. injection E' as <- <-.
  assert (Vis : forall l, filter (visible cfg) l = l) by (induction l as [|x l IH]; [reflexivity|cbn; rewrite IH; destruct x; cbn; rewrite ?Hrec; reflexivity]).
  assert (Fs : functions by_name items = functions by_sym items).
  { unfold functions. apply flat_map_ext_Forall. eapply Forall_impl; [|exact Hn]. intros x Hx. apply named_alike_functions, Hx. }
  unfold dce_functions in K2. rewrite !Vis in K2. rewrite K2, Fs. split; apply filter_In; (split; [assumption|]); cbn [fst]; apply K1; [exact Hl|].
  destruct Hl as (r & R1 & R2). exists r. split; [exact R1|]. eapply reach_step; [exact R2|]. unfold dce_functions. rewrite Vis, Fs. exists i. auto.
Qed.

Lemma reach_iff : forall K (R R' : K -> K -> Prop), (forall a b, R a b <-> R' a b) -> forall a b, reach R a b <-> reach R' a b.
Proof. intros K R R' H a b. split; intro Q; induction Q as [|y z Q IH E]; try apply reach_refl; (eapply reach_step; [exact IH|apply H, E]). Qed.
Lemma module_recursion_ok : forall items g n, view_of (build_call_graph items) g -> List.length (keys g) < n ->
  exists s, tarjan_scc String.eqb n g = Some s /\
    forall f, In f (recursive_functions String.eqb g s) <->
      ((exists i, In (f, i) (functions by_sym items)) /\
       reach1 (fun a b => refers_to (functions by_sym items) a b /\ exists i, In (b, i) (functions by_sym items)) f f).
Proof.
  intros items g n (V1 & V2 & V3) Hn. destruct (call_graph_ok items) as (A & B & _).
  destruct (recursive_ok String.eqb String.eqb_eq g V1 n Hn) as (s & E & H). exists s. split; [exact E|]. intro f. rewrite H, V2, A.
  assert (Q : forall a b, calls g a b <-> (refers_to (functions by_sym items) a b /\ exists i, In (b, i) (functions by_sym items))) by (intros a b; unfold calls; rewrite V3, V2, A, B; reflexivity).
  unfold reach1. split; intros (H1 & y & H2 & H3); (split; [exact H1|exists y; split; [apply Q, H2|eapply reach_iff; [|exact H3]; intros a b; rewrite Q; reflexivity]]).
Qed.
