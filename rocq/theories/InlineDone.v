(** The policy, and that nothing is left to inline. *)
From Coq Require Import Lia.
From Verif Require Import CallGraphSpec TarjanProofs CallGraphProofs.
From Verif Require Export InlineTerm.

Lemma flat_map_flat_map {A B C} (f : A -> list B) (g : B -> list C) l : flat_map g (flat_map f l) = flat_map (fun x => flat_map g (f x)) l.
Proof. induction l as [|x l IH]; auto. cbn [flat_map]. rewrite flat_map_app, IH. reflexivity. Qed.
Lemma map_flat_map {A B C} (f : A -> list B) (g : B -> C) l : map g (flat_map f l) = flat_map (fun x => map g (f x)) l.
Proof. induction l as [|x l IH]; auto. cbn [flat_map]. rewrite map_app, IH. reflexivity. Qed.
Lemma flat_map_same {A B} (f g : A -> list B) l : Forall (fun x => f x = g x) l -> flat_map f l = flat_map g l.
Proof. induction 1 as [|x l H F IH]; auto. cbn. congruence. Qed.
Lemma sum_length {A B} (f : A -> list B) (n : A -> nat) l : Forall (fun x => n x = List.length (f x)) l -> list_sum (map n l) = List.length (flat_map f l).
Proof. induction 1 as [|x l H F IH]; auto. cbn [map flat_map list_sum fold_right]. rewrite app_length. unfold list_sum in IH. congruence. Qed.
Lemma within_kinds : (forall o, op_kinds o = map kind_of (op_within o) /\ op_count o = List.length (op_within o)) /\ (forall r, region_kinds r = map kind_of (region_within r) /\ region_count r = List.length (region_within r)) /\
  (forall b, block_kinds b = map kind_of (block_within b) /\ block_count b = List.length (block_within b)).
Proof.
  apply op_all.
  - intros rs k xs rg IH. split.
    + cbn [op_kinds op_within map kind_of]. f_equal. rewrite map_flat_map. apply flat_map_same. eapply Forall_impl; [|exact IH]. intros ? [? ?]; assumption.
    + cbn [op_count op_within List.length]. f_equal. apply sum_length. eapply Forall_impl; [|exact IH]. intros ? [? ?]; assumption.
  - intros bs IH. split.
    + cbn [region_kinds region_within]. rewrite map_flat_map. apply flat_map_same. eapply Forall_impl; [|exact IH]. intros ? [? ?]; assumption.
    + cbn [region_count region_within]. apply sum_length. eapply Forall_impl; [|exact IH]. intros ? [? ?]; assumption.
  - intros args ops IH. split.
    + cbn [block_kinds block_within]. rewrite map_flat_map. apply flat_map_same. eapply Forall_impl; [|exact IH]. intros ? [? ?]; assumption.
    + cbn [block_count block_within]. apply sum_length. eapply Forall_impl; [|exact IH]. intros ? [? ?]; assumption.
Qed.
Lemma func_kinds_ops x : func_kinds x = map kind_of (func_ops x).
Proof. unfold func_kinds, func_ops. rewrite map_flat_map. apply flat_map_same. apply Forall_forall. intros r _. apply within_kinds. Qed.
Lemma func_count x : list_sum (map region_count (regions_of x)) = List.length (func_ops x).
Proof. unfold func_ops. apply sum_length. apply Forall_forall. intros r _. apply within_kinds. Qed.
Lemma escapes_exact p g : escapes p g = true <-> referenced p g.
Proof.
  unfold escapes. rewrite mem_in, in_flat_map. unfold referenced. split.
  - intros (x & I & K). apply in_flat_map in K as (k & K & J). rewrite func_kinds_ops in K. apply in_map_iff in K as (o & <- & K). exists x, o. split; auto. split; auto. destruct (kind_of o); cbn in J; try tauto. destruct J as [->|[]]. auto.
  - intros (x & o & I & J & K). exists x. split; auto. apply in_flat_map. exists (Constant g). split; [|left; auto]. rewrite func_kinds_ops. apply in_map_iff. eauto.
Qed.
Lemma site_count_exact p g : site_count p g = call_count p g.
Proof.
  unfold site_count, call_count, sites. transitivity (List.length (filter (N.eqb g) (flat_map kind_calls (map kind_of (flat_map func_ops p))))).
  - do 2 f_equal. induction p as [|x p IH]; auto. cbn [flat_map]. rewrite map_app, flat_map_app, <- IH, func_kinds_ops. reflexivity.
  - induction (flat_map func_ops p) as [|o l IH]; auto. cbn [map flat_map filter]. rewrite filter_app, app_length, IH. unfold calls_to. destruct (kind_of o); cbn [kind_calls filter]; rewrite ?(N.eqb_sym g); try reflexivity; destruct (N.eqb _ g); reflexivity.
Qed.
Lemma rel_exact p f g : NoDup (map name p) -> (calls (call_graph p) f g <-> refers_to p f g).
Proof.
  intros D. unfold calls, refers_to. cbn [call_graph edges keys]. split.
  - intros [H K]. destruct (lookup p f) as [x|] eqn:L; [|destruct H]. apply lookup_name in L as [I E]. apply in_refs in H as (k & Hk & R). rewrite func_kinds_ops in Hk. apply in_map_iff in Hk as (o & <- & Ho). exists x, o. repeat split; auto. destruct (kind_of o); cbn in R; try tauto; destruct R as [->|[]]; auto.
  - intros (x & o & I & <- & Ho & Ko & K). split; auto. rewrite (lookup_exact p x D I). apply in_refs. exists (kind_of o). split; [rewrite func_kinds_ops; apply in_map; auto|]. destruct Ko as [->|[->| ->]]; left; auto.
Qed.
Lemma reach_clos {K} (R R' : K -> K -> Prop) x y : (forall a b, R a b <-> R' a b) -> (reach1 R x y <-> clos_trans K R' x y).
Proof.
  intros E. split.
  - intros (a & A & B). assert (C : clos_trans K R' x a) by (apply t_step, E; auto). clear A. induction B; auto. eapply t_trans; [exact IHB|apply t_step, E; auto].
  - intros H. induction H; [exists y; split; [apply E; auto|constructor]|eapply reach1_trans; eauto].
Qed.
Lemma policy p rec cfg g : NoDup (map name p) -> recursive_in p = Some rec -> (should_inline cfg p rec p g = true <-> may_inline cfg p g).
Proof.
  intros D Er. destruct (weights p D) as (rec' & W & Er' & Rx & _). rewrite Er in Er'. injection Er' as <-. unfold should_inline, may_inline. split.
  - destruct (lookup p g) as [x|] eqn:L; [|discriminate]. apply lookup_name in L as [I E]. intros H. exists x. split; auto. split; auto. destruct (regions_of x) eqn:Eg; [discriminate|]. rewrite <- Eg in *. split; [congruence|]. destruct (abi x); [discriminate|]. split; auto.
    destruct (mem g rec) eqn:Em; [discriminate|]. split.
    { intros C. assert (mem g rec = true); [|congruence]. apply mem_in, Rx. split; [rewrite <- E; apply in_map; auto|]. eapply reach_clos; [|exact C]. intros. apply rel_exact. exact D. }
    rewrite site_count_exact in H. destruct (always_inline_single_call_site cfg && negb (escapes p g) && Nat.eqb (call_count p g) 1) eqn:E1.
    + left. apply andb_true_iff in E1 as [E1 E3]. apply andb_true_iff in E1 as [E1 E2]. split; auto. apply Nat.eqb_eq in E3. split; auto. intros R. apply escapes_exact in R. rewrite R in E2. discriminate.
    + right. destruct (negb (escapes p g) || inline_across_func_constant cfg) eqn:E2; [|discriminate]. rewrite func_count in H. apply Nat.leb_le in H. split; auto. apply orb_true_iff in E2 as [E2|E2]; auto. left. intros R. apply escapes_exact in R. rewrite R in E2. discriminate.
  - intros (x & I & <- & Rg & Ab & Nc & H). rewrite (lookup_exact p x D I). destruct (regions_of x) eqn:Eg; [congruence|]. rewrite <- Eg in *. rewrite Ab.
    destruct (mem (name x) rec) eqn:Em. { exfalso. apply Nc. apply mem_in, Rx in Em as [_ C]. eapply reach_clos; [|exact C]. intros. apply rel_exact. exact D. }
    rewrite site_count_exact, func_count. destruct H as [(H1 & H2 & H3)|(H1 & H2)].
    + destruct (escapes p (name x)) eqn:Es; [apply escapes_exact in Es; contradiction|]. rewrite H1, H3. reflexivity.
    + apply Nat.leb_le in H2. rewrite H2. destruct (_ && _ && _); auto. destruct (escapes p (name x)) eqn:Es; cbn [negb orb]; auto. destruct H1 as [H1|H1]; [apply escapes_exact in Es; contradiction|rewrite H1; auto].
Qed.

(** ** A visit that inlines nothing *)
Section Still.
  Variables (pick : N -> bool) (p : list func).
  Lemma look_nil xs : map (look []) xs = xs.
  Proof. rewrite <- (map_id xs) at 2. apply map_ext. reflexivity. Qed.
  Definition refused (o : op) : Prop := match o with Op _ k xs _ => forall n, site pick p n k xs = None end.
  Definition still_op (o : op) : Prop := forall next next' os sub', visit_op pick p [] next o = (next', 0, os, sub') -> next' = next /\ os = [o] /\ sub' = [] /\ Forall refused (op_within o).
  Definition still_region (r : region) : Prop := forall next next' r', visit_region pick p [] next r = (next', 0, r') -> next' = next /\ r' = r /\ Forall refused (region_within r).
  Lemma splice_any n n' x xs : splice n x xs = None -> splice n' x xs = None.
  Proof.
    unfold splice. destruct (regions_of x) as [|[[|[params ops] [|]]] rest]; auto. destruct (Nat.eqb _ _); auto. destruct (split_last ops) as [[body [rs k ys rg]]|]; auto. destruct k; auto. destruct (clone_list clone_op n _ body) as [[? ?] ?]. discriminate.
  Qed.
  Lemma site_any n n' k xs : site pick p n k xs = None -> site pick p n' k xs = None.
  Proof. unfold site. destruct k; auto; destruct (pick callee); auto; destruct (lookup p callee); auto; apply splice_any. Qed.
  Lemma still_ops ops : Forall still_op ops -> forall next next' ops', visit_ops (visit_op pick p) [] next ops = (next', 0, ops') -> next' = next /\ ops' = ops /\ Forall refused (flat_map op_within ops).
  Proof.
    induction 1 as [|o l H F IH]; intros next next' ops' E; cbn [visit_ops] in E; [injection E as <- <-; repeat split; constructor|].
    destruct (visit_op pick p [] next o) as [[[n1 c1] os] sub1] eqn:E1. destruct (visit_ops (visit_op pick p) sub1 n1 l) as [[n2 c2] l1] eqn:E2. injection E as <- Ec <-. destruct c1; [|discriminate]. cbn in Ec. subst c2.
    apply H in E1 as (-> & -> & -> & R1). apply IH in E2 as (-> & -> & R2). repeat split. cbn [flat_map]. apply Forall_app. auto.
  Qed.
  Lemma still_regions rg : Forall still_region rg -> forall next next' rg', visit_regions (visit_region pick p) [] next rg = (next', 0, rg') -> next' = next /\ rg' = rg /\ Forall refused (flat_map region_within rg).
  Proof.
    induction 1 as [|o l H F IH]; intros next next' ops' E; cbn [visit_regions] in E; [injection E as <- <-; repeat split; constructor|].
    destruct (visit_region pick p [] next o) as [[n1 c1] os] eqn:E1. destruct (visit_regions (visit_region pick p) [] n1 l) as [[n2 c2] l1] eqn:E2. injection E as <- Ec <-. destruct c1; [|discriminate]. cbn in Ec. subst c2.
    apply H in E1 as (-> & -> & R1). apply IH in E2 as (-> & -> & R2). repeat split. cbn [flat_map]. apply Forall_app. auto.
  Qed.
  Lemma still_blocks bs : Forall (fun b : block => match b with Block _ ops => Forall still_op ops end) bs -> forall next next' bs', visit_blocks (visit_op pick p) [] next bs = (next', 0, bs') -> next' = next /\ bs' = bs /\ Forall refused (flat_map block_within bs).
  Proof.
    induction 1 as [|[args ops] l H F IH]; intros next next' ops' E; cbn [visit_blocks] in E; [injection E as <- <-; repeat split; constructor|].
    destruct (visit_ops (visit_op pick p) [] next ops) as [[n1 c1] os] eqn:E1. destruct (visit_blocks (visit_op pick p) [] n1 l) as [[n2 c2] l1] eqn:E2. injection E as <- Ec <-. destruct c1; [|discriminate]. cbn in Ec. subst c2.
    apply still_ops in E1 as (-> & -> & R1); auto. apply IH in E2 as (-> & -> & R2). repeat split. cbn [flat_map block_within]. apply Forall_app. auto.
  Qed.
  Lemma still_all : (forall o, still_op o) /\ (forall r, still_region r) /\ (forall b : block, match b with Block _ ops => Forall still_op ops end).
  Proof.
    apply op_all; auto.
    - intros rs k xs rg IH next next' os sub' E. rewrite visit_op_eq in E. destruct (visit_regions (visit_region pick p) [] next rg) as [[n1 c1] rg1] eqn:E1. rewrite look_nil in E. destruct (site pick p n1 k xs) as [[[n2 pre] zs]|] eqn:Es; [destruct k; discriminate|].
      assert (E' : (n1, c1, [Op rs k xs rg1], @nil (N * N)) = (next', 0, os, sub')) by (destruct k; exact E). injection E' as <- -> <- <-. apply still_regions in E1 as (-> & -> & R); auto. repeat split. constructor; auto. intros n. eapply site_any; eauto.
    - intros bs IH next next' r' E. rewrite visit_region_eq in E. destruct (visit_blocks (visit_op pick p) [] next bs) as [[n1 c1] bs1] eqn:E1. injection E as <- -> <-. apply still_blocks in E1 as (-> & -> & R); auto.
  Qed.
End Still.
Lemma still_funcs pick p todo : forall next done next' p', p = done ++ todo -> visit_funcs pick next done todo = (next', 0, p') -> next' = next /\ p' = p /\ forall x, In x todo -> Forall (refused (pick p) p) (func_ops x).
Proof.
  induction todo as [|x todo IH]; intros next done next' p' Ep E; cbn [visit_funcs] in E; [injection E as <- <-; subst; rewrite app_nil_r; repeat split; intros ? []|]. rewrite <- Ep in E.
  destruct (visit_regions (visit_region (pick p) p) [] next (regions_of x)) as [[n1 c1] rg1] eqn:E1. destruct (visit_funcs pick n1 (done ++ [{| name := name x; abi := abi x; regions_of := rg1 |}]) todo) as [[n2 c2] p2] eqn:E2. injection E as <- Ec <-. destruct c1; [|discriminate]. cbn in Ec. subst c2.
  apply still_regions in E1 as (-> & -> & R1); [|apply Forall_forall; intros r _; apply still_all]. assert (Ex : {| name := name x; abi := abi x; regions_of := regions_of x |} = x) by (destruct x; reflexivity). rewrite Ex in E2.
  apply IH in E2 as (-> & -> & R2); [|subst p; rewrite <- app_assoc; reflexivity]. repeat split. intros y [<-|I]; auto.
Qed.
(** The last iteration. *)
Lemma last_step cfg fuel : forall next p next' c p', inline_functions cfg fuel next p = Some (next', c, p') -> exists rec, recursive_in p' = Some rec /\ visit_funcs (should_inline cfg p' rec) next' [] p' = (next', 0, p').
Proof.
  induction fuel as [|fuel IH]; intros next p next' c p' E; cbn [inline_functions] in E; [discriminate|]. destruct (recursive_in p) as [rec|] eqn:Er; [|discriminate]. destruct (visit_funcs (should_inline cfg p rec) next [] p) as [[n1 c1] p1] eqn:E1.
  destruct c1 as [|c1].
  - injection E as <- <- <-. pose proof E1 as E2. apply (still_funcs _ p) in E2 as (-> & -> & _); auto. eauto.
  - destruct (inline_functions cfg fuel n1 p1) as [[[n2 c2] p2]|] eqn:E2; [|discriminate]. injection E as <- <- <-. eauto.
Qed.
Lemma again cfg fuel next p next' c p' : inline_functions cfg fuel next p = Some (next', c, p') -> inline_functions cfg 1 next' p' = Some (next', 0, p').
Proof. intros E. destruct (last_step _ _ _ _ _ _ _ E) as (rec & Er & Ev). cbn [inline_functions]. rewrite Er, Ev. reflexivity. Qed.
Lemma names_kept cfg fuel : forall next p next' c p', NoDup (map name p) -> inline_functions cfg fuel next p = Some (next', c, p') -> map name p' = map name p.
Proof.
  induction fuel as [|fuel IH]; intros next p next' c p' D E; cbn [inline_functions] in E; [discriminate|]. destruct (weights p D) as (rec' & W & Er & _ & Wp). rewrite Er in E. destruct (visit_funcs (should_inline cfg p rec') next [] p) as [[n1 c1] p1] eqn:E1.
  apply (all_steps rec' W) in E1 as (N1 & _); auto; [|intros p0 g; apply picks_plain]. cbn [app] in N1. destruct c1 as [|c1]; [injection E as <- <- <-; auto|]. destruct (inline_functions cfg fuel n1 p1) as [[[n2 c2] p2]|] eqn:E2; [|discriminate]. injection E as <- <- <-. apply IH in E2; congruence.
Qed.
Lemma done_all cfg fuel next p next' c p' : NoDup (map name p) -> inline_functions cfg fuel next p = Some (next', c, p') ->
  forall x rs k xs rg g, In x p' -> In (Op rs k xs rg) (func_ops x) -> k = Call g \/ k = TailCall g -> may_inline cfg p' g ->
  forall params ops, body_of p' g = Some (Region [Block params ops]) -> List.length params = List.length xs -> forall body last ys rg', ops <> body ++ [Op last Return ys rg'].
Proof.
  intros D E x rs k xs rg g Ix Io Kg Mi params ops Bo Lp body last ys rg' ->. pose proof (names_kept _ _ _ _ _ _ _ D E) as Nm. destruct (last_step _ _ _ _ _ _ _ E) as (rec & Er & Ev).
  apply (still_funcs _ p') in Ev as (_ & _ & R); auto. specialize (R x Ix). rewrite Forall_forall in R. specialize (R _ Io). cbn in R. specialize (R 0%N). apply policy with (rec := rec) in Mi; auto; [|rewrite Nm; exact D].
  assert (Sn : exists callee, lookup p' g = Some callee /\ splice 0%N callee xs = None). { unfold body_of in Bo. destruct (lookup p' g) as [callee|] eqn:L; [|discriminate]. exists callee. split; auto. unfold site in R. destruct Kg as [->| ->]; rewrite Mi, L in R; exact R. }
  destruct Sn as (callee & L & Sp). unfold body_of in Bo. rewrite L in Bo. unfold splice in Sp. destruct (regions_of callee) as [|r0 rest]; [discriminate|]. injection Bo as ->. rewrite Lp, Nat.eqb_refl, split_last_app in Sp. destruct (clone_list clone_op 0%N (combine params xs) body) as [[? ?] ?]. discriminate.
Qed.
