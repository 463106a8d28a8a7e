(** Inlining comes to an end. *)
From Coq Require Import Lia.
From Verif Require Import CallGraphSpec TarjanProofs CallGraphProofs.
From Verif Require Export InlineMain.

(** ** What cloning and visiting do to the kinds of operations *)
Definition keeps_op (o : op) : Prop := forall next m, op_kinds (snd (clone_op next m o)) = op_kinds o.
Definition keeps_region (r : region) : Prop := forall next m, region_kinds (snd (clone_region next m r)) = region_kinds r.
Lemma clone_list_kinds {A} (clone : N -> mapping -> A -> N * mapping * A) (kinds : A -> list kind) l : Forall (fun x => forall next m, kinds (snd (clone next m x)) = kinds x) l ->
  forall next m, flat_map kinds (snd (clone_list clone next m l)) = flat_map kinds l.
Proof.
  induction 1 as [|x l H F IH]; intros next m; cbn [clone_list]; auto. specialize (H next m). destruct (clone next m x) as [[n1 m1] x1]. specialize (IH n1 m1). destruct (clone_list clone n1 m1 l) as [[n2 m2] l2]. cbn in *. congruence.
Qed.
Lemma clone_args_len l : forall next m, List.length (snd (clone_args next m l)) = List.length l.
Proof. induction l as [|[args ops] l IH]; intros next m; auto. cbn [clone_args]. specialize (IH (next + N.of_nat (List.length args))%N (combine args (fresh next (List.length args)) ++ m)). destruct (clone_args _ _ l) as [[n1 m1] r]. cbn in *. lia. Qed.
Lemma clone_blocks_kinds l : Forall (fun b => match b with Block _ ops => Forall keeps_op ops end) l -> forall next m argss, List.length argss = List.length l -> flat_map block_kinds (snd (clone_blocks clone_op next m l argss)) = flat_map block_kinds l.
Proof.
  induction 1 as [|[args ops] l H F IH]; intros next m argss L; destruct argss as [|a argss]; try discriminate; auto. cbn [clone_blocks]. pose proof (clone_list_kinds clone_op op_kinds ops H next m) as K. destruct (clone_list clone_op next m ops) as [[n1 m1] ops1].
  specialize (IH n1 m1 argss). destruct (clone_blocks clone_op n1 m1 l argss) as [[n2 m2] l2]. cbn [snd flat_map] in *. rewrite !block_kinds_eq, K, IH by (cbn in L; lia). reflexivity.
Qed.
Lemma clone_op_eq next m rs k xs rg : clone_op next m (Op rs k xs rg) =
  let '(next, m', rg) := clone_list clone_region next m rg in (next + N.of_nat (List.length rs), combine rs (fresh next (List.length rs)) ++ m', Op (fresh next (List.length rs)) k (map (look m) xs) rg)%N.
Proof. reflexivity. Qed.
Lemma clone_region_eq next m bs : clone_region next m (Region bs) = let '(next, m, argss) := clone_args next m bs in let '(next, m, bs) := clone_blocks clone_op next m bs argss in (next, m, Region bs).
Proof. reflexivity. Qed.
Lemma clone_kinds : (forall o, keeps_op o) /\ (forall r, keeps_region r) /\ (forall b : block, match b with Block _ ops => Forall keeps_op ops end).
Proof.
  apply op_all; auto.
  - intros rs k xs rg IH next m. rewrite clone_op_eq. pose proof (clone_list_kinds clone_region region_kinds rg IH next m) as K. destruct (clone_list clone_region next m rg) as [[n1 m1] rg1]. cbn [snd] in *. rewrite !op_kinds_eq. congruence.
  - intros bs IH next m. rewrite clone_region_eq. pose proof (clone_args_len bs next m) as L. destruct (clone_args next m bs) as [[n1 m1] argss]. cbn [snd] in L. pose proof (clone_blocks_kinds bs IH n1 m1 argss L) as K. destruct (clone_blocks clone_op n1 m1 bs argss) as [[n2 m2] bs2]. cbn [snd] in *. rewrite !region_kinds_eq. exact K.
Qed.
Lemma splice_kinds next callee xs next' pre zs : splice next callee xs = Some (next', pre, zs) -> exists a b, func_kinds callee = flat_map op_kinds pre ++ a ++ b.
Proof.
  unfold splice, func_kinds. destruct (regions_of callee) as [|[[|[params ops] [|]]] rest]; try discriminate. destruct (Nat.eqb _ _); [|discriminate]. destruct (split_last ops) as [[body [rs k ys rg]]|] eqn:El; [|discriminate]. destruct k; try discriminate.
  apply split_last_some in El. subst. pose proof (clone_list_kinds clone_op op_kinds body) as K. destruct (clone_list clone_op next (combine params xs) body) as [[n1 m1] pre1] eqn:E. intros [= <- <- <-]. cbn [flat_map]. rewrite region_kinds_eq. cbn [flat_map]. rewrite block_kinds_eq, app_nil_r, flat_map_app, <- app_assoc.
  specialize (K (proj2 (Forall_forall _ _) (fun o _ => proj1 clone_kinds o)) next (combine params xs)). rewrite E in K. cbn [snd] in K. rewrite K. eauto.
Qed.

Section Kinds.
  Variables (pick : N -> bool) (p : list func) (W : N -> nat).
  Definition weight (ks : list kind) : nat := list_sum (map W (flat_map kind_calls ks)).
  Lemma weight_app a b : weight (a ++ b) = weight a + weight b.
  Proof. unfold weight. rewrite flat_map_app, map_app, list_sum_app. reflexivity. Qed.
  Hypothesis light : forall g x, pick g = true -> lookup p g = Some x -> S (weight (func_kinds x)) <= W g.
  (** A kind among the new operations was there before, or comes from a function that was called and inlined. *)
  Definition comes (old : list kind) (k : kind) : Prop :=
    In k old \/ k = Return \/ exists g x, (In (Call g) old \/ In (TailCall g) old) /\ pick g = true /\ lookup p g = Some x /\ In k (func_kinds x).
  Definition shrinks (old new : list kind) (c : nat) : Prop := weight new + c <= weight old /\ forall k, In k new -> comes old k.
  Lemma comes_incl a b k : incl a b -> comes a k -> comes b k.
  Proof. intros I [H|[H|(g & x & H & K)]]; [left; auto|right; left; auto|right; right; exists g, x; split; auto; destruct H; auto]. Qed.
  Lemma shrinks_app a a' c b b' d : shrinks a a' c -> shrinks b b' d -> shrinks (a ++ b) (a' ++ b') (c + d).
  Proof.
    intros [A1 A2] [B1 B2]. split; [rewrite !weight_app; lia|]. intros k I. apply in_app_or in I as [I|I]; [eapply comes_incl; [|apply A2; auto]; apply incl_appl, incl_refl|eapply comes_incl; [|apply B2; auto]; apply incl_appr, incl_refl].
  Qed.
  Lemma shrinks_nil : shrinks [] [] 0.
  Proof. split; [unfold weight; cbn; lia|intros k []]. Qed.
  Lemma site_shrinks next k xs next' pre zs : site pick p next k xs = Some (next', pre, zs) -> shrinks [k] (flat_map op_kinds pre) 1 /\ weight [k] >= 1.
  Proof.
    unfold site. intros H. assert (exists g x, (k = Call g \/ k = TailCall g) /\ pick g = true /\ lookup p g = Some x /\ splice next x xs = Some (next', pre, zs)) as (g & x & Kg & Pg & Lk & Sp).
    { destruct k as [g|g| | |]; try discriminate; destruct (pick g) eqn:Pg; try discriminate; destruct (lookup p g) as [x|] eqn:Lk; try discriminate; exists g, x; auto. }
    destruct (splice_kinds _ _ _ _ _ _ Sp) as (a & b & Ek). pose proof (light g x Pg Lk) as L. rewrite Ek, weight_app in L.
    assert (Wk : weight [k] = W g) by (unfold weight; destruct Kg as [->| ->]; cbn; lia). split; [|lia]. split; [lia|].
    intros k' I. right. right. exists g, x. split; [destruct Kg as [->| ->]; cbn; auto|]. split; auto. split; auto. rewrite Ek. apply in_or_app. auto.
  Qed.
  Definition vop_k (o : op) : Prop := forall sub next next' c os sub', visit_op pick p sub next o = (next', c, os, sub') -> shrinks (op_kinds o) (flat_map op_kinds os) c.
  Definition vregion_k (r : region) : Prop := forall sub next next' c r', visit_region pick p sub next r = (next', c, r') -> shrinks (region_kinds r) (region_kinds r') c.
  Lemma vops_k ops : Forall vop_k ops -> forall sub next next' c ops', visit_ops (visit_op pick p) sub next ops = (next', c, ops') -> shrinks (flat_map op_kinds ops) (flat_map op_kinds ops') c.
  Proof.
    induction 1 as [|o l H F IH]; intros sub next next' c ops' E; cbn [visit_ops] in E; [injection E as <- <- <-; apply shrinks_nil|].
    destruct (visit_op pick p sub next o) as [[[n1 c1] os] sub1] eqn:E1. destruct (visit_ops (visit_op pick p) sub1 n1 l) as [[n2 c2] l1] eqn:E2. injection E as <- <- <-. rewrite flat_map_app. cbn [flat_map]. apply shrinks_app; eauto.
  Qed.
  Lemma vregions_k rg : Forall vregion_k rg -> forall sub next next' c rg', visit_regions (visit_region pick p) sub next rg = (next', c, rg') -> shrinks (flat_map region_kinds rg) (flat_map region_kinds rg') c.
  Proof.
    induction 1 as [|o l H F IH]; intros sub next next' c ops' E; cbn [visit_regions] in E; [injection E as <- <- <-; apply shrinks_nil|].
    destruct (visit_region pick p sub next o) as [[n1 c1] os] eqn:E1. destruct (visit_regions (visit_region pick p) sub n1 l) as [[n2 c2] l1] eqn:E2. injection E as <- <- <-. cbn [flat_map]. apply shrinks_app; eauto.
  Qed.
  Lemma vblocks_k bs : Forall (fun b : block => match b with Block _ ops => Forall vop_k ops end) bs -> forall sub next next' c bs', visit_blocks (visit_op pick p) sub next bs = (next', c, bs') -> shrinks (flat_map block_kinds bs) (flat_map block_kinds bs') c.
  Proof.
    induction 1 as [|[args ops] l H F IH]; intros sub next next' c ops' E; cbn [visit_blocks] in E; [injection E as <- <- <-; apply shrinks_nil|].
    destruct (visit_ops (visit_op pick p) sub next ops) as [[n1 c1] os] eqn:E1. destruct (visit_blocks (visit_op pick p) sub n1 l) as [[n2 c2] l1] eqn:E2. injection E as <- <- <-. cbn [flat_map]. rewrite !block_kinds_eq. apply shrinks_app; eauto. eapply vops_k; eauto.
  Qed.
  Lemma visit_kinds : (forall o, vop_k o) /\ (forall r, vregion_k r) /\ (forall b : block, match b with Block _ ops => Forall vop_k ops end).
  Proof.
    apply op_all; auto.
    - intros rs k xs rg IH sub next next' c os sub' E. rewrite visit_op_eq in E. destruct (visit_regions (visit_region pick p) sub next rg) as [[n1 c1] rg1] eqn:E1. pose proof (vregions_k rg IH _ _ _ _ _ E1) as Sr. rewrite op_kinds_eq. change (k :: flat_map region_kinds rg) with ([k] ++ flat_map region_kinds rg).
      destruct (site pick p n1 k (map (look sub) xs)) as [[[n2 pre] zs]|] eqn:Es.
      + apply site_shrinks in Es as [[S1 S2] _]. destruct Sr as [S3 _].
        assert (Sp : shrinks ([k] ++ flat_map region_kinds rg) (flat_map op_kinds pre) (S c1)).
        { split; [rewrite weight_app; lia|]. intros k' I. eapply comes_incl; [|apply S2; exact I]. apply incl_appl, incl_refl. }
        destruct k; injection E as <- <- <- <-; auto. rewrite flat_map_app. destruct Sp as [P1 P2]. assert (Z0 : weight (flat_map op_kinds [Op [] Return zs []]) = 0) by reflexivity. split; [rewrite weight_app, Z0; lia|]. intros k' I. apply in_app_or in I as [I|I]; auto. destruct I as [<-|[]]. right. left. auto.
      + assert (E' : (n1, c1, [Op rs k (map (look sub) xs) rg1], sub) = (next', c, os, sub')) by (destruct k; exact E). injection E' as <- <- <- <-. cbn [flat_map]. rewrite app_nil_r, op_kinds_eq. change (k :: flat_map region_kinds rg1) with ([k] ++ flat_map region_kinds rg1).
        apply (shrinks_app [k] [k] 0); auto. split; [lia|]. intros k' I. left. exact I.
    - intros bs IH sub next next' c r' E. rewrite visit_region_eq in E. destruct (visit_blocks (visit_op pick p) sub next bs) as [[n1 c1] bs1] eqn:E1. injection E as <- <- <-. rewrite !region_kinds_eq. eapply vblocks_k; eauto.
  Qed.
End Kinds.

(** ** Modules *)
Definition total (W : N -> nat) (p : list func) : nat := list_sum (map (fun x => weight W (func_kinds x)) p).
(** Functions outside [rec] weigh more than the calls in them. *)
Definition weighed (rec : list N) (W : N -> nat) (p : list func) : Prop := forall x, In x p -> ~ In (name x) rec -> S (weight W (func_kinds x)) <= W (name x).
Notation rel p := (calls (call_graph p)).

Lemma reach_trans {K} (R : K -> K -> Prop) x y z : reach R x y -> reach R y z -> reach R x z.
Proof. intros A B. induction B; auto. econstructor; eauto. Qed.
Lemma reach1_trans {K} (R : K -> K -> Prop) x y z : reach1 R x y -> reach1 R y z -> reach1 R x z.
Proof. intros (a & A & A2) (b & B & B2). exists a. split; auto. eapply reach_trans; [eapply reach_step; [exact A2|exact B]|exact B2]. Qed.
Lemma reach1_reach {K} (R : K -> K -> Prop) x y z : reach1 R x y -> reach R y z -> reach1 R x z.
Proof. intros (a & A & A2) B. exists a. split; auto. eapply reach_trans; eauto. Qed.
Lemma reach1_mono {K} (R R' : K -> K -> Prop) x y : (forall a b, R a b -> reach1 R' a b) -> reach1 R x y -> reach1 R' x y.
Proof.
  intros H (a & A & B). assert (K1 : reach1 R' x a) by auto. clear A. induction B; auto. eapply reach1_trans; eauto.
Qed.
Lemma lookup_name p f x : lookup p f = Some x -> In x p /\ name x = f.
Proof. unfold lookup. intros H. apply find_some in H as [I E]. apply N.eqb_eq in E. auto. Qed.
Lemma lookup_exact p x : NoDup (map name p) -> In x p -> lookup p (name x) = Some x.
Proof.
  induction p as [|y p IH]; intros D I; [destruct I|]. inversion D; subst. rewrite lookup_cons. destruct I as [->|I]; [rewrite N.eqb_refl; auto|].
  destruct (N.eqb_spec (name y) (name x)) as [E|]; auto. exfalso. match goal with H : ~ In _ _ |- _ => apply H end. rewrite E. apply in_map. exact I.
Qed.
Lemma in_refs x c : In c (refs x) <-> exists k, In k (func_kinds x) /\ In c (kind_refs k).
Proof. unfold refs. apply in_flat_map. Qed.

Section Step.
  Variables (rec : list N) (W : N -> nat).
  Lemma one_step pick next done x todo next' c rg' : NoDup (map name (done ++ x :: todo)) -> weighed rec W (done ++ x :: todo) -> (forall g, pick g = true -> ~ In g rec) ->
    visit_regions (visit_region pick (done ++ x :: todo)) [] next (regions_of x) = (next', c, rg') ->
    let p' := done ++ {| name := name x; abi := abi x; regions_of := rg' |} :: todo in
    weighed rec W p' /\ total W p' + c <= total W (done ++ x :: todo) /\ forall a b, rel p' a b -> reach1 (rel (done ++ x :: todo)) a b.
  Proof.
    intros D Wp Pk E p'. set (p := done ++ x :: todo) in *.
    assert (Lt : forall g y, pick g = true -> lookup p g = Some y -> S (weight W (func_kinds y)) <= W g). { intros g y Pg Lk. apply lookup_name in Lk as [I <-]. apply Wp; auto. }
    pose proof (vregions_k pick p W (regions_of x) (proj2 (Forall_forall _ _) (fun r _ => proj1 (proj2 (visit_kinds pick p W Lt)) r)) _ _ _ _ _ E) as [S1 S2].
    assert (Ix : In x p) by (apply in_or_app; right; left; auto).
    assert (F' : func_kinds {| name := name x; abi := abi x; regions_of := rg' |} = flat_map region_kinds rg') by reflexivity.
    split; [|split].
    - intros y I Nr. apply in_app_or in I as [I|[<-|I]]; [apply Wp; auto; apply in_or_app; auto| |apply Wp; auto; apply in_or_app; right; right; auto]. rewrite F'. cbn [name] in *. specialize (Wp x Ix Nr). unfold func_kinds in Wp. lia.
    - unfold total, p', p. rewrite !map_app, !list_sum_app. cbn [map list_sum fold_right]. rewrite F'. unfold func_kinds at 3. unfold func_kinds in *. unfold list_sum. lia.
    - intros a b [In1 In2]. cbn [call_graph edges keys] in In1, In2.
      assert (K2 : In b (map name p)) by (unfold p, p' in *; rewrite map_app in *; exact In2).
      assert (Same : forall y, lookup p a = Some y -> In b (refs y) -> reach1 (rel p) a b). { intros y Ly R. exists b. split; [split; [cbn [call_graph edges]; rewrite Ly; exact R|exact K2]|constructor]. }
      unfold p' in In1. rewrite lookup_app, lookup_cons in In1. cbn [name] in In1. unfold p in Same at 1. rewrite lookup_app, lookup_cons in Same. destruct (lookup done a) as [y|]; [eapply Same; eauto|].
      destruct (N.eqb_spec (name x) a) as [Ea|]; [|destruct (lookup todo a) as [y|]; [eapply Same; eauto|destruct In1]].
      apply in_refs in In1 as (k & I & R). rewrite F' in I. apply S2 in I as [I|[->|(g & y & I & Pg & Lk & Ik)]]; [|destruct R|].
      + eapply Same; eauto. apply in_refs. eauto.
      + pose proof (lookup_name _ _ _ Lk) as [Iy Ng]. exists g. split.
        * split; [cbn [call_graph edges]; rewrite <- Ea, (lookup_exact p x D Ix); apply in_refs; destruct I as [I|I]; eexists; split; try exact I; left; auto|]. cbn [call_graph keys]. rewrite <- Ng. apply in_map. exact Iy.
        * eapply reach_step; [constructor|]. split; [cbn [call_graph edges]; rewrite Lk; apply in_refs; eauto|exact K2].
  Qed.
  Lemma all_steps pick todo : forall next done next' c p', NoDup (map name (done ++ todo)) -> weighed rec W (done ++ todo) -> (forall p g, pick p g = true -> ~ In g rec) -> visit_funcs pick next done todo = (next', c, p') ->
    map name p' = map name (done ++ todo) /\ weighed rec W p' /\ total W p' + c <= total W (done ++ todo) /\ forall a b, rel p' a b -> reach1 (rel (done ++ todo)) a b.
  Proof.
    induction todo as [|x todo IH]; intros next done next' c p' D Wp Pk E; cbn [visit_funcs] in E.
    - injection E as <- <- <-. rewrite app_nil_r in *. repeat split; auto; [lia|]. intros a b R. exists b. split; [exact R|constructor].
    - destruct (visit_regions (visit_region (pick (done ++ x :: todo)) (done ++ x :: todo)) [] next (regions_of x)) as [[n1 c1] rg1] eqn:E1.
      destruct (visit_funcs pick n1 (done ++ [{| name := name x; abi := abi x; regions_of := rg1 |}]) todo) as [[n2 c2] p2] eqn:E2. injection E as <- <- <-.
      destruct (one_step _ _ _ _ _ _ _ _ D Wp (Pk _) E1) as (W1 & T1 & R1).
      assert (Nm : map name (done ++ {| name := name x; abi := abi x; regions_of := rg1 |} :: todo) = map name (done ++ x :: todo)) by (rewrite !map_app; reflexivity).
      apply IH in E2; [|rewrite <- app_assoc; cbn [app]; rewrite Nm; exact D|rewrite <- app_assoc; exact W1|exact Pk]. rewrite <- app_assoc in E2. cbn [app] in E2. destruct E2 as (N2 & W2 & T2 & R2).
      split; [congruence|]. split; auto. split; [lia|]. intros a b R. apply R2 in R. eapply reach1_mono; [|exact R]. exact R1.
  Qed.
End Step.

(** ** Weights *)
Lemma neqb_spec : forall a b : N, N.eqb a b = true <-> a = b.
Proof. apply N.eqb_eq. Qed.
Lemma weights p : NoDup (map name p) -> exists rec W, recursive_in p = Some rec /\ (forall v, In v rec <-> In v (map name p) /\ reach1 (rel p) v v) /\ weighed rec W p.
Proof.
  intros D. destruct (recursive_ok N.eqb neqb_spec (call_graph p) D (S (List.length p))) as (s & Ts & Rc); [cbn [call_graph keys]; rewrite map_length; lia|].
  destruct (tarjan_ok N.eqb neqb_spec (call_graph p) (S (List.length p))) as (s' & Ts' & Dom & Comp & Down & Bound); [cbn [call_graph keys]; rewrite map_length; lia|].
  rewrite Ts in Ts'. injection Ts' as <-. set (rec := recursive_functions N.eqb (call_graph p) s) in *. exists rec.
  assert (Lower : forall x h a, In x p -> ~ In (name x) rec -> scc s (name x) = Some a -> In h (flat_map kind_calls (func_kinds x)) -> In h (map name p) -> exists b, scc s h = Some b /\ b < a).
  { intros x h a I Nr Sa Hs Hk. assert (C : rel p (name x) h).
    { split; [|exact Hk]. cbn [call_graph edges]. rewrite (lookup_exact p x D I). apply in_refs. apply in_flat_map in Hs as (k & K1 & K2). exists k. split; auto. destruct k; cbn in *; tauto. }
    destruct (Down _ _ _ Sa C) as (b & Sb & Lb). exists b. split; auto. destruct (Nat.eq_dec b a) as [->|]; [|lia]. exfalso. apply Nr. apply Rc. split; [apply in_map; exact I|]. exists h. split; auto. apply (Comp _ _ _ Sa). exact Sb. }
  assert (Build : forall n, exists W, (forall h, In h rec \/ ~ In h (map name p) -> W h = 0) /\ forall x a, In x p -> ~ In (name x) rec -> scc s (name x) = Some a -> a < n -> S (weight W (func_kinds x)) <= W (name x)).
  { induction n as [|n (W & Z & H)]; [exists (fun _ => 0); split; [auto|intros; lia]|].
    exists (fun h => match lookup p h with
             | Some x => if mem h rec then 0 else match scc s h with Some a => if Nat.ltb a n then W h else S (weight W (func_kinds x)) | None => 0 end
             | None => 0
             end). split.
    - intros h [Hh|Hh]; [|rewrite lookup_none; auto]. destruct (lookup p h); auto. assert (mem h rec = true) as ->; auto. apply existsb_exists. exists h. rewrite N.eqb_refl. auto.
    - intros x a I Nr Sa La. rewrite (lookup_exact p x D I). assert (mem (name x) rec = false) as ->. { apply Bool.not_true_is_false. intros T. apply existsb_exists in T as (y & Iy & Ey). apply N.eqb_eq in Ey. subst. auto. }
      rewrite Sa. set (W' := fun h => _). assert (Ew : weight W' (func_kinds x) = weight W (func_kinds x)).
      { unfold weight. f_equal. apply map_ext_in. intros h Hh. unfold W'. destruct (lookup p h) as [y|] eqn:Ly; [|symmetry; apply Z; right; intros J; apply in_map_iff in J as (y & <- & J); rewrite (lookup_exact p y D J) in Ly; discriminate].
        destruct (mem h rec) eqn:Em; [symmetry; apply Z; left; apply existsb_exists in Em as (z & Iz & Ez); apply N.eqb_eq in Ez; subst; auto|].
        destruct (Lower x h a I Nr Sa Hh (lookup_some_none _ _ _ Ly)) as (b & Sb & Lb). rewrite Sb. destruct (Nat.ltb_spec b n); [auto|lia]. }
      rewrite Ew. destruct (Nat.ltb_spec a n); [eapply H; eauto|lia]. }
  destruct (Build (nscc s)) as (W & _ & H). exists W. split; [unfold recursive_in; rewrite Ts; reflexivity|]. split; [exact Rc|].
  intros x I Nr. destruct (scc s (name x)) as [a|] eqn:Sa; [|exfalso; apply (proj2 (Dom (name x))); [cbn [call_graph keys]; apply in_map; exact I|exact Sa]]. eapply H; eauto.
Qed.

(** ** The loop *)
Lemma picks_plain cfg p0 rec p g : should_inline cfg p0 rec p g = true -> ~ In g rec.
Proof.
  unfold should_inline. destruct (lookup p g) as [x|]; [|discriminate]. destruct (regions_of x); [discriminate|]. destruct (abi x); [discriminate|]. destruct (mem g rec) eqn:E; [discriminate|]. intros _ I.
  assert (mem g rec = true); [|congruence]. apply existsb_exists. exists g. rewrite N.eqb_refl. auto.
Qed.
Lemma more_fuel cfg fuel : forall fuel' next p r, fuel <= fuel' -> inline_functions cfg fuel next p = Some r -> inline_functions cfg fuel' next p = Some r.
Proof.
  induction fuel as [|fuel IH]; intros [|fuel'] next p r L E; try lia; cbn [inline_functions] in *; try discriminate. destruct (recursive_in p) as [rec|]; [|discriminate].
  destruct (visit_funcs (should_inline cfg p rec) next [] p) as [[n1 c1] p1]. destruct c1 as [|c1]; auto. destruct (inline_functions cfg fuel n1 p1) as [[[n2 c2] p2]|] eqn:E2; [|discriminate]. rewrite (IH fuel' n1 p1 (n2, c2, p2)); [exact E|lia|exact E2].
Qed.
(** How many functions are recursive. *)
Definition cyclic (p : list func) (rec : list N) : nat := List.length (filter (fun v => mem v rec) (map name p)).
Lemma filter_le {A} (f g : A -> bool) l : (forall x, In x l -> f x = true -> g x = true) -> List.length (filter f l) <= List.length (filter g l).
Proof. induction l as [|x l IH]; cbn; intros H; [lia|]. assert (K : List.length (filter f l) <= List.length (filter g l)) by auto. destruct (f x) eqn:Ef; [rewrite (H x) by auto; cbn; lia|destruct (g x); cbn; lia]. Qed.
Lemma filter_lt {A} (f g : A -> bool) l y : (forall x, In x l -> f x = true -> g x = true) -> In y l -> f y = false -> g y = true -> List.length (filter f l) < List.length (filter g l).
Proof.
  induction l as [|x l IH]; cbn; intros H I Fy Gy; [destruct I|]. assert (K : List.length (filter f l) <= List.length (filter g l)) by (apply filter_le; auto).
  destruct I as [->|I]; [rewrite Fy, Gy; cbn; lia|]. assert (K2 : List.length (filter f l) < List.length (filter g l)) by auto. destruct (f x) eqn:Ef; [rewrite (H x) by auto; cbn; lia|destruct (g x); cbn; lia].
Qed.
Lemma mem_in v l : mem v l = true <-> In v l.
Proof. unfold mem. rewrite existsb_exists. split; [intros (y & I & E); apply N.eqb_eq in E; subst; auto|intros I; exists v; rewrite N.eqb_refl; auto]. Qed.
Lemma inlining_ends cfg : forall n p rec next, NoDup (map name p) -> recursive_in p = Some rec -> cyclic p rec <= n -> exists fuel r, inline_functions cfg fuel next p = Some r.
Proof.
  induction n as [n IHn] using lt_wf_ind. intros p rec next D Er Lc. destruct (weights p D) as (rec' & W & Er' & Rx & Wp). rewrite Er in Er'. injection Er' as <-.
  (* as long as the recursive functions stay the same, the total weight falls *)
  assert (Phase : forall t q next, total W q <= t -> map name q = map name p -> recursive_in q <> None -> (forall rq, recursive_in q = Some rq -> forall v, In v rq <-> In v rec) -> weighed rec W q -> exists fuel r, inline_functions cfg fuel next q = Some r).
  { induction t as [t IHt] using lt_wf_ind. intros q nx Lt Nq Eq Sq Wq. destruct (recursive_in q) as [rq|] eqn:Erq; [|congruence]. specialize (Sq rq eq_refl).
    destruct (visit_funcs (should_inline cfg q rq) nx [] q) as [[n1 c1] q1] eqn:E1.
    assert (Dq : NoDup (map name q)) by (rewrite Nq; exact D).
    destruct (all_steps rec W (should_inline cfg q rq) q nx [] n1 c1 q1 Dq Wq) as (N1 & W1 & T1 & R1); [intros p' g Hg I; apply picks_plain in Hg; apply Hg, Sq, I|exact E1|]. cbn [app] in *.
    destruct c1 as [|c1]; [exists 1, (n1, 0, q1); cbn [inline_functions]; rewrite Erq, E1; reflexivity|].
    assert (D1 : NoDup (map name q1)) by (rewrite N1; exact Dq). destruct (weights q1 D1) as (rec1 & W2 & Er1 & Rx1 & Wp1).
    destruct (weights q Dq) as (rq' & W3 & Er3 & Rx3 & _). rewrite Erq in Er3. injection Er3 as <-.
    assert (Sub : forall v, In v rec1 -> In v rec). { intros v I. apply Rx1 in I as [I C]. apply Sq, Rx3. rewrite <- N1. split; auto. eapply reach1_mono; [|exact C]. exact R1. }
    assert (Go : exists fuel r, inline_functions cfg fuel n1 q1 = Some r).
    { destruct (existsb (fun v => negb (mem v rec1)) (filter (fun v => mem v rec) (map name p))) eqn:Ex.
      - apply existsb_exists in Ex as (v & Iv & Nv). apply filter_In in Iv as [Iv Mv]. apply Bool.negb_true_iff in Nv. apply (IHn (cyclic q1 rec1)) with (rec := rec1); auto.
        unfold cyclic in *. rewrite N1, Nq. assert (List.length (filter (fun v => mem v rec1) (map name p)) < List.length (filter (fun v => mem v rec) (map name p))); [|lia]. apply filter_lt with (y := v); auto. intros x _. rewrite !mem_in. auto.
      - apply (IHt (total W q1)) with (q := q1); [lia|lia|congruence|congruence| |exact W1]. intros rq1 Erq1 v. rewrite Er1 in Erq1. injection Erq1 as <-. split; auto. intros I. destruct (mem v rec1) eqn:Em; [apply mem_in; auto|]. exfalso.
        assert (T : existsb (fun v => negb (mem v rec1)) (filter (fun v => mem v rec) (map name p)) = true); [|congruence]. apply existsb_exists. exists v. rewrite Em. split; auto. apply filter_In. split; [|apply mem_in; auto]. apply Rx in I. tauto. }
    destruct Go as (fuel & [[n2 c2] q2] & Go). exists (S fuel). eexists. cbn [inline_functions]. rewrite Erq, E1, Go. reflexivity. }
  apply (Phase (total W p)); auto; [congruence|]. intros rq Erq v. rewrite Er in Erq. injection Erq as <-. tauto.
Qed.
Lemma terminates cfg next p : NoDup (map name p) -> exists r fuel0, forall fuel, fuel0 <= fuel -> inline_functions cfg fuel next p = Some r.
Proof.
  intros D. destruct (weights p D) as (rec & W & Er & _). destruct (inlining_ends cfg _ p rec next D Er (le_n _)) as (fuel & r & H). exists r, fuel. intros fuel' L. eapply more_fuel; eauto.
Qed.
