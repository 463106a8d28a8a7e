(** One lowering, seen from the outside, and why it keeps the meaning of programs. *)
From Verif Require Import ScfModel ScfSpec IrProofs IrInvProofs.
From Coq Require Import Lia.

(** ** Views *)
Lemma par_in c dead x b : inv c dead -> (op_in c x b <-> par (ops c) x = Some b).
Proof.
  intros (_ & ((H & _) & _) & _). rewrite <- (H x b). unfold op_in, bops. split.
  - intros (d & -> & K). exact K.
  - destruct (nth_error (blocks c) b) as [d|]; [|intros []]. intros K. exists d. split; [reflexivity | exact K].
Qed.
Lemma bpar_in c dead b q : inv c dead -> (block_in c b q <-> bpar (blocks c) b = Some q).
Proof.
  intros (_ & (_ & (H & _) & _) & _). rewrite <- (H b q). unfold block_in, rblks. split.
  - intros (d & -> & K). exact K.
  - destruct (nth_error (regions c) q) as [d|]; [|intros []]. intros K. exists d. split; [reflexivity | exact K].
Qed.
Lemma rpar_in c q o : region_parent c q o <-> rpar (regions c) q = Some o.
Proof.
  unfold region_parent, rpar. split.
  - intros (d & -> & K). exact K.
  - destruct (nth_error (regions c) q) as [d|]; [|discriminate]. intros K. exists d. split; [reflexivity | exact K].
Qed.
Lemma stands_par c dead x q : inv c dead -> (stands c x q <-> exists b, par (ops c) x = Some b /\ bpar (blocks c) b = Some q).
Proof. intros I. unfold stands. split; intros (b & H1 & H2); exists b; [rewrite <- (par_in c dead x b I), <- (bpar_in c dead b q I) | rewrite (par_in c dead x b I), (bpar_in c dead b q I)]; split; assumption. Qed.
Lemma in_bops c dead x b : inv c dead -> (In x (bops (blocks c) b) <-> par (ops c) x = Some b).
Proof. intros (_ & ((H & _) & _) & _). apply H. Qed.
Lemma in_rblks c dead b q : inv c dead -> (In b (rblks (regions c) q) <-> bpar (blocks c) b = Some q).
Proof. intros (_ & (_ & (H & _) & _) & _). apply H. Qed.
Lemma in_oregs c dead q o : inv c dead -> (In q (oregs (ops c) o) <-> rpar (regions c) q = Some o).
Proof. intros (_ & (_ & _ & (H & _)) & _). apply H. Qed.
Lemma bops_nodup c dead b : inv c dead -> NoDup (bops (blocks c) b).
Proof. intros (_ & ((_ & H) & _) & _). apply H. Qed.
Lemma stands_unique c dead x q q' : inv c dead -> stands c x q -> stands c x q' -> q = q'.
Proof. intros I H H'. apply (stands_par c dead x q I) in H. apply (stands_par c dead x q' I) in H'. destruct H as (b & H1 & H2), H' as (b' & H1' & H2'). congruence. Qed.
Lemma regions_owned c dead o d q : inv c dead -> nth_error (ops c) o = Some d -> In q (o_regions d) -> region_parent c q o.
Proof. intros I E H. apply rpar_in. apply (in_oregs c dead q o I). unfold oregs. rewrite E. exact H. Qed.

Definition same_data (d d' : op) : Prop := o_kind d' = o_kind d /\ o_result_types d' = o_result_types d /\ o_regions d' = o_regions d /\ o_succs d' = o_succs d.

(** ** The lists of operations after a lowering *)
Fixpoint before (s : nat) (l : list nat) : list nat :=
  match l with [] => [] | x :: l => if Nat.eqb x s then [] else x :: before s l end.
Definition image (log : list (nat * nat)) (y : nat) : option nat := option_map snd (find (fun p => Nat.eqb (fst p) y) log).
Definition moved (log : list (nat * nat)) (l : list nat) : list nat :=
  filter (fun x => match image log x with Some _ => false | None => true end) l ++
  map snd (filter (fun p => existsb (Nat.eqb (fst p)) l) log).
Definition relist (s : nat) (log : list (nat * nat)) (tail l : list nat) : list nat :=
  if existsb (Nat.eqb s) l then before s l ++ tail else moved log l.

Lemma before_split s A B : ~ In s A -> before s (A ++ s :: B) = A.
Proof. induction A as [|x A IH]; intros H; cbn; [rewrite Nat.eqb_refl; reflexivity|]. destruct (Nat.eqb_spec x s) as [->|]; [exfalso; apply H; left; reflexivity|]. f_equal. apply IH. intros K. apply H. right. exact K. Qed.
Lemma before_In s l x : In x (before s l) -> In x l.
Proof. induction l as [|y l IH]; cbn; [intros []|]. destruct (Nat.eqb y s); [intros []|]. intros [->|H]; [left; reflexivity | right; apply IH; exact H]. Qed.
Lemma moved_none log l : (forall x, In x l -> image log x = None) -> moved log l = l.
Proof.
  intros H. unfold moved. transitivity (l ++ []); [|apply app_nil_r]. f_equal.
  - induction l as [|x l IH]; [reflexivity|]. cbn. rewrite (H x (or_introl eq_refl)). f_equal. apply IH. intros y K. apply H. right. exact K.
  - induction log as [|[a z] log IH]; [reflexivity|]. cbn. destruct (existsb (Nat.eqb a) l) eqn:E.
    + exfalso. apply existsb_exists in E. destruct E as (x & Hx & E). apply Nat.eqb_eq in E. subst. specialize (H x Hx). unfold image in H. cbn in H. rewrite Nat.eqb_refl in H. discriminate.
    + apply IH. intros x Hx. specialize (H x Hx). unfold image in *. cbn in H. destruct (Nat.eqb a x); [discriminate | exact H].
Qed.
Lemma image_In log y z : image log y = Some z -> In (y, z) log.
Proof. unfold image. destruct (find (fun p => Nat.eqb (fst p) y) log) as [[a b]|] eqn:E; [|discriminate]. intros [= <-]. apply find_some in E. destruct E as (E1 & E2). apply Nat.eqb_eq in E2. cbn in *. subst. exact E1. Qed.
Lemma image_none log y : image log y = None <-> ~ In y (map fst log).
Proof.
  unfold image. destruct (find (fun p => Nat.eqb (fst p) y) log) as [p|] eqn:E; split; intros K; try reflexivity; try discriminate.
  - apply find_some in E. destruct E as (E1 & E2). apply Nat.eqb_eq in E2. exfalso. apply K. rewrite <- E2. apply in_map. exact E1.
  - intros K1. apply in_map_iff in K1. destruct K1 as (p & <- & Ip). pose proof (find_none _ _ E p Ip) as F. cbn in F. rewrite Nat.eqb_refl in F. discriminate.
Qed.
Lemma image_of log y z : NoDup (map fst log) -> In (y, z) log -> image log y = Some z.
Proof.
  unfold image. induction log as [|[a b] log IH]; intros N K; [destruct K|]. cbn in *. inversion N; subst. destruct K as [[= -> ->]|K]; [rewrite Nat.eqb_refl; reflexivity|].
  destruct (Nat.eqb_spec a y) as [->|]; [|apply IH; assumption]. exfalso. apply H1. apply in_map_iff. exists (y, z). split; [reflexivity | exact K].
Qed.
Lemma relist_cons s log tail x l : x <> s -> image log x = None -> relist s log tail (x :: l) = x :: relist s log tail l.
Proof.
  intros N I. unfold relist. cbn [existsb]. replace (Nat.eqb s x) with false by (symmetry; apply Nat.eqb_neq; congruence). cbn [orb]. destruct (existsb (Nat.eqb s) l); cbn [before].
  - destruct (Nat.eqb_spec x s); [contradiction | reflexivity].
  - unfold moved. cbn [filter]. rewrite I. cbn [app]. do 3 f_equal. apply filter_ext_in. intros [a z] K. cbn. apply image_none in I. destruct (Nat.eqb_spec a x) as [->|]; [|reflexivity]. exfalso. apply I. apply in_map_iff. exists (x, z). split; [reflexivity | exact K].
Qed.
Lemma relist_nil s log tail : relist s log tail [] = [].
Proof. unfold relist, moved. cbn. induction log as [|p l IH]; [reflexivity | exact IH]. Qed.
Lemma relist_here s log tail l : relist s log tail (s :: l) = tail.
Proof. unfold relist. cbn. rewrite Nat.eqb_refl. cbn. rewrite ?Nat.eqb_refl. reflexivity. Qed.
Lemma relist_exit s log tail y z : NoDup (map fst log) -> y <> s -> image log y = Some z -> relist s log tail [y] = [z].
Proof.
  intros D N I. unfold relist, moved. cbn. replace (Nat.eqb s y) with false by (symmetry; apply Nat.eqb_neq; congruence). cbn. rewrite I. cbn [app].
  assert (K : forall log, ~ In y (map fst log) -> filter (fun p : nat * nat => Nat.eqb (fst p) y || false) log = []).
  { intros l. induction l as [|[a b] l IH]; intros K; [reflexivity|]. cbn in *. destruct (Nat.eqb_spec a y) as [->|]; [exfalso; apply K; left; reflexivity|]. cbn. apply IH. intros K1. apply K. right. exact K1. }
  apply image_In in I. clear N. induction log as [|[a b] log IH]; [destruct I|]. cbn in *. inversion D; subst. destruct I as [[= -> ->]|I].
  - rewrite Nat.eqb_refl. cbn. rewrite K by assumption. reflexivity.
  - destruct (Nat.eqb_spec a y) as [->|]; [exfalso; apply H1; apply in_map_iff; exists (y, z); split; [reflexivity | exact I]|]. cbn. apply IH; assumption.
Qed.
Lemma relist_none s log tail l : ~ In s l -> (forall x, In x l -> image log x = None) -> relist s log tail l = l.
Proof.
  intros N H. unfold relist. destruct (existsb (Nat.eqb s) l) eqn:E; [|apply moved_none; exact H]. exfalso. apply existsb_exists in E. destruct E as (x & Hx & E). apply Nat.eqb_eq in E. subst. contradiction.
Qed.
Lemma relist_In s log tail l x : NoDup (map fst log) -> In x (relist s log tail l) -> In x l \/ In x tail \/ exists y, In y l /\ image log y = Some x.
Proof.
  intros D. unfold relist. destruct (existsb (Nat.eqb s) l).
  - rewrite in_app_iff. intros [H|H]; [left; apply (before_In _ _ _ H) | right; left; exact H].
  - unfold moved. rewrite in_app_iff. intros [H|H]; [apply filter_In in H; left; apply H|]. apply in_map_iff in H. destruct H as ([y z] & <- & H). apply filter_In in H. destruct H as (H1 & H2). right. right. exists y. apply existsb_exists in H2. destruct H2 as (w & Hw & E). apply Nat.eqb_eq in E. cbn in E. subst w. split; [exact Hw | apply image_of; assumption].
Qed.
Lemma relist_keeps s log tail l x : In x l -> x <> s -> image log x = None -> (In s l -> In x (before s l)) -> In x (relist s log tail l).
Proof.
  intros Hx N I B. unfold relist. destruct (existsb (Nat.eqb s) l) eqn:E.
  - apply in_or_app. left. apply B. apply existsb_exists in E. destruct E as (y & Hy & E). apply Nat.eqb_eq in E. subst. exact Hy.
  - unfold moved. apply in_or_app. left. apply filter_In. rewrite I. split; [exact Hx | reflexivity].
Qed.

Section Generic.
  Variable shape_of : nat -> shape.
  (** [q] is a region that operation [o] runs. *)
  Definition child (c : ctx) (o q : nat) : Prop :=
    match shape_at shape_of c o with
    | Some SIf | Some SLoop | Some SPlain => region_parent c q o
    | Some SSwitch => exists x q', region_parent c q x /\ (shape_at shape_of c x = Some SCase \/ shape_at shape_of c x = Some SDefault) /\ stands c x q' /\ region_parent c q' o
    | _ => False
    end.
  Lemma rparent_unique c q o o' : region_parent c q o -> region_parent c q o' -> o = o'.
  Proof. intros H H'. apply rpar_in in H. apply rpar_in in H'. congruence. Qed.
  Lemma child_unique c dead o o' q : inv c dead -> child c o q -> child c o' q -> o = o'.
  Proof.
    intros I H H'. unfold child in *.
    destruct (shape_at shape_of c o) as [[]|] eqn:E, (shape_at shape_of c o') as [[]|] eqn:E'; try contradiction;
      try (eapply rparent_unique; eassumption);
      try (destruct H as (x & y & Hx & Hs & _); assert (o' = x) as -> by (eapply rparent_unique; eassumption); destruct Hs; congruence);
      try (destruct H' as (x & y & Hx & Hs & _); assert (o = x) as -> by (eapply rparent_unique; eassumption); destruct Hs; congruence).
    destruct H as (x & y & Hx & _ & Hs & Hy), H' as (x' & y' & Hx' & _ & Hs' & Hy'). assert (x' = x) as -> by (eapply rparent_unique; eassumption). assert (y' = y) as -> by (eapply stands_unique; eassumption). eapply rparent_unique; eassumption.
  Qed.
  Lemma child_rank c rank o q x : (forall x q o, stands c x q -> region_parent c q o -> rank x < rank o) -> child c o q -> stands c x q -> rank x < rank o.
  Proof.
    intros R H S. unfold child in H. destruct (shape_at shape_of c o) as [[]|]; try contradiction; try (eapply R; eassumption).
    destruct H as (y & q' & H1 & _ & H2 & H3). pose proof (R _ _ _ S H1). pose proof (R _ _ _ H2 H3). lia.
  Qed.
  Lemma child_live c dead o q : tidy c dead -> child c o q -> ~ In o dead -> live c dead q.
  Proof.
    intros T H N o' Ho'. unfold child in H. destruct (shape_at shape_of c o) as [[]|] eqn:E; try contradiction;
      try (assert (o' = o) as -> by (eapply rparent_unique; eassumption); exact N).
    destruct H as (y & q' & H1 & _ & H2 & H3). assert (o' = y) as -> by (eapply rparent_unique; eassumption). apply (ti_live c dead T _ _ H2). intros z Hz. assert (z = o) as -> by (eapply rparent_unique; eassumption). exact N.
  Qed.

  Lemma deep_rank c rank q x : (forall x q o, stands c x q -> region_parent c q o -> rank x < rank o) -> deep c q x -> forall o, region_parent c q o -> rank x < rank o.
  Proof. intros R. induction 1 as [x H|x q' o' H H' D IH]; intros o Ho; [eapply R; eassumption|]. pose proof (R _ _ _ H H'). pose proof (IH o Ho). lia. Qed.
  Lemma inside_rank c rank o x : (forall x q o, stands c x q -> region_parent c q o -> rank x < rank o) -> inside_op c o x -> rank x < rank o.
  Proof. intros R (q & H & D). eapply deep_rank; eassumption. Qed.
  Lemma deep_trans c q x o q' : deep c q o -> region_parent c q' o -> deep c q' x -> deep c q x.
  Proof. intros D R. induction 1 as [x H|x q2 o' H H' D' IH]; eapply deep_in; eassumption. Qed.
  Lemma inside_child c o q x : child c o q -> deep c q x -> inside_op c o x.
  Proof.
    intros H D. unfold child in H. destruct (shape_at shape_of c o) as [[]|]; try contradiction; try (exists q; split; assumption).
    destruct H as (y & q' & H1 & _ & H2 & H3). exists q'. split; [exact H3|]. eapply deep_trans; [apply deep_here; exact H2 | exact H1 | exact D].
  Qed.
  (** An operation inside [s] does not stand where [s] stands. *)
  Lemma inside_elsewhere c dead rank s x P : inv c dead -> (forall x q o, stands c x q -> region_parent c q o -> rank x < rank o) ->
    stands c s P -> inside_op c s x -> ~ stands c x P.
  Proof.
    intros I R S (q & Hq & D) X. destruct D as [x H|x q' o H H' D].
    - assert (q = P) as -> by (eapply stands_unique; eassumption). pose proof (R _ _ _ S Hq). lia.
    - assert (q' = P) as -> by (eapply stands_unique; eassumption). pose proof (R _ _ _ S H'). pose proof (deep_rank c rank q o R D s Hq). lia.
  Qed.

  (** What a lowering of [s], at the end of [pre] in block [b0] of region [P], leaves behind: the regions in [Q] have become
      part of [P]; [tail] stands in place of [s], and what followed it is in block [m]; [log] pairs operations that ended
      regions with the branches in their place; readers of the first of [arg] read the second. *)
  Definition swap (arg : option (nat * nat)) (v : nat) : nat := match arg with Some (r, a) => if Nat.eqb v r then a else v | None => v end.
  Definition into (Q : nat -> bool) (P q : nat) : nat := if Q q then P else q.
  Definition is_exit (x : shape) : bool := match x with SYield | SContinue | SBreak => true | _ => false end.
  Record lowering (c : ctx) (dead : list nat) (c' : ctx) (dead' : list nat) (b0 s P m : nat) (pre post : list nat) (Q : nat -> bool)
         (log : list (nat * nat)) (tail : list nat) (arg : option (nat * nat)) : Prop := {
    lo_inv : inv c' dead';
    lo_home : bops (blocks c) b0 = pre ++ s :: post;
    lo_where : bpar (blocks c) b0 = Some P;
    lo_live : live c dead P;
    lo_plain : forall o, region_parent c P o -> shape_at shape_of c o <> Some SSwitch;
    lo_shape : exists x, shape_at shape_of c s = Some x /\ control x = true;
    lo_ops : forall x d, nth_error (ops c) x = Some d -> exists d', nth_error (ops c') x = Some d' /\ same_data d d' /\ (~ In x dead -> o_operands d' = map (swap arg) (o_operands d));
    lo_results : forall x, x < length (ops c) -> op_results c' x = op_results c x;
    lo_bops : forall b, b < length (blocks c) -> bops (blocks c') b = relist s log tail (bops (blocks c) b);
    lo_bpar : forall b, b < length (blocks c) -> bpar (blocks c') b = option_map (into Q P) (bpar (blocks c) b);
    lo_args : forall b, b < length (blocks c) -> block_args c' b = block_args c b;
    lo_blen : length (blocks c) <= m;
    lo_blen' : m < length (blocks c');
    lo_merge : bops (blocks c') m = post;
    lo_newpar : forall b q, length (blocks c) <= b -> bpar (blocks c') b = Some q -> q = P;
    lo_mergepar : bpar (blocks c') m = Some P;
    lo_newblk : forall b x, length (blocks c) <= b -> b <> m -> In x (bops (blocks c') b) -> length (ops c) <= x;
    lo_tail : forall z, In z tail -> length (ops c) <= z;
    lo_log : forall y z, image log y = Some z -> length (ops c) <= z /\ (exists x, shape_at shape_of c y = Some x /\ is_exit x = true) /\
               inside_op c s y;
    lo_once : NoDup (map fst log);
    lo_br : forall y z, image log y = Some z -> shape_at shape_of c' z = Some SBr;
    lo_entry : forall q, Q q = false -> hd_error (rblks (regions c') q) = hd_error (rblks (regions c) q);
    lo_rpar : forall q, rpar (regions c') q = rpar (regions c) q;
    lo_Q : forall q, Q q = true -> child c s q;
    lo_vals : length (vals c) <= length (vals c');
    lo_arg : match arg with
             | Some (r, a) => op_results c s = [r] /\ length (vals c) <= a /\ a < length (vals c') /\ block_args c' m = [a] /\ (forall x, x < length (ops c') -> ~ In a (op_results c' x))
             | None => block_args c' m = [] /\ (op_results c s = [] \/ exists r, op_results c s = [r] /\ uses c r = [])
             end;
    lo_new : forall z d, length (ops c) <= z -> nth_error (ops c') z = Some d -> o_regions d = [] /\ forall v, In v (o_operands d) -> v < length (vals c') /\ ~ In v (op_results c' z);
    lo_dead : forall x, In x dead -> In x dead';
    lo_killed : forall x, In x dead' -> In x dead \/ ((x = s \/ inside_op c s x) /\ ((forall q, ~ stands c' x q) \/ exists q o, stands c' x q /\ region_parent c' q o /\ In o dead'));
  }.

  Section One.
    Variable c : ctx.
    Variable dead : list nat.
    Variable c' : ctx.
    Variable dead' : list nat.
    Variables b0 s P m : nat.
    Variables pre post : list nat.
    Variable Q : nat -> bool.
    Variable log : list (nat * nat).
    Variable tail : list nat.
    Variable arg : option (nat * nat).
    Hypothesis I : inv c dead.
    Hypothesis T : tidy c dead.
    Hypothesis H : lowering c dead c' dead' b0 s P m pre post Q log tail arg.
    Notation rho := (into Q P).
    Notation L := (relist s log tail).

    Lemma s_stands : stands c s P.
    Proof. apply (stands_par c dead s P I). exists b0. split; [|apply (lo_where _ _ _ _ _ _ _ _ _ _ _ _ _ _ H)]. apply (in_bops c dead s b0 I). rewrite (lo_home _ _ _ _ _ _ _ _ _ _ _ _ _ _ H). apply in_elt. Qed.
    Lemma s_alive : ~ In s dead.
    Proof. apply (ti_live c dead T _ _ s_stands). apply (lo_live _ _ _ _ _ _ _ _ _ _ _ _ _ _ H). Qed.
    Lemma P_not_Q : Q P = false.
    Proof.
      destruct (Q P) eqn:E; [|reflexivity]. apply (lo_Q _ _ _ _ _ _ _ _ _ _ _ _ _ _ H) in E. destruct (ti_rank c dead T) as (rank & R). pose proof (child_rank c rank s P s R E s_stands). lia.
    Qed.
    Lemma rho_P : rho P = P.
    Proof. unfold into. rewrite P_not_Q. reflexivity. Qed.
    Lemma rho_out q : Q q = false -> rho q = q.
    Proof. unfold into. intros ->. reflexivity. Qed.
    Lemma rho_in q : Q q = true -> rho q = P.
    Proof. unfold into. intros ->. reflexivity. Qed.
    Lemma old_op x d : nth_error (ops c) x = Some d -> x < length (ops c).
    Proof. intros E. apply nth_error_Some. congruence. Qed.
    Lemma stands_old x q : stands c x q -> exists d, nth_error (ops c) x = Some d.
    Proof. intros S. apply (stands_par c dead x q I) in S. destruct S as (b & S & _). unfold par in S. destruct (nth_error (ops c) x) as [d|]; [exists d; reflexivity | discriminate]. Qed.
    Lemma bpar_old b q : bpar (blocks c) b = Some q -> b < length (blocks c).
    Proof. unfold bpar. destruct (nth_error (blocks c) b) eqn:E; [|discriminate]. intros _. apply nth_error_Some. congruence. Qed.
    Lemma par_old x b : par (ops c) x = Some b -> x < length (ops c) /\ b < length (blocks c).
    Proof.
      intros K. split; [unfold par in K; destruct (nth_error (ops c) x) eqn:E; [|discriminate]; apply nth_error_Some; congruence|].
      apply (in_bops c dead x b I) in K. unfold bops in K. destruct (nth_error (blocks c) b) eqn:E; [|destruct K]. apply nth_error_Some. congruence.
    Qed.
    Lemma shape_kept x : x < length (ops c) -> shape_at shape_of c' x = shape_at shape_of c x.
    Proof.
      intros K. unfold shape_at. destruct (nth_error (ops c) x) as [d|] eqn:E; [|apply nth_error_None in E; lia]. destruct (lo_ops _ _ _ _ _ _ _ _ _ _ _ _ _ _ H x d E) as (d' & -> & (Hk & _) & _). cbn. rewrite Hk. reflexivity.
    Qed.
    Lemma shape_kept' x y : shape_at shape_of c x = Some y -> shape_at shape_of c' x = Some y.
    Proof. intros K. rewrite shape_kept; [exact K|]. unfold shape_at in K. destruct (nth_error (ops c) x) eqn:E; [|discriminate]. apply nth_error_Some. congruence. Qed.

    (** Exits are not where [s] is, nor [s]. *)
    Lemma exit_elsewhere y z : image log y = Some z -> y <> s /\ ~ stands c y P.
    Proof.
      intros K. destruct (lo_log _ _ _ _ _ _ _ _ _ _ _ _ _ _ H y z K) as (_ & _ & D). destruct (ti_rank c dead T) as (rank & R). split; [|eapply inside_elsewhere; eauto using s_stands].
      intros ->. pose proof (inside_rank c rank s s R D). lia.
    Qed.
    Lemma home_plain x : In x (pre ++ s :: post) -> image log x = None.
    Proof.
      intros K. destruct (image log x) as [z|] eqn:E; [|reflexivity]. exfalso. destruct (exit_elsewhere x z E) as (_ & N). apply N. apply (stands_par c dead x P I). exists b0. split; [|apply (lo_where _ _ _ _ _ _ _ _ _ _ _ _ _ _ H)].
      apply (in_bops c dead x b0 I). rewrite (lo_home _ _ _ _ _ _ _ _ _ _ _ _ _ _ H). exact K.
    Qed.
    Lemma home_once : ~ In s pre /\ ~ In s post.
    Proof.
      pose proof (bops_nodup c dead b0 I) as N. rewrite (lo_home _ _ _ _ _ _ _ _ _ _ _ _ _ _ H) in N. apply NoDup_remove_2 in N. rewrite in_app_iff in N. tauto.
    Qed.
    Lemma L_post : L post = post.
    Proof. apply relist_none; [apply home_once|]. intros x K. apply home_plain. apply in_or_app. right. right. exact K. Qed.

    (** Where things stand afterwards. *)
    Lemma stands_before x q' : stands c' x q' -> x < length (ops c) -> exists q, stands c x q /\ q' = rho q.
    Proof.
      intros S K. apply (stands_par c' dead' x q' (lo_inv _ _ _ _ _ _ _ _ _ _ _ _ _ _ H)) in S. destruct S as (b & S1 & S2). apply (in_bops c' dead' x b (lo_inv _ _ _ _ _ _ _ _ _ _ _ _ _ _ H)) in S1.
      destruct (Nat.lt_ge_cases b (length (blocks c))) as [Lb|Lb].
      - rewrite (lo_bops _ _ _ _ _ _ _ _ _ _ _ _ _ _ H b Lb) in S1. rewrite (lo_bpar _ _ _ _ _ _ _ _ _ _ _ _ _ _ H b Lb) in S2. destruct (bpar (blocks c) b) as [q|] eqn:Eq; [|discriminate]. injection S2 as <-. exists q. split; [|reflexivity].
        apply (stands_par c dead x q I). exists b. split; [|exact Eq]. apply (in_bops c dead x b I). apply (relist_In _ _ _ _ _ (lo_once _ _ _ _ _ _ _ _ _ _ _ _ _ _ H)) in S1. destruct S1 as [S1|[S1|(y & _ & S1)]]; [exact S1| |].
        + apply (lo_tail _ _ _ _ _ _ _ _ _ _ _ _ _ _ H) in S1. lia.
        + apply (lo_log _ _ _ _ _ _ _ _ _ _ _ _ _ _ H) in S1. destruct S1 as [S1 _]. lia.
      - destruct (Nat.eq_dec b m) as [->|N].
        + rewrite (lo_mergepar _ _ _ _ _ _ _ _ _ _ _ _ _ _ H) in S2. injection S2 as <-. exists P. split; [|symmetry; apply rho_P]. rewrite (lo_merge _ _ _ _ _ _ _ _ _ _ _ _ _ _ H) in S1.
          apply (stands_par c dead x P I). exists b0. split; [|apply (lo_where _ _ _ _ _ _ _ _ _ _ _ _ _ _ H)]. apply (in_bops c dead x b0 I). rewrite (lo_home _ _ _ _ _ _ _ _ _ _ _ _ _ _ H). apply in_or_app. right. right. exact S1.
        + apply (lo_newblk _ _ _ _ _ _ _ _ _ _ _ _ _ _ H b x Lb N) in S1. lia.
    Qed.
    Lemma stands_after x q : stands c x q -> x <> s -> image log x = None -> stands c' x (rho q).
    Proof.
      intros S N E. apply (stands_par c dead x q I) in S. destruct S as (b & S1 & S2). pose proof (par_old x b S1) as (_ & Lb). apply (in_bops c dead x b I) in S1.
      assert (K : In x (L (bops (blocks c) b)) \/ (b = b0 /\ In x post)).
      { destruct (in_dec Nat.eq_dec s (bops (blocks c) b)) as [Is|Is].
        - assert (b = b0) as ->. { apply (in_bops c dead s b I) in Is. assert (Is0 : In s (bops (blocks c) b0)) by (rewrite (lo_home _ _ _ _ _ _ _ _ _ _ _ _ _ _ H); apply in_elt). apply (in_bops c dead s b0 I) in Is0. congruence. }
          rewrite (lo_home _ _ _ _ _ _ _ _ _ _ _ _ _ _ H) in *. apply in_app_or in S1. destruct S1 as [S1|[S1|S1]]; [|congruence|right; split; [reflexivity | exact S1]]. left.
          apply relist_keeps; [apply in_or_app; left; exact S1 | exact N | exact E |]. intros _. rewrite before_split by apply home_once. exact S1.
        - left. apply relist_keeps; try assumption. intros K. contradiction. }
      apply (stands_par c' dead' x (rho q) (lo_inv _ _ _ _ _ _ _ _ _ _ _ _ _ _ H)). destruct K as [K|[-> K]].
      - exists b. rewrite (lo_bpar _ _ _ _ _ _ _ _ _ _ _ _ _ _ H b Lb), S2. split; [|reflexivity]. apply (in_bops c' dead' x b (lo_inv _ _ _ _ _ _ _ _ _ _ _ _ _ _ H)). rewrite (lo_bops _ _ _ _ _ _ _ _ _ _ _ _ _ _ H b Lb). exact K.
      - exists m. rewrite (lo_where _ _ _ _ _ _ _ _ _ _ _ _ _ _ H) in S2. injection S2 as <-. rewrite rho_P. split; [|apply (lo_mergepar _ _ _ _ _ _ _ _ _ _ _ _ _ _ H)]. apply (in_bops c' dead' x m (lo_inv _ _ _ _ _ _ _ _ _ _ _ _ _ _ H)). rewrite (lo_merge _ _ _ _ _ _ _ _ _ _ _ _ _ _ H). exact K.
    Qed.
    Lemma rparent_same q o : region_parent c' q o <-> region_parent c q o.
    Proof. rewrite !rpar_in, (lo_rpar _ _ _ _ _ _ _ _ _ _ _ _ _ _ H). reflexivity. Qed.
    Lemma owner_old q o : region_parent c q o -> o < length (ops c).
    Proof. intros K. apply rpar_in in K. apply (in_oregs c dead q o I) in K. unfold oregs in K. destruct (nth_error (ops c) o) eqn:E; [|destruct K]. apply nth_error_Some. congruence. Qed.
    Lemma Q_live q : Q q = true -> live c dead q.
    Proof. intros K. eapply child_live; [exact T | apply (lo_Q _ _ _ _ _ _ _ _ _ _ _ _ _ _ H); exact K | apply s_alive]. Qed.
    Lemma live_before q : live c' dead' (rho q) -> live c dead q.
    Proof.
      destruct (Q q) eqn:E; [intros _; apply Q_live; exact E|]. rewrite (rho_out q E). intros K o Ho D. apply (K o); [apply rparent_same; exact Ho | apply (lo_dead _ _ _ _ _ _ _ _ _ _ _ _ _ _ H); exact D].
    Qed.

    Lemma tidy_after : tidy c' dead'.
    Proof.
      destruct T as [(rank & R) Ex Li]. constructor.
      - exists (fun x => if Nat.ltb x (length (ops c)) then rank x else 0). intros x q o S Ro. apply rparent_same in Ro. pose proof (owner_old q o Ro) as Lo. replace (o <? length (ops c)) with true by (symmetry; apply Nat.ltb_lt; exact Lo).
        destruct (Nat.ltb_spec x (length (ops c))) as [Lx|Lx].
        + destruct (stands_before x q S Lx) as (q1 & S1 & ->). destruct (Q q1) eqn:E; [|rewrite (rho_out q1 E) in Ro; eapply R; eassumption].
          rewrite (rho_in q1 E) in Ro. pose proof (R _ _ _ s_stands Ro). pose proof (child_rank c rank s q1 x R (lo_Q _ _ _ _ _ _ _ _ _ _ _ _ _ _ H q1 E) S1). lia.
        + (* a new operation: something old stood there *)
          assert (exists y, rank y < rank o) as (y & Hy); [|lia]. apply (stands_par c' dead' x q (lo_inv _ _ _ _ _ _ _ _ _ _ _ _ _ _ H)) in S. destruct S as (b & S1 & S2). destruct (Nat.lt_ge_cases b (length (blocks c))) as [Lb|Lb].
          * apply (in_bops c' dead' x b (lo_inv _ _ _ _ _ _ _ _ _ _ _ _ _ _ H)) in S1. rewrite (lo_bops _ _ _ _ _ _ _ _ _ _ _ _ _ _ H b Lb) in S1. rewrite (lo_bpar _ _ _ _ _ _ _ _ _ _ _ _ _ _ H b Lb) in S2. destruct (bpar (blocks c) b) as [q1|] eqn:Eq; [|discriminate]. injection S2 as <-.
            assert (E : exists y, In y (bops (blocks c) b)).
            { destruct (bops (blocks c) b) as [|y l] eqn:El; [|exists y; left; reflexivity]. exfalso. unfold relist, moved in S1. cbn in S1. replace (filter (fun _ : nat * nat => false) log) with (@nil (nat * nat)) in S1 by (clear; induction log; [reflexivity | assumption]). destruct S1. }
            destruct E as (y & Ey). assert (Sy : stands c y q1) by (apply (stands_par c dead y q1 I); exists b; split; [apply (in_bops c dead y b I); exact Ey | exact Eq]).
            destruct (Q q1) eqn:EQ; [|rewrite (rho_out q1 EQ) in Ro; exists y; eapply R; eassumption]. rewrite (rho_in q1 EQ) in Ro. exists s. eapply R; [apply s_stands | exact Ro].
          * apply (lo_newpar _ _ _ _ _ _ _ _ _ _ _ _ _ _ H b q Lb) in S2. subst q. exists s. eapply R; [apply s_stands | exact Ro].
      - intros x d v Ed Nx Iv. destruct (Nat.lt_ge_cases x (length (ops c))) as [Lx|Lx]; [|apply (proj2 (lo_new _ _ _ _ _ _ _ _ _ _ _ _ _ _ H x d Lx Ed)); exact Iv].
        destruct (nth_error (ops c) x) as [d0|] eqn:E0; [|apply nth_error_None in E0; lia]. destruct (lo_ops _ _ _ _ _ _ _ _ _ _ _ _ _ _ H x d0 E0) as (d1 & E1 & _ & O). assert (d1 = d) as -> by congruence.
        assert (N0 : ~ In x dead) by (intros K; apply Nx, (lo_dead _ _ _ _ _ _ _ _ _ _ _ _ _ _ H), K). rewrite (O N0) in Iv. apply in_map_iff in Iv. destruct Iv as (w & <- & Iw). destruct (Ex x d0 w E0 N0 Iw) as [B1 B2].
        rewrite (lo_results _ _ _ _ _ _ _ _ _ _ _ _ _ _ H x Lx). pose proof (lo_vals _ _ _ _ _ _ _ _ _ _ _ _ _ _ H). pose proof (lo_arg _ _ _ _ _ _ _ _ _ _ _ _ _ _ H) as A. unfold swap. destruct arg as [[r a]|]; [|split; [lia | exact B2]].
        destruct A as (A1 & A2 & A3 & A4 & A5). destruct (Nat.eqb_spec w r) as [->|]; [|split; [lia | exact B2]]. split; [exact A3|]. specialize (A5 x). rewrite (lo_results _ _ _ _ _ _ _ _ _ _ _ _ _ _ H x Lx) in A5. apply A5. apply nth_error_Some. congruence.
      - intros x q S Lq D. destruct (lo_killed _ _ _ _ _ _ _ _ _ _ _ _ _ _ H x D) as [D0|[_ [K|(q2 & o & S2 & Ro & Do)]]].
        + assert (Lx : x < length (ops c)) by (destruct I as ((_ & _ & B) & _); apply B; exact D0). destruct (stands_before x q S Lx) as (q1 & S1 & ->). apply (Li x q1 S1); [apply live_before; exact Lq | exact D0].
        + exact (K q S).
        + assert (q2 = q) as -> by (eapply stands_unique; [exact (lo_inv _ _ _ _ _ _ _ _ _ _ _ _ _ _ H) | exact S2 | exact S]). exact (Lq o Ro Do).
    Qed.

    (** ** What a lowering inside region [R] leaves alone *)
    Definition outer (c : ctx) (R q : nat) : Prop := forall o, region_parent c q o -> ~ deep c R o.
    Lemma deep_before R x : deep c' R x -> x < length (ops c) -> deep c R x.
    Proof.
      intros D.
      assert (inQ : forall q1 x, deep c R s -> stands c x q1 -> Q q1 = true -> deep c R x).
      { intros q1 z Ds' S1 E. apply (lo_Q _ _ _ _ _ _ _ _ _ _ _ _ _ _ H) in E. destruct (inside_child c s q1 z E (deep_here c q1 z S1)) as (q2 & Hq2 & D2). eapply deep_trans; eassumption. }
      induction D as [x S|x q' o S Ro D IH]; intros Lx.
      - destruct (stands_before x R S Lx) as (q1 & S1 & E). destruct (Q q1) eqn:EQ; [rewrite (rho_in q1 EQ) in E; subst; apply (inQ q1 x (deep_here c P s s_stands) S1 EQ)|]. rewrite (rho_out q1 EQ) in E. subst. apply deep_here. exact S1.
      - apply rparent_same in Ro. specialize (IH (owner_old q' o Ro)). destruct (stands_before x q' S Lx) as (q1 & S1 & E). destruct (Q q1) eqn:EQ; [rewrite (rho_in q1 EQ) in E; subst; apply (inQ q1 x (deep_in c R s P o s_stands Ro IH) S1 EQ)|]. rewrite (rho_out q1 EQ) in E. subst. eapply deep_in; eassumption.
    Qed.
    Lemma outer_after R q : outer c R q -> outer c' R q.
    Proof. intros O o Ro D. apply rparent_same in Ro. apply (O o Ro). apply deep_before; [exact D | apply (owner_old q o Ro)]. Qed.
    Lemma outer_not_Q R q : deep c R s -> outer c R q -> Q q = false.
    Proof.
      intros Ds O. destruct (Q q) eqn:E; [|reflexivity]. exfalso. apply (lo_Q _ _ _ _ _ _ _ _ _ _ _ _ _ _ H) in E. unfold child in E.
      destruct (shape_at shape_of c s) as [[]|]; try contradiction; try (exact (O s E Ds)). destruct E as (x & q1 & H1 & _ & H2 & H3). apply (O x H1). eapply deep_in; eassumption.
    Qed.
    Lemma outer_live R q : deep c R s -> outer c R q -> live c dead q -> live c' dead' q.
    Proof.
      intros Ds O Lq o Ro D. apply rparent_same in Ro. destruct (lo_killed _ _ _ _ _ _ _ _ _ _ _ _ _ _ H o D) as [D0|[[->|(q1 & Hq1 & D1)] _]]; [exact (Lq o Ro D0) | exact (O s Ro Ds) |]. apply (O o Ro). eapply deep_trans; eassumption.
    Qed.
    Lemma outer_bpar R q b : deep c R s -> outer c R q -> bpar (blocks c) b = Some q -> bpar (blocks c') b = Some q.
    Proof. intros Ds O E. rewrite (lo_bpar _ _ _ _ _ _ _ _ _ _ _ _ _ _ H b (bpar_old b q E)), E. cbn. rewrite (rho_out q (outer_not_Q R q Ds O)). reflexivity. Qed.
  End One.
End Generic.
