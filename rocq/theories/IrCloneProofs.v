(** Cloning produces a copy. *)
From Verif Require Import Base IrModel IrSpec IrTreeSpec IrProofs IrInvProofs IrWalkProofs.
From Coq Require Import Lia.

Lemma all2_Forall2 : forall A B (P : A -> B -> Prop) l m, all2 P l m <-> Forall2 P l m.
Proof.
  intros A B P l. induction l as [|x l IH]; intros [|y m]; cbn [all2].
  - split; constructor.
  - split; [intros []|intro H; inversion H].
  - split; [intros []|intro H; inversion H].
  - change ((P x y /\ all2 P l m) <-> Forall2 P (x :: l) (y :: m)). rewrite IH.
    split; [intros [? ?]; constructor; assumption|intro H; inversion H; split; assumption].
Qed.
Lemma Forall2_impl' : forall A B (P Q : A -> B -> Prop) l m, (forall a b, In a l -> P a b -> Q a b) -> Forall2 P l m -> Forall2 Q l m.
Proof.
  intros A B P Q l m H F. induction F as [|a b l m Hp F IH]; constructor.
  - apply H; [left; reflexivity|exact Hp].
  - apply IH. intros a' b' Ha. apply H. right. exact Ha.
Qed.

Lemma Forall2_impl_r : forall A B (P Q : A -> B -> Prop) l m, (forall a b, In b m -> P a b -> Q a b) -> Forall2 P l m -> Forall2 Q l m.
Proof.
  intros A B P Q l m H F. induction F as [|a b l m Hp F IH]; constructor.
  - apply H; [left; reflexivity|exact Hp].
  - apply IH. intros a' b' Ha. apply H. right. exact Ha.
Qed.

Lemma Forall2_both : forall A B (P Q : A -> B -> Prop) l m, Forall2 P l m -> Forall2 Q l m -> Forall2 (fun a b => P a b /\ Q a b) l m.
Proof. intros A B P Q l m H. induction H; intro K; inversion K; subst; constructor; [split; assumption|auto]. Qed.

(** The copy relation with a predicate on the copied blocks. *)
Fixpoint copyQ (Q : nat -> Prop) (c c' : ctx) (F G : nat -> nat) (t : tree) (o' : nat) : Prop :=
  match t with
  | Node o rs =>
      op_copy c c' F G o o' /\
      all2 (fun rb r' =>
        r' < length (regions c') /\
        all2 (fun bt b' => (Q b' /\ block_copy c c' F G (fst bt) b') /\ all2 (copyQ Q c c' F G) (snd bt) (block_ops_of c' b'))
          (snd rb) (region_blocks_of c' r')) rs (op_regions_of c' o')
  end.
Definition blockQ (Q : nat -> Prop) (c c' : ctx) (F G : nat -> nat) (bt : nat * list tree) (b' : nat) : Prop :=
  (Q b' /\ block_copy c c' F G (fst bt) b') /\ all2 (copyQ Q c c' F G) (snd bt) (block_ops_of c' b').
Definition regionQ (Q : nat -> Prop) (c c' : ctx) (F G : nat -> nat) (rb : nat * list (nat * list tree)) (r' : nat) : Prop :=
  r' < length (regions c') /\ all2 (blockQ Q c c' F G) (snd rb) (region_blocks_of c' r').

Lemma in_trees : forall rs rb bt t, In rb rs -> In bt (snd rb) -> In t (snd bt) -> In t (trees rs).
Proof.
  intros rs rb bt t H1 H2 H3. unfold trees, inner. apply in_flat_map. exists rb. split; [exact H1|]. apply in_flat_map. exists bt. split; [exact H2|].
  rewrite flat_map_single. exact H3.
Qed.

Lemma copyQ_is_copy : forall Q c c' F G t o', copyQ Q c c' F G t o' -> is_copy c c' F G t o'.
Proof.
  intros Q c c' F G t. induction t as [o rs IH] using tree_induct. intros o' (H1 & H2). split; [exact H1|].
  rewrite Forall_forall in IH. rewrite all2_Forall2 in *. eapply Forall2_impl'; [|exact H2]. intros rb r' Hrb (K1 & K2). split; [exact K1|].
  rewrite all2_Forall2 in *. eapply Forall2_impl'; [|exact K2]. intros bt b' Hbt ((_ & K3) & K4). split; [exact K3|].
  rewrite all2_Forall2 in *. eapply Forall2_impl'; [|exact K4]. intros t x Ht K. apply IH; [eapply in_trees; eassumption|exact K].
Qed.

(** Data relevant to copies is kept; the operations of a block only where [Q] holds. *)
Definition body (d : op) := (o_kind d, o_operands d, o_result_types d, o_regions d, o_succs d).
Record pres (Q : nat -> Prop) (c c' : ctx) : Prop := {
  pr_ops : forall o d, nth_error (ops c) o = Some d -> exists d', nth_error (ops c') o = Some d' /\ body d' = body d;
  pr_res : forall o, o < length (ops c) -> op_results c' o = op_results c o;
  pr_blocks : forall b d, nth_error (blocks c) b = Some d -> exists d', nth_error (blocks c') b = Some d' /\ b_arg_types d' = b_arg_types d /\ (Q b -> b_ops d' = b_ops d);
  pr_args : forall b, b < length (blocks c) -> block_args c' b = block_args c b;
  pr_regions : forall r d, nth_error (regions c) r = Some d -> exists d', nth_error (regions c') r = Some d' /\ r_blocks d' = r_blocks d;
}.
Lemma pres_refl : forall Q c, pres Q c c.
Proof.
  intros Q c. constructor; intros; try reflexivity.
  - exists d. split; [assumption|reflexivity].
  - exists d. repeat split. assumption.
  - exists d. split; [assumption|reflexivity].
Qed.
Lemma pres_trans : forall Q a b c, pres Q a b -> pres Q b c -> pres Q a c.
Proof.
  intros Q a b c [A1 A2 A3 A4 A5] [B1 B2 B3 B4 B5]. constructor.
  - intros o d H. destruct (A1 _ _ H) as (d' & H' & E'). destruct (B1 _ _ H') as (d2 & H2 & E2). exists d2. split; [exact H2|congruence].
  - intros o H. rewrite B2, A2; [reflexivity|exact H|]. destruct (nth_error (ops a) o) as [d|] eqn:E; [|apply nth_error_None in E; lia].
    destruct (A1 _ _ E) as (d' & H' & _). eapply nth_lt. exact H'.
  - intros o d H. destruct (A3 _ _ H) as (d' & H' & E' & F'). destruct (B3 _ _ H') as (d2 & H2 & E2 & F2). exists d2. repeat split; [exact H2|congruence|].
    intro K. rewrite F2, F' by exact K. reflexivity.
  - intros o H. rewrite B4, A4; [reflexivity|exact H|]. destruct (nth_error (blocks a) o) as [d|] eqn:E; [|apply nth_error_None in E; lia].
    destruct (A3 _ _ E) as (d' & H' & _). eapply nth_lt. exact H'.
  - intros o d H. destruct (A5 _ _ H) as (d' & H' & E'). destruct (B5 _ _ H') as (d2 & H2 & E2). exists d2. split; [exact H2|congruence].
Qed.
Lemma pres_weaken : forall (Q Q' : nat -> Prop) a b, (forall x, Q' x -> Q x) -> pres Q a b -> pres Q' a b.
Proof.
  intros Q Q' a b H [A1 A2 A3 A4 A5]. constructor; try assumption. intros x d K. destruct (A3 _ _ K) as (d' & H' & E' & F'). exists d'. repeat split; try assumption.
  intro K'. apply F', H, K'.
Qed.
Lemma pres_len_regions : forall Q a b r, pres Q a b -> r < length (regions a) -> r < length (regions b).
Proof.
  intros Q a b r P H. destruct (nth_error (regions a) r) as [d|] eqn:E; [|apply nth_error_None in E; lia].
  destruct (pr_regions _ _ _ P _ _ E) as (d' & H' & _). eapply nth_lt. exact H'.
Qed.
Lemma pres_len_blocks : forall Q a b, pres Q a b -> length (blocks a) <= length (blocks b).
Proof.
  intros Q a b P. destruct (Nat.le_gt_cases (length (blocks a)) (length (blocks b))) as [H|H]; [exact H|].
  destruct (nth_error (blocks a) (length (blocks b))) as [d|] eqn:E; [|apply nth_error_None in E; lia].
  destruct (pr_blocks _ _ _ P _ _ E) as (d' & H' & _). apply nth_lt in H'. lia.
Qed.
Lemma pres_len_ops : forall Q a b, pres Q a b -> length (ops a) <= length (ops b).
Proof.
  intros Q a b P. destruct (Nat.le_gt_cases (length (ops a)) (length (ops b))) as [H|H]; [exact H|].
  destruct (nth_error (ops a) (length (ops b))) as [d|] eqn:E; [|apply nth_error_None in E; lia].
  destruct (pr_ops _ _ _ P _ _ E) as (d' & H' & _). apply nth_lt in H'. lia.
Qed.
Lemma pres_len_regions_le : forall Q a b, pres Q a b -> length (regions a) <= length (regions b).
Proof.
  intros Q a b P. destruct (Nat.le_gt_cases (length (regions a)) (length (regions b))) as [H|H]; [exact H|].
  pose proof (pres_len_regions Q a b (length (regions b)) P H). lia.
Qed.

Lemma op_copy_pres : forall Q c0 c c' F G o o', op_copy c0 c F G o o' -> pres Q c c' -> op_copy c0 c' F G o o' /\ op_regions_of c' o' = op_regions_of c o'.
Proof.
  intros Q c0 c c' F G o o' (d & d' & E1 & E2 & K1 & K2 & K3 & K4 & K5) P. destruct (pr_ops _ _ _ P _ _ E2) as (d2 & E3 & B). unfold body in B.
  inversion B as [[B1 B2 B3 B4 B5]]. split.
  - exists d, d2. repeat split; try congruence. rewrite (pr_res _ _ _ P) by (eapply nth_lt; exact E2). exact K5.
  - unfold op_regions_of. rewrite E2, E3. exact B4.
Qed.
Lemma copyQ_pres : forall Q c0 c c' F G t o', copyQ Q c0 c F G t o' -> pres Q c c' -> copyQ Q c0 c' F G t o'.
Proof.
  intros Q c0 c c' F G t. induction t as [o rs IH] using tree_induct. intros o' (H1 & H2) P.
  destruct (op_copy_pres _ _ _ _ _ _ _ _ H1 P) as (K1 & K2). split; [exact K1|]. rewrite K2.
  rewrite Forall_forall in IH. rewrite all2_Forall2 in *. eapply Forall2_impl'; [|exact H2]. intros rb r' Hrb (A1 & A2). split; [eapply pres_len_regions; eassumption|].
  assert (E : region_blocks_of c' r' = region_blocks_of c r').
  { unfold region_blocks_of. destruct (nth_error (regions c) r') as [d|] eqn:E; [|apply nth_error_None in E; lia].
    destruct (pr_regions _ _ _ P _ _ E) as (d' & E' & E2'). rewrite E'. exact E2'. }
  rewrite E. rewrite all2_Forall2 in *. eapply Forall2_impl'; [|exact A2]. intros bt b' Hbt ((Hq & Hb & (d & d' & E1 & E2 & E3 & E4)) & A4).
  destruct (pr_blocks _ _ _ P _ _ E2) as (d2 & D1 & D2 & D3). split; [split; [exact Hq|split; [exact Hb|]]|].
  - exists d, d2. repeat split; try congruence. rewrite (pr_args _ _ _ P) by (eapply nth_lt; exact E2). exact E4.
  - assert (Eo : block_ops_of c' b' = block_ops_of c b') by (unfold block_ops_of; rewrite D1, E2; apply D3, Hq). rewrite Eo.
    rewrite all2_Forall2 in *. eapply Forall2_impl'; [|exact A4]. intros t x Ht K. apply IH; [eapply in_trees; eassumption|exact K|exact P].
Qed.
Lemma copyQ_weaken : forall (Q Q' : nat -> Prop) c0 c F G t o', (forall x, Q x -> Q' x) -> copyQ Q c0 c F G t o' -> copyQ Q' c0 c F G t o'.
Proof.
  intros Q Q' c0 c F G t. induction t as [o rs IH] using tree_induct. intros o' HQ (H1 & H2). split; [exact H1|].
  rewrite Forall_forall in IH. rewrite all2_Forall2 in *. eapply Forall2_impl'; [|exact H2]. intros rb r' Hrb (K1 & K2). split; [exact K1|].
  rewrite all2_Forall2 in *. eapply Forall2_impl'; [|exact K2]. intros bt b' Hbt ((K3 & K3') & K4). split; [split; [apply HQ, K3|exact K3']|].
  rewrite all2_Forall2 in *. eapply Forall2_impl'; [|exact K4]. intros t x Ht K. apply IH; [eapply in_trees; eassumption|exact HQ|exact K].
Qed.

Lemma regionQ_pres : forall Q c0 c c' F G rb r', regionQ Q c0 c F G rb r' -> pres Q c c' -> regionQ Q c0 c' F G rb r'.
Proof.
  intros Q c0 c c' F G rb r' (A1 & A2) P. split; [eapply pres_len_regions; eassumption|].
  assert (E : region_blocks_of c' r' = region_blocks_of c r').
  { unfold region_blocks_of. destruct (nth_error (regions c) r') as [d|] eqn:E; [|apply nth_error_None in E; lia].
    destruct (pr_regions _ _ _ P _ _ E) as (d' & E' & E2'). rewrite E'. exact E2'. }
  rewrite E. rewrite all2_Forall2 in *. eapply Forall2_impl'; [|exact A2]. intros bt b' Hbt ((Hq & Hb & (d & d' & E1 & E2 & E3 & E4)) & A4).
  destruct (pr_blocks _ _ _ P _ _ E2) as (d2 & D1 & D2 & D3). split; [split; [exact Hq|split; [exact Hb|]]|].
  - exists d, d2. repeat split; try congruence. rewrite (pr_args _ _ _ P) by (eapply nth_lt; exact E2). exact E4.
  - assert (Eo : block_ops_of c' b' = block_ops_of c b') by (unfold block_ops_of; rewrite D1, E2; apply D3, Hq). rewrite Eo.
    rewrite all2_Forall2 in *. eapply Forall2_impl'; [|exact A4]. intros t x Ht K. eapply copyQ_pres; eassumption.
Qed.
Lemma regionQ_weaken : forall (Q Q' : nat -> Prop) c0 c F G rb r', (forall x, Q x -> Q' x) -> regionQ Q c0 c F G rb r' -> regionQ Q' c0 c F G rb r'.
Proof.
  intros Q Q' c0 c F G rb r' HQ (A1 & A2). split; [exact A1|]. rewrite all2_Forall2 in *. eapply Forall2_impl'; [|exact A2]. intros bt b' _ ((Hq & Hb) & A4).
  split; [split; [apply HQ, Hq|exact Hb]|]. rewrite all2_Forall2 in *. eapply Forall2_impl'; [|exact A4]. intros t x _. apply copyQ_weaken, HQ.
Qed.

(** ** Events *)
Lemma event_dec : forall a b : event, {a = b} + {a <> b}.
Proof. decide equality; apply Nat.eq_dec. Qed.
Lemma in_order_suffix : forall a b, in_order (a ++ b) -> in_order b.
Proof. intros a b H pre e post E. apply (H (a ++ pre) e post). rewrite E, app_assoc. reflexivity. Qed.
Lemma in_order_at : forall l e post, in_order (l ++ e :: post) ->
  match e with DefV v | UseV v => ~ In (DefV v) post | DefB b | UseB b => ~ In (DefB b) post end.
Proof. intros l e post H. exact (H l e post eq_refl). Qed.
Lemma in_order_in : forall a b e, in_order (a ++ b) -> In e a ->
  match e with DefV v | UseV v => ~ In (DefV v) b | DefB v | UseB v => ~ In (DefB v) b end.
Proof.
  intros a b e H Hin. apply in_split in Hin as (p & q & ->). rewrite <- app_assoc in H. cbn [app] in H. apply in_order_at in H.
  destruct e; intro K; apply H; apply in_app_iff; right; exact K.
Qed.
Lemma in_map_DefV : forall v l, In (DefV v) (map DefV l) <-> In v l.
Proof. intros v l. rewrite in_map_iff. split; [intros (x & E & H); inversion E; subst; exact H|intro H; exists v; split; [reflexivity|exact H]]. Qed.
Lemma not_in_UseV : forall v l, ~ In (DefV v) (map UseV l).
Proof. intros v l H. apply in_map_iff in H as (x & E & _). discriminate. Qed.
Lemma not_in_UseB : forall v l, ~ In (DefV v) (map UseB l).
Proof. intros v l H. apply in_map_iff in H as (x & E & _). discriminate. Qed.
Lemma defB_not_UseV : forall v l, ~ In (DefB v) (map UseV l).
Proof. intros v l H. apply in_map_iff in H as (x & E & _). discriminate. Qed.
Lemma defB_not_UseB : forall v l, ~ In (DefB v) (map UseB l).
Proof. intros v l H. apply in_map_iff in H as (x & E & _). discriminate. Qed.
Lemma defB_not_DefV : forall v l, ~ In (DefB v) (map DefV l).
Proof. intros v l H. apply in_map_iff in H as (x & E & _). discriminate. Qed.
Lemma in_order_NoDup : forall l rest, in_order (map DefV l ++ rest) -> NoDup l.
Proof.
  induction l as [|x l IH]; intros rest H; [constructor|]. cbn [map app] in H. constructor.
  - intro K. apply (in_order_at [] (DefV x) (map DefV l ++ rest)) in H. apply H. apply in_app_iff. left. apply in_map_DefV. exact K.
  - apply (IH rest). apply (in_order_suffix [DefV x]). exact H.
Qed.

(** ** Mappings *)
Lemma map_all_other : forall kvs m k, ~ In k (map fst kvs) -> map_all m kvs k = m k.
Proof.
  induction kvs as [|[a b] kvs IH]; intros m k H; cbn [map_all]; [reflexivity|].
  rewrite IH; [|intro K; apply H; right; exact K]. apply fupd_other. intros ->. apply H. left. reflexivity.
Qed.
Lemma map_all_in : forall kvs m k, In k (map fst kvs) -> exists v, In v (map snd kvs) /\ map_all m kvs k = Some v.
Proof.
  induction kvs as [|[a b] kvs IH]; intros m k H; [destruct H|]. cbn [map_all].
  destruct (in_dec Nat.eq_dec k (map fst kvs)) as [K|K].
  - destruct (IH (fupd m a (Some b)) k K) as (v & V1 & V2). exists v. split; [right; exact V1|exact V2].
  - destruct H as [<-|H]; [|contradiction]. exists b. split; [left; reflexivity|]. rewrite map_all_other by exact K. apply fupd_same.
Qed.
Lemma combine_fst : forall A B (l : list A) (m : list B), length l = length m -> map fst (combine l m) = l.
Proof. induction l as [|x l IH]; intros [|y m] H; cbn in *; try discriminate; [reflexivity|]. f_equal. apply IH. lia. Qed.
Lemma combine_snd : forall A B (l : list A) (m : list B), length l = length m -> map snd (combine l m) = m.
Proof. induction l as [|x l IH]; intros [|y m] H; cbn in *; try discriminate; [reflexivity|]. f_equal. apply IH. lia. Qed.
Lemma map_all_combine : forall ks vs m, NoDup ks -> length ks = length vs -> map (fun k => map_all m (combine ks vs) k) ks = map Some vs.
Proof.
  induction ks as [|k ks IH]; intros [|v vs] m ND H; try discriminate; [reflexivity|]. inversion ND; subst. cbn [combine map_all map]. f_equal.
  - rewrite map_all_other; [apply fupd_same|]. rewrite combine_fst by (cbn in H; lia). assumption.
  - apply IH; [assumption|cbn in H; lia].
Qed.
Lemma lookup_some : forall (f : nat -> option nat) ks vs, map f ks = map Some vs -> map (lookup_or f) ks = vs.
Proof.
  intros f. induction ks as [|k ks IH]; intros [|v vs] H; cbn [map] in *; try discriminate; [reflexivity|].
  injection H as H1 H2. unfold lookup_or at 1. rewrite H1. f_equal. apply IH, H2.
Qed.
Lemma lookup_combine : forall ks vs m, NoDup ks -> length ks = length vs -> map (lookup_or (map_all m (combine ks vs))) ks = vs.
Proof. intros ks vs m ND H. apply lookup_some. exact (map_all_combine ks vs m ND H). Qed.

(** Existing entities are untouched, except the operation lists (and parents) of blocks in [X]. *)
Record same (X : nat -> Prop) (a c : ctx) : Prop := {
  sm_ops : forall o, o < length (ops a) -> nth_error (ops c) o = nth_error (ops a) o;
  sm_blocks : forall b, b < length (blocks a) -> ~ X b -> nth_error (blocks c) b = nth_error (blocks a) b;
  sm_argt : forall b d, nth_error (blocks a) b = Some d -> exists d', nth_error (blocks c) b = Some d' /\ b_arg_types d' = b_arg_types d;
  sm_regions : forall r, r < length (regions a) -> nth_error (regions c) r = nth_error (regions a) r;
  sm_vals : forall v, v < length (vals a) -> nth_error (vals c) v = nth_error (vals a) v;
  sm_res : forall o, o < length (ops a) -> op_results c o = op_results a o;
  sm_args : forall b, b < length (blocks a) -> block_args c b = block_args a b;
  sm_lo : length (ops a) <= length (ops c);
  sm_lb : length (blocks a) <= length (blocks c);
  sm_lr : length (regions a) <= length (regions c);
  sm_lv : length (vals a) <= length (vals c);
}.
Definition none (_ : nat) : Prop := False.
Lemma same_refl : forall X a, same X a a.
Proof. intros X a. constructor; intros; try reflexivity. exists d. split; [assumption|reflexivity]. Qed.
Lemma same_trans : forall X a b c, same X a b -> same X b c -> same X a c.
Proof.
  intros X a b c [A1 A2 A3 A4 A5 A6 A7 A8 A9 A10 A11] [B1 B2 B3 B4 B5 B6 B7 B8 B9 B10 B11]. constructor; intros; try lia.
  - rewrite B1 by lia. apply A1; lia.
  - rewrite B2 by (lia || assumption). apply A2; assumption.
  - destruct (A3 _ _ H) as (d' & H' & E'). destruct (B3 _ _ H') as (d2 & H2 & E2). exists d2. split; [exact H2|congruence].
  - rewrite B4 by lia. apply A4; lia.
  - rewrite B5 by lia. apply A5; lia.
  - rewrite B6 by lia. apply A6; lia.
  - rewrite B7 by lia. apply A7; lia.
Qed.
Lemma same_weaken : forall (X X' : nat -> Prop) a c, (forall b, b < length (blocks a) -> X b -> X' b) -> same X a c -> same X' a c.
Proof.
  intros X X' a c H [A1 A2 A3 A4 A5 A6 A7 A8 A9 A10 A11]. constructor; try assumption. intros b Hb K. apply A2; [exact Hb|]. intro K'. apply K, H; assumption.
Qed.
Lemma same_comp : forall (X Y : nat -> Prop) a b c, same X a b -> same Y b c -> (forall x, x < length (blocks a) -> Y x -> X x) -> same X a c.
Proof.
  intros X Y a b c [A1 A2 A3 A4 A5 A6 A7 A8 A9 A10 A11] [B1 B2 B3 B4 B5 B6 B7 B8 B9 B10 B11] HX. constructor; intros; try lia.
  - rewrite B1 by lia. apply A1; lia.
  - rewrite B2; [apply A2; assumption|lia|]. intro K. apply H0, HX; assumption.
  - destruct (A3 _ _ H) as (d' & H' & E'). destruct (B3 _ _ H') as (d2 & H2 & E2). exists d2. split; [exact H2|congruence].
  - rewrite B4 by lia. apply A4; lia.
  - rewrite B5 by lia. apply A5; lia.
  - rewrite B6 by lia. apply A6; lia.
  - rewrite B7 by lia. apply A7; lia.
Qed.
Lemma same_pres : forall (X Q : nat -> Prop) a c, (forall b, b < length (blocks a) -> Q b -> ~ X b) -> same X a c -> pres Q a c.
Proof.
  intros X Q a c H [A1 A2 A3 A4 A5 A6 A7 A8 A9 A10 A11]. constructor.
  - intros o d K. exists d. rewrite A1 by (eapply nth_lt; exact K). split; [exact K|reflexivity].
  - exact A6.
  - intros b d K. destruct (A3 _ _ K) as (d' & K' & E). exists d'. repeat split; [exact K'|exact E|]. intro Hq.
    rewrite A2 in K' by (try (apply H; [|exact Hq]); eapply nth_lt; exact K). congruence.
  - exact A7.
  - intros r d K. exists d. rewrite A4 by (eapply nth_lt; exact K). split; [exact K|reflexivity].
Qed.
Lemma create_block_same : forall X a c ts, same X a c -> same X a (fst (create_block c ts)).
Proof.
  intros X a c ts [A1 A2 A3 A4 A5 A6 A7 A8 A9 A10 A11]. unfold create_block. constructor; cbn [fst ops blocks regions vals op_results block_args set_blocks set_vals set_block_args]; try assumption; try (rewrite app_length; lia).
  - intros b Hb K. rewrite nth_error_app1 by lia. apply A2; assumption.
  - intros b d K. destruct (A3 _ _ K) as (d' & K' & E). exists d'. split; [|exact E]. rewrite nth_error_app1 by (eapply nth_lt; exact K'). exact K'.
  - intros v Hv. rewrite nth_error_app1 by lia. apply A5, Hv.
  - intros b Hb. rewrite fupd_other by lia. apply A7, Hb.
Qed.

(** ** Success and effect of the constructors *)
Lemma link_blocks_ok : forall bs c r, NoDup bs -> (forall b, In b bs -> exists d, nth_error (blocks c) b = Some d /\ b_parent d = None) ->
  exists c', link_blocks c r bs = Some c' /\ length (blocks c') = length (blocks c) /\
    (forall b, ~ In b bs -> nth_error (blocks c') b = nth_error (blocks c) b) /\
    (forall b d, nth_error (blocks c) b = Some d -> exists d', nth_error (blocks c') b = Some d' /\ b_arg_types d' = b_arg_types d /\ b_ops d' = b_ops d).
Proof.
  induction bs as [|b bs IH]; intros c r ND H; cbn [link_blocks].
  - exists c. repeat split. intros b d K. exists d. repeat split. exact K.
  - inversion ND as [|? ? Hb ND']; subst. destruct (H b (or_introl eq_refl)) as (d & Ed & Ep). rewrite Ed, Ep.
    destruct (IH (set_blocks c (upd (blocks c) b (fun x => set_bparent x (Some r)))) r ND') as (c' & E & L & S1 & S2).
    { intros x Hx. destruct (H x (or_intror Hx)) as (dx & Ex & Px). exists dx. cbn [blocks set_blocks]. rewrite nth_upd.
      destruct (Nat.eqb_spec x b) as [->|]; [contradiction|]. split; assumption. }
    cbn [blocks set_blocks] in *. exists c'. split; [exact E|]. split; [rewrite L; apply upd_len|]. split.
    + intros x Hx. rewrite S1 by (intro K; apply Hx; right; exact K). rewrite nth_upd. destruct (Nat.eqb_spec x b) as [->|]; [exfalso; apply Hx; left; reflexivity|reflexivity].
    + intros x dx Ex. destruct (Nat.eq_dec x b) as [->|Hne].
      * rewrite Ed in Ex. inversion Ex; subst dx. destruct (S2 b (set_bparent d (Some r))) as (d' & K1 & K2 & K3).
        { rewrite nth_upd, Nat.eqb_refl, Ed. reflexivity. } exists d'. repeat split; assumption.
      * apply S2. rewrite nth_upd. destruct (Nat.eqb_spec x b); [contradiction|exact Ex].
Qed.
Lemma create_region_ok : forall c bs, NoDup bs -> (forall b, In b bs -> exists d, nth_error (blocks c) b = Some d /\ b_parent d = None) ->
  exists c', create_region c bs = Some (c', length (regions c)) /\ ops c' = ops c /\ vals c' = vals c /\ op_results c' = op_results c /\ block_args c' = block_args c /\
    regions c' = regions c ++ [{| r_blocks := bs; r_parent := None |}] /\ length (blocks c') = length (blocks c) /\
    (forall b, ~ In b bs -> nth_error (blocks c') b = nth_error (blocks c) b) /\
    (forall b d, nth_error (blocks c) b = Some d -> exists d', nth_error (blocks c') b = Some d' /\ b_arg_types d' = b_arg_types d /\ b_ops d' = b_ops d).
Proof.
  intros c bs ND H. unfold create_region.
  destruct (link_blocks_ok bs (set_regions c (regions c ++ [{| r_blocks := bs; r_parent := None |}])) (length (regions c)) ND H) as (c' & E & L & S1 & S2).
  rewrite E. apply link_blocks_frame in E as (E1 & E2 & E3 & E4 & E5 & E6). exists c'. split; [reflexivity|].
  cbn [ops vals regions op_results block_args blocks set_regions] in *. repeat split; assumption.
Qed.
Lemma link_regions_ok : forall rs c o, NoDup rs -> (forall r, In r rs -> r < length (regions c) /\ rpar (regions c) r = None) ->
  exists c', link_regions c o rs = Some c' /\ length (regions c') = length (regions c) /\
    (forall r, ~ In r rs -> nth_error (regions c') r = nth_error (regions c) r) /\
    (forall r d, nth_error (regions c) r = Some d -> exists d', nth_error (regions c') r = Some d' /\ r_blocks d' = r_blocks d).
Proof.
  induction rs as [|r rs IH]; intros c o ND H; cbn [link_regions].
  - exists c. repeat split. intros b d K. exists d. split; [exact K|reflexivity].
  - inversion ND as [|? ? Hb ND']; subst. destruct (H r (or_introl eq_refl)) as (Lr & Ep). unfold rpar in Ep.
    destruct (nth_error (regions c) r) as [d|] eqn:Ed; [|apply nth_error_None in Ed; lia]. rewrite Ep.
    destruct (IH (set_regions c (upd (regions c) r (fun x => set_rparent x (Some o)))) o ND') as (c' & E & L & S1 & S2).
    { intros x Hx. destruct (H x (or_intror Hx)) as (Lx & Px). cbn [regions set_regions]. rewrite upd_len. split; [exact Lx|]. unfold rpar. rewrite nth_upd.
      destruct (Nat.eqb_spec x r) as [->|]; [contradiction|]. exact Px. }
    cbn [regions set_regions] in *. exists c'. split; [exact E|]. split; [rewrite L; apply upd_len|]. split.
    + intros x Hx. rewrite S1 by (intro K; apply Hx; right; exact K). rewrite nth_upd. destruct (Nat.eqb_spec x r) as [->|]; [exfalso; apply Hx; left; reflexivity|reflexivity].
    + intros x dx Ex. destruct (Nat.eq_dec x r) as [->|Hne].
      * rewrite Ed in Ex. inversion Ex; subst dx. destruct (S2 r (set_rparent d (Some o))) as (d' & K1 & K2).
        { rewrite nth_upd, Nat.eqb_refl, Ed. reflexivity. } exists d'. split; assumption.
      * apply S2. rewrite nth_upd. destruct (Nat.eqb_spec x r); [contradiction|exact Ex].
Qed.
Lemma create_op_ok : forall c k vs ts rs ss, NoDup rs -> (forall r, In r rs -> r < length (regions c) /\ rpar (regions c) r = None) ->
  exists c', create_op c k vs ts rs ss = Some (c', length (ops c)) /\
    ops c' = ops c ++ [{| o_kind := k; o_operands := vs; o_result_types := ts; o_regions := rs; o_succs := ss; o_parent := None |}] /\
    blocks c' = blocks c /\ block_args c' = block_args c /\
    vals c' = vals c ++ map (OpResult (length (ops c))) (seq 0 (length ts)) /\
    op_results c' = fupd (op_results c) (length (ops c)) (seq (length (vals c)) (length ts)) /\
    length (regions c') = length (regions c) /\
    (forall r, ~ In r rs -> nth_error (regions c') r = nth_error (regions c) r) /\
    (forall r d, nth_error (regions c) r = Some d -> exists d', nth_error (regions c') r = Some d' /\ r_blocks d' = r_blocks d).
Proof.
  intros c k vs ts rs ss ND H. unfold create_op.
  set (d := {| o_kind := k; o_operands := vs; o_result_types := ts; o_regions := rs; o_succs := ss; o_parent := None |}).
  destruct (link_regions_ok rs (set_ops c (ops c ++ [d])) (length (ops c)) ND H) as (c' & E & L & S1 & S2).
  rewrite E. apply link_regions_frame in E as (E1 & E2 & E3 & E4 & E5 & E6). eexists. split; [reflexivity|].
  cbn [ops vals regions op_results block_args blocks set_ops set_uses set_vals set_op_results] in *. rewrite E2, E5. repeat split; assumption.
Qed.
Lemma push_op_ok : forall c b o d bd, nth_error (ops c) o = Some d -> o_parent d = None -> nth_error (blocks c) b = Some bd ->
  push_op c b o = Some (set_blocks (set_ops c (upd (ops c) o (fun x => set_parent x (Some b)))) (upd (blocks c) b (fun x => set_bops x (b_ops x ++ [o])))).
Proof. intros c b o d bd H1 H2 H3. unfold push_op. rewrite H1, H3, H2. reflexivity. Qed.

Section clone.
  Variable c0 : ctx.
  Hypothesis D0 : dok c0.

  (** Everything of the original is still there, unchanged. *)
  Definition base (c : ctx) : Prop := same none c0 c.

  Definition agrees (m : mapping) (F G : nat -> nat) (rest : list event) : Prop :=
    (forall v, ~ In (DefV v) rest -> F v = lookup_or (m_vals m) v) /\
    (forall b, ~ In (DefB b) rest -> G b = lookup_or (m_blocks m) b).

  (** Effect on the mapping of processing [evs]. *)
  Definition mapped (m m' : mapping) (evs : list event) : Prop :=
    (forall v, ~ In (DefV v) evs -> m_vals m' v = m_vals m v) /\
    (forall b, ~ In (DefB b) evs -> m_blocks m' b = m_blocks m b) /\
    (forall v, In (DefV v) evs -> exists w, m_vals m' v = Some w /\ length (vals c0) <= w) /\
    (forall b, In (DefB b) evs -> exists w, m_blocks m' b = Some w /\ length (blocks c0) <= w).

  Lemma mapped_nil : forall m, mapped m m [].
  Proof. intro m. split; [|split; [|split]]; try reflexivity; intros x []. Qed.
  Lemma mapped_nodef : forall m evs, (forall v, ~ In (DefV v) evs) -> (forall b, ~ In (DefB b) evs) -> mapped m m evs.
  Proof. intros m evs H1 H2. split; [|split; [|split]]; try reflexivity; intros x K; exfalso; [exact (H1 _ K)|exact (H2 _ K)]. Qed.
  Lemma mapped_app : forall m1 m2 m3 a b, mapped m1 m2 a -> mapped m2 m3 b -> mapped m1 m3 (a ++ b).
  Proof.
    intros m1 m2 m3 a b (A1 & A2 & A3 & A4) (B1 & B2 & B3 & B4). split; [|split; [|split]].
    - intros v H. rewrite B1, A1; [reflexivity| |]; intro K; apply H, in_app_iff; [left|right]; exact K.
    - intros v H. rewrite B2, A2; [reflexivity| |]; intro K; apply H, in_app_iff; [left|right]; exact K.
    - intros v H. destruct (in_dec event_dec (DefV v) b) as [K|K]; [apply B3, K|]. apply in_app_iff in H as [H|H]; [|contradiction].
      rewrite B1 by exact K. apply A3, H.
    - intros v H. destruct (in_dec event_dec (DefB v) b) as [K|K]; [apply B4, K|]. apply in_app_iff in H as [H|H]; [|contradiction].
      rewrite B2 by exact K. apply A4, H.
  Qed.
  Lemma agrees_back : forall m m' F G evs rest, mapped m m' evs -> agrees m' F G rest -> agrees m F G (evs ++ rest).
  Proof.
    intros m m' F G evs rest (A1 & A2 & _) (B1 & B2). split.
    - intros v H. rewrite B1 by (intro K; apply H, in_app_iff; right; exact K). unfold lookup_or. rewrite A1; [reflexivity|]. intro K. apply H, in_app_iff. left. exact K.
    - intros v H. rewrite B2 by (intro K; apply H, in_app_iff; right; exact K). unfold lookup_or. rewrite A2; [reflexivity|]. intro K. apply H, in_app_iff. left. exact K.
  Qed.

  (** ** The pieces *)
  Definition fresh_blocks (c : ctx) (bs nbs : list nat) : Prop :=
    Forall2 (fun b nb => length (blocks c0) <= nb /\ exists d, nth_error (blocks c0) b = Some d /\
       nth_error (blocks c) nb = Some {| b_arg_types := b_arg_types d; b_ops := []; b_parent := None |}) bs nbs.

  Lemma headers : forall bs c m, base c -> (forall b, In b bs -> b < length (blocks c0)) ->
    exists c1 m1, thread clone_header (c, m) bs = Some ((c1, m1), seq (length (blocks c)) (length bs)) /\
      base c1 /\ same none c c1 /\ ops c1 = ops c /\ regions c1 = regions c /\
      length (blocks c1) = length (blocks c) + length bs /\
      mapped m m1 (heads c0 bs) /\
      fresh_blocks c1 bs (seq (length (blocks c)) (length bs)) /\
      (forall F G rest, in_order (heads c0 bs ++ rest) -> agrees m1 F G rest ->
         Forall2 (fun b nb => nb = G b /\ block_args c1 nb = map F (block_args c0 b)) bs (seq (length (blocks c)) (length bs))).
  Proof.
    induction bs as [|b bs IH]; intros c m B Hbs.
    - exists c, m. cbn [thread length seq heads flat_map]. split; [reflexivity|]. split; [exact B|]. split; [apply same_refl|].
      split; [reflexivity|]. split; [reflexivity|]. split; [lia|]. split; [apply mapped_nil|]. split; [constructor|]. intros; constructor.
    - cbn [thread]. pose proof (Hbs b (or_introl eq_refl)) as Lb. destruct (nth_error (blocks c0) b) as [bd|] eqn:Eb; [|apply nth_error_None in Eb; lia].
      assert (Eb' : nth_error (blocks c) b = Some bd) by (rewrite (sm_blocks _ _ _ B) by (exact Lb || intros []); exact Eb).
      unfold clone_header at 1. rewrite Eb'. destruct (create_block c (b_arg_types bd)) as [c1 nb] eqn:Ec.
      assert (Hc1 : c1 = fst (create_block c (b_arg_types bd))) by (rewrite Ec; reflexivity).
      assert (Hnb : nb = length (blocks c)) by (unfold create_block in Ec; inversion Ec; reflexivity).
      assert (B1 : base c1) by (rewrite Hc1; apply create_block_same, B).
      assert (Bl1 : blocks c1 = blocks c ++ [{| b_arg_types := b_arg_types bd; b_ops := []; b_parent := None |}]) by (rewrite Hc1; reflexivity).
      assert (Ba1 : block_args c1 nb = seq (length (vals c)) (length (b_arg_types bd))) by (rewrite Hc1, Hnb; unfold create_block; cbn [fst block_args set_block_args]; apply fupd_same).
      assert (Ea : block_args c b = block_args c0 b) by (apply (sm_args _ _ _ B), Lb).
      assert (Hcnt : length (block_args c0 b) = length (b_arg_types bd)) by (destruct D0 as [_ _ _ D4 _ _]; apply D4, Eb).
      set (m1 := {| m_vals := map_all (m_vals m) (combine (block_args c b) (block_args c1 nb)); m_blocks := fupd (m_blocks m) b (Some nb) |}).
      destruct (IH c1 m1 B1) as (c2 & m2 & E2 & B2 & P2 & O2 & R2 & L2 & M2 & F2 & A2). { intros x Hx. apply Hbs. right. exact Hx. }
      assert (Ls : length (blocks c1) = S (length (blocks c))) by (rewrite Bl1, app_length; cbn; lia).
      assert (Lc : length (block_args c0 b) = length (block_args c1 nb)) by (rewrite Ba1, seq_length; exact Hcnt).
      assert (M1 : mapped m m1 (DefB b :: map DefV (block_args c0 b))).
      { split; [|split; [|split]]; cbn [m_vals m_blocks m1].
        - intros v H. apply map_all_other. rewrite Ea, combine_fst by exact Lc. intro K. apply H. right. apply in_map_DefV. exact K.
        - intros x H. apply fupd_other. intros ->. apply H. left. reflexivity.
        - intros v [H|H]; [discriminate|]. apply in_map_DefV in H. destruct (map_all_in (combine (block_args c b) (block_args c1 nb)) (m_vals m) v) as (w & W1 & W2).
          { rewrite Ea, combine_fst by exact Lc. exact H. }
          exists w. split; [exact W2|]. rewrite Ea, combine_snd in W1 by exact Lc. rewrite Ba1 in W1. apply in_seq in W1. pose proof (sm_lv _ _ _ B). lia.
        - intros x [H|H]; [inversion H; subst; exists (length (blocks c)); split; [apply fupd_same|apply (sm_lb _ _ _ B)]|]. exfalso. apply (defB_not_DefV _ _ H). }
      exists c2, m2. rewrite E2, Ls. cbn [length seq]. split; [rewrite Hnb; reflexivity|]. split; [exact B2|].
      split; [eapply same_trans; [|exact P2]; rewrite Hc1; apply create_block_same, same_refl|].
      split; [rewrite O2, Hc1; reflexivity|]. split; [rewrite R2, Hc1; reflexivity|]. split; [rewrite L2, Ls; lia|].
      split; [cbn [heads flat_map]; exact (mapped_app _ _ _ (DefB b :: map DefV (block_args c0 b)) _ M1 M2)|]. rewrite Ls in F2, A2. split.
      + constructor; [|exact F2]. split; [apply (sm_lb _ _ _ B)|]. exists bd. split; [exact Eb|].
        (* later headers keep this block *)
        assert (K : forall bs c m c2 m2 ns, thread clone_header (c, m) bs = Some ((c2, m2), ns) -> forall x, x < length (blocks c) -> nth_error (blocks c2) x = nth_error (blocks c) x).
        { clear. induction bs as [|b bs IH]; intros c m c2 m2 ns H x Hx; cbn [thread] in H; [inversion H; reflexivity|].
          unfold clone_header at 1 in H. destruct (nth_error (blocks c) b) as [bd|]; [|discriminate].
          destruct (create_block c (b_arg_types bd)) as [c1 nb] eqn:Ec. unfold create_block in Ec. inversion Ec; subst c1 nb; clear Ec.
          destruct (thread clone_header _ bs) as [[[c3 m3] ns3]|] eqn:E3; [|discriminate]. inversion H; subst.
          rewrite (IH _ _ _ _ _ E3) by (cbn [blocks set_block_args set_vals set_blocks]; rewrite app_length; lia).
          cbn [blocks set_block_args set_vals set_blocks]. apply nth_error_app1. exact Hx. }
        rewrite (K _ _ _ _ _ _ E2) by (rewrite Ls; lia). rewrite Bl1, nth_error_snoc, Nat.eqb_refl. reflexivity.
      + intros F G rest IO AG. cbn [heads flat_map] in IO. rewrite <- app_assoc in IO.
        assert (AG1 : agrees m1 F G (heads c0 bs ++ rest)) by (eapply agrees_back; eassumption).
        change (flat_map (fun b0 => DefB b0 :: map DefV (block_args c0 b0)) bs) with (heads c0 bs) in IO.
        constructor; [|apply (A2 F G rest); [eapply in_order_suffix; exact IO|exact AG]]. destruct AG1 as (AV & AB). split.
        * rewrite AB; [cbn [m_blocks m1]; unfold lookup_or; rewrite fupd_same; symmetry; exact Hnb|].
          apply (in_order_in _ _ (DefB b) IO). left. reflexivity.
        * rewrite <- Hnb. rewrite (sm_args _ _ _ P2) by lia. 
          transitivity (map (lookup_or (m_vals m1)) (block_args c0 b)).
          -- cbn [m_vals m1]. rewrite Ea, lookup_combine; [reflexivity| |exact Lc].
             apply (in_order_NoDup _ (heads c0 bs ++ rest)). apply (in_order_suffix [DefB b]). exact IO.
          -- apply map_ext_in. intros v Hv. symmetry. apply AV. apply (in_order_in _ _ (DefV v) IO). right. apply in_map_DefV. exact Hv.
  Qed.

  Definition op_good (fuel : nat) (t : tree) : Prop := forall c m, base c -> exists c' m' o',
    clone_op fuel (c, m) (root t) = Some ((c', m'), o') /\ same none c c' /\ mapped m m' (events c0 t) /\
    length (ops c) <= o' < length (ops c') /\ par (ops c') o' = None /\
    (forall F G rest, in_order (events c0 t ++ rest) -> agrees m' F G rest -> copyQ (fun b => length (blocks c) <= b) c0 c' F G t o').

  Definition step (fuel nb : nat) (s : ctx * mapping) (o : nat) : option ((ctx * mapping) * unit) :=
    match clone_op fuel s o with
    | None => None
    | Some ((c1, m1), o1) => match push_op c1 nb o1 with Some c2 => Some ((c2, m1), tt) | None => None end
    end.

  Lemma fill : forall fuel nb ts, length (blocks c0) <= nb -> Forall (op_good fuel) ts -> forall c m bd, base c -> nth_error (blocks c) nb = Some bd ->
    exists c' m' us os, thread (step fuel nb) (c, m) (map root ts) = Some ((c', m'), us) /\ same (eq nb) c c' /\
      mapped m m' (flat_map (events c0) ts) /\ nth_error (blocks c') nb = Some (set_bops bd (b_ops bd ++ os)) /\
      (forall F G rest, in_order (flat_map (events c0) ts ++ rest) -> agrees m' F G rest ->
         Forall2 (copyQ (fun b => length (blocks c) <= b) c0 c' F G) ts os).
  Proof.
    intros fuel nb ts Lnb Hg. induction Hg as [|t ts Ht Hg IH]; intros c m bd B Eb.
    - exists c, m, [], []. cbn [map thread flat_map]. split; [reflexivity|]. split; [apply same_refl|]. split; [apply mapped_nil|].
      split; [rewrite app_nil_r; destruct bd; exact Eb|]. intros; constructor.
    - cbn [map thread]. destruct (Ht c m B) as (c1 & m1 & o1 & E1 & S1 & M1 & Lo & Po & C1).
      assert (Lb : nb < length (blocks c)) by (eapply nth_lt; exact Eb).
      assert (Eb1 : nth_error (blocks c1) nb = Some bd) by (rewrite (sm_blocks _ _ _ S1) by (exact Lb || intros []); exact Eb).
      destruct (nth_error (ops c1) o1) as [d1|] eqn:Ed1; [|apply nth_error_None in Ed1; lia].
      assert (Hp : o_parent d1 = None) by (unfold par in Po; rewrite Ed1 in Po; exact Po).
      unfold step at 1. rewrite E1, (push_op_ok c1 nb o1 d1 bd Ed1 Hp Eb1).
      set (c2 := set_blocks (set_ops c1 (upd (ops c1) o1 (fun x => set_parent x (Some nb)))) (upd (blocks c1) nb (fun x => set_bops x (b_ops x ++ [o1])))).
      assert (S12 : forall a X, same X a c1 -> length (ops a) <= o1 -> (forall b, b < length (blocks a) -> b = nb -> X b) -> same X a c2).
      { intros a X [A1 A2 A3 A4 A5 A6 A7 A8 A9 A10 A11] Lo1 HX. constructor; cbn [c2 ops blocks regions vals op_results block_args set_ops set_blocks]; try assumption; rewrite ?upd_len; try assumption.
        - intros o Ho. rewrite nth_upd. destruct (Nat.eqb_spec o o1); [lia|]. apply A1, Ho.
        - intros b Hb K. rewrite nth_upd. destruct (Nat.eqb_spec b nb) as [->|]; [exfalso; apply K, HX; [exact Hb|reflexivity]|]. apply A2; assumption.
        - intros b d K. destruct (A3 _ _ K) as (d' & K' & E). rewrite nth_upd. destruct (Nat.eqb b nb); rewrite K'; cbn [option_map]; [eexists; split; [reflexivity|exact E]|exists d'; split; [reflexivity|exact E]]. }
      assert (B1 : base c1) by (eapply same_trans; eassumption).
      assert (B2 : base c2) by (apply S12; [exact B1|pose proof (sm_lo _ _ _ B); lia|intros b Hb ->; lia]).
      assert (Eb2 : nth_error (blocks c2) nb = Some (set_bops bd (b_ops bd ++ [o1]))) by (cbn [c2 blocks set_blocks set_ops]; rewrite nth_upd, Nat.eqb_refl, Eb1; reflexivity).
      assert (S2 : same (eq nb) c c2) by (apply S12; [eapply same_weaken; [|exact S1]; intros b _ []|lia|intros b _ ->; reflexivity]).
      destruct (IH c2 m1 _ B2 Eb2) as (c3 & m3 & us & os & E3 & S3 & M3 & Eb3 & C3). rewrite E3.
      exists c3, m3, (tt :: us), (o1 :: os). split; [reflexivity|]. split; [eapply same_trans; eassumption|].
      split; [cbn [flat_map]; eapply mapped_app; eassumption|]. split; [rewrite Eb3; cbn [set_bops b_ops b_arg_types b_parent]; rewrite <- app_assoc; reflexivity|].
      intros F G rest IO AG. cbn [flat_map] in IO. rewrite <- app_assoc in IO. constructor.
      + assert (P12 : pres (fun b => length (blocks c) <= b) c1 c2).
        { constructor; cbn [c2 ops blocks regions op_results block_args set_ops set_blocks].
          - intros o d K. rewrite nth_upd, K. destruct (Nat.eqb o o1); eexists; (split; [reflexivity|reflexivity]).
          - reflexivity.
          - intros b d K. rewrite nth_upd, K. destruct (Nat.eqb_spec b nb) as [->|]; eexists; (split; [reflexivity|split; [reflexivity|]]); [intro; lia|reflexivity].
          - reflexivity.
          - intros r d K. exists d. split; [exact K|reflexivity]. }
        assert (P23 : pres (fun b => length (blocks c) <= b) c2 c3) by (eapply same_pres; [|exact S3]; intros b _ Hb <-; lia).
        eapply copyQ_pres; [eapply copyQ_pres; [|exact P12]|exact P23].
        apply (C1 F G (flat_map (events c0) ts ++ rest) IO). eapply agrees_back; eassumption.
      + assert (K : Forall2 (copyQ (fun b => length (blocks c2) <= b) c0 c3 F G) ts os) by (apply (C3 F G rest); [eapply in_order_suffix; exact IO|exact AG]).
        eapply Forall2_impl'; [|exact K]. intros t' o' _. apply copyQ_weaken. intros b Hb. pose proof (sm_lb _ _ _ S2). lia.
  Qed.

  Definition open_block (c : ctx) (bt : nat * list tree) (nb : nat) : Prop :=
    length (blocks c0) <= nb /\ exists d, nth_error (blocks c0) (fst bt) = Some d /\
      nth_error (blocks c) nb = Some {| b_arg_types := b_arg_types d; b_ops := []; b_parent := None |}.
  Definition closed_block (c : ctx) (bt : nat * list tree) (nb : nat) : Prop :=
    exists d os, nth_error (blocks c0) (fst bt) = Some d /\ nth_error (blocks c) nb = Some {| b_arg_types := b_arg_types d; b_ops := os; b_parent := None |}.

  Lemma Forall2_In_r : forall A B (P : A -> B -> Prop) l m y, Forall2 P l m -> In y m -> exists x, In x l /\ P x y.
  Proof.
    intros A B P l m y H. induction H as [|a b l m Hp H IH]; intros K; [destruct K|]. destruct K as [<-|K].
    - exists a. split; [left; reflexivity|exact Hp].
    - destruct (IH K) as (x & X1 & X2). exists x. split; [right; exact X1|exact X2].
  Qed.

  Lemma bodies : forall fuel bts,
    Forall (fun bt => (exists bd, nth_error (blocks c0) (fst bt) = Some bd /\ b_ops bd = map root (snd bt)) /\ Forall (op_good fuel) (snd bt)) bts ->
    forall nbs c m, base c -> NoDup nbs -> Forall2 (open_block c) bts nbs ->
    exists c' m' us, thread (clone_body (clone_op fuel)) (c, m) (combine (map fst bts) nbs) = Some ((c', m'), us) /\
      same (fun b => In b nbs) c c' /\ mapped m m' (flat_map (fun bt => flat_map (events c0) (snd bt)) bts) /\
      Forall2 (closed_block c') bts nbs /\
      (forall F G rest, in_order (flat_map (fun bt => flat_map (events c0) (snd bt)) bts ++ rest) -> agrees m' F G rest ->
         Forall2 (fun bt nb => Forall2 (copyQ (fun b => length (blocks c) <= b) c0 c' F G) (snd bt) (block_ops_of c' nb)) bts nbs).
  Proof.
    intros fuel bts Hb. induction Hb as [|bt bts ((bd & Ebd & Eops) & Hg) Hb IH]; intros nbs c m B ND Ho.
    - inversion Ho; subst. exists c, m, []. cbn [map combine thread flat_map]. split; [reflexivity|]. split; [apply same_refl|].
      split; [apply mapped_nil|]. split; [constructor|]. intros; constructor.
    - inversion Ho as [|? nb ? nbs' (Lnb & d & Ed & Enb) Ho']; subst. inversion ND as [|? ? Nnb ND']; subst. rewrite Ebd in Ed. inversion Ed; subst d. clear Ed.
      cbn [map combine thread]. unfold clone_body at 1. cbn [fst snd].
      assert (Ebc : nth_error (blocks c) (fst bt) = Some bd) by (rewrite (sm_blocks _ _ _ B) by (try (eapply nth_lt; exact Ebd); intros []); exact Ebd).
      rewrite Ebc, Eops. destruct (fill fuel nb (snd bt) Lnb Hg c m _ B Enb) as (c1 & m1 & us & os & E1 & S1 & M1 & Eb1 & C1).
      change (thread _ (c, m) (map root (snd bt))) with (thread (step fuel nb) (c, m) (map root (snd bt))). rewrite E1.
      cbn [set_bops b_ops b_arg_types b_parent app] in Eb1.
      assert (Lc : nb < length (blocks c)) by (eapply nth_lt; exact Enb).
      assert (B1 : base c1) by (eapply same_comp; [exact B|exact S1|intros x Hx <-; lia]).
      assert (Ho1 : Forall2 (open_block c1) bts nbs').
      { eapply Forall2_impl_r; [|exact Ho']. intros a x Hx (L & d & K1 & K2). split; [exact L|]. exists d. split; [exact K1|].
        rewrite (sm_blocks _ _ _ S1); [exact K2|eapply nth_lt; exact K2|]. intros <-. contradiction. }
      destruct (IH nbs' c1 m1 B1 ND' Ho1) as (c2 & m2 & us2 & E2 & S2 & M2 & K2 & C2). rewrite E2.
      assert (Lc1 : nb < length (blocks c1)) by (eapply nth_lt; exact Eb1).
      assert (Eb2 : nth_error (blocks c2) nb = nth_error (blocks c1) nb) by (apply (sm_blocks _ _ _ S2); [exact Lc1|exact Nnb]).
      exists c2, m2, (tt :: us2). split; [reflexivity|].
      split; [eapply same_comp; [eapply same_weaken; [|exact S1]; intros b _ <-; left; reflexivity|exact S2|intros x _ Hx; right; exact Hx]|].
      split; [cbn [flat_map]; eapply mapped_app; eassumption|].
      split; [constructor; [|exact K2]; exists bd, os; split; [exact Ebd|]; rewrite Eb2; exact Eb1|].
      intros F G rest IO AG. cbn [flat_map] in IO. rewrite <- app_assoc in IO. constructor.
      + assert (Eo : block_ops_of c2 nb = os) by (unfold block_ops_of; rewrite Eb2, Eb1; reflexivity). rewrite Eo.
        eapply Forall2_impl'; [|exact (C1 F G _ IO (agrees_back _ _ _ _ _ _ M2 AG))]. intros t o' _ K. eapply copyQ_pres; [exact K|].
        eapply same_pres; [|exact S2]. intros b _ Lbb Hin. destruct (Forall2_In_r _ _ _ _ _ _ Ho' Hin) as (bt' & _ & _ & d' & _ & K'). apply nth_lt in K'. lia.
      + eapply Forall2_impl'; [|exact (C2 F G rest (in_order_suffix _ _ IO) AG)]. intros bt' nb' _ K. eapply Forall2_impl'; [|exact K].
        intros t o' _. apply copyQ_weaken. intros b Lbb. pose proof (sm_lb _ _ _ S1). lia.
  Qed.

  Definition region_ok (fuel : nat) (rb : nat * list (nat * list tree)) : Prop :=
    (exists rd, nth_error (regions c0) (fst rb) = Some rd /\ r_blocks rd = map fst (snd rb)) /\
    Forall (fun bt => (exists bd, nth_error (blocks c0) (fst bt) = Some bd /\ b_ops bd = map root (snd bt)) /\ Forall (op_good fuel) (snd bt)) (snd rb).

  Lemma region_clone : forall fuel rb, region_ok fuel rb -> forall c m, base c -> exists c' m' nr,
    clone_region_with (clone_op fuel) (c, m) (fst rb) = Some ((c', m'), nr) /\ same none c c' /\ mapped m m' (region_events c0 rb) /\
    length (regions c) <= nr < length (regions c') /\ rpar (regions c') nr = None /\
    (forall F G rest, in_order (region_events c0 rb ++ rest) -> agrees m' F G rest -> regionQ (fun b => length (blocks c) <= b) c0 c' F G rb nr).
  Proof.
    intros fuel rb ((rdd & Erd & Eb) & Hbs) c m B. unfold clone_region_with.
    assert (Er : nth_error (regions c) (fst rb) = Some rdd) by (rewrite (sm_regions _ _ _ B) by (eapply nth_lt; exact Erd); exact Erd).
    cbn [fst]. rewrite Er, Eb. set (bs := map fst (snd rb)). set (nbs := seq (length (blocks c)) (length bs)).
    assert (Hin : forall b, In b bs -> b < length (blocks c0)).
    { intros b K. unfold bs in K. apply in_map_iff in K as (bt & <- & K). rewrite Forall_forall in Hbs. destruct (Hbs bt K) as ((bd & Ebd & _) & _). eapply nth_lt. exact Ebd. }
    destruct (headers bs c m B Hin) as (c1 & m1 & E1 & B1 & S1 & O1 & R1 & L1 & M1 & F1 & A1). fold nbs in E1, F1, A1. rewrite E1.
    assert (Ho : Forall2 (open_block c1) (snd rb) nbs).
    { unfold fresh_blocks, bs in F1. clear -F1. revert F1. generalize nbs. induction (snd rb) as [|bt l IH]; intros n F1; inversion F1; subst; constructor; [assumption|apply IH; assumption]. }
    assert (ND : NoDup nbs) by apply seq_NoDup.
    destruct (bodies fuel (snd rb) Hbs nbs c1 m1 B1 ND Ho) as (c2 & m2 & us & E2 & S2 & M2 & K2 & C2). fold bs in E2. rewrite E2.
    assert (Hn : forall b, In b nbs -> length (blocks c) <= b < length (blocks c1)) by (intros b K; apply in_seq in K; lia).
    destruct (create_region_ok c2 nbs ND) as (c3 & E3 & O3 & V3 & Or3 & Ba3 & R3 & L3 & N3 & K3).
    { intros b K. destruct (Forall2_In_r _ _ _ _ _ _ K2 K) as (bt & _ & d & os & _ & Ed). eexists. split; [exact Ed|reflexivity]. }
    rewrite E3. assert (S12 : same none c c2) by (eapply same_comp; [exact S1|exact S2|intros x Hx K; apply Hn in K; lia]).
    assert (S23 : same (fun b => In b nbs) c2 c3).
    { constructor; rewrite ?O3, ?V3, ?Or3, ?Ba3, ?R3, ?L3, ?app_length; try reflexivity; try lia.
      - intros b _ K. apply N3, K.
      - intros b d K. destruct (K3 _ _ K) as (d' & X1 & X2 & _). exists d'. split; assumption.
      - intros r Hr. apply nth_error_app1, Hr. }
    exists c3, m2, (length (regions c2)). split; [reflexivity|].
    split; [eapply same_comp; [exact S12|exact S23|intros x Hx K; apply Hn in K; lia]|].
    split; [eapply mapped_app; eassumption|]. split; [rewrite R3, app_length; cbn [length]; pose proof (sm_lr _ _ _ S12); lia|].
    split; [unfold rpar; rewrite R3, nth_error_app2, Nat.sub_diag by lia; reflexivity|].
    intros F G rest IO AG. unfold region_events in IO. rewrite <- app_assoc in IO.
    pose proof (A1 F G _ IO (agrees_back _ _ _ _ _ _ M2 AG)) as H1. pose proof (C2 F G rest (in_order_suffix _ _ IO) AG) as H2.
    split; [rewrite R3, app_length; cbn [length]; lia|].
    assert (Er3 : region_blocks_of c3 (length (regions c2)) = nbs) by (unfold region_blocks_of; rewrite R3, nth_error_app2, Nat.sub_diag by lia; reflexivity).
    rewrite Er3, all2_Forall2.
    assert (P23 : pres (fun b => length (blocks c) <= b) c2 c3).
    { constructor; rewrite ?O3, ?Or3, ?Ba3; try reflexivity.
      - intros o d K. exists d. split; [exact K|reflexivity].
      - intros b d K. destruct (K3 _ _ K) as (d' & X1 & X2 & X3). exists d'. repeat split; [exact X1|exact X2|intros _; exact X3].
      - intros r d K. exists d. rewrite R3, nth_error_app1 by (eapply nth_lt; exact K). split; [exact K|reflexivity]. }
    assert (H1' : Forall2 (fun bt nb => nb = G (fst bt) /\ block_args c1 nb = map F (block_args c0 (fst bt))) (snd rb) nbs).
    { unfold bs in H1. clear -H1. revert H1. unfold nbs. fold bs. generalize (seq (length (blocks c)) (length bs)). intros n. unfold bs. revert n. induction (snd rb) as [|bt l IH]; intros n H1; cbn [map] in H1; inversion H1; subst; constructor; [assumption|apply IH; assumption]. }
    eapply Forall2_impl_r; [|exact (Forall2_both _ _ _ _ _ _ (Forall2_both _ _ _ _ _ _ H1' H2) K2)].
    intros bt nb Hnb (((X1 & X2) & X3) & (d & os & Y1 & Y2)). cbn beta in *. destruct (K3 _ _ Y2) as (d' & Z1 & Z2 & Z3). cbn [b_arg_types b_ops] in *. split; [split; [|split]|].
    - apply Hn, Hnb.
    - exact X1.
    - exists d, d'. repeat split; [exact Y1|exact Z1|exact Z2|]. rewrite Ba3, (sm_args _ _ _ S2) by (apply Hn, Hnb). exact X2.
    - assert (Eo : block_ops_of c3 nb = block_ops_of c2 nb) by (unfold block_ops_of; rewrite Y2, Z1; exact Z3). rewrite Eo, all2_Forall2.
      eapply Forall2_impl'; [|exact X3]. intros t o' _ K. eapply copyQ_pres; [|exact P23]. eapply copyQ_weaken; [|exact K]. cbn beta; intros b Lb; pose proof (sm_lb _ _ _ S1) as QQ; lia.
  Qed.

  Lemma regions_clone : forall fuel rbs, Forall (region_ok fuel) rbs -> forall c m, base c -> exists c' m' nrs,
    thread (clone_region_with (clone_op fuel)) (c, m) (map fst rbs) = Some ((c', m'), nrs) /\ same none c c' /\ mapped m m' (flat_map (region_events c0) rbs) /\
    NoDup nrs /\ (forall r, In r nrs -> length (regions c) <= r < length (regions c') /\ rpar (regions c') r = None) /\
    (forall F G rest, in_order (flat_map (region_events c0) rbs ++ rest) -> agrees m' F G rest ->
       Forall2 (regionQ (fun b => length (blocks c) <= b) c0 c' F G) rbs nrs).
  Proof.
    intros fuel rbs H. induction H as [|rb rbs Hr H IH]; intros c m B.
    - exists c, m, []. cbn [map thread flat_map]. split; [reflexivity|]. split; [apply same_refl|]. split; [apply mapped_nil|]. split; [apply NoDup_nil|].
      split; [intros r []|]. intros; constructor.
    - cbn [map thread]. destruct (region_clone fuel rb Hr c m B) as (c1 & m1 & nr & E1 & S1 & M1 & L1 & P1 & C1). rewrite E1.
      assert (B1 : base c1) by (eapply same_trans; eassumption).
      destruct (IH c1 m1 B1) as (c2 & m2 & nrs & E2 & S2 & M2 & ND & L2 & C2). rewrite E2. pose proof (sm_lr _ _ _ S1) as LR1. pose proof (sm_lr _ _ _ S2) as LR2.
      exists c2, m2, (nr :: nrs). split; [reflexivity|]. split; [eapply same_trans; eassumption|]. split; [cbn [flat_map]; eapply mapped_app; eassumption|].
      split; [constructor; [intro K; apply L2 in K; lia|exact ND]|]. split.
      + intros r [<-|K]; [|apply L2 in K as (K1 & K2); split; [lia|exact K2]]. split; [lia|]. unfold rpar in *. rewrite (sm_regions _ _ _ S2) by lia. exact P1.
      + intros F G rest IO AG. cbn [flat_map] in IO. rewrite <- app_assoc in IO. constructor.
        * destruct (C1 F G _ IO (agrees_back _ _ _ _ _ _ M2 AG)) as (X1 & X2).
          assert (P : pres (fun b => length (blocks c) <= b) c1 c2) by (eapply same_pres; [|exact S2]; intros b _ _ []).
          exact (regionQ_pres _ _ _ _ _ _ _ _ (conj X1 X2) P).
        * eapply Forall2_impl'; [|exact (C2 F G rest (in_order_suffix _ _ IO) AG)]. intros x y _. apply regionQ_weaken. intros b Lb. pose proof (sm_lb _ _ _ S1). lia.
  Qed.

  Lemma op_clone : forall t, tree_of c0 t -> forall fuel, height t <= fuel -> op_good fuel t.
  Proof.
    intro t. induction t as [o rs IH] using tree_induct. intros Ht fuel Hh c m B. destruct fuel as [|fuel]; [cbn [height] in Hh; lia|].
    pose proof (tree_of_inv _ _ _ Ht) as (_ & T & _). destruct Ht as ((d & Ed & Erg) & Hrs).
    assert (Hok : Forall (region_ok fuel) rs).
    { rewrite all_Forall in Hrs. apply Forall_forall. intros rb Hrb. rewrite Forall_forall in Hrs. destruct (Hrs rb Hrb) as (X1 & X2). split; [exact X1|].
      rewrite all_Forall in X2. apply Forall_forall. intros bt Hbt. rewrite Forall_forall in X2. destruct (X2 bt Hbt) as (Y1 & Y2). split; [exact Y1|].
      apply Forall_forall. intros t Hin. assert (It : In t (trees rs)) by (eapply in_trees; eassumption). rewrite Forall_forall in IH. apply (IH t It (T t It)).
      pose proof (height_sub o rs t It). lia. }
    assert (Lo : o < length (ops c0)) by (eapply nth_lt; exact Ed).
    assert (Edc : nth_error (ops c) o = Some d) by (rewrite (sm_ops _ _ _ B) by exact Lo; exact Ed).
    cbn [clone_op root fst snd]. rewrite Edc, Erg. destruct (regions_clone fuel rs Hok c m B) as (c1 & m1 & nrs & E1 & S1 & M1 & ND & L1 & C1). rewrite E1.
    assert (B1 : base c1) by (eapply same_trans; eassumption).
    destruct (create_op_ok c1 (o_kind d) (map (lookup_or (m_vals m)) (o_operands d)) (o_result_types d) nrs (map (lookup_or (m_blocks m1)) (o_succs d)) ND) as (c2 & E2 & O2 & Bl2 & Ba2 & V2 & Or2 & Lr2 & R2 & R2').
    { intros r K. destruct (L1 r K) as ((_ & K1) & K2). split; assumption. }
    rewrite E2. set (no := length (ops c1)). pose proof (sm_lo _ _ _ B1) as LO.
    assert (Ro : op_results c2 o = op_results c0 o) by (rewrite Or2, fupd_other by lia; apply (sm_res _ _ _ B1), Lo).
    assert (Rn : op_results c2 no = seq (length (vals c1)) (length (o_result_types d))) by (rewrite Or2; apply fupd_same).
    assert (Hcnt : length (op_results c0 o) = length (o_result_types d)) by (destruct D0 as [_ _ D3 _ _ _]; apply D3, Ed).
    assert (Lc : length (op_results c0 o) = length (op_results c2 no)) by (rewrite Rn, seq_length; exact Hcnt).
    set (m2 := {| m_vals := map_all (m_vals m1) (combine (op_results c2 o) (op_results c2 no)); m_blocks := m_blocks m1 |}).
    assert (S12 : same none c c2).
    { destruct S1 as [A1 A2 A3 A4 A5 A6 A7 A8 A9 A10 A11]. constructor; rewrite ?Bl2, ?Ba2, ?V2, ?O2, ?Lr2, ?app_length; try lia; try assumption.
      - intros x Hx. rewrite nth_error_app1 by lia. apply A1, Hx.
      - intros r Hr. rewrite R2 by (intro K; apply L1 in K; lia). apply A4, Hr.
      - intros v Hv. rewrite nth_error_app1 by lia. apply A5, Hv.
      - intros x Hx. rewrite Or2, fupd_other by lia. apply A6, Hx. }
    assert (MR : mapped m1 m2 (op_targets c0 o ++ map DefV (op_results c0 o))).
    { assert (NU : forall e, In e (op_targets c0 o) -> exists x, e = UseB x).
      { intros e. unfold op_targets. rewrite Ed. intro K. apply in_map_iff in K as (x & <- & _). exists x. reflexivity. }
      split; [|split; [|split]]; cbn [m_vals m_blocks m2].
      - intros v K. apply map_all_other. rewrite Ro, combine_fst by exact Lc. intro X. apply K, in_app_iff. right. apply in_map_DefV. exact X.
      - reflexivity.
      - intros v K. apply in_app_iff in K as [K|K]; [apply NU in K as (x & K); discriminate|]. apply in_map_DefV in K.
        destruct (map_all_in (combine (op_results c2 o) (op_results c2 no)) (m_vals m1) v) as (w & W1 & W2). { rewrite Ro, combine_fst by exact Lc. exact K. }
        exists w. split; [exact W2|]. rewrite Ro, combine_snd in W1 by exact Lc. rewrite Rn in W1. apply in_seq in W1. pose proof (sm_lv _ _ _ B1). lia.
      - intros b K. apply in_app_iff in K as [K|K]; [apply NU in K as (x & K); discriminate|]. exfalso. apply (defB_not_DefV _ _ K). }
    assert (MU : mapped m m (op_uses c0 o)).
    { apply mapped_nodef; intros x; unfold op_uses; rewrite Ed; [apply not_in_UseV|apply defB_not_UseV]. }
    assert (ME : mapped m m2 (events c0 (Node o rs))) by (cbn [events]; eapply mapped_app; [exact MU|]; eapply mapped_app; [exact M1|exact MR]).
    assert (Eno : nth_error (ops c2) no = Some {| o_kind := o_kind d; o_operands := map (lookup_or (m_vals m)) (o_operands d); o_result_types := o_result_types d; o_regions := nrs; o_succs := map (lookup_or (m_blocks m1)) (o_succs d); o_parent := None |}).
    { rewrite O2, nth_error_app2 by (unfold no; lia). unfold no. rewrite Nat.sub_diag. reflexivity. }
    exists c2, m2, no. split; [reflexivity|]. split; [exact S12|]. split; [exact ME|].
    split; [rewrite O2, app_length; cbn [length]; unfold no; pose proof (sm_lo _ _ _ S1); lia|]. split; [unfold par; rewrite Eno; reflexivity|].
    intros F G rest IO AG. pose proof (agrees_back _ _ _ _ _ _ ME AG) as AGm. pose proof (agrees_back _ _ _ _ _ _ MR AG) as AG1.
    cbn [events] in IO. change (flat_map _ rs) with (flat_map (region_events c0) rs) in IO. cbn [events] in AGm. change (flat_map _ rs) with (flat_map (region_events c0) rs) in AGm.
    split.
    - exists d. eexists. split; [exact Ed|]. split; [exact Eno|]. cbn [o_kind o_result_types o_operands o_succs]. split; [reflexivity|]. split; [reflexivity|]. split; [|split].
      + apply map_ext_in. intros v Hv. symmetry. apply AGm. assert (Hu : In (UseV v) (op_uses c0 o)) by (unfold op_uses; rewrite Ed; apply in_map; exact Hv).
        intro K. rewrite <- !app_assoc in IO. apply (in_order_in _ _ _ IO) in Hu. rewrite <- !app_assoc in K. apply in_app_iff in K as [K|K]; [|contradiction].
        unfold op_uses in K. rewrite Ed in K. exact (not_in_UseV _ _ K).
      + apply map_ext_in. intros b Hb. symmetry. apply AG1. assert (Hu : In (UseB b) (op_targets c0 o)) by (unfold op_targets; rewrite Ed; apply in_map; exact Hb).
        intro K. rewrite <- !app_assoc in IO. apply in_order_suffix, in_order_suffix in IO. apply (in_order_in _ _ _ IO) in Hu. rewrite <- !app_assoc in K. apply in_app_iff in K as [K|K]; [|contradiction].
        unfold op_targets in K. rewrite Ed in K. exact (defB_not_UseB _ _ K).
      + rewrite <- !app_assoc in IO. do 3 apply in_order_suffix in IO. transitivity (map (lookup_or (m_vals m2)) (op_results c0 o)).
        * cbn [m_vals m2]. rewrite Ro. symmetry. apply lookup_combine; [eapply in_order_NoDup; exact IO|exact Lc].
        * apply map_ext_in. intros v Hv. symmetry. apply AG. apply (in_order_in (map DefV (op_results c0 o)) rest (DefV v) IO). apply in_map_DefV. exact Hv.
    - assert (Eor : op_regions_of c2 no = nrs) by (unfold op_regions_of; rewrite Eno; reflexivity). rewrite Eor.
      assert (P : pres (fun b => length (blocks c) <= b) c1 c2).
      { constructor; rewrite ?Bl2, ?Ba2; try reflexivity.
        - intros x dx K. exists dx. rewrite O2, nth_error_app1 by (eapply nth_lt; exact K). split; [exact K|reflexivity].
        - intros x Hx. rewrite Or2. apply fupd_other. lia.
        - intros b db K. exists db. repeat split. exact K.
        - exact R2'. }
      rewrite <- !app_assoc in IO. apply in_order_suffix in IO. rewrite (app_assoc (op_targets c0 o)) in IO. pose proof (C1 F G _ IO AG1) as X.
      rewrite all2_Forall2. eapply Forall2_impl'; [|exact X]. intros rb r' _ K. exact (regionQ_pres _ _ _ _ _ _ _ _ K P).
  Qed.
End clone.
