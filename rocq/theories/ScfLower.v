(** The lowering of one operation, step by step: each step extends what [lowering] describes. *)
From Verif Require Import ScfModel ScfSpec IrProofs IrInvProofs IrMainProofs ScfSim CastProofs ScfArena.
From Coq Require Import Lia.

(** ** A new block argument takes the place of a result *)
Record carries (c : ctx) (dead : list nat) (c' : ctx) (m : nat) (arg : option (nat * nat)) : Prop := {
  ca_inv : inv c' dead;
  ca_ops : forall x d, nth_error (ops c) x = Some d -> exists d', nth_error (ops c') x = Some d' /\ same_data d d' /\ (~ In x dead -> o_operands d' = map (swap arg) (o_operands d));
  ca_olen : length (ops c') = length (ops c);
  ca_results : op_results c' = op_results c;
  ca_args : forall b, b <> m -> block_args c' b = block_args c b;
  ca_blen : length (blocks c') = length (blocks c);
  ca_bops : forall b, bops (blocks c') b = bops (blocks c) b;
  ca_bpar : forall b, bpar (blocks c') b = bpar (blocks c) b;
  ca_regions : regions c' = regions c;
  ca_vals : length (vals c) <= length (vals c');
  ca_arg : match arg with
           | Some (r, a) => a = length (vals c) /\ length (vals c') = S a /\ block_args c' m = block_args c m ++ [a]
           | None => block_args c' m = block_args c m
           end;
}.
Lemma carry_ok c dead m result c' : carry c m result = Some c' -> inv c dead -> carries c dead c' m (option_map (fun r => (r, length (vals c))) result).
Proof.
  intros H I. unfold carry in H. destruct result as [r|].
  - destruct (value_ty c r) as [ty|]; [|discriminate]. cbn [obind] in H. destruct (add_block_arg c m ty) as [[c1 a]|] eqn:E1; [|discriminate]. cbn [obind] in H. injection H as <-.
    assert (I1 : inv c1 dead) by (apply (exec_inv c dead (AddArg m ty)); [cbn; rewrite E1; reflexivity | exact I]).
    unfold add_block_arg in E1. destruct (nth_error (blocks c) m) as [bd|] eqn:Em; [|discriminate]. injection E1 as <- <-. set (c1 := set_block_args _ _) in *. set (a := length (vals c)).
    destruct (replace_all_frame c1 r a) as (F1 & F2 & F3 & F4 & F5 & F6). pose proof (replace_inv c1 dead r a I1) as I2. cbn [option_map].
    constructor; rewrite ?F1, ?F2, ?F3, ?F4, ?F5; unfold c1; cbn [ops blocks regions vals op_results block_args set_block_args set_vals set_blocks].
    + exact I2.
    + intros x d E. destruct (replace_operands c1 dead r a x d I1 E) as (d' & E' & Sh & O). exists d'. split; [exact E'|]. split; [|exact O]. unfold shell in Sh. destruct d, d'. cbn in Sh. injection Sh as -> -> -> -> ->. repeat split.
    + pose proof (f_equal (@length op) F6) as K. rewrite !map_length in K. exact K.
    + reflexivity.
    + intros b Nb. apply fupd_other. exact Nb.
    + apply upd_len.
    + intros b. unfold bops. apply view_upd_keep. reflexivity.
    + intros b. unfold bpar. apply view_upd_keep. reflexivity.
    + reflexivity.
    + rewrite app_length. lia.
    + split; [reflexivity|]. split; [rewrite app_length; unfold a; cbn; lia|]. rewrite fupd_same. reflexivity.
  - injection H as <-. constructor; try reflexivity; try assumption. intros x d E. exists d. split; [exact E|]. split; [repeat split|]. intros _. cbn. symmetry. apply map_id.
Qed.

Section Base.
  Variable shape_of : nat -> shape.
  Variable c : ctx.
  Variable dead : list nat.
  Hypothesis I : inv c dead.
  Variables b0 s P m : nat.
  Variables pre post : list nat.
  Variable arg : option (nat * nat).
  Notation low := (lowering shape_of c dead).

  Lemma start ca cb c' X Y : moves c ca -> carries ca dead cb m arg -> moves cb c' -> inv c' dead ->
    bops (blocks c) b0 = pre ++ s :: post -> bpar (blocks c) b0 = Some P -> m = length (blocks c) -> rblks (regions c) P = X ++ b0 :: Y ->
    live c dead P -> (forall o, region_parent c P o -> shape_at shape_of c o <> Some SSwitch) -> (exists x, shape_at shape_of c s = Some x /\ control x = true) ->
    (forall x, bops (blocks c') x = if Nat.eqb x b0 then pre else if Nat.eqb x m then post else bops (blocks c) x) ->
    (forall x, bpar (blocks c') x = if Nat.eqb x m then Some P else bpar (blocks c) x) ->
    (forall q, rblks (regions c') q = if Nat.eqb q P then X ++ b0 :: m :: Y else rblks (regions c) q) ->
    length (blocks c') = S (length (blocks c)) ->
    match arg with Some (r, _) => op_results c s = [r] | None => op_results c s = [] \/ exists r, op_results c s = [r] /\ uses c r = [] end ->
    low c' dead b0 s P m pre post (fun _ => false) [] [] arg.
  Proof.
    intros M1 C M2 I' Hb Hp Em Hr Li Pl Sh B1 B2 B3 Lb Ha. assert (Nd : ~ In s pre /\ ~ In s post).
    { pose proof (bops_nodup c dead b0 I) as N. rewrite Hb in N. apply NoDup_remove_2 in N. rewrite in_app_iff in N. tauto. }
    assert (Lb0 : b0 < length (blocks c)) by (apply (bpar_old c b0 P); exact Hp).
    assert (Lo : length (ops c') = length (ops c)) by (rewrite (mv_len _ _ M2), (ca_olen _ _ _ _ _ C), (mv_len _ _ M1); reflexivity).
    assert (Rs : op_results c' = op_results c) by (rewrite (mv_results _ _ M2), (ca_results _ _ _ _ _ C), (mv_results _ _ M1); reflexivity).
    assert (Va : vals ca = vals c) by apply (mv_vals _ _ M1). assert (Vc : vals c' = vals cb) by apply (mv_vals _ _ M2).
    assert (Am : block_args c m = []) by (apply (de_arg_range _ (proj2 (proj2 I))); lia).
    constructor; try assumption.
    - intros x d E. destruct (mv_op _ _ x d M1 E) as (d1 & E1 & (S1 & S2 & S3 & S4) & O1). destruct (ca_ops _ _ _ _ _ C x d1 E1) as (d2 & E2 & (T1 & T2 & T3 & T4) & O2). destruct (mv_op _ _ x d2 M2 E2) as (d3 & E3 & (U1 & U2 & U3 & U4) & O3).
      exists d3. split; [exact E3|]. split; [repeat split; congruence|]. intros N. rewrite O3, (O2 N), O1. reflexivity.
    - intros x _. rewrite Rs. reflexivity.
    - intros b Lx. rewrite B1. destruct (Nat.eqb_spec b b0) as [->|Nb].
      + rewrite Hb. unfold relist. rewrite existsb_app. cbn [existsb]. rewrite Nat.eqb_refl, orb_true_r. rewrite before_split by apply Nd. symmetry. apply app_nil_r.
      + destruct (Nat.eqb_spec b m); [lia|]. symmetry. apply relist_none; [|reflexivity]. intros K. apply (in_bops c dead s b I) in K. assert (K0 : In s (bops (blocks c) b0)) by (rewrite Hb; apply in_elt). apply (in_bops c dead s b0 I) in K0. congruence.
    - intros b Lx. rewrite B2. destruct (Nat.eqb_spec b m); [lia|]. unfold into. destruct (bpar (blocks c) b); reflexivity.
    - intros b Lx. rewrite (mv_bargs _ _ M2), (ca_args _ _ _ _ _ C), (mv_bargs _ _ M1); [reflexivity | lia].
    - lia.
    - lia.
    - rewrite B1. destruct (Nat.eqb_spec m b0); [lia|]. rewrite Nat.eqb_refl. reflexivity.
    - intros b q Lx K. rewrite B2 in K. destruct (Nat.eqb_spec b m); [congruence|]. unfold bpar in K. rewrite (proj2 (nth_error_None _ _)) in K by exact Lx. discriminate.
    - rewrite B2, Nat.eqb_refl. reflexivity.
    - intros b x Lx Nb K. rewrite B1 in K. destruct (Nat.eqb_spec b b0); [lia|]. destruct (Nat.eqb_spec b m); [lia|]. unfold bops in K. rewrite (proj2 (nth_error_None _ _)) in K by exact Lx. destruct K.
    - intros z [].
    - discriminate.
    - constructor.
    - discriminate.
    - intros q _. rewrite B3. destruct (Nat.eqb_spec q P) as [->|]; [|reflexivity]. rewrite Hr. destruct X; reflexivity.
    - intros q. rewrite (mv_rpar _ _ M2), (ca_regions _ _ _ _ _ C), (mv_rpar _ _ M1). reflexivity.
    - discriminate.
    - rewrite Vc, <- Va. apply (ca_vals _ _ _ _ _ C).
    - pose proof (ca_arg _ _ _ _ _ C) as A. rewrite (mv_bargs _ _ M2). destruct arg as [[r a]|].
      + destruct A as (A1 & A2 & A3). split; [exact Ha|]. split; [rewrite A1, Va; reflexivity|]. split; [rewrite Vc; lia|]. split; [rewrite A3, (mv_bargs _ _ M1), Am; reflexivity|].
        intros x _. rewrite Rs. intros K. apply In_nth_error in K. destruct K as (i & K). apply (de_result _ (proj2 (proj2 I))) in K. assert (a < length (vals c)) by (apply nth_error_Some; congruence). rewrite A1, Va in H. lia.
      + split; [rewrite A, (mv_bargs _ _ M1), Am; reflexivity | exact Ha].
    - intros z d Lz E. rewrite <- Lo in Lz. apply nth_error_None in Lz. congruence.
    - intros x K. exact K.
    - intros x K. left. exact K.
  Qed.

  (** ** One more step *)
  Lemma next c1 dead1 c2 dead2 Q log tail Q' log' tail' :
    low c1 dead1 b0 s P m pre post Q log tail arg -> keeps c1 dead1 c2 dead2 ->
    (forall b, b < length (blocks c) -> bops (blocks c2) b = relist s log' tail' (bops (blocks c) b)) ->
    (forall b, b < length (blocks c) -> bpar (blocks c2) b = option_map (into Q' P) (bpar (blocks c) b)) ->
    bops (blocks c2) m = post -> bpar (blocks c2) m = Some P ->
    (forall b q, length (blocks c) <= b -> bpar (blocks c2) b = Some q -> q = P) ->
    (forall b x, length (blocks c) <= b -> b <> m -> In x (bops (blocks c2) b) -> length (ops c) <= x) ->
    (forall z, In z tail' -> length (ops c) <= z) ->
    (forall y z, image log' y = Some z -> length (ops c) <= z /\ (exists x, shape_at shape_of c y = Some x /\ is_exit x = true) /\ inside_op c s y) ->
    NoDup (map fst log') -> (forall y z, image log' y = Some z -> shape_at shape_of c2 z = Some SBr) ->
    (forall q, Q' q = false -> hd_error (rblks (regions c2) q) = hd_error (rblks (regions c) q)) ->
    (forall q, Q' q = true -> child shape_of c s q) ->
    (forall x, In x dead2 -> In x dead \/ ((x = s \/ inside_op c s x) /\ ((forall q, ~ stands c2 x q) \/ exists q o, stands c2 x q /\ region_parent c2 q o /\ In o dead2))) ->
    low c2 dead2 b0 s P m pre post Q' log' tail' arg.
  Proof.
    intros L K G1 G2 G3 G4 G5 G6 G7 G8 G9 G10 G11 G12 G13. constructor; try assumption; try apply L; try apply K.
    - intros x d E. destruct (lo_ops _ _ _ _ _ _ _ _ _ _ _ _ _ _ _ L x d E) as (d1 & E1 & (S1 & S2 & S3 & S4) & O1). destruct (k_ops _ _ _ _ K x d1 E1) as (d2 & E2 & (T1 & T2 & T3 & T4) & O2). exists d2. split; [exact E2|]. split; [repeat split; congruence|]. intros N. rewrite O2. apply O1. exact N.
    - intros x Lx. rewrite (k_results _ _ _ _ K); [apply L; exact Lx|]. destruct (nth_error (ops c) x) as [d|] eqn:E; [|apply nth_error_None in E; lia]. destruct (lo_ops _ _ _ _ _ _ _ _ _ _ _ _ _ _ _ L x d E) as (d1 & E1 & _). apply nth_error_Some. congruence.
    - intros b Lb. rewrite (k_args _ _ _ _ K); [apply L; exact Lb|]. pose proof (lo_blen _ _ _ _ _ _ _ _ _ _ _ _ _ _ _ L). pose proof (lo_blen' _ _ _ _ _ _ _ _ _ _ _ _ _ _ _ L). lia.
    - pose proof (lo_blen' _ _ _ _ _ _ _ _ _ _ _ _ _ _ _ L). pose proof (k_blen _ _ _ _ K). lia.
    - intros q. rewrite (k_rpar _ _ _ _ K). apply L.
    - pose proof (lo_vals _ _ _ _ _ _ _ _ _ _ _ _ _ _ _ L). pose proof (k_vals _ _ _ _ K). lia.
    - pose proof (lo_arg _ _ _ _ _ _ _ _ _ _ _ _ _ _ _ L) as A. pose proof (k_args _ _ _ _ K m (lo_blen' _ _ _ _ _ _ _ _ _ _ _ _ _ _ _ L)) as Em. destruct arg as [[r a]|].
      + destruct A as (A1 & A2 & A3 & A4 & A5). split; [exact A1|]. split; [exact A2|]. split; [pose proof (k_vals _ _ _ _ K); lia|]. split; [congruence|]. intros x _ Ix.
        assert (D := proj2 (proj2 (k_inv _ _ _ _ K))). apply In_nth_error in Ix. destruct Ix as (i & Ix). apply (de_result _ D) in Ix. assert (Ia : nth_error (block_args c2 m) 0 = Some a) by (rewrite Em, A4; reflexivity). apply (de_arg _ D) in Ia. congruence.
      + destruct A as (A1 & A2). split; [congruence | exact A2].
    - intros z d Lz E. destruct (Nat.lt_ge_cases z (length (ops c1))) as [Kz|Kz]; [|apply (k_new _ _ _ _ K z d Kz E)].
      destruct (nth_error (ops c1) z) as [d1|] eqn:E1; [|apply nth_error_None in E1; lia]. destruct (k_ops _ _ _ _ K z d1 E1) as (d2 & E2 & (T1 & T2 & T3 & T4) & O2). assert (d2 = d) as -> by congruence. destruct (lo_new _ _ _ _ _ _ _ _ _ _ _ _ _ _ _ L z d1 Lz E1) as (R1 & V1). split; [congruence|].
      intros v Iv. rewrite O2 in Iv. destruct (V1 v Iv) as (V2 & V3). rewrite (k_results _ _ _ _ K z Kz). pose proof (k_vals _ _ _ _ K). split; [lia | exact V3].
    - intros x D. apply (k_dead _ _ _ _ K). apply L. exact D.
  Qed.
End Base.

Lemma par_none_stands c dead x q : inv c dead -> par (ops c) x = None -> ~ stands c x q.
Proof. intros I K S. apply (stands_par c dead x q I) in S. destruct S as (b & S & _). congruence. Qed.

Section Steps.
  Variable shape_of : nat -> shape.
  Variable c : ctx.
  Variable dead : list nat.
  Hypothesis I : inv c dead.
  Hypothesis T : tidy c dead.
  Variables b0 s P m : nat.
  Variables pre post : list nat.
  Variable arg : option (nat * nat).
  Local Notation low c1 dead1 Q log tail := (lowering shape_of c dead c1 dead1 b0 s P m pre post Q log tail arg).

  (** Operations disposed so far stand nowhere. *)
  Definition loose (c1 : ctx) (dead1 : list nat) : Prop := forall x, In x dead1 -> In x dead \/ par (ops c1) x = None.

  Lemma low_olen c1 dead1 Q log tail : low c1 dead1 Q log tail -> length (ops c) <= length (ops c1).
  Proof.
    intros L. destruct (length (ops c)) as [|n] eqn:En; [lia|]. destruct (nth_error (ops c) n) as [d|] eqn:E; [|apply nth_error_None in E; lia]. destruct (lo_ops _ _ _ _ _ _ _ _ _ _ _ _ _ _ _ L n d E) as (d1 & E1 & _). assert (n < length (ops c1)) by (apply nth_error_Some; congruence). lia.
  Qed.
  Lemma low_blen c1 dead1 Q log tail : low c1 dead1 Q log tail -> length (blocks c) < length (blocks c1).
  Proof. intros L. pose proof (lo_blen _ _ _ _ _ _ _ _ _ _ _ _ _ _ _ L). pose proof (lo_blen' _ _ _ _ _ _ _ _ _ _ _ _ _ _ _ L). lia. Qed.
  Lemma log_old c1 dead1 Q log tail y z : low c1 dead1 Q log tail -> image log y = Some z -> y < length (ops c).
  Proof. intros L E. destruct (lo_log _ _ _ _ _ _ _ _ _ _ _ _ _ _ _ L y z E) as (_ & (x & Sx & _) & _). unfold shape_at in Sx. destruct (nth_error (ops c) y) eqn:E1; [|discriminate]. apply nth_error_Some. congruence. Qed.
  Lemma inside_old x : inside_op c s x -> x < length (ops c).
  Proof. intros (q & _ & D). assert (exists q, stands c x q) as (q1 & S) by (destruct D; eauto). destruct (stands_old c dead I x q1 S) as (d & E). apply nth_error_Some. congruence. Qed.
  Lemma s_old c1 dead1 Q log tail : low c1 dead1 Q log tail -> s < length (ops c).
  Proof. intros L. destruct (lo_shape _ _ _ _ _ _ _ _ _ _ _ _ _ _ _ L) as (x & Sx & _). unfold shape_at in Sx. destruct (nth_error (ops c) s) eqn:E; [|discriminate]. apply nth_error_Some. congruence. Qed.
  Lemma child_not_P c1 dead1 Q log tail r : low c1 dead1 Q log tail -> child shape_of c s r -> r <> P.
  Proof. intros L Ch ->. destruct (ti_rank c dead T) as (rank & R). pose proof (child_rank shape_of c rank s P s R Ch (s_stands _ _ _ _ _ _ _ _ _ _ _ _ _ _ _ I L)). lia. Qed.
  (** The first block of [P] stays an old one. *)
  Lemma entry_old c1 dead1 Q log tail X b Y : low c1 dead1 Q log tail -> rblks (regions c1) P = X ++ b :: Y -> length (blocks c) <= b -> X <> [].
  Proof.
    intros L E Lb ->. pose proof (lo_entry _ _ _ _ _ _ _ _ _ _ _ _ _ _ _ L P (P_not_Q _ _ _ _ _ _ _ _ _ _ _ _ _ _ _ I T L)) as K. rewrite E in K. cbn in K. destruct (rblks (regions c) P) as [|b1 l] eqn:E1; [discriminate|]. cbn in K. injection K as <-.
    assert (K : In b (rblks (regions c) P)) by (rewrite E1; left; reflexivity). apply (in_rblks c dead b P I) in K. apply bpar_old in K. lia.
  Qed.
  Lemma killed_same c1 dead1 c2 dead2 Q log tail : low c1 dead1 Q log tail -> inv c2 dead2 -> (forall x, In x dead1 -> In x dead2) ->
    (forall x, x < length (ops c) -> par (ops c2) x = par (ops c1) x) -> (forall b q, bpar (blocks c1) b = Some q -> bpar (blocks c2) b = Some q) ->
    (forall b q x, x < length (ops c) -> par (ops c1) x = Some b -> bpar (blocks c2) b = Some q -> bpar (blocks c1) b = Some q) -> (forall q, rpar (regions c2) q = rpar (regions c1) q) ->
    forall x, In x dead1 -> In x dead \/ ((x = s \/ inside_op c s x) /\ ((forall q, ~ stands c2 x q) \/ exists q o, stands c2 x q /\ region_parent c2 q o /\ In o dead2)).
  Proof.
    intros L I2 D P1 B1 B2 R1 x K. destruct (lo_killed _ _ _ _ _ _ _ _ _ _ _ _ _ _ _ L x K) as [K1|(K1 & K2)]; [left; exact K1|]. right. split; [exact K1|].
    assert (Lx : x < length (ops c)) by (destruct K1 as [->|K1]; [eapply s_old; exact L | apply inside_old; exact K1]). pose proof (lo_inv _ _ _ _ _ _ _ _ _ _ _ _ _ _ _ L) as I1.
    destruct K2 as [K2|(q & o & S1 & S2 & S3)].
    - left. intros q S. apply (K2 q). apply (stands_par c2 dead2 x q I2) in S. apply (stands_par c1 dead1 x q I1). destruct S as (b & S1 & S2). exists b. rewrite (P1 x Lx) in S1. split; [exact S1 | eapply B2; eassumption].
    - right. exists q, o. split; [|split; [|apply D; exact S3]].
      + apply (stands_par c1 dead1 x q I1) in S1. apply (stands_par c2 dead2 x q I2). destruct S1 as (b & S11 & S12). exists b. rewrite (P1 x Lx). split; [exact S11 | apply B1; exact S12].
      + apply rpar_in. rewrite R1. apply rpar_in. exact S2.
  Qed.
  (** Nothing that the record speaks about changes. *)
  Lemma unseen c1 dead1 c2 Q log tail : low c1 dead1 Q log tail -> keeps c1 dead1 c2 dead1 ->
    (forall x, x < length (ops c) -> par (ops c2) x = par (ops c1) x) ->
    (forall b, b < length (blocks c) \/ b = m -> bops (blocks c2) b = bops (blocks c1) b) -> (forall b, b < length (blocks c1) -> bpar (blocks c1) b <> None \/ b < length (blocks c) -> bpar (blocks c2) b = bpar (blocks c1) b) ->
    (forall b q, length (blocks c) <= b -> bpar (blocks c1) b = None -> bpar (blocks c2) b = Some q -> q = P) ->
    (forall b x, length (blocks c) <= b -> b <> m -> In x (bops (blocks c2) b) -> length (ops c) <= x) ->
    (forall q, hd_error (rblks (regions c2) q) = hd_error (rblks (regions c1) q)) -> low c2 dead1 Q log tail.
  Proof.
    intros L K P1 B1 B2 B3 B4 R1. pose proof (low_blen _ _ _ _ _ L) as Lb.
    assert (Ob : forall b x, par (ops c1) x = Some b -> b < length (blocks c1)).
    { intros b x E. apply (in_bops c1 dead1 x b (lo_inv _ _ _ _ _ _ _ _ _ _ _ _ _ _ _ L)) in E. unfold bops in E. destruct (nth_error (blocks c1) b) eqn:E1; [apply nth_error_Some; congruence | destruct E]. }
    eapply next; [exact L | exact K | | | | | | exact B4 | | | | | | |].
    - intros b Hb. rewrite B1 by lia. apply L. exact Hb.
    - intros b Hb. rewrite B2 by lia. apply L. exact Hb.
    - rewrite B1 by (right; reflexivity). apply L.
    - rewrite B2; [exact (lo_mergepar _ _ _ _ _ _ _ _ _ _ _ _ _ _ _ L) | exact (lo_blen' _ _ _ _ _ _ _ _ _ _ _ _ _ _ _ L) | left; rewrite (lo_mergepar _ _ _ _ _ _ _ _ _ _ _ _ _ _ _ L); discriminate].
    - intros b q Hb E. destruct (bpar (blocks c1) b) as [q1|] eqn:E1; [|eapply B3; eassumption]. rewrite B2 in E; [|eapply bpar_old; exact E1 | left; congruence]. eapply (lo_newpar _ _ _ _ _ _ _ _ _ _ _ _ _ _ _ L); eassumption.
    - apply L.
    - apply L.
    - apply L.
    - intros y z E. pose proof (lo_br _ _ _ _ _ _ _ _ _ _ _ _ _ _ _ L y z E) as Sz. unfold shape_at in *. destruct (nth_error (ops c1) z) as [d|] eqn:Ez; [|discriminate]. destruct (k_ops _ _ _ _ K z d Ez) as (d2 & -> & (Ek & _) & _). cbn [option_map] in *. congruence.
    - intros q E. rewrite R1. apply L. exact E.
    - apply L.
    - apply (killed_same c1 dead1 c2 dead1 Q log tail L (k_inv _ _ _ _ K)); [intros x X; exact X | exact P1 | | | apply (k_rpar _ _ _ _ K)].
      + intros b q E. rewrite B2; [exact E | eapply bpar_old; exact E | left; congruence].
      + intros b q x Lx E E1. destruct (bpar (blocks c1) b) as [q1|] eqn:E2; [rewrite B2, E2 in E1; [exact E1 | eapply Ob; eassumption | left; congruence]|]. exfalso.
        destruct (Nat.lt_ge_cases b (length (blocks c))) as [Lc|Lc]; [rewrite B2 in E1; [congruence | lia | right; exact Lc]|].
        destruct (Nat.eq_dec b m) as [->|Nm]; [rewrite (lo_mergepar _ _ _ _ _ _ _ _ _ _ _ _ _ _ _ L) in E2; discriminate|].
        apply (in_bops c1 dead1 x b (lo_inv _ _ _ _ _ _ _ _ _ _ _ _ _ _ _ L)) in E. pose proof (lo_newblk _ _ _ _ _ _ _ _ _ _ _ _ _ _ _ L b x Lc Nm E). lia.
  Qed.

  (** A region of [s] becomes part of [P]. *)
  Lemma inlined c1 dead1 c2 bs Q log tail r : low c1 dead1 Q log tail -> loose c1 dead1 -> inline_region_blocks c1 r P m = Some (c2, bs) -> child shape_of c s r -> Q r = false ->
    low c2 dead1 (fun q => Nat.eqb q r || Q q) log tail /\ loose c2 dead1 /\ keeps c1 dead1 c2 dead1 /\ (forall b, In b bs <-> bpar (blocks c) b = Some r) /\ NoDup bs /\ hd_error bs = hd_error (rblks (regions c) r) /\
    (forall x, bops (blocks c2) x = bops (blocks c1) x) /\ length (blocks c2) = length (blocks c1) /\ ops c2 = ops c1.
  Proof.
    intros L Lo H Ch EQ. pose proof (child_not_P _ _ _ _ _ _ L Ch) as NP. pose proof (lo_inv _ _ _ _ _ _ _ _ _ _ _ _ _ _ _ L) as I1. destruct (inline_ok _ _ _ _ _ _ _ H I1 NP) as (Eb & M & I2 & O2 & B1 & B2 & (X & Y & R1 & R2) & L1 & L2).
    assert (K : keeps c1 dead1 c2 dead1) by (apply moves_keeps; assumption).
    assert (Mem : forall b, In b bs <-> bpar (blocks c) b = Some r).
    { intros b. rewrite Eb, (in_rblks c1 dead1 b r I1). destruct (Nat.lt_ge_cases b (length (blocks c))) as [Lb|Lb].
      - rewrite (lo_bpar _ _ _ _ _ _ _ _ _ _ _ _ _ _ _ L b Lb). destruct (bpar (blocks c) b) as [q|]; cbn; [|reflexivity]. unfold into. destruct (Q q) eqn:Eq; [|reflexivity]. split; intros [= E1]; exfalso; congruence.
      - split; intros E1; exfalso; [apply NP; symmetry; symmetry; eapply (lo_newpar _ _ _ _ _ _ _ _ _ _ _ _ _ _ _ L); eassumption | apply bpar_old in E1; lia]. }
    assert (Lo2 : loose c2 dead1) by (intros x Hx; rewrite O2; apply Lo; exact Hx).
    split; [|split; [exact Lo2|]; split; [exact K|]; split; [exact Mem|]; split; [rewrite Eb; apply I1|]; split; [rewrite Eb; apply L; exact EQ|]; split; [exact B1|]; split; [exact L1 | exact O2]].
    eapply next; [exact L | exact K | | | | | | | | | | | | |].
    - intros b Hb. rewrite B1. apply L. exact Hb.
    - intros b Hb. rewrite B2. destruct (memb_spec b bs) as [K1|K1].
      + apply Mem in K1. rewrite K1. cbn. unfold into. rewrite Nat.eqb_refl. reflexivity.
      + rewrite (lo_bpar _ _ _ _ _ _ _ _ _ _ _ _ _ _ _ L b Hb). destruct (bpar (blocks c) b) as [q|] eqn:Eq; [|reflexivity]. cbn. unfold into. destruct (Nat.eqb_spec q r) as [->|]; [exfalso; apply K1, Mem; exact Eq | reflexivity].
    - rewrite B1. apply L.
    - rewrite B2. destruct (memb m bs); [reflexivity | exact (lo_mergepar _ _ _ _ _ _ _ _ _ _ _ _ _ _ _ L)].
    - intros b q Hb E. rewrite B2 in E. destruct (memb b bs); [congruence | eapply (lo_newpar _ _ _ _ _ _ _ _ _ _ _ _ _ _ _ L); eassumption].
    - intros b x Hb Nb E. rewrite B1 in E. eapply (lo_newblk _ _ _ _ _ _ _ _ _ _ _ _ _ _ _ L); eassumption.
    - apply L.
    - apply L.
    - apply L.
    - intros y z E. unfold shape_at. rewrite O2. exact (lo_br _ _ _ _ _ _ _ _ _ _ _ _ _ _ _ L y z E).
    - intros q E. apply orb_false_iff in E. destruct E as (E1 & E2). apply Nat.eqb_neq in E1. rewrite R2. destruct (Nat.eqb_spec q P) as [->|].
      + rewrite <- (lo_entry _ _ _ _ _ _ _ _ _ _ _ _ _ _ _ L P E2), R1. pose proof (entry_old _ _ _ _ _ _ _ _ L R1 (lo_blen _ _ _ _ _ _ _ _ _ _ _ _ _ _ _ L)) as NX. destruct X; [contradiction | reflexivity].
      + destruct (Nat.eqb_spec q r); [contradiction | apply L; exact E2].
    - intros q E. apply orb_true_iff in E. destruct E as [E|E]; [apply Nat.eqb_eq in E; subst; exact Ch | apply L; exact E].
    - intros x D. destruct (lo_killed _ _ _ _ _ _ _ _ _ _ _ _ _ _ _ L x D) as [D1|(D1 & _)]; [left; exact D1|]. destruct (Lo2 x D) as [D2|D2]; [left; exact D2|]. right. split; [exact D1|]. left. intros q. eapply par_none_stands; eassumption.
  Qed.

  (** [s] is disposed of, with all that is left in it. *)
  Lemma discarded depth c1 dead1 c2 Q log tail : low c1 dead1 Q log tail -> discard depth c1 s = Some c2 ->
    (forall x q, stands c1 x q -> length (ops c) <= x -> q = P) ->
    exists dead2, low c2 dead2 Q log tail /\ keeps c1 dead1 c2 dead2 /\ ops c2 = ops c1 /\ blocks c2 = blocks c1 /\ regions c2 = regions c1.
  Proof.
    intros L H New. unfold discard in H. destruct (remove_op depth c1 s) as [[c' sub]|] eqn:E; [|discriminate]. cbn [obind] in H. injection H as ->. pose proof (lo_inv _ _ _ _ _ _ _ _ _ _ _ _ _ _ _ L) as I1.
    destruct (remove_ok _ _ _ _ _ _ E I1) as (I2 & E1 & E2 & E3 & E4 & E5 & E6 & Is & Rt & Ps). pose proof (remove_keeps _ _ _ _ _ _ E I1) as K. exists (dead1 ++ sub). split; [|split; [exact K|]; split; [exact E1|]; split; assumption].
    assert (St : forall x q, stands c2 x q <-> stands c1 x q) by (intros x q; unfold stands, op_in, block_in; rewrite E2, E3; reflexivity).
    destruct (ti_rank c dead T) as (rank & Rk). pose proof (s_stands _ _ _ _ _ _ _ _ _ _ _ _ _ _ _ I L) as Ss.
    assert (In1 : forall x, x < length (ops c) -> inside_op c1 s x -> inside_op c s x).
    { intros x Lx (q & Hq & D). exists q. split; [apply (rparent_same _ _ _ _ _ _ _ _ _ _ _ _ _ _ _ L); exact Hq|]. eapply deep_before; eassumption. }
    eapply next; [exact L | exact K | | | | | | | | | | | | |]; rewrite ?E1, ?E2, ?E3; try exact (lo_mergepar _ _ _ _ _ _ _ _ _ _ _ _ _ _ _ L); try apply L.
    - intros y z Ez. unfold shape_at. rewrite E1. exact (lo_br _ _ _ _ _ _ _ _ _ _ _ _ _ _ _ L y z Ez).
    - intros x D. apply in_app_or in D. destruct D as [D|D].
      + eapply killed_same; [exact L | exact I2 | intros y Hy; apply in_or_app; left; exact Hy | | | | | exact D]; rewrite ?E1, ?E2, ?E3; auto.
      + right. destruct (Rt x D) as [->|(Di & q & o & S1 & S2 & S3)].
        * split; [left; reflexivity|]. left. intros q S. apply St in S. revert S. eapply par_none_stands; eassumption.
        * assert (Oo : o < length (ops c)). { apply (rparent_same _ _ _ _ _ _ _ _ _ _ _ _ _ _ _ L) in S2. eapply owner_old; eassumption. }
          assert (Lx : x < length (ops c)).
          { destruct (Nat.lt_ge_cases x (length (ops c))) as [Lx|Lx]; [exact Lx|]. exfalso. pose proof (New x q S1 Lx) as ->. apply (rparent_same _ _ _ _ _ _ _ _ _ _ _ _ _ _ _ L) in S2. pose proof (Rk _ _ _ Ss S2) as R1.
            destruct (Rt o S3) as [->|(Do & _)]; [lia|]. pose proof (inside_rank shape_of c rank s o Rk (In1 o Oo Do)). lia. }
          split; [right; apply In1; assumption|]. right. exists q, o. split; [apply St; exact S1|]. split; [|apply in_or_app; right; exact S3]. apply rpar_in. rewrite E3. apply rpar_in. exact S2.
  Qed.

  Lemma P_outer c1 dead1 Q log tail : low c1 dead1 Q log tail -> outer c P P.
  Proof. intros L o Ro D. destruct (ti_rank c dead T) as (rank & R). pose proof (deep_rank shape_of c rank P o R D o Ro). lia. Qed.
  Lemma P_live c1 dead1 Q log tail : low c1 dead1 Q log tail -> live c1 dead1 P.
  Proof. intros L. eapply outer_live; [exact L | apply deep_here; eapply s_stands; eassumption | eapply P_outer; exact L | apply L]. Qed.
  Lemma par_back c1 dead1 Q log tail x b : low c1 dead1 Q log tail -> par (ops c1) x = Some b -> inside_op c s x -> b < length (blocks c) /\ par (ops c) x = Some b /\ image log x = None.
  Proof.
    intros L E D. pose proof (inside_old x D) as Lx. destruct (ti_rank c dead T) as (rank & R). pose proof (s_stands _ _ _ _ _ _ _ _ _ _ _ _ _ _ _ I L) as Ss. pose proof (inside_elsewhere shape_of c dead rank s x P I R Ss D) as Nx.
    assert (Np : ~ In x (bops (blocks c) b0)). { intros K. apply Nx. apply (stands_par c dead x P I). exists b0. split; [apply (in_bops c dead x b0 I); exact K | apply L]. }
    apply (in_bops c1 dead1 x b (lo_inv _ _ _ _ _ _ _ _ _ _ _ _ _ _ _ L)) in E. destruct (Nat.lt_ge_cases b (length (blocks c))) as [Lb|Lb].
    - split; [exact Lb|]. rewrite (lo_bops _ _ _ _ _ _ _ _ _ _ _ _ _ _ _ L b Lb) in E. unfold relist in E. destruct (existsb (Nat.eqb s) (bops (blocks c) b)) eqn:Es.
      + exfalso. apply existsb_exists in Es. destruct Es as (w & Hw & Es). apply Nat.eqb_eq in Es. subst w. assert (b = b0) as ->. { apply (in_bops c dead s b I) in Hw. assert (K0 : In s (bops (blocks c) b0)) by (rewrite (lo_home _ _ _ _ _ _ _ _ _ _ _ _ _ _ _ L); apply in_elt). apply (in_bops c dead s b0 I) in K0. congruence. }
        apply in_app_or in E. destruct E as [E|E]; [apply Np; eapply before_In; exact E|]. apply (lo_tail _ _ _ _ _ _ _ _ _ _ _ _ _ _ _ L) in E. lia.
      + unfold moved in E. apply in_app_or in E. destruct E as [E|E].
        * apply filter_In in E. destruct E as (E1 & E2). split; [apply (in_bops c dead x b I); exact E1|]. destruct (image log x); [discriminate | reflexivity].
        * exfalso. apply in_map_iff in E. destruct E as ([y z] & Ez & E). cbn in Ez. subst z. apply filter_In in E. destruct E as (E & _). apply (image_of _ _ _ (lo_once _ _ _ _ _ _ _ _ _ _ _ _ _ _ _ L)) in E. apply (lo_log _ _ _ _ _ _ _ _ _ _ _ _ _ _ _ L) in E. lia.
    - exfalso. destruct (Nat.eq_dec b m) as [->|Nm]; [|pose proof (lo_newblk _ _ _ _ _ _ _ _ _ _ _ _ _ _ _ L b x Lb Nm E); lia]. rewrite (lo_merge _ _ _ _ _ _ _ _ _ _ _ _ _ _ _ L) in E. apply Np. rewrite (lo_home _ _ _ _ _ _ _ _ _ _ _ _ _ _ _ L). apply in_or_app. right. right. exact E.
  Qed.

  Lemma image_snoc log y z x : image log y = None -> image (log ++ [(y, z)]) x = if Nat.eqb y x then Some z else image log x.
  Proof.
    intros E. unfold image in *. induction log as [|[a w] l IH]; cbn [app find fst snd option_map]; [cbn; destruct (Nat.eqb y x); reflexivity|]. cbn [find fst snd option_map] in E. destruct (Nat.eqb_spec a x) as [->|Na].
    - destruct (Nat.eqb_spec y x) as [->|]; [rewrite Nat.eqb_refl in E; discriminate | reflexivity].
    - apply IH. destruct (Nat.eqb_spec a y); [discriminate | exact E].
  Qed.
  Lemma moved_snoc log y z l : image log y = None -> (forall x w, In (x, w) log -> w <> y) ->
    moved (log ++ [(y, z)]) l = without y (moved log l) ++ (if existsb (Nat.eqb y) l then [z] else []).
  Proof.
    intros E N. unfold moved. rewrite without_app, filter_app, map_app. rewrite <- app_assoc. f_equal; [|f_equal].
    - unfold without. induction l as [|x l IH]; [reflexivity|]. cbn [filter]. rewrite (image_snoc log y z x E). destruct (Nat.eqb_spec y x) as [->|Ne].
      + rewrite E. cbn [filter]. rewrite Nat.eqb_refl. cbn [negb]. exact IH.
      + destruct (image log x); [exact IH|]. cbn [filter]. replace (Nat.eqb x y) with false by (symmetry; apply Nat.eqb_neq; congruence). cbn [negb]. f_equal. exact IH.
    - symmetry. apply without_absent. intros K. apply in_map_iff in K. destruct K as ([a w] & Ew & K). cbn in Ew. subst w. apply filter_In in K. destruct K as (K & _). exact (N a y K eq_refl).
    - cbn [filter fst]. destruct (existsb (Nat.eqb y) l); reflexivity.
  Qed.

  (** An exit becomes a branch. *)
  Lemma exited br_kind depth c1 dead1 c2 Q log tail b y vs t d : low c1 dead1 Q log tail -> turn_into_br br_kind depth c1 b y vs t = Some c2 -> shape_of br_kind = SBr ->
    nth_error (ops c1) y = Some d -> o_regions d = [] -> is_exit (shape_of (o_kind d)) = true ->
    par (ops c1) y = Some b -> inside_op c s y -> ~ In y dead1 -> (forall v, In v vs -> v < length (vals c1)) ->
    let z := length (ops c1) in
    low c2 (dead1 ++ [y]) Q (log ++ [(y, z)]) tail /\ keeps c1 dead1 c2 (dead1 ++ [y]) /\ image log y = None /\ (loose c1 dead1 -> loose c2 (dead1 ++ [y])) /\
    (exists dz, nth_error (ops c2) z = Some dz /\ o_kind dz = br_kind /\ o_operands dz = vs /\ o_succs dz = [t]) /\ op_results c2 z = [] /\
    (forall x, bops (blocks c2) x = if Nat.eqb x b then without y (bops (blocks c1) b) ++ [z] else bops (blocks c1) x) /\ (forall x, bpar (blocks c2) x = bpar (blocks c1) x) /\ regions c2 = regions c1 /\
    length (ops c2) = S (length (ops c1)) /\ length (blocks c2) = length (blocks c1) /\ length (vals c2) = length (vals c1).
  Proof.
    intros L H Kb Ed Er Ex Py Dy Ny V z. pose proof (lo_inv _ _ _ _ _ _ _ _ _ _ _ _ _ _ _ L) as I1. destruct (par_back _ _ _ _ _ _ _ L Py Dy) as (Lb & Pc & Im). pose proof (inside_old y Dy) as Ly. pose proof (low_olen _ _ _ _ _ L) as Lo.
    unfold turn_into_br, branch in H. destruct (create_op c1 br_kind vs [] [] [t]) as [[ca z0]|] eqn:Ea; [|discriminate]. cbn [obind] in H.
    pose proof (create_op_inv _ _ _ _ _ _ _ _ _ Ea I1) as Ia. pose proof (create_keeps _ _ _ _ _ _ _ _ Ea I1 V) as Ka. destruct (create_leaf _ _ _ _ _ _ _ Ea) as (-> & A1 & A2 & A3 & A4 & A5 & A6). fold z in H, A1, A2, A6.
    unfold erase in H. destruct (detach_op ca y) as [cd|] eqn:Edt; [|discriminate]. cbn [obind] in H. destruct (remove_op depth cd y) as [[ce sub]|] eqn:Erm; [|discriminate]. cbn [obind] in H.
    destruct (detach_ok _ _ _ _ Edt Ia) as (Md & Id & D1 & D2 & D3 & D4 & D5). pose proof (moves_keeps _ _ _ Md Id) as Kd.
    destruct (remove_ok _ _ _ _ _ _ Erm Id) as (Ie & E1 & E2 & E3 & E4 & E5 & E6 & _). pose proof (remove_keeps _ _ _ _ _ _ Erm Id) as Ke.
    assert (Esub : sub = [y]).
    { assert (Ey : nth_error (ops ca) y = Some d) by (rewrite A1, nth_error_app1 by (apply nth_error_Some; congruence); exact Ed). destruct (mv_op _ _ y d Md Ey) as (d1 & Ed1 & (_ & _ & Er1 & _) & _). rewrite Er in Er1.
      unfold remove_op in Erm. rewrite Ed1 in Erm. destruct (o_parent d1); [discriminate|]. destruct (forallb _ _); [|discriminate]. destruct depth as [|depth]; [discriminate|]. cbn [walk_op] in Erm. rewrite Ed1, Er1 in Erm. cbn [each] in Erm. injection Erm as _ <-. reflexivity. }
    subst sub. destruct (push_ok _ _ _ _ _ H Ie) as (Mp & I2 & P1 & P2 & P3 & P4 & P5 & P6). pose proof (moves_keeps _ _ _ Mp I2) as Kp.
    assert (K : keeps c1 dead1 c2 (dead1 ++ [y])) by (eapply keeps_trans; [exact Ka|]; eapply keeps_trans; [exact Kd|]; eapply keeps_trans; [exact Ke | exact Kp]).
    assert (Lz : length (ops c) <= z) by exact Lo. assert (Nyz : y <> z) by lia.
    assert (B : forall x, bops (blocks c2) x = if Nat.eqb x b then without y (bops (blocks c1) b) ++ [z] else bops (blocks c1) x).
    { intros x. rewrite P1. destruct (Nat.eqb_spec x b) as [->|Nx]; rewrite E2, D1, A3; [reflexivity|]. apply without_absent. intros Kx. apply (in_bops c1 dead1 y x I1) in Kx. congruence. }
    assert (Bp : forall x, bpar (blocks c2) x = bpar (blocks c1) x) by (intros x; rewrite P2, E2, D2, A3; reflexivity).
    assert (Rg : regions c2 = regions c1) by (rewrite P3, E3, D3, A4; reflexivity).
    assert (Pr : forall x, par (ops c2) x = if Nat.eqb x z then Some b else if Nat.eqb x y then None else par (ops c1) x).
    { intros x. rewrite P4. destruct (Nat.eqb_spec x z) as [->|Nz]; [reflexivity|]. rewrite E1, D4. destruct (Nat.eqb x y); [reflexivity|]. unfold par. rewrite A1. rewrite nth_error_snoc. destruct (Nat.eqb_spec x (length (ops c1))) as [->|]; [contradiction | reflexivity]. }
    assert (Lo2 : length (ops c2) = S z) by (rewrite (mv_len _ _ Mp), E1, (mv_len _ _ Md), A1, app_length; cbn; unfold z; lia).
    assert (Lb2 : length (blocks c2) = length (blocks c1)) by (rewrite P5, E2, D5, A3; reflexivity).
    assert (Z : exists dz, nth_error (ops c2) z = Some dz /\ o_kind dz = br_kind /\ o_operands dz = vs /\ o_succs dz = [t]).
    { assert (Kz : keeps ca dead1 c2 (dead1 ++ [y])) by (eapply keeps_trans; [exact Kd|]; eapply keeps_trans; [exact Ke | exact Kp]).
      assert (Ez : nth_error (ops ca) z = Some {| o_kind := br_kind; o_operands := vs; o_result_types := []; o_regions := []; o_succs := [t]; o_parent := None |}) by (rewrite A1; unfold z; rewrite nth_error_app2, Nat.sub_diag by lia; reflexivity).
      destruct (k_ops _ _ _ _ Kz z _ Ez) as (dz & Ez2 & (S1 & _ & _ & S4) & S5). exists dz. repeat split; assumption. }
    split; [|split; [exact K|]; split; [exact Im|]; split; [|split; [exact Z|]; split; [|split; [exact B|]; split; [exact Bp|]; split; [exact Rg|]; split; [exact Lo2|]; split; [exact Lb2|]]]].
    2:{ intros Ls x Dx. apply in_app_or in Dx. rewrite Pr. destruct (Nat.eqb_spec x y) as [->|Nx]; [right; destruct (Nat.eqb_spec y z); [contradiction | reflexivity]|]. destruct Dx as [Dx|[Dx|[]]]; [|exfalso; apply Nx; symmetry; exact Dx]. destruct (Ls x Dx) as [D0|D0]; [left; exact D0|]. destruct (Nat.eqb_spec x z) as [->|]; [|right; exact D0].
        left. destruct (lo_killed _ _ _ _ _ _ _ _ _ _ _ _ _ _ _ L z Dx) as [Dz|([->|Dz] & _)]; [exact Dz | pose proof (s_old _ _ _ _ _ L); lia | apply inside_old in Dz; lia]. }
    2:{ rewrite (mv_results _ _ Mp), E5, (mv_results _ _ Md), A6, fupd_same. reflexivity. }
    2:{ rewrite (mv_vals _ _ Mp), E4, (mv_vals _ _ Md), A2. cbn. rewrite app_nil_r. reflexivity. }
    destruct (ti_rank c dead T) as (rank & R). pose proof (s_stands _ _ _ _ _ _ _ _ _ _ _ _ _ _ _ I L) as Ss. pose proof (inside_elsewhere shape_of c dead rank s y P I R Ss Dy) as Nx.
    assert (Nb : b <> b0). { intros ->. apply Nx. apply (stands_par c dead y P I). exists b0. split; [exact Pc | apply L]. }
    assert (Img : forall x w, In (x, w) log -> w <> y). { intros x w Kx ->. apply (image_of _ _ _ (lo_once _ _ _ _ _ _ _ _ _ _ _ _ _ _ _ L)) in Kx. apply (lo_log _ _ _ _ _ _ _ _ _ _ _ _ _ _ _ L) in Kx. lia. }
    assert (Sy : shape_at shape_of c y = Some (shape_of (o_kind d))). { rewrite <- (shape_kept _ _ _ _ _ _ _ _ _ _ _ _ _ _ _ L y Ly). unfold shape_at. rewrite Ed. reflexivity. }
    eapply next; [exact L | exact K | | | | | | | | | | | | |].
    - intros b1 Hb. rewrite B. destruct (Nat.eqb_spec b1 b) as [->|Nb1].
      + rewrite (lo_bops _ _ _ _ _ _ _ _ _ _ _ _ _ _ _ L b Lb). unfold relist. destruct (existsb (Nat.eqb s) (bops (blocks c) b)) eqn:Es.
        * exfalso. apply existsb_exists in Es. destruct Es as (w & Hw & Es). apply Nat.eqb_eq in Es. subst w. apply (in_bops c dead s b I) in Hw. assert (K0 : In s (bops (blocks c) b0)) by (rewrite (lo_home _ _ _ _ _ _ _ _ _ _ _ _ _ _ _ L); apply in_elt). apply (in_bops c dead s b0 I) in K0. congruence.
        * rewrite moved_snoc by assumption. apply (in_bops c dead y b I) in Pc. destruct (existsb (Nat.eqb y) (bops (blocks c) b)) eqn:Ey; [reflexivity|]. exfalso. assert (F : existsb (Nat.eqb y) (bops (blocks c) b) = true) by (apply existsb_exists; exists y; split; [exact Pc | apply Nat.eqb_refl]). congruence.
      + rewrite (lo_bops _ _ _ _ _ _ _ _ _ _ _ _ _ _ _ L b1 Hb). unfold relist. destruct (existsb (Nat.eqb s) (bops (blocks c) b1)) eqn:Es; [reflexivity|]. rewrite moved_snoc by assumption.
        assert (F : ~ In y (bops (blocks c) b1)) by (intros Ky; apply (in_bops c dead y b1 I) in Ky; congruence). destruct (existsb (Nat.eqb y) (bops (blocks c) b1)) eqn:Ey; [exfalso; apply F; apply existsb_exists in Ey; destruct Ey as (w & Hw & Ew); apply Nat.eqb_eq in Ew; subst; exact Hw|]. rewrite app_nil_r. symmetry. apply without_absent.
        intros Ky. assert (Ky1 : In y (bops (blocks c1) b1)) by (rewrite (lo_bops _ _ _ _ _ _ _ _ _ _ _ _ _ _ _ L b1 Hb); unfold relist; rewrite Es; exact Ky). apply (in_bops c1 dead1 y b1 I1) in Ky1. congruence.
    - intros b1 Hb. rewrite Bp. apply L. exact Hb.
    - rewrite B. destruct (Nat.eqb_spec m b) as [->|]; [pose proof (lo_blen _ _ _ _ _ _ _ _ _ _ _ _ _ _ _ L); lia | apply L].
    - rewrite Bp. exact (lo_mergepar _ _ _ _ _ _ _ _ _ _ _ _ _ _ _ L).
    - intros b1 q Hb E. rewrite Bp in E. eapply (lo_newpar _ _ _ _ _ _ _ _ _ _ _ _ _ _ _ L); eassumption.
    - intros b1 x Hb Nm E. rewrite B in E. destruct (Nat.eqb_spec b1 b) as [->|]; [lia|]. eapply (lo_newblk _ _ _ _ _ _ _ _ _ _ _ _ _ _ _ L); eassumption.
    - apply L.
    - intros x w E. rewrite (image_snoc log y z x Im) in E. destruct (Nat.eqb_spec y x) as [<-|]; [|apply (lo_log _ _ _ _ _ _ _ _ _ _ _ _ _ _ _ L); exact E]. injection E as <-. split; [exact Lz|]. split; [exists (shape_of (o_kind d)); split; assumption | exact Dy].
    - rewrite map_app. cbn [map fst]. apply NoDup_snoc; [apply L | apply image_none; exact Im].
    - intros x w E. rewrite (image_snoc log y z x Im) in E. destruct (Nat.eqb_spec y x) as [<-|].
      + injection E as <-. destruct Z as (dz & Ez & Ek & _). unfold shape_at. rewrite Ez. cbn [option_map]. rewrite Ek, Kb. reflexivity.
      + pose proof (lo_br _ _ _ _ _ _ _ _ _ _ _ _ _ _ _ L x w E) as Sz. unfold shape_at in *. destruct (nth_error (ops c1) w) as [dw|] eqn:Ez; [|discriminate]. destruct (k_ops _ _ _ _ K w dw Ez) as (d2 & -> & (Ek & _) & _). cbn [option_map] in *. congruence.
    - intros q E. rewrite Rg. apply L. exact E.
    - apply L.
    - intros x Dx. apply in_app_or in Dx. destruct Dx as [Dx|[<-|[]]].
      + destruct (Nat.eq_dec x y) as [->|Nxy]; [contradiction|]. destruct (lo_killed _ _ _ _ _ _ _ _ _ _ _ _ _ _ _ L x Dx) as [D0|(Dk & Dr)]; [left; exact D0|]. right. split; [exact Dk|].
        assert (Lx : x < length (ops c)) by (destruct Dk as [->|Dk]; [eapply s_old; exact L | apply inside_old; exact Dk]).
        assert (Px : par (ops c2) x = par (ops c1) x) by (rewrite Pr; destruct (Nat.eqb_spec x z); [lia|]; destruct (Nat.eqb_spec x y); [contradiction | reflexivity]).
        assert (St : forall q, stands c2 x q <-> stands c1 x q). { intros q. rewrite (stands_par c2 _ x q I2), (stands_par c1 _ x q I1), Px. split; intros (b1 & Q1 & Q2); exists b1; (split; [exact Q1|]); [rewrite <- Bp | rewrite Bp]; exact Q2. }
        destruct Dr as [Dr|(q & o & S1 & S2 & S3)]; [left; intros q S; apply (Dr q); apply St; exact S|]. right. exists q, o. split; [apply St; exact S1|]. split; [apply rpar_in; rewrite Rg; apply rpar_in; exact S2 | apply in_or_app; left; exact S3].
      + right. split; [right; exact Dy|]. left. intros q. apply (par_none_stands c2 (dead1 ++ [y])); [exact I2|]. rewrite Pr. destruct (Nat.eqb_spec y z); [contradiction|]. rewrite Nat.eqb_refl. reflexivity.
  Qed.

  (** A new operation without regions, standing nowhere yet. *)
  Lemma created c1 dead1 c2 Q log tail k vs ts ss z : low c1 dead1 Q log tail -> create_op c1 k vs ts [] ss = Some (c2, z) -> (forall v, In v vs -> v < length (vals c1)) ->
    low c2 dead1 Q log tail /\ keeps c1 dead1 c2 dead1 /\ z = length (ops c1) /\ length (ops c2) = S (length (ops c1)) /\ blocks c2 = blocks c1 /\ regions c2 = regions c1 /\
    nth_error (ops c2) z = Some {| o_kind := k; o_operands := vs; o_result_types := ts; o_regions := []; o_succs := ss; o_parent := None |} /\ op_results c2 z = seq (length (vals c1)) (length ts) /\ length (vals c2) = length (vals c1) + length ts.
  Proof.
    intros L H V. pose proof (lo_inv _ _ _ _ _ _ _ _ _ _ _ _ _ _ _ L) as I1. pose proof (create_keeps _ _ _ _ _ _ _ _ H I1 V) as K. destruct (create_leaf _ _ _ _ _ _ _ H) as (-> & A1 & A2 & A3 & A4 & A5 & A6). pose proof (low_olen _ _ _ _ _ L) as Lo.
    split; [|split; [exact K|]; split; [reflexivity|]; split; [rewrite A1, app_length; cbn; lia|]; split; [exact A3|]; split; [exact A4|]; split; [rewrite A1, nth_error_app2, Nat.sub_diag by lia; reflexivity|]; split; [rewrite A6, fupd_same; reflexivity|]].
    2:{ rewrite A2, app_length, map_length, seq_length. reflexivity. }
    apply (unseen c1 dead1 c2 Q log tail L K).
    - intros x Lx. unfold par. rewrite A1, nth_error_app1 by lia. reflexivity.
    - intros b _. rewrite A3. reflexivity.
    - intros b _ _. rewrite A3. reflexivity.
    - intros b q Lb E1 E2. rewrite A3 in E2. congruence.
    - intros b x Lb Nb E. rewrite A3 in E. eapply (lo_newblk _ _ _ _ _ _ _ _ _ _ _ _ _ _ _ L); eassumption.
    - intros q. rewrite A4. reflexivity.
  Qed.
  (** Pushed where [s] was. *)
  Lemma pushed c1 dead1 c2 Q log tail z : low c1 dead1 Q log tail -> push_op c1 b0 z = Some c2 -> length (ops c) <= z ->
    low c2 dead1 Q log (tail ++ [z]) /\ keeps c1 dead1 c2 dead1 /\ moves c1 c2 /\ (forall x, bpar (blocks c2) x = bpar (blocks c1) x) /\ regions c2 = regions c1 /\ length (blocks c2) = length (blocks c1) /\
    (forall x, x <> b0 -> bops (blocks c2) x = bops (blocks c1) x).
  Proof.
    intros L H Lz. pose proof (lo_inv _ _ _ _ _ _ _ _ _ _ _ _ _ _ _ L) as I1. destruct (push_ok _ _ _ _ _ H I1) as (M & I2 & P1 & P2 & P3 & P4 & P5 & P6). pose proof (moves_keeps _ _ _ M I2) as K.
    assert (Lb0 : b0 < length (blocks c)) by (apply (bpar_old c b0 P); apply L). pose proof (lo_blen _ _ _ _ _ _ _ _ _ _ _ _ _ _ _ L) as Lm.
    split; [|split; [exact K|]; split; [exact M|]; split; [exact P2|]; split; [exact P3|]; split; [exact P5|]]. 2:{ intros x Nx. rewrite P1. destruct (Nat.eqb_spec x b0); [contradiction | reflexivity]. }
    assert (Nd := home_once _ _ _ _ _ _ _ _ _ _ _ _ _ _ _ I L).
    eapply next; [exact L | exact K | | | | | | | | | | | | |].
    - intros b Hb. rewrite P1. destruct (Nat.eqb_spec b b0) as [->|Nb].
      + rewrite (lo_bops _ _ _ _ _ _ _ _ _ _ _ _ _ _ _ L b0 Hb), (lo_home _ _ _ _ _ _ _ _ _ _ _ _ _ _ _ L). unfold relist. rewrite existsb_app. cbn [existsb]. rewrite Nat.eqb_refl. cbn [orb]. rewrite orb_true_r. rewrite before_split by apply Nd. rewrite app_assoc. reflexivity.
      + rewrite (lo_bops _ _ _ _ _ _ _ _ _ _ _ _ _ _ _ L b Hb). unfold relist. destruct (existsb (Nat.eqb s) (bops (blocks c) b)) eqn:Es; [|reflexivity].
        exfalso. apply existsb_exists in Es. destruct Es as (w & Hw & Es). apply Nat.eqb_eq in Es. subst w. apply (in_bops c dead s b I) in Hw. assert (K0 : In s (bops (blocks c) b0)) by (rewrite (lo_home _ _ _ _ _ _ _ _ _ _ _ _ _ _ _ L); apply in_elt). apply (in_bops c dead s b0 I) in K0. congruence.
    - intros b Hb. rewrite P2. apply L. exact Hb.
    - rewrite P1. destruct (Nat.eqb_spec m b0); [lia | apply L].
    - rewrite P2. exact (lo_mergepar _ _ _ _ _ _ _ _ _ _ _ _ _ _ _ L).
    - intros b q Hb E. rewrite P2 in E. eapply (lo_newpar _ _ _ _ _ _ _ _ _ _ _ _ _ _ _ L); eassumption.
    - intros b x Hb Nb E. rewrite P1 in E. destruct (Nat.eqb_spec b b0); [lia|]. eapply (lo_newblk _ _ _ _ _ _ _ _ _ _ _ _ _ _ _ L); eassumption.
    - intros x Kx. apply in_app_or in Kx. destruct Kx as [Kx|[<-|[]]]; [eapply (lo_tail _ _ _ _ _ _ _ _ _ _ _ _ _ _ _ L); exact Kx | exact Lz].
    - apply L.
    - apply L.
    - intros y w E. pose proof (lo_br _ _ _ _ _ _ _ _ _ _ _ _ _ _ _ L y w E) as Sz. unfold shape_at in *. destruct (nth_error (ops c1) w) as [d|] eqn:Ez; [|discriminate]. destruct (k_ops _ _ _ _ K w d Ez) as (d2 & -> & (Ek & _) & _). cbn [option_map] in *. congruence.
    - intros q E. rewrite P3. apply L. exact E.
    - apply L.
    - apply (killed_same c1 dead1 c2 dead1 Q log tail L I2).
      + intros x Kx. exact Kx.
      + intros x Lx. rewrite P4. destruct (Nat.eqb_spec x z); [lia | reflexivity].
      + intros b q E. rewrite P2. exact E.
      + intros b q x _ _ E. rewrite P2 in E. exact E.
      + intros q. rewrite P3. reflexivity.
  Qed.
  (** Pushed to a new block. *)
  Lemma pushed_new c1 dead1 c2 Q log tail z b : low c1 dead1 Q log tail -> push_op c1 b z = Some c2 -> length (ops c) <= z -> length (blocks c) <= b -> b <> m ->
    low c2 dead1 Q log tail /\ keeps c1 dead1 c2 dead1 /\ moves c1 c2 /\ (forall x, bpar (blocks c2) x = bpar (blocks c1) x) /\ regions c2 = regions c1 /\ length (blocks c2) = length (blocks c1) /\
    (forall x, bops (blocks c2) x = if Nat.eqb x b then bops (blocks c1) b ++ [z] else bops (blocks c1) x).
  Proof.
    intros L H Lz Lb Nm. pose proof (lo_inv _ _ _ _ _ _ _ _ _ _ _ _ _ _ _ L) as I1. destruct (push_ok _ _ _ _ _ H I1) as (M & I2 & P1 & P2 & P3 & P4 & P5 & P6). pose proof (moves_keeps _ _ _ M I2) as K.
    split; [|split; [exact K|]; split; [exact M|]; split; [exact P2|]; split; [exact P3|]; split; [exact P5 | exact P1]].
    apply (unseen c1 dead1 c2 Q log tail L K).
    - intros x Lx. rewrite P4. destruct (Nat.eqb_spec x z); [lia | reflexivity].
    - intros x Hx. rewrite P1. destruct (Nat.eqb_spec x b); [lia | reflexivity].
    - intros x _ _. apply P2.
    - intros x q Hx E E1. rewrite P2 in E1. congruence.
    - intros b1 x Hb Nb E. rewrite P1 in E. destruct (Nat.eqb_spec b1 b) as [->|]; [|eapply (lo_newblk _ _ _ _ _ _ _ _ _ _ _ _ _ _ _ L); eassumption]. apply in_app_or in E. destruct E as [E|[<-|[]]]; [|exact Lz]. eapply (lo_newblk _ _ _ _ _ _ _ _ _ _ _ _ _ _ _ L); eassumption.
    - intros q. rewrite P3. reflexivity.
  Qed.
  (** A new block, in no region yet. *)
  Lemma block_made c1 dead1 c2 Q log tail b : low c1 dead1 Q log tail -> create_block c1 [] = (c2, b) ->
    low c2 dead1 Q log tail /\ keeps c1 dead1 c2 dead1 /\ b = length (blocks c1) /\ ops c2 = ops c1 /\ regions c2 = regions c1 /\ length (blocks c2) = S (length (blocks c1)) /\ vals c2 = vals c1 /\ (forall x, block_args c2 x = block_args c1 x) /\ op_results c2 = op_results c1 /\
    (forall x, bops (blocks c2) x = bops (blocks c1) x) /\ (forall x, bpar (blocks c2) x = bpar (blocks c1) x) /\ bpar (blocks c2) b = None.
  Proof.
    intros L H. pose proof (lo_inv _ _ _ _ _ _ _ _ _ _ _ _ _ _ _ L) as I1. pose proof (new_block_moves c1 dead1 I1) as M. pose proof (new_block c1) as N. assert (I2 : inv c2 dead1) by (apply (exec_inv c1 dead1 (CreateBlock [])); [unfold exec; rewrite H; reflexivity | exact I1]).
    rewrite H in M, N. cbn [fst] in M. destruct N as (-> & N1 & N2 & N3 & N4 & N5 & N6 & N7). pose proof (moves_keeps _ _ _ M I2) as K.
    assert (B : forall x, bops (blocks c2) x = bops (blocks c1) x). { intros x. unfold bops. rewrite N6, nth_error_snoc. destruct (Nat.eqb_spec x (length (blocks c1))) as [->|]; [|reflexivity]. rewrite (proj2 (nth_error_None _ _)) by lia. reflexivity. }
    assert (Bp : forall x, bpar (blocks c2) x = bpar (blocks c1) x). { intros x. unfold bpar. rewrite N6, nth_error_snoc. destruct (Nat.eqb_spec x (length (blocks c1))) as [->|]; [|reflexivity]. rewrite (proj2 (nth_error_None _ _)) by lia. reflexivity. }
    split; [|split; [exact K|]; split; [reflexivity|]; split; [exact N1|]; split; [exact N2|]; split; [rewrite N6, app_length; cbn; lia|]; split; [exact N3|]; split; [apply (mv_bargs _ _ M)|]; split; [exact N5|]; split; [exact B|]; split; [exact Bp|]].
    2:{ rewrite Bp. unfold bpar. rewrite (proj2 (nth_error_None _ _)) by lia. reflexivity. }
    apply (unseen c1 dead1 c2 Q log tail L K).
    - intros x Lx. rewrite N1. reflexivity.
    - intros x Hx. apply B.
    - intros x _ _. apply Bp.
    - intros x q Hx E E1. rewrite Bp in E1. congruence.
    - intros b1 x Hb Nb E. rewrite B in E. eapply (lo_newblk _ _ _ _ _ _ _ _ _ _ _ _ _ _ _ L); eassumption.
    - intros q. rewrite N2. reflexivity.
  Qed.
  (** Put into [P] before [m]. *)
  Lemma block_placed c1 dead1 Q log tail b k rd : low c1 dead1 Q log tail -> nth_error (regions c1) P = Some rd -> position m (r_blocks rd) = Some k -> length (blocks c) <= b -> b < length (blocks c1) -> bpar (blocks c1) b = None ->
    let c2 := place_block c1 P k b in
    low c2 dead1 Q log tail /\ keeps c1 dead1 c2 dead1 /\ moves c1 c2 /\ ops c2 = ops c1 /\ (forall x, bops (blocks c2) x = bops (blocks c1) x) /\ (forall x, bpar (blocks c2) x = if Nat.eqb x b then Some P else bpar (blocks c1) x) /\ length (blocks c2) = length (blocks c1).
  Proof.
    intros L Er Ek Lb Lb1 Nb c2. pose proof (lo_inv _ _ _ _ _ _ _ _ _ _ _ _ _ _ _ L) as I1. assert (Lr : P < length (regions c1)) by (apply nth_error_Some; congruence). destruct (place_ok c1 dead1 P k b I1 Nb Lb1 Lr) as (I2 & O & B1 & B2 & B3 & L1 & L2). fold c2 in I2, O, B1, B2, B3, L1, L2.
    pose proof (place_moves c1 P k b) as M. fold c2 in M. pose proof (moves_keeps _ _ _ M I2) as K. split; [|split; [exact K|]; split; [exact M|]; split; [exact O|]; split; [exact B1|]; split; [exact B2 | exact L1]].
    assert (Nm : b <> m) by (intros ->; rewrite (lo_mergepar _ _ _ _ _ _ _ _ _ _ _ _ _ _ _ L) in Nb; discriminate).
    apply (unseen c1 dead1 c2 Q log tail L K).
    - intros x Lx. rewrite O. reflexivity.
    - intros x _. apply B1.
    - intros x Hx Hp. rewrite B2. destruct (Nat.eqb_spec x b) as [->|]; [|reflexivity]. destruct Hp; [contradiction | lia].
    - intros x q Hx E E1. rewrite B2 in E1. destruct (Nat.eqb_spec x b); congruence.
    - intros b1 x Hb Nb1 E. rewrite B1 in E. eapply (lo_newblk _ _ _ _ _ _ _ _ _ _ _ _ _ _ _ L); eassumption.
    - intros q. rewrite B3. destruct (Nat.eqb_spec q P) as [->|]; [|reflexivity]. destruct (position_split _ _ _ Ek) as (X & Y & EX & Lk & _). rewrite (rblks_nth c1 P rd Er). rewrite EX. subst k. rewrite firstn_app_len.
      pose proof (entry_old _ _ _ _ _ X m Y L) as NX. rewrite (rblks_nth c1 P rd Er) in NX. specialize (NX EX (lo_blen _ _ _ _ _ _ _ _ _ _ _ _ _ _ _ L)). destruct X; [contradiction | reflexivity].
  Qed.
End Steps.
