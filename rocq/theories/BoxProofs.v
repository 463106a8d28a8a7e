(** Lemmas for C65. *)
From Coq Require Import Lia.
From Verif Require Export BoxModel BoxSpec.
Open Scope string_scope.
Open Scope list_scope.
Open Scope Z_scope.
Import ListNotations.

(** ** Memory *)
Lemma store_other n : forall m a p x, x < a \/ a + Z.of_nat n <= x -> store n m a p x = m x.
Proof.
  induction n as [|n IH]; intros m a p x H; cbn [store]; [reflexivity|]. rewrite IH by lia.
  destruct (Z.eqb_spec x a); [lia|reflexivity].
Qed.
Lemma load_ext n : forall m m' a, (forall x, a <= x < a + Z.of_nat n -> m x = m' x) -> load n m a = load n m' a.
Proof. induction n as [|n IH]; intros m m' a H; cbn [load]; [reflexivity|]. rewrite (H a), (IH m m') by (intros; try apply H; lia). reflexivity. Qed.
Lemma load_store n : forall m a p, load n (store n m a p) a = p mod 256 ^ Z.of_nat n.
Proof.
  induction n as [|n IH]; intros m a p.
  - cbn. symmetry. apply Z.mod_1_r.
  - cbn [load store]. rewrite store_other by lia. rewrite Z.eqb_refl. rewrite IH.
    rewrite Nat2Z.inj_succ, Z.pow_succ_r by lia. rewrite (Z.rem_mul_r p 256) by (try lia; apply Z.pow_pos_nonneg; lia). reflexivity.
Qed.
Lemma store_byte n : forall m a p x, (forall y, 0 <= m y < 256) -> 0 <= store n m a p x < 256.
Proof.
  induction n as [|n IH]; intros m a p x H; cbn [store]; [apply H|]. apply IH. intros y. cbn. destruct (y =? a); [apply Z.mod_pos_bound; lia|apply H].
Qed.

Lemma box_value_load m raw i v m' ptr : box_value m raw i v = (m', ptr) ->
  ptr = raw + 8 /\ load 4 m' raw = 1 /\ load 4 m' (raw + 4) = i mod 2 ^ 32 /\
  match v with S32 p => load 4 m' ptr = p mod 2 ^ 32 | S64 p => load 8 m' ptr = p mod 2 ^ 64 end /\
  (forall x, x < raw \/ raw + match v with S32 _ => 12 | S64 _ => 16 end <= x -> m' x = m x).
Proof.
  unfold box_value. cbv zeta. unfold REFCOUNT_OFFSET, RTTI_IDX_OFFSET, RC_HEADER_SIZE. intros E. apply pair_equal_spec in E. destruct E as [<- <-].
  split; [lia|]. replace (raw + 8 + 0) with (raw + 8) by lia. replace (raw + 0) with raw by lia.
  set (m1 := store 4 m raw 1). set (m2 := store 4 m1 (raw + 4) i).
  assert (forall x, x < raw + 8 -> match v with S32 p => store 4 m2 (raw + 8) p | S64 p => store 8 m2 (raw + 8) p end x = m2 x) as L.
  { intros x H. destruct v; apply store_other; lia. }
  split; [|split; [|split]].
  - rewrite (load_ext 4 _ m1). { unfold m1. rewrite load_store. reflexivity. }
    intros x H. rewrite L by lia. apply store_other. lia.
  - rewrite (load_ext 4 _ m2). { unfold m2. rewrite load_store. reflexivity. } intros x H. apply L. lia.
  - destruct v; rewrite load_store; reflexivity.
  - intros x H. transitivity (m2 x). { destruct v; apply store_other; lia. }
    transitivity (m1 x); apply store_other; destruct v; lia.
Qed.
Lemma load4_word m a : load 4 m a = word_at m a.
Proof. unfold word_at. cbn [load]. replace (a + 1 + 1) with (a + 2) by lia. replace (a + 2 + 1) with (a + 3) by lia. ring. Qed.

Lemma native_box_right name v : scalar_of name v ->
  exists c d size run, materialize (core_type name) "tribute_rt.anyref" = Some c /\ materialize "tribute_rt.anyref" (core_type name) = Some d /\
    native_box c v = Some (size, run) /\ size = 8 + payload_size v /\
    forall m raw m' ptr, run m raw = (m', ptr) ->
      ptr = raw + 8 /\ native_unbox d m' ptr = Some v /\ word_at m' raw = 1 /\ word_at m' (raw + 4) = index_of name /\
      (forall x, x < raw \/ raw + size <= x -> m' x = m x).
Proof.
  intros H. inversion H as [z R|z R|b|p R]; subst; do 4 eexists; (split; [reflexivity|]); (split; [reflexivity|]); (split; [reflexivity|]); (split; [reflexivity|]);
    intros m raw m' ptr E; apply box_value_load in E; destruct E as (-> & E1 & E2 & E3 & E4); cbn [payload_size native_unbox] in *;
    rewrite <- !load4_word, E1, E2, E3; repeat split; auto; try (intros x Hx; apply E4; unfold alloc_size, RC_HEADER_SIZE in Hx; lia); f_equal; f_equal.
  - apply Z.mod_mod. lia.
  - unfold nat_range in R. apply Z.mod_small. lia.
  - destruct b; reflexivity.
  - apply Z.mod_small. lia.
Qed.

(** ** Wasm *)
Lemma mod_mod_pow z : (z mod 2 ^ 32) mod 2 ^ 31 = z mod 2 ^ 31.
Proof.
  change (2 ^ 32) with (2 ^ 31 * 2). rewrite (Z.rem_mul_r z) by lia. rewrite Z.mul_comm. rewrite Z.mod_add by lia. apply Z.mod_mod. lia.
Qed.
(** What becomes of a pattern of 32 bits. *)
Definition i31_pass (p : Z) : Z := i31_get_s (p mod 2 ^ 31).
Lemma i31_pass_int z : i31_pass (z mod 2 ^ 32) = ((z + 2 ^ 30) mod 2 ^ 31 - 2 ^ 30) mod 2 ^ 32.
Proof.
  unfold i31_pass, i31_get_s. rewrite mod_mod_pow.
  pose proof (Z.mod_pos_bound z (2 ^ 31) ltac:(lia)) as B. pose proof (Z.div_mod z (2 ^ 31) ltac:(lia)) as D.
  set (q := z / 2 ^ 31) in *. set (r := z mod 2 ^ 31) in *. clearbody q r.
  destruct (Z.ltb_spec r (2 ^ 30)) as [H|H].
  - replace ((z + 2 ^ 30) mod 2 ^ 31) with (r + 2 ^ 30). 2:{ apply Z.mod_unique with q; lia. }
    rewrite Z.mod_small; lia.
  - replace ((z + 2 ^ 30) mod 2 ^ 31) with (r + 2 ^ 30 - 2 ^ 31). 2:{ apply Z.mod_unique with (q + 1); lia. }
    apply Z.mod_unique with (-1); lia.
Qed.
Lemma wasm_int z : int_range z -> through_wasm "Int" (S32 (z mod 2 ^ 32)) = Some (S32 (((z + 2 ^ 30) mod 2 ^ 31 - 2 ^ 30) mod 2 ^ 32)).
Proof. intros _. rewrite <- i31_pass_int. reflexivity. Qed.
Lemma wasm_nat z : nat_range z -> through_wasm "Nat" (S32 z) = Some (S32 (((z + 2 ^ 30) mod 2 ^ 31 - 2 ^ 30) mod 2 ^ 32)).
Proof.
  intros H. transitivity (through_wasm "Int" (S32 (z mod 2 ^ 32))).
  - unfold nat_range in H. rewrite Z.mod_small by lia. reflexivity.
  - rewrite <- i31_pass_int. reflexivity.
Qed.
Lemma wasm_int_iff z : int_range z -> (through_wasm "Int" (S32 (z mod 2 ^ 32)) = Some (S32 (z mod 2 ^ 32)) <-> small_int z).
Proof.
  intros H. rewrite wasm_int by assumption. unfold small_int, int_range in *.
  set (y := (z + 2 ^ 30) mod 2 ^ 31). assert (0 <= y < 2 ^ 31) as B by (apply Z.mod_pos_bound; lia). split.
  - intros E. assert ((y - 2 ^ 30) mod 2 ^ 32 = z mod 2 ^ 32) as E' by congruence.
    assert (y - 2 ^ 30 = z). { 
      pose proof (Z.div_mod (y - 2 ^ 30) (2 ^ 32) ltac:(lia)). pose proof (Z.div_mod z (2 ^ 32) ltac:(lia)). 
      set (a := (y - 2 ^ 30) / 2 ^ 32) in *. set (b := z / 2 ^ 32) in *. lia. }
    lia.
  - intros S. unfold y. rewrite (Z.mod_small (z + 2 ^ 30)) by lia. replace (z + 2 ^ 30 - 2 ^ 30) with z by lia. reflexivity.
Qed.
Lemma wasm_nat_iff z : nat_range z -> (through_wasm "Nat" (S32 z) = Some (S32 z) <-> z < 2 ^ 30 \/ 2 ^ 32 - 2 ^ 30 <= z).
Proof.
  intros H. rewrite wasm_nat by assumption. unfold nat_range in *.
  pose proof (Z.div_mod (z + 2 ^ 30) (2 ^ 31) ltac:(lia)) as D. pose proof (Z.mod_pos_bound (z + 2 ^ 30) (2 ^ 31) ltac:(lia)) as B.
  set (y := (z + 2 ^ 30) mod 2 ^ 31) in *. set (q := (z + 2 ^ 30) / 2 ^ 31) in *. clearbody y q.
  pose proof (Z.div_mod (y - 2 ^ 30) (2 ^ 32) ltac:(lia)) as D2. pose proof (Z.mod_pos_bound (y - 2 ^ 30) (2 ^ 32) ltac:(lia)) as B2.
  set (x := (y - 2 ^ 30) mod 2 ^ 32) in *. set (k := (y - 2 ^ 30) / 2 ^ 32) in *. clearbody x k. split.
  - intros E. assert (x = z) by congruence. lia.
  - intros S. do 2 f_equal. lia.
Qed.
Lemma wasm_bool (b : bool) : through_wasm "Bool" (S32 (if b then 1 else 0)) = Some (S32 (if b then 1 else 0)).
Proof. destruct b; reflexivity. Qed.
Lemma wasm_float p : through_wasm "Float" (S64 p) = Some (S64 p).
Proof. reflexivity. Qed.
