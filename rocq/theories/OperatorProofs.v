(** Proofs for the operators on numbers. *)
From Coq Require Import Lia.
From Verif Require Import OperatorModel OperatorSpec.
Open Scope Z_scope.
Import ListNotations.

Local Opaque Z.pow Z.modulo Z.div Z.quot Z.rem.
Lemma pow32 : 2 ^ 32 = 2 * 2 ^ 31. Proof. reflexivity. Qed.
Lemma pow31 : 0 < 2 ^ 31. Proof. reflexivity. Qed.

Lemma signed_held a : int_range a -> as_signed 32 (a mod 2 ^ 32) = a.
Proof.
  unfold int_range, as_signed. change (32 - 1) with 31. pose proof pow31. pose proof pow32. intros H1.
  assert (0 <= a \/ a < 0) as [Ha|Ha] by lia.
  - rewrite Z.mod_small by lia. destruct (Z.ltb_spec a (2 ^ 31)); lia.
  - replace (a mod 2 ^ 32) with (a + 2 ^ 32). { destruct (Z.ltb_spec (a + 2 ^ 32) (2 ^ 31)); lia. }
    apply (Z.mod_unique _ _ (-1)); lia.
Qed.
Lemma held_wrap z : int_wrap z mod 2 ^ 32 = z mod 2 ^ 32.
Proof. unfold int_wrap. rewrite Zminus_mod, Zmod_mod, <- Zminus_mod. f_equal. lia. Qed.
Lemma held_same a b : int_range a -> int_range b -> (a mod 2 ^ 32 =? b mod 2 ^ 32) = (a =? b).
Proof.
  intros Ha Hb. destruct (Z.eqb_spec a b) as [->|Hn]; [apply Z.eqb_refl|]. apply Z.eqb_neq. intros E. apply Hn.
  rewrite <- (signed_held a Ha), <- (signed_held b Hb), E. reflexivity.
Qed.
Lemma held_zero b : int_range b -> (b mod 2 ^ 32 =? 0) = (b =? 0).
Proof. intros Hb. rewrite <- (held_same b 0 Hb). { reflexivity. } unfold int_range. pose proof pow31. lia. Qed.
Lemma int_wrap_range z : int_range (int_wrap z).
Proof. unfold int_range, int_wrap. pose proof (Z.mod_pos_bound (z + 2 ^ 31) (2 ^ 32)). pose proof pow31. pose proof pow32. lia. Qed.
Lemma int_wrap_same z : exists k, z = int_wrap z + k * 2 ^ 32.
Proof. unfold int_wrap. exists ((z + 2 ^ 31) / 2 ^ 32). pose proof (Z.div_mod (z + 2 ^ 31) (2 ^ 32)). pose proof pow32. pose proof pow31. lia. Qed.

Lemma is_int n f v : of_number f n v -> n = Int_ -> exists a, v = VInt a /\ int_range a.
Proof. intros H ->. destruct v; cbn in H; try contradiction. eauto. Qed.
Lemma is_nat n f v : of_number f n v -> n = Nat_ -> exists a, v = VNat a /\ nat_range a.
Proof. intros H ->. destruct v; cbn in H; try contradiction. eauto. Qed.
Lemma is_float n f v : of_number f n v -> n = Float_ -> exists a, v = VFloat a.
Proof. intros H ->. destruct v; cbn in H; try contradiction. eauto. Qed.

(** The arithmetic that remains once the tables have been followed. *)
Lemma int_op_right f f32 a b : int_range a -> int_range b ->
  (forall o io, In (o, io) [(Plus, IAdd); (Minus, ISub); (Times, IMul); (Over, SDiv); (Modulo, SRem)] ->
     match int_op_run io 32 (a mod 2 ^ 32) (b mod 2 ^ 32) with Value r => Value (RI 32 r) | Trapped => Trapped | Rejected => Rejected end
     = held_outcome f f32 (int_meaning f o a b))
  /\ (forall o c, In (o, c) [(Equal, IEq); (Unequal, INe); (Less, SLt); (AtMost, SLe); (Greater, SGt); (AtLeast, SGe)] ->
     Value (RI 32 (bit (int_cc_holds c 32 (a mod 2 ^ 32) (b mod 2 ^ 32)))) = held_outcome f f32 (int_meaning f o a b)).
Proof.
  intros Ha Hb. pose proof (signed_held a Ha) as Sa. pose proof (signed_held b Hb) as Sb. split; intros o io Ho; cbn [In] in Ho.
  - repeat (destruct Ho as [Ho|Ho]; [injection Ho as <- <-|]); try contradiction; cbn [int_op_run int_meaning held_outcome held]; unfold low_bits; rewrite ?Sa, ?Sb.
    + rewrite held_wrap, <- Zplus_mod. reflexivity.
    + rewrite held_wrap, <- Zminus_mod. reflexivity.
    + rewrite held_wrap, <- Zmult_mod. reflexivity.
    + rewrite (held_zero b Hb). destruct (b =? 0); [reflexivity|]. change (32 - 1) with 31. destruct (Z.quot a b =? 2 ^ 31); reflexivity.
    + rewrite (held_zero b Hb). destruct (b =? 0); reflexivity.
  - repeat (destruct Ho as [Ho|Ho]; [injection Ho as <- <-|]); try contradiction; cbn [int_cc_holds int_meaning held_outcome held]; unfold bit; rewrite ?Sa, ?Sb, ?(held_same a b Ha Hb);
      reflexivity.
Qed.
Lemma nat_op_right f f32 a b : nat_range a -> nat_range b ->
  (forall o io, In (o, io) [(Plus, IAdd); (Minus, ISub); (Times, IMul); (Over, UDiv); (Modulo, URem)] ->
     match int_op_run io 32 a b with Value r => Value (RI 32 r) | Trapped => Trapped | Rejected => Rejected end
     = held_outcome f f32 (nat_meaning f o a b))
  /\ (forall o c, In (o, c) [(Equal, IEq); (Unequal, INe); (Less, ULt); (AtMost, ULe); (Greater, UGt); (AtLeast, UGe)] ->
     Value (RI 32 (bit (int_cc_holds c 32 a b))) = held_outcome f f32 (nat_meaning f o a b)).
Proof.
  intros Ha Hb. split; intros o io Ho; cbn [In] in Ho.
  - repeat (destruct Ho as [Ho|Ho]; [injection Ho as <- <-|]); try contradiction; cbn [int_op_run nat_meaning held_outcome held]; try reflexivity; destruct (b =? 0); reflexivity.
  - repeat (destruct Ho as [Ho|Ho]; [injection Ho as <- <-|]); try contradiction; reflexivity.
Qed.
Lemma float_op_right f f32 x y :
  (forall o io, In (o, io) [(Plus, FAdd); (Minus, FSub); (Times, FMul); (Over, FDiv)] -> Value (RF64 (float_op_run io x y)) = held_outcome f f32 (float_meaning f o x y))
  /\ (forall o c, In (o, c) [(Equal, FEq); (Unequal, FNe); (Less, FLt); (AtMost, FLe); (Greater, FGt); (AtLeast, FGe)] ->
     Value (RI 32 (bit (float_cc_holds c x y))) = held_outcome f f32 (float_meaning f o x y)).
Proof.
  split; intros o io Ho; cbn [In] in Ho.
  - repeat (destruct Ho as [Ho|Ho]; [injection Ho as <- <-|]); try contradiction; reflexivity.
  - unfold float_meaning, float_cc_holds. repeat (destruct Ho as [Ho|Ho]; [injection Ho as <- <-|]); try contradiction; destruct (fcompare f x y) as [[]|]; reflexivity.
Qed.

Lemma native_right f32 f n o a b : declared n o -> of_number f n a -> of_number f n b ->
  call_native f32 f (qualified n o) (front_type (number_name n)) (front_type (number_name n)) (front_type (result_name n o)) [held f f32 a; held f f32 b]
  = Ran (held_outcome f f32 (meaning f o a b)).
Proof.
  intros D Ha Hb. destruct n.
  - destruct (is_int _ _ _ Ha eq_refl) as (x & -> & Hx). destruct (is_int _ _ _ Hb eq_refl) as (y & -> & Hy).
    destruct (int_op_right f f32 x y Hx Hy) as [H1 H2]. cbn [meaning]. destruct o;
    [specialize (H1 Plus IAdd)|specialize (H1 Minus ISub)|specialize (H1 Times IMul)|specialize (H1 Over SDiv)|specialize (H1 Modulo SRem)
    |specialize (H2 Equal IEq)|specialize (H2 Unequal INe)|specialize (H2 Less SLt)|specialize (H2 AtMost SLe)|specialize (H2 Greater SGt)|specialize (H2 AtLeast SGe)];
    first [rewrite <- H1 by (cbn [In]; tauto); reflexivity | rewrite <- H2 by (cbn [In]; tauto); reflexivity].
  - destruct (is_nat _ _ _ Ha eq_refl) as (x & -> & Hx). destruct (is_nat _ _ _ Hb eq_refl) as (y & -> & Hy).
    destruct (nat_op_right f f32 x y Hx Hy) as [H1 H2]. cbn [meaning]. destruct o;
    [specialize (H1 Plus IAdd)|specialize (H1 Minus ISub)|specialize (H1 Times IMul)|specialize (H1 Over UDiv)|specialize (H1 Modulo URem)
    |specialize (H2 Equal IEq)|specialize (H2 Unequal INe)|specialize (H2 Less ULt)|specialize (H2 AtMost ULe)|specialize (H2 Greater UGt)|specialize (H2 AtLeast UGe)];
    first [rewrite <- H1 by (cbn [In]; tauto); reflexivity | rewrite <- H2 by (cbn [In]; tauto); reflexivity].
  - destruct (is_float _ _ _ Ha eq_refl) as (x & ->). destruct (is_float _ _ _ Hb eq_refl) as (y & ->).
    destruct (float_op_right f f32 x y) as [H1 H2]. cbn [meaning]. destruct o;
    [specialize (H1 Plus FAdd)|specialize (H1 Minus FSub)|specialize (H1 Times FMul)|specialize (H1 Over FDiv)|exfalso; apply D; auto
    |specialize (H2 Equal FEq)|specialize (H2 Unequal FNe)|specialize (H2 Less FLt)|specialize (H2 AtMost FLe)|specialize (H2 Greater FGt)|specialize (H2 AtLeast FGe)];
    first [rewrite <- H1 by (cbn [In]; tauto); reflexivity | rewrite <- H2 by (cbn [In]; tauto); reflexivity].
Qed.
Lemma wasm_right f32 f n o a b : declared n o -> ~ (n = Nat_ /\ (o = AtMost \/ o = Greater \/ o = AtLeast)) -> of_number f n a -> of_number f n b ->
  call_wasm f32 f (qualified n o) (front_type (number_name n)) (front_type (number_name n)) (front_type (result_name n o)) [held f f32 a; held f f32 b]
  = Ran (held_outcome f f32 (meaning f o a b)).
Proof.
  intros D W Ha Hb. destruct n.
  - destruct (is_int _ _ _ Ha eq_refl) as (x & -> & Hx). destruct (is_int _ _ _ Hb eq_refl) as (y & -> & Hy).
    destruct (int_op_right f f32 x y Hx Hy) as [H1 H2]. cbn [meaning]. destruct o;
    [specialize (H1 Plus IAdd)|specialize (H1 Minus ISub)|specialize (H1 Times IMul)|specialize (H1 Over SDiv)|specialize (H1 Modulo SRem)
    |specialize (H2 Equal IEq)|specialize (H2 Unequal INe)|specialize (H2 Less SLt)|specialize (H2 AtMost SLe)|specialize (H2 Greater SGt)|specialize (H2 AtLeast SGe)];
    first [exfalso; apply W; split; [reflexivity|]; clear; tauto | rewrite <- H1 by (cbn [In]; tauto); reflexivity | rewrite <- H2 by (cbn [In]; tauto); reflexivity].
  - destruct (is_nat _ _ _ Ha eq_refl) as (x & -> & Hx). destruct (is_nat _ _ _ Hb eq_refl) as (y & -> & Hy).
    destruct (nat_op_right f f32 x y Hx Hy) as [H1 H2]. cbn [meaning]. destruct o;
    [specialize (H1 Plus IAdd)|specialize (H1 Minus ISub)|specialize (H1 Times IMul)|specialize (H1 Over UDiv)|specialize (H1 Modulo URem)
    |specialize (H2 Equal IEq)|specialize (H2 Unequal INe)|specialize (H2 Less ULt)|specialize (H2 AtMost ULe)|specialize (H2 Greater UGt)|specialize (H2 AtLeast UGe)];
    first [exfalso; apply W; split; [reflexivity|]; clear; tauto | rewrite <- H1 by (cbn [In]; tauto); reflexivity | rewrite <- H2 by (cbn [In]; tauto); reflexivity].
  - destruct (is_float _ _ _ Ha eq_refl) as (x & ->). destruct (is_float _ _ _ Hb eq_refl) as (y & ->).
    destruct (float_op_right f f32 x y) as [H1 H2]. cbn [meaning]. destruct o;
    [specialize (H1 Plus FAdd)|specialize (H1 Minus FSub)|specialize (H1 Times FMul)|specialize (H1 Over FDiv)|exfalso; apply D; auto
    |specialize (H2 Equal FEq)|specialize (H2 Unequal FNe)|specialize (H2 Less FLt)|specialize (H2 AtMost FLe)|specialize (H2 Greater FGt)|specialize (H2 AtLeast FGe)];
    first [exfalso; apply W; split; [reflexivity|]; clear; tauto | rewrite <- H1 by (cbn [In]; tauto); reflexivity | rewrite <- H2 by (cbn [In]; tauto); reflexivity].
Qed.

Lemma wasm_nat_order f32 f o l r args : o = AtMost \/ o = Greater \/ o = AtLeast -> call_wasm f32 f (qualified Nat_ o) l r "i1" args = NotCompiled.
Proof. intros [->|[->| ->]]; unfold call_wasm, run_wasm; cbn; unfold arith_to_wasm; cbn; reflexivity. Qed.

Ltac try_operator n o := exists n, o; split; [intros []; discriminate|reflexivity].
Ltac try_number n := first [try_operator n Plus | try_operator n Minus | try_operator n Times | try_operator n Over | try_operator n Modulo | try_operator n Equal
  | try_operator n Unequal | try_operator n Less | try_operator n AtMost | try_operator n Greater | try_operator n AtLeast].
Lemma names_known callee l r res : lower_call callee l r res <> None <-> exists n o, declared n o /\ callee = qualified n o.
Proof.
  split.
  - unfold lower_call, find_name. destruct (find _ arith_intrinsics) as [[k m]|] eqn:E; [|intros H; contradiction H; reflexivity]. intros _.
    apply find_some in E. destruct E as [Hin Heq]. cbn [fst] in Heq. apply String.eqb_eq in Heq. subst k.
    cbn [In arith_intrinsics] in Hin.
    repeat (destruct Hin as [Hin|Hin]; [injection Hin as <- _|]); try contradiction.
    all: first [try_number Int_ | try_number Nat_ | try_number Float_].
  - intros (n & o & D & ->). destruct n, o; try (vm_compute; discriminate). exfalso. apply D. auto.
Qed.

(** ** The operations of the arith dialect *)
Lemma no_overflow a b m : 0 < m -> - m <= a < m -> - m <= b -> b <> 0 -> ~ (a = - m /\ b = -1) -> Z.quot a b <> m.
Proof.
  intros Hm Ha Hb0 Hb Hn E. pose proof (Z.quot_rem' a b) as Q. rewrite E in Q.
  assert (0 <= a \/ a < 0) as [Hs|Hs] by lia.
  - pose proof (Z.rem_nonneg a b Hb Hs). pose proof (Z.rem_bound_abs a b Hb). nia.
  - pose proof (Z.rem_nonpos a b Hb ltac:(lia)). pose proof (Z.rem_bound_abs a b Hb).
    assert (b = -1 \/ b < -1 \/ 0 < b) as [->|[Hb1|Hb1]] by lia.
    + assert (Z.rem a (-1) = 0) by lia. apply Hn. split; lia.
    + nia.
    + nia.
Qed.
Lemma as_signed_range w p : 0 < w -> 0 <= p < 2 ^ w -> - 2 ^ (w - 1) <= as_signed w p < 2 ^ (w - 1) /\ 2 ^ w = 2 * 2 ^ (w - 1) /\ 0 < 2 ^ (w - 1).
Proof.
  intros Hw Hp. assert (2 ^ w = 2 * 2 ^ (w - 1)). { rewrite <- Z.pow_succ_r by lia. f_equal. lia. }
  assert (0 < 2 ^ (w - 1)) by (apply Z.pow_pos_nonneg; lia). split; [|auto]. unfold as_signed. destruct (Z.ltb_spec p (2 ^ (w - 1))); lia.
Qed.
Definition machine_op (o : ArithModel.binop) : int_op :=
  match o with
  | ArithModel.Addi => IAdd | ArithModel.Subi => ISub | ArithModel.Muli => IMul | ArithModel.Divsi => SDiv | ArithModel.Divui => UDiv
  | ArithModel.Remsi => SRem | ArithModel.Remui => URem | ArithModel.And => IAnd | ArithModel.Or => IOr | ArithModel.Xor => IXor
  end.
Lemma machine_op_right o w p q r : 0 < w -> 0 <= p < 2 ^ w -> 0 <= q < 2 ^ w -> ArithSpec.exec o w p q = Some r -> int_op_run (machine_op o) w p q = Value r.
Proof.
  intros Hw Hp Hq. pose proof (as_signed_range w p Hw Hp) as (Sp & Hd & H0). pose proof (as_signed_range w q Hw Hq) as (Sq & _).
  destruct o; cbn [ArithSpec.exec machine_op int_op_run]; unfold ArithSpec.pattern, ArithSpec.sdiv_traps; intros E; try (injection E as <-; reflexivity).
  - change (ArithSpec.signed w p) with (as_signed w p) in E. change (ArithSpec.signed w q) with (as_signed w q) in E.
    destruct (Z.eqb_spec q 0) as [->|Hn]; [discriminate|]. cbn [orb] in E.
    destruct (Z.eqb_spec (Z.quot (as_signed w p) (as_signed w q)) (2 ^ (w - 1))) as [Eq|Nq].
    + exfalso. revert Eq. apply no_overflow; try lia.
      * unfold as_signed. destruct (Z.ltb_spec q (2 ^ (w - 1))); lia.
      * intros [E1 E2]. rewrite E1, E2, !Z.eqb_refl in E. discriminate.
    + destruct (_ && _); [discriminate|]. injection E as <-. reflexivity.
  - destruct (q =? 0); [discriminate|]. injection E as <-. reflexivity.
  - change (ArithSpec.signed w p) with (as_signed w p) in E. change (ArithSpec.signed w q) with (as_signed w q) in E.
    destruct (q =? 0); [discriminate|]. cbn [orb] in E. destruct (_ && _); [discriminate|]. injection E as <-. reflexivity.
  - destruct (q =? 0); [discriminate|]. injection E as <-. reflexivity.
Qed.
Lemma native_arith f32 f o ty w p q r : In (ty, w) [("i8", 8); ("i16", 16); ("i32", 32); ("i64", 64)]%string -> 0 <= p < 2 ^ w -> 0 <= q < 2 ^ w ->
  ArithSpec.exec o w p q = Some r -> run_native f32 f (binary_arith o ty) [RI w p; RI w q] = Ran (Value (RI w r)).
Proof.
  intros Hty Hp Hq E. assert (0 < w) as Hw. { cbn in Hty. repeat (destruct Hty as [Hty|Hty]; [injection Hty as <- <-; lia|]). contradiction. }
  pose proof (machine_op_right o w p q r Hw Hp Hq E) as M.
  transitivity (@Ran (raw f32 f) (match int_op_run (machine_op o) w p q with Value r => Value (RI w r) | Trapped => Trapped | Rejected => Rejected end)); [|rewrite M; reflexivity].
  clear - Hty. cbn in Hty. repeat (destruct Hty as [Hty|Hty]; [injection Hty as <- <-; destruct o; reflexivity|]). contradiction.
Qed.
Lemma wasm_arith f32 f o ty w p q r : In (ty, w) [("i32", 32); ("i64", 64)]%string -> 0 <= p < 2 ^ w -> 0 <= q < 2 ^ w ->
  ArithSpec.exec o w p q = Some r -> run_wasm f32 f (binary_arith o ty) [RI w p; RI w q] = Ran (Value (RI w r)).
Proof.
  intros Hty Hp Hq E. assert (0 < w) as Hw. { cbn in Hty. repeat (destruct Hty as [Hty|Hty]; [injection Hty as <- <-; lia|]). contradiction. }
  pose proof (machine_op_right o w p q r Hw Hp Hq E) as M.
  transitivity (@Ran (raw f32 f) (match int_op_run (machine_op o) w p q with Value r => Value (RI w r) | Trapped => Trapped | Rejected => Rejected end)); [|rewrite M; reflexivity].
  clear - Hty. cbn in Hty. repeat (destruct Hty as [Hty|Hty]; [injection Hty as <- <-; destruct o; reflexivity|]). contradiction.
Qed.
Lemma conversions_same f32 f name src dst w p r : In name ["cast"; "trunc"; "extend"]%string -> In (src, w) [("i32", 32); ("i64", 64)]%string -> In dst ["i32"; "i64"]%string ->
  run_wasm f32 f (conversion_arith name src dst) [RI w p] = Ran (Value r) -> run_native f32 f (conversion_arith name src dst) [RI w p] = Ran (Value r).
Proof.
  cbn [In]. intros Hn Hs Hd. repeat (destruct Hn as [<-|Hn]); try contradiction; repeat (destruct Hs as [Hs|Hs]; [injection Hs as <- <-|]); try contradiction;
    repeat (destruct Hd as [<-|Hd]); try contradiction; intros E; first [discriminate E | exact E].
Qed.

Ltac each H := cbn [In] in H; repeat (destruct H as [H|H]; [injection H as <- <-|]); try contradiction.
Lemma native_shift f32 f s ty w p k : In (ty, w) [("i8", 8); ("i16", 16); ("i32", 32); ("i64", 64)]%string -> 0 <= k < w ->
  run_native f32 f (named_arith (shift_name s) ty) [RI w p; RI w k] = Ran (Value (RI w (shifted s w p k))).
Proof.
  intros Hty Hk. transitivity (@Ran (raw f32 f) (match int_op_run (match s with ShiftLeft => IShl | ShiftRight => SShr | ShiftRightUnsigned => UShr end) w p k with Value r => Value (RI w r) | Trapped => Trapped | Rejected => Rejected end)).
  - each Hty; destruct s; reflexivity.
  - destruct s; cbn [int_op_run shifted]; rewrite (Z.mod_small k) by lia; unfold low_bits, as_signed; rewrite ?Z.shiftl_mul_pow2, ?Z.shiftr_div_pow2 by lia; reflexivity.
Qed.
Lemma wasm_shift f32 f s ty w p k : In (ty, w) [("i32", 32); ("i64", 64)]%string -> 0 <= k < w ->
  run_wasm f32 f (named_arith (shift_name s) ty) [RI w p; RI w k] = Ran (Value (RI w (shifted s w p k))).
Proof.
  intros Hty Hk. transitivity (@Ran (raw f32 f) (match int_op_run (match s with ShiftLeft => IShl | ShiftRight => SShr | ShiftRightUnsigned => UShr end) w p k with Value r => Value (RI w r) | Trapped => Trapped | Rejected => Rejected end)).
  - each Hty; destruct s; reflexivity.
  - destruct s; cbn [int_op_run shifted]; rewrite (Z.mod_small k) by lia; unfold low_bits, as_signed; rewrite ?Z.shiftl_mul_pow2, ?Z.shiftr_div_pow2 by lia; reflexivity.
Qed.
Lemma negation f32 f ty w p : In (ty, w) [("i32", 32); ("i64", 64)]%string ->
  run_native f32 f (unary_arith "negi" ty) [RI w p] = Ran (Value (RI w ((- p) mod 2 ^ w))) /\
  run_wasm f32 f (unary_arith "negi" ty) [RI w p] = Ran (Value (RI w ((- p) mod 2 ^ w))).
Proof. intros Hty. each Hty; split; reflexivity. Qed.
Lemma float_negation f32 f x :
  run_native f32 f (unary_arith "negf" "f64") [RF64 x] = Ran (Value (RF64 (fopposite f x))) /\ run_wasm f32 f (unary_arith "negf" "f64") [RF64 x] = Ran (Value (RF64 (fopposite f x))).
Proof. split; reflexivity. Qed.

(** Comparisons of any width. *)
Lemma native_compare f32 f c ty w p q : In (ty, w) [("i8", 8); ("i16", 16); ("i32", 32); ("i64", 64)]%string ->
  run_native f32 f (comparison_arith "cmpi" (cc_name c) ty) [RI w p; RI w q] = Ran (Value (RI 32 (if int_cc_holds c w p q then 1 else 0))).
Proof.
  intros Hty. transitivity (then_ f32 f (Ran (Value (RI 8 (bit (int_cc_holds c w p q))))) (fun r => clif_run1 f32 f "uextend" "" "i32" [r])).
  - each Hty; destruct c; reflexivity.
  - destruct (int_cc_holds c w p q); reflexivity.
Qed.
Lemma wasm_compare f32 f c ty w p q : In (ty, w) [("i32", 32); ("i64", 64)]%string -> ~ In c [ULe; UGt; UGe] -> ~ (c = ULt /\ w = 64) ->
  run_wasm f32 f (comparison_arith "cmpi" (cc_name c) ty) [RI w p; RI w q] = Ran (Value (RI 32 (if int_cc_holds c w p q then 1 else 0))).
Proof.
  intros Hty Hc Hw. transitivity (@Ran (raw f32 f) (Value (RI 32 (bit (int_cc_holds c w p q))))).
  - each Hty; destruct c; try reflexivity; exfalso; cbn [In] in Hc; tauto.
  - destruct (int_cc_holds c w p q); reflexivity.
Qed.
