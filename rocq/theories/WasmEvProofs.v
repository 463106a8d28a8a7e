From Verif Require Export WasmEvSpec.
From Coq Require Import Lia ZArith.
Open Scope Z_scope.

Lemma wrap_small z : -2147483648 <= z < 2147483648 -> wrap z = z.
Proof. intros H. unfold wrap. rewrite Z.mod_small; lia. Qed.
Lemma unsigned_small z : 0 <= z < 4294967296 -> unsigned z = z.
Proof. intros H. unfold unsigned. now rewrite Z.mod_small. Qed.
Lemma unsigned_wrap z : 0 <= z < 4294967296 -> unsigned (wrap z) = z.
Proof.
  intros H. unfold wrap, unsigned. rewrite Zminus_mod_idemp_l. replace (z + 2147483648 - 2147483648) with z by lia. now rewrite Z.mod_small.
Qed.
Lemma half low high : 0 <= low -> 0 <= high -> low < 2147483648 -> high < 2147483648 ->
  bin DivU (wrap (low + high)) 2 = Some ((low + high) / 2).
Proof.
  intros. unfold bin. rewrite unsigned_wrap by lia. change (unsigned 2) with 2. simpl.
  rewrite wrap_small; auto. split; [|apply Z.div_lt_upper_bound; lia]. transitivity 0; [lia|]. apply Z.div_pos; lia.
Qed.
Lemma stored_get h p ev i m : stored h p ev -> nth_error ev i = Some m -> nth_error (List.map Mk ev) i = Some (Mk m).
Proof. intros _ H. now apply map_nth_error. Qed.


Lemma truth_zero b : (truth b =? 0) = negb b. Proof. destruct b; reflexivity. Qed.

(** ** One operation at a time. *)
Lemma step_next f o l s s' : f o s = Next s' -> run_list f (o :: l) s = run_list f l s'.
Proof. intros H. simpl. now rewrite H. Qed.
Lemma locals_set s i v j : locals (set_local s i v) j = if Nat.eqb j i then v else locals s j. Proof. reflexivity. Qed.
Lemma heap_set s i v : heap (set_local s i v) = heap s. Proof. reflexivity. Qed.
Section Ops.
  Variable home : nat -> nat.
  Variable rounds : nat.
  Notation run := (run home rounds).
  Notation get := (get home).
  Lemma run_const r z s : run (Const r z) s = Next (set_local s (home r) (Num z)). Proof. reflexivity. Qed.
  Lemma run_bin r b x y s a c z : get s x = Num a -> get s y = Num c -> bin b a c = Some z ->
    run (Bin r b x y) s = Next (set_local s (home r) (Num z)).
  Proof. intros H1 H2 H3. simpl. now rewrite H1, H2, H3. Qed.
  Lemma run_local_get r i s v : locals s i = v -> run (LocalGet r i) s = Next (set_local s (home r) v). Proof. now intros <-. Qed.
  Lemma run_local_set x i s v : get s x = v -> run (LocalSet x i) s = Next (set_local s i v). Proof. now intros <-. Qed.
  Lemma run_len r a s p l : get s a = Arr p -> nth_error (heap s) p = Some l ->
    run (ArrayLen r a) s = Next (set_local s (home r) (Num (Z.of_nat (List.length l)))).
  Proof. intros H1 H2. simpl. now rewrite H1, H2. Qed.
  Lemma run_get r a i s p z l v : get s a = Arr p -> get s i = Num z -> nth_error (heap s) p = Some l ->
    nth_error l (Z.to_nat (unsigned z)) = Some v -> run (ArrayGet r a i) s = Next (set_local s (home r) v).
  Proof. intros H1 H2 H3 H4. simpl. now rewrite H1, H2, H3, H4. Qed.
  Lemma run_field r x s m : get s x = Mk m -> run (Field r x 0) s = Next (set_local s (home r) (Num (ability_id m))).
  Proof. intros H1. simpl. now rewrite H1. Qed.
  Lemma run_if r c th el s z : get s c = Num z -> run (If r c th el) s = leave (run_list run (if z =? 0 then el else th) s).
  Proof. intros H1. simpl. now rewrite H1. Qed.
  Lemma run_loop r body s : run (Loop r body) s = iterate (run_list run body) rounds s. Proof. reflexivity. Qed.
  Lemma run_block r body s : run (Block r body) s = leave (run_list run body s). Proof. reflexivity. Qed.
End Ops.
Lemma iterate_step f k s : iterate f (S k) s = match f s with Jump 0 s' => iterate f k s' | Jump (S d) s' => Jump d s' | r => r end.
Proof. reflexivity. Qed.

(** Where the values live. *)
Definition lhome (v : nat) : nat := position v (values [0; 1]%nat lookup_body).
Definition ehome (v : nat) : nat := position v (values [0; 1]%nat extend_body).
Ltac home := cbv [lhome ehome position values lookup_body lookup_loop extend_body search_loop flat_map defined app Nat.eqb LOW HIGH].
Ltac look := unfold get; home; rewrite ?locals_set; cbv [Nat.eqb]; cbn [locals].
Ltac now_get := look; first [reflexivity | eassumption].

Lemma lookup_exact rounds h p ev id : stored h p ev -> (0 < rounds)%nat -> Z.of_nat (List.length ev) < 2147483648 ->
  wasm_lookup rounds h p id =
    match nth_error ev (Nat.div (List.length ev) 2) with
    | Some m => if ability_id m =? id then Returned (Mk m) h else Trapped
    | None => Trapped
    end.
Proof.
  intros Hs Hr Hl. destruct rounds as [|k]; [lia|]. unfold wasm_lookup, call. fold lhome. unfold lookup_body at 1.
  set (s0 := mkState _ h).
  rewrite (step_next _ _ _ _ _ (run_const _ _ _ _ _)).
  erewrite step_next by (eapply run_local_set; now_get).
  erewrite step_next by (eapply run_len; [now_get | exact Hs]).
  erewrite step_next by (eapply run_local_set; now_get).
  rewrite map_length. set (len := Z.of_nat (List.length ev)) in *.
  set (s1 := set_local _ HIGH _).
  cbn [run_list]. rewrite run_loop, iterate_step. unfold lookup_loop.
  erewrite step_next by (eapply run_local_get; now_get).
  erewrite step_next by (eapply run_local_get; now_get).
  erewrite step_next by (eapply run_bin; [now_get | now_get | reflexivity]).
  assert (Hn : 0 <= len) by (unfold len; lia).
  destruct (nth_error ev (Nat.div (List.length ev) 2)) as [m|] eqn:Em.
  - assert (Hpos : (0 < List.length ev)%nat).
    { destruct ev; [|simpl; lia]. destruct (Nat.div (List.length []) 2); discriminate Em. }
    assert (Hlen : 0 < len) by (unfold len; lia).
    erewrite step_next; cycle 1.
    { erewrite run_if by now_get. rewrite truth_zero. replace (len <=? 0) with false by (symmetry; apply Z.leb_gt; lia). reflexivity. }
    erewrite step_next by (eapply run_bin; [now_get | now_get | reflexivity]).
    erewrite step_next by (apply run_const).
    erewrite step_next by (eapply run_bin; [now_get | now_get | apply half; lia]).
    assert (Hmid : Z.to_nat (unsigned ((0 + len) / 2)) = Nat.div (List.length ev) 2).
    { rewrite unsigned_small; [|split; [apply Z.div_pos; lia | apply Z.div_lt_upper_bound; lia]].
      unfold len. rewrite Z.add_0_l. change 2 with (Z.of_nat 2). rewrite <- Nat2Z.inj_div. apply Nat2Z.id. }
    erewrite step_next by (eapply run_get; [now_get | now_get | exact Hs | rewrite Hmid; apply map_nth_error; exact Em]).
    erewrite step_next by (eapply run_field; now_get).
    erewrite step_next by (eapply run_bin; [now_get | now_get | reflexivity]).
    cbn [run_list]. erewrite run_if by now_get. rewrite truth_zero. destruct (ability_id m =? id); cbn [negb].
    + cbn [run_list run leave]. look. reflexivity.
    + erewrite step_next by (eapply run_bin; [now_get | now_get | reflexivity]).
      cbn [run_list]. erewrite run_if by now_get. rewrite truth_zero. destruct (ability_id m <? id); cbn [negb].
      * erewrite step_next by (apply run_const).
        erewrite step_next by (eapply run_bin; [now_get | now_get | reflexivity]).
        erewrite step_next by (eapply run_local_set; now_get). reflexivity.
      * erewrite step_next by (eapply run_local_set; now_get). reflexivity.
  - assert (Hz : len = 0).
    { apply nth_error_None in Em. unfold len. destruct (List.length ev) as [|n]; auto.
      exfalso. assert (Nat.div (S n) 2 < S n)%nat by (apply Nat.div_lt; lia). lia. }
    cbn [run_list]. erewrite run_if by now_get. rewrite truth_zero, Hz. reflexivity.
Qed.

Section MoreOps.
  Variable home : nat -> nat.
  Variable rounds : nat.
  Notation run := (run home rounds).
  Notation get := (get home).
  Definition with_heap (s : state) (h : list (list value)) : state := mkState (locals s) h.
  Lemma run_new r n s z : get s n = Num z ->
    run (ArrayNew r n) s = Next (set_local (with_heap s (heap s ++ [repeat Null (Z.to_nat (unsigned z))])) (home r) (Arr (List.length (heap s)))).
  Proof. intros H. simpl. rewrite H. reflexivity. Qed.
  Lemma run_set a i x s p z l l' v : get s a = Arr p -> get s i = Num z -> nth_error (heap s) p = Some l -> get s x = v ->
    copied l (Z.to_nat (unsigned z)) [v] = Some l' -> run (ArraySet a i x) s = Next (with_heap s (set_array (heap s) p l')).
  Proof. intros H1 H2 H3 H4 H5. simpl. now rewrite H1, H2, H3, H4, H5. Qed.
  Lemma run_copy dst di src si n s p i q j k l l0 part l' :
    get s dst = Arr p -> get s di = Num i -> get s src = Arr q -> get s si = Num j -> get s n = Num k ->
    nth_error (heap s) p = Some l -> nth_error (heap s) q = Some l0 ->
    slice l0 (Z.to_nat (unsigned j)) (Z.to_nat (unsigned k)) = Some part ->
    copied l (Z.to_nat (unsigned i)) part = Some l' ->
    run (ArrayCopy dst di src si n) s = Next (with_heap s (set_array (heap s) p l')).
  Proof. intros H1 H2 H3 H4 H5 H6 H7 H8 H9. simpl. now rewrite H1, H2, H3, H4, H5, H6, H7, H8, H9. Qed.
  Lemma run_br_if c d s z : get s c = Num z -> run (BrIf c d) s = if z =? 0 then Next s else Jump d s.
  Proof. intros H. simpl. now rewrite H. Qed.
End MoreOps.
Lemma locals_with_heap s h : locals (with_heap s h) = locals s. Proof. reflexivity. Qed.

(** The state of the search. *)
Record searching (s : state) (p : nat) (m : marker) (h : list (list value)) (low high : nat) : Prop := {
  s_ev : locals s 0%nat = Arr p;
  s_marker : locals s 1%nat = Mk m;
  s_low : locals s LOW = Num (Z.of_nat low);
  s_high : locals s HIGH = Num (Z.of_nat high);
  s_heap : heap s = h }.
Lemma mid_bounds low high : (low < high)%nat -> (low <= Nat.div (low + high) 2 < high)%nat.
Proof.
  intros H. split; [apply Nat.div_le_lower_bound; lia | apply Nat.div_lt_upper_bound; lia].
Qed.
Lemma mid_nat low high : Z.of_nat low < 2147483648 -> Z.of_nat high < 2147483648 ->
  (Z.of_nat low + Z.of_nat high) / 2 = Z.of_nat (Nat.div (low + high) 2).
Proof. intros. rewrite Nat2Z.inj_div, Nat2Z.inj_add. reflexivity. Qed.
Lemma search_exact rounds p m h ev : stored h p ev -> Z.of_nat (List.length ev) < 2147483647 ->
  forall k s low high, searching s p m h low high -> (low <= high <= List.length ev)%nat -> (high - low < k)%nat ->
  exists s' at_, iterate (run_list (run ehome rounds) (search_loop 0 2)) k s = Jump 0 s' /\ searching s' p m h at_ at_ /\ (low <= at_ <= high)%nat
    /\ ((forall x, In x ev -> Z.of_nat (List.length ev) <= ability_id x) -> at_ = low)
    /\ ((forall x, In x ev -> ability_id x < 0) -> at_ = high).
Proof.
  intros Hs Hl. induction k as [|k IH]; intros s low high Hi Hb Hk; [lia|].
  destruct Hi as [I1 I2 I3 I4 I5]. rewrite iterate_step. unfold search_loop at 1.
  erewrite step_next by (eapply run_local_get; exact I3).
  erewrite step_next by (eapply run_local_get; look; exact I4).
  erewrite step_next by (eapply run_bin; [now_get | now_get | reflexivity]).
  destruct (Nat.lt_ge_cases low high) as [Hlt | Hge].
  - erewrite step_next; cycle 1.
    { erewrite run_br_if by now_get. rewrite truth_zero. replace (Z.of_nat high <=? Z.of_nat low) with false by (symmetry; apply Z.leb_gt; lia).
      reflexivity. }
    erewrite step_next by (eapply run_bin; [now_get | now_get | reflexivity]).
    erewrite step_next by (apply run_const).
    erewrite step_next by (eapply run_bin; [now_get | now_get | apply half; lia]).
    rewrite mid_nat by lia. pose proof (mid_bounds low high Hlt) as Hm. set (mid := Nat.div (low + high) 2) in *.
    destruct (nth_error ev mid) as [x|] eqn:Ex; [|apply nth_error_None in Ex; lia].
    assert (Hx : In x ev) by (eapply nth_error_In; eauto).
    erewrite step_next; cycle 1.
    { eapply run_get; [look; exact I1 | now_get | rewrite !heap_set, I5; exact Hs |].
      rewrite unsigned_small by lia. rewrite Nat2Z.id. apply map_nth_error. exact Ex. }
    erewrite step_next by (eapply run_field; now_get).
    erewrite step_next by (eapply run_bin; [now_get | now_get | reflexivity]).
    destruct (ability_id x <? Z.of_nat low) eqn:Ec.
    + erewrite step_next; cycle 1.
      { erewrite run_if by now_get. rewrite truth_zero. cbn [negb].
        erewrite step_next by (apply run_const).
        erewrite step_next by (eapply run_bin; [now_get | now_get | cbn [bin]; rewrite wrap_small by lia; reflexivity]).
        erewrite step_next by (eapply run_local_set; now_get). reflexivity. }
      cbn [run_list run].
      match goal with |- context [iterate _ k ?st] => destruct (IH st (S mid) high) as (s' & a & E & S' & B & C1 & C2) end.
      4: { exists s', a. split; [exact E|]. split; [exact S'|]. split; [lia|]. split.
           - intros Ha. specialize (Ha x Hx). apply Z.ltb_lt in Ec. lia.
           - intros Ha. now apply C2. }
      * constructor; rewrite ?heap_set; auto; look; auto. f_equal. lia.
      * lia.
      * lia.
    + erewrite step_next; cycle 1.
      { erewrite run_if by now_get. rewrite truth_zero. cbn [negb].
        erewrite step_next by (eapply run_local_set; now_get). reflexivity. }
      cbn [run_list run].
      match goal with |- context [iterate _ k ?st] => destruct (IH st low mid) as (s' & a & E & S' & B & C1 & C2) end.
      4: { exists s', a. split; [exact E|]. split; [exact S'|]. split; [lia|]. split.
           - intros Ha. now apply C1.
           - intros Ha. specialize (Ha x Hx). apply Z.ltb_ge in Ec. lia. }
      * constructor; rewrite ?heap_set; auto; look; auto.
      * lia.
      * lia.
  - assert (low = high) by lia. subst high. cbn [run_list]. erewrite run_br_if by now_get. rewrite truth_zero, Z.leb_refl. cbn [negb].
    eexists. exists low. split; [reflexivity|]. split; [|split; [lia|split; auto]].
    constructor; rewrite ?heap_set; auto; look; auto.
Qed.

Lemma set_array_last h l l' : set_array (h ++ [l]) (List.length h) l' = h ++ [l'].
Proof.
  unfold set_array. rewrite firstn_app, firstn_all, Nat.sub_diag. cbn [firstn]. rewrite app_nil_r. f_equal. f_equal.
  apply skipn_all2. rewrite app_length. simpl. lia.
Qed.
Lemma nth_last {A} (h : list A) l : nth_error (h ++ [l]) (List.length h) = Some l.
Proof. rewrite nth_error_app2, Nat.sub_diag by lia. reflexivity. Qed.
Lemma copied_start n (src : list value) : List.length src = n -> copied (repeat Null (S n)) 0 src = Some (src ++ [Null]).
Proof.
  intros H. unfold copied. rewrite repeat_length, H. replace (0 + n <=? S n)%nat with true by (symmetry; apply Nat.leb_le; lia).
  cbn [firstn]. rewrite Nat.add_0_l. f_equal. cbn [app]. f_equal.
  clear. induction n; [reflexivity|exact IHn].
Qed.
Lemma copied_end n (src : list value) v : List.length src = n -> copied (src ++ [Null]) n [v] = Some (src ++ [v]).
Proof.
  intros H. unfold copied. rewrite app_length. cbn [List.length]. replace (n + 1 <=? List.length src + 1)%nat with true by (symmetry; apply Nat.leb_le; lia).
  rewrite firstn_app, H, Nat.sub_diag, <- H, firstn_all. cbn [firstn]. rewrite app_nil_r. rewrite skipn_all2; [reflexivity|]. rewrite app_length. simpl. lia.
Qed.
Lemma slice_start {n} {l : list value} : (n <= List.length l)%nat -> slice l 0 n = Some (firstn n l).
Proof. intros H. unfold slice. simpl. apply Nat.leb_le in H. now rewrite H. Qed.

Lemma extend_exact rounds h p ev m : stored h p ev -> Z.of_nat (List.length ev) < 2147483647 -> (List.length ev < rounds)%nat ->
  exists k, (k <= List.length ev)%nat
    /\ wasm_extend rounds h p m = Returned (Arr (List.length h)) (h ++ [List.map Mk (firstn k ev ++ [m])])
    /\ ((forall x, In x ev -> Z.of_nat (List.length ev) <= ability_id x) -> k = 0%nat)
    /\ ((forall x, In x ev -> ability_id x < 0) -> k = List.length ev).
Proof.
  intros Hs Hl Hr. unfold wasm_extend, call. fold ehome. unfold extend_body at 1.
  set (s0 := mkState _ h).
  erewrite step_next by (eapply run_field; now_get).
  erewrite step_next by (eapply run_len; [now_get | exact Hs]).
  rewrite map_length.
  erewrite step_next by (apply run_const).
  erewrite step_next by (eapply run_local_set; now_get).
  erewrite step_next by (eapply run_local_set; now_get).
  match goal with |- context [run_list _ (Block _ _ :: _) ?st] =>
    destruct (search_exact rounds p m h ev Hs Hl rounds st 0 (List.length ev)) as (s1 & k & E & [I1 I2 I3 I4 I5] & B & C1 & C2) end.
  { constructor; rewrite ?heap_set; look; reflexivity. }
  { lia. }
  { lia. }
  exists k. split; [lia|]. split; [|split; auto].
  erewrite step_next; cycle 1.
  { rewrite run_block. cbn [run_list]. rewrite run_loop, E. reflexivity. }
  erewrite step_next by (eapply run_local_get; exact I3).
  erewrite step_next by (apply run_const).
  erewrite step_next by (eapply run_bin; [look; exact I4 | now_get | cbn [bin]; rewrite wrap_small by lia; reflexivity]).
  erewrite step_next by (eapply run_new; now_get).
  rewrite unsigned_small by lia. replace (Z.to_nat (Z.of_nat k + 1)) with (S k) by lia.
  rewrite !heap_set, I5.
  erewrite step_next by (apply run_const).
  erewrite step_next by (eapply run_bin; [now_get | now_get | reflexivity]).
  assert (Hf : List.length (firstn k (List.map Mk ev)) = k) by (rewrite firstn_length, map_length; lia).
  match goal with |- context [run_list _ (If 26 24 _ _ :: ?t) ?st] => set (s2 := st); set (tail := t) end.
  assert (exists s3, run_list (run ehome rounds) (If 26 24 [Const 25 0; ArrayCopy 22 25 0 25 19] [] :: tail) s2 = run_list (run ehome rounds) tail s3
            /\ locals s3 1%nat = Mk m /\ locals s3 HIGH = Num (Z.of_nat k) /\ locals s3 19%nat = Num (Z.of_nat k) /\ locals s3 22%nat = Arr (List.length h)
            /\ heap s3 = h ++ [firstn k (List.map Mk ev) ++ [Null]]) as (s3 & E3 & J1 & J2 & J3 & J4 & J5).
  { assert (G1 : get ehome s2 24 = Num (truth (0 <? Z.of_nat k))) by (unfold s2; now_get).
    assert (G2 : locals s2 0%nat = Arr p) by (unfold s2; look; exact I1).
    assert (G3 : locals s2 1%nat = Mk m) by (unfold s2; look; exact I2).
    assert (G4 : locals s2 HIGH = Num (Z.of_nat k)) by (unfold s2; look; exact I4).
    assert (G5 : locals s2 19%nat = Num (Z.of_nat k)) by (unfold s2; look; reflexivity).
    assert (G6 : locals s2 22%nat = Arr (List.length h)) by (unfold s2; look; reflexivity).
    assert (G7 : heap s2 = h ++ [repeat Null (S k)]) by (unfold s2; rewrite !heap_set; reflexivity).
    clearbody s2. destruct k as [|k'].
    - exists s2. split; [|repeat split; auto].
      erewrite step_next; [reflexivity|]. rewrite (run_if _ _ _ _ _ _ _ _ G1). reflexivity.
    - set (k := S k') in *. eexists. split.
      + erewrite step_next; [reflexivity|]. rewrite (run_if _ _ _ _ _ _ _ _ G1), truth_zero.
        replace (0 <? Z.of_nat k) with true by (symmetry; apply Z.ltb_lt; unfold k; lia). cbn [negb].
        erewrite step_next by (apply run_const).
        erewrite step_next.
        2: { eapply run_copy; [look; exact G6 | now_get | look; exact G2 | now_get | look; exact G5 | | | |].
             - rewrite heap_set, G7. apply nth_last.
             - rewrite heap_set, G7, nth_error_app1; [exact Hs|]. apply nth_error_Some. unfold stored in Hs. rewrite Hs. discriminate.
             - rewrite !unsigned_small by lia. rewrite Nat2Z.id. apply slice_start. rewrite map_length. lia.
             - rewrite unsigned_small by lia. apply copied_start. exact Hf. }
        reflexivity.
      + rewrite locals_with_heap. repeat split; try (look; assumption).
        cbn [heap with_heap]. rewrite heap_set, G7. apply set_array_last. }
  rewrite E3. clear E3. unfold tail. clear tail.
  erewrite step_next.
  2: { eapply run_set; [look; exact J4 | look; exact J3 | rewrite J5; apply nth_last | look; exact J1 |].
       rewrite unsigned_small by lia. rewrite Nat2Z.id. apply copied_end. exact Hf. }
  rewrite J5, set_array_last.
  erewrite step_next by (eapply run_bin; [look; exact J2 | look; exact J3 | reflexivity]).
  rewrite Z.sub_diag.
  erewrite step_next by (apply run_const).
  erewrite step_next by (eapply run_bin; [now_get | now_get | reflexivity]).
  erewrite step_next.
  2: { erewrite run_if by now_get. reflexivity. }
  cbn [run_list run]. look. cbn [with_heap locals]. rewrite J4. rewrite map_app, firstn_map. reflexivity.
Qed.

(** What is stored after installing handlers. *)
Lemma installed_stored hs h p : installed hs h p -> fits hs ->
  exists ev, stored h p ev /\ (List.length ev <= List.length hs)%nat /\ (forall x, In x ev -> In x hs)
    /\ (forall m hs', hs = m :: hs' -> exists ev', ev = ev' ++ [m])
    /\ ((forall x, In x hs -> Z.of_nat (List.length hs) <= ability_id x) -> forall m hs', hs = m :: hs' -> ev = [m])
    /\ ((forall x, In x hs -> ability_id x < 0) -> ev = rev hs).
Proof.
  unfold fits. induction 1 as [h p Hs | hs h p m rounds q h' Hi IH Hr Hx]; intros Hf.
  - exists []. split; [exact Hs|]. split; [auto|]. split; [intros x []|]. split; [intros; discriminate|]. split; [intros _ m hs'; discriminate|]. reflexivity.
  - cbn [List.length] in Hf. destruct IH as (ev & Hs & Hn & Hin & _ & Hbig & Hneg); [lia|].
    destruct (extend_exact rounds h p ev m Hs) as (k & Hk & E & K1 & K2); [lia|lia|].
    rewrite E in Hx. injection Hx as <- <-.
    exists (firstn k ev ++ [m]). split; [unfold stored; apply nth_last|]. split; [|split; [|split; [|split]]].
    + rewrite app_length, firstn_length. cbn [List.length]. lia.
    + intros x Hx. apply in_app_or in Hx as [Hx | [<- | []]]; [|now left]. right. apply Hin.
      rewrite <- (firstn_skipn k ev). apply in_or_app. now left.
    + intros m' hs' Eq. injection Eq as <- <-. eexists. reflexivity.
    + intros Hb m' hs' Eq. injection Eq as <- <-. rewrite K1; [reflexivity|].
      intros x Hx. specialize (Hb x (or_intror (Hin x Hx))). cbn [List.length] in Hb. lia.
    + intros Hb. rewrite K2, firstn_all; [|intros x Hx; apply Hb; right; now apply Hin]. rewrite Hneg; [reflexivity|]. intros x Hx. apply Hb. now right.
Qed.
Lemma lookup_sound hs h p rounds id : installed hs h p -> fits hs -> (0 < rounds)%nat ->
  wasm_lookup rounds h p id = Trapped
  \/ exists x, wasm_lookup rounds h p id = Returned (Mk x) h /\ In x hs /\ ability_id x = id.
Proof.
  intros Hi Hf Hr. destruct (installed_stored hs h p Hi Hf) as (ev & Hs & Hn & Hin & _). unfold fits in Hf.
  rewrite (lookup_exact rounds h p ev id Hs Hr) by lia.
  destruct (nth_error ev _) as [x|] eqn:E; [|now left]. destruct (Z.eqb_spec (ability_id x) id) as [Ex | Ex]; [|now left].
  right. exists x. split; [reflexivity|]. split; [|exact Ex]. apply Hin. eapply nth_error_In; eauto.
Qed.
Lemma lookup_newest m hs h p rounds : installed (m :: hs) h p -> fits (m :: hs) -> (0 < rounds)%nat ->
  (List.length hs <= 1)%nat \/ (forall x, In x (m :: hs) -> Z.of_nat (List.length (m :: hs)) <= ability_id x) ->
  wasm_lookup rounds h p (ability_id m) = Returned (Mk m) h.
Proof.
  intros Hi Hf Hr Hc. destruct (installed_stored _ h p Hi Hf) as (ev & Hs & Hn & Hin & Hlast & Hbig & _). unfold fits in Hf.
  rewrite (lookup_exact rounds h p ev _ Hs Hr) by lia. cbn [List.length] in Hn.
  assert (nth_error ev (Nat.div (List.length ev) 2) = Some m) as ->.
  { destruct Hc as [Hc | Hc].
    - destruct (Hlast m hs eq_refl) as [ev' ->]. rewrite app_length in *. cbn [List.length] in *.
      assert (Hl : (List.length ev' <= 1)%nat) by lia. destruct ev' as [|a [|b ev']]; [reflexivity|reflexivity|cbn in Hl; lia].
    - rewrite (Hbig Hc m hs eq_refl). reflexivity. }
  rewrite Z.eqb_refl. reflexivity.
Qed.
Lemma extend_keeps rounds h p ev m r : stored h p ev -> Z.of_nat (List.length ev) < 2147483647 -> (List.length ev < rounds)%nat ->
  wasm_extend rounds h p m = r -> exists new, r = Returned (Arr (List.length h)) (h ++ [new]).
Proof. intros H1 H2 H3 <-. destruct (extend_exact rounds h p ev m H1 H2 H3) as (k & _ & E & _). rewrite E. eauto. Qed.
Lemma older_evidence_stays hs h p m rounds q h' : installed hs h p -> fits hs -> (List.length hs < rounds)%nat ->
  wasm_extend rounds h p m = Returned (Arr q) h' -> forall a l, nth_error h a = Some l -> nth_error h' a = Some l.
Proof.
  intros Hi Hf Hr Hx a l Ha. destruct (installed_stored hs h p Hi Hf) as (ev & Hs & Hn & _). unfold fits in Hf.
  destruct (extend_exact rounds h p ev m Hs) as (k & _ & E & _); [lia|lia|]. rewrite E in Hx. injection Hx as <- <-.
  rewrite nth_error_app1; [exact Ha|]. apply nth_error_Some. congruence.
Qed.
Lemma installing_succeeds hs h p m rounds : installed hs h p -> fits hs -> (List.length hs < rounds)%nat ->
  exists q h', wasm_extend rounds h p m = Returned (Arr q) h'.
Proof.
  intros Hi Hf Hr. destruct (installed_stored hs h p Hi Hf) as (ev & Hs & Hn & _). unfold fits in Hf.
  destruct (extend_exact rounds h p ev m Hs) as (k & _ & E & _); [lia|lia|]. eauto.
Qed.
(** With ids at least the number of handlers, every handler but the newest is lost. *)
Lemma only_newest_left m hs h p rounds id : installed (m :: hs) h p -> fits (m :: hs) -> (0 < rounds)%nat ->
  (forall x, In x (m :: hs) -> Z.of_nat (List.length (m :: hs)) <= ability_id x) -> ability_id m <> id ->
  wasm_lookup rounds h p id = Trapped.
Proof.
  intros Hi Hf Hr Hb Hd. destruct (installed_stored _ h p Hi Hf) as (ev & Hs & _ & _ & _ & Hbig & _).
  rewrite (Hbig Hb m hs eq_refl) in Hs. rewrite (lookup_exact rounds h p [m] id Hs Hr) by (cbn; lia).
  change (nth_error [m] (Nat.div (List.length [m]) 2)) with (Some m). cbv iota.
  destruct (Z.eqb_spec (ability_id m) id); [contradiction|reflexivity].
Qed.
Lemma installing_total hs h p m rounds : installed hs h p -> fits hs -> (List.length hs < rounds)%nat ->
  exists q h', wasm_extend rounds h p m = Returned (Arr q) h' /\ forall a l, nth_error h a = Some l -> nth_error h' a = Some l.
Proof.
  intros Hi Hf Hr. destruct (installing_succeeds hs h p m rounds Hi Hf Hr) as (q & h' & E). exists q, h'. split; [exact E|].
  exact (older_evidence_stays hs h p m rounds q h' Hi Hf Hr E).
Qed.
Lemma unhandled hs h p rounds id : installed hs h p -> fits hs -> (0 < rounds)%nat ->
  spec_lookup hs id = None -> wasm_lookup rounds h p id = Trapped.
Proof.
  intros Hi Hf Hr Hn. destruct (lookup_sound hs h p rounds id Hi Hf Hr) as [E | (x & _ & Hx & Ex)]; [exact E|].
  exfalso. unfold spec_lookup in Hn. pose proof (find_none _ _ Hn x Hx) as Hc. cbn beta in Hc. rewrite Ex, Z.eqb_refl in Hc. discriminate Hc.
Qed.
Lemma middle_only hs h p rounds id : installed hs h p -> fits hs -> (0 < rounds)%nat ->
  (forall x, In x hs -> ability_id x < 0) ->
  wasm_lookup rounds h p id =
    match nth_error (rev hs) (Nat.div (List.length hs) 2) with
    | Some x => if ability_id x =? id then Returned (Mk x) h else Trapped
    | None => Trapped
    end.
Proof.
  intros Hi Hf Hr Hneg. destruct (installed_stored hs h p Hi Hf) as (ev & Hs & Hn & _ & _ & _ & He). unfold fits in Hf.
  rewrite (lookup_exact rounds h p ev id Hs Hr) by lia. rewrite (He Hneg), rev_length. reflexivity.
Qed.
