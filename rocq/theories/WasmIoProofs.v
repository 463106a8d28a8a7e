(** Memory, the copy loop and the write loop. *)
From Verif Require Import Base IoModel WasmIoModel WasmIoSpec.
From Coq Require Import ZifyBool.
Open Scope Z_scope.

(** ** Memory *)
Lemma store8_same m a v : 0 <= v < 256 -> store8 m a v a = v.
Proof. intros H. unfold store8. rewrite Z.eqb_refl. apply Z.mod_small. lia. Qed.
Lemma store8_other m a v b : b <> a -> store8 m a v b = m b.
Proof. intros H. unfold store8. destruct (Z.eqb_spec b a); [contradiction|reflexivity]. Qed.
Lemma store32_other m a v b : (b < a \/ a + 4 <= b) -> store32 m a v b = m b.
Proof. intros H. unfold store32. rewrite !store8_other by lia. reflexivity. Qed.
Lemma load32_store32 m a v : 0 <= v < word -> load32 (store32 m a v) a = v.
Proof.
  intros H. unfold load32, store32, store8.
  repeat match goal with |- context [?x =? ?y] => destruct (Z.eqb_spec x y); try (exfalso; lia) end.
  unfold word in H. clear -H.
  assert (E1 : v / 65536 = v / 256 / 256) by (rewrite Z.div_div by lia; reflexivity).
  assert (E2 : v / 16777216 = v / 256 / 256 / 256) by (rewrite !Z.div_div by lia; reflexivity).
  rewrite E1, E2.
  pose proof (Z.div_mod v 256). pose proof (Z.div_mod (v / 256) 256). pose proof (Z.div_mod (v / 256 / 256) 256).
  assert (v / 256 / 256 / 256 < 256) by (rewrite !Z.div_div by lia; apply Z.div_lt_upper_bound; lia).
  assert (0 <= v / 256 / 256 / 256) by (rewrite !Z.div_div by lia; apply Z.div_pos; lia).
  rewrite (Z.mod_small (v / 256 / 256 / 256) 256) by lia. lia.
Qed.
Lemma load32_ext m m' a : (forall b, a <= b < a + 4 -> m b = m' b) -> load32 m a = load32 m' a.
Proof. intros H. unfold load32. rewrite !H by lia. reflexivity. Qed.
Lemma bytes_at_ext m m' a n : (forall i, (i < n)%nat -> m (a + Z.of_nat i) = m' (a + Z.of_nat i)) -> bytes_at m a n = bytes_at m' a n.
Proof. intros H. unfold bytes_at. apply map_ext_in. intros i I. apply in_seq in I. apply H. lia. Qed.
Lemma bytes_at_length m a n : List.length (bytes_at m a n) = n.
Proof. unfold bytes_at. rewrite map_length, seq_length. reflexivity. Qed.
Lemma nth_error_bytes_at m a n i : (i < n)%nat -> nth_error (bytes_at m a n) i = Some (m (a + Z.of_nat i)).
Proof.
  intros H. unfold bytes_at. rewrite nth_error_map.
  rewrite (nth_error_nth' (seq 0 n) 0%nat) by (rewrite seq_length; exact H). rewrite seq_nth by exact H. reflexivity.
Qed.
Lemma bytes_at_skip m a n k : (k <= n)%nat -> bytes_at m (a + Z.of_nat k) (n - k) = skipn k (bytes_at m a n).
Proof.
  intros H. apply list_eq_nth_error. intros i. rewrite nth_error_skipn.
  destruct (Nat.lt_ge_cases i (n - k)) as [L | L].
  - rewrite nth_error_bytes_at by exact L. rewrite nth_error_bytes_at by lia. f_equal. f_equal. lia.
  - rewrite (proj2 (nth_error_None _ _)) by (rewrite bytes_at_length; exact L).
    symmetry. apply nth_error_None. rewrite bytes_at_length. lia.
Qed.

Lemma u32_small z : 0 <= z < word -> u32 z = z.
Proof. intros H. unfold u32. apply Z.mod_small. exact H. Qed.

(** ** The code *)
Definition copy_code (offset len scratch : nat) : list iop :=
  [IBin 23 IGeU 22 len; IBrIf 23 1; IBin 24 IAdd offset 22; IArrayGetU 25 24; IBin 26 IAdd scratch 22; IStore8 26 25 0;
   IConst 27 1; IBin 28 IAdd 22 27; IMove 28 22; IBr 0].
Definition write_code (base : Z) (total : nat) : list iop :=
  [IBin 32 IGeU 31 total; IBrIf 32 1;
   IConst 33 (scratch_offset base); IBin 34 IAdd 33 31; IBin 35 ISub total 31; IConst 36 (iovec_offset base);
   IStore 36 34 0; IStore 36 35 4;
   IConst 37 1; IConst 38 1; IConst 39 (nwritten_offset base); IFdWrite 40 37 36 38 39;
   IConst 41 0; IBin 42 IEq 40 41;
   IIf 42
     [ILoad 43 39 0; IBin 44 IEq 43 41; IBrIf 44 2; IBin 45 IAdd 31 43; IMove 45 31; IBr 1]
     [IConst 46 27; IBin 47 IEq 40 46; IBrIf 47 1; IBr 2]].
Definition setup_code (base : Z) : list iop :=
  [IStructGet 2 0; IStructGet 3 1; IStructGet 4 2; IBin 5 IAdd 4 1] ++ trap_if_less 6 5 4 ++
  [IConst 7 (scratch_offset base); IBin 8 IAdd 7 5] ++ trap_if_less 9 8 5 ++
  ensure_memory 8 ++ [IConst 21 0].
Lemma emitted base : emit_helper base =
  Some (setup_code base ++ [IBlock [ILoop 21 22 (copy_code 3 4 7)]; IBin 29 IAdd 7 4; IIf 1 [IConst 30 10; IStore8 29 30 0] [];
                            IBlock [ILoop 21 31 (write_code base 5)]; IReturn]).
Proof. reflexivity. Qed.

Lemma run_list_app f l l' s : run_list f (l ++ l') s = match run_list f l s with INext s' => run_list f l' s' | r => r end.
Proof.
  revert s. induction l as [| o l IH]; intros s; [reflexivity|].
  cbn [app run_list]. destruct (f o s); try reflexivity. apply IH.
Qed.
Lemma run_list_cons f o l s : run_list f (o :: l) s = match f o s with INext s' => run_list f l s' | r => r end.
Proof. reflexivity. Qed.

Ltac env_red := cbn [upd with_env with_mem env mem pages answers output Nat.eqb].

Ltac steps := cbn [run_list run put iobin_value b2z Z.eqb]; env_red.

Section Loops.
  Variable bytes : byte_string.
  Variable grows : Z -> Z -> bool.
  Variable rounds : nat.
  Notation R := (run bytes grows rounds).

  Hypothesis off_ok : 0 <= boffset bytes.
  Hypothesis len_ok : 0 <= blength bytes.
  Hypothesis fits : boffset bytes + blength bytes <= Z.of_nat (List.length (barray bytes)).
  Hypothesis small : Z.of_nat (List.length (barray bytes)) < word.
  Hypothesis are_bytes : Forall (fun b => 0 <= b < 256) (barray bytes).

  Definition text : list byte := part (barray bytes) (boffset bytes) (blength bytes).
  Lemma text_length : List.length text = Z.to_nat (blength bytes).
  Proof. unfold text, part. rewrite firstn_length, skipn_length. lia. Qed.
  Lemma text_nth i : (i < Z.to_nat (blength bytes))%nat -> nth_error text i = nth_error (barray bytes) (Z.to_nat (boffset bytes + Z.of_nat i)).
  Proof.
    intros H. unfold text, part. rewrite nth_error_firstn by exact H. rewrite nth_error_skipn. f_equal. lia.
  Qed.
  Lemma byte_there i : (i < Z.to_nat (blength bytes))%nat ->
    exists b, nth_error (barray bytes) (Z.to_nat (boffset bytes + Z.of_nat i)) = Some b /\ 0 <= b < 256.
  Proof.
    intros H. destruct (nth_error (barray bytes) (Z.to_nat (boffset bytes + Z.of_nat i))) as [b |] eqn:E.
    - exists b. split; [reflexivity|]. rewrite Forall_forall in are_bytes. apply are_bytes. exact (nth_error_In _ _ E).
    - exfalso. apply nth_error_None in E. lia.
  Qed.

  Section Copy.
    Variable scratch : Z.
    (** The state before the round for byte [i]. *)
    Definition copying (s0 : iostate) (i : nat) (s : iostate) : Prop :=
      env s 22%nat = Z.of_nat i /\ env s 3%nat = boffset bytes /\ env s 4%nat = blength bytes /\ env s 7%nat = scratch /\
      env s 1%nat = env s0 1%nat /\ env s 5%nat = env s0 5%nat /\ env s 21%nat = env s0 21%nat /\
      pages s = pages s0 /\ answers s = answers s0 /\ output s = output s0 /\
      (forall j, (j < i)%nat -> nth_error text j = Some (mem s (scratch + Z.of_nat j))).
    Lemma copy_round s0 i s : 0 <= scratch -> scratch + blength bytes < word -> scratch + blength bytes <= pages s0 * page ->
      (i < Z.to_nat (blength bytes))%nat -> copying s0 i s ->
      exists s', run_list R (copy_code 3 4 7) s = IJump 0 s' /\ copying s0 (S i) s'.
    Proof.
      intros S0 S1 S2 Hi (E22 & E3 & E4 & E7 & E1 & E5 & E21 & P & A & O & M).
      destruct (byte_there i Hi) as (b & Eb & Hb).
      unfold copy_code. steps. rewrite E22, E4.
      replace (blength bytes <=? Z.of_nat i) with false by lia. steps. rewrite E22, E3.
      rewrite (u32_small (boffset bytes + Z.of_nat i)) by (unfold word in *; lia).
      rewrite Eb. steps. rewrite E22, E7.
      rewrite (u32_small (scratch + Z.of_nat i)) by (unfold word in *; lia). rewrite Z.add_0_r.
      unfold in_memory. env_red. rewrite P. replace (0 <=? scratch + Z.of_nat i) with true by lia.
      replace (scratch + Z.of_nat i + 1 <=? pages s0 * page) with true by lia. cbn [andb]. steps. rewrite E22.
      eexists. split; [reflexivity|]. unfold copying. env_red.
      rewrite (u32_small 1) by (unfold word; lia). rewrite (u32_small (Z.of_nat i + 1)) by (unfold word in *; lia).
      repeat split; try assumption; try lia.
      intros j Hj. destruct (Nat.eq_dec j i) as [-> | N].
      - rewrite store8_same by exact Hb. rewrite text_nth by exact Hi. exact Eb.
      - rewrite store8_other by lia. apply M. lia.
    Qed.
    Lemma copy_last s0 s : copying s0 (Z.to_nat (blength bytes)) s ->
      exists s', run_list R (copy_code 3 4 7) s = IJump 1 s' /\ copying s0 (Z.to_nat (blength bytes)) s'.
    Proof.
      intros (E22 & E3 & E4 & E7 & E1 & E5 & E21 & P & A & O & M).
      unfold copy_code. cbn [run_list run put iobin_value]. env_red. rewrite E22, E4.
      replace (blength bytes <=? Z.of_nat (Z.to_nat (blength bytes))) with true by lia. cbn [b2z Z.eqb].
      eexists. split; [reflexivity|]. unfold copying. env_red. repeat split; assumption.
    Qed.
    Lemma copy_all s0 : 0 <= scratch -> scratch + blength bytes < word -> scratch + blength bytes <= pages s0 * page ->
      forall n i s k, (Z.to_nat (blength bytes) - i = n)%nat -> (i <= Z.to_nat (blength bytes))%nat -> (n < k)%nat -> copying s0 i s ->
      exists s', iterate (run_list R (copy_code 3 4 7)) k s = IJump 0 s' /\ copying s0 (Z.to_nat (blength bytes)) s'.
    Proof.
      intros S0 S1 S2. induction n as [| n IH]; intros i s k Hn Hi Hk C.
      - assert (i = Z.to_nat (blength bytes)) as -> by lia. destruct k as [| k]; [lia|]. cbn [iterate].
        destruct (copy_last _ _ C) as (s' & E & C'). rewrite E. exists s'. split; [reflexivity | exact C'].
      - destruct k as [| k]; [lia|]. cbn [iterate].
        destruct (copy_round s0 i s S0 S1 S2 ltac:(lia) C) as (s' & E & C'). rewrite E. apply (IH (S i)); try lia. exact C'.
    Qed.
  End Copy.

  Section Write.
    Variable base : Z.
    Hypothesis base_ok : 0 <= base.
    Notation scratch := (scratch_offset base).
    Notation iovec := (iovec_offset base).
    Notation nw := (nwritten_offset base).
    Lemma cells : 0 <= iovec /\ nw = iovec + 8 /\ scratch = iovec + 12.
    Proof. unfold scratch_offset, nwritten_offset, iovec_offset. assert (0 <= (base + 3) / 4) by (apply Z.div_pos; lia). lia. Qed.

    Variable all : list byte.
    Notation total := (Z.of_nat (List.length all)).
    Hypothesis all_small : scratch + total < word.

    Definition writing (w : nat) (s : iostate) : Prop :=
      env s 31%nat = Z.of_nat w /\ env s 5%nat = total /\ scratch + total <= pages s * page /\
      bytes_at (mem s) scratch (List.length all) = all /\ (w <= List.length all)%nat.

    Lemma write_last s : writing (List.length all) s ->
      exists s', run_list R (write_code base 5) s = IJump 1 s' /\ answers s' = answers s /\ output s' = output s.
    Proof.
      intros (E31 & E5 & P & M & W). unfold write_code. cbn [run_list run put iobin_value]. env_red. rewrite E31, E5.
      replace (total <=? total) with true by lia. cbn [b2z Z.eqb]. eexists. split; [reflexivity|]. env_red. split; reflexivity.
    Qed.

    (** The part of a round before the call, and the call. *)
    Definition before : list iop :=
      [IBin 32 IGeU 31 5; IBrIf 32 1; IConst 33 scratch; IBin 34 IAdd 33 31; IBin 35 ISub 5 31; IConst 36 iovec;
       IStore 36 34 0; IStore 36 35 4; IConst 37 1; IConst 38 1; IConst 39 nw].
    Definition after : list iop :=
      [IConst 41 0; IBin 42 IEq 40 41;
       IIf 42 [ILoad 43 39 0; IBin 44 IEq 43 41; IBrIf 44 2; IBin 45 IAdd 31 43; IMove 45 31; IBr 1]
              [IConst 46 27; IBin 47 IEq 40 46; IBrIf 47 1; IBr 2]].
    Lemma code_parts : write_code base 5 = before ++ IFdWrite 40 37 36 38 39 :: after.
    Proof. reflexivity. Qed.

    Lemma before_call w s : writing w s -> (w < List.length all)%nat ->
      exists s', run_list R before s = INext s' /\ writing w s' /\ answers s' = answers s /\ output s' = output s /\
        env s' 36%nat = iovec /\ env s' 37%nat = 1 /\ env s' 38%nat = 1 /\ env s' 39%nat = nw /\
        load32 (mem s') iovec = scratch + Z.of_nat w /\ load32 (mem s') (iovec + 4) = total - Z.of_nat w.
    Proof.
      intros (E31 & E5 & P & M & W) L. destruct cells as (C0 & C1 & C2). unfold before.
      cbn [run_list run put iobin_value]. env_red. rewrite E31, E5.
      replace (total <=? Z.of_nat w) with false by lia. steps. rewrite !E31, !E5.
      rewrite (u32_small scratch) by (unfold word in *; lia). rewrite (u32_small iovec) by (unfold word in *; lia).
      rewrite (u32_small nw) by (unfold word in *; lia). rewrite (u32_small (scratch + Z.of_nat w)) by (unfold word in *; lia).
      rewrite (u32_small (total - Z.of_nat w)) by (unfold word in *; lia). rewrite (u32_small 1) by (unfold word; lia).
      unfold in_memory. env_red. rewrite Z.add_0_r.
      replace (0 <=? iovec) with true by lia. replace (iovec + 4 <=? pages s * page) with true by lia.
      cbn [andb]. steps. replace (0 <=? iovec + 4) with true by lia. replace (iovec + 4 + 4 <=? pages s * page) with true by lia.
      cbn [andb]. steps. eexists. split; [reflexivity|]. env_red.
      split; [| split; [reflexivity | split; [reflexivity | split; [reflexivity | split; [reflexivity | split; [reflexivity | split; [reflexivity |]]]]]]].
      - unfold writing. env_red. repeat split; try assumption.
        etransitivity; [| exact M]. apply bytes_at_ext. intros i Hi. rewrite !store32_other by lia. reflexivity.
      - split.
        + rewrite (load32_ext _ (store32 (mem s) iovec (scratch + Z.of_nat w))) by (intros b Hb; apply store32_other; lia).
          apply load32_store32. unfold word in *. lia.
        + apply load32_store32. unfold word in *. lia.
    Qed.

    Lemma fd_write_at w s : writing w s -> (w < List.length all)%nat ->
      load32 (mem s) iovec = scratch + Z.of_nat w -> load32 (mem s) (iovec + 4) = total - Z.of_nat w ->
      fd_write s 1 iovec nw =
        match answers s with
        | [] => None
        | e :: later =>
            match write_once e (skipn w all) with
            | WOk n => Some (0, mkIo (env s) (store32 (mem s) nw (u32 (Z.of_nat n))) (pages s) later (output s ++ firstn n (skipn w all)))
            | WErrIntr => Some (27, mkIo (env s) (mem s) (pages s) later (output s))
            | WErr c => Some (c, mkIo (env s) (mem s) (pages s) later (output s))
            end
        end.
    Proof.
      intros (E31 & E5 & P & M & W) L L1 L2. destruct cells as (C0 & C1 & C2). unfold fd_write. cbn [negb Z.eqb Pos.eqb].
      rewrite L1, L2. unfold in_memory.
      replace (0 <=? iovec) with true by lia. replace (iovec + 8 <=? pages s * page) with true by lia.
      replace (0 <=? nw) with true by lia. replace (nw + 4 <=? pages s * page) with true by lia. cbn [andb negb].
      replace (0 <=? scratch + Z.of_nat w) with true by lia.
      replace (scratch + Z.of_nat w + (total - Z.of_nat w) <=? pages s * page) with true by lia. cbn [andb negb].
      destruct (answers s) as [| e later]; [reflexivity|].
      replace (Z.to_nat (total - Z.of_nat w)) with (List.length all - w)%nat by lia.
      rewrite bytes_at_skip by exact W. rewrite M. reflexivity.
    Qed.

    Lemma after_error s e : env s 40%nat = e -> 0 < e < 65536 ->
      run_list R after s =
        if e =? 27 then IJump 0 (with_env s (upd (upd (upd (upd (env s) 41 0) 42 0) 46 27) 47 1))
        else IJump 1 (with_env s (upd (upd (upd (upd (env s) 41 0) 42 0) 46 27) 47 0)).
    Proof.
      intros E H. unfold after. cbn [run_list run put iobin_value]. env_red. rewrite E.
      rewrite (u32_small 0) by (unfold word; lia). replace (e =? 0) with false by lia. steps.
      cbn [run_list run put iobin_value]. env_red. rewrite E. rewrite (u32_small 27) by (unfold word; lia).
      destruct (Z.eqb_spec e 27); cbn [b2z Z.eqb leave]; reflexivity.
    Qed.
    Lemma after_success w s n : env s 40%nat = 0 -> env s 39%nat = nw -> load32 (mem s) nw = Z.of_nat n ->
      nw + 4 <= pages s * page -> env s 31%nat = Z.of_nat w -> Z.of_nat w + Z.of_nat n < word ->
      exists e', run_list R after s = IJump (if Nat.eqb n 0 then 1 else 0) (with_env s e') /\
        (n <> 0%nat -> e' 31%nat = Z.of_nat (w + n)) /\ e' 5%nat = env s 5%nat.
    Proof.
      intros E40 E39 L P E31 B. destruct cells as (C0 & C1 & C2).
      unfold after. cbn [run_list run put iobin_value]. env_red. rewrite E40.
      rewrite (u32_small 0) by (unfold word; lia). cbn [b2z Z.eqb]. env_red.
      cbn [run_list run put iobin_value]. env_red. rewrite E39, Z.add_0_r. unfold in_memory. env_red.
      replace (0 <=? nw) with true by lia. replace (nw + 4 <=? pages s * page) with true by lia. cbn [andb]. steps. rewrite L.
      destruct (Nat.eqb_spec n 0) as [-> | N].
      - cbn [Z.of_nat Z.eqb b2z leave]. eexists. split; [reflexivity|]. split; [intros F; contradiction | reflexivity].
      - replace (Z.of_nat n =? 0) with false by lia. cbn [b2z Z.eqb]. cbn [run_list run put iobin_value]. env_red. rewrite E31.
        cbn [leave]. eexists. split; [reflexivity|]. env_red. split; [intros _ | reflexivity].
        rewrite u32_small by (unfold word in *; lia). lia.
    Qed.

    (** One round, by the answer. *)
    Lemma write_round w s : writing w s -> (w < List.length all)%nat ->
      match answers s with
      | [] => exists s', run_list R (write_code base 5) s = IWaiting s' /\ answers s' = [] /\ output s' = output s
      | e :: later =>
          honest e ->
          match write_once e (skipn w all) with
          | WOk O => exists s', run_list R (write_code base 5) s = IJump 1 s' /\ answers s' = later /\ output s' = output s
          | WOk n => exists s', run_list R (write_code base 5) s = IJump 0 s' /\ writing (w + n) s' /\ answers s' = later /\
                       output s' = output s ++ firstn n (skipn w all)
          | WErrIntr => exists s', run_list R (write_code base 5) s = IJump 0 s' /\ writing w s' /\ answers s' = later /\ output s' = output s
          | WErr _ => exists s', run_list R (write_code base 5) s = IJump 1 s' /\ answers s' = later /\ output s' = output s
          end
      end.
    Proof.
      intros I L. destruct (before_call w s I L) as (s1 & Eb & I1 & A1 & O1 & E36 & E37 & E38 & E39 & L1 & L2).
      destruct cells as (C0 & C1 & C2).
      assert (RW : run_list R (write_code base 5) s = run_list R (IFdWrite 40 37 36 38 39 :: after) s1)
        by (rewrite code_parts, run_list_app, Eb; reflexivity).
      rewrite run_list_cons in RW. cbn [run] in RW. rewrite E36, E37, E38, E39 in RW. cbn [Z.eqb Pos.eqb] in RW.
      rewrite (fd_write_at w s1 I1 L L1 L2) in RW. rewrite A1 in RW.
      destruct I1 as (E31 & E5 & P & M & W).
      destruct (answers s) as [| e later].
      { exists s1. rewrite A1. repeat split; assumption. }
      intros Hh. destruct (write_once e (skipn w all)) as [n | | c] eqn:We.
      - assert (Hn : (n <= List.length all - w)%nat).
        { destruct e as [k | x | | c]; cbn [write_once honest] in *; try discriminate; try contradiction.
          injection We as <-. rewrite skipn_length. lia. }
        rewrite (u32_small (Z.of_nat n)) in RW by (unfold word in *; lia). cbn [put] in RW.
        match type of RW with _ = run_list R after ?st => set (s2 := st) in RW end.
        destruct (after_success w s2 n) as (e' & Ea & Ew & E5').
        + subst s2. env_red. reflexivity.
        + subst s2. env_red. exact E39.
        + subst s2. env_red. apply load32_store32. unfold word in *. lia.
        + subst s2. env_red. lia.
        + subst s2. env_red. exact E31.
        + unfold word in *. lia.
        + rewrite Ea in RW. destruct n as [| n].
          * cbn [Nat.eqb] in RW. eexists. split; [exact RW|]. subst s2. env_red. split; [reflexivity|].
            cbn [firstn]. rewrite app_nil_r. exact O1.
          * cbn [Nat.eqb] in RW. eexists. split; [exact RW|]. subst s2. env_red. split.
            2:{ split; [reflexivity|]. rewrite O1. reflexivity. }
            unfold writing. env_red. rewrite Ew by discriminate. rewrite E5'. env_red.
            repeat split; try assumption; try lia.
            etransitivity; [| exact M]. apply bytes_at_ext. intros i Hi. apply store32_other. lia.
      - cbn [put] in RW. match type of RW with _ = run_list R after ?st => set (s2 := st) in RW end.
        rewrite (after_error s2 27) in RW; [| subst s2; env_red; reflexivity | lia]. cbn [Z.eqb Pos.eqb] in RW.
        eexists. split; [exact RW|]. subst s2. env_red. split; [| split; [reflexivity | exact O1]].
        unfold writing. env_red. repeat split; assumption.
      - cbn [put] in RW. match type of RW with _ = run_list R after ?st => set (s2 := st) in RW end.
        assert (Hc : 0 < c < 65536 /\ c <> 27).
        { destruct e as [k | x | | c']; cbn [write_once honest] in *; try discriminate. injection We as <-. exact Hh. }
        destruct Hc as [Hc N]. rewrite (after_error s2 c) in RW; [| subst s2; env_red; reflexivity | exact Hc].
        destruct (Z.eqb_spec c 27); [contradiction|].
        eexists. split; [exact RW|]. subst s2. env_red. split; [reflexivity | exact O1].
    Qed.

    Lemma write_all : forall sched w s k, answers s = sched -> Forall honest sched -> writing w s -> (S (List.length sched) < k)%nat ->
      exists s' out st,
        iterate (run_list R (write_code base 5)) k s = match st with Unanswered => IWaiting s' | _ => IJump 0 s' end /\
        printed (skipn w all) sched out st (answers s') /\ output s' = output s ++ out.
    Proof.
      induction sched as [| e sched IH]; intros w s k A F I Hk; destruct k as [| k]; try lia; cbn [iterate].
      - pose proof I as (E31 & E5 & P & M & W). destruct (Nat.eq_dec w (List.length all)) as [-> | N].
        + destruct (write_last s I) as (s' & E & A' & O'). rewrite E. exists s', [], Complete. split; [reflexivity|].
          rewrite skipn_all, A', A, app_nil_r. split; [constructor | exact O'].
        + pose proof (write_round w s I ltac:(lia)) as WR. rewrite A in WR. destruct WR as (s' & E & A' & O'). rewrite E.
          exists s', [], Unanswered. split; [reflexivity|]. rewrite A', app_nil_r. split; [| exact O'].
          constructor. intros Z0. apply (f_equal (@List.length _)) in Z0. rewrite skipn_length in Z0. cbn in Z0. lia.
      - pose proof I as (E31 & E5 & P & M & W). destruct (Nat.eq_dec w (List.length all)) as [-> | N].
        + destruct (write_last s I) as (s' & E & A' & O'). rewrite E. exists s', [], Complete. split; [reflexivity|].
          rewrite skipn_all, A', A, app_nil_r. split; [constructor | exact O'].
        + assert (NE : skipn w all <> []).
          { intros Z0. apply (f_equal (@List.length _)) in Z0. rewrite skipn_length in Z0. cbn in Z0. lia. }
          pose proof (write_round w s I ltac:(lia)) as WR. rewrite A in WR. inversion F as [| ? ? Fe Fs]; subst. specialize (WR Fe).
          destruct e as [q | x | | c]; cbn [write_once honest] in *; [| contradiction | |].
          * assert (FN : firstn (Nat.min q (List.length (skipn w all))) (skipn w all) = firstn q (skipn w all)).
            { destruct (Nat.le_ge_cases q (List.length (skipn w all))) as [Q | Q].
              - rewrite Nat.min_l by exact Q. reflexivity.
              - rewrite Nat.min_r by exact Q. rewrite firstn_all. rewrite firstn_all2 by exact Q. reflexivity. }
            assert (SK : skipn (w + Nat.min q (List.length (skipn w all))) all = skipn q (skipn w all)).
            { apply list_eq_nth_error. intros j. rewrite !nth_error_skipn. rewrite skipn_length.
              destruct (Nat.le_ge_cases q (List.length all - w)) as [Q | Q].
              - rewrite Nat.min_l by exact Q. f_equal. lia.
              - rewrite Nat.min_r by exact Q. rewrite !(proj2 (nth_error_None _ _)) by lia. reflexivity. }
            destruct (Nat.min q (List.length (skipn w all))) as [| n] eqn:Em.
            -- assert (q = 0%nat) as -> by (rewrite skipn_length in Em; lia).
               destruct WR as (s' & E & A' & O'). rewrite E. exists s', [], Dropped. split; [reflexivity|].
               rewrite A', app_nil_r. split; [constructor; exact NE | exact O'].
            -- destruct WR as (s' & E & I' & A' & O'). rewrite E.
               destruct (IH _ _ k A' Fs I' ltac:(cbn in Hk; lia)) as (s'' & out & st & E2 & P2 & O2).
               exists s'', (firstn q (skipn w all) ++ out), st. split; [exact E2|]. rewrite SK in P2. split.
               ++ constructor; [exact NE | lia | exact P2].
               ++ rewrite O2, O', FN, app_assoc. reflexivity.
          * destruct WR as (s' & E & I' & A' & O'). rewrite E.
            destruct (IH _ _ k A' Fs I' ltac:(cbn in Hk; lia)) as (s'' & out & st & E2 & P2 & O2).
            exists s'', out, st. split; [exact E2|]. split; [constructor; [exact NE | exact P2] | rewrite O2, O'; reflexivity].
          * destruct WR as (s' & E & A' & O'). rewrite E. exists s', [], Dropped. split; [reflexivity|].
            rewrite A', app_nil_r. split; [constructor; exact NE | exact O'].
    Qed.
  End Write.
End Loops.
