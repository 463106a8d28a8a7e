(** The generated function as a whole. *)
From Verif Require Import Base IoModel IoProofs WasmIoModel WasmIoSpec WasmIoProofs.
From Coq Require Import ZifyBool.
Open Scope Z_scope.

Definition flag (newline : bool) : Z := if newline then 1 else 0.

Lemma pages_same n : 0 < n -> (n - 1) / 65536 + 1 = pages_for n.
Proof.
  intros H. unfold pages_for. replace (n + 65535) with (n - 1 + 1 * 65536) by lia. rewrite Z.div_add by lia. reflexivity.
Qed.
Lemma pages_cover n : n <= pages_for n * 65536.
Proof. unfold pages_for. pose proof (Z.div_mod (n + 65535) 65536). pose proof (Z.mod_pos_bound (n + 65535) 65536). lia. Qed.
Lemma pages_bound n : n < word -> pages_for n <= 65536.
Proof. intros H. unfold pages_for, word in *. assert ((n + 65535) / 65536 < 65537) by (apply Z.div_lt_upper_bound; lia). lia. Qed.
Lemma pages_pos n : 0 < n -> 0 < pages_for n.
Proof. intros H. unfold pages_for. apply Z.div_str_pos. lia. Qed.
Lemma reserved_is base : scratch_offset base = reserved base.
Proof. unfold scratch_offset, nwritten_offset, iovec_offset, reserved. lia. Qed.
Lemma reserved_pos base : 0 <= base -> 12 <= reserved base.
Proof. intros H. unfold reserved. assert (0 <= (base + 3) / 4) by (apply Z.div_pos; lia). lia. Qed.
Lemma u32_over z : word <= z < word + word -> u32 z = z - word.
Proof. intros H. unfold u32. rewrite <- (Z.mod_add z (-1) word) by (unfold word; lia). rewrite Z.mod_small by lia. lia. Qed.

Section Helper.
  Variable base : Z.
  Variable bytes : byte_string.
  Variable grows : Z -> Z -> bool.
  Variable rounds : nat.
  Variable newline : bool.
  Notation R := (run bytes grows rounds).
  Hypothesis base_ok : 0 <= base.
  Hypothesis res_ok : reserved base < word.
  Hypothesis bytes_ok : valid_bytes (barray bytes) (boffset bytes) (blength bytes).
  Notation content := (part (barray bytes) (boffset bytes) (blength bytes)).
  Notation all := (line content newline).

  Lemma content_length : Z.of_nat (List.length content) = blength bytes.
  Proof. destruct bytes_ok as (A & B & C & D & E). unfold part. rewrite firstn_length, skipn_length. lia. Qed.
  Lemma line_length : Z.of_nat (List.length all) = blength bytes + flag newline.
  Proof. unfold line. rewrite app_length, Nat2Z.inj_add, content_length. unfold flag. destruct newline; reflexivity. Qed.
  Lemma need : needed base all = scratch_offset base + (blength bytes + flag newline).
  Proof. unfold needed. rewrite line_length, reserved_is. reflexivity. Qed.

  (** What holds after the checks. *)
  Definition ready (m : Z -> Z) (pgs : Z) sched out (s : iostate) : Prop :=
    env s 1%nat = flag newline /\ env s 3%nat = boffset bytes /\ env s 4%nat = blength bytes /\
    env s 5%nat = blength bytes + flag newline /\ env s 7%nat = scratch_offset base /\ env s 21%nat = 0 /\
    needed base all <= pages s * page /\ answers s = sched /\ output s = out.

  Lemma setup_ready m pgs sched out : 0 <= pgs <= 65536 -> needed base all < word -> memory_suffices grows pgs (needed base all) ->
    exists s, run_list R (setup_code base) (start (flag newline) m pgs sched out) = INext s /\ ready m pgs sched out s.
  Proof.
    intros Hp Hn Hm. pose proof need as N. destruct bytes_ok as (B1 & B2 & B3 & B4 & B5). fold word in B4.
    pose proof (reserved_pos base base_ok) as RP. rewrite <- reserved_is in RP.
    assert (F : 0 <= flag newline <= 1) by (unfold flag; destruct newline; lia).
    unfold start, setup_code, trap_if_less, trap_if, ensure_memory. cbn [app]. unfold trap_if. cbn [app].
    steps. rewrite (u32_small (blength bytes + flag newline)) by (unfold word in *; lia).
    replace (blength bytes + flag newline <? blength bytes) with false by lia. cbn [b2z Z.eqb run_list leave]. steps.
    rewrite (u32_small (scratch_offset base)) by (unfold word in *; lia).
    rewrite (u32_small (scratch_offset base + (blength bytes + flag newline))) by (unfold word in *; lia).
    replace (scratch_offset base + (blength bytes + flag newline) <? blength bytes + flag newline) with false by lia.
    cbn [b2z Z.eqb run_list leave]. steps.
    rewrite (u32_small 1) by (unfold word; lia). rewrite (u32_small 65536) by (unfold word; lia). steps.
    rewrite <- N. set (n := needed base all) in *. rewrite (u32_small (n - 1)) by (unfold word in *; lia).
    assert (PB := pages_bound n Hn). assert (PP := pages_pos n ltac:(lia)). assert (PC := pages_cover n).
    rewrite pages_same by lia. rewrite (u32_small (pages_for n)) by (unfold word; lia).
    destruct (pgs <? pages_for n) eqn:G.
    - cbn [b2z Z.eqb]. steps. rewrite (u32_small (pages_for n - pgs)) by (unfold word; lia).
      destruct Hm as [Hm | Hm]; [lia|]. rewrite Hm. replace (pgs + (pages_for n - pgs) <=? 65536) with true by lia. cbn [andb]. steps.
      replace (pgs =? u32 (-1)) with false.
      2:{ change (u32 (-1)) with 4294967295. lia. }
      cbn [b2z Z.eqb run_list leave]. steps. cbn [leave]. steps.
      eexists. split; [reflexivity|]. unfold ready. env_red. rewrite (u32_small 0) by (unfold word; lia).
      repeat split. unfold page. fold n. replace (pgs + (pages_for n - pgs)) with (pages_for n) by lia. exact PC.
    - cbn [b2z Z.eqb run_list leave]. steps.
      eexists. split; [reflexivity|]. unfold ready. env_red. rewrite (u32_small 0) by (unfold word; lia).
      repeat split. unfold page. fold n. lia.
  Qed.
  (** The text is too long for 32-bit addresses. *)
  Lemma setup_too_long m pgs sched out : word <= needed base all ->
    exists s, run_list R (setup_code base) (start (flag newline) m pgs sched out) = ITrapped s /\ output s = out /\ answers s = sched.
  Proof.
    intros Hn. pose proof need as N. destruct bytes_ok as (B1 & B2 & B3 & B4 & B5). fold word in B4.
    pose proof (reserved_pos base base_ok) as RP. rewrite <- reserved_is in RP. rewrite <- reserved_is in res_ok.
    assert (F : 0 <= flag newline <= 1) by (unfold flag; destruct newline; lia).
    unfold start, setup_code, trap_if_less, trap_if, ensure_memory. cbn [app]. unfold trap_if. cbn [app].
    steps. destruct (Z.lt_ge_cases (blength bytes + flag newline) word) as [L | L].
    - rewrite (u32_small (blength bytes + flag newline)) by (unfold word in *; lia).
      replace (blength bytes + flag newline <? blength bytes) with false by lia. cbn [b2z Z.eqb run_list leave]. steps.
      rewrite (u32_small (scratch_offset base)) by (unfold word in *; lia).
      rewrite (u32_over (scratch_offset base + (blength bytes + flag newline))) by (unfold word in *; lia).
      replace (scratch_offset base + (blength bytes + flag newline) - word <? blength bytes + flag newline) with true by lia.
      cbn [b2z Z.eqb run_list run leave]. eexists. split; [reflexivity|]. env_red. split; reflexivity.
    - rewrite (u32_over (blength bytes + flag newline)) by (unfold word in *; lia).
      replace (blength bytes + flag newline - word <? blength bytes) with true by (unfold word in *; lia).
      cbn [b2z Z.eqb run_list run leave]. eexists. split; [reflexivity|]. env_red. split; reflexivity.
  Qed.
  Lemma setup_no_memory m pgs sched out : 0 <= pgs <= 65536 -> needed base all < word -> ~ memory_suffices grows pgs (needed base all) ->
    exists s, run_list R (setup_code base) (start (flag newline) m pgs sched out) = ITrapped s /\ output s = out /\ answers s = sched.
  Proof.
    intros Hp Hn Hm. pose proof need as N. destruct bytes_ok as (B1 & B2 & B3 & B4 & B5). fold word in B4.
    pose proof (reserved_pos base base_ok) as RP. rewrite <- reserved_is in RP.
    assert (F : 0 <= flag newline <= 1) by (unfold flag; destruct newline; lia).
    unfold start, setup_code, trap_if_less, trap_if, ensure_memory. cbn [app]. unfold trap_if. cbn [app].
    steps. rewrite (u32_small (blength bytes + flag newline)) by (unfold word in *; lia).
    replace (blength bytes + flag newline <? blength bytes) with false by lia. cbn [b2z Z.eqb run_list leave]. steps.
    rewrite (u32_small (scratch_offset base)) by (unfold word in *; lia).
    rewrite (u32_small (scratch_offset base + (blength bytes + flag newline))) by (unfold word in *; lia).
    replace (scratch_offset base + (blength bytes + flag newline) <? blength bytes + flag newline) with false by lia.
    cbn [b2z Z.eqb run_list leave]. steps.
    rewrite (u32_small 1) by (unfold word; lia). rewrite (u32_small 65536) by (unfold word; lia). steps.
    rewrite <- N. set (n := needed base all) in *. rewrite (u32_small (n - 1)) by (unfold word in *; lia).
    assert (PB := pages_bound n Hn). assert (PP := pages_pos n ltac:(lia)).
    rewrite pages_same by lia. rewrite (u32_small (pages_for n)) by (unfold word; lia).
    unfold memory_suffices in Hm.
    replace (pgs <? pages_for n) with true by lia.
    cbn [b2z Z.eqb]. steps. rewrite (u32_small (pages_for n - pgs)) by (unfold word; lia).
    replace (grows pgs (pages_for n - pgs)) with false by (destruct (grows pgs (pages_for n - pgs)); [exfalso; apply Hm; right; reflexivity | reflexivity]).
    cbn [andb]. steps. rewrite Z.eqb_refl. cbn [b2z Z.eqb run_list run leave]. eexists. split; [reflexivity|]. env_red. split; reflexivity.
  Qed.

  Lemma helper_prints m pgs sched out : 0 <= pgs <= 65536 -> needed base all < word -> memory_suffices grows pgs (needed base all) ->
    Forall honest sched -> (S (List.length sched) < rounds)%nat -> (List.length content < rounds)%nat ->
    exists s' o st,
      call_helper base bytes grows rounds (flag newline) m pgs sched out = match st with Unanswered => IWaiting s' | _ => IReturned s' end /\
      printed all sched o st (answers s') /\ output s' = out ++ o.
  Proof.
    intros Hp Hn Hm Hh Hr1 Hr2.
    destruct (setup_ready m pgs sched out Hp Hn Hm) as (s & E & E1 & E3 & E4 & E5 & E7 & E21 & P & A & O).
    pose proof bytes_ok as (B1 & B2 & B3 & B4 & B5). fold word in B4. pose proof need as N. pose proof content_length as CL.
    pose proof (reserved_pos base base_ok) as RP. rewrite <- reserved_is in RP.
    assert (F : 0 <= flag newline <= 1) by (unfold flag; destruct newline; lia).
    unfold call_helper. rewrite emitted, run_list_app, E.
    (* the copy loop *)
    rewrite run_list_cons. cbn [run]. rewrite run_list_cons. cbn [run]. rewrite E21.
    set (s1 := with_env s (upd (env s) 22 0)).
    destruct (copy_all bytes grows rounds B1 B2 B3 B4 B5 (scratch_offset base) s1 ltac:(lia) ltac:(lia) ltac:(subst s1; env_red; lia)
                (Z.to_nat (blength bytes)) 0%nat s1 rounds ltac:(lia) ltac:(lia) ltac:(lia)) as (s2 & Ec & C).
    { unfold copying. subst s1. env_red. repeat split; try assumption. intros j Hj. lia. }
    rewrite Ec. cbn [leave]. destruct C as (_ & D3 & D4 & D7 & D1 & D5 & D21 & DP & DA & DO & DM). subst s1.
    cbn [env with_env upd Nat.eqb pages answers output] in D1, D5, D21, DP, DA, DO.
    fold (part (barray bytes) (boffset bytes) (blength bytes)) in DM. unfold text in DM.
    (* the newline *)
    rewrite run_list_cons. cbn [run iobin_value]. rewrite D7, D4. rewrite (u32_small (scratch_offset base + blength bytes)) by (unfold word in *; lia).
    cbn [put]. rewrite run_list_cons. cbn [run]. env_red. rewrite D1, E1.
    assert (NL : exists s3, leave (run_list R (if flag newline =? 0 then [] else [IConst 30 10; IStore8 29 30 0])
                     (with_env s2 (upd (env s2) 29 (scratch_offset base + blength bytes)))) = INext s3 /\
                   env s3 5%nat = blength bytes + flag newline /\ env s3 21%nat = 0 /\ pages s3 = pages s /\ answers s3 = sched /\ output s3 = out /\
                   bytes_at (mem s3) (scratch_offset base) (List.length all) = all).
    { unfold line, flag. destruct newline; cbn [Z.eqb].
      - steps. unfold in_memory. env_red. rewrite Z.add_0_r. replace (0 <=? scratch_offset base + blength bytes) with true by lia.
        unfold flag in N, P. rewrite N in P.
        replace (scratch_offset base + blength bytes + 1 <=? pages s2 * page) with true by (rewrite DP; lia). cbn [andb leave].
        eexists. split; [reflexivity|]. env_red. rewrite D5, E5, D21, E21, DP, DA, A, DO, O.
        repeat split. apply list_eq_nth_error. intros i. rewrite app_length. cbn [List.length].
        destruct (Nat.lt_ge_cases i (List.length content + 1)) as [L | L].
        2:{ rewrite !(proj2 (nth_error_None _ _)); [reflexivity | rewrite app_length; cbn; lia | rewrite bytes_at_length; exact L]. }
        rewrite nth_error_bytes_at by exact L.
        destruct (Nat.eq_dec i (List.length content)) as [-> | NE].
        + rewrite nth_error_app2 by lia. rewrite Nat.sub_diag. cbn [nth_error]. rewrite CL. rewrite (u32_small 10) by (unfold word; lia).
          rewrite store8_same by lia. reflexivity.
        + rewrite nth_error_app1 by lia. rewrite store8_other by lia. symmetry. apply DM. lia.
      - cbn [run_list leave]. eexists. split; [reflexivity|]. env_red. rewrite D5, E5, D21, E21, DP, DA, A, DO, O.
        repeat split. rewrite app_nil_r. apply list_eq_nth_error. intros i.
        destruct (Nat.lt_ge_cases i (List.length content)) as [L | L].
        + rewrite nth_error_bytes_at by exact L. symmetry. apply DM. lia.
        + rewrite !(proj2 (nth_error_None _ _)); [reflexivity | lia | rewrite bytes_at_length; exact L]. }
    destruct NL as (s3 & En & G5 & G21 & GP & GA & GO & GM). rewrite En.
    (* the write loop *)
    rewrite run_list_cons. cbn [run]. rewrite run_list_cons. cbn [run]. rewrite G21.
    set (s4 := with_env s3 (upd (env s3) 31 0)).
    destruct (write_all bytes grows rounds base base_ok all ltac:(rewrite line_length; lia) sched 0%nat s4 rounds) as (s5 & o & st & Ew & Pw & Ow).
    { subst s4. env_red. exact GA. }
    { exact Hh. }
    { unfold writing. subst s4. env_red. rewrite line_length. repeat split; try assumption; try lia. }
    { exact Hr1. }
    exists s5, o, st. split; [| split; [exact Pw | rewrite Ow; subst s4; env_red; rewrite GO; reflexivity]].
    rewrite Ew. destruct st; reflexivity.
  Qed.

  Lemma helper_traps m pgs sched out : 0 <= pgs <= 65536 ->
    (word <= needed base all \/ (needed base all < word /\ ~ memory_suffices grows pgs (needed base all))) ->
    exists s, call_helper base bytes grows rounds (flag newline) m pgs sched out = ITrapped s /\ output s = out /\ answers s = sched.
  Proof.
    intros Hp [H | [H1 H2]].
    - destruct (setup_too_long m pgs sched out H) as (s & E & O & A). exists s. unfold call_helper. rewrite emitted, run_list_app, E.
      repeat split; assumption.
    - destruct (setup_no_memory m pgs sched out Hp H1 H2) as (s & E & O & A). exists s. unfold call_helper. rewrite emitted, run_list_app, E.
      repeat split; assumption.
  Qed.
End Helper.

(** ** Consequences of [printed] *)
Lemma printed_prefix text sched out st rest : printed text sched out st rest ->
  (exists missing, text = out ++ missing /\ (st = Complete -> missing = [])) /\
  (exists used, sched = used ++ rest /\ (st = Dropped -> exists e, In e used /\ ~ helpful e)).
Proof.
  induction 1 as [sched | text N | text k sched out st rest N K P [(ms & E & C) (us & E2 & D)] | text sched out st rest N P [(ms & E & C) (us & E2 & D)]
                 | text sched N | text c sched N].
  - split; [exists []; split; [reflexivity | intros _; reflexivity] | exists []; split; [reflexivity | discriminate]].
  - split; [exists text; split; [reflexivity | discriminate] | exists []; split; [reflexivity | discriminate]].
  - split.
    + exists ms. split; [| exact C]. rewrite <- app_assoc, <- E, firstn_skipn. reflexivity.
    + exists (WAccept k :: us). split; [rewrite E2; reflexivity|]. intros X. destruct (D X) as (e & I & H). exists e. split; [right; exact I | exact H].
  - split; [exists ms; split; assumption|]. exists (WIntr :: us). split; [rewrite E2; reflexivity|].
    intros X. destruct (D X) as (e & I & H). exists e. split; [right; exact I | exact H].
  - split; [exists text; split; [reflexivity | discriminate]|]. exists [WAccept 0]. split; [reflexivity|]. intros _.
    exists (WAccept 0). split; [left; reflexivity | cbn; lia].
  - split; [exists text; split; [reflexivity | discriminate]|]. exists [WFail c]. split; [reflexivity|]. intros _.
    exists (WFail c). split; [left; reflexivity | exact (fun x => x)].
Qed.
Lemma printed_complete text sched out st rest : printed text sched out st rest -> Forall helpful sched -> (List.length text <= room sched)%nat ->
  st = Complete /\ out = text.
Proof.
  unfold room. induction 1 as [sched | text N | text k sched out st rest N K P IH | text sched out st rest N P IH | text sched N | text c sched N]; intros F Rm.
  - split; reflexivity.
  - destruct text; [contradiction | cbn in Rm; lia].
  - inversion F; subst. cbn [map list_sum fold_right takes] in Rm. destruct IH as [-> ->]; [assumption | rewrite skipn_length; unfold list_sum; lia|].
    split; [reflexivity | apply firstn_skipn].
  - inversion F; subst. apply IH; assumption.
  - inversion F as [| ? ? X ?]; subst. cbn in X. lia.
  - inversion F as [| ? ? X ?]; subst. contradiction.
Qed.
(** The native loop does the same. *)
Lemma printed_native text sched out st rest : printed text sched out st rest ->
  write_all_with text sched = (match st with Complete => WDone true | Dropped => WDone false | Unanswered => WWaiting end, out, rest).
Proof.
  induction 1 as [sched | text N | text k sched out st rest N K P IH | text sched out st rest N P IH | text sched N | text c sched N].
  - destruct sched; reflexivity.
  - destruct text; [contradiction | reflexivity].
  - destruct text as [| b text]; [contradiction|]. cbn [write_all_with]. unfold taken. cbn [write_once].
    assert (L : (Nat.min k (List.length (b :: text)) <=? List.length (b :: text))%nat = true) by (apply Nat.leb_le; lia).
    assert (FN : firstn (Nat.min k (List.length (b :: text))) (b :: text) = firstn k (b :: text)).
    { destruct (Nat.le_ge_cases k (List.length (b :: text))) as [Q | Q].
      - rewrite Nat.min_l by exact Q. reflexivity.
      - rewrite Nat.min_r by exact Q. rewrite firstn_all. rewrite firstn_all2 by exact Q. reflexivity. }
    assert (SK : skipn (Nat.min k (List.length (b :: text))) (b :: text) = skipn k (b :: text)).
    { destruct (Nat.le_ge_cases k (List.length (b :: text))) as [Q | Q].
      - rewrite Nat.min_l by exact Q. reflexivity.
      - rewrite Nat.min_r by exact Q. rewrite skipn_all. rewrite skipn_all2 by exact Q. reflexivity. }
    rewrite FN, L. rewrite SK, IH. destruct (Nat.min k (List.length (b :: text))) as [| n] eqn:Em; [cbn [List.length] in Em; lia|]. reflexivity.
  - destruct text as [| b text]; [contradiction|]. cbn [write_all_with]. unfold taken. cbn [write_once]. rewrite IH. reflexivity.
  - destruct text as [| b text]; [contradiction|]. reflexivity.
  - destruct text as [| b text]; [contradiction|]. reflexivity.
Qed.

Lemma wasm_prints base l from n newline grows rounds m pgs sched out :
  0 <= base -> reserved base < 4294967296 -> valid_bytes l from n -> 0 <= pgs <= 65536 ->
  needed base (line (part l from n) newline) < 4294967296 ->
  memory_suffices grows pgs (needed base (line (part l from n) newline)) ->
  Forall honest sched -> (S (List.length sched) < rounds)%nat -> (List.length (part l from n) < rounds)%nat ->
  exists s' o st,
    call_helper base (mkBytes l from n) grows rounds (if newline then 1 else 0) m pgs sched out =
      match st with Unanswered => IWaiting s' | _ => IReturned s' end /\
    printed (line (part l from n) newline) sched o st (answers s') /\ output s' = out ++ o.
Proof.
  intros B Rs V P N M H R1 R2.
  exact (helper_prints base (mkBytes l from n) grows rounds newline B V m pgs sched out P N M H R1 R2).
Qed.
Lemma wasm_stops base l from n newline grows rounds m pgs sched out :
  0 <= base -> reserved base < 4294967296 -> valid_bytes l from n -> 0 <= pgs <= 65536 ->
  (4294967296 <= needed base (line (part l from n) newline) \/
   (needed base (line (part l from n) newline) < 4294967296 /\ ~ memory_suffices grows pgs (needed base (line (part l from n) newline)))) ->
  exists s', call_helper base (mkBytes l from n) grows rounds (if newline then 1 else 0) m pgs sched out = ITrapped s' /\
    output s' = out /\ answers s' = sched.
Proof.
  intros B Rs V P H. exact (helper_traps base (mkBytes l from n) grows rounds newline B Rs V m pgs sched out P H).
Qed.
Lemma helpful_honest e : helpful e -> honest e.
Proof. destruct e; cbn; tauto. Qed.
Lemma wasm_completes base l from n newline grows rounds m pgs sched out :
  0 <= base -> reserved base < 4294967296 -> valid_bytes l from n -> 0 <= pgs <= 65536 ->
  needed base (line (part l from n) newline) < 4294967296 ->
  memory_suffices grows pgs (needed base (line (part l from n) newline)) ->
  Forall helpful sched -> (List.length (line (part l from n) newline) <= room sched)%nat ->
  (S (List.length sched) < rounds)%nat -> (List.length (part l from n) < rounds)%nat ->
  exists s', call_helper base (mkBytes l from n) grows rounds (if newline then 1 else 0) m pgs sched out = IReturned s' /\
    output s' = out ++ line (part l from n) newline.
Proof.
  intros B Rs V P N M H Rm R1 R2.
  destruct (wasm_prints base l from n newline grows rounds m pgs sched out B Rs V P N M) as (s' & o & st & E & Pr & O); try assumption.
  { eapply Forall_impl; [exact helpful_honest | exact H]. }
  destruct (printed_complete _ _ _ _ _ Pr H Rm) as [-> ->]. exists s'. split; assumption.
Qed.
Lemma same_output text sched out st rest : printed (line text false) sched out st rest -> snd (io_write text 0 sched) = out.
Proof.
  unfold line. rewrite app_nil_r. intros P. apply printed_native in P. unfold io_write, bytes_print.
  assert (E : match text with [] => (WDone true, [], sched) | _ => write_all_with text sched end = write_all_with text sched)
    by (destruct text; [destruct sched; reflexivity | reflexivity]).
  rewrite E, P. destruct st; reflexivity.
Qed.
Lemma accepts_room sched : Forall helpful sched -> (accepts sched <= room sched)%nat.
Proof.
  induction 1 as [| e sched H F IH]; [cbn; lia|]. unfold accepts, room in *.
  destruct e as [k | x | | c]; cbn [helpful] in H; try contradiction.
  - destruct k as [| k]; [lia|]. cbn [filter List.length map takes list_sum fold_right]. unfold list_sum in IH. lia.
  - cbn [filter List.length map takes list_sum fold_right]. unfold list_sum in IH. lia.
Qed.
Lemma helpful_soft e : helpful e -> soft e.
Proof. destruct e as [[| k] | x | | c]; cbn; try tauto. lia. Qed.
Lemma same_line text sched out st rest : printed (line text true) sched out st rest -> Forall helpful sched ->
  (List.length text + 1 <= accepts sched)%nat -> snd (io_write text 1 sched) = out.
Proof.
  intros P H A. pose proof (accepts_room sched H) as AR.
  destruct (printed_complete _ _ _ _ _ P H) as [-> ->].
  { unfold line. rewrite app_length. cbn. lia. }
  destruct (io_write_progress_lemma text 1 sched) as (r2 & E & _).
  { eapply Forall_impl; [exact helpful_soft | exact H]. }
  { exact A. }
  rewrite E. reflexivity.
Qed.
