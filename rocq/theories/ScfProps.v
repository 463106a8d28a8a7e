(** C24: lowering if, loop and switch to branches. *)
From Verif Require Import ScfModel ScfSpec IrProofs IrInvProofs ScfSim ScfClean IrProps.
From Coq Require Import Lia.

(** Each region of the program behaves, after the lowering, as before it: on all inputs and against every world. *)
Theorem lowering_keeps_behaviour : forall (V E A : Type) shape_of case_value (effect : nat -> list V -> act (V := V) (E := E) (A := A)) truth equal answer
    br_kind cond_br_kind cmp_kind bool_type const_kind lit,
  makes shape_of effect truth equal br_kind cond_br_kind cmp_kind const_kind lit ->
  forall history c dead P fuel depth c', exec_all (empty_ctx, []) history = Some (c, dead) -> expected shape_of c dead P ->
  transform_region shape_of br_kind cond_br_kind cmp_kind bool_type const_kind case_value fuel depth c P = Some c' ->
  forall r inputs v, program_region shape_of c dead P r ->
  let before := seen shape_of case_value effect truth equal answer c r inputs (fun _ => v) in
  let after := seen shape_of case_value effect truth equal answer c' r inputs (fun _ => v) in
  goes_right before -> alike before after.
Proof.
  intros V E A shape_of case_value effect truth equal answer br_kind cond_br_kind cmp_kind bool_type const_kind lit [Kb Kc Kk (Kq & Ke)] history c dead P fuel depth c' R X H r inputs v Pr.
  exact (kept_alike shape_of case_value effect truth equal answer br_kind cond_br_kind cmp_kind bool_type const_kind lit Kb Kc (fun a => proj1 (Kk a)) Kq (fun a => proj2 (Kk a)) Ke depth fuel c dead P c' r inputs v (reachable_inv _ _ _ R) X H Pr).
Qed.
Print Assumptions lowering_keeps_behaviour.

(** In particular: the same result after the same dialogue with the world, and divergence exactly if the program diverges. *)
Theorem lowering_same_results : forall (V E A : Type) shape_of case_value (effect : nat -> list V -> act (V := V) (E := E) (A := A)) truth equal answer
    br_kind cond_br_kind cmp_kind bool_type const_kind lit,
  makes shape_of effect truth equal br_kind cond_br_kind cmp_kind const_kind lit ->
  forall history c dead P fuel depth c', exec_all (empty_ctx, []) history = Some (c, dead) -> expected shape_of c dead P ->
  transform_region shape_of br_kind cond_br_kind cmp_kind bool_type const_kind case_value fuel depth c P = Some c' ->
  forall r inputs v, program_region shape_of c dead P r ->
  let before := seen shape_of case_value effect truth equal answer c r inputs (fun _ => v) in
  let after := seen shape_of case_value effect truth equal answer c' r inputs (fun _ => v) in
  goes_right before ->
  (forall x dialogue, (exists n, before n = (Some x, dialogue)) <-> (exists n, after n = (Some x, dialogue))) /\
  ((forall n, fst (before n) = None) <-> (forall n, fst (after n) = None)) /\
  (forall dialogue, (exists n, snd (before n) = dialogue) <-> (exists n, snd (after n) = dialogue)).
Proof.
  intros V E A shape_of case_value effect truth equal answer br_kind cond_br_kind cmp_kind bool_type const_kind lit M history c dead P fuel depth c' R X H r inputs v Pr before after G.
  destruct (lowering_keeps_behaviour V E A shape_of case_value effect truth equal answer br_kind cond_br_kind cmp_kind bool_type const_kind lit M history c dead P fuel depth c' R X H r inputs v Pr G) as (F & B).
  fold before after in F, B. split; [|split].
  - intros x d. split; intros (n & K); [destruct (F n) as (m & Em) | destruct (B n) as (m & Em)]; exists m; congruence.
  - split; intros K n; [destruct (B n) as (m & Em) | destruct (F n) as (m & Em)]; rewrite <- Em; apply K.
  - intros d. split; intros (n & K); [destruct (F n) as (m & Em) | destruct (B n) as (m & Em)]; exists m; congruence.
Qed.
Print Assumptions lowering_same_results.

(** No if, loop or switch is left, at any depth. *)
Theorem lowering_leaves_no_structure : forall shape_of case_value br_kind cond_br_kind cmp_kind bool_type const_kind,
  shape_of br_kind = SBr -> shape_of cond_br_kind = SCondBr -> (forall a, shape_of (const_kind a) = SPlain) -> shape_of cmp_kind = SPlain ->
  forall history c dead P fuel depth c', exec_all (empty_ctx, []) history = Some (c, dead) -> expected shape_of c dead P ->
  transform_region shape_of br_kind cond_br_kind cmp_kind bool_type const_kind case_value fuel depth c P = Some c' ->
  forall x d, deep c' P x -> nth_error (ops c') x = Some d -> is_flow (shape_of (o_kind d)) = false.
Proof.
  intros shape_of case_value br_kind cond_br_kind cmp_kind bool_type const_kind Kb Kc Kk Kq history c dead P fuel depth c' R X H.
  exact (none_left (V := nat) (E := nat) (A := nat) shape_of case_value (fun _ _ => Finish [0]) (fun _ => true) (fun _ _ => true) (fun _ _ => 0) br_kind cond_br_kind cmp_kind bool_type const_kind (fun _ => 0) Kb Kc Kk Kq (fun _ => eq_refl) (fun _ _ => ex_intro _ 0 (conj eq_refl eq_refl)) depth fuel c dead P c' (reachable_inv _ _ _ R) X H).
Qed.
Print Assumptions lowering_leaves_no_structure.

(** ** A program with a loop, a switch and an if *)
(** Kinds: 1 if, 2 loop, 3 switch, 4 default, 5 yield, 6 continue, 7 break, 8 br, 9 cond_br, 10 return, 11 print, 12 comparison,
    13 function, 14 decrement, 20 + 2 a: case a, 21 + 2 a: constant a. *)
Definition demo_shape (k : nat) : shape :=
  match k with
  | 1 => SIf | 2 => SLoop | 3 => SSwitch | 4 => SDefault | 5 => SYield | 6 => SContinue | 7 => SBreak | 8 => SBr | 9 => SCondBr
  | _ => if (20 <=? k) && Nat.even k then SCase else SPlain
  end.
Definition demo_case (k : nat) : nat := Nat.div2 (k - 20).
Definition demo_const (a : nat) : nat := 21 + 2 * a.
Definition demo_effect (k : nat) (xs : list nat) : act (V := nat) (E := nat) (A := nat) :=
  match k, xs with
  | 10, _ => Return xs
  | 11, x :: _ => Perform x (fun _ => Finish [])
  | 12, [x; y] => Finish [if Nat.eqb x y then 1 else 0]
  | 14, x :: _ => Finish [x - 1]
  | _, _ => if 20 <=? k then Finish [Nat.div2 (k - 21)] else Finish []
  end.
Definition demo_truth (x : nat) : bool := negb (Nat.eqb x 0).
Definition demo_world (tr : list (nat * nat)) (e : nat) : nat := length tr.
Lemma demo_makes : makes demo_shape demo_effect demo_truth Nat.eqb 8 9 12 demo_const (fun a => a).
Proof.
  assert (K : forall a, 20 <=? demo_const a = true /\ Nat.even (demo_const a) = false /\ Nat.div2 (demo_const a - 21) = a).
  { intros a. unfold demo_const. split; [reflexivity|]. split; [rewrite Nat.even_add, Nat.even_mul; reflexivity|]. replace (21 + 2 * a - 21) with (2 * a) by lia. apply Nat.div2_double. }
  constructor; [reflexivity | reflexivity | | split; [reflexivity|]].
  - intros a. destruct (K a) as (K1 & K2 & K3). split.
    + unfold demo_shape. rewrite K1, K2. unfold demo_const. reflexivity.
    + unfold demo_effect. rewrite K1, K3. unfold demo_const. reflexivity.
  - intros v a. eexists. split; [reflexivity|]. destruct (Nat.eqb v a); reflexivity.
Qed.
(** func(n) { s = loop(n) { i => print i; switch i { 0 => {}, 5 => break 7, _ => {} }; continue (if i { i - 1 } else { break 9 }) }; return s } *)
Definition countdown : list cmd :=
  [CreateBlock [0]; CreateBlock [0];
   CreateOp 11 [1] [] [] []; PushOp 1 0;
   CreateBlock []; CreateOp 5 [] [] [] []; PushOp 2 1; CreateRegion [2]; CreateOp 20 [] [] [0] [];
   CreateBlock []; CreateOp (demo_const 7) [] [0] [] []; PushOp 3 3; CreateOp 7 [2] [] [] []; PushOp 3 4; CreateRegion [3]; CreateOp 30 [] [] [1] [];
   CreateBlock []; CreateOp 5 [] [] [] []; PushOp 4 6; CreateRegion [4]; CreateOp 4 [] [] [2] [];
   CreateBlock []; PushOp 5 2; PushOp 5 5; PushOp 5 7; CreateRegion [5]; CreateOp 3 [1] [] [3] []; PushOp 1 8;
   CreateBlock []; CreateOp 14 [1] [0] [] []; PushOp 6 9; CreateOp 5 [3] [] [] []; PushOp 6 10; CreateRegion [6];
   CreateBlock []; CreateOp (demo_const 9) [] [0] [] []; PushOp 7 11; CreateOp 7 [4] [] [] []; PushOp 7 12; CreateRegion [7];
   CreateOp 1 [1] [0] [4; 5] []; PushOp 1 13; CreateOp 6 [5] [] [] []; PushOp 1 14; CreateRegion [1];
   CreateOp 2 [0] [0] [6] []; PushOp 0 15; CreateOp 10 [6] [] [] []; PushOp 0 16; CreateRegion [0];
   CreateOp 13 [] [] [7] []; CreateBlock []; PushOp 8 17; CreateRegion [8]].

(** Checks for concrete programs without disposed operations, in which inner operations have smaller numbers. *)
Definition nested_ok (c : ctx) : bool :=
  forallb (fun q => match r_parent q with
                    | Some o => forallb (fun b => match nth_error (blocks c) b with Some bd => forallb (fun x => x <? o) (b_ops bd) | None => true end) (r_blocks q)
                    | None => true
                    end) (regions c).
Definition operands_ok (c : ctx) : bool :=
  forallb (fun x => match nth_error (ops c) x with
                    | Some d => forallb (fun v => (v <? length (vals c)) && negb (existsb (Nat.eqb v) (op_results c x))) (o_operands d)
                    | None => true
                    end) (seq 0 (length (ops c))).
Definition shapes_ok (sh : nat -> shape) (c : ctx) (P : nat) : bool :=
  forallb (fun x => match nth_error (ops c) x with
                    | Some d => (negb (is_end (sh (o_kind d))) || match o_regions d with [] => true | _ => false end) &&
                                match sh (o_kind d) with SIf | SLoop => length (op_results c x) <=? 1 | SSwitch => match op_results c x with [] => true | _ => false end | _ => true end
                    | None => true
                    end) (seq 0 (length (ops c))).
Definition owner_ok (sh : nat -> shape) (c : ctx) (P : nat) : bool :=
  match nth_error (regions c) P with
  | Some q => match r_parent q with Some o => match nth_error (ops c) o with Some d => negb (structured (sh (o_kind d))) | None => true end | None => true end
  | None => true
  end.
Lemma nested_sound c : nested_ok c = true -> forall x q o, stands c x q -> region_parent c q o -> x < o.
Proof.
  intros H x q o (b & (bd & Eb & Kb) & (rd & Eq & Kq)) (rd' & Eq' & Po). rewrite Eq in Eq'. injection Eq' as <-.
  unfold nested_ok in H. rewrite forallb_forall in H. specialize (H rd (nth_error_In _ _ Eq)). rewrite Po in H. rewrite forallb_forall in H. specialize (H b Kq). rewrite Eb in H. rewrite forallb_forall in H. apply Nat.ltb_lt. apply H. exact Kb.
Qed.
Lemma tidy_sound c : nested_ok c = true -> operands_ok c = true -> tidy c [].
Proof.
  intros N O. constructor.
  - exists (fun x => x). apply nested_sound. exact N.
  - intros x d v Ed _ Kv. unfold operands_ok in O. rewrite forallb_forall in O. assert (L : x < length (ops c)) by (apply nth_error_Some; congruence). specialize (O x (proj2 (in_seq _ _ _) (conj (Nat.le_0_l _) L))). rewrite Ed in O. rewrite forallb_forall in O. specialize (O v Kv). apply andb_true_iff in O. destruct O as (O1 & O2). split; [apply Nat.ltb_lt; exact O1|].
    intros K. apply negb_true_iff in O2. assert (F : existsb (Nat.eqb v) (op_results c x) = true) by (apply existsb_exists; exists v; split; [exact K | apply Nat.eqb_refl]). congruence.
  - intros x q _ _ [].
Qed.
Lemma expected_sound sh c P : nested_ok c = true -> operands_ok c = true -> shapes_ok sh c P = true -> owner_ok sh c P = true -> expected sh c [] P.
Proof.
  intros N O S W. assert (Sx : forall x d, nth_error (ops c) x = Some d -> (is_end (sh (o_kind d)) = true -> o_regions d = []) /\ match sh (o_kind d) with SIf | SLoop => length (op_results c x) <= 1 | SSwitch => op_results c x = [] | _ => True end).
  { intros x d Ed. unfold shapes_ok in S. rewrite forallb_forall in S. assert (L : x < length (ops c)) by (apply nth_error_Some; congruence). specialize (S x (proj2 (in_seq _ _ _) (conj (Nat.le_0_l _) L))). rewrite Ed in S. apply andb_true_iff in S. destruct S as (S1 & S2). split.
    - intros K. rewrite K in S1. destruct (o_regions d); [reflexivity | discriminate].
    - destruct (sh (o_kind d)); try exact Logic.I; try (apply Nat.leb_le; exact S2). destruct (op_results c x); [reflexivity | discriminate]. }
  constructor.
  - apply tidy_sound; assumption.
  - intros x d Ed. apply (Sx x d Ed).
  - intros o _ [].
  - intros o d (rd & Er & Po) Ed K. unfold owner_ok in W. rewrite Er, Po, Ed, K in W. discriminate.
  - intros x d _ Ed. apply (Sx x d Ed).
Qed.
Definition free_ok (sh : nat -> shape) (c : ctx) (o : nat) : bool :=
  forallb (fun s => match nth_error (ops c) s with Some d => negb (is_flow (sh (o_kind d))) || (s <=? o) | None => true end) (seq 0 (length (ops c))).
Lemma program_sound sh c P r o : nested_ok c = true -> owner_ok sh c r = true -> option_map r_parent (nth_error (regions c) r) = Some (Some o) -> free_ok sh c o = true -> program_region sh c [] P r.
Proof.
  intros N W Eo F. split.
  - intros o' x (rd & Er & Po) Sx. unfold owner_ok in W. rewrite Er, Po in W. unfold shape_at in Sx. destruct (nth_error (ops c) o') as [d|]; [|discriminate]. injection Sx as <-. apply negb_true_iff in W. exact W.
  - right. split; [intros o' _ []|]. intros o' s d (rd & Er & Po) Ed Fl (q & Rq & D). rewrite Er in Eo. cbn in Eo. rewrite Po in Eo. injection Eo as ->.
    pose proof (inside_rank sh c (fun x => x) s o (nested_sound c N) (ex_intro _ q (conj Rq D))) as L. cbn beta in L.
    unfold free_ok in F. rewrite forallb_forall in F. assert (Ls : s < length (ops c)) by (apply nth_error_Some; congruence). specialize (F s (proj2 (in_seq _ _ _) (conj (Nat.le_0_l _) Ls))). rewrite Ed, Fl in F. apply Nat.leb_le in F. lia.
Qed.
Section Ends.
  Context {V E A : Type}.
  Variables (sh : nat -> shape) (cv : nat -> nat) (ef : nat -> list V -> act (V := V) (E := E) (A := A)) (tru : V -> bool) (eqv : V -> nat -> bool) (ans : list (E * A) -> E -> A) (c : ctx).
  Lemma done_stays n x tr : steps sh cv ef tru eqv ans c n (Done x tr) = Done x tr.
  Proof. induction n as [|n IH]; [reflexivity|]. unfold steps in *. change (step sh cv ef tru eqv ans c (Nat.iter n (step sh cv ef tru eqv ans c) (Done x tr)) = Done x tr). rewrite IH. reflexivity. Qed.
  Lemma steps_plus n m s : steps sh cv ef tru eqv ans c (n + m) s = steps sh cv ef tru eqv ans c n (steps sh cv ef tru eqv ans c m s).
  Proof. induction n as [|n IH]; [reflexivity|]. unfold steps in *. change (S n + m) with (S (n + m)). change (step sh cv ef tru eqv ans c (Nat.iter (n + m) (step sh cv ef tru eqv ans c) s) = step sh cv ef tru eqv ans c (Nat.iter n (step sh cv ef tru eqv ans c) (Nat.iter m (step sh cv ef tru eqv ans c) s))). rewrite IH. reflexivity. Qed.
  Lemma right_sound r args e n x : fst (seen sh cv ef tru eqv ans c r args e n) = Some x -> x <> Wrong -> goes_right (seen sh cv ef tru eqv ans c r args e).
  Proof.
    unfold seen, goes_right. cbn [fst]. intros H Nx m K. set (s := enter c r args e [] []) in *. pose proof (steps_plus n m s) as P1. pose proof (steps_plus m n s) as P2. rewrite Nat.add_comm in P2.
    destruct (steps sh cv ef tru eqv ans c n s) as [| |y tr] eqn:E1; try discriminate H. destruct (steps sh cv ef tru eqv ans c m s) as [| |y' tr'] eqn:E2; try discriminate K. cbn in H, K. injection H as ->. injection K as ->. rewrite done_stays in P1, P2. congruence.
  Qed.
End Ends.
Definition run_demo (c : ctx) (n : nat) : nat -> option (ending (V := nat)) * list (nat * nat) := seen demo_shape demo_case demo_effect demo_truth Nat.eqb demo_world c 7 [n] (fun _ => 0).
Example countdown_lowered : exists c dead, exec_all (empty_ctx, []) countdown = Some (c, dead) /\
  expected demo_shape c dead 8 /\ program_region demo_shape c dead 8 7 /\ goes_right (run_demo c 3) /\ goes_right (run_demo c 7) /\
  exists c', transform_region demo_shape 8 9 12 0 demo_const demo_case 20 20 c 8 = Some c' /\
  run_demo c 3 100 = (Some (Returned [9]), [(3, 0); (2, 1); (1, 2); (0, 3)]) /\ run_demo c' 3 100 = (Some (Returned [9]), [(3, 0); (2, 1); (1, 2); (0, 3)]) /\
  run_demo c' 7 100 = (Some (Returned [7]), [(7, 0); (6, 1); (5, 2)]) /\
  length (filter (fun d => is_flow (demo_shape (o_kind d))) (ops c)) = 3.
Proof.
  assert (K : exists c dead, exec_all (empty_ctx, []) countdown = Some (c, dead) /\ dead = [] /\ nested_ok c = true /\ operands_ok c = true /\ shapes_ok demo_shape c 8 = true /\ owner_ok demo_shape c 8 = true /\
    owner_ok demo_shape c 7 = true /\ option_map r_parent (nth_error (regions c) 7) = Some (Some 17) /\ free_ok demo_shape c 17 = true /\ fst (run_demo c 3 100) = Some (Returned [9]) /\ fst (run_demo c 7 100) = Some (Returned [7]) /\
    match transform_region demo_shape 8 9 12 0 demo_const demo_case 20 20 c 8 with
    | Some c' => run_demo c 3 100 = (Some (Returned [9]), [(3, 0); (2, 1); (1, 2); (0, 3)]) /\ run_demo c' 3 100 = (Some (Returned [9]), [(3, 0); (2, 1); (1, 2); (0, 3)]) /\
      run_demo c' 7 100 = (Some (Returned [7]), [(7, 0); (6, 1); (5, 2)]) /\ length (filter (fun d => is_flow (demo_shape (o_kind d))) (ops c)) = 3
    | None => False
    end) by (apply runs_ex; vm_compute; repeat split).
  destruct K as (c & dead & R & -> & K1 & K2 & K3 & K4 & K5 & K6 & K7 & K8 & K9 & K10). exists c, []. split; [exact R|]. split; [apply expected_sound; assumption|]. split; [eapply program_sound; eassumption|].
  split; [eapply right_sound; [exact K8 | discriminate]|]. split; [eapply right_sound; [exact K9 | discriminate]|].
  destruct (transform_region demo_shape 8 9 12 0 demo_const demo_case 20 20 c 8) as [c'|]; [|destruct K10]. exists c'. split; [reflexivity | exact K10].
Qed.

(** ** What is not lowered *)
(** An if with two results is left as it is, and with it all that follows in its block, here an if without results: the
    lowering does not always yield a control-flow graph. *)
Definition two_results : list cmd :=
  [CreateBlock [0];
   CreateBlock []; CreateOp 5 [0; 0] [] [] []; PushOp 1 0; CreateRegion [1];
   CreateBlock []; CreateOp 5 [0; 0] [] [] []; PushOp 2 1; CreateRegion [2];
   CreateOp 1 [0] [0; 0] [0; 1] []; PushOp 0 2;
   CreateBlock []; CreateOp 5 [] [] [] []; PushOp 3 3; CreateRegion [3];
   CreateBlock []; CreateOp 5 [] [] [] []; PushOp 4 4; CreateRegion [4];
   CreateOp 1 [0] [] [2; 3] []; PushOp 0 5; CreateOp 10 [1] [] [] []; PushOp 0 6; CreateRegion [0]].
Theorem lowering_complete_refuted : exists c dead c' x d,
  exec_all (empty_ctx, []) two_results = Some (c, dead) /\ tidy c dead /\ live c dead 4 /\
  goes_right (seen demo_shape demo_case demo_effect demo_truth Nat.eqb demo_world c 4 [1] (fun _ => 0)) /\
  transform_region demo_shape 8 9 12 0 demo_const demo_case 20 20 c 4 = Some c' /\
  deep c' 4 x /\ nth_error (ops c') x = Some d /\ demo_shape (o_kind d) = SIf /\ op_results c' x = [].
Proof.
  assert (K : exists c dead, exec_all (empty_ctx, []) two_results = Some (c, dead) /\ dead = [] /\ nested_ok c = true /\ operands_ok c = true /\
    fst (seen demo_shape demo_case demo_effect demo_truth Nat.eqb demo_world c 4 [1] (fun _ => 0) 50) = Some (Returned [1]) /\
    match transform_region demo_shape 8 9 12 0 demo_const demo_case 20 20 c 4 with
    | Some c' => option_map b_ops (nth_error (blocks c') 0) = Some [2; 5; 6] /\ option_map r_blocks (nth_error (regions c') 4) = Some [0] /\ option_map o_kind (nth_error (ops c') 5) = Some 1 /\ op_results c' 5 = []
    | None => False
    end) by (apply runs_ex; vm_compute; repeat split).
  destruct K as (c & dead & R & -> & K1 & K2 & K3 & K4). destruct (transform_region demo_shape 8 9 12 0 demo_const demo_case 20 20 c 4) as [c'|] eqn:T; [|destruct K4]. destruct K4 as (B & Q & O & Rs).
  destruct (nth_error (ops c') 5) as [d|] eqn:Ed; [|discriminate]. injection O as O. destruct (nth_error (blocks c') 0) as [bd|] eqn:Eb; [|discriminate]. injection B as B. destruct (nth_error (regions c') 4) as [rd|] eqn:Er; [|discriminate]. injection Q as Q.
  exists c, [], c', 5, d. split; [exact R|]. split; [apply tidy_sound; assumption|]. split; [intros o _ []|]. split; [eapply right_sound; [exact K3 | discriminate]|]. split; [exact T|]. split; [|split; [exact Ed | split; [rewrite O; reflexivity | exact Rs]]].
  apply deep_here. exists 0. split; [exists bd; split; [exact Eb | rewrite B; right; left; reflexivity] | exists rd; split; [exact Er | rewrite Q; left; reflexivity]].
Qed.
Print Assumptions lowering_complete_refuted.
