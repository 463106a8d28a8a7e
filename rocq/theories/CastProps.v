(** * C42: resolution of conversion casts. *)
From Verif Require Import CastModel CastSpec ValidModel ValidSpec IrInvProofs CastMain IrProps ValidProps.
From Coq Require Import Lia.

Theorem cast_resolution_exact_partial : forall is_cast convert materialize xs c dead rank r fuel depth c' count unresolved,
  exec_all (empty_ctx, []) xs = Some (c, dead) -> nests c rank -> casts_are_leaves is_cast c r -> (forall x, inside c r x -> ~ In x dead) ->
  resolve_casts is_cast convert materialize fuel depth c r = Some (c', (count, unresolved)) ->
  exists log, resolution is_cast convert materialize c dead r c' count unresolved log /\
    (honest materialize -> forall e, In e log -> value_ty c' (r_new e) = Some (r_to e)).
Proof. exact (fun is_cast convert materialize xs c dead rank r fuel depth c' count unresolved E N L D H =>
  resolve_outcome is_cast convert materialize c dead r rank (reachable_inv xs c dead E) N L D fuel depth c' count unresolved H). Qed.
Print Assumptions cast_resolution_exact_partial.

(** It succeeds when each cast has one result, reads an existing value, and no cast (through others) reads itself. *)
Theorem cast_resolution_succeeds : forall is_cast convert materialize xs c dead rank vrank r fuel depth,
  exec_all (empty_ctx, []) xs = Some (c, dead) -> nests c rank -> casts_are_leaves is_cast c r -> (forall x, inside c r x -> ~ In x dead) ->
  (forall x d, inside c r x -> nth_error (ops c) x = Some d -> is_cast (o_kind d) = true -> length (o_result_types d) <= 1) ->
  (forall x input original, inside c r x -> cast_in is_cast c x input original -> input < length (vals c)) ->
  (forall x input original v, inside c r x -> cast_in is_cast c x input original -> In v (op_results c x) -> vrank input < vrank v) ->
  (forall from to plan k, materialize from to = Some (plan, Made k) -> k < length (concat (map i_types plan))) ->
  r < length (regions c) -> (forall x, inside c r x -> rank x < fuel) ->
  resolve_casts is_cast convert materialize (S fuel) (S depth) c r <> None.
Proof. exact (fun is_cast convert materialize xs c dead rank vrank r fuel depth E N L D One Real Order Plans =>
  resolve_goes is_cast convert materialize c dead r rank (reachable_inv xs c dead E) N L D vrank One Real Order Plans fuel depth). Qed.
Print Assumptions cast_resolution_succeeds.

(** Types 1 (integer), 2 (machine integer), 3 (reference), 4 (something else); casts are operations of kind 9.  Boxing allocates
    (kind 20) and stores (kind 21). *)
Definition to_machine (t : nat) : option nat := match t with 1 => Some 2 | _ => None end.
Definition boxing (from to : nat) : option (list item * ref) :=
  match from, to with
  | 2, 3 => Some ([{| i_kind := 20; i_operands := []; i_types := [3] |}; {| i_kind := 21; i_operands := [Input; Made 0]; i_types := [] |}], Made 0)
  | 3, 2 => Some ([{| i_kind := 22; i_operands := [Input]; i_types := [2] |}], Made 0)
  | _, _ => None
  end.
(** A machine integer cast to an integer (no conversion), boxed, unboxed in a nested region; one cast that cannot be resolved. *)
Definition casts : list cmd :=
  [CreateBlock [2]; CreateOp 9 [0] [1] [] []; PushOp 0 0; CreateOp 9 [1] [3] [] []; PushOp 0 1;
   CreateBlock []; CreateOp 9 [2] [1] [] []; PushOp 1 2; CreateOp 5 [3; 2; 1] [] [] []; PushOp 1 3; CreateRegion [1];
   CreateOp 6 [2] [] [0] []; PushOp 0 4; CreateOp 9 [2] [4] [] []; PushOp 0 5; CreateRegion [0]].
Definition casts_rank (o : nat) : nat := nth o [0; 0; 0; 0; 1; 0] 0.
Example casts_resolved : exists c dead, exec_all (empty_ctx, []) casts = Some (c, dead) /\ dead = [] /\ checked_rank c casts_rank = true /\
  exists s, resolve_casts (Nat.eqb 9) to_machine boxing 5 2 c 1 = Some s /\ snd s = (3, [(5, (3, 4))]) /\ map (block_ops_of (fst s)) [0; 1] = [[6; 7; 4; 5]; [8; 3]] /\
    map (fun x => option_map o_operands (nth_error (ops (fst s)) x)) [6; 7; 4; 5; 8; 3] = [Some []; Some [0; 5]; Some [5]; Some [5]; Some [5]; Some [6; 5; 0]].
Proof. apply runs_ex. vm_compute. split; [reflexivity|]. split; [reflexivity|]. eexists. split; [reflexivity|]. repeat split. Qed.
Lemma boxing_honest : honest boxing.
Proof. intros from to plan v H. unfold boxing in H. destruct from as [|[|[|[|]]]], to as [|[|[|[|]]]]; try discriminate; injection H as <- <-; reflexivity. Qed.
Lemma boxing_plans : forall from to plan k, boxing from to = Some (plan, Made k) -> k < length (concat (map i_types plan)).
Proof. intros from to plan v H. unfold boxing in H. destruct from as [|[|[|[|]]]], to as [|[|[|[|]]]]; try discriminate; injection H as <- <-; cbn; lia. Qed.

(** A materializer that returns the input unchanged (as the native one does from [int] to [i32]) leaves its type as it was.
    A cast of the result is then resolved from that type, and fails although each of the two casts alone is resolvable. *)
Definition passing (from to : nat) : option (list item * ref) :=
  match from, to with 1, 2 => Some ([], Input) | _, _ => boxing from to end.
Definition chain : list cmd :=
  [CreateBlock [1]; CreateOp 9 [0] [2] [] []; PushOp 0 0; CreateOp 9 [1] [3] [] []; PushOp 0 1; CreateOp 5 [2] [] [] []; PushOp 0 2; CreateRegion [0]].
Theorem chained_casts_refuted : exists c dead c' count unresolved,
  exec_all (empty_ctx, []) chain = Some (c, dead) /\ resolve_casts (Nat.eqb 9) to_machine passing 5 2 c 0 = Some (c', (count, unresolved)) /\
  cast_in (Nat.eqb 9) c 0 0 2 /\ value_ty c 0 = Some 1 /\ passing 1 2 <> None /\
  cast_in (Nat.eqb 9) c 1 1 3 /\ value_ty c 1 = Some 2 /\ passing 2 3 <> None /\
  unresolved = [(1, (1, 3))].
Proof.
  assert (X : exists c dead, exec_all (empty_ctx, []) chain = Some (c, dead) /\ exists s, resolve_casts (Nat.eqb 9) to_machine passing 5 2 c 0 = Some s /\ snd (snd s) = [(1, (1, 3))] /\
    nth_error (ops c) 0 = Some {| o_kind := 9; o_operands := [0]; o_result_types := [2]; o_regions := []; o_succs := []; o_parent := Some 0 |} /\
    nth_error (ops c) 1 = Some {| o_kind := 9; o_operands := [1]; o_result_types := [3]; o_regions := []; o_succs := []; o_parent := Some 0 |} /\ value_ty c 0 = Some 1 /\ value_ty c 1 = Some 2).
  { apply runs_ex. vm_compute. eexists. split; [reflexivity|]. repeat split. }
  destruct X as (c & dead & E & [c' [count unresolved]] & Er & U & E0 & E1 & T0 & T1). exists c, dead, c', count, unresolved. split; [exact E|]. split; [exact Er|].
  split; [eexists; exists [], []; split; [exact E0|]; auto|]. split; [exact T0|]. split; [discriminate|]. split; [eexists; exists [], []; split; [exact E1|]; auto|]. split; [exact T1|]. split; [discriminate | exact U].
Qed.
Print Assumptions chained_casts_refuted.

(** Blocks are visited in the order of the list, not of dominance.  A cast in a block listed before the one that defines its input is
    resolved for the type that the input has before its own cast is: unboxing is emitted for a reference (type 3), and then reads a
    machine integer (type 2). *)
Definition backwards (t : nat) : option nat := match t with 3 => Some 2 | _ => None end.
Definition out_of_order : list cmd :=
  [CreateBlock [2]; CreateBlock []; CreateOp 9 [0] [3] [] []; PushOp 0 0; CreateOp 9 [1] [2] [] []; PushOp 1 1; CreateOp 5 [2] [] [] []; PushOp 1 2; CreateRegion [1; 0]].
Theorem order_of_blocks_refuted : exists c dead c' count,
  exec_all (empty_ctx, []) out_of_order = Some (c, dead) /\ resolve_casts (Nat.eqb 9) backwards boxing 5 2 c 0 = Some (c', (count, [])) /\
  exists o d w, inside c' 0 o /\ nth_error (ops c') o = Some d /\ o_kind d = 22 /\ o_operands d = [w] /\ value_ty c' w = Some 2.
Proof.
  assert (X : exists c dead, exec_all (empty_ctx, []) out_of_order = Some (c, dead) /\ exists s, resolve_casts (Nat.eqb 9) backwards boxing 5 2 c 0 = Some s /\ snd (snd s) = [] /\
    nth_error (regions (fst s)) 0 = Some {| r_blocks := [1; 0]; r_parent := None |} /\ option_map b_ops (nth_error (blocks (fst s)) 1) = Some [3; 2] /\
    nth_error (ops (fst s)) 3 = Some {| o_kind := 22; o_operands := [0]; o_result_types := [2]; o_regions := []; o_succs := []; o_parent := Some 1 |} /\ value_ty (fst s) 0 = Some 2).
  { apply runs_ex. vm_compute. eexists. split; [reflexivity|]. repeat split. }
  destruct X as (c & dead & E & [c' [count unresolved]] & Er & U & R0 & B1 & O3 & T0). cbn [fst snd] in U, R0, B1, O3, T0. subst unresolved. exists c, dead, c', count. split; [exact E|]. split; [exact Er|].
  destruct (nth_error (blocks c') 1) as [bd|] eqn:Eb; cbn [option_map] in B1; [|discriminate]. assert (B1' : b_ops bd = [3; 2]) by congruence. clear B1. rename B1' into B1. exists 3. eexists. exists 0. split; [apply (inside_top c' 0 _ 1 bd 3 R0); [cbn; auto | exact Eb | rewrite B1; cbn; auto]|]. split; [exact O3|]. repeat split. exact T0.
Qed.
Print Assumptions order_of_blocks_refuted.
(** Not every remaining cast is reported: a cast without operand stays silently, and so does one that the materializer emits. *)
Theorem unreported_casts_refuted : exists convert materialize xs c dead c' count,
  exec_all (empty_ctx, []) xs = Some (c, dead) /\ resolve_casts (Nat.eqb 9) convert materialize 5 2 c 0 = Some (c', (count, [])) /\
  block_ops_of c' 0 = [0; 2] /\ map (fun x => option_map o_kind (nth_error (ops c') x)) [0; 2] = [Some 9; Some 9].
Proof.
  exists (fun _ => None), (fun _ t => Some ([{| i_kind := 9; i_operands := [Input]; i_types := [t] |}], Made 0)), [CreateBlock [7]; CreateOp 9 [] [1] [] []; PushOp 0 0; CreateOp 9 [0] [3] [] []; PushOp 0 1; CreateRegion [0]].
  vm_compute. do 4 eexists. repeat (split; [reflexivity|]). reflexivity.
Qed.
Print Assumptions unreported_casts_refuted.
