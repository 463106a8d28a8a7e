(** C76: printing on WebAssembly. *)
From Verif Require Import Base IoModel IoProofs WasmIoModel WasmIoSpec WasmIoProofs WasmIoMain.
Open Scope Z_scope.

(** For every range of bytes, newline flag, memory and host, the generated function puts out what the host takes of the text, and
    it returns unless the host never answers. *)
Theorem wasm_print_puts_out_the_text : forall base l from n newline grows rounds m pgs sched out,
  0 <= base -> reserved base < 4294967296 -> valid_bytes l from n -> 0 <= pgs <= 65536 ->
  needed base (line (part l from n) newline) < 4294967296 ->
  memory_suffices grows pgs (needed base (line (part l from n) newline)) ->
  Forall honest sched -> (S (List.length sched) < rounds)%nat -> (List.length (part l from n) < rounds)%nat ->
  exists s' o st,
    call_helper base (mkBytes l from n) grows rounds (if newline then 1 else 0) m pgs sched out =
      match st with Unanswered => IWaiting s' | _ => IReturned s' end /\
    printed (line (part l from n) newline) sched o st (answers s') /\ output s' = out ++ o.
Proof. exact wasm_prints. Qed.
Print Assumptions wasm_print_puts_out_the_text.

(** So the output is a beginning of the text, and all of it unless the host failed, took nothing or did not answer. *)
Theorem wasm_print_never_garbles : forall text sched out st rest, printed text sched out st rest ->
  (exists missing, text = out ++ missing /\ (st = Complete -> missing = [])) /\
  (exists used, sched = used ++ rest /\ (st = Dropped -> exists e, In e used /\ ~ helpful e)).
Proof. exact printed_prefix. Qed.
Print Assumptions wasm_print_never_garbles.

(** Short writes and interrupts alone lose nothing. *)
Theorem wasm_print_completes : forall base l from n newline grows rounds m pgs sched out,
  0 <= base -> reserved base < 4294967296 -> valid_bytes l from n -> 0 <= pgs <= 65536 ->
  needed base (line (part l from n) newline) < 4294967296 ->
  memory_suffices grows pgs (needed base (line (part l from n) newline)) ->
  Forall helpful sched -> (List.length (line (part l from n) newline) <= room sched)%nat ->
  (S (List.length sched) < rounds)%nat -> (List.length (part l from n) < rounds)%nat ->
  exists s', call_helper base (mkBytes l from n) grows rounds (if newline then 1 else 0) m pgs sched out = IReturned s' /\
    output s' = out ++ line (part l from n) newline.
Proof. exact wasm_completes. Qed.
Print Assumptions wasm_print_completes.

(** Without the memory it stops before anything is put out. *)
Theorem wasm_print_stops_without_memory : forall base l from n newline grows rounds m pgs sched out,
  0 <= base -> reserved base < 4294967296 -> valid_bytes l from n -> 0 <= pgs <= 65536 ->
  (4294967296 <= needed base (line (part l from n) newline) \/
   (needed base (line (part l from n) newline) < 4294967296 /\ ~ memory_suffices grows pgs (needed base (line (part l from n) newline)))) ->
  exists s', call_helper base (mkBytes l from n) grows rounds (if newline then 1 else 0) m pgs sched out = ITrapped s' /\
    output s' = out /\ answers s' = sched.
Proof. exact wasm_stops. Qed.
Print Assumptions wasm_print_stops_without_memory.

(** Native programs and WebAssembly programs put out the same without a newline, whatever the host answers. *)
Theorem targets_print_the_same_partial : forall text sched out st rest, printed (line text false) sched out st rest ->
  snd (io_write text 0 sched) = out.
Proof. exact same_output. Qed.
Print Assumptions targets_print_the_same_partial.

(** With a newline they put out the same as long as the host takes something each time ... *)
Theorem targets_print_the_same_line_partial : forall text sched out st rest, printed (line text true) sched out st rest ->
  Forall helpful sched -> (List.length text + 1 <= accepts sched)%nat ->
  snd (io_write text 1 sched) = out.
Proof. exact same_line. Qed.
Print Assumptions targets_print_the_same_line_partial.

(** ... but not after a failure: the native program still puts out the newline, the WebAssembly program does not. *)
Theorem targets_print_the_same_refuted : exists text sched out st rest,
  Forall honest sched /\ printed (line text true) sched out st rest /\ snd (io_write text 1 sched) <> out.
Proof.
  exists [104; 105], [WAccept 1; WFail 5; WAccept 1], [104], Dropped, [WAccept 1].
  split; [repeat constructor; discriminate|]. split.
  - refine (Print_part _ 1 _ [] _ _ _ _ _); [discriminate | lia | apply Print_failed; discriminate].
  - discriminate.
Qed.
Print Assumptions targets_print_the_same_refuted.

(** "hi" inside a longer array, with a newline, in a memory that must grow first, and a host that takes one byte, is interrupted,
    and takes the rest. *)
Example wasm_print_example :
  let sched := [WAccept 1; WIntr; WAccept 5; WAccept 9] in
  valid_bytes [1; 104; 105; 2] 1 2 /\ memory_suffices (fun _ _ => true) 0 (needed 0 (line [104; 105] true)) /\ Forall helpful sched /\
  match call_helper 0 (mkBytes [1; 104; 105; 2] 1 2) (fun _ _ => true) 7 1 (fun _ => 0) 0 sched [7] with
  | IReturned s => output s = [7; 104; 105; 10] /\ answers s = [WAccept 9] /\ pages s = 1
  | _ => False
  end.
Proof.
  split; [| split; [right; reflexivity | split; [repeat constructor; lia | vm_compute; auto]]].
  unfold valid_bytes. cbn. repeat split; try lia. repeat constructor; lia.
Qed.
Example wasm_print_no_memory :
  match call_helper 0 (mkBytes [104; 105] 0 2) (fun _ _ => false) 7 1 (fun _ => 0) 0 [WAccept 9] [7] with
  | ITrapped s => output s = [7]
  | _ => False
  end.
Proof. vm_compute. reflexivity. Qed.
