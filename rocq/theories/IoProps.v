(** Properties C02, C03, C04. *)
From Verif Require Import Base IoModel IoSpec IoProofs.
Open Scope Z_scope.

(** C02: whatever the kernel answers, the bytes it takes are a prefix of the
    requested ones; success means all of them, in order, exactly once; failure
    only happens after a zero-byte, bogus or failing answer. *)
Theorem write_all_delivers_prefix : forall sched bs r out s,
  write_all_with bs sched = (r, out, s) ->
  (exists rest, bs = out ++ rest) /\
  (exists used, sched = used ++ s /\ (r = WDone false -> exists e, In e used /\ hard e)) /\
  (r = WDone true -> out = bs).
Proof. exact write_all_spec. Qed.
Print Assumptions write_all_delivers_prefix.

(** C02: short writes and interrupts alone never prevent completion. *)
Theorem write_all_completes : forall sched bs,
  Forall soft sched -> (length bs <= accepts sched)%nat ->
  exists s, write_all_with bs sched = (WDone true, bs, s).
Proof. exact write_all_progress. Qed.
Print Assumptions write_all_completes.

(** C02: printing with io_write delivers the text and exactly one newline iff
    requested, when neither write fails ... *)
Theorem io_write_exact : forall content newline sched out r2,
  io_write content newline sched = (WDone true, r2, out) ->
  (newline = 1 -> r2 = Some (WDone true)) ->
  out = content ++ (if newline =? 1 then [LF] else []).
Proof. exact io_write_success_lemma. Qed.
Print Assumptions io_write_exact.

(** ... which is the case whenever the kernel keeps accepting bytes. *)
Theorem io_write_completes : forall content newline sched,
  Forall soft sched -> (length content + 1 <= accepts sched)%nat ->
  exists r2, io_write content newline sched =
    (WDone true, r2, content ++ (if newline =? 1 then [LF] else [])) /\
    (newline = 1 -> r2 = Some (WDone true)).
Proof. exact io_write_progress_lemma. Qed.
Print Assumptions io_write_completes.

Example io_write_completes_example :
  Forall soft [WAccept 2; WIntr; WAccept 1; WIntr; WAccept 9; WAccept 1] /\
  (length [104; 105; 33] + 1 <= accepts [WAccept 2; WIntr; WAccept 1; WIntr; WAccept 9; WAccept 1])%nat.
Proof. split; [repeat constructor | vm_compute; lia]. Qed.

(** C02: without a newline request, output is always a prefix of the content. *)
Theorem io_write_prefix_without_newline : forall content newline sched r1 r2 out,
  newline <> 1 -> io_write content newline sched = (r1, r2, out) ->
  exists rest, content = out ++ rest.
Proof. exact io_write_no_newline_prefix_lemma. Qed.
Print Assumptions io_write_prefix_without_newline.

(** C02, refuted part: with a newline request the failed text write is ignored
    and the newline is still emitted, so the output is not a prefix of the
    requested text (here: the text "hi" fails at its second byte). *)
Theorem io_write_prefix_refuted : exists content sched r1 r2 out,
  io_write content 1 sched = (r1, r2, out) /\ ~ exists rest, content ++ [LF] = out ++ rest.
Proof.
  exists [104; 105], [WAccept 1; WFail 5; WAccept 1], (WDone false), (Some (WDone true)), [104; 10].
  split; [reflexivity|]. intros [rest H]. discriminate.
Qed.
Print Assumptions io_write_prefix_refuted.

(** C02, refuted for print_bytes: a single short write loses the rest although
    the kernel reported no error. *)
Theorem print_bytes_loses_bytes_refuted : exists content sched,
  Forall soft sched /\ print_bytes content sched <> content /\
  (length content <= accepts sched)%nat.
Proof.
  exists [104; 105], [WAccept 1; WAccept 1].
  split; [repeat constructor|]. split; [discriminate | vm_compute; lia].
Qed.
Print Assumptions print_bytes_loses_bytes_refuted.

(** C04: one line read is classified exactly by the bytes before the item that
    ends it, and leaves precisely the items after it for the next read. *)
Theorem read_line_classified : forall utf8_ok st sched pre term post,
  buffer_ok st -> to_come st sched = pre ++ term :: post ->
  Forall continues pre -> ~ continues term ->
  exists r st' sched',
    read_line utf8_ok st sched = Some (r, st', sched') /\
    read_spec utf8_ok (flat_map item_bytes pre) term r /\
    buffer_ok st' /\ to_come st' sched' = post.
Proof. exact read_line_classify_lemma. Qed.
Print Assumptions read_line_classified.

(** C04: a read blocks exactly when nothing delivered so far ends the line. *)
Theorem read_line_blocks_iff : forall utf8_ok st sched, buffer_ok st ->
  (read_line utf8_ok st sched = None <-> Forall continues (to_come st sched)).
Proof. exact read_line_blocks_lemma. Qed.
Print Assumptions read_line_blocks_iff.

Example read_line_error_case :
  to_come stdin_new [RBytes 97 [98]; RIntr; RErr 5; RBytes 99 [10]] =
  [IByte 97; IByte 98; IIntr] ++ IErr 5 :: [IByte 99; IByte 10] /\
  Forall continues [IByte 97; IByte 98; IIntr] /\ ~ continues (IErr 5).
Proof. split; [reflexivity|]. split; [repeat constructor; discriminate | intros []]. Qed.

(** C03: reading a stream line by line from a fresh buffer gives exactly its
    lines, then end of file, for every chunking and interrupt pattern. *)
Theorem read_lines_are_stream_lines : forall utf8_ok data eofs ls ls' lst n,
  Forall is_data data -> Forall is_eof_or_intr eofs ->
  sched_bytes data = flat_map (fun l => l ++ [LF]) ls ++ lst ->
  Forall (fun l => ~ In LF l) ls -> ~ In LF lst -> Forall2 strip_cr ls ls' ->
  (n <= count_eof eofs)%nat ->
  read_lines utf8_ok n stdin_new (data ++ eofs) =
  firstn n (map (line_res utf8_ok) ls'
            ++ (match lst with [] => [] | _ => [line_res utf8_ok lst] end)
            ++ repeat REndOfFile n).
Proof. exact read_lines_stream_lemma. Qed.
Print Assumptions read_lines_are_stream_lines.

(** Every stream has such a decomposition, so the theorem covers all streams. *)
Theorem every_stream_has_lines : forall bs, exists ls lst,
  bs = flat_map (fun l => l ++ [LF]) ls ++ lst /\
  Forall (fun l => ~ In LF l) ls /\ ~ In LF lst.
Proof. exact stream_decomposes. Qed.
Print Assumptions every_stream_has_lines.
Theorem every_line_strips : forall l, exists l', strip_cr l l'.
Proof. exact strip_cr_total. Qed.
Print Assumptions every_line_strips.

Example read_lines_two_chunkings :
  let eofs := [REof; RIntr; REof; REof; REof] in
  read_lines (fun _ => true) 4 stdin_new ([RBytes 97 [13]; RIntr; RBytes 10 [98]] ++ eofs)
  = [RLine [97]; RLine [98]; REndOfFile; REndOfFile] /\
  read_lines (fun _ => true) 4 stdin_new ([RBytes 97 [13; 10; 98]] ++ eofs)
  = [RLine [97]; RLine [98]; REndOfFile; REndOfFile].
Proof. vm_compute. split; reflexivity. Qed.
