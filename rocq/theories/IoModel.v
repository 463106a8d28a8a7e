(** Native output and line input of the runtime.
    Models crates/tribute-runtime/src/lib.rs lines 193-270 and 276-451. *)
From Verif Require Import Base.
Open Scope Z_scope.

(** A byte; the code only ever compares bytes, so the range 0..255 is not used. *)
Definition byte := Z.
Definition LF : byte := 10.
Definition CR : byte := 13.

(** ** Output *)

(** How the operating system answers one write(2) request.
    [WAccept k]: the kernel has room for [k] bytes and takes min k (requested);
    [WBogus n]: reports more bytes than requested (lib.rs 264 guards against it);
    [WIntr]: EINTR; [WFail c]: any other errno. *)
Inductive wevent := WAccept (k : nat) | WBogus (extra : nat) | WIntr | WFail (code : Z).

(** Result<usize, i32> of [write_once]; EINTR is kept as a separate constructor
    instead of a numeric errno (lib.rs 265 compares with libc::EINTR). *)
Inductive wresult := WOk (n : nat) | WErrIntr | WErr (code : Z).

(** lib.rs 245-254: the closure passed by write_stdout_all. *)
Definition write_once (e : wevent) (remaining : list byte) : wresult :=
  match e with
  | WAccept k => WOk (Nat.min k (length remaining))
  | WBogus extra => WOk (S (length remaining + extra))
  | WIntr => WErrIntr
  | WFail c => WErr c
  end.

(** The bytes the kernel actually takes from the buffer it is given. *)
Definition taken (e : wevent) (remaining : list byte) : list byte :=
  match write_once e remaining with
  | WOk n => firstn n remaining
  | _ => []
  end.

(** Outcome of a write loop against a finite schedule: it returned a boolean, or
    it is still waiting for the kernel when the schedule ends. *)
Inductive woutcome := WDone (ok : bool) | WWaiting.

(** lib.rs 256-270: write_all_with.  Returns the outcome, the bytes the kernel
    took, and the unused schedule. *)
Fixpoint write_all_with (remaining : list byte) (sched : list wevent)
  : woutcome * list byte * list wevent :=
  match remaining with
  | [] => (WDone true, [], sched)
  | _ =>
      match sched with
      | [] => (WWaiting, [], [])
      | e :: sched' =>
          let out := taken e remaining in
          match write_once e remaining with
          | WOk O => (WDone false, out, sched')
          | WOk written =>
              if (written <=? length remaining)%nat
              then let '(r, out', s) := write_all_with (skipn written remaining) sched' in
                   (r, out ++ out', s)
              else (WDone false, out, sched')
          | WErrIntr => let '(r, out', s) := write_all_with remaining sched' in (r, out ++ out', s)
          | WErr _ => (WDone false, out, sched')
          end
      end
  end.

(** lib.rs 237-243: __tribute_bytes_print (the result is discarded at 246). *)
Definition bytes_print (content : list byte) (sched : list wevent)
  : woutcome * list byte * list wevent :=
  match content with
  | [] => (WDone true, [], sched)
  | _ => write_all_with content sched
  end.

(** lib.rs 351-356 (and 211-213): __tribute_io_write.  The status of the first
    write is ignored; the newline is written whenever newline == 1.  Returns both
    outcomes; the newline one is absent when no newline was requested. *)
Definition io_write (content : list byte) (newline : Z) (sched : list wevent)
  : woutcome * option woutcome * list byte :=
  let '(r1, out1, s1) := bytes_print content sched in
  match r1 with
  | WWaiting => (WWaiting, None, out1)
  | WDone _ =>
      if newline =? 1
      then let '(r2, out2, _) := write_all_with [LF] s1 in (r1, Some r2, out1 ++ out2)
      else (r1, None, out1)
  end.

(** lib.rs 193-203: __tribute_print_bytes, a single unchecked write(2).
    The u64-to-usize conversion never fails on the 64-bit targets. *)
Definition print_bytes (content : list byte) (sched : list wevent) : list byte :=
  match content, sched with
  | [], _ => []
  | _, [] => []
  | _, e :: _ => taken e content
  end.

(** ** Line input *)

(** lib.rs 301-306: enum ReadChunk, one answer of read(2).  [RBytes b bs] carries
    the bytes the kernel stored, at least one (lib.rs 366-368). *)
Inductive rchunk := RBytes (b : byte) (bs : list byte) | REof | RIntr | RErr (code : Z).

(** lib.rs 294-299: enum ReadByte; [BPanic] is an out-of-bounds index. *)
Inductive rbyte := BByte (b : byte) | BEof | BIntr | BErr (code : Z) | BPanic.

(** lib.rs 310-314: struct StdinBuffer. *)
Record stdin_buffer := { buf : list byte; position : nat; blen : nat }.

(** lib.rs 308, 317-323: StdinBuffer::new (8192 zero bytes). *)
Definition STDIN_BUFFER_SIZE : nat := Z.to_nat 8192.
Definition stdin_new : stdin_buffer :=
  {| buf := repeat 0 STDIN_BUFFER_SIZE; position := 0; blen := 0 |}.

(** read(2) stores the bytes at the start of the buffer and leaves the rest. *)
Definition store_chunk (old chunk : list byte) : list byte :=
  chunk ++ skipn (length chunk) old.

(** lib.rs 324-342: StdinBuffer::read_byte; [None] = the schedule is exhausted
    (the call is blocked in read(2)). *)
Definition read_byte (st : stdin_buffer) (sched : list rchunk)
  : option (rbyte * stdin_buffer * list rchunk) :=
  if (position st <? blen st)%nat
  then match nth_error (buf st) (position st) with
       | None => Some (BPanic, st, sched)
       | Some b => Some (BByte b, {| buf := buf st; position := S (position st); blen := blen st |}, sched)
       end
  else match sched with
       | [] => None
       | RBytes b bs :: sched' =>
           let data := store_chunk (buf st) (b :: bs) in
           match nth_error data 0 with
           | None => Some (BPanic, st, sched')
           | Some b0 => Some (BByte b0, {| buf := data; position := 1; blen := length (b :: bs) |}, sched')
           end
       | REof :: sched' => Some (BEof, st, sched')
       | RIntr :: sched' => Some (BIntr, st, sched')
       | RErr c :: sched' => Some (BErr c, st, sched')
       end.

(** lib.rs 276-279 and 285-291: the result descriptor, one constructor per tag. *)
Inductive line_result_t :=
  | RLine (bytes : list byte)          (* IO_READ_LINE *)
  | REndOfFile                         (* IO_READ_END_OF_FILE *)
  | RInvalidEncoding                   (* IO_READ_INVALID_ENCODING *)
  | RSystem (code : Z)                 (* IO_READ_SYSTEM *)
  | RFault.                            (* panic, shown unreachable *)

Section ReadLine.
(** core::str::from_utf8(..).is_ok(): trusted oracle, any predicate on bytes. *)
Variable utf8_ok : list byte -> bool.

(** lib.rs 435-451: line_result. *)
Definition line_result (bytes : list byte) : line_result_t :=
  if utf8_ok bytes then RLine bytes else RInvalidEncoding.

(** [bytes.last() == Some(&b'\r')] then [pop], lib.rs 407-409. *)
Definition pop_cr (bytes : list byte) : list byte :=
  match rev bytes with
  | c :: rest => if c =? CR then rev rest else bytes
  | [] => bytes
  end.

(** lib.rs 402-433: read_line_with.  Each iteration consumes either a schedule
    entry or a buffered byte; the fuel bounds the iterations and
    [read_line] supplies enough (proved).  [None] = blocked. *)
Fixpoint read_line_loop (fuel : nat) (bytes : list byte) (st : stdin_buffer) (sched : list rchunk)
  : option (line_result_t * stdin_buffer * list rchunk) :=
  match fuel with
  | O => Some (RFault, st, sched)
  | S fuel' =>
      match read_byte st sched with
      | None => None
      | Some (BByte b, st', sched') =>
          if b =? LF then Some (line_result (pop_cr bytes), st', sched')
          else read_line_loop fuel' (bytes ++ [b]) st' sched'
      | Some (BEof, st', sched') =>
          match bytes with
          | [] => Some (REndOfFile, st', sched')
          | _ => Some (line_result bytes, st', sched')
          end
      | Some (BIntr, st', sched') => read_line_loop fuel' bytes st' sched'
      | Some (BErr c, st', sched') => Some (RSystem c, st', sched')
      | Some (BPanic, st', sched') => Some (RFault, st', sched')
      end
  end.

Definition chunk_weight (c : rchunk) : nat :=
  match c with RBytes b bs => S (length bs) | _ => 1%nat end.
Definition fuel_for (st : stdin_buffer) (sched : list rchunk) : nat :=
  S (blen st - position st + fold_right (fun c n => chunk_weight c + n)%nat 0%nat sched)%nat.

(** lib.rs 360-382: __tribute_io_read_line on the thread's buffer. *)
Definition read_line (st : stdin_buffer) (sched : list rchunk) :=
  read_line_loop (fuel_for st sched) [] st sched.

(** [n] successive calls; stops when a call blocks. *)
Fixpoint read_lines (n : nat) (st : stdin_buffer) (sched : list rchunk) : list line_result_t :=
  match n with
  | O => []
  | S n' => match read_line st sched with
            | None => []
            | Some (r, st', sched') => r :: read_lines n' st' sched'
            end
  end.
End ReadLine.
