(** Specification of line input, independent of buffering: what the kernel
    delivers is one flat sequence of items. *)
From Verif Require Import Base IoModel.
Open Scope Z_scope.

(** One observable item of the input stream. *)
Inductive item := IByte (b : byte) | IEof | IIntr | IErr (code : Z).

(** The items delivered by a schedule of kernel answers. *)
Definition chunk_items (c : rchunk) : list item :=
  match c with
  | RBytes b bs => map IByte (b :: bs)
  | REof => [IEof]
  | RIntr => [IIntr]
  | RErr c => [IErr c]
  end.
Definition sched_items (s : list rchunk) : list item := flat_map chunk_items s.

(** The bytes delivered by a schedule. *)
Definition item_bytes (i : item) : list byte := match i with IByte b => [b] | _ => [] end.
Definition sched_bytes (s : list rchunk) : list byte := flat_map item_bytes (sched_items s).

(** The bytes a buffer still holds for later reads. *)
Definition pending (st : stdin_buffer) : list byte :=
  firstn (blen st - position st) (skipn (position st) (buf st)).

(** The kernel never stores more than the buffer holds, and indices stay sane. *)
Definition buffer_ok (st : stdin_buffer) : Prop :=
  (position st <= blen st)%nat /\ (blen st <= length (buf st))%nat.

(** A schedule with data and interrupts only. *)
Definition is_data (c : rchunk) : Prop :=
  match c with RBytes _ _ | RIntr => True | _ => False end.

(** The line a newline-terminated segment denotes: one trailing CR removed. *)
Definition strip_cr (l : list byte) (l' : list byte) : Prop :=
  l = l' ++ [CR] \/ (l = l' /\ ~ exists p, l = p ++ [CR]).

Section Classify.
Variable utf8_ok : list byte -> bool.

(** What one line read must return when the bytes [bs] are followed by the
    terminating item: a newline, end of file, or a hard error. *)
Inductive read_spec : list byte -> item -> line_result_t -> Prop :=
  | RS_line bs l : strip_cr bs l -> utf8_ok l = true -> read_spec bs (IByte LF) (RLine l)
  | RS_line_bad bs l : strip_cr bs l -> utf8_ok l = false -> read_spec bs (IByte LF) RInvalidEncoding
  | RS_eof : read_spec [] IEof REndOfFile
  | RS_last bs : bs <> [] -> utf8_ok bs = true -> read_spec bs IEof (RLine bs)
  | RS_last_bad bs : bs <> [] -> utf8_ok bs = false -> read_spec bs IEof RInvalidEncoding
  | RS_err bs c : read_spec bs (IErr c) (RSystem c).
End Classify.

(** An item that does not end a line. *)
Definition continues (i : item) : Prop :=
  match i with IByte b => b <> LF | IIntr => True | _ => False end.

(** Everything still to be delivered: buffered bytes, then the schedule. *)
Definition to_come (st : stdin_buffer) (sched : list rchunk) : list item :=
  map IByte (pending st) ++ sched_items sched.

(** End-of-file answers, possibly interrupted. *)
Definition is_eof_or_intr (c : rchunk) : Prop :=
  match c with REof | RIntr => True | _ => False end.
Definition count_eof (s : list rchunk) : nat :=
  length (filter (fun c => match c with REof => true | _ => false end) s).

(** A newline-terminated line and the result it denotes. *)
Definition line_res (utf8_ok : list byte -> bool) (l : list byte) : line_result_t :=
  if utf8_ok l then RLine l else RInvalidEncoding.
