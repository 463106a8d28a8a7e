(** Text positions in the language server.
    Models src/lsp/server.rs:779-845, 926-1036 and crates/tribute-front/src/source_file.rs:56-69
    over the documented behaviour of ropey 1.6 with its default features.

    A text is a list of Unicode scalar values. *)
From Coq Require Export List NArith.
From Verif Require Export Base.

Definition text := list N.

(** [char::len_utf8] and [char::len_utf16]. *)
Definition w8 (c : N) : nat :=
  if (c <? 128)%N then 1 else if (c <? 2048)%N then 2 else if (c <? 65536)%N then 3 else 4.
Definition w16 (c : N) : nat := if (c <? 65536)%N then 1 else 2.
Definition bytes (t : text) : nat := list_sum (List.map w8 t).
Definition units (t : text) : nat := list_sum (List.map w16 t).

(** [n as u32]. *)
Definition wrap32 (n : nat) : nat := N.to_nat (N.of_nat n mod 4294967296)%N.

(** * ropey *)

(** Index of the element that contains position [b], with elements of width [w]
    ([byte_to_char], [utf16_cu_to_char]; past the end: the number of elements). *)
Fixpoint index_at (w : N -> nat) (t : text) (b : nat) : nat :=
  match t with
  | [] => 0
  | c :: t => if b <? w c then 0 else S (index_at w t (b - w c))
  end.
Definition byte_to_char (t : text) (b : nat) : nat := index_at w8 t b.
Definition char_to_byte (t : text) (i : nat) : nat := bytes (firstn i t).
Definition utf16_cu_to_char (t : text) (u : nat) : nat := index_at w16 t u.
Definition char_to_utf16_cu (t : text) (i : nat) : nat := units (firstn i t).

Definition LF : N := 10.
Definition CR : N := 13.
(** Line breaks with the feature [unicode_lines], which is on by default: LF, VT, FF, CR,
    NEL, LS, PS; a CR directly followed by an LF does not end the line, the LF does. *)
Definition is_break (c : N) : bool :=
  ((10 <=? c) && (c <=? 13) || (c =? 133) || (c =? 8232) || (c =? 8233))%N.
Definition ends_line (c : N) (rest : text) : bool :=
  is_break c && negb ((c =? CR)%N && match rest with d :: _ => (d =? LF)%N | [] => false end).

Definition push (c : N) (ls : list text) : list text :=
  match ls with
  | l :: ls => (c :: l) :: ls
  | [] => [[c]]
  end.
(** The lines, each with its line break. *)
Fixpoint lines (t : text) : list text :=
  match t with
  | [] => [[]]
  | c :: t => if ends_line c t then [c] :: lines t else push c (lines t)
  end.
Definition len_lines (t : text) : nat := List.length (lines t).
Definition line (t : text) (l : nat) : text := nth l (lines t) [].
Definition line_to_char (t : text) (l : nat) : nat := List.length (concat (firstn l (lines t))).
Fixpoint line_of (ls : list text) (i : nat) : nat :=
  match ls with
  | [] => 0
  | l :: rest =>
      match rest with
      | [] => 0
      | _ => if i <? List.length l then 0 else S (line_of rest (i - List.length l))
      end
  end.
Definition char_to_line (t : text) (i : nat) : nat := line_of (lines t) i.

(** * server.rs *)

(** The line without a final '\n', server.rs:992-999, 1013-1020. *)
Definition without_lf (l : text) : text :=
  match List.length l with
  | 0 => l
  | S n => if (nth n l 0 =? LF)%N then firstn n l else l
  end.

(** [position_from_offset], server.rs:987-1004. *)
Definition position_from_offset (t : text) (offset : nat) : nat * nat :=
  let offset := Nat.min offset (bytes t) in
  let char_index := byte_to_char t offset in
  let ln := char_to_line t char_index in
  let slice := without_lf (line t ln) in
  let char_in_line := char_index - line_to_char t ln in
  (wrap32 ln, wrap32 (char_to_utf16_cu slice char_in_line)).

(** [offset_from_position], server.rs:1006-1025. *)
Definition offset_from_position (t : text) (ln character : nat) : option nat :=
  if len_lines t <=? ln then None else
  let slice := without_lf (line t ln) in
  let utf16_offset := Nat.min character (units slice) in
  let char_offset := utf16_cu_to_char slice utf16_offset in
  Some (char_to_byte t (line_to_char t ln + char_offset)).

(** [byte_line_col], server.rs:1027-1036. *)
Definition byte_line_col (t : text) (offset : nat) : nat * nat :=
  let offset := Nat.min offset (bytes t) in
  let char_index := byte_to_char t offset in
  let ln := char_to_line t char_index in
  (wrap32 ln, wrap32 (offset - char_to_byte t (line_to_char t ln))).

(** [str::split('\n')]. *)
Fixpoint split_lf (t : text) : list text :=
  match t with
  | [] => [[]]
  | c :: t => if (c =? LF)%N then [] :: split_lf t else push c (split_lf t)
  end.

(** [point_after_text], server.rs:926-938. *)
Definition point_after_text (start : nat * nat) (t : text) : nat * nat :=
  match split_lf t with
  | [] => start
  | first :: rest =>
      fold_left (fun p l => (S (fst p), bytes l)) rest (fst start, snd start + bytes first)
  end.

(** [TextDocumentContentChangeEvent] and [InputEdit]. *)
Record change := mkChange { c_range : option ((nat * nat) * (nat * nat)); c_text : text }.
Record edit := mkEdit { e_start : nat; e_old_end : nat; e_new_end : nat;
                        e_start_point : nat * nat; e_old_end_point : nat * nat; e_new_end_point : nat * nat }.

(** [apply_change], server.rs:779-845: the new text and, for a ranged change, the edit given to
    the parser.  [Bad] is the error return; [Panic] is [Rope::remove] on a reversed range. *)
Inductive applied := Applied (t : text) (e : option edit) | Bad | Panic.
Definition apply_change (t : text) (ch : change) : applied :=
  match c_range ch with
  | None => Applied (c_text ch) None
  | Some ((l1, c1), (l2, c2)) =>
      match offset_from_position t l1 c1 with
      | None => Bad
      | Some start_byte =>
      match offset_from_position t l2 c2 with
      | None => Bad
      | Some old_end_byte =>
          let start_point := byte_line_col t start_byte in
          let old_end_point := byte_line_col t old_end_byte in
          let new_end_point := point_after_text start_point (c_text ch) in
          let new_end_byte := start_byte + bytes (c_text ch) in
          let start_char := byte_to_char t start_byte in
          let old_end_char := byte_to_char t old_end_byte in
          if old_end_char <? start_char then Panic else
          Applied (firstn start_char t ++ c_text ch ++ skipn old_end_char t)
                  (Some (mkEdit start_byte old_end_byte new_end_byte start_point old_end_point new_end_point))
      end
      end
  end.

(** [did_change], server.rs:161-174: the changes in order; an error stops at the failing change
    and keeps the earlier ones.  The parse tree and the diagnostics are left out. *)
Inductive outcome := Changed (t : text) | Failed (t : text) | Crashed.
Fixpoint did_change (t : text) (chs : list change) : outcome :=
  match chs with
  | [] => Changed t
  | ch :: chs => match apply_change t ch with
                 | Applied t _ => did_change t chs
                 | Bad => Failed t
                 | Panic => Crashed
                 end
  end.

Section Completion.
  (** [char::is_alphanumeric]. *)
  Variable alphanumeric : N -> bool.

  (** [extract_completion_prefix], server.rs:956-985.  [fuel] bounds the rounds; the text has
      at most [offset] characters before the cursor. *)
  Fixpoint prefix_start (fuel : nat) (t : text) (start : nat) : nat :=
    match fuel with
    | O => start
    | S fuel =>
        if start =? 0 then start else
        let char_idx := byte_to_char t (start - 1) in
        match nth_error t char_idx with
        | None => start
        | Some c => if alphanumeric c || (c =? 95)%N then prefix_start fuel t (start - w8 c) else start
        end
    end.
  Definition completion_prefix (t : text) (offset : nat) : text :=
    if offset =? 0 then [] else
    let start := prefix_start offset t offset in
    if offset <=? start then [] else
    firstn (byte_to_char t offset - byte_to_char t start) (skipn (byte_to_char t start) t).
End Completion.

(** * Reading the rope for the parser *)

(** [Rope::chunk_at_byte]: the chunk that contains byte [b] and where it starts. *)
Fixpoint chunk_at (chunks : list (list N)) (from b : nat) : list N * nat :=
  match chunks with
  | [] => ([], from)
  | [c] => (c, from)
  | c :: rest => if b <? from + List.length c then (c, from) else chunk_at rest (from + List.length c) b
  end.

(** [chunk_from_byte], source_file.rs:62-69. *)
Definition chunk_from_byte (chunks : list (list N)) (b : nat) : list N :=
  if List.length (concat chunks) <=? b then [] else
  let (chunk, start) := chunk_at chunks 0 b in
  skipn (b - start) chunk.

(** What a reader sees that asks for the bytes from 0 and continues after each answer until it
    gets an empty one, as tree-sitter does. *)
Fixpoint read_all (fuel : nat) (chunks : list (list N)) (b : nat) : list N :=
  match fuel with
  | O => []
  | S fuel => match chunk_from_byte chunks b with
              | [] => []
              | got => got ++ read_all fuel chunks (b + List.length got)
              end
  end.
