(** What positions mean, independently of ropey. *)
From Verif Require Export LspModel.

(** The UTF-8 and UTF-16 encodings of a scalar value, for the widths. *)
Definition utf8 (c : N) : list N :=
  (if c <=? 127 then [c]
   else if c <=? 2047 then [192 + c / 64; 128 + c mod 64]
   else if c <=? 65535 then [224 + c / 4096; 128 + c / 64 mod 64; 128 + c mod 64]
   else [240 + c / 262144; 128 + c / 4096 mod 64; 128 + c / 64 mod 64; 128 + c mod 64])%N.
Definition utf16 (c : N) : list N :=
  (if c <=? 65535 then [c] else [55296 + (c - 65536) / 1024; 56320 + (c - 65536) mod 1024])%N.

(** Walk over the first [i] characters counting line ends and, since the last of them, the
    width of the characters. *)
Fixpoint walk (ends : N -> text -> bool) (w : N -> nat) (t : text) (i : nat) (l c : nat) : nat * nat :=
  match i, t with
  | S i, x :: t => if ends x t then walk ends w t i (S l) 0 else walk ends w t i l (c + w x)
  | _, _ => (l, c)
  end.

(** The language server protocol: lines end in LF, CR LF or CR; columns are UTF-16 units. *)
Definition lsp_ends (c : N) (rest : text) : bool :=
  (c =? LF)%N || ((c =? CR)%N && negb match rest with d :: _ => (d =? LF)%N | [] => false end).
Definition lsp_position (t : text) (i : nat) : nat * nat := walk lsp_ends w16 t i 0 0.

(** The parser: rows end in LF; columns are bytes. *)
Definition parser_point (t : text) (i : nat) : nat * nat := walk (fun c _ => (c =? LF)%N) w8 t i 0 0.

(** Texts without the line breaks that the protocol does not know. *)
Definition plain (t : text) : Prop := Forall (fun c => is_break c = true -> c = LF \/ c = CR) t.
(** Texts whose only line ends are LF, possibly after CR. *)
Definition lf_only (t : text) : Prop :=
  forall pre c rest, t = pre ++ c :: rest -> is_break c = true -> c = LF \/ (c = CR /\ exists r, rest = LF :: r).

(** Not too long for 32-bit positions. *)
Definition addressable (t : text) : Prop := (N.of_nat (bytes t) < 4294967296)%N.

(** A line without its line break. *)
Definition content (l : text) : text :=
  match rev l with
  | [] => []
  | [c] => if is_break c then [] else l
  | c :: d :: r => if (c =? LF)%N && (d =? CR)%N then rev r else if is_break c then rev (d :: r) else l
  end.

(** Replacing the characters from [i] to [j]. *)
Definition replaced (t : text) (i j : nat) (new : text) : text := firstn i t ++ new ++ skipn j t.

(** A history of edits, each replacing a range of characters of the client's text. *)
Record client_edit := mkClient { ce_from : nat; ce_to : nat; ce_text : text }.
Definition client_apply (t : text) (e : client_edit) : text := replaced t (ce_from e) (ce_to e) (ce_text e).
(** Every edit applies to the text left by those before it, on texts the positions can address. *)
Inductive client_history : text -> list client_edit -> text -> Prop :=
| history_nil t : client_history t [] t
| history_cons t e es t' :
    plain t -> addressable t -> ce_from e <= ce_to e -> ce_to e <= List.length t ->
    client_history (client_apply t e) es t' -> client_history t (e :: es) t'.
(** How the client describes it. *)
Definition as_change (t : text) (e : client_edit) : change :=
  mkChange (Some (lsp_position t (ce_from e), lsp_position t (ce_to e))) (ce_text e).
Fixpoint as_changes (t : text) (es : list client_edit) : list change :=
  match es with
  | [] => []
  | e :: es => as_change t e :: as_changes (client_apply t e) es
  end.
