(** Text positions in the language server (C39, C40, C48, C49). *)
From Verif Require Import LspModel LspSpec LspProofs.
Import ListNotations.

(** ** C39 *)

(** Going from a byte offset at a character boundary to a position and back is the identity, for
    every text, whatever its line breaks. *)
Theorem offset_survives_position : forall t i, i <= List.length t -> addressable t ->
  let p := position_from_offset t (bytes (firstn i t)) in
  offset_from_position t (fst p) (snd p) = Some (bytes (firstn i t)).
Proof. exact offset_back. Qed.
Print Assumptions offset_survives_position.

(** On texts whose line breaks are LF, CR or CR LF, positions are those of the protocol, both ways. *)
Theorem positions_are_the_protocols_partial : forall t i, plain t -> i <= List.length t -> addressable t ->
  position_from_offset t (bytes (firstn i t)) = lsp_position t i /\
  offset_from_position t (fst (lsp_position t i)) (snd (lsp_position t i)) = Some (bytes (firstn i t)).
Proof. exact lsp_both. Qed.
Print Assumptions positions_are_the_protocols_partial.

(** Missing: the other line breaks that ropey knows.  A form feed starts a new line for the server
    but not for the client. *)
Theorem form_feed_line_refuted : exists t i, i <= List.length t /\ addressable t /\
  position_from_offset t (bytes (firstn i t)) <> lsp_position t i.
Proof. exact form_feed. Qed.
Print Assumptions form_feed_line_refuted.

(** Going from a position inside a line to an offset and back is the identity. *)
Theorem position_survives_offset : forall t ln k,
  ln < len_lines t -> k <= List.length (content (line t ln)) -> addressable t ->
  exists o, offset_from_position t ln (units (firstn k (content (line t ln)))) = Some o /\
    position_from_offset t o = (ln, units (firstn k (content (line t ln)))) /\
    o = bytes (firstn (line_to_char t ln + k) t).
Proof. exact position_back. Qed.
Print Assumptions position_survives_offset.

(** A column inside a surrogate pair means the start of that character. *)
Theorem column_rounds_down : forall t ln ch, ln < len_lines t -> ch < units (content (line t ln)) ->
  exists k, k < List.length (content (line t ln)) /\
    units (firstn k (content (line t ln))) <= ch < units (firstn (S k) (content (line t ln))) /\
    offset_from_position t ln ch = Some (bytes (firstn (line_to_char t ln + k) t)).
Proof. exact position_inside. Qed.
Print Assumptions column_rounds_down.

(** An offset inside a character has the position of that character, one past the end that of the end. *)
Theorem offset_rounds_down : forall t o, addressable t ->
  exists i, i <= List.length t /\ bytes (firstn i t) <= o /\
    (i < List.length t -> o < bytes (firstn (S i) t)) /\
    position_from_offset t o = position_from_offset t (bytes (firstn i t)).
Proof. exact offset_inside. Qed.
Print Assumptions offset_rounds_down.

(** Offsets count bytes of UTF-8, columns units of UTF-16. *)
Theorem widths_are_the_encodings : forall c, w8 c = List.length (utf8 c) /\ w16 c = List.length (utf16 c).
Proof. exact widths. Qed.
Print Assumptions widths_are_the_encodings.

(** Positions on lines that do not exist are rejected, and only those. *)
Theorem missing_line_rejected : forall t ln ch, offset_from_position t ln ch = None <-> len_lines t <= ln.
Proof. exact missing_line. Qed.
Print Assumptions missing_line_rejected.

(** A column past the end of the line means the end of the line, when the line ends in a single
    LF or is the last one without a line break. *)
Theorem column_past_end_partial : forall t ln ch, ln < len_lines t -> units (content (line t ln)) <= ch ->
  (line t ln = content (line t ln) \/ line t ln = content (line t ln) ++ [LF]) ->
  offset_from_position t ln ch = Some (bytes (firstn (line_to_char t ln + List.length (content (line t ln))) t)).
Proof. exact past_end. Qed.
Print Assumptions column_past_end_partial.

(** Missing: other line ends.  Past the end of a line that ends in CR LF is between the CR and the LF;
    past the end of a line that ends in CR is on the next line. *)
Theorem column_past_end_refuted : exists t ln ch, ln < len_lines t /\ addressable t /\ plain t /\
  units (content (line t ln)) <= ch /\
  exists o, offset_from_position t ln ch = Some o /\ fst (position_from_offset t o) <> ln.
Proof. exact past_end_cr. Qed.
Print Assumptions column_past_end_refuted.
Theorem column_past_crlf_refuted : exists t ln ch, ln < len_lines t /\ addressable t /\ lf_only t /\
  units (content (line t ln)) <= ch /\
  offset_from_position t ln ch <> Some (bytes (firstn (line_to_char t ln + List.length (content (line t ln))) t)).
Proof. exact past_end_crlf. Qed.
Print Assumptions column_past_crlf_refuted.

(** "a", U+1F600, LF, e acute, CR, LF, "b". *)
Definition sample : text := [97; 128512; 10; 233; 13; 10; 98]%N.
Example sample_plain : plain sample /\ addressable sample /\ lf_only sample /\ len_lines sample = 3 /\
  content (line sample 1) = [233%N] /\ bytes (firstn 4 sample) = 8 /\
  position_from_offset sample 8 = (1, 1) /\ offset_from_position sample 1 1 = Some 8 /\
  offset_from_position sample 0 2 = Some 1 /\ position_from_offset sample 7 = (1, 0) /\
  offset_from_position sample 0 9 = Some 5 /\ line sample 0 = content (line sample 0) ++ [LF].
Proof.
  split; [repeat constructor; intros; first [left; reflexivity | right; reflexivity | discriminate]|].
  split; [reflexivity|]. split; [|repeat split].
  intros pre c rest E B. destruct pre as [|? [|? [|? [|? [|? [|? [|? [|? ?]]]]]]]]; inversion E; subst; try discriminate;
    first [left; reflexivity | right; split; [reflexivity | eexists; reflexivity]].
Qed.

(** ** C40 *)

(** A change either replaces exactly the characters between the two positions, or is rejected because
    a line does not exist, or the range is reversed. *)
Theorem change_replaces_its_range : forall t l1 c1 l2 c2 new,
  match apply_change t (mkChange (Some ((l1, c1), (l2, c2))) new) with
  | Bad => len_lines t <= l1 \/ len_lines t <= l2
  | Panic => exists o1 o2, offset_from_position t l1 c1 = Some o1 /\ offset_from_position t l2 c2 = Some o2 /\ o2 < o1
  | Applied t' _ => exists i j, i <= j <= List.length t /\ t' = replaced t i j new /\
      offset_from_position t l1 c1 = Some (bytes (firstn i t)) /\ offset_from_position t l2 c2 = Some (bytes (firstn j t))
  end.
Proof. exact apply_change_cases. Qed.
Print Assumptions change_replaces_its_range.

(** After any history of edits the server's text is the client's, as long as the client's texts have
    only LF and CR line breaks. *)
Theorem server_text_follows_client : forall t es t', client_history t es t' ->
  did_change t (as_changes t es) = Changed t'.
Proof. exact history_ok. Qed.
Print Assumptions server_text_follows_client.

(** A full replacement starts over from the new text. *)
Theorem full_replacement_sets_the_text : forall t es t' new es' t'', client_history t es t' -> client_history new es' t'' ->
  did_change t (as_changes t es ++ mkChange None new :: as_changes new es') = Changed t''.
Proof. exact full_change. Qed.
Print Assumptions full_replacement_sets_the_text.

(** A change on a line that does not exist is refused; the changes before it stay, those after it are not made. *)
Theorem refused_change_stops : forall t es t' l1 c1 l2 c2 new rest, client_history t es t' ->
  len_lines t' <= l1 \/ len_lines t' <= l2 ->
  did_change t (as_changes t es ++ mkChange (Some ((l1, c1), (l2, c2))) new :: rest) = Failed t'.
Proof. exact rejected. Qed.
Print Assumptions refused_change_stops.

(** Without that condition the texts drift apart. *)
Theorem server_text_drifts_refuted : exists t e, addressable t /\ ce_from e <= ce_to e /\ ce_to e <= List.length t /\
  did_change t [as_change t e] <> Changed (client_apply t e).
Proof. exact text_drifts. Qed.
Print Assumptions server_text_drifts_refuted.

(** The edit told to the parser has the right bytes, and the right points when the text's only line
    ends are LF, whatever is inserted. *)
Theorem edit_describes_the_change_partial : forall t i j l1 c1 l2 c2 new,
  i <= j -> j <= List.length t -> lf_only t -> addressable t ->
  offset_from_position t l1 c1 = Some (bytes (firstn i t)) ->
  offset_from_position t l2 c2 = Some (bytes (firstn j t)) ->
  apply_change t (mkChange (Some ((l1, c1), (l2, c2))) new) =
    Applied (replaced t i j new)
      (Some (mkEdit (bytes (firstn i t)) (bytes (firstn j t)) (bytes (firstn i t ++ new))
                    (parser_point t i) (parser_point t j)
                    (parser_point (replaced t i j new) (i + List.length new)))).
Proof. exact apply_change_points. Qed.
Print Assumptions edit_describes_the_change_partial.

(** The bytes are right for every text. *)
Theorem edit_bytes_are_exact : forall t i j l1 c1 l2 c2 new,
  i <= j -> j <= List.length t ->
  offset_from_position t l1 c1 = Some (bytes (firstn i t)) ->
  offset_from_position t l2 c2 = Some (bytes (firstn j t)) ->
  exists e, apply_change t (mkChange (Some ((l1, c1), (l2, c2))) new) = Applied (replaced t i j new) (Some e) /\
    e_start e = bytes (firstn i t) /\ e_old_end e = bytes (firstn j t) /\ e_new_end e = bytes (firstn i t ++ new).
Proof. exact edit_bytes. Qed.
Print Assumptions edit_bytes_are_exact.

(** The points are wrong after a CR that is not followed by an LF. *)
Theorem edit_points_refuted : exists t i l1 c1 new, plain t /\ addressable t /\
  offset_from_position t l1 c1 = Some (bytes (firstn i t)) /\
  exists t' e, apply_change t (mkChange (Some ((l1, c1), (l1, c1))) new) = Applied t' (Some e) /\
    e_start_point e <> parser_point t i.
Proof. exact points_wrong. Qed.
Print Assumptions edit_points_refuted.

(** A reversed range stops the server. *)
Theorem reversed_range_panics_refuted : exists t ch, plain t /\ addressable t /\ apply_change t ch = Panic.
Proof. exact reversed. Qed.
Print Assumptions reversed_range_panics_refuted.

Definition typed : list client_edit := [mkClient 2 6 [13; 10; 120]%N; mkClient 0 1 []%N; mkClient 1 5 [8364]%N].
Example typed_history : client_history sample typed [128512; 8364]%N.
Proof.
  unfold typed. repeat (econstructor; try (cbn; lia); try reflexivity;
    try (repeat constructor; intros; first [left; reflexivity | right; reflexivity | discriminate])).
Qed.
Example typed_edit :
  apply_change sample (mkChange (Some ((0, 3), (2, 0))) [13; 10; 120]%N) =
    Applied [97; 128512; 13; 10; 120; 98]%N (Some (mkEdit 5 10 8 (0, 5) (2, 0) (1, 1))).
Proof. vm_compute. reflexivity. Qed.

(** ** C49: the completion prefix *)

(** The prefix is the longest run of identifier characters that ends at the cursor. *)
Theorem completion_prefix_is_maximal : forall alphanumeric t i, i <= List.length t ->
  exists k, k <= i /\ completion_prefix alphanumeric t (bytes (firstn i t)) = firstn (i - k) (skipn k t) /\
    Forall (fun c => alphanumeric c || (c =? 95)%N = true) (firstn (i - k) (skipn k t)) /\
    (k = 0 \/ exists c, nth_error t (k - 1) = Some c /\ alphanumeric c || (c =? 95)%N = false).
Proof. exact completion_ok. Qed.
Print Assumptions completion_prefix_is_maximal.
Example completion_sample :
  completion_prefix (fun c => (97 <=? c)%N) [97; 32; 233; 95; 98; 32]%N 6 = [233; 95; 98]%N.
Proof. vm_compute. reflexivity. Qed.

(** ** C48: the parser reads the text *)

(** However the text is cut into chunks, a reader that asks for bytes until it gets none sees all of
    them, and every answer is what follows the byte asked for. *)
Theorem parser_reads_the_whole_text : forall chunks fuel, List.length (concat chunks) < fuel ->
  read_all fuel chunks 0 = concat chunks.
Proof. exact reads_all. Qed.
Print Assumptions parser_reads_the_whole_text.
Theorem answers_continue_the_text : forall chunks b,
  (List.length (concat chunks) <= b -> chunk_from_byte chunks b = []) /\
  (b < List.length (concat chunks) -> chunk_from_byte chunks b <> [] /\
     exists r, skipn b (concat chunks) = chunk_from_byte chunks b ++ r).
Proof. exact chunk_from_ok. Qed.
Print Assumptions answers_continue_the_text.
Example chunks_sample : read_all 7 [[1; 2]; [3]; [4; 5; 6]]%N 0 = [1; 2; 3; 4; 5; 6]%N /\
  chunk_from_byte [[1; 2]; [3]; [4; 5; 6]]%N 4 = [5; 6]%N.
Proof. split; reflexivity. Qed.
