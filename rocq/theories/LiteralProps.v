(** C60: a literal denotes the value that the language reference gives it. *)
From Coq Require Import String List.
From Verif Require Import LiteralModel LiteralSpec LiteralProofs LiteralMain.
Open Scope string_scope. Open Scope list_scope. Import ListNotations.

(** A natural number literal denotes the number that its digits write in its base; numbers that
    do not fit in 64 bits are rejected. *)
Theorem nat_literals_denote : forall t v,
  nat_literal t v -> parse_nat_literal t = (if v <? 2 ^ 64 then Some v else None)%N.
Proof. exact nat_literal_ok. Qed.
Print Assumptions nat_literals_denote.
Example nat_literals_meet :
  nat_literal (lit "0xFf_fe") 65534 /\ nat_literal (lit "18446744073709551616") 18446744073709551616 /\
  parse_nat_literal (lit "0xFf_fe") = Some 65534%N /\ parse_nat_literal (lit "18446744073709551616") = None.
Proof.
  split; [|split; [|split; reflexivity]].
  - exists Hexadecimal, "0x", (lit "Ff_fe"), [15; 15; 15; 14]%N. split; [cbn; tauto|]. split; [reflexivity|].
    split; [|split; [discriminate|reflexivity]].
    apply (one_digit _ _ 15); [apply (upper 15); lia|reflexivity|].
    apply (one_digit _ _ 15); [apply (lower 15); lia|reflexivity|].
    apply underscore. apply (one_digit _ _ 15); [apply (lower 15); lia|reflexivity|].
    apply (one_digit _ _ 14); [apply (lower 14); lia|reflexivity|]. constructor.
  - exists Decimal, "", (lit "18446744073709551616"), [1;8;4;4;6;7;4;4;0;7;3;7;0;9;5;5;1;6;1;6]%N.
    split; [cbn; tauto|]. split; [reflexivity|]. split; [|split; [discriminate|reflexivity]].
    change (lit "18446744073709551616") with [49;56;52;52;54;55;52;52;48;55;51;55;48;57;53;53;49;54;49;54]%N.
    repeat (match goal with |- digits _ (?c :: _) (?d :: _) =>
              apply (one_digit _ c d); [apply (arabic d); lia|reflexivity|] end).
    constructor.
Qed.

(** Nothing else is accepted, apart from a plus sign in front of the digits, which
    [from_str_radix] skips and the grammar does not produce. *)
Theorem only_nat_literals_accepted : forall t v,
  ~ In (ch "+") t -> parse_nat_literal t = Some v -> nat_literal t v.
Proof. exact nat_literal_only. Qed.
Print Assumptions only_nat_literals_accepted.
Example only_nat_literals_meet :
  ~ In (ch "+") (lit "0o17") /\ parse_nat_literal (lit "0o17") = Some 15%N /\ parse_nat_literal (lit "0o18") = None.
Proof. split; [cbv; intuition discriminate|split; reflexivity]. Qed.

(** A signed literal denotes its number; what does not fit in 64 bits is rejected. *)
Theorem int_literals_denote : forall t z,
  int_literal t z -> parse_int_literal t = (if (- 2 ^ 63 <=? z) && (z <? 2 ^ 63) then Some z else None)%Z.
Proof. exact int_literal_ok. Qed.
Print Assumptions int_literals_denote.
Example int_literals_meet :
  int_literal (lit "-0b101") (-5) /\ parse_int_literal (lit "-9223372036854775808") = Some (- 2 ^ 63)%Z /\
  parse_int_literal (lit "+9223372036854775808") = None.
Proof.
  split; [|split; reflexivity]. apply (minus (lit "0b101") 5). exists Binary, "0b", (lit "101"), [1; 0; 1]%N.
  split; [cbn; tauto|]. split; [reflexivity|]. split; [|split; [discriminate|reflexivity]].
  apply (one_digit _ _ 1); [apply (arabic 1); lia|reflexivity|].
  apply (one_digit _ _ 0); [apply (arabic 0); lia|reflexivity|].
  apply (one_digit _ _ 1); [apply (arabic 1); lia|reflexivity|]. constructor.
Qed.

(** In a pattern an integer literal denotes what it denotes in an expression. *)
Theorem pattern_ints_agree : forall t, pattern_int_literal t = parse_int_literal t.
Proof. exact pattern_int_same. Qed.
Print Assumptions pattern_ints_agree.

(** A text literal denotes the characters and escapes between its quotes.  Missing: byte escapes
    above 7F, the refutation below. *)
Theorem text_literals_denote_partial : forall pre ps cs,
  In pre [""; "s"] -> all_mean means ps cs -> parse_string_literal (quoted pre (text_of ps)) = Some cs.
Proof. exact strings_ok. Qed.
Print Assumptions text_literals_denote_partial.
Example text_literals_meet :
  exists ps, all_mean means ps [97; 10; 65; 8364; 128640]%N /\
    text_of ps = lit "a\n\x41\u20aC" ++ [128640%N] /\
    parse_string_literal (quoted "s" (text_of ps)) = Some [97; 10; 65; 8364; 128640]%N.
Proof.
  exists [Character 97; Escape (ch "n"); Byte (ch "4") (ch "1"); Code (ch "2") (ch "0") (ch "a") (ch "C"); Character 128640].
  split; [|split; reflexivity]. exists [[97]; [10]; [4 * 16 + 1]; [value 16 [2; 0; 10; 12]]; [128640]]%N.
  split; [|reflexivity].
  constructor; [constructor; [left; reflexivity|discriminate|discriminate]|].
  constructor; [constructor; cbn; tauto|].
  constructor; [apply means_byte; [apply (arabic 4); lia|apply (arabic 1); lia|reflexivity]|].
  constructor.
  - apply (means_code _ _ _ _ 2 0 10 12); [apply (arabic 2); lia|apply (arabic 0); lia|apply (lower 10); lia|apply (upper 12); lia|].
    left. reflexivity.
  - constructor; [|constructor]. constructor; [right; split; [discriminate|reflexivity]|discriminate|discriminate].
Qed.

(** Exactly: with byte escapes the bytes have to be the encoding of characters; the compiler
    panics if they are not. *)
Theorem text_literals_exactly : forall pre ps bs cs,
  In pre [""; "s"] -> all_mean means_bytes ps bs ->
  (parse_string_literal (quoted pre (text_of ps)) = Some cs <-> bs = flat_map utf8 cs /\ Forall scalar cs).
Proof. exact strings_bytes. Qed.
Print Assumptions text_literals_exactly.

(** Every text can be written, and so can all bytes. *)
Theorem every_text_has_a_literal : forall cs, Forall scalar cs -> exists ps, all_mean means ps cs.
Proof. exact writable. Qed.
Print Assumptions every_text_has_a_literal.
Theorem all_bytes_have_a_literal : forall bs, Forall (fun b => (b < 256)%N) bs -> exists ps, all_mean means_bytes ps bs.
Proof. exact bytes_writable. Qed.
Print Assumptions all_bytes_have_a_literal.

(** A raw literal denotes what stands between its quotes, with any number of hashes. *)
Theorem raw_text_denotes_its_body : forall pre n body,
  In pre ["r"; "rs"; "sr"] -> parse_string_literal (fenced pre n body) = Some body.
Proof. exact string_raw. Qed.
Print Assumptions raw_text_denotes_its_body.
Theorem raw_bytes_denote_their_body : forall pre n body,
  In pre ["rb"; "br"] -> parse_bytes_literal (fenced pre n body) = flat_map utf8 body.
Proof. exact bytes_raw. Qed.
Print Assumptions raw_bytes_denote_their_body.
Example raw_meet :
  fenced "rs" 1 (lit "a\n" ++ 34%N :: lit "#b") =
    lit "rs#" ++ 34%N :: lit "a\n" ++ 34%N :: lit "#b" ++ 34%N :: lit "#" /\
  parse_string_literal (fenced "r" 1 (lit "a\n")) = Some (lit "a\n") /\
  parse_bytes_literal (fenced "br" 2 [233%N]) = [195; 169]%N.
Proof. repeat split. Qed.

(** A bytes literal denotes its bytes. *)
Theorem bytes_literals_denote : forall ps bs,
  all_mean means_bytes ps bs -> parse_bytes_literal (quoted "b" (text_of ps)) = bs.
Proof. exact bytes_ok. Qed.
Print Assumptions bytes_literals_denote.
Example bytes_literals_meet :
  exists ps, all_mean means_bytes ps [255; 0; 195; 169]%N /\ parse_bytes_literal (quoted "b" (text_of ps)) = [255; 0; 195; 169]%N.
Proof.
  exists [Byte (ch "f") (ch "F"); Escape (ch "0"); Character 233]. split; [|reflexivity].
  exists [[15 * 16 + 15]; flat_map utf8 [0]; flat_map utf8 [233]]%N. split; [|reflexivity].
  constructor; [apply bytes_byte; [apply (lower 15); lia|apply (upper 15); lia]|].
  constructor; [constructor; constructor; cbn; tauto|]. constructor; [|constructor].
  constructor. constructor; [left; reflexivity|discriminate|discriminate].
Qed.

(** A rune literal denotes its character, whichever way it is written; a byte escape denotes the
    character with that number. *)
Theorem rune_literals_denote : forall p c,
  means p [c] -> p <> Escape 34%N -> parse_rune_literal (lit "?" ++ written p) = Some c.
Proof. exact rune_ok. Qed.
Print Assumptions rune_literals_denote.
Theorem rune_bytes_denote : forall h1 h2 a b,
  digit h1 a -> digit h2 b -> parse_rune_literal (lit "?" ++ written (Byte h1 h2)) = Some (a * 16 + b)%N.
Proof. exact rune_byte. Qed.
Print Assumptions rune_bytes_denote.
Example rune_literals_meet :
  means (Escape (ch "t")) [9%N] /\ parse_rune_literal (lit "?\t") = Some 9%N /\ parse_rune_literal (lit "?\xe9") = Some 233%N.
Proof. split; [constructor; cbn; tauto|split; reflexivity]. Qed.

(** In a pattern a text literal denotes what it denotes in an expression, so the pattern matches
    the text that is written the same way.  Missing: byte escapes above 7F and the prefixes,
    the refutations below. *)
Theorem pattern_texts_agree_partial : forall ps cs,
  all_mean means ps cs ->
  pattern_string_literal (quoted "" (text_of ps)) = parse_string_literal (quoted "" (text_of ps)).
Proof. exact pattern_text_same. Qed.
Print Assumptions pattern_texts_agree_partial.
Theorem raw_patterns_denote_their_body : forall n body, pattern_string_literal (fenced "r" n body) = Some body.
Proof. exact pattern_raw. Qed.
Print Assumptions raw_patterns_denote_their_body.

(** * Where the literals do not denote what they should *)
(** The text literal with the escape for the byte FF stops the compiler with a panic. *)
Theorem byte_escape_panics_refuted : exists ps bs,
  all_mean means_bytes ps bs /\ parse_string_literal (quoted "" (text_of ps)) = None.
Proof.
  exists [Byte (ch "F") (ch "F")], [255%N]. split; [|reflexivity]. exists [[15 * 16 + 15]]%N. split; [|reflexivity].
  constructor; [|constructor]. apply bytes_byte; apply (upper 15); lia.
Qed.
Print Assumptions byte_escape_panics_refuted.

(** The same two byte escapes denote one character in an expression and two in a pattern: the
    pattern does not match the text that is written the same way. *)
Theorem pattern_byte_escapes_refuted : exists ps bs cs ds,
  all_mean means_bytes ps bs /\ parse_string_literal (quoted "" (text_of ps)) = Some cs /\
  pattern_string_literal (quoted "" (text_of ps)) = Some ds /\ cs <> ds.
Proof.
  exists [Byte (ch "C") (ch "3"); Byte (ch "A") (ch "9")], [195; 169]%N, [233]%N, [195; 169]%N.
  split; [|split; [reflexivity|split; [reflexivity|discriminate]]].
  exists [[12 * 16 + 3]; [10 * 16 + 9]]%N. split; [|reflexivity].
  constructor; [apply bytes_byte; [apply (upper 12); lia|apply (arabic 3); lia]|].
  constructor; [|constructor]. apply bytes_byte; [apply (upper 10); lia|apply (arabic 9); lia].
Qed.
Print Assumptions pattern_byte_escapes_refuted.

(** With a prefix the pattern denotes its own source text. *)
Theorem pattern_prefixes_refuted : forall pre, In pre ["s"; "rs"; "sr"] ->
  exists body, parse_string_literal (quoted pre body) = Some body /\
    pattern_string_literal (quoted pre body) = Some (quoted pre body).
Proof. intros pre [<-|[<-|[<-|[]]]]; exists [97%N]; split; reflexivity. Qed.
Print Assumptions pattern_prefixes_refuted.

(** A multiline text literal denotes its own source text, hashes and quotes included. *)
Theorem multiline_text_refuted : forall pre n body,
  In pre [""; "s"] -> n <> 0 -> parse_string_literal (fenced pre n body) = Some (fenced pre n body).
Proof. exact multiline_text. Qed.
Print Assumptions multiline_text_refuted.

(** Escapes are not processed in a multiline bytes literal. *)
Theorem multiline_bytes_refuted : exists ps bs,
  all_mean means_bytes ps bs /\ parse_bytes_literal (fenced "b" 1 (text_of ps)) <> bs.
Proof.
  exists [Escape (ch "n")], [10%N]. split; [|discriminate]. exists [flat_map utf8 [10%N]]. split; [|reflexivity].
  constructor; [|constructor]. constructor. constructor. cbn; tauto.
Qed.
Print Assumptions multiline_bytes_refuted.

(** An escape whose number is no character disappears from the text. *)
Theorem surrogate_escape_refuted : exists h1 h2 h3 h4 a b c d,
  digit h1 a /\ digit h2 b /\ digit h3 c /\ digit h4 d /\ ~ scalar (value 16 [a; b; c; d]) /\
  parse_string_literal (quoted "" (text_of [Character 97; Code h1 h2 h3 h4])) = Some [97%N].
Proof.
  exists (ch "d"), (ch "8"), (ch "0"), (ch "0"), 13%N, 8%N, 0%N, 0%N.
  split; [apply (lower 13); lia|]. split; [apply (arabic 8); lia|]. split; [apply (arabic 0); lia|].
  split; [apply (arabic 0); lia|]. split; [|reflexivity].
  change (value 16 [13; 8; 0; 0]%N) with 55296%N. unfold scalar. lia.
Qed.
Print Assumptions surrogate_escape_refuted.
