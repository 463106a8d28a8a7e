(** Literals: crates/tribute-front/src/astgen/expressions.rs:798-1103 and, for patterns,
    crates/tribute-front/src/astgen/patterns.rs:326-452.  A [str] is the list of its characters
    (scalar values); positions into it are byte positions, as in the code.  Floating point
    literals ([str::parse::<f64>]) are not modelled. *)
From Coq Require Export String Ascii List.
From Verif Require Export Base.
Open Scope list_scope.

Definition chars := list N.
(** The characters of a string constant of the code. *)
Definition lit (s : string) : chars := map N_of_ascii (list_ascii_of_string s).
Definition ch (s : string) : N := match lit s with c :: _ => c | [] => 0%N end.

(** * The parts of the standard library *)
(** [char::len_utf8]. *)
Definition width (c : N) : nat :=
  if (c <? 128)%N then 1 else if (c <? 2048)%N then 2 else if (c <? 65536)%N then 3 else 4.
(** [str::len]. *)
Definition len (t : chars) : nat := list_sum (map width t).
(** [str::split_at_checked]: the position has to be a character boundary. *)
Fixpoint split_at (t : chars) (n : nat) : option (chars * chars) :=
  match n, t with
  | 0, _ => Some ([], t)
  | _, [] => None
  | _, c :: r =>
      if n <? width c then None
      else match split_at r (n - width c) with Some (a, b) => Some (c :: a, b) | None => None end
  end.
(** [str::get] of [a..b] and of [a..]; indexing is the same and panics on [None]. *)
Definition get (t : chars) (a b : nat) : option chars :=
  if b <? a then None
  else match split_at t b with
       | Some (l, _) => match split_at l a with Some (_, m) => Some m | None => None end
       | None => None
       end.
Definition get_from (t : chars) (a : nat) : option chars :=
  match split_at t a with Some (_, r) => Some r | None => None end.
Fixpoint strip_prefix (p t : chars) : option chars :=
  match p, t with
  | [], _ => Some t
  | a :: p, b :: t => if (a =? b)%N then strip_prefix p t else None
  | _, [] => None
  end.
Definition starts_with (p t : chars) : bool := match strip_prefix p t with Some _ => true | None => false end.
Definition ends_with (c : N) (t : chars) : bool := match rev t with d :: _ => (d =? c)%N | [] => false end.
(** [char::is_whitespace]: the Unicode property White_Space. *)
Definition whitespace (c : N) : bool :=
  ((9 <=? c) && (c <=? 13) || (c =? 32) || (c =? 133) || (c =? 160) || (c =? 5760)
   || (8192 <=? c) && (c <=? 8202) || (c =? 8232) || (c =? 8233) || (c =? 8239) || (c =? 8287) || (c =? 12288))%N.
Fixpoint trim_start (t : chars) : chars :=
  match t with c :: r => if whitespace c then trim_start r else t | [] => [] end.
Definition trim (t : chars) : chars := rev (trim_start (rev (trim_start t))).
(** [text.replace('_', "")]. *)
Definition drop_underscores (t : chars) : chars := filter (fun c => negb (c =? ch "_")%N) t.
(** [.chars().take_while(|&c| c == '#').count()]. *)
Fixpoint count_hashes (t : chars) : nat :=
  match t with c :: r => if (c =? ch "#")%N then S (count_hashes r) else 0 | [] => 0 end.
(** [char::to_digit]. *)
Definition to_digit (radix c : N) : option N :=
  let d := (if (48 <=? c) && (c <=? 57) then Some (c - 48)
            else if (97 <=? c) && (c <=? 122) then Some (c - 97 + 10)
            else if (65 <=? c) && (c <=? 90) then Some (c - 65 + 10)
            else None)%N in
  match d with Some d => if (d <? radix)%N then Some d else None | None => None end.
(** [from_str_radix] of an unsigned type with [limit] values: a single sign is no number, a
    leading [+] is skipped, and the multiplication and the addition are checked. *)
Fixpoint digits_from (limit radix acc : N) (t : chars) : option N :=
  match t with
  | [] => Some acc
  | c :: r =>
      match to_digit radix c with
      | None => None
      | Some d =>
          if (limit <=? acc * radix)%N then None
          else if (limit <=? acc * radix + d)%N then None
          else digits_from limit radix (acc * radix + d) r
      end
  end.
Definition from_str_radix (limit radix : N) (t : chars) : option N :=
  match t with
  | [] => None
  | [c] => if (c =? ch "+")%N || (c =? ch "-")%N then None else digits_from limit radix 0 t
  | c :: r => if (c =? ch "+")%N then digits_from limit radix 0 r else digits_from limit radix 0 t
  end.
Definition u64_values : N := (2 ^ 64)%N.
Definition u32_values : N := (2 ^ 32)%N.
Definition u8_values : N := 256%N.
(** [char::from_u32]. *)
Definition from_u32 (n : N) : option N :=
  if ((n <? 55296) || (57344 <=? n) && (n <? 1114112))%N then Some n else None.
(** [char::encode_utf8]. *)
Definition encode_utf8 (c : N) : list N :=
  if (c <? 128)%N then [c]
  else if (c <? 2048)%N then [192 + c / 64; 128 + c mod 64]%N
  else if (c <? 65536)%N then [224 + c / 4096; 128 + (c / 64) mod 64; 128 + c mod 64]%N
  else [240 + c / 262144; 128 + (c / 4096) mod 64; 128 + (c / 64) mod 64; 128 + c mod 64]%N.
(** [str::as_bytes]. *)
Definition as_bytes (t : chars) : list N := flat_map encode_utf8 t.
(** [String::from_utf8]: the continuation bytes follow their lead byte; no overlong forms, no
    surrogates and nothing above U+10FFFF. *)
Definition continues (b : N) : bool := ((128 <=? b) && (b <? 192))%N.
Fixpoint from_utf8 (l : list N) : option chars :=
  match l with
  | [] => Some []
  | a :: l =>
      if (a <? 128)%N then option_map (cons a) (from_utf8 l)
      else match l with
           | [] => None
           | b :: l =>
               if negb (continues b) then None
               else if ((194 <=? a) && (a <? 224))%N
                    then option_map (cons ((a - 192) * 64 + (b - 128))%N) (from_utf8 l)
               else match l with
                    | [] => None
                    | c :: l =>
                        if negb (continues c) then None
                        else if ((224 <=? a) && (a <? 240))%N then
                          (if ((a =? 224) && (b <? 160) || (a =? 237) && (160 <=? b))%N then None
                           else option_map (cons ((a - 224) * 4096 + (b - 128) * 64 + (c - 128))%N) (from_utf8 l))
                        else match l with
                             | [] => None
                             | d :: l =>
                                 if negb (continues d) then None
                                 else if ((240 <=? a) && (a <? 245))%N then
                                   (if ((a =? 240) && (b <? 144) || (a =? 244) && (144 <=? b))%N then None
                                    else option_map
                                           (cons ((a - 240) * 262144 + (b - 128) * 4096 + (c - 128) * 64 + (d - 128))%N)
                                           (from_utf8 l))
                                 else None
                             end
                    end
           end
  end.

(** * Numbers *)
(** [parse_nat_literal], expressions.rs:798-808 and patterns.rs:326-336. *)
Definition parse_nat_literal (text : chars) : option N :=
  if starts_with (lit "0b") text || starts_with (lit "0B") text then
    from_str_radix u64_values 2 (drop_underscores (skipn 2 text))
  else if starts_with (lit "0o") text || starts_with (lit "0O") text then
    from_str_radix u64_values 8 (drop_underscores (skipn 2 text))
  else if starts_with (lit "0x") text || starts_with (lit "0X") text then
    from_str_radix u64_values 16 (drop_underscores (skipn 2 text))
  else from_str_radix u64_values 10 (drop_underscores text).

Definition i64_max : N := (2 ^ 63 - 1)%N.
(** [i64::try_from] of a [u64]. *)
Definition i64_try_from (v : N) : option Z := if (v <=? i64_max)%N then Some (Z.of_N v) else None.
Definition i64_min : Z := (- 2 ^ 63)%Z.
(** The sign of an integer literal, expressions.rs:811-822 and patterns.rs:339-350. *)
Definition sign_of (text : chars) : bool * chars :=
  match strip_prefix (lit "+") text with
  | Some rest => (false, rest)
  | None => match strip_prefix (lit "-") text with
            | Some rest => (true, rest)
            | None => (false, text)
            end
  end.
(** [parse_int_literal], expressions.rs:810-842. *)
Definition parse_int_literal (text : chars) : option Z :=
  let text := trim text in
  match text with
  | [] => None
  | _ =>
      let (is_negative, rest) := sign_of text in
      match parse_nat_literal rest with
      | None => None
      | Some value_u =>
          if is_negative : bool then
            let min_abs := (i64_max + 1)%N in
            if (min_abs <? value_u)%N then None
            else if (value_u =? min_abs)%N then Some i64_min
            else Some (- Z.of_N value_u)%Z
          else i64_try_from value_u
      end
  end.
(** [parse_int_literal] of patterns, patterns.rs:338-370. *)
Definition pattern_int_literal (text : chars) : option Z :=
  let text := trim text in
  match text with
  | [] => None
  | _ =>
      let (is_negative, rest) := sign_of text in
      match parse_nat_literal rest with
      | None => None
      | Some value =>
          if is_negative : bool then
            if (value <=? i64_max)%N then Some (- Z.of_N value)%Z
            else if (value =? i64_max + 1)%N then Some i64_min
            else None
          else i64_try_from value
      end
  end.

(** * Text and bytes *)
(** [process_escape_sequences], expressions.rs:1001-1076.  Runs without a backslash are copied
    byte by byte.  [str::from_utf8] of the digits does not show: bytes above 127 are no digits. *)
Fixpoint process_escape_sequences (l : list N) : list N :=
  match l with
  | [] => []
  | a :: l =>
      if negb (a =? ch "\")%N then a :: process_escape_sequences l
      else match l with
           | [] => [ch "\"]
           | c :: r =>
               if (c =? ch "n")%N then 10%N :: process_escape_sequences r
               else if (c =? ch "r")%N then 13%N :: process_escape_sequences r
               else if (c =? ch "t")%N then 9%N :: process_escape_sequences r
               else if (c =? ch "0")%N then 0%N :: process_escape_sequences r
               else if (c =? ch "\")%N then ch "\" :: process_escape_sequences r
               else if (c =? 34)%N then 34%N :: process_escape_sequences r
               else match r with
                    | h1 :: h2 :: r2 =>
                        if (c =? ch "x")%N then
                          match from_str_radix u8_values 16 [h1; h2] with Some b => b | None => 0%N end
                          :: process_escape_sequences r2
                        else match r2 with
                             | h3 :: h4 :: r4 =>
                                 if (c =? ch "u")%N then
                                   match from_str_radix u32_values 16 [h1; h2; h3; h4] with
                                   | Some n => match from_u32 n with Some k => encode_utf8 k | None => [] end
                                   | None => []
                                   end ++ process_escape_sequences r4
                                 else ch "\" :: process_escape_sequences l
                             | _ => ch "\" :: process_escape_sequences l
                             end
                    | _ => ch "\" :: process_escape_sequences l
                    end
           end
  end.

(** What follows the hashes of a raw literal, expressions.rs:873-902 and 946-975. *)
Definition hashed (text : chars) (prefix_len hash_count : nat) : chars :=
  let quote_start := prefix_len + hash_count in
  let expected_end_pattern_len := 1 + hash_count in
  match get text quote_start (quote_start + 1) with
  | Some [34%N] =>
      let content_start := quote_start + 1 in
      let content_end := len text - expected_end_pattern_len in
      if content_end <=? content_start then []
      else match get_from text content_end with
           | Some closing =>
               if list_eq_dec N.eq_dec closing (34%N :: repeat (ch "#") hash_count) then
                 match get text content_start content_end with Some c => c | None => [] end
               else []
           | None => []
           end
  | _ => []
  end.

(** [parse_string_literal], expressions.rs:844-923; [None] is the panic of [expect]. *)
Definition parse_string_literal (text : chars) : option chars :=
  let text := trim text in
  let '(prefix_len, is_raw) :=
    if starts_with (lit "rs") text || starts_with (lit "sr") text then (2, true)
    else if starts_with (lit "r") text then (1, true)
    else if starts_with (lit "s") text then (1, false)
    else (0, false) in
  let after_prefix := skipn prefix_len text in
  let hash_count := if is_raw : bool then count_hashes after_prefix else 0 in
  if 0 <? hash_count then Some (hashed text prefix_len hash_count)
  else if is_raw : bool then
    match get text prefix_len (prefix_len + 1) with
    | Some [34%N] =>
        Some match get text (prefix_len + 1) (len text - 1) with Some c => c | None => [] end
    | _ => Some []
    end
  else match get text prefix_len (prefix_len + 1) with
       | Some [34%N] =>
           let content := match get text (prefix_len + 1) (len text - 1) with Some c => c | None => [] end in
           from_utf8 (process_escape_sequences (as_bytes content))
       | _ => Some text
       end.

(** [parse_bytes_literal], expressions.rs:925-992. *)
Definition parse_bytes_literal (text : chars) : list N :=
  let text := trim text in
  let known :=
    if starts_with (lit "rb") text || starts_with (lit "br") text then Some (2, true)
    else if starts_with (lit "b") text then Some (1, false)
    else None in
  match known with
  | None => as_bytes text
  | Some (prefix_len, is_raw) =>
      let after_prefix := skipn prefix_len text in
      let hash_count := count_hashes after_prefix in
      if 0 <? hash_count then as_bytes (hashed text prefix_len hash_count)
      else
        let content := match get text (prefix_len + 1) (len text - 1) with Some c => c | None => [] end in
        if is_raw : bool then as_bytes content
        else process_escape_sequences (as_bytes content)
  end.

(** [parse_rune_literal], expressions.rs:1079-1103. *)
Definition parse_rune_literal (text : chars) : option N :=
  match strip_prefix (lit "?") text with
  | None => None
  | Some text =>
      match strip_prefix (lit "\") text with
      | Some escape =>
          match escape with
          | [] => None
          | c :: hex =>
              if (c =? ch "n")%N then Some 10%N
              else if (c =? ch "r")%N then Some 13%N
              else if (c =? ch "t")%N then Some 9%N
              else if (c =? ch "\")%N then Some (ch "\")
              else if (c =? ch "0")%N then Some 0%N
              else if (c =? ch "x")%N || (c =? ch "u")%N then
                match from_str_radix u32_values 16 hex with Some n => from_u32 n | None => None end
              else None
          end
      | None => match text with c :: _ => Some c | [] => None end
      end
  end.

(** * Patterns *)
(** [unescape_string], patterns.rs:373-423.  The iterator over the characters becomes a state:
    what has been taken since the last character that was pushed. *)
Inductive taking :=
| Plainly
| Backslash
| Hex (missing : nat) (taken : chars)
| Unicode
| Braces (taken : chars).
Definition byte_char (hex : chars) : chars :=
  match from_str_radix u8_values 16 hex with Some code => [code] | None => [] end.
Definition code_char (hex : chars) : chars :=
  match from_str_radix u32_values 16 hex with
  | Some n => match from_u32 n with Some k => [k] | None => [] end
  | None => []
  end.
(** Two characters are taken for a byte, four for a code. *)
Definition taken_char (is_byte : bool) (hex : chars) : chars := if is_byte then byte_char hex else code_char hex.
Inductive state := St (s : taking) (is_byte : bool).
Fixpoint unescape (s : state) (t : chars) : chars :=
  match s, t with
  | St Plainly _, [] => []
  | St Plainly b, c :: r => if (c =? ch "\")%N then unescape (St Backslash b) r else c :: unescape (St Plainly b) r
  | St Backslash _, [] => []
  | St Backslash b, c :: r =>
      if (c =? ch "n")%N then 10%N :: unescape (St Plainly b) r
      else if (c =? ch "r")%N then 13%N :: unescape (St Plainly b) r
      else if (c =? ch "t")%N then 9%N :: unescape (St Plainly b) r
      else if (c =? ch "\")%N then ch "\" :: unescape (St Plainly b) r
      else if (c =? 34)%N then 34%N :: unescape (St Plainly b) r
      else if (c =? ch "0")%N then 0%N :: unescape (St Plainly b) r
      else if (c =? ch "x")%N then unescape (St (Hex 1 []) true) r
      else if (c =? ch "u")%N then unescape (St Unicode false) r
      else c :: unescape (St Plainly b) r
  | St Unicode _, [] => []
  | St Unicode b, c :: r =>
      if (c =? ch "{")%N then unescape (St (Braces []) b) r else unescape (St (Hex 2 [c]) false) r
  | St (Hex _ taken) b, [] => taken_char b taken
  | St (Hex 0 taken) b, c :: r => taken_char b (taken ++ [c]) ++ unescape (St Plainly b) r
  | St (Hex (S n) taken) b, c :: r => unescape (St (Hex n (taken ++ [c])) b) r
  | St (Braces taken) _, [] => code_char taken
  | St (Braces taken) b, c :: r =>
      if (c =? ch "}")%N then code_char taken ++ unescape (St Plainly b) r
      else unescape (St (Braces (taken ++ [c])) b) r
  end.
Definition unescape_string (t : chars) : chars := unescape (St Plainly false) t.

(** [parse_string_literal] of patterns, patterns.rs:425-452; [None] is a panic of the indexing. *)
Definition pattern_string_literal (text : chars) : option chars :=
  let text := trim text in
  if starts_with (ch "r" :: [34%N]) text || starts_with (lit "r#") text then
    if starts_with (lit "r#") text then
      let hashes := count_hashes (skipn 1 text) in
      let start := 2 + hashes in
      let end_ := len text - hashes - 1 in
      if start <? end_ then get text start end_ else Some []
    else get text 2 (len text - 1)
  else
    let content :=
      if starts_with [34%N] text && ends_with 34 text && (2 <=? len text) then get text 1 (len text - 1)
      else Some text in
    option_map unescape_string content.
