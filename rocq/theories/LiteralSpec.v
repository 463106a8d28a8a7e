(** What literals denote, after the language reference new-plans/syntax.md:61-108. *)
From Verif Require Export LiteralModel.

(** * Numbers *)
Inductive base := Binary | Octal | Decimal | Hexadecimal.
Definition radix (b : base) : N := match b with Binary => 2 | Octal => 8 | Decimal => 10 | Hexadecimal => 16 end.
Definition prefixes (b : base) : list string :=
  match b with
  | Binary => ["0b"; "0B"] | Octal => ["0o"; "0O"] | Decimal => [""] | Hexadecimal => ["0x"; "0X"]
  end%string.
(** A digit and its value. *)
Inductive digit : N -> N -> Prop :=
| arabic d : (d < 10)%N -> digit (48 + d) d
| lower d : (10 <= d < 16)%N -> digit (97 + (d - 10)) d
| upper d : (10 <= d < 16)%N -> digit (65 + (d - 10)) d.
(** A sequence of digits of a base, possibly with underscores. *)
Inductive digits (b : base) : list N -> list N -> Prop :=
| no_digits : digits b [] []
| one_digit c d cs ds : digit c d -> (d < radix b)%N -> digits b cs ds -> digits b (c :: cs) (d :: ds)
| underscore cs ds : digits b cs ds -> digits b (95%N :: cs) ds.
Fixpoint value (r : N) (ds : list N) : N :=
  match ds with [] => 0 | d :: ds => d * r ^ N.of_nat (List.length ds) + value r ds end.
Definition nat_literal (t : list N) (v : N) : Prop :=
  exists b p cs ds, In p (prefixes b) /\ t = lit p ++ cs /\ digits b cs ds /\ ds <> [] /\ v = value (radix b) ds.
Inductive int_literal : list N -> Z -> Prop :=
| plus t v : nat_literal t v -> int_literal (lit "+" ++ t) (Z.of_N v)
| minus t v : nat_literal t v -> int_literal (lit "-" ++ t) (- Z.of_N v).

(** * Characters *)
Definition scalar (c : N) : Prop := (c < 55296 \/ 57344 <= c < 1114112)%N.
Definition utf8 (c : N) : list N :=
  (if c <=? 127 then [c]
   else if c <=? 2047 then [192 + c / 64; 128 + c mod 64]
   else if c <=? 65535 then [224 + c / 4096; 128 + c / 64 mod 64; 128 + c mod 64]
   else [240 + c / 262144; 128 + c / 4096 mod 64; 128 + c / 64 mod 64; 128 + c mod 64])%N.

(** * Text and bytes *)
(** What stands between the quotes: characters and escape sequences. *)
Inductive piece :=
| Character (c : N)
| Escape (e : N)
| Byte (h1 h2 : N)
| Code (h1 h2 h3 h4 : N).
(** The simple escapes with the characters they stand for. *)
Definition escapes : list (N * N) :=
  [(ch "n", 10%N); (ch "r", 13%N); (ch "t", 9%N); (ch "0", 0%N); (34%N, 34%N); (ch "\", ch "\")].
Definition written (p : piece) : list N :=
  match p with
  | Character c => [c]
  | Escape e => [ch "\"; e]
  | Byte h1 h2 => [ch "\"; ch "x"; h1; h2]
  | Code h1 h2 h3 h4 => [ch "\"; ch "u"; h1; h2; h3; h4]
  end.
Definition text_of (ps : list piece) : list N := flat_map written ps.
(** The characters that a piece stands for in text, and the bytes it stands for. *)
Inductive means : piece -> list N -> Prop :=
| means_char c : scalar c -> c <> ch "\" -> c <> 34%N -> means (Character c) [c]
| means_escape e c : In (e, c) escapes -> means (Escape e) [c]
| means_byte h1 h2 a b : digit h1 a -> digit h2 b -> (a * 16 + b < 128)%N -> means (Byte h1 h2) [(a * 16 + b)%N]
| means_code h1 h2 h3 h4 a b c d :
    digit h1 a -> digit h2 b -> digit h3 c -> digit h4 d -> scalar (value 16 [a; b; c; d]) ->
    means (Code h1 h2 h3 h4) [value 16 [a; b; c; d]].
Inductive means_bytes : piece -> list N -> Prop :=
| bytes_text p cs : means p cs -> means_bytes p (flat_map utf8 cs)
| bytes_byte h1 h2 a b : digit h1 a -> digit h2 b -> means_bytes (Byte h1 h2) [(a * 16 + b)%N].
Definition quoted (prefix : string) (body : list N) : list N := lit prefix ++ 34%N :: body ++ [34%N].
Definition fenced (prefix : string) (hashes : nat) (body : list N) : list N :=
  lit prefix ++ repeat (ch "#") hashes ++ 34%N :: body ++ 34%N :: repeat (ch "#") hashes.
Definition all_mean (m : piece -> list N -> Prop) (ps : list piece) (l : list N) : Prop :=
  exists ls, Forall2 m ps ls /\ l = concat ls.
