(** Printing and parsing of IR types and attributes.
    Models crates/trunk-ir/src/printer.rs:98-168 and 336-460 (write_type, write_attribute and the escapes) and
    crates/trunk-ir/src/parser/raw.rs:97-440 (the winnow parsers of the same syntax).
    A text is the list of its code points.  A type is a tree instead of a reference into the interner; its attributes are listed in the
    order in which the printer visits them; a location holds its path instead of a reference to it. *)
From Coq Require Export String List NArith ZArith Bool Ascii DecimalN.
From Verif Require Export Base.
Export ListNotations.
Open Scope list_scope.

Definition text := list N.
(** The code points of an ASCII literal. *)
Definition lit (s : string) : text := map N_of_ascii (list_ascii_of_string s).
Definition ch (a : ascii) : N := N_of_ascii a.

Inductive ty := Ty (dialect name : text) (params : list ty) (attrs : list (text * attr)) | Alias (name : text)
with attr :=
| Unit
| Bool (b : bool)
| Int (z : Z)
| Float (bits : N)
| String (s : text)
| Bytes (bytes : list N)
| Symbol (s : text)
| Type_ (t : ty)
| List (l : list attr)
| Location (path : text) (start stop : N).

(** ** Characters *)
Definition digit (c : N) : bool := (48 <=? c)%N && (c <=? 57)%N.
Definition alpha (c : N) : bool := ((65 <=? c)%N && (c <=? 90)%N) || ((97 <=? c)%N && (c <=? 122)%N).
Definition word (c : N) : bool := digit c || alpha c || (c =? 95)%N.                       (* is_ascii_alphanumeric() || '_' *)
Definition word_start (c : N) : bool := alpha c || (c =? 95)%N.
Definition space (c : N) : bool := (c =? 32)%N || (c =? 9)%N || (c =? 10)%N || (c =? 12)%N || (c =? 13)%N.   (* is_ascii_whitespace *)
Definition control_char (c : N) : bool := (c <? 32)%N || ((127 <=? c)%N && (c <? 160)%N).   (* char::is_control *)

(** ** The printer *)
(** [Display] of an unsigned and of a signed integer. *)
Fixpoint digits_of (d : Decimal.uint) : text :=
  match d with
  | Decimal.Nil => []
  | Decimal.D0 d => 48%N :: digits_of d | Decimal.D1 d => 49%N :: digits_of d | Decimal.D2 d => 50%N :: digits_of d
  | Decimal.D3 d => 51%N :: digits_of d | Decimal.D4 d => 52%N :: digits_of d | Decimal.D5 d => 53%N :: digits_of d
  | Decimal.D6 d => 54%N :: digits_of d | Decimal.D7 d => 55%N :: digits_of d | Decimal.D8 d => 56%N :: digits_of d
  | Decimal.D9 d => 57%N :: digits_of d
  end.
Definition write_uint (n : N) : text := digits_of (N.to_uint n).
Definition write_int (z : Z) : text := if (z <? 0)%Z then ch "-" :: write_uint (Z.to_N (- z)) else write_uint (Z.to_N z).
(** [{:02x}] of a number below 256. *)
Definition hex_digit (n : N) : N := if (n <? 10)%N then (48 + n)%N else (87 + n)%N.
Definition write_hex (n : N) : text := [hex_digit (n / 16)%N; hex_digit (n mod 16)%N].
(** [write_escaped_bytes], printer.rs:404-418. *)
Definition escape_byte (b : N) : text :=
  if (b =? 92)%N then [92; 92]%N
  else if (b =? 34)%N then [92; 34]%N
  else if (b =? 10)%N then [92; 110]%N
  else if (b =? 9)%N then [92; 116]%N
  else if (b =? 13)%N then [92; 114]%N
  else if (b =? 0)%N then [92; 48]%N
  else if (32 <=? b)%N && (b <=? 126)%N then [b]
  else 92%N :: 120%N :: write_hex b.
Definition escape_bytes (l : list N) : text := flat_map escape_byte l.
(** [write_escaped_string], printer.rs:420-434. *)
Definition escape_char (c : N) : text :=
  if (c =? 92)%N then [92; 92]%N
  else if (c =? 34)%N then [92; 34]%N
  else if (c =? 10)%N then [92; 110]%N
  else if (c =? 9)%N then [92; 116]%N
  else if (c =? 13)%N then [92; 114]%N
  else if (c =? 0)%N then [92; 48]%N
  else if control_char c then 92%N :: 120%N :: write_hex c
  else [c].
Definition escape (s : text) : text := flat_map escape_char s.
Definition quote (s : text) : text := 34%N :: escape s ++ [34%N].
(** [write_type_alias_name] and [write_symbol], printer.rs:437-460. *)
Definition bare_char (c : N) : bool := digit c || alpha c || (c =? 95)%N.
Definition needs_quoting (s : text) : bool := match s with [] => true | _ => negb (forallb bare_char s) end.
Definition write_alias_name (s : text) : text := ch "!" :: (if needs_quoting s then quote s else s).
Definition write_symbol (s : text) : text := ch "@" :: (if needs_quoting s then quote s else s).

Fixpoint join (sep : text) (l : list text) : text :=
  match l with
  | [] => []
  | [x] => x
  | x :: l => x ++ sep ++ join sep l
  end.

Section Print.
  Variable alias : ty -> option text.      (* the alias map; empty for the free functions *)
  Variable show : N -> text.               (* [format!("{v}")] of a float *)
  Variable finite : N -> bool.             (* [is_finite] *)

  Definition contains (c : N) (s : text) : bool := existsb (N.eqb c) s.
  (** printer.rs:137-145 and 377-386. *)
  Definition write_float (bits : N) : text :=
    let s := show bits in
    if finite bits && negb (contains (ch ".") s) && negb (contains (ch "e") s) && negb (contains (ch "E") s) then s ++ lit ".0" else s.
  (** [write_type], printer.rs:98-128 and 336-366; [write_attribute], 130-168 and 372-418. *)
  Fixpoint write_type (t : ty) : text :=
    match t with
    | Alias name => write_alias_name name
    | Ty dialect name params attrs =>
        match alias t with
        | Some a => write_alias_name a
        | None =>
            dialect ++ ch "." :: name ++
            match params with
            | [] => match attrs with [] => [] | _ => lit "()" end
            | _ => ch "(" :: join (lit ", ") (map write_type params) ++ [ch ")"]
            end ++
            match attrs with
            | [] => []
            | _ => lit " {" ++ join (lit ", ") (map (fun kv => match kv with (k, v) => k ++ lit " = " ++ write_attr v end) attrs) ++ [ch "}"]
            end
        end
    end
  with write_attr (a : attr) : text :=
    match a with
    | Unit => lit "unit"
    | Bool b => if b then lit "true" else lit "false"
    | Int z => write_int z
    | Float bits => write_float bits
    | String s => quote s
    | Bytes l => ch "b" :: 34%N :: escape_bytes l ++ [34%N]
    | Symbol s => write_symbol s
    | Type_ t => write_type t
    | List l => ch "[" :: join (lit ", ") (map write_attr l) ++ [ch "]"]
    | Location path start stop => lit "loc(" ++ quote path ++ ch " " :: write_uint start ++ ch ":" :: write_uint stop ++ [ch ")"]
    end.
End Print.

(** ** Parsers *)
(** All errors of the modelled parsers backtrack ([ErrMode::Backtrack]).  [Out] is lack of fuel. *)
Inductive result (A : Type) := Ok (a : A) (rest : text) | Fail | Out.
Arguments Ok {A}. Arguments Fail {A}. Arguments Out {A}.
Definition parser (A : Type) := text -> result A.
Definition ret {A} (a : A) : parser A := fun i => Ok a i.
Definition failure {A} : parser A := fun _ => Fail.
Definition pbind {A B} (p : parser A) (f : A -> parser B) : parser B := fun i => match p i with Ok a r => f a r | Fail => Fail | Out => Out end.
Notation "x <~ p ;; q" := (pbind p (fun x => q)) (at level 100, p at next level, right associativity).
Definition tok (c : N) : parser unit := fun i => match i with x :: r => if N.eqb x c then Ok tt r else Fail | [] => Fail end.
Definition any : parser N := fun i => match i with x :: r => Ok x r | [] => Fail end.
Definition one_of (f : N -> bool) : parser N := fun i => match i with x :: r => if f x then Ok x r else Fail | [] => Fail end.
Fixpoint span (f : N -> bool) (i : text) : text * text :=
  match i with
  | [] => ([], [])
  | x :: r => if f x then let (a, b) := span f r in (x :: a, b) else ([], i)
  end.
Definition take_while (f : N -> bool) : parser text := fun i => let (a, b) := span f i in Ok a b.
Definition take_while1 (f : N -> bool) : parser text := fun i => match span f i with ([], _) => Fail | (a, b) => Ok a b end.
Fixpoint word_lit (s : text) : parser unit := match s with [] => ret tt | c :: s => _ <~ tok c ;; word_lit s end.
Definition opt {A} (p : parser A) : parser (option A) := fun i => match p i with Ok a r => Ok (Some a) r | Fail => Ok None i | Out => Out end.
Definition orelse {A} (p q : parser A) : parser A := fun i => match p i with Fail => q i | x => x end.
Definition pmap {A B} (f : A -> B) (p : parser A) : parser B := a <~ p ;; ret (f a).
(** [separated(0.., p, ',')]: stops, without the separator, where an element fails. *)
Fixpoint more {A} (fuel : nat) (p : parser A) : parser (list A) :=
  match fuel with
  | O => fun _ => Out
  | S fuel => fun i =>
      match (_ <~ tok (ch ",") ;; p) i with
      | Ok a r => pmap (cons a) (more fuel p) r
      | Fail => Ok [] i
      | Out => Out
      end
  end.
Definition separated0 {A} (fuel : nat) (p : parser A) : parser (list A) := fun i => match p i with Ok a r => pmap (cons a) (more fuel p) r | Fail => Ok [] i | Out => Out end.
Definition separated1 {A} (fuel : nat) (p : parser A) : parser (list A) := a <~ p ;; pmap (cons a) (more fuel p).

(** raw.rs:97-152. *)
Definition ws : parser unit := pmap (fun _ => tt) (take_while space).
Definition spaced {A} (p : parser A) : parser A := _ <~ ws ;; a <~ p ;; _ <~ ws ;; ret a.
Definition ident : parser text := a <~ one_of word_start ;; l <~ take_while word ;; ret (a :: l).
Definition qualified_name : parser (text * text) := d <~ ident ;; _ <~ tok (ch ".") ;; n <~ ident ;; ret (d, n).
(** [str::parse] of decimal digits, as a number. *)
Definition number (s : text) : N := fold_left (fun a c => 10 * a + (c - 48))%N s 0%N.
(** [integer_lit], raw.rs:156-175. *)
Definition integer_lit : parser Z :=
  neg <~ opt (tok (ch "-")) ;;
  digits <~ take_while1 digit ;;
  let m := number digits in
  if (2 ^ 128 <=? m)%N then failure
  else match neg with
       | Some _ => if (2 ^ 127 <? m)%N then failure else ret (- Z.of_N m)%Z
       | None => if (2 ^ 127 <=? m)%N then failure else ret (Z.of_N m)
       end.
(** [u8::from_str_radix(_, 16)] of two characters: a plus sign may come first. *)
Definition hex_value (c : N) : option N :=
  if digit c then Some (c - 48)%N
  else if (97 <=? c)%N && (c <=? 102)%N then Some (c - 87)%N
  else if (65 <=? c)%N && (c <=? 70)%N then Some (c - 55)%N
  else None.
Definition hex2 (a b : N) : option N :=
  if (a =? 43)%N then hex_value b
  else match hex_value a, hex_value b with Some x, Some y => Some (16 * x + y)%N | _, _ => None end.
(** The loop of [string_lit], raw.rs:203-247, after the opening quote. *)
Fixpoint string_body (i : text) : result text :=
  match i with
  | [] => Fail
  | c :: r =>
      if (c =? 34)%N then Ok [] r
      else if (c =? 92)%N then
        match r with
        | [] => Fail
        | e :: r =>
            let put (s : text) (r : text) := match string_body r with Ok l r => Ok (s ++ l) r | Fail => Fail | Out => Out end in
            if (e =? 34)%N then put [34%N] r
            else if (e =? 92)%N then put [92%N] r
            else if (e =? 110)%N then put [10%N] r
            else if (e =? 116)%N then put [9%N] r
            else if (e =? 114)%N then put [13%N] r
            else if (e =? 48)%N then put [0%N] r
            else if (e =? 120)%N then
              match r with
              | h1 :: h2 :: r =>
                  match hex2 h1 h2 with
                  | Some n => put [n] r
                  | None => put [92%N; 120%N; h1; h2] r
                  end
              | _ => Fail
              end
            else put [92%N; e] r
        end
      else match string_body r with Ok l r => Ok (c :: l) r | Fail => Fail | Out => Out end
  end.
Definition string_lit : parser text := _ <~ tok 34 ;; string_body.
Definition starts (c : N) (i : text) : bool := match i with x :: _ => N.eqb x c | [] => false end.
(** [symbol_ref], raw.rs:126-138. *)
Definition symbol_ref : parser text := _ <~ tok (ch "@") ;; fun i => if starts 34 i then string_lit i else take_while1 word i.
(** [type_alias_name] and [type_alias_ref], raw.rs:251-264. *)
Definition type_alias_name : parser text := fun i => if starts 34 i then string_lit i else ident i.
Definition type_alias_ref : parser ty := _ <~ tok (ch "!") ;; n <~ type_alias_name ;; ret (Alias n).
(** [ascii::dec_uint] at type usize: no leading zeros. *)
Definition dec_uint : parser N :=
  s <~ orelse (a <~ one_of (fun c => digit c && negb (c =? 48)%N) ;; l <~ take_while digit ;; ret (a :: l)) (pmap (fun c => [c]) (one_of (fun c => (c =? 48)%N))) ;;
  if (2 ^ 64 <=? number s)%N then failure else ret (number s).
(** [raw_location_attr], raw.rs:338-351. *)
Definition location : parser attr :=
  _ <~ word_lit (lit "loc") ;; _ <~ ws ;; _ <~ tok (ch "(") ;; _ <~ ws ;; path <~ string_lit ;; _ <~ ws ;;
  a <~ dec_uint ;; _ <~ tok (ch ":") ;; b <~ dec_uint ;; _ <~ ws ;; _ <~ tok (ch ")") ;; ret (Location path a b).
(** UTF-8, for literal characters in a bytes literal. *)
Definition utf8 (c : N) : list N :=
  if (c <? 128)%N then [c]
  else if (c <? 2048)%N then [192 + c / 64; 128 + c mod 64]%N
  else if (c <? 65536)%N then [224 + c / 4096; 128 + (c / 64) mod 64; 128 + c mod 64]%N
  else [240 + c / 262144; 128 + (c / 4096) mod 64; 128 + (c / 64) mod 64; 128 + c mod 64]%N.
(** [bytes_content] and [byte_escape], raw.rs:365-400; literal characters one by one.  It ends where neither alternative matches. *)
Fixpoint bytes_content (i : text) : list N * text :=
  match i with
  | [] => ([], [])
  | c :: r =>
      if (c =? 34)%N then ([], i)
      else if (c =? 92)%N then
        match r with
        | [] => ([], i)
        | e :: r =>
            let put (b : N) (r : text) := let (l, r) := bytes_content r in (b :: l, r) in
            if (e =? 34)%N then put 34%N r
            else if (e =? 92)%N then put 92%N r
            else if (e =? 110)%N then put 10%N r
            else if (e =? 116)%N then put 9%N r
            else if (e =? 114)%N then put 13%N r
            else if (e =? 48)%N then put 0%N r
            else if (e =? 120)%N then
              match r with
              | h1 :: h2 :: r => match hex2 h1 h2 with Some n => put n r | None => ([], i) end
              | _ => ([], i)
              end
            else ([], i)
        end
      else let (l, r) := bytes_content r in (utf8 c ++ l, r)
  end.
Definition bytes_lit : parser attr :=
  _ <~ tok (ch "b") ;; _ <~ tok 34 ;; l <~ (fun i => let (l, r) := bytes_content i in Ok l r) ;; _ <~ tok 34 ;; ret (Bytes l).
(** [attribute_key], raw.rs:422-441: the segments between the dots are identifiers. *)
Fixpoint segments (current : text) (s : text) : list text :=
  match s with
  | [] => [rev current]
  | c :: s => if (c =? 46)%N then rev current :: segments [] s else segments (c :: current) s
  end.
Definition is_ident (s : text) : bool := match s with c :: s => word_start c && forallb word s | [] => false end.
Definition attribute_key : parser text :=
  key <~ take_while1 (fun c => word c || (c =? 46)%N) ;;
  if forallb is_ident (segments [] key) then ret key else failure.

Section Parse.
  Variable read : text -> option N.     (* [str::parse::<f64>] *)
  (** [float_with_dot], raw.rs:180-197. *)
  Definition float_with_dot : parser N :=
    s <~ opt (tok (ch "-")) ;;
    a <~ take_while1 digit ;;
    _ <~ tok (ch ".") ;;
    b <~ take_while1 digit ;;
    e <~ opt (x <~ one_of (fun c => (c =? 101)%N || (c =? 69)%N) ;; g <~ opt (one_of (fun c => (c =? 43)%N || (c =? 45)%N)) ;; d <~ take_while1 digit ;;
              ret (x :: match g with Some g => [g] | None => [] end ++ d)) ;;
    match read (match s with Some _ => [ch "-"] | None => [] end ++ a ++ ch "." :: b ++ match e with Some e => e | None => [] end) with
    | Some bits => ret bits
    | None => failure
    end.
  (** [raw_type], 266-301; [raw_attr_value], 304-335; [raw_attr_dict], 403-415. *)
  Definition dict (fuel : nat) (value : parser attr) : parser (list (text * attr)) :=
    _ <~ tok (ch "{") ;; _ <~ ws ;;
    l <~ separated0 fuel (_ <~ ws ;; k <~ attribute_key ;; _ <~ ws ;; _ <~ tok (ch "=") ;; _ <~ ws ;; v <~ value ;; _ <~ ws ;; ret (k, v)) ;;
    _ <~ ws ;; _ <~ tok (ch "}") ;; ret l.
  Fixpoint raw_type (fuel : nat) : parser ty :=
    match fuel with
    | O => fun _ => Out
    | S fuel => fun i =>
        if starts (ch "!") i then type_alias_ref i
        else
          (dn <~ qualified_name ;;
           ps <~ opt (_ <~ tok (ch "(") ;; _ <~ ws ;; l <~ separated0 fuel (spaced (raw_type fuel)) ;; _ <~ ws ;; _ <~ tok (ch ")") ;; ret l) ;;
           match ps with
           | None => ret (Ty (fst dn) (snd dn) [] [])
           | Some ps => ats <~ opt (_ <~ ws ;; dict fuel (raw_attr fuel)) ;; ret (Ty (fst dn) (snd dn) ps (match ats with Some l => l | None => [] end))
           end) i
    end
  with raw_attr (fuel : nat) : parser attr :=
    match fuel with
    | O => fun _ => Out
    | S fuel =>
        orelse (pmap (fun _ => Bool true) (word_lit (lit "true")))
        (orelse (pmap (fun _ => Bool false) (word_lit (lit "false")))
        (orelse (pmap (fun _ => Unit) (word_lit (lit "unit")))
        (orelse location
        (orelse bytes_lit
        (orelse (pmap String string_lit)
        (orelse (pmap Symbol symbol_ref)
        (orelse (_ <~ tok (ch "[") ;; _ <~ ws ;; l <~ separated0 fuel (spaced (raw_attr fuel)) ;; _ <~ ws ;; _ <~ tok (ch "]") ;; ret (List l))
        (orelse (pmap Float float_with_dot)
        (orelse (pmap Int integer_lit)
                (pmap Type_ (raw_type fuel)))))))))))
    end.
End Parse.
