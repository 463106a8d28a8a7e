(** What can be printed so that it reads back, in which contexts, and as what. *)
From Verif Require Export TextModel.

(** Letters, digits and the underscore of ASCII. *)
Definition is_digit (c : N) : Prop := (48 <= c <= 57)%N.
Definition name_start (c : N) : Prop := (65 <= c <= 90)%N \/ (97 <= c <= 122)%N \/ c = 95%N.
Definition name_char (c : N) : Prop := name_start c \/ is_digit c.
Definition blank (c : N) : Prop := c = 32%N \/ c = 9%N \/ c = 10%N \/ c = 12%N \/ c = 13%N.
Definition identifier (s : text) : Prop := exists c l, s = c :: l /\ name_start c /\ Forall name_char l.
Inductive dotted : text -> Prop :=
| dotted_one s : identifier s -> dotted s
| dotted_more s k : identifier s -> dotted k -> dotted (s ++ lit "." ++ k).
(** An alias name of the form of a number or starting with a digit is the one kind that does not read back. *)
Definition alias_name (s : text) : Prop := forall c l, s = c :: l -> Forall name_char s -> name_start c.
Definition no_keyword (s : text) : Prop := forall k r, In k [lit "true"; lit "false"; lit "unit"] -> s <> k ++ r.

(** Decimal output of floats, as documented for Rust's [Display] of f64: an optional sign, digits and, if there is a fraction, a point and digits;
    reading back what is printed gives the same float. *)
Definition numeral (s : text) : Prop := s <> [] /\ Forall is_digit s.
Definition decimal_floats (show : N -> text) (finite : N -> bool) (read : text -> option N) : Prop :=
  forall b, finite b = true ->
  exists s i g, (s = [] \/ s = lit "-") /\ numeral i /\ numeral g
    /\ (show b = s ++ i ++ lit "." ++ g \/ show b = s ++ i /\ g = lit "0") /\ read (s ++ i ++ lit "." ++ g) = Some b.

Section Printable.
  Variable alias : ty -> option text.
  Variable finite : N -> bool.
  Inductive type_ok : ty -> Prop :=
  | ok_alias d n ps ats a : alias (Ty d n ps ats) = Some a -> alias_name a -> type_ok (Ty d n ps ats)
  | ok_type d n ps ats : alias (Ty d n ps ats) = None -> identifier d -> identifier n -> Forall type_ok ps
      -> Forall (fun kv => dotted (fst kv) /\ attr_ok (snd kv)) ats -> type_ok (Ty d n ps ats)
  with attr_ok : attr -> Prop :=
  | ok_unit : attr_ok Unit
  | ok_bool b : attr_ok (Bool b)
  | ok_int z : (- 2 ^ 127 <= z < 2 ^ 127)%Z -> attr_ok (Int z)
  | ok_float b : finite b = true -> attr_ok (Float b)
  | ok_string s : attr_ok (String s)
  | ok_bytes l : Forall (fun b => b < 256)%N l -> attr_ok (Bytes l)
  | ok_symbol s : attr_ok (Symbol s)
  | ok_named d n ps ats : type_ok (Ty d n ps ats) -> (alias (Ty d n ps ats) = None -> no_keyword d) -> attr_ok (Type_ (Ty d n ps ats))
  | ok_list l : Forall attr_ok l -> attr_ok (List l)
  | ok_location p a b : (a < 2 ^ 64)%N -> (b < 2 ^ 64)%N -> attr_ok (Location p a b).

  (** What is read: the tree itself, with alias names where the printer writes them. *)
  Fixpoint abbreviated (t : ty) : ty :=
    match t with
    | Alias a => Alias a
    | Ty d n ps ats =>
        match alias t with
        | Some a => Alias a
        | None => Ty d n (map abbreviated ps) (map (fun kv => match kv with (k, v) => (k, abbreviated_attr v) end) ats)
        end
    end
  with abbreviated_attr (a : attr) : attr :=
    match a with
    | Type_ t => Type_ (abbreviated t)
    | List l => List (map abbreviated_attr l)
    | a => a
    end.

  (** The text that may follow, so that it is not taken for part of what is printed. *)
  Definition not_first (P : N -> Prop) (rest : text) : Prop := forall c r, rest = c :: r -> ~ P c.
  Definition after_type (t : ty) (rest : text) : Prop :=
    match t with
    | Alias _ => not_first name_char rest
    | Ty d n ps ats =>
        match alias t with
        | Some _ => not_first name_char rest
        | None =>
            match ps, ats with
            | [], [] => not_first (fun c => name_char c \/ c = ch "(") rest
            | _, [] => forall w r, rest = w ++ ch "{" :: r -> ~ Forall blank w
            | _, _ => True
            end
        end
    end.
  Definition after_attr (a : attr) (rest : text) : Prop :=
    match a with
    | Int _ => not_first (fun c => is_digit c \/ c = ch ".") rest
    | Float _ => not_first (fun c => is_digit c \/ c = ch "e" \/ c = ch "E") rest
    | Symbol _ => not_first name_char rest
    | Type_ t => after_type t rest
    | _ => True
    end.
End Printable.
