(** When a shown type stands for one type only. *)
From Verif Require Export TypeTextModel.
From Coq Require Import DecimalString.

(** Letters, digits, underscores. *)
Definition word_char (c : ascii) : bool :=
  let n := N_of_ascii c in
  ((48 <=? n) && (n <=? 57) || (65 <=? n) && (n <=? 90) || (97 <=? n) && (n <=? 122) || (n =? 95))%N.
(** Names of types and abilities begin with a capital. *)
Definition type_name (n : text) : Prop :=
  forallb word_char n = true /\ match n with c :: _ => (65 <= N_of_ascii c <= 90)%N | [] => False end.
Definition primitive (n : text) : Prop := exists p, n = primitive_name p.

Section Settled.
  (** What a name stands for. *)
  Variable means : text -> nat -> Prop.
  (** The row variable in scope. *)
  Variable row : nat.
  (** Types without variables of inference and with one variable of rows at most, in
      which every name stands for one definition. *)
  Inductive settled : ty -> Prop :=
  | SPrim p : settled (Prim p)
  | SBound i : settled (BoundVar i)
  | SNamed id name args : type_name name -> ~ primitive name -> means name id -> Forall settled args -> settled (Named id name args)
  | SFunc params result effects rest : rest = None \/ rest = Some row -> Forall settled params -> settled result -> Forall settled effects ->
      (forall e, In e effects -> exists id name args, e = Named id name args) -> settled (Func params result effects rest)
  | STuple elems : Forall settled elems -> settled (Tuple elems)
  | SError : settled Error.
End Settled.

(** What follows a type: nothing, a comma, a blank, or a closing bracket. *)
Definition closes (r : text) : Prop := match r with [] => True | c :: _ => In c (txt ",)} ") end.

(** The names of the primitive types in the language. *)
Definition source_name (p : prim) : string :=
  match p with Int => "Int" | Nat' => "Nat" | Float => "Float" | Bool' => "Bool" | Bytes => "Bytes" | Rune => "Rune" | Nil => "Nil" | Never => "Never" end%string.
(** [t] is the letter of number [n], or a mark with the number behind it. *)
Definition shows_number (mark : ascii) (n : N) (t : text) : Prop :=
  ((n < 26)%N /\ exists c, t = [c] /\ N_of_ascii c = (97 + n)%N) \/
  ((26 <= n)%N /\ exists ds d, t = mark :: ds /\ NilZero.uint_of_string (string_of_list_ascii ds) = Some d /\ N.of_uint d = n).
