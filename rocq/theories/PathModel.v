(** Module paths: names joined with [::].  Texts are byte strings. *)
From Coq Require Export String List Ascii.
From Verif Require Export Base.
Export ListNotations.
Open Scope list_scope.

(** [str::rsplit_once("::")] on the reversed text: the reversed part before the last
    separator and the text after it. *)
Fixpoint rsplit (acc rev_text : list ascii) : option (list ascii * list ascii) :=
  match rev_text with
  | [] => None
  | c :: rest =>
      match rest with
      | d :: rest' => if Ascii.eqb c ":" && Ascii.eqb d ":" then Some (rest', acc)
                      else rsplit (c :: acc) rest
      | [] => None
      end
  end.

Definition rsplit_once (s : string) : option (string * string) :=
  match rsplit [] (rev (list_ascii_of_string s)) with
  | Some (p, n) => Some (string_of_list_ascii (rev p), string_of_list_ascii n)
  | None => None
  end.

(** [last_segment]: [rsplit("::").next()], crates/tribute-ir/src/lib.rs:32-35.  The first
    item of [rsplit] is the text after the last separator, or the whole text. *)
Definition last_segment_of (s : string) : string :=
  match rsplit_once s with Some (_, n) => n | None => s end.

(** [parent_path], crates/tribute-ir/src/lib.rs:37-40. *)
Definition parent_path (s : string) : option string :=
  match rsplit_once s with Some (p, _) => Some p | None => None end.

(** [join_path], crates/tribute-ir/src/lib.rs:42-44. *)
Definition join_path (p n : string) : string := (p ++ "::" ++ n)%string.

(** [is_simple], crates/tribute-ir/src/lib.rs:46-48; [str::contains] scans forward. *)
Fixpoint has_separator (s : list ascii) : bool :=
  match s with
  | c :: rest =>
      match rest with
      | d :: _ => Ascii.eqb c ":" && Ascii.eqb d ":" || has_separator rest
      | [] => false
      end
  | [] => false
  end.
Definition is_simple (s : string) : bool := negb (has_separator (list_ascii_of_string s)).

(** [String::truncate]. *)
Definition truncate (s : string) (n : nat) : string := substring 0 n s.

(** [push_prefix], crates/tribute-front/src/lib.rs:62-69: the new buffer and the length
    before the push. *)
Definition push_prefix (prefix name : string) : string * nat :=
  let len := String.length prefix in
  let prefix := match prefix with EmptyString => prefix | _ => (prefix ++ "::")%string end in
  ((prefix ++ name)%string, len).

(** [qualified_symbol], crates/tribute-front/src/lib.rs:38-49: the symbol and the buffer
    afterwards. *)
Definition qualified_symbol (prefix name : string) : string * string :=
  match prefix with
  | EmptyString => (name, prefix)
  | _ => let len := String.length prefix in
         let buf := ((prefix ++ "::") ++ name)%string in
         (buf, truncate buf len)
  end.

(** [qualified_path_symbol], crates/tribute-front/src/lib.rs:52-59. *)
Fixpoint push_all (buf : string) (path : list string) : string :=
  match path with
  | [] => buf
  | seg :: path => push_all (fst (push_prefix buf seg)) path
  end.
Definition split_last (path : list string) : option (string * list string) :=
  match rev path with
  | [] => None
  | name :: prefix => Some (name, rev prefix)
  end.
Definition qualified_path_symbol (path : list string) : option string :=
  match split_last path with
  | None => None
  | Some (name, prefix) => Some (fst (qualified_symbol (push_all EmptyString prefix) name))
  end.
