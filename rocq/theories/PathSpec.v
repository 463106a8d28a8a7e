(** What qualified names mean: the segments written one after another with [::] between. *)
From Verif Require Export PathModel.

Fixpoint path_text (segments : list string) : string :=
  match segments with
  | [] => ""
  | s :: rest => match rest with [] => s | _ => (s ++ "::" ++ path_text rest)%string end
  end.

(** A name as the grammar allows it: not empty and without colons. *)
Definition name_ok (s : string) : Prop :=
  s <> EmptyString /\ ~ In ":"%char (list_ascii_of_string s).

(** No separator occurs in the text. *)
Definition simple_text (s : string) : Prop := forall a b, s <> (a ++ "::" ++ b)%string.
