(** What a release function should give up, stated without the generated code. *)
From Verif Require Import RttiModel.
Open Scope N_scope.

(** The types that are pointers in native code. *)
Definition pointer_types : list (string * string) :=
  [("core", "ptr"); ("core", "bytes"); ("core", "func"); ("core", "array");
   ("closure", "closure"); ("tribute_rt", "intref")]%string.
Definition pointer_type (t : ty) : Prop := dialect t = "adt"%string \/ In (dialect t, tname t) pointer_types.

(** [selected P ts vs ws]: [ws] are the non-null words among [vs] at the positions whose type satisfies [P], in order. *)
Inductive selected {T} (P : T -> Prop) : list T -> list Z -> list Z -> Prop :=
| selected_nil : selected P [] [] []
| selected_take t v ts vs ws : P t -> v <> 0%Z -> selected P ts vs ws -> selected P (t :: ts) (v :: vs) (v :: ws)
| selected_null t ts vs ws : selected P ts vs ws -> selected P (t :: ts) (0%Z :: vs) ws
| selected_skip t v ts vs ws : ~ P t -> selected P ts vs ws -> selected P (t :: ts) (v :: vs) ws.

(** Annotations of declared fields, by what they name. *)
Fixpoint head_name (a : annotation) : option string :=
  match a with Named n => Some n | App c => head_name c | _ => None end.
Definition scalar_annotation (a : annotation) : Prop :=
  exists n, head_name a = Some n /\ In n ["Int"; "Nat"; "Float"; "Bool"; "Rune"; "Nil"]%string.
Definition bytes_annotation (a : annotation) : Prop := head_name a = Some "Bytes"%string.
Definition object_annotation (a : annotation) : Prop := ~ scalar_annotation a /\ ~ bytes_annotation a.

(** A type that can be laid out in 32 bits: every field takes at most eight bytes. *)
Definition small {A} (fields : list A) : Prop := 8 * N.of_nat (List.length fields) <= 2 ^ 32 - 16.
