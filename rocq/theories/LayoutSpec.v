(** What a layout must satisfy, on unbounded numbers. *)
From Verif Require Import Base LayoutModel.
Open Scope N_scope.

Definition fsize (t : ty) : N := fst (type_size_align t).
Definition falign (t : ty) : N := snd (type_size_align t).

(** Offsets for the fields: in order, from [start], aligned, not overlapping,
    and everything ends at or before [limit]. *)
Fixpoint placed (start : N) (fields : list ty) (offs : list N) (limit : N) : Prop :=
  match fields, offs with
  | [], [] => start <= limit
  | f :: fields', o :: offs' =>
      start <= o /\ o mod falign f = 0 /\ placed (o + fsize f) fields' offs' limit
  | _, _ => False
  end.

Definition max_falign (init : N) (fields : list ty) : N :=
  fold_left (fun m f => N.max m (falign f)) fields init.

(** Pointwise comparison of offset lists. *)
Definition pointwise_le : list N -> list N -> Prop := Forall2 N.le.

(** The type can be laid out at all in 32-bit offsets (with room for the final
    padding, and for the 8-byte tag slot of an enum). *)
Definition struct_fits (fields : list ty) : Prop := exists offs, placed 0 fields offs (2 ^ 32 - 8).
Definition variant_fits (v : string * list ty) : Prop := exists offs, placed 0 (snd v) offs (2 ^ 32 - 16).

(** Bits needed to store a value of a core scalar type. *)
Definition scalar_bits : list (string * N) :=
  [("i1", 1); ("i8", 8); ("i16", 16); ("i32", 32); ("i64", 64); ("f32", 32); ("f64", 64); ("ptr", 64)]%string.
Definition core (n : string) : ty := {| dialect := "core"; tname := n |}.
