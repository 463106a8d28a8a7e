(** What an attribute map holds, and when an integer fits a type. *)
From Verif Require Import AttrModel.
Open Scope Z_scope.

(** [a] is stored under text [t]: inserted, and neither replaced nor removed since. *)
Definition holds (h : list aop) (t : string) (a : attr) : Prop :=
  exists before after, h = (before ++ Insert t a :: after)%list /\
    forall o, In o after -> o <> Remove t /\ o <> ClearAll /\ forall b, o <> Insert t b.

(** A machine integer of type [t] is a bit pattern of its width; its value is read
    in two's complement when signed. *)
Definition width (t : ity) : Z := match t with I64 | U64 => 64 | I32 | U32 => 32 | U8 => 8 end.
Definition signed (t : ity) : bool := match t with I64 | I32 => true | _ => false end.
Definition value_of (t : ity) (bits : Z) : Z :=
  if signed t && (2 ^ (width t - 1) <=? bits) then bits - 2 ^ width t else bits.
Definition representable (t : ity) (v : Z) : Prop := exists bits, 0 <= bits < 2 ^ width t /\ value_of t bits = v.
