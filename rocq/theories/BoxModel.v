(** Numbers that pass through a value of unknown type: they are put into a box and taken out again.

    tribute-passes/src/type_converter.rs (which operation boxes and unboxes), tribute-passes/src/wasm/tribute_rt_to_wasm.rs and
    tribute-passes/src/native/tribute_rt_to_clif.rs (what the operations become), tribute-rc/src/lib.rs (the header).

    A scalar is a pattern of 32 bits, or the 64 bits of a float. *)
From Coq Require Export String ZArith List Bool.
From Verif Require Export Base OperatorModel.
Open Scope string_scope.
Open Scope list_scope.
Open Scope Z_scope.
Import ListNotations.

Inductive scalar := S32 (p : Z) | S64 (p : Z).

(** ** Which operation: type_converter.rs:97-205, without the structures *)
Inductive conversion := NoOp | BoxInt | BoxBool | BoxFloat | UnboxInt | UnboxNat | UnboxBool | UnboxFloat.
Definition one_of (s : string) (l : list string) : bool := existsb (String.eqb s) l.
Definition materialize (from_ty to_ty : string) : option conversion :=
  if String.eqb from_ty to_ty then Some NoOp
  else if one_of from_ty ["tribute_rt.int"; "tribute_rt.nat"; "tribute_rt.bool"] && String.eqb to_ty "core.i32" then Some NoOp
  else if String.eqb from_ty "tribute_rt.float" && String.eqb to_ty "core.f64" then Some NoOp
  else if String.eqb to_ty "tribute_rt.anyref" && one_of from_ty ["tribute_rt.int"; "tribute_rt.nat"; "core.i32"] then Some BoxInt
  else if String.eqb to_ty "tribute_rt.anyref" && one_of from_ty ["tribute_rt.bool"; "core.i1"] then Some BoxBool
  else if String.eqb to_ty "tribute_rt.anyref" && one_of from_ty ["tribute_rt.float"; "core.f64"] then Some BoxFloat
  else if String.eqb from_ty "tribute_rt.anyref" && one_of to_ty ["tribute_rt.int"; "core.i32"] then Some UnboxInt
  else if String.eqb from_ty "tribute_rt.anyref" && String.eqb to_ty "tribute_rt.nat" then Some UnboxNat
  else if String.eqb from_ty "tribute_rt.anyref" && one_of to_ty ["tribute_rt.bool"; "core.i1"] then Some UnboxBool
  else if String.eqb from_ty "tribute_rt.anyref" && one_of to_ty ["tribute_rt.float"; "core.f64"] then Some UnboxFloat
  else None.
(** The type of a number in the intermediate form, with its dialect. *)
Definition core_type (name : string) : string := ("core." ++ front_type name)%string.

(** ** Wasm: tribute_rt_to_wasm.rs:60-358 *)
(** References: an i31 holds 31 bits; a structure holds a float. *)
Inductive reference := I31 (p : Z) | BoxedF64 (p : Z).
(** The instructions [ref.i31], [i31.get_s] and [i31.get_u]. *)
Definition ref_i31 (p : Z) : reference := I31 (p mod 2 ^ 31).
Definition i31_get_s (p : Z) : Z := if p <? 2 ^ 30 then p else p + 2 ^ 31.
Definition i31_get_u (p : Z) : Z := p.
(** [None]: an operand of a wrong type, or a cast that traps. *)
Definition wasm_box (c : conversion) (v : scalar) : option reference :=
  match c, v with
  | BoxInt, S32 p | BoxBool, S32 p => Some (ref_i31 p)
  | BoxFloat, S64 p => Some (BoxedF64 p)
  | _, _ => None
  end.
Definition wasm_unbox (c : conversion) (r : reference) : option scalar :=
  match c, r with
  | UnboxInt, I31 p => Some (S32 (i31_get_s p))
  | UnboxNat, I31 p | UnboxBool, I31 p => Some (S32 (i31_get_u p))
  | UnboxFloat, BoxedF64 p => Some (S64 p)
  | _, _ => None
  end.
Definition bind {A B} (o : option A) (k : A -> option B) : option B := match o with Some a => k a | None => None end.
Definition through_wasm (name : string) (v : scalar) : option scalar :=
  bind (materialize (core_type name) "tribute_rt.anyref") (fun c => bind (wasm_box c v) (fun r =>
  bind (materialize "tribute_rt.anyref" (core_type name)) (fun d => wasm_unbox d r))).

(** ** Native *)
(** Memory: bytes by address. *)
Definition memory := Z -> Z.
Fixpoint store (n : nat) (m : memory) (a p : Z) : memory :=
  match n with
  | O => m
  | S n => store n (fun x => if x =? a then p mod 256 else m x) (a + 1) (p / 256)
  end.
Fixpoint load (n : nat) (m : memory) (a : Z) : Z := match n with O => 0 | S n => m a + 256 * load n m (a + 1) end.

(** tribute-rc/src/lib.rs:33-55 *)
Definition REFCOUNT_OFFSET : Z := 0.
Definition RTTI_IDX_OFFSET : Z := 4.
Definition RC_HEADER_SIZE : Z := 8.
(** native/rtti.rs:77-81 *)
Definition RTTI_BOOL : Z := 1.
Definition RTTI_INT : Z := 3.
Definition RTTI_FLOAT : Z := 4.
(** tribute_rt_to_clif.rs:41-104: what is asked of the allocator, and what is written into the block at [raw_ptr].  Addresses do not wrap around here. *)
Definition alloc_size (payload_size : Z) : Z := payload_size + RC_HEADER_SIZE.
Definition box_value (m : memory) (raw_ptr rtti_idx : Z) (v : scalar) : memory * Z :=
  let m := store 4 m (raw_ptr + REFCOUNT_OFFSET) 1 in
  let m := store 4 m (raw_ptr + RTTI_IDX_OFFSET) rtti_idx in
  let payload_ptr := raw_ptr + RC_HEADER_SIZE in
  let m := match v with S32 p => store 4 m payload_ptr p | S64 p => store 8 m payload_ptr p end in
  (m, payload_ptr + 0).
(** tribute_rt_to_clif.rs:176-328: the size of the block, its index, and the pair of memory and pointer. *)
Definition native_box (c : conversion) (v : scalar) : option (Z * (memory -> Z -> memory * Z)) :=
  match c, v with
  | BoxInt, S32 _ => Some (alloc_size 4, fun m raw => box_value m raw RTTI_INT v)
  | BoxBool, S32 _ => Some (alloc_size 4, fun m raw => box_value m raw RTTI_BOOL v)
  | BoxFloat, S64 _ => Some (alloc_size 8, fun m raw => box_value m raw RTTI_FLOAT v)
  | _, _ => None
  end.
(** tribute_rt_to_clif.rs:334-446 *)
Definition native_unbox (c : conversion) (m : memory) (ptr : Z) : option scalar :=
  match c with
  | UnboxInt | UnboxNat | UnboxBool => Some (S32 (load 4 m ptr))
  | UnboxFloat => Some (S64 (load 8 m ptr))
  | _ => None
  end.
