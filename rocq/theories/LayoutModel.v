(** Struct and enum layout. Models crates/trunk-ir/src/adt_layout.rs lines 41-112
    and 214-299. *)
From Verif Require Import Base.
From Coq Require Export String List.
Open Scope N_scope.

(** A type, reduced to what the layout code inspects (TypeData.dialect, .name). *)
Record ty := { dialect : string; tname : string }.

(** adt_layout.rs 92-112: type_size_align. *)
Definition type_size_align (t : ty) : N * N :=
  if negb (String.eqb (dialect t) "core") then (8, 8)
  else if String.eqb (tname t) "i8" then (1, 1)
  else if String.eqb (tname t) "i16" then (2, 2)
  else if String.eqb (tname t) "i32" || String.eqb (tname t) "i1" then (4, 4)
  else if String.eqb (tname t) "i64" then (8, 8)
  else if String.eqb (tname t) "f32" then (4, 4)
  else (8, 8).

(** u32 arithmetic (wrapping, as in release builds). *)
Definition u32 (n : N) : N := n mod 2 ^ 32.
Definition u32_not (n : N) : N := N.lxor (2 ^ 32 - 1) n.
(** (offset + align - 1) & !(align - 1), adt_layout.rs 229 and 233. *)
Definition align_up (offset align : N) : N :=
  N.land (u32 (u32 (offset + align) + (2 ^ 32 - 1))) (u32_not (align - 1)).

(** The field loop, lines 225-233 and 260-269: returns the offsets, the end
    offset and the maximum alignment.  [fields] are the field types after
    type_converter.convert_type_or_identity. *)
Fixpoint layout_fields (offset max_align : N) (fields : list ty) : list N * N * N :=
  match fields with
  | [] => ([], offset, max_align)
  | f :: fields' =>
      let '(size, align) := type_size_align f in
      let offset1 := align_up offset align in
      let '(offs, e, m) := layout_fields (u32 (offset1 + size)) (N.max max_align align) fields' in
      (offset1 :: offs, e, m)
  end.

Record struct_layout := { field_offsets : list N; total_size : N; alignment : N }.

(** adt_layout.rs 214-242: compute_struct_layout (after extracting the fields,
    whose names are not used). *)
Definition compute_struct_layout (fields : list ty) : struct_layout :=
  let '(offs, e, m) := layout_fields 0 1 fields in
  {| field_offsets := offs; total_size := align_up e m; alignment := m |}.

Record variant_layout := { vname : string; tag_value : N; v_offsets : list N; fields_size : N }.
Record enum_layout := { tag_offset : N; tag_size : N; fields_offset : N;
                        variants : list variant_layout; e_total_size : N; e_alignment : N }.

(** The variant loop, lines 255-284; [idx] is the enumerate counter. *)
Fixpoint layout_variants (idx max_size max_align : N) (vs : list (string * list ty))
  : list variant_layout * N * N :=
  match vs with
  | [] => ([], max_size, max_align)
  | (nm, fields) :: vs' =>
      let '(offs, e, m) := layout_fields 0 max_align fields in
      let fs := align_up e m in
      let '(rest, ms, ma) := layout_variants (idx + 1) (N.max max_size fs) m vs' in
      ({| vname := nm; tag_value := u32 idx; v_offsets := offs; fields_size := fs |} :: rest, ms, ma)
  end.

(** adt_layout.rs 248-294: compute_enum_layout. *)
Definition compute_enum_layout (vs : list (string * list ty)) : enum_layout :=
  let '(ls, ms, ma) := layout_variants 0 0 8 vs in
  {| tag_offset := 0; tag_size := 4; fields_offset := 8; variants := ls;
     e_total_size := u32 (8 + ms); e_alignment := ma |}.

(** adt_layout.rs 297-299: find_variant_layout. *)
Definition find_variant_layout (l : enum_layout) (tag : string) : option variant_layout :=
  find (fun v => String.eqb (vname v) tag) (variants l).
