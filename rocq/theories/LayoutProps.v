(** Properties C08 and C09. *)
From Verif Require Import Base LayoutModel LayoutSpec LayoutProofs.
Open Scope N_scope.

(** C08: the computed layout is a valid placement inside the total size; the
    total size is a multiple of the alignment, which is the largest field
    alignment; and every other valid placement has pointwise larger or equal
    offsets and, if its size is a multiple of the alignment, at least this size. *)
Theorem struct_layout_correct : forall fields, struct_fits fields ->
  let l := compute_struct_layout fields in
  placed 0 fields (field_offsets l) (total_size l) /\
  (total_size l) mod (alignment l) = 0 /\
  alignment l = max_falign 1 fields /\
  (forall offs' limit, placed 0 fields offs' limit ->
     pointwise_le (field_offsets l) offs' /\
     (limit mod alignment l = 0 -> total_size l <= limit)).
Proof. exact struct_layout_lemma. Qed.
Print Assumptions struct_layout_correct.


(** C08: every scalar gets storage for all its bits, naturally aligned, in at
    most 8 bytes; wider integer types (core.i128) would not fit their slot. *)
Theorem scalar_storage : forall n b, In (n, b) scalar_bits ->
  b <= 8 * fsize (core n) /\ fsize (core n) <= 8 /\ falign (core n) = fsize (core n) /\
  (b <> 1 -> 8 * fsize (core n) = b).
Proof. exact scalar_storage_lemma. Qed.
Print Assumptions scalar_storage.

Example struct_fits_example : struct_fits [core "i8"; core "i64"; core "i1"; core "i16"; core "ptr"].
Proof. exists [0; 8; 16; 20; 24]. vm_compute. repeat split; discriminate. Qed.
Example struct_layout_example :
  compute_struct_layout [core "i8"; core "i64"; core "i1"; core "i16"; core "ptr"; core "i8"] =
  {| field_offsets := [0; 8; 16; 20; 24; 32]; total_size := 40; alignment := 8 |}.
Proof. reflexivity. Qed.

(** C09: the tag slot precedes all payloads; each variant's payload is a valid
    placement that lies inside the enum; the i-th variant has tag i. *)
Theorem enum_layout_correct : forall vs, Forall variant_fits vs -> N.of_nat (List.length vs) <= 2 ^ 32 ->
  let l := compute_enum_layout vs in
  tag_offset l + tag_size l <= fields_offset l /\
  e_alignment l = 8 /\ (e_total_size l) mod 8 = 0 /\ fields_offset l <= e_total_size l /\
  List.length (variants l) = List.length vs /\
  forall i nm fields, nth_error vs i = Some (nm, fields) -> exists v, nth_error (variants l) i = Some v /\
    vname v = nm /\ tag_value v = N.of_nat i /\
    placed 0 fields (v_offsets v) (fields_size v) /\
    fields_offset l + fields_size v <= e_total_size l.
Proof. exact enum_layout_lemma. Qed.
Print Assumptions enum_layout_correct.

(** C09: distinct variants have distinct tags. *)
Theorem enum_tags_distinct : forall vs, Forall variant_fits vs -> N.of_nat (List.length vs) <= 2 ^ 32 ->
  forall i j v w, nth_error (variants (compute_enum_layout vs)) i = Some v ->
  nth_error (variants (compute_enum_layout vs)) j = Some w -> tag_value v = tag_value w -> i = j.
Proof. exact tags_distinct_enum. Qed.
Print Assumptions enum_tags_distinct.

(** C09: lookup by name finds that variant's own layout. *)
Theorem enum_lookup_by_name : forall vs, Forall variant_fits vs -> N.of_nat (List.length vs) <= 2 ^ 32 ->
  NoDup (map fst vs) -> forall i nm fields, nth_error vs i = Some (nm, fields) ->
  exists v, find_variant_layout (compute_enum_layout vs) nm = Some v /\
    nth_error (variants (compute_enum_layout vs)) i = Some v /\ tag_value v = N.of_nat i.
Proof. exact find_variant_lemma. Qed.
Print Assumptions enum_lookup_by_name.

Example enum_fits_example :
  let vs := [("None"%string, []); ("Pair"%string, [core "i8"; core "ptr"]); ("One"%string, [core "i32"])] in
  Forall variant_fits vs /\ NoDup (map fst vs).
Proof.
  split.
  - repeat constructor.
    + exists []. vm_compute. discriminate.
    + exists [0; 8]. vm_compute. repeat split; discriminate.
    + exists [0]. vm_compute. repeat split; discriminate.
  - repeat constructor; cbn; intuition discriminate.
Qed.
