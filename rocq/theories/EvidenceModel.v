(** Evidence values of the native runtime.
    Models crates/tribute-runtime/src/lib.rs lines 748-901. *)
From Verif Require Import Base.
Open Scope Z_scope.

(** lib.rs 749-756: struct Marker.  i32 fields are [Z]; the two raw pointers are
    opaque values of an address type, modelled by [Z] (0 is null). *)
Record marker := Marker {
  ability_id : Z;
  prompt_tag : Z;
  tr_dispatch_fn : Z;
  handler_dispatch : Z
}.

(** lib.rs 762-765: struct Evidence, a vector of markers. *)
Definition evidence := list marker.

(** Result of Rust's [binary_search_by_key]: [BsOk i] is [Ok(i)], [BsErr i] is
    [Err(i)].  [BsStuck] marks a fault of the model itself (index out of bounds,
    or fuel exhausted); the theorems show that it never occurs. *)
Inductive bs_result := BsOk (i : nat) | BsErr (i : nat) | BsStuck.

(** The loop of core::slice::binary_search_by (Rust standard library, called at
    lib.rs 775-777 and 794-797):
      while size > 1 { half = size/2; mid = base+half;
                       base = if key(mid) > target {base} else {mid}; size -= half } *)
Fixpoint bs_loop (fuel : nat) (ms : evidence) (target : Z) (base size : nat) : option nat :=
  if Nat.leb size 1 then Some base
  else match fuel with
       | O => None
       | S fuel' =>
           let half := Nat.div size 2 in
           let mid := (base + half)%nat in
           match nth_error ms mid with
           | None => None
           | Some m => bs_loop fuel' ms target
                         (if ability_id m >? target then base else mid) (size - half)
           end
       end.

(** core::slice::binary_search_by, complete: the empty case, the loop, and the
    final comparison. *)
Definition binary_search (ms : evidence) (target : Z) : bs_result :=
  match ms with
  | [] => BsErr 0
  | _ => match bs_loop (length ms) ms target 0 (length ms) with
         | None => BsStuck
         | Some base =>
             match nth_error ms base with
             | None => BsStuck
             | Some m => if ability_id m =? target then BsOk base
                         else if ability_id m <? target then BsErr (base + 1)
                         else BsErr base
             end
         end
  end.

(** SmallVec::insert(pos, x) and v[pos] = x. *)
Definition vec_insert {A} (l : list A) (pos : nat) (x : A) : list A :=
  firstn pos l ++ x :: skipn pos l.
Definition vec_set {A} (l : list A) (pos : nat) (x : A) : list A :=
  firstn pos l ++ x :: skipn (S pos) l.

(** lib.rs 768-772: Evidence::new. *)
Definition evidence_new : evidence := [].

(** lib.rs 774-790: Evidence::lookup.  [None] stands for the
    [unreachable_unchecked] branch (undefined behaviour). *)
Definition evidence_lookup (ev : evidence) (id : Z) : option marker :=
  match binary_search ev id with
  | BsOk i => nth_error ev i
  | _ => None
  end.

(** lib.rs 792-809: Evidence::extend (a clone is modified and returned). *)
Definition evidence_extend (ev : evidence) (m : marker) : evidence :=
  match binary_search ev (ability_id m) with
  | BsOk pos => vec_set ev pos m
  | BsErr pos => vec_insert ev pos m
  | BsStuck => ev
  end.

(** lib.rs 816-867: the FFI calls that create evidence values.  The heap of all
    evidence values ever returned is a list; a pointer is an index into it.
    [FfiExtend src m] is __tribute_evidence_extend on the value at [src]. *)
Inductive ffi_call := FfiEmpty | FfiExtend (src : nat) (m : marker).

(** One FFI call appends the new box; [None] is a dangling argument (excluded
    by the safety contract stated at lib.rs 846-849). *)
Definition ffi_step (heap : list evidence) (c : ffi_call) : option (list evidence) :=
  match c with
  | FfiEmpty => Some (heap ++ [evidence_new])
  | FfiExtend src m =>
      match nth_error heap src with
      | None => None
      | Some ev => Some (heap ++ [evidence_extend ev m])
      end
  end.

Fixpoint ffi_run (heap : list evidence) (cs : list ffi_call) : option (list evidence) :=
  match cs with
  | [] => Some heap
  | c :: cs' => match ffi_step heap c with
                | None => None
                | Some heap' => ffi_run heap' cs'
                end
  end.

(** lib.rs 832-835, 877-884, 894-901: the three FFI lookups. *)
Definition ffi_lookup (heap : list evidence) (p : nat) (id : Z) : option marker :=
  match nth_error heap p with
  | None => None
  | Some ev => evidence_lookup ev id
  end.
