(** The generated release functions of the native backend and what they release.
    Models crates/tribute-passes/src/native/rtti.rs:83-680, native/adt_rc_header.rs:75-330 (the stores),
    native/type_converter.rs:112-160, native/rc_insertion.rs:74-82 and 1303-1318 (which stores retain) and
    crates/tribute-front/src/ast_to_ir/lower/mod.rs:309-340 (the types of declared fields).
    Simplified: types are a dialect and a name, as in LayoutModel (an adt type always has fields, variants or a reference, and
    evidence arrays are not told from other arrays); memory is a function from byte offsets in the payload to the word stored there
    (that fields do not overlap is C08); a release function is its blocks, each with the instructions that matter for it. *)
From Verif Require Export Base.
From Verif Require Export LayoutModel.
Open Scope N_scope.

(** ** Types of fields *)

Definition core (n : string) : ty := {| dialect := "core"; tname := n |}.
Definition anyref : ty := {| dialect := "tribute_rt"; tname := "anyref" |}.
Definition is (t : ty) (d n : string) : bool := String.eqb (dialect t) d && String.eqb (tname t) n.

Inductive annotation := Named (name : string) | Path | App (ctor : annotation) | Other.
(** lower/mod.rs:309-340, [convert_annotation_to_ir_type]; a declared field always has an annotation (decl.rs:84, 103). *)
Fixpoint field_type (a : annotation) : ty :=
  match a with
  | Named n =>
      if String.eqb n "Int" || String.eqb n "Nat" then core "i32"
      else if String.eqb n "Float" then core "f64"
      else if String.eqb n "Bool" then core "i1"
      else if String.eqb n "Bytes" then core "bytes"
      else if String.eqb n "Rune" then core "i32"
      else if String.eqb n "Nil" then core "nil"
      else anyref
  | Path => anyref
  | App c => field_type c
  | Other => anyref
  end.

(** type_converter.rs:118-160: the conversions of [native_type_converter]; [None]: the type stays. *)
Definition convert_type (t : ty) : option ty :=
  if is t "tribute_rt" "int" || is t "tribute_rt" "nat" || is t "tribute_rt" "bool" then Some (core "i32")
  else if is t "core" "i1" then Some (core "i32")
  else if is t "tribute_rt" "float" then Some (core "f64")
  else if is t "tribute_rt" "intref" then Some (core "ptr")
  else if is t "core" "bytes" then Some (core "ptr")
  else if String.eqb (dialect t) "adt" then Some (core "ptr")
  else if is t "closure" "closure" then Some (core "ptr")
  else if is t "core" "func" then Some (core "ptr")
  else if is t "core" "array" then Some (core "ptr")
  else None.
(** trunk-ir/src/rewrite/type_converter.rs:68-70. *)
Definition native (t : ty) : ty := match convert_type t with Some t' => t' | None => t end.

(** rc_insertion.rs:74-82. *)
Definition is_anyref_type (t : ty) : bool := is t "tribute_rt" "anyref".

(** ** Objects *)

Definition memory := N -> Z.                            (* words by offset in the payload; a null pointer is 0 *)
Definition store (m : memory) (off : N) (v : Z) : memory := fun o => if o =? off then v else m o.
Fixpoint stores (m : memory) (offs : list N) (vs : list Z) : memory :=
  match offs, vs with
  | off :: offs, v :: vs => stores (store m off v) offs vs
  | _, _ => m
  end.
Definition RC_HEADER_SIZE : N := 8.

(** adt_rc_header.rs:100-200: size of the allocation and payload of a new struct.  [m]: what was in memory. *)
Definition new_struct (fields : list (string * ty)) (vs : list Z) (m : memory) : N * memory :=
  let l := compute_struct_layout (List.map (fun f => native (snd f)) fields) in
  (total_size l + RC_HEADER_SIZE, stores m (field_offsets l) vs).
(** adt_rc_header.rs:225-330: a new variant; [None]: the panic of 250-256. *)
Definition enum_layout_of (vars : list (string * list ty)) : enum_layout :=
  compute_enum_layout (List.map (fun v => (fst v, List.map native (snd v))) vars).
Definition new_variant (vars : list (string * list ty)) (tag : string) (vs : list Z) (m : memory) : option (N * memory) :=
  let l := enum_layout_of vars in
  match find_variant_layout l tag with
  | None => None
  | Some v => Some (e_total_size l + RC_HEADER_SIZE,
                    stores (store m 0 (Z.of_N (tag_value v))) (List.map (fun o => fields_offset l + o) (v_offsets v)) vs)
  end.
(** rc_insertion.rs:1303-1318: the stored words that are retained.  Simplified: the stored values have the native type of their field;
    values at the address of a symbol (rc_insertion.rs:99-101) are left out.  A null constant is static (102-111), and retaining
    null does nothing otherwise (C43). *)
Fixpoint retained (ts : list ty) (vs : list Z) : list Z :=
  match ts, vs with
  | t :: ts, v :: vs => if is_anyref_type (native t) && negb (Z.eqb v 0) then v :: retained ts vs else retained ts vs
  | _, _ => []
  end.

(** ** Release functions *)

Inductive block :=
| Check (off : N) (is_null release : nat)        (* load the field; brif (field == 0) *)
| Release (off : N) (next : nat)                 (* load the field, release it, jump *)
| Tag (t : N) (yes no : nat)                     (* brif (tag == t); the tag is loaded in the entry block *)
| Jump (next : nat)
| Dealloc (size : N).                            (* dealloc the object, return *)
(** Blocks are numbered as they are created; the entry block is 0. *)
Definition region := list (nat * block).

Definition is_native_ptr (t : ty) : bool := is (native t) "core" "ptr".
(** rtti.rs:217-238 *)
Fixpoint struct_offsets (fields : list (string * ty)) (offs : list N) : list N :=
  match fields, offs with
  | (name, t) :: fields, off :: offs =>
      if String.eqb name "func_ptr" then struct_offsets fields offs
      else if is_native_ptr t then off :: struct_offsets fields offs
      else struct_offsets fields offs
  | _, _ => []
  end.
(** The loop of 289-325 and 527-572: blocks for the offsets, last one first; [fresh]: the next number; [next]: where to go on.
    Returns the blocks in the order in which they are pushed, the block to start with and the next number. *)
Fixpoint chain (offs_rev : list N) (fresh next : nat) : region * nat * nat :=
  match offs_rev with
  | [] => ([], next, fresh)
  | off :: rest =>
      let rel := fresh in
      let chk := S fresh in
      let '(more, start, fresh') := chain rest (S (S fresh)) chk in
      ((rel, Release off next) :: (chk, Check off next rel) :: more, start, fresh')
  end.
(** rtti.rs:192-347.  The first check moves to the entry block. *)
Definition release_struct (fields : list (string * ty)) : region :=
  let l := compute_struct_layout (List.map (fun f => native (snd f)) fields) in
  let dealloc := Dealloc (total_size l + RC_HEADER_SIZE) in
  match struct_offsets fields (field_offsets l) with
  | [] => [(0%nat, dealloc)]
  | offs =>
      let '(blocks, _, _) := chain (rev offs) 2 1 in
      let after := (1%nat, dealloc) :: blocks in
      match rev after with
      | (_, first_check) :: rest => (0%nat, first_check) :: rest
      | [] => []
      end
  end.

(** rtti.rs:451-480 *)
Fixpoint variant_offsets (base : N) (ts : list ty) (offs : list N) : list N :=
  match ts, offs with
  | t :: ts, off :: offs => if is_native_ptr t then base + off :: variant_offsets base ts offs else variant_offsets base ts offs
  | _, _ => []
  end.
Fixpoint variants_with_ptrs (base : N) (vars : list (string * list ty)) (ls : list variant_layout) : list (N * list N) :=
  match vars, ls with
  | (_, ts) :: vars, v :: ls =>
      match variant_offsets base ts (v_offsets v) with
      | [] => variants_with_ptrs base vars ls
      | offs => (tag_value v, offs) :: variants_with_ptrs base vars ls
      end
  | _, _ => []
  end.
(** rtti.rs:517-576: the chains of all variants, and where each starts. *)
Fixpoint chains (vrs : list (N * list N)) (fresh : nat) : region * list nat * nat :=
  match vrs with
  | [] => ([], [], fresh)
  | (_, offs) :: vrs =>
      let '(blocks, start, fresh1) := chain (rev offs) fresh 1 in
      let '(more, starts, fresh2) := chains vrs fresh1 in
      (blocks ++ more, start :: starts, fresh2)
  end.
(** rtti.rs:588-622: the tests of the tags after the first, last one first.  Returns the blocks and where the tests start. *)
Fixpoint tag_tests (vrs : list (N * list N)) (starts : list nat) (fresh : nat) : region * nat * nat :=
  match vrs, starts with
  | (t, _) :: vrs, s :: starts =>
      let '(blocks, no, fresh1) := tag_tests vrs starts fresh in
      ((fresh1, Tag t s no) :: blocks, fresh1, S fresh1)
  | _, _ => ([], 1%nat, fresh)
  end.
(** rtti.rs:409-680 *)
Definition release_enum (vars : list (string * list ty)) : region :=
  let l := enum_layout_of vars in
  let dealloc := Dealloc (e_total_size l + RC_HEADER_SIZE) in
  match variants_with_ptrs (fields_offset l) vars (variants l) with
  | [] => [(0%nat, Jump 1); (1%nat, dealloc)]
  | (t, offs) :: vrs =>
      let '(blocks, starts, fresh) := chains ((t, offs) :: vrs) 2 in
      match starts with
      | [] => []
      | s :: starts =>
          let '(tests, no, _) := tag_tests vrs starts fresh in
          (0%nat, Tag t s no) :: tests ++ blocks ++ [(1%nat, dealloc)]
      end
  end.

(** ** Running a release function *)

Inductive outcome := Freed (released : list Z) (size : N) | NoBlock | TooLong.
Fixpoint find_block (r : region) (i : nat) : option block :=
  match r with [] => None | (j, b) :: r => if Nat.eqb j i then Some b else find_block r i end.
Fixpoint run (fuel : nat) (r : region) (m : memory) (i : nat) : outcome :=
  match fuel with
  | O => TooLong
  | S fuel =>
      match find_block r i with
      | None => NoBlock
      | Some (Check off a b) => run fuel r m (if Z.eqb (m off) 0 then a else b)
      | Some (Release off n) => match run fuel r m n with Freed l s => Freed (m off :: l) s | o => o end
      | Some (Tag t a b) => run fuel r m (if Z.eqb (m 0) (Z.of_N t) then a else b)
      | Some (Jump n) => run fuel r m n
      | Some (Dealloc size) => Freed [] size
      end
  end.
Definition release_object (r : region) (m : memory) : outcome := run (S (List.length r)) r m 0.

(** ** Indices *)

(** rtti.rs:96-113: [get_or_insert]; types are numbers here.  188-231: the types of all constructions, in the order of the walk. *)
Definition RTTI_USER_START : N := 32.
Record rtti_map := { type_to_idx : list (nat * N); next_idx : N }.
Definition rtti_new : rtti_map := {| type_to_idx := []; next_idx := RTTI_USER_START |}.
Fixpoint rtti_get (l : list (nat * N)) (t : nat) : option N :=
  match l with [] => None | (u, i) :: l => if Nat.eqb u t then Some i else rtti_get l t end.
Definition get_or_insert (r : rtti_map) (t : nat) : rtti_map :=
  match rtti_get (type_to_idx r) t with
  | Some _ => r
  | None => {| type_to_idx := (t, next_idx r) :: type_to_idx r; next_idx := next_idx r + 1 |}
  end.
Definition collect_types (ts : list nat) : rtti_map := fold_left get_or_insert ts rtti_new.
