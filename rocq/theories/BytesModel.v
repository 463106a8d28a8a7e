(** Bytes values of the native runtime.
    Models crates/tribute-runtime/src/lib.rs lines 219-227, 460-478, 505-666,
    693-711 and crates/tribute-rc/src/lib.rs lines 78-108. *)
From Verif Require Import Base.
Open Scope N_scope.

Definition byte := Z.

(** A data pointer: null, or an allocation and an offset into it. *)
Definition dptr := option (nat * N).

(** lib.rs 223-227: struct TributeBytes, plus the RC header of its RcBox
    (tribute-rc/src/lib.rs 34-38; rtti_idx is always 0 here and omitted). *)
Record bobj := { refcount : N; bptr : dptr; blen : N }.

(** Memory: data buffers and RcBox<TributeBytes> objects, both addressed by index. *)
Record heap := { bufs : list (list byte); objs : list bobj }.
Definition heap_empty : heap := {| bufs := []; objs := [] |}.

(** Outcome of a runtime call: normal, process abort, or undefined behaviour. *)
Inductive outcome (A : Type) := Ret (a : A) | Abort | UB.
Arguments Ret {A} a. Arguments Abort {A}. Arguments UB {A}.

(** lib.rs 693-711: __tribute_alloc aborts when Layout::from_size_align fails,
    i.e. above isize::MAX - 7.  (Allocation failure by the OS is not modelled.) *)
Definition MAX_ALLOC : N := 2 ^ 63 - 8.

(** Reading [n] bytes at a pointer; [None] is an out-of-bounds access. *)
Definition mem_read (h : heap) (p : dptr) (n : N) : option (list byte) :=
  match p with
  | None => if n =? 0 then Some [] else None
  | Some (b, off) =>
      match nth_error (bufs h) b with
      | None => None
      | Some data =>
          if off + n <=? N.of_nat (length data)
          then Some (firstn (N.to_nat n) (skipn (N.to_nat off) data))
          else None
      end
  end.

(** RcBox::init then writing the payload (lib.rs 471-477, 599-605, 655-661):
    refcount starts at 1.  The new object's index is the returned pointer. *)
Definition new_obj (h : heap) (p : dptr) (n : N) : heap :=
  {| bufs := bufs h; objs := objs h ++ [{| refcount := 1; bptr := p; blen := n |}] |}.

(** A fresh data buffer; returns its pointer. *)
Definition new_buf (h : heap) (data : list byte) : heap * dptr :=
  ({| bufs := bufs h ++ [data]; objs := objs h |}, Some (length (bufs h), 0)).

(** lib.rs 460-478: allocate_bytes. *)
Definition allocate_bytes (h : heap) (content : list byte) : outcome heap :=
  let n := N.of_nat (length content) in
  match content with
  | [] => Ret (new_obj h None n)
  | _ => if MAX_ALLOC <? n then Abort
         else let '(h', p) := new_buf h content in Ret (new_obj h' p n)
  end.

(** One guarded copy_nonoverlapping of __tribute_bytes_concat (lib.rs 578-593):
    when the guard [len > 0 && !ptr.is_null()] fails with len > 0 the bytes stay
    uninitialised, which the model reports as UB. *)
Definition copy_part (h : heap) (o : bobj) : option (list byte) :=
  if blen o =? 0 then Some []
  else match bptr o with
       | None => None
       | Some _ => mem_read h (bptr o) (blen o)
       end.

(** lib.rs 564-606: __tribute_bytes_concat. *)
Definition bytes_concat (h : heap) (a b : nat) : outcome heap :=
  match nth_error (objs h) a, nth_error (objs h) b with
  | Some oa, Some ob =>
      let total := blen oa + blen ob in
      if 2 ^ 64 <=? total then Abort
      else if 0 <? total then
        if MAX_ALLOC <? total then Abort
        else match copy_part h oa, copy_part h ob with
             | Some da, Some db =>
                 let '(h', p) := new_buf h (da ++ db) in Ret (new_obj h' p total)
             | _, _ => UB
             end
      else Ret (new_obj h None total)
  | _, _ => UB
  end.

(** tribute-rc/src/lib.rs 106-108: RcBox::retain, fetch_add on an AtomicU32. *)
Definition retain_obj (o : bobj) : bobj :=
  {| refcount := (refcount o + 1) mod 2 ^ 32; bptr := bptr o; blen := blen o |}.

Fixpoint update_nth {A} (l : list A) (i : nat) (f : A -> A) : list A :=
  match l, i with
  | [], _ => []
  | x :: l', O => f x :: l'
  | x :: l', S i' => x :: update_nth l' i' f
  end.

(** lib.rs 625-662: __tribute_bytes_slice_or_panic; start and end are u32. *)
Definition bytes_slice (h : heap) (a : nat) (s e : N) : outcome heap :=
  match nth_error (objs h) a with
  | None => UB
  | Some o =>
      if (e <? s) || (blen o <? e) then Abort
      else
        let h1 := {| bufs := bufs h; objs := update_nth (objs h) a retain_obj |} in
        let new_len := e - s in
        let new_ptr := if 0 <? new_len
                       then match bptr o with None => None | Some (b, off) => Some (b, off + s) end
                       else None in
        Ret (new_obj h1 new_ptr new_len)
  end.

(** lib.rs 505-508: __tribute_bytes_len, a truncating u64-to-u32 cast. *)
Definition bytes_len (h : heap) (a : nat) : outcome N :=
  match nth_error (objs h) a with
  | None => UB
  | Some o => Ret (blen o mod 2 ^ 32)
  end.

Fixpoint list_eqb (l1 l2 : list byte) : bool :=
  match l1, l2 with
  | [], [] => true
  | x :: l1', y :: l2' => Z.eqb x y && list_eqb l1' l2'
  | _, _ => false
  end.

(** Pointer arithmetic [ptr.add(k)]; null plus an offset stays invalid. *)
Definition ptr_add (p : dptr) (k : N) : dptr :=
  match p with None => None | Some (b, off) => Some (b, off + k) end.

(** lib.rs 521-550: __tribute_bytes_range_equal; starts and len are u32, so the
    two checked_add calls on u64 cannot overflow (kept in the model). *)
Definition bytes_range_equal (h : heap) (a : nat) (sa : N) (b : nat) (sb : N) (n : N) : outcome N :=
  match nth_error (objs h) a, nth_error (objs h) b with
  | Some oa, Some ob =>
      if 2 ^ 64 <=? sa + n then Ret 0
      else if 2 ^ 64 <=? sb + n then Ret 0
      else if (blen oa <? sa + n) || (blen ob <? sb + n) then Ret 0
      else if n =? 0 then Ret 1
      else match mem_read h (ptr_add (bptr oa) sa) n, mem_read h (ptr_add (bptr ob) sb) n with
           | Some da, Some db => Ret (if list_eqb da db then 1 else 0)
           | _, _ => UB
           end
  | _, _ => UB
  end.

(** The ways a program can build Bytes values. *)
Inductive bop := OpAlloc (content : list byte) | OpConcat (a b : nat) | OpSlice (a : nat) (s e : N).

Definition bstep (h : heap) (o : bop) : outcome heap :=
  match o with
  | OpAlloc c => allocate_bytes h c
  | OpConcat a b => bytes_concat h a b
  | OpSlice a s e => bytes_slice h a s e
  end.

Fixpoint brun (h : heap) (ops : list bop) : outcome heap :=
  match ops with
  | [] => Ret h
  | o :: ops' => match bstep h o with
                 | Ret h' => brun h' ops'
                 | Abort => Abort
                 | UB => UB
                 end
  end.

(** The bytes a Bytes value denotes. *)
Definition content_of (h : heap) (a : nat) : option (list byte) :=
  match nth_error (objs h) a with
  | None => None
  | Some o => mem_read h (bptr o) (blen o)
  end.
