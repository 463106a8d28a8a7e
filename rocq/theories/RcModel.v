(** Reference counting of the native backend: the retain/release sequences, the
    RTTI dispatch and the generated per-type release functions.
    Models crates/tribute-passes/src/native/rc_lowering.rs lines 156-440,
    crates/tribute-passes/src/native/rtti.rs lines 188-395 and 409-660,
    crates/trunk-ir-cranelift-backend/src/translate.rs lines 225-340,
    crates/tribute-runtime/src/lib.rs lines 718-732 and
    crates/tribute-rc/src/lib.rs lines 78-108. *)
From Verif Require Import Base.
Open Scope Z_scope.

(** ** One counter *)

(** Atomic u32 read-modify-write: fetch_add 1 / fetch_sub 1 wrap modulo 2^32. *)
Definition u32_inc (c : Z) : Z := (c + 1) mod 2 ^ 32.
Definition u32_dec (c : Z) : Z := (c - 1) mod 2 ^ 32.

Inductive rcop := RcRetain | RcRelease.

(** rc_lowering.rs gen_retain_rc_ops 309-341 and gen_release_decrement 346-394:
    new counter, and whether this operation takes the free path
    (is_last = old counter equal to 1).  Each is a single atomic instruction, so
    concurrent executions are interleavings of these steps. *)
Definition rc_step (c : Z) (o : rcop) : Z * bool :=
  match o with
  | RcRetain => (u32_inc c, false)
  | RcRelease => (u32_dec c, c =? 1)
  end.

(** A history on one box; the list tells which operations took the free path.
    tribute-rc init 78-85 starts the counter at 1. *)
Fixpoint rc_run (c : Z) (ops : list rcop) : Z * list bool :=
  match ops with
  | [] => (c, [])
  | o :: ops' => let '(c1, f) := rc_step c o in
                 let '(c2, fs) := rc_run c1 ops' in (c2, f :: fs)
  end.

(** ** The object heap *)

(** An RcBox with its payload's pointer fields (func_ptr fields, which are
    skipped by rtti.rs 209-211, and non-pointer fields are not represented).
    [typed]: its rtti_idx has a generated release function (struct or enum);
    otherwise (Bytes, boxed numbers) the RTTI table entry is null.
    [osize]: allocation size.  [freed]: its memory has been returned. *)
Record obj := { rc : Z; fields : list (option nat); typed : bool; osize : Z; freed : bool }.

Definition set_rc (c : Z) (o : obj) : obj :=
  {| rc := c; fields := fields o; typed := typed o; osize := osize o; freed := freed o |}.
Definition set_freed (o : obj) : obj :=
  {| rc := rc o; fields := fields o; typed := typed o; osize := osize o; freed := true |}.

Fixpoint upd {A} (l : list A) (i : nat) (x : A) : list A :=
  match l, i with
  | [], _ => []
  | _ :: l', O => x :: l'
  | y :: l', S i' => y :: upd l' i' x
  end.

(** Result: new heap, undefined behaviour (use after free, double free, wrong
    size), or the model's own fuel ran out. *)
Inductive res := Ok (h : list obj) | Bad | NoFuel.

Definition bind (r : res) (k : list obj -> res) : res :=
  match r with Ok h => k h | Bad => Bad | NoFuel => NoFuel end.

(** Any access to an object's memory. *)
Definition access (h : list obj) (a : nat) : option obj :=
  match nth_error h a with
  | Some o => if freed o then None else Some o
  | None => None
  end.

(** lib.rs 718-732: __tribute_dealloc; size 0 is a no-op, a size different from
    the allocation size violates the allocator contract. *)
Definition dealloc (h : list obj) (a : nat) (size : Z) : res :=
  match access h a with
  | None => Bad
  | Some o => if size =? 0 then Ok h
              else if size =? osize o then Ok (upd h a (set_freed o)) else Bad
  end.

(** The retain sequence, rc_lowering.rs 156-223: null check, then increment. *)
Definition retain (h : list obj) (p : option nat) : res :=
  match p with
  | None => Ok h
  | Some a => match access h a with
              | None => Bad
              | Some o => Ok (upd h a (set_rc (u32_inc (rc o)) o))
              end
  end.

(** The release sequence, rc_lowering.rs 224-303, __tribute_deep_release
    (translate.rs 250-340) and the generated release function: pointer fields in
    order, each null-checked and released with alloc_size 0
    (rtti.rs 283-323, 523-565), then dealloc with the layout size
    (rtti.rs 354-382, 484-508).  An enum's release function dispatches on the
    tag to the pointer fields of that variant; [fields] are those of the
    object's own variant. *)
Fixpoint release (fuel : nat) (h : list obj) (p : option nat) (size : Z) : res :=
  match p with
  | None => Ok h
  | Some a =>
      match fuel with
      | O => NoFuel
      | S fuel' =>
          match access h a with
          | None => Bad
          | Some o =>
              let h1 := upd h a (set_rc (u32_dec (rc o)) o) in
              if rc o =? 1 then
                if typed o then
                  bind (fold_left (fun r f => bind r (fun h' => release fuel' h' f 0)) (fields o) (Ok h1))
                       (fun h2 => dealloc h2 a (osize o))
                else dealloc h1 a size
              else Ok h1
          end
      end
  end.

(** ** Programs *)
Inductive hop :=
  | HNew (t : bool) (size : Z) (fs : list (option nat))  (* adt_rc_header: count 1, fields stored *)
  | HRetain (p : option nat)
  | HRelease (p : option nat) (size : Z)
  | HAccess (a : nat).                                   (* any load from the object *)

(** The release recursion depth is bounded by the heap size on acyclic heaps;
    the model gives it exactly that much fuel. *)
Definition hstep (h : list obj) (o : hop) : res :=
  match o with
  | HNew t size fs => Ok (h ++ [{| rc := 1; fields := fs; typed := t; osize := size; freed := false |}])
  | HRetain p => retain h p
  | HRelease p size => release (length h) h p size
  | HAccess a => match access h a with Some _ => Ok h | None => Bad end
  end.

Fixpoint hrun (h : list obj) (ops : list hop) : res :=
  match ops with
  | [] => Ok h
  | o :: ops' => bind (hstep h o) (fun h' => hrun h' ops')
  end.
