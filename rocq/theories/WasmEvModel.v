(** The evidence functions of the WebAssembly backend.
    Models crates/tribute-passes/src/wasm/evidence_to_wasm.rs:640-1296 (the generated functions) and the parts of
    crates/trunk-ir-wasm-backend/src/emit.rs, emit/handlers/{control_flow,local_global}_handlers.rs and emit/value_emission.rs
    that they use.  Simplified: emitting the operands, the instruction and the store of its result is one step on the locals
    (the stack code is the subject of C72); types and casts are left out; markers are those of C01. *)
From Verif Require Export Base.
From Verif Require Export EvidenceModel.
Open Scope Z_scope.

Inductive binop := Add | Sub | DivU | GeS | GtS | LtS | Eq.
(** Operations of the wasm dialect.  [r] is the name of the result. *)
Inductive op :=
| Const (r : nat) (z : Z)
| Bin (r : nat) (b : binop) (x y : nat)
| LocalGet (r : nat) (i : nat)
| LocalSet (x : nat) (i : nat)
| ArrayLen (r a : nat)
| ArrayGet (r a i : nat)
| Field (r m : nat) (f : nat)
| ArrayNew (r n : nat)
| ArraySet (a i x : nat)
| ArrayCopy (dst di src si n : nat)
| If (r c : nat) (th el : list op)
| Loop (r : nat) (body : list op)
| Block (r : nat) (body : list op)
| Br (d : nat)
| BrIf (c d : nat)
| Return (x : nat)
| Unreachable.

(** [locals], 634-637. *)
Definition LOW : nat := 2.
Definition HIGH : nat := 3.

(** [build_lookup_loop_body], 712-916; the values are named in the order in which they are made. *)
Definition lookup_loop (ev target : nat) : list op :=
  [LocalGet 4 LOW; LocalGet 5 HIGH; Bin 6 GeS 4 5; If 7 6 [Unreachable] [];
   Bin 8 Add 4 5; Const 9 2; Bin 10 DivU 8 9; ArrayGet 11 ev 10; Field 12 11 0; Bin 13 Eq 12 target;
   If 19 13
     [Return 11]
     [Bin 14 LtS 12 target;
      If 17 14 [Const 15 1; Bin 16 Add 10 15; LocalSet 16 LOW] [LocalSet 10 HIGH];
      Br 0]].
(** [generate_evidence_lookup_function], 646-709; the parameters are the values 0 and 1. *)
Definition lookup_body : list op :=
  [Const 2 0; LocalSet 2 LOW; ArrayLen 3 0; LocalSet 3 HIGH; Loop 20 (lookup_loop 0 1); Unreachable].

(** [build_extend_search_loop], 1168-1291. *)
Definition search_loop (ev marker_id : nat) : list op :=
  [LocalGet 5 LOW; LocalGet 6 HIGH; Bin 7 GeS 5 6; BrIf 7 1;
   Bin 8 Add 5 6; Const 9 2; Bin 10 DivU 8 9; ArrayGet 11 ev 10; Field 12 11 0; Bin 13 LtS 12 marker_id;
   If 16 13 [Const 14 1; Bin 15 Add 10 14; LocalSet 15 LOW] [LocalSet 10 HIGH];
   Br 0].
(** [generate_evidence_extend_function], 921-1161. *)
Definition extend_body : list op :=
  [Field 2 1 0; ArrayLen 3 0; Const 4 0; LocalSet 4 LOW; LocalSet 3 HIGH;
   Block 18 [Loop 17 (search_loop 0 2)];
   LocalGet 19 LOW; Const 20 1; Bin 21 Add 3 20; ArrayNew 22 21;
   Const 23 0; Bin 24 GtS 19 23; If 26 24 [Const 25 0; ArrayCopy 22 25 0 25 19] [];
   ArraySet 22 19 1;
   Bin 27 Sub 3 19; Const 28 0; Bin 29 GtS 27 28;
   If 32 29 [Const 30 1; Bin 31 Add 19 30; ArrayCopy 22 31 0 19 27] [];
   Return 22].

(** ** emit.rs: [assign_locals_in_region], 769-833.  The values that get locals, in order: those of the regions of an operation
    before its own result. *)
Fixpoint defined (o : op) : list nat :=
  match o with
  | Const r _ | Bin r _ _ _ | LocalGet r _ | ArrayLen r _ | ArrayGet r _ _ | Field r _ _ | ArrayNew r _ => [r]
  | If r _ th el => flat_map defined th ++ flat_map defined el ++ [r]
  | Loop r body | Block r body => flat_map defined body ++ [r]
  | _ => []
  end.
(** [emit_function], 708-768: the parameters first. *)
Definition values (params : list nat) (body : list op) : list nat := params ++ flat_map defined body.
Fixpoint position (x : nat) (l : list nat) : nat := match l with [] => 0%nat | y :: l => if Nat.eqb x y then 0%nat else S (position x l) end.

(** ** WebAssembly: locals and arrays of markers. *)
Inductive value := Num (z : Z) | Arr (a : nat) | Mk (m : marker) | Null.
Record state := mkState { locals : nat -> value; heap : list (list value) }.
Definition set_local (s : state) (i : nat) (v : value) : state :=
  mkState (fun j => if Nat.eqb j i then v else locals s j) (heap s).
Inductive outcome := Next (s : state) | Jump (d : nat) (s : state) | Returned (v : value) (h : list (list value)) | Trapped | Rounds | Stuck.

Definition wrap (z : Z) : Z := (z + 2147483648) mod 4294967296 - 2147483648.
Definition unsigned (z : Z) : Z := z mod 4294967296.
Definition truth (b : bool) : Z := if b then 1 else 0.
Definition bin (b : binop) (x y : Z) : option Z :=
  match b with
  | Add => Some (wrap (x + y))
  | Sub => Some (wrap (x - y))
  | DivU => if unsigned y =? 0 then None else Some (wrap (unsigned x / unsigned y))
  | GeS => Some (truth (y <=? x))
  | GtS => Some (truth (y <? x))
  | LtS => Some (truth (x <? y))
  | Eq => Some (truth (x =? y))
  end.
Definition field (m : marker) (f : nat) : option Z :=
  match f with 0%nat => Some (ability_id m) | 1%nat => Some (prompt_tag m) | _ => None end.
(** [copied dst i src]: [src] written over [dst] from [i] on; [None] if it does not fit. *)
Definition copied (dst : list value) (i : nat) (src : list value) : option (list value) :=
  if (i + List.length src <=? List.length dst)%nat then Some (firstn i dst ++ src ++ skipn (i + List.length src) dst) else None.
Definition slice (l : list value) (i n : nat) : option (list value) :=
  if (i + n <=? List.length l)%nat then Some (firstn n (skipn i l)) else None.
Definition set_array (h : list (list value)) (a : nat) (l : list value) : list (list value) := firstn a h ++ l :: skipn (S a) h.

Section Run.
  Variable home : nat -> nat.                  (* the local of a value *)
  Variable rounds : nat.                       (* how often a loop may start *)
  Definition get (s : state) (x : nat) : value := locals s (home x).
  Definition put (s : state) (r : nat) (v : value) : outcome := Next (set_local s (home r) v).
  Definition run_list (f : op -> state -> outcome) :=
    fix go (l : list op) (s : state) : outcome :=
      match l with
      | [] => Next s
      | o :: l => match f o s with Next s' => go l s' | r => r end
      end.
  (** The end of a block, an [if] and a loop. *)
  Definition leave (r : outcome) : outcome :=
    match r with Jump 0 s => Next s | Jump (S d) s => Jump d s | r => r end.
  Definition iterate (f : state -> outcome) :=
    fix go (k : nat) (s : state) : outcome :=
      match k with
      | O => Rounds
      | S k => match f s with Jump 0 s' => go k s' | Jump (S d) s' => Jump d s' | r => r end
      end.
  Fixpoint run (o : op) (s : state) : outcome :=
    match o with
    | Const r z => put s r (Num z)
    | Bin r b x y =>
        match get s x, get s y with
        | Num a, Num c => match bin b a c with Some z => put s r (Num z) | None => Trapped end
        | _, _ => Stuck
        end
    | LocalGet r i => put s r (locals s i)
    | LocalSet x i => Next (set_local s i (get s x))
    | ArrayLen r a =>
        match get s a with
        | Arr p => match nth_error (heap s) p with Some l => put s r (Num (Z.of_nat (List.length l))) | None => Stuck end
        | Null => Trapped
        | _ => Stuck
        end
    | ArrayGet r a i =>
        match get s a, get s i with
        | Arr p, Num z =>
            match nth_error (heap s) p with
            | Some l => match nth_error l (Z.to_nat (unsigned z)) with Some v => put s r v | None => Trapped end
            | None => Stuck
            end
        | Null, _ => Trapped
        | _, _ => Stuck
        end
    | Field r m f =>
        match get s m with
        | Mk m => match field m f with Some z => put s r (Num z) | None => Stuck end
        | Null => Trapped
        | _ => Stuck
        end
    | ArrayNew r n =>
        match get s n with
        | Num z => Next (mkState (fun j => if Nat.eqb j (home r) then Arr (List.length (heap s)) else locals s j)
                                 (heap s ++ [repeat Null (Z.to_nat (unsigned z))]))
        | _ => Stuck
        end
    | ArraySet a i x =>
        match get s a, get s i with
        | Arr p, Num z =>
            match nth_error (heap s) p with
            | Some l =>
                match copied l (Z.to_nat (unsigned z)) [get s x] with
                | Some l' => Next (mkState (locals s) (set_array (heap s) p l'))
                | None => Trapped
                end
            | None => Stuck
            end
        | Null, _ => Trapped
        | _, _ => Stuck
        end
    | ArrayCopy dst di src si n =>
        match get s dst, get s di, get s src, get s si, get s n with
        | Arr p, Num i, Arr q, Num j, Num k =>
            match nth_error (heap s) p, nth_error (heap s) q with
            | Some l, Some l0 =>
                match slice l0 (Z.to_nat (unsigned j)) (Z.to_nat (unsigned k)) with
                | Some part =>
                    match copied l (Z.to_nat (unsigned i)) part with
                    | Some l' => Next (mkState (locals s) (set_array (heap s) p l'))
                    | None => Trapped
                    end
                | None => Trapped
                end
            | _, _ => Stuck
            end
        | _, _, _, _, _ => Stuck
        end
    | If _ c th el =>
        match get s c with
        | Num z => leave (run_list run (if z =? 0 then el else th) s)
        | _ => Stuck
        end
    | Loop _ body => iterate (run_list run body) rounds s
    | Block _ body => leave (run_list run body s)
    | Br d => Jump d s
    | BrIf c d => match get s c with Num z => if z =? 0 then Next s else Jump d s | _ => Stuck end
    | Return x => Returned (get s x) (heap s)
    | Unreachable => Trapped
    end.
End Run.
(** A call of a function with two parameters. *)
Definition call (rounds : nat) (body : list op) (x y : value) (h : list (list value)) : outcome :=
  run_list (run (fun v => position v (values [0; 1]%nat body)) rounds) body
    (mkState (fun j => match j with 0%nat => x | 1%nat => y | _ => Num 0 end) h).
Definition wasm_lookup (rounds : nat) (h : list (list value)) (ev : nat) (id : Z) : outcome := call rounds lookup_body (Arr ev) (Num id) h.
Definition wasm_extend (rounds : nat) (h : list (list value)) (ev : nat) (m : marker) : outcome := call rounds extend_body (Arr ev) (Mk m) h.
