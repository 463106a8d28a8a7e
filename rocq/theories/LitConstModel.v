(** String and bytes literals from the tree of operations to the running
    program, on both targets.

    Modelled:
    crates/tribute-passes/src/native/const_to_native.rs,
    crates/tribute-passes/src/wasm/const_to_wasm.rs,
    crates/tribute-passes/src/wasm/lower.rs:565-578 ([append_data_ops]),
    crates/trunk-ir-wasm-backend/src/emit.rs:490-497, 615-616 (data section),
    crates/trunk-ir-wasm-backend/src/emit/handlers/misc_handlers.rs:25-56,
    crates/trunk-ir-cranelift-backend/src/translate.rs:382-446 (declarations)
    and function.rs:510-526 ([clif.symbol_addr]).

    Bytes are integers from 0 to 255.  The tree of operations keeps which
    operation is a literal and how regions and blocks nest; every other
    operation is [KOther] with a number that tells it apart. *)
From Coq Require Export String List ZArith.
From Verif Require Export Base MangleModel.
Export ListNotations.
Open Scope string_scope.
Open Scope list_scope.
Open Scope Z_scope.

(** An operation: [adt.string_const] with its text in UTF-8,
    [adt.bytes_const], or any other. *)
Inductive kind :=
| KString (text : list Z)
| KBytes (text : list Z)
| KOther (n : nat).

(** An operation with its regions; a region is a list of blocks and a block a
    list of operations. *)
Inductive tree (K : Type) := Node (k : K) (regions : list (list (list (tree K)))).
Arguments Node {K}.

(** [walk_ops_in_region] (const_to_native.rs:107-121, const_to_wasm.rs:113-127,
    the same code twice): the operations met, in order. *)
Fixpoint walk_op {K} (t : tree K) : list K :=
  match t with
  | Node k rs => k :: flat_map (flat_map (flat_map walk_op)) rs
  end.
Definition walk_region {K} (r : list (list (tree K))) : list K := flat_map (flat_map walk_op) r.

Fixpoint bytes_eqb (a b : list Z) : bool :=
  match a, b with
  | [], [] => true
  | x :: a', y :: b' => (x =? y) && bytes_eqb a' b'
  | _, _ => false
  end.

(** A [HashMap] keyed by contents: a list, first match. *)
Fixpoint find_content {V} (l : list (list Z * V)) (c : list Z) : option V :=
  match l with
  | [] => None
  | (c', v) :: l' => if bytes_eqb c' c then Some v else find_content l' c
  end.

(** ** The native target *)

(** const_to_native.rs:59-64, [ConstCollector]. *)
Record ncoll := { n_rodata : list (string * list Z); n_seen : list (list Z * string); n_next : nat; n_strings : bool }.

(** const_to_native.rs:67-74, [new]. *)
Definition n_new : ncoll := {| n_rodata := []; n_seen := []; n_next := 0; n_strings := false |}.

(** const_to_native.rs:80, the name of a piece of read-only data. *)
Definition rodata_name (i : nat) : string := ("__tribute_rodata_" ++ decimal i)%string.

(** const_to_native.rs:76-85, [intern]. *)
Definition n_intern (s : ncoll) (c : list Z) : ncoll :=
  match find_content (n_seen s) c with
  | Some _ => s
  | None =>
      let sym := rodata_name (n_next s) in
      {| n_rodata := n_rodata s ++ [(sym, c)]; n_seen := n_seen s ++ [(c, sym)]; n_next := S (n_next s);
         n_strings := n_strings s |}
  end.

(** const_to_native.rs:87-104, [visit_op]. *)
Definition n_visit (s : ncoll) (k : kind) : ncoll :=
  match k with
  | KString c =>
      let s' := n_intern s c in
      {| n_rodata := n_rodata s'; n_seen := n_seen s'; n_next := n_next s'; n_strings := true |}
  | KBytes c => n_intern s c
  | KOther _ => s
  end.

(** const_to_native.rs:124-144, [analyze_consts]. *)
Definition n_analyze (m : list (list (tree kind))) : ncoll := fold_left n_visit (walk_region m) n_new.

(** Instructions of the [clif] dialect the pass emits.  The value an
    instruction defines is named by the instruction's place in the list. *)
Inductive clty := I32 | I64 | Ptr.
Inductive instr :=
| SymbolAddr (sym : string)
| Iconst (t : clty) (v : Z)
| Call (f : string) (arg : nat)
| Store (v base : nat) (off : Z)
| Iadd (a b : nat).

(** tribute-ir/src/dialect/tribute_rt.rs, the header before every object. *)
Definition RC_HEADER_SIZE : Z := 8.
Definition REFCOUNT_OFFSET : Z := 0.
Definition RTTI_IDX_OFFSET : Z := 4.

(** const_to_native.rs:217-299, [emit_bytes_alloc]. *)
Definition emit_bytes_alloc (sym : string) (len : Z) : list instr :=
  [ SymbolAddr sym;                       (* 0: the data *)
    Iconst I64 len;                       (* 1: its length *)
    Iconst I64 (RC_HEADER_SIZE + 16);     (* 2: the size of the object *)
    Call "__tribute_alloc" 2;             (* 3: the object *)
    Iconst I32 1;                         (* 4 *)
    Store 4 3 REFCOUNT_OFFSET;            (* 5 *)
    Iconst I32 0;                         (* 6 *)
    Store 6 3 RTTI_IDX_OFFSET;            (* 7 *)
    Iconst I64 RC_HEADER_SIZE;            (* 8 *)
    Iadd 3 8;                             (* 9: the payload *)
    Store 0 9 0;                          (* 10 *)
    Store 1 9 8;                          (* 11 *)
    Iconst I64 0;                         (* 12 *)
    Iadd 9 12 ].                          (* 13: the result *)

(** What an operation becomes: left as it is, the code of a bytes value, or
    that code followed by [adt.variant_new] of the String type. *)
Inductive nkind :=
| NLeft (k : kind)
| NBytes (code : list instr)
| NString (code : list instr) (variant : string).

Definition zlen (c : list Z) : Z := Z.of_nat (List.length c).

(** const_to_native.rs:309-347 and 358-418, the two patterns.  [known] says
    whether the module carries the String type. *)
Definition n_rewrite (a : ncoll) (known : bool) (k : kind) : nkind :=
  match k with
  | KBytes c =>
      match find_content (n_seen a) c with
      | Some sym => NBytes (emit_bytes_alloc sym (zlen c))
      | None => NLeft k
      end
  | KString c =>
      if n_strings a then
        match find_content (n_seen a) c with
        | Some sym => if known then NString (emit_bytes_alloc sym (zlen c)) "Leaf" else NLeft k
        | None => NLeft k
        end
      else NLeft k
  | KOther _ => NLeft k
  end.

(** The pattern applicator visits every operation of the module once here:
    both patterns replace an operation by ones no pattern matches. *)
Fixpoint map_tree {A B} (f : A -> B) (t : tree A) : tree B :=
  match t with
  | Node k rs => Node (f k) (List.map (List.map (List.map (map_tree f))) rs)
  end.
Definition map_region {A B} (f : A -> B) (r : list (list (tree A))) : list (list (tree B)) :=
  List.map (List.map (map_tree f)) r.

(** const_to_native.rs:204-206, the operations illegal afterwards. *)
Definition n_illegal (k : nkind) : bool :=
  match k with NLeft (KString _) => true | NLeft (KBytes _) => true | _ => false end.

(** const_to_native.rs:166-211, [lower]; [None] is the conversion error. *)
Definition n_lower (m : list (list (tree kind))) (a : ncoll) (known : bool) : option (list (list (tree nkind))) :=
  match n_rodata a with
  | [] => Some (map_region NLeft m)
  | _ =>
      let m' := map_region (n_rewrite a known) m in
      if existsb n_illegal (walk_region m') then None else Some m'
  end.

(** translate.rs:382-446: the names the object file declares.  A function with
    an ABI, and [main], keeps its own name; other functions get a name that
    starts with [_trb_] (translate.rs:57-65), which no data has.  Declaring
    data under a name a function has, or twice, is an error of the linker
    library; [None]. *)
Record fdecl := { f_name : string; f_abi : bool }.
Definition raw_name (f : fdecl) : bool := f_abi f || String.eqb (f_name f) "main".
Fixpoint declare_data (taken : list string) (rodata : list (string * list Z)) : bool :=
  match rodata with
  | [] => true
  | (s, _) :: r => if existsb (String.eqb s) taken then false else declare_data (s :: taken) r
  end.
Definition declare (fs : list fdecl) (rodata : list (string * list Z)) : bool :=
  declare_data (List.map f_name (filter raw_name fs)) rodata.

(** src/pipeline.rs:1031-1036, 1222-1233 and translate.rs:363-446: the rewritten
    module and the read-only data, or no object file.  The passes in between,
    which do not look at the read-only data, are left out. *)
Definition native (m : list (list (tree kind))) (known : bool) (fs : list fdecl) :
    option (list (list (tree nkind)) * list (string * list Z)) :=
  let a := n_analyze m in
  match n_lower m a known with
  | None => None
  | Some m' => if declare fs (n_rodata a) then Some (m', n_rodata a) else None
  end.

(** Running the emitted instructions.  The memory is bytes by address. *)
Fixpoint store (mem : Z -> Z) (a : Z) (w : nat) (v : Z) : Z -> Z :=
  match w with
  | O => mem
  | S w' => store (fun b => if b =? a then v mod 256 else mem b) (a + 1) w' (v / 256)
  end.

Definition width (t : clty) : nat := match t with I32 => 4 | I64 => 8 | Ptr => 8 end.

Section Run.
  (** Where the loader put functions and data, and what the allocator of the
      runtime returns for a size. *)
  Variable fun_at : string -> Z.
  Variable data_at : string -> Z.
  Variable alloc : Z -> Z.
  Variable fs : list fdecl.
  Variable rodata : list (string * list Z).

  Definition is_fun (s : string) : bool := existsb (fun f => String.eqb (f_name f) s) fs.
  Definition is_data (s : string) : bool := existsb (fun p => String.eqb (fst p) s) rodata.

  (** function.rs:510-526: functions are looked up first. *)
  Definition symbol_addr (s : string) : option Z :=
    if is_fun s then Some (fun_at s) else if is_data s then Some (data_at s) else None.

  Definition val := option (clty * Z).

  (** One instruction; the list of values defined so far, newest last. *)
  Definition step (mem : Z -> Z) (env : list val) (i : instr) : option ((Z -> Z) * val) :=
    let get n := match nth_error env n with Some (Some v) => Some v | _ => None end in
    match i with
    | SymbolAddr s => match symbol_addr s with Some a => Some (mem, Some (Ptr, a)) | None => None end
    | Iconst t v => Some (mem, Some (t, v))
    | Call f n =>
        if String.eqb f "__tribute_alloc" then
          match get n with Some (_, v) => Some (mem, Some (Ptr, alloc v)) | None => None end
        else None
    | Store n b off =>
        match get n, get b with
        | Some (t, v), Some (_, a) => Some (store mem (a + off) (width t) v, None)
        | _, _ => None
        end
    | Iadd a b =>
        match get a, get b with
        | Some (t, x), Some (_, y) => Some (mem, Some (t, (x + y) mod 2 ^ 64))
        | _, _ => None
        end
    end.

  Fixpoint steps (mem : Z -> Z) (env : list val) (code : list instr) : option ((Z -> Z) * list val) :=
    match code with
    | [] => Some (mem, env)
    | i :: code' =>
        match step mem env i with
        | Some (mem', v) => steps mem' (env ++ [v]) code'
        | None => None
        end
    end.

  (** The value of the literal is that of the last instruction. *)
  Definition run_code (mem : Z -> Z) (code : list instr) : option ((Z -> Z) * Z) :=
    match steps mem [] code with
    | Some (mem', env) => match last env None with Some (_, p) => Some (mem', p) | None => None end
    | None => None
    end.
End Run.

(** ** WebAssembly *)

Definition u32 (n : Z) : Z := n mod 2 ^ 32.

(** const_to_wasm.rs:70-74, [ConstCollector]. *)
Record wcoll := { w_alloc : list (list Z * Z * Z); w_seen : list (list Z * nat); w_strings : bool }.

(** const_to_wasm.rs:77-83, [new]. *)
Definition w_new : wcoll := {| w_alloc := []; w_seen := []; w_strings := false |}.

(** const_to_wasm.rs:85-93, [collect_content]. *)
Definition w_collect (s : wcoll) (c : list Z) : wcoll :=
  match find_content (w_seen s) c with
  | Some _ => s
  | None =>
      {| w_alloc := w_alloc s ++ [(c, u32 (Z.of_nat (List.length (w_alloc s))), u32 (zlen c))];
         w_seen := w_seen s ++ [(c, List.length (w_alloc s))];
         w_strings := w_strings s |}
  end.

(** const_to_wasm.rs:95-110, [visit_op]. *)
Definition w_visit (s : wcoll) (k : kind) : wcoll :=
  match k with
  | KString c => w_collect {| w_alloc := w_alloc s; w_seen := w_seen s; w_strings := true |} c
  | KBytes c => w_collect s c
  | KOther _ => s
  end.

(** const_to_wasm.rs:130-147, [analyze_consts]. *)
Definition w_analyze (m : list (list (tree kind))) : wcoll := fold_left w_visit (walk_region m) w_new.

(** const_to_wasm.rs:205-210 and 278-283, [lookup_offset] and
    [lookup_bytes_info], the same code twice. *)
Fixpoint w_lookup (l : list (list Z * Z * Z)) (c : list Z) : option (Z * Z) :=
  match l with
  | [] => None
  | (c', idx, len) :: l' => if bytes_eqb c' c then Some (idx, len) else w_lookup l' c
  end.

(** What an operation becomes: left as it is, [wasm.bytes_from_data] with data
    index, offset and length, or that and [adt.variant_new]. *)
Inductive wkind :=
| WLeft (k : kind)
| WBytes (idx off len : Z)
| WString (idx off len : Z) (variant : string).

(** const_to_wasm.rs:227-267 and 296-324, the two patterns. *)
Definition w_rewrite (a : wcoll) (known : bool) (k : kind) : wkind :=
  match k with
  | KString c =>
      match w_lookup (w_alloc a) c with
      | Some (idx, len) => if known then WString idx 0 len "Leaf" else WLeft k
      | None => WLeft k
      end
  | KBytes c =>
      match w_lookup (w_alloc a) c with
      | Some (idx, len) => WBytes idx 0 len
      | None => WLeft k
      end
  | KOther _ => WLeft k
  end.

(** const_to_wasm.rs:153-186, [validate_for_wasm]; that the type of the result
    has become [wasm.anyref] by then is not modelled. *)
Definition is_string (k : kind) : bool := match k with KString _ => true | _ => false end.
Definition w_validate (m : list (list (tree kind))) (known : bool) : bool :=
  known || negb (existsb is_string (walk_region m)).

(** misc_handlers.rs:25-56: the instructions emitted for
    [wasm.bytes_from_data]; [None] is the error for numbers above the
    largest [i32]. *)
Inductive winstr := WI32Const (n : Z) | WArrayNewData (data : Z) | WStructNew.
Definition emit_bytes (idx off len : Z) : option (list winstr) :=
  if (off <? 2 ^ 31) && (len <? 2 ^ 31) then
    Some [WI32Const off; WI32Const len; WArrayNewData idx; WI32Const 0; WI32Const len; WStructNew]
  else None.

(** The emitted code of an operation. *)
Inductive wcode := CLeft (k : kind) | CBytes (code : list winstr) | CString (code : list winstr) (variant : string).
Definition w_emit (k : wkind) : option wcode :=
  match k with
  | WLeft k => Some (CLeft k)
  | WBytes i o l => match emit_bytes i o l with Some c => Some (CBytes c) | None => None end
  | WString i o l v => match emit_bytes i o l with Some c => Some (CString c v) | None => None end
  end.

Fixpoint all_some {A} (l : list (option A)) : option (list A) :=
  match l with
  | [] => Some []
  | Some x :: l' => match all_some l' with Some r => Some (x :: r) | None => None end
  | None :: _ => None
  end.

(** wasm/lower.rs:92-190, 565-578: the code of the operations in order and the
    data segments (all passive, one for each allocation); or an error. *)
Definition wasm (m : list (list (tree kind))) (known : bool) : option (list wcode * list (list Z)) :=
  let a := w_analyze m in
  if w_validate m known then
    match all_some (List.map w_emit (walk_region (map_region (w_rewrite a known) m))) with
    | Some cs => Some (cs, List.map (fun p => fst (fst p)) (w_alloc a))
    | None => None
    end
  else None.

(** Running the emitted instructions (WebAssembly GC proposal): [array.new_data]
    traps unless the bytes lie in the segment; the struct of a bytes value has
    the array, the offset and the length. *)
Inductive wval := VI32 (n : Z) | VArray (bytes : list Z) | VBytes (bytes : list Z) (off len : Z).
Definition wstep (segs : list (list Z)) (i : winstr) (st : list wval) : option (list wval) :=
  match i, st with
  | WI32Const n, _ => Some (VI32 n :: st)
  | WArrayNewData d, VI32 len :: VI32 off :: st' =>
      match nth_error segs (Z.to_nat d) with
      | Some seg =>
          if off + len <=? zlen seg then
            Some (VArray (firstn (Z.to_nat len) (skipn (Z.to_nat off) seg)) :: st')
          else None
      | None => None
      end
  | WStructNew, VI32 len :: VI32 off :: VArray b :: st' => Some (VBytes b off len :: st')
  | _, _ => None
  end.
Fixpoint wrun (segs : list (list Z)) (code : list winstr) (st : list wval) : option (list wval) :=
  match code with
  | [] => Some st
  | i :: code' => match wstep segs i st with Some st' => wrun segs code' st' | None => None end
  end.
