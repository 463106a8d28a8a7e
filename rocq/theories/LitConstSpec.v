(** What it means for literals to keep their text.  Written without the passes
    of [LitConstModel]: only its trees, its instructions and the machines that
    run them are used. *)
From Verif Require Export LitConstModel.
Open Scope Z_scope.

(** The operations of a module, outer ones before inner ones. *)
Fixpoint op_ops {K} (t : tree K) : list K :=
  match t with
  | Node k regions => [k] ++ flat_map (fun blocks => flat_map (fun ops => flat_map op_ops ops) blocks) regions
  end.
Definition ops {K} (m : list (list (tree K))) : list K := flat_map (fun b => flat_map op_ops b) m.

(** The nesting of a module without its operations. *)
Fixpoint op_shape {K} (t : tree K) : tree unit :=
  match t with
  | Node _ regions => Node tt (List.map (fun blocks => List.map (fun ops => List.map op_shape ops) blocks) regions)
  end.
Definition shape {K} (m : list (list (tree K))) : list (list (tree unit)) := List.map (fun b => List.map op_shape b) m.

(** [c] is the text of a literal of the module. *)
Definition literal (m : list (list (tree kind))) (c : list Z) : Prop := In (KString c) (ops m) \/ In (KBytes c) (ops m).
Definition no_strings (m : list (list (tree kind))) : Prop := forall c, ~ In (KString c) (ops m).

Definition size (c : list Z) : Z := Z.of_nat (List.length c).

(** Names the compiler keeps for read-only data. *)
Definition reserved (s : string) : Prop := exists rest, s = ("__tribute_rodata_" ++ rest)%string.

(** ** Native memory *)

(** The bytes [c] are at address [a]. *)
Definition bytes_at (mem : Z -> Z) (a : Z) (c : list Z) : Prop :=
  forall i b, nth_error c i = Some b -> mem (a + Z.of_nat i) = b.

(** The little-endian number of [w] bytes at [a]. *)
Fixpoint word (mem : Z -> Z) (a : Z) (w : nat) : Z :=
  match w with O => 0 | S w' => mem a + 256 * word mem (a + 1) w' end.

(** The bytes value at [p] holds [c]: the address of the data, then its
    length; before them the header with one reference and no release code. *)
Definition holds (mem : Z -> Z) (p : Z) (c : list Z) : Prop :=
  bytes_at mem (word mem p 8) c /\ word mem (p + 8) 8 = size c /\ word mem (p - 8) 4 = 1 /\ word mem (p - 4) 4 = 0.

(** What the loader and the allocator owe the program: the read-only data is in
    memory, and a new block of 24 bytes (the header, the address and the length)
    overlaps none of it. *)
Record loader (mem : Z -> Z) (data_at : string -> Z) (alloc : Z -> Z) (rodata : list (string * list Z)) : Prop := {
  ld_data : forall s c, In (s, c) rodata -> bytes_at mem (data_at s) c /\ 0 <= data_at s < 2 ^ 64;
  ld_alloc : 0 <= alloc 24 /\ alloc 24 + 24 < 2 ^ 64;
  ld_apart : forall s c, In (s, c) rodata -> alloc 24 + 24 <= data_at s \/ data_at s + size c <= alloc 24
}.

(** The code makes a new bytes value that holds [c], and changes no other
    memory: in particular the read-only data stays. *)
Definition makes (fs : list fdecl) (rodata : list (string * list Z)) (code : list instr) (c : list Z) : Prop :=
  forall mem fun_at data_at alloc,
    loader mem data_at alloc rodata ->
    exists mem' p,
      run_code fun_at data_at alloc fs rodata mem code = Some (mem', p) /\
      holds mem' p c /\
      (forall b, b < p - 8 \/ p + 16 <= b -> mem' b = mem b) /\
      loader mem' data_at alloc rodata.

Inductive native_means (fs : list fdecl) (rodata : list (string * list Z)) : kind -> nkind -> Prop :=
| NmOther n : native_means fs rodata (KOther n) (NLeft (KOther n))
| NmBytes c code : makes fs rodata code c -> native_means fs rodata (KBytes c) (NBytes code)
| NmString c code : makes fs rodata code c -> native_means fs rodata (KString c) (NString code "Leaf").

(** ** WebAssembly *)

(** The bytes of a bytes value. *)
Definition text_of (v : wval) : option (list Z) :=
  match v with
  | VBytes b off len => Some (firstn (Z.to_nat len) (skipn (Z.to_nat off) b))
  | _ => None
  end.

Definition wmakes (segs : list (list Z)) (code : list winstr) (c : list Z) : Prop :=
  forall st, exists v b off, wrun segs code st = Some (v :: st) /\ v = VBytes b off (size c) /\ 0 <= off /\ off + size c <= size b /\ text_of v = Some c.

Inductive wasm_means (segs : list (list Z)) : kind -> wcode -> Prop :=
| WmOther n : wasm_means segs (KOther n) (CLeft (KOther n))
| WmBytes c code : wmakes segs code c -> wasm_means segs (KBytes c) (CBytes code)
| WmString c code : wmakes segs code c -> wasm_means segs (KString c) (CString code "Leaf").

(** The texts stored are those of the literals, each once. *)
Definition stored_once (m : list (list (tree kind))) (texts : list (list Z)) : Prop :=
  NoDup texts /\ forall c, In c texts <-> literal m c.
