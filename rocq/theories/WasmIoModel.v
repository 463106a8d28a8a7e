(** Printing on WebAssembly.
    Models crates/tribute-passes/src/wasm/io.rs (the generated function [__tribute_wasi_write]) and the parts of
    crates/trunk-ir-wasm-backend/src/emit.rs and emit/handlers/control_flow_handlers.rs that its loops rely on.
    Simplified: emitting the operands, the instruction and the store of its result is one step on the values (the stack code is
    the subject of C72, and every value has a local of its own there); 32-bit numbers are their unsigned values; types, alignment
    hints and the references to the byte string and to its array are left out, for there is one of each. *)
From Verif Require Export Base IoModel.
Open Scope Z_scope.

Inductive iobin := IAdd | ISub | IDivU | IGeU | IGtU | ILtU | IEq.
(** Operations of the wasm dialect.  [r] is the name of the result. *)
Inductive iop :=
| IConst (r : nat) (z : Z)
| IBin (r : nat) (b : iobin) (x y : nat)
| IStructGet (r : nat) (f : nat)
| IArrayGetU (r i : nat)
| IStore8 (addr x : nat) (off : Z)
| IStore (addr x : nat) (off : Z)
| ILoad (r addr : nat) (off : Z)
| IMemorySize (r : nat)
| IMemoryGrow (r n : nat)
| IFdWrite (r fd iovs n nwritten : nat)
| IIf (c : nat) (th el : list iop)
| ILoop (init arg : nat) (body : list iop)
| IBlock (body : list iop)
| IYield (x : nat)
| IBr (d : nat)
| IBrIf (c d : nat)
| IReturn
| IUnreachable
| IMove (x local : nat).             (* only in emitted code: local.get x; local.set local *)

(** [IoAnalysis::analyze], 37-67, for a module that prints.  Lines 48-55 for other modules are left out: nothing is generated. *)
Definition iovec_offset (base : Z) : Z := (base + 3) / 4 * 4.
Definition nwritten_offset (base : Z) : Z := iovec_offset base + 8.
Definition scratch_offset (base : Z) : Z := nwritten_offset base + 4.

(** [trap_if], 443-460, and [trap_if_less], 429-441. *)
Definition trap_if (c : nat) : list iop := [IIf c [IUnreachable] []].
Definition trap_if_less (r lhs rhs : nat) : list iop := IBin r ILtU lhs rhs :: trap_if r.
(** [loop_in_block], 402-427. *)
Definition loop_in_block (init arg : nat) (body : list iop) : iop := IBlock [ILoop init arg body].

(** [ensure_memory], 213-257. *)
Definition ensure_memory (fin : nat) : list iop :=
  [IConst 10 1; IBin 11 ISub fin 10; IConst 12 65536; IBin 13 IDivU 11 12; IBin 14 IAdd 13 10; IMemorySize 15; IBin 16 IGtU 14 15;
   IIf 16 ([IBin 17 ISub 14 15; IMemoryGrow 18 17; IConst 19 (-1); IBin 20 IEq 18 19] ++ trap_if 20) []].

(** [copy_loop], 270-312. *)
Definition copy_body (offset len scratch : nat) : list iop :=
  [IBin 23 IGeU 22 len; IBrIf 23 1; IBin 24 IAdd offset 22; IArrayGetU 25 24; IBin 26 IAdd scratch 22; IStore8 26 25 0;
   IConst 27 1; IBin 28 IAdd 22 27; IYield 28; IBr 0].
Definition copy_loop (init offset len scratch : nat) : iop := loop_in_block init 22 (copy_body offset len scratch).

(** [write_loop], 314-400. *)
Definition write_body (base : Z) (total : nat) : list iop :=
  [IBin 32 IGeU 31 total; IBrIf 32 1;
   IConst 33 (scratch_offset base); IBin 34 IAdd 33 31; IBin 35 ISub total 31; IConst 36 (iovec_offset base);
   IStore 36 34 0; IStore 36 35 4;
   IConst 37 1; IConst 38 1; IConst 39 (nwritten_offset base); IFdWrite 40 37 36 38 39;
   IConst 41 0; IBin 42 IEq 40 41;
   IIf 42
     [ILoad 43 39 0; IBin 44 IEq 43 41; IBrIf 44 2; IBin 45 IAdd 31 43; IYield 45; IBr 1]
     [IConst 46 27; IBin 47 IEq 40 46; IBrIf 47 1; IBr 2]].
Definition write_loop (base : Z) (init total : nat) : iop := loop_in_block init 31 (write_body base total).

(** [build_write_helper], 123-211; the parameters are the byte string and the value 1. *)
Definition write_helper (base : Z) : list iop :=
  [IStructGet 2 0; IStructGet 3 1; IStructGet 4 2; IBin 5 IAdd 4 1] ++ trap_if_less 6 5 4 ++
  [IConst 7 (scratch_offset base); IBin 8 IAdd 7 5] ++ trap_if_less 9 8 5 ++
  ensure_memory 8 ++
  [IConst 21 0; copy_loop 21 3 4 7; IBin 29 IAdd 7 4; IIf 1 [IConst 30 10; IStore8 29 30 0] []; write_loop base 21 5; IReturn].

(** ** emit.rs: [emit_region_ops_nested], 853-899.  What a branch can leave: a loop with the local of its argument, or something
    else; innermost first.  A yield before a branch to a loop sets the argument of the loop; before another branch it leaves its value
    on the stack, which no operation here takes; elsewhere it is nothing. *)
Definition emit_list (f : iop -> option iop) (nesting : list (option nat)) :=
  fix go (l : list iop) : option (list iop) :=
    match l with
    | [] => Some []
    | IYield x :: rest =>
        match rest with
        | IBr d :: _ =>
            match nth_error nesting d with
            | Some (Some local) => match go rest with Some r => Some (IMove x local :: r) | None => None end
            | _ => None
            end
        | _ => go rest
        end
    | o :: rest =>
        match f o, go rest with
        | Some o', Some r => Some (o' :: r)
        | _, _ => None
        end
    end.
(** [handle_if], [handle_block] and [handle_loop] of control_flow_handlers.rs. *)
Fixpoint emit_op (nesting : list (option nat)) (o : iop) : option iop :=
  match o with
  | IIf c th el =>
      match emit_list (emit_op (None :: nesting)) (None :: nesting) th, emit_list (emit_op (None :: nesting)) (None :: nesting) el with
      | Some th', Some el' => Some (IIf c th' el')
      | _, _ => None
      end
  | ILoop init arg body =>
      match emit_list (emit_op (Some arg :: nesting)) (Some arg :: nesting) body with Some b => Some (ILoop init arg b) | None => None end
  | IBlock body => match emit_list (emit_op (None :: nesting)) (None :: nesting) body with Some b => Some (IBlock b) | None => None end
  | o => Some o
  end.
Definition emit_helper (base : Z) : option (list iop) := emit_list (emit_op []) [] (write_helper base).

(** ** WebAssembly and the host. *)
Definition page : Z := 65536.
Definition word : Z := 4294967296.
Record byte_string := mkBytes { barray : list byte; boffset : Z; blength : Z }.
Record iostate := mkIo {
  env : nat -> Z; mem : Z -> Z; pages : Z;
  answers : list wevent;               (* what the host will answer to [fd_write] *)
  output : list byte                   (* what it has taken *)
}.
Definition upd (e : nat -> Z) (r : nat) (v : Z) : nat -> Z := fun j => if Nat.eqb j r then v else e j.
Definition with_env (s : iostate) (e : nat -> Z) : iostate := mkIo e (mem s) (pages s) (answers s) (output s).
Definition with_mem (s : iostate) (m : Z -> Z) : iostate := mkIo (env s) m (pages s) (answers s) (output s).

Definition store8 (m : Z -> Z) (a v : Z) : Z -> Z := fun b => if b =? a then v mod 256 else m b.
Definition store32 (m : Z -> Z) (a v : Z) : Z -> Z :=
  store8 (store8 (store8 (store8 m a v) (a + 1) (v / 256)) (a + 2) (v / 65536)) (a + 3) (v / 16777216).
Definition load32 (m : Z -> Z) (a : Z) : Z := m a + 256 * m (a + 1) + 65536 * m (a + 2) + 16777216 * m (a + 3).
Definition in_memory (s : iostate) (a n : Z) : bool := (0 <=? a) && (a + n <=? pages s * page).
Definition bytes_at (m : Z -> Z) (a : Z) (n : nat) : list byte := map (fun i => m (a + Z.of_nat i)) (seq 0 n).

Inductive iooutcome := INext (s : iostate) | IJump (d : nat) (s : iostate) | IReturned (s : iostate) | IWaiting (s : iostate)
  | ITrapped (s : iostate) | IRounds | IStuck.

Definition u32 (z : Z) : Z := z mod word.
Definition b2z (b : bool) : Z := if b then 1 else 0.
Definition iobin_value (b : iobin) (x y : Z) : option Z :=
  match b with
  | IAdd => Some (u32 (x + y))
  | ISub => Some (u32 (x - y))
  | IDivU => if y =? 0 then None else Some (x / y)
  | IGeU => Some (b2z (y <=? x))
  | IGtU => Some (b2z (y <? x))
  | ILtU => Some (b2z (x <? y))
  | IEq => Some (b2z (x =? y))
  end.

(** The host function [fd_write] of WASI preview 1 with one buffer; the count is reported through memory, the error number is
    the result.  29 is "bad address", 8 "bad file descriptor". *)
Definition fd_write (s : iostate) (fd iovs nwritten : Z) : option (Z * iostate) :=
  if negb (fd =? 1) then Some (8, s)
  else if negb (in_memory s iovs 8 && in_memory s nwritten 4) then Some (29, s)
  else
    let ptr := load32 (mem s) iovs in
    let len := load32 (mem s) (iovs + 4) in
    if negb (in_memory s ptr len) then Some (29, s)
    else
      match answers s with
      | [] => None
      | e :: later =>
          let buffer := bytes_at (mem s) ptr (Z.to_nat len) in
          match write_once e buffer with
          | WOk n => Some (0, mkIo (env s) (store32 (mem s) nwritten (u32 (Z.of_nat n))) (pages s) later (output s ++ firstn n buffer))
          | WErrIntr => Some (27, mkIo (env s) (mem s) (pages s) later (output s))
          | WErr c => Some (c, mkIo (env s) (mem s) (pages s) later (output s))
          end
      end.

Section Run.
  Variable bytes : byte_string.
  Variable grows : Z -> Z -> bool.             (* whether the engine grows a memory of so many pages by so many *)
  Variable rounds : nat.                       (* how often a loop may start *)
  Definition put (s : iostate) (r : nat) (v : Z) : iooutcome := INext (with_env s (upd (env s) r v)).
  Definition run_list (f : iop -> iostate -> iooutcome) :=
    fix go (l : list iop) (s : iostate) : iooutcome :=
      match l with
      | [] => INext s
      | o :: l => match f o s with INext s' => go l s' | r => r end
      end.
  (** The end of a block, an [if] and a loop. *)
  Definition leave (r : iooutcome) : iooutcome :=
    match r with IJump 0 s => INext s | IJump (S d) s => IJump d s | r => r end.
  Definition iterate (f : iostate -> iooutcome) :=
    fix go (k : nat) (s : iostate) : iooutcome :=
      match k with
      | O => IRounds
      | S k => match f s with IJump 0 s' => go k s' | IJump (S d) s' => IJump d s' | r => r end
      end.
  Fixpoint run (o : iop) (s : iostate) : iooutcome :=
    match o with
    | IConst r z => put s r (u32 z)
    | IBin r b x y => match iobin_value b (env s x) (env s y) with Some z => put s r z | None => ITrapped s end
    | IStructGet r f =>
        match f with
        | 0%nat => put s r 0
        | 1%nat => put s r (boffset bytes)
        | 2%nat => put s r (blength bytes)
        | _ => IStuck
        end
    | IArrayGetU r i => match nth_error (barray bytes) (Z.to_nat (env s i)) with Some b => put s r b | None => ITrapped s end
    | IStore8 a x off =>
        if in_memory s (env s a + off) 1 then INext (with_mem s (store8 (mem s) (env s a + off) (env s x))) else ITrapped s
    | IStore a x off =>
        if in_memory s (env s a + off) 4 then INext (with_mem s (store32 (mem s) (env s a + off) (env s x))) else ITrapped s
    | ILoad r a off => if in_memory s (env s a + off) 4 then put s r (load32 (mem s) (env s a + off)) else ITrapped s
    | IMemorySize r => put s r (pages s)
    | IMemoryGrow r n =>
        if grows (pages s) (env s n) && (pages s + env s n <=? 65536) then
          INext (mkIo (upd (env s) r (pages s)) (fun a => if a <? pages s * page then mem s a else 0) (pages s + env s n) (answers s) (output s))
        else put s r (u32 (-1))
    | IFdWrite r fd iovs n nwritten =>
        if env s n =? 1 then
          match fd_write s (env s fd) (env s iovs) (env s nwritten) with
          | Some (e, s') => put s' r e
          | None => IWaiting s
          end
        else IStuck
    | IIf c th el => leave (run_list run (if env s c =? 0 then el else th) s)
    | ILoop init arg body => iterate (run_list run body) rounds (with_env s (upd (env s) arg (env s init)))
    | IBlock body => leave (run_list run body s)
    | IYield _ => IStuck
    | IBr d => IJump d s
    | IBrIf c d => if env s c =? 0 then INext s else IJump d s
    | IReturn => IReturned s
    | IUnreachable => ITrapped s
    | IMove x local => put s local (env s x)
    end.
End Run.

(** A call of the generated function: the value 1 is the newline flag, no other value is set yet. *)
Definition start (newline : Z) (m : Z -> Z) (pgs : Z) (sched : list wevent) (out : list byte) : iostate :=
  mkIo (fun j => if Nat.eqb j 1 then newline else 0) m pgs sched out.
Definition call_helper (base : Z) (bytes : byte_string) (grows : Z -> Z -> bool) (rounds : nat) (newline : Z) (m : Z -> Z) (pgs : Z)
    (sched : list wevent) (out : list byte) : iooutcome :=
  match emit_helper base with
  | Some body => run_list (run bytes grows rounds) body (start newline m pgs sched out)
  | None => IStuck
  end.
