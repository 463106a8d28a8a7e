(** How an operation finds its handler and its arm at run time: by hashes of names.
    Models crates/tribute-ir/src/dialect/ability.rs:139-255, the references to abilities that
    crates/tribute-front/src/ast_to_ir/{context.rs:901-913, lower/expr.rs:1320, lower/handle.rs:50,508-540, lower/logical.rs:2116} make,
    and the dispatch chains of lower/handle.rs:812-1075.  The evidence is that of C01.
    Simplified: FxHasher is not part of the repository, it is a function [finish] from what is fed to it to a 64-bit number;
    symbols feed their text (trunk-ir/src/symbol.rs:30-36); attributes that are not symbols are numbers. *)
From Coq Require Export String List.
From Verif Require Export Base EvidenceModel.
Open Scope string_scope.
Open Scope list_scope.
Import ListNotations.
Open Scope Z_scope.

Inductive irattr := ASymbol (s : string) | AOther (n : Z).
(** types.rs: [TypeData]. *)
Inductive irty := IrTy (dialect name : string) (params : list irty) (attrs : list (string * irattr)).
Definition ty_params (t : irty) : list irty := let '(IrTy _ _ ps _) := t in ps.
Definition ty_attrs (t : irty) : list (string * irattr) := let '(IrTy _ _ _ a) := t in a.

(** What is fed to a hasher: a symbol, a length ([usize]), a [u32], the tag of an option. *)
Inductive hitem := HSymbol (s : string) | HLength (n : nat) | HWord (z : Z) | HSome | HNone.

Section Hash.
  Variable finish : list hitem -> Z.
  (** [hasher.finish() as u32]. *)
  Definition low32 (z : Z) : Z := z mod 4294967296.

  (** [hash_type], 240-255. *)
  Fixpoint hash_type (t : irty) : Z :=
    let '(IrTy d n ps _) := t in
    low32 (finish (HSymbol d :: HSymbol n :: HLength (List.length ps) :: List.map (fun p => HWord (hash_type p)) ps)).

  (** [ability_name], 223-226: the symbol attribute "name". *)
  Definition ability_name (t : irty) : option string :=
    match find (fun a => String.eqb (fst a) "name") (ty_attrs t) with
    | Some (_, ASymbol s) => Some s
    | _ => None
    end.
  (** [compute_ability_id], 196-221; [None] is the panic. *)
  Definition compute_ability_id (t : irty) : option Z :=
    match ability_name t with
    | Some n => Some (low32 (finish (HSymbol n :: HLength (List.length (ty_params t)) :: List.map (fun p => HWord (hash_type p)) (ty_params t))))
    | None => None
    end.
  (** [compute_op_idx], 146-154. *)
  Definition feed (o : option string) : list hitem := match o with Some s => [HSome; HSymbol s] | None => [HNone] end.
  Definition compute_op_idx (ability op : option string) : Z := finish (feed ability ++ feed op) mod 2147483647.
  (** The constant is an i32: [ability_id_const], 229-238, and [ability_id_as_wasm_i32]. *)
  Definition as_i32 (z : Z) : Z := (z + 2147483648) mod 4294967296 - 2147483648.

  (** context.rs: [ability_ref_type]. *)
  Definition ability_ref_type (name : string) (params : list irty) : irty := IrTy "core" "ability_ref" params [("name", ASymbol name)].
  (** An ability at type arguments, as in [State(Int)]. *)
  Record instance := mkInstance { iname : string; iargs : list irty }.
  (** expr.rs:1320 and handle.rs:50 (performing), handle.rs:538 (handling). *)
  Definition perform_ref (i : instance) : irty := ability_ref_type (iname i) [].
  Definition handle_ref (i : instance) : irty := ability_ref_type (iname i) [].
  (** logical.rs:2116: the lowering that is to replace it. *)
  Definition logical_ref (i : instance) : irty := ability_ref_type (iname i) (iargs i).

  (** Handlers, newest first, each with its prompt tag; the evidence they make (resolve_evidence.rs, C01). *)
  Definition id_of (t : irty) : Z := match compute_ability_id t with Some z => as_i32 z | None => 0 end.
  Fixpoint evidence_of (hs : list (instance * Z)) : evidence :=
    match hs with
    | [] => evidence_new
    | (i, tag) :: hs => evidence_extend (evidence_of hs) (Marker (id_of (handle_ref i)) tag 0 0)
    end.
  (** The prompt tag of the handler that answers. *)
  Definition answering (hs : list (instance * Z)) (i : instance) : option Z :=
    match evidence_lookup (evidence_of hs) (id_of (perform_ref i)) with Some m => Some (prompt_tag m) | None => None end.

  (** [build_tr_dispatch_chain], handle.rs:812-920, and [build_handler_dispatch_chain], 970-1075: the position of the arm that runs.
      An arm is its ability and operation; the last arm is taken without a test. *)
  Fixpoint dispatch (arms : list (string * string)) (idx : Z) : option nat :=
    match arms with
    | [] => None
    | [_] => Some 0%nat
    | (a, o) :: arms => if idx =? compute_op_idx (Some a) (Some o) then Some 0%nat else option_map S (dispatch arms idx)
    end.
  (** Performing passes the index of the operation (lower_ability_perform.rs, native/evidence.rs:347). *)
  Definition arm_of (arms : list (string * string)) (ability op : string) : option nat :=
    dispatch arms (compute_op_idx (Some ability) (Some op)).
End Hash.
