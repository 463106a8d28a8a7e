(** What evidence on WebAssembly should be: as for C01, the handlers installed so far, of which the newest for an ability is found. *)
From Verif Require Export WasmEvModel.
From Verif Require Export EvidenceSpec.
Open Scope Z_scope.

(** Array [p] holds the markers [ev]. *)
Definition stored (h : list (list value)) (p : nat) (ev : list marker) : Prop := nth_error h p = Some (List.map Mk ev).

(** [installed hs h p]: evidence [p] is the result of installing the handlers [hs], newest first, by calls of the extend function,
    whose loop may start more often than there are handlers. *)
Inductive installed : handlers -> list (list value) -> nat -> Prop :=
| installed_none h p : stored h p [] -> installed [] h p
| installed_one hs h p m rounds q h' : installed hs h p -> (List.length hs < rounds)%nat ->
    wasm_extend rounds h p m = Returned (Arr q) h' -> installed (m :: hs) h' q.

(** Ability ids are 32-bit numbers, and there are fewer handlers than that. *)
Definition fits (hs : handlers) : Prop := Z.of_nat (List.length hs) < 2147483647.
