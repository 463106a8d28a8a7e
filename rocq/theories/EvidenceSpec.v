(** What evidence should be: the list of handlers installed so far, newest
    first; looking up an ability finds the newest handler for it. *)
From Verif Require Import Base EvidenceModel.
Open Scope Z_scope.

(** The abstract value behind a pointer: handlers in order, newest first. *)
Definition handlers := list marker.

Definition spec_lookup (hs : handlers) (id : Z) : option marker :=
  find (fun m => ability_id m =? id) hs.

(** Abstract meaning of a call history: pointer [i] denotes the i-th list. *)
Fixpoint spec_run (heap : list handlers) (cs : list ffi_call) : option (list handlers) :=
  match cs with
  | [] => Some heap
  | FfiEmpty :: cs' => spec_run (heap ++ [[]]) cs'
  | FfiExtend src m :: cs' =>
      match nth_error heap src with
      | None => None
      | Some hs => spec_run (heap ++ [m :: hs]) cs'
      end
  end.

(** Strictly increasing ability ids: sorted without duplicates. *)
Definition strictly_sorted (ev : evidence) : Prop :=
  forall i j a b, nth_error ev i = Some a -> nth_error ev j = Some b ->
                  (i < j)%nat -> ability_id a < ability_id b.
