From Verif Require Import Base InternModel.

Definition decides_eq {K} (eqb : K -> K -> bool) : Prop := forall a b, eqb a b = true <-> a = b.

(** The last registration of a name in a history, and the names in order of first registration. *)
Definition last_registration (regs : list (nat * nat)) (n : nat) : option nat :=
  fold_left (fun acc r => if Nat.eqb (fst r) n then Some (snd r) else acc) regs None.
Fixpoint first_occurrences (seen : list nat) (names : list nat) : list nat :=
  match names with
  | [] => []
  | n :: r => if existsb (Nat.eqb n) seen then first_occurrences seen r
              else n :: first_occurrences (n :: seen) r
  end.

(** No two names share a type at any time: every name registered keeps a type that
    no other name ever gets. *)
Definition one_name_per_type (regs : list (nat * nat)) : Prop :=
  forall n m t, In (n, t) regs -> In (m, t) regs -> n = m.

(** Everything any thread has been handed so far. *)
Definition handed_out {K} (w : world K) (k : K) (h : nat) : Prop :=
  exists t, In t (threads w) /\ In (k, h) (results t).
