From Verif Require Import Base.
(** Number of calls by thread [t] in a stretch of history. *)
Definition calls_by (t : nat) (calls : list nat) : Z :=
  Z.of_nat (length (filter (Nat.eqb t) calls)).
(** The calls numbered i, i+1, ..., j-1. *)
Definition between {A} (i j : nat) (l : list A) : list A := firstn (j - i) (skipn i l).
