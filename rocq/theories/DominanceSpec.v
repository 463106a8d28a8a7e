(** Paths and dominance, stated without reference to the algorithm. *)
From Verif Require Import Base.

(** [path blocks succ a l b]: [l] is the list of blocks visited by a walk along
    edges of the region from [a] to [b], both included. *)
Inductive path (blocks : list nat) (succ : nat -> list nat) (a : nat) : list nat -> nat -> Prop :=
| path_here : In a blocks -> path blocks succ a [a] a
| path_step : forall l b c, path blocks succ a l b -> In c (succ b) -> In c blocks -> path blocks succ a (l ++ [c]) c.

(** [d] dominates [b]: [b] can be reached from the entry and every walk from the entry to [b] visits [d]. *)
Definition dominates_spec (blocks : list nat) (succ : nat -> list nat) (entry d b : nat) : Prop :=
  (exists l, path blocks succ entry l b) /\ (forall l, path blocks succ entry l b -> In d l).
