(** Effect rows as sets. *)
From Coq Require Import Relations.
From Verif Require Export TyModel.

Definition member (e : effect) (r : row) : Prop := In e (fst r).
Definition distinct (r : row) : Prop := NoDup (fst r).
Definition closed (r : row) : Prop := snd r = None.

(** Positions [i < j] of the first repetition: no effect before [j] repeats an earlier one,
    and [i] is where the effect at [j] occurs first. *)
Definition first_repetition (es : list effect) (i j : nat) : Prop :=
  i < j /\ (exists e, nth_error es i = Some e /\ nth_error es j = Some e) /\
  NoDup (firstn j es).

(** One step along the tails of a row substitution, and what a row stands for: every effect
    listed by a row on the chain. *)
Inductive chain (s : nat -> option row) : row -> row -> Prop :=
| chain_here r : chain s r r
| chain_next r v r' r'' : snd r = Some v -> s v = Some r' -> chain s r' r'' -> chain s r r''.

(** The row at which following tails ends: a closed one, or one whose tail is unbound. *)
Definition chain_end (s : nat -> option row) (r r' : row) : Prop :=
  chain s r r' /\ (snd r' = None \/ exists v, snd r' = Some v /\ s v = None).

Definition stands_for (s : nat -> option row) (r : row) (e : effect) : Prop :=
  exists r', chain s r r' /\ member e r'.
