(** Prompt tags. Models crates/tribute-runtime/src/tls.rs lines 22-40 and
    crates/tribute-runtime/src/lib.rs lines 123-125. *)
From Verif Require Import Base.
Open Scope Z_scope.

(** i32::wrapping_add. *)
Definition i32_wrapping_add (a b : Z) : Z := (a + b + 2 ^ 31) mod 2 ^ 32 - 2 ^ 31.

(** tls.rs 35-39: ThreadState::next_tag; returns (tag, new counter). *)
Definition next_tag (counter : Z) : Z * Z := (counter, i32_wrapping_add counter 1).

(** Per-thread states, lazily created with counter 0 (tls.rs 27-33, 121-134). *)
Definition threads := nat -> Z.
Definition threads_init : threads := fun _ => 0.

(** One call of __tribute_next_tag on thread [t] (lib.rs 123-125). *)
Definition tag_step (s : threads) (t : nat) : Z * threads :=
  let '(tag, c) := next_tag (s t) in
  (tag, fun u => if Nat.eqb u t then c else s u).

(** A history of calls, given by the calling threads; the tags returned. *)
Fixpoint tag_run (s : threads) (calls : list nat) : list Z :=
  match calls with
  | [] => []
  | t :: calls' => let '(tag, s') := tag_step s t in tag :: tag_run s' calls'
  end.
