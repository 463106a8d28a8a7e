(** The order in which diagnostics are shown.
    Models [compare_diagnostics] and the sort of [compile_with_diagnostics],
    src/pipeline.rs:1555-1595, and of [report_diagnostics], src/diagnostics.rs:74-98.

    Simplifications: messages, labels and notes are lists of bytes; the standard
    library's stable sort is an insertion sort, which gives the same list. *)
From Coq Require Export List Arith Lia Bool Permutation Sorting.Sorted.
Export ListNotations.

(** crates/tribute-core/src/diagnostic.rs:20-28 *)
Inductive phase := Parsing | AstGeneration | TirGeneration | NameResolution | TypeChecking | Lowering | Optimization.
(** crates/trunk-ir/src/diagnostic.rs:30-34 *)
Inductive severity := Error | Warning | Info.
(** crates/trunk-ir/src/diagnostic.rs:9-26 and crates/tribute-core/src/diagnostic.rs:12-16, in one record. *)
Record diagnostic := { in_phase : phase; start : nat; stop : nat; message : list nat; level : severity; labels : list (nat * nat * list nat); note : option (list nat) }.

(** src/pipeline.rs:1579-1589 *)
Definition phase_rank (p : phase) : nat :=
  match p with Parsing => 0 | AstGeneration => 1 | TirGeneration => 2 | NameResolution => 3 | TypeChecking => 4 | Lowering => 5 | Optimization => 6 end.
(** [Ordering::then_with] of the standard library, used at src/pipeline.rs:1593-1594. *)
Definition then_with (c d : comparison) : comparison := match c with Eq => d | _ => c end.
(** [Ord] of strings, the standard library's, used at src/pipeline.rs:1594. *)
Fixpoint compare_bytes (a b : list nat) : comparison :=
  match a, b with
  | [], [] => Eq
  | [], _ :: _ => Lt
  | _ :: _, [] => Gt
  | x :: a', y :: b' => then_with (x ?= y) (compare_bytes a' b')
  end.
(** src/pipeline.rs:1578-1595; [Span] is compared by start and end, the derived order of
    crates/trunk-ir/src/location.rs:6-12. *)
Definition compare_diagnostics (a b : diagnostic) : comparison :=
  then_with (phase_rank (in_phase a) ?= phase_rank (in_phase b))
    (then_with (then_with (start a ?= start b) (stop a ?= stop b)) (compare_bytes (message a) (message b))).

(** One step of the sort at src/pipeline.rs:1562 and src/diagnostics.rs:83-84. *)
Fixpoint insert (x : diagnostic) (l : list diagnostic) : list diagnostic :=
  match l with
  | [] => [x]
  | y :: l' => match compare_diagnostics x y with Gt => y :: insert x l' | _ => x :: l end
  end.
(** The sort at src/pipeline.rs:1562 and src/diagnostics.rs:83-84. *)
Fixpoint sort (l : list diagnostic) : list diagnostic := match l with [] => [] | x :: l' => insert x (sort l') end.
