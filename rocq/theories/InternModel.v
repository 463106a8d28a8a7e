(** Interners and the type-alias registry.
    crates/trunk-ir/src/types.rs:508-566 (TypeInterner), 579-606 (PathInterner),
    crates/trunk-ir/src/symbol.rs:62-85 (global symbol table),
    crates/trunk-ir/src/context.rs:194-226 (aliases).

    A hash map is an association list in which inserting a key replaces the
    previous entry.  Handles are indices; exhaustion of the 32-bit handle space
    is not modelled.  Keys are any type with decidable equality: TypeData,
    String (derived, structural [Eq]). *)
From Verif Require Export Base.

Section Keyed.
Context {K V : Type} (eqb : K -> K -> bool).
(** HashMap::get / insert / remove. *)
Fixpoint mget (m : list (K * V)) (k : K) : option V :=
  match m with
  | [] => None
  | (k', v) :: r => if eqb k k' then Some v else mget r k
  end.
Definition mremove (m : list (K * V)) (k : K) : list (K * V) :=
  filter (fun e => negb (eqb k (fst e))) m.
Definition minsert (m : list (K * V)) (k : K) (v : V) : list (K * V) := (k, v) :: mremove m k.
End Keyed.

Record interner (K : Type) := { items : list K; dedup : list (K * nat) }.
Arguments items {K} _.
Arguments dedup {K} _.

(** types.rs:514-519 / 585-590 *)
Definition new_interner (K : Type) : interner K := {| items := []; dedup := [] |}.
(** types.rs:522-529 / 593-600 *)
Definition intern {K} (eqb : K -> K -> bool) (s : interner K) (k : K) : interner K * nat :=
  match mget eqb (dedup s) k with
  | Some r => (s, r)
  | None => let r := length (items s) in
            ({| items := items s ++ [k]; dedup := minsert eqb (dedup s) k r |}, r)
  end.
(** types.rs:532-534 / 603-605; [None] is the out-of-range panic. *)
Definition get {K} (s : interner K) (r : nat) : option K := nth_error (items s) r.
(** types.rs:549-551 *)
Definition lookup {K} (eqb : K -> K -> bool) (s : interner K) (k : K) : option nat := mget eqb (dedup s) k.

(** A history of intern calls and the handles they returned. *)
Fixpoint intern_all {K} (eqb : K -> K -> bool) (s : interner K) (ks : list K) : interner K * list nat :=
  match ks with
  | [] => (s, [])
  | k :: r => let '(s1, h) := intern eqb s k in let '(s2, hs) := intern_all eqb s1 r in (s2, h :: hs)
  end.

(** ** The global symbol table (symbol.rs:62-85), used by several threads.
    [upgradable_read] excludes other upgradable readers and writers; the upgrade
    happens while it is held.  One step of a thread is: take the lock; under the
    lock look the text up; if absent, upgrade and append; release.  [get]s and
    inserts are separate steps so that schedules can interleave other threads
    between them.  The string table of lasso's [Rodeo] is an interner whose [get]
    and [get_or_intern] agree. *)
Inductive phase :=
| Idle
| Locked
| Missed                       (* looked up, not found, about to upgrade *)
| Found (h : nat).             (* symbol known, about to release *)

Record thread (K : Type) := { todo : list K; ph : phase; results : list (K * nat) }.
Arguments todo {K} _.
Arguments ph {K} _.
Arguments results {K} _.
Record world (K : Type) := { table : interner K; holder : option nat; threads : list (thread K) }.
Arguments table {K} _.
Arguments holder {K} _.
Arguments threads {K} _.

Definition set_nth {A} (i : nat) (x : A) (l : list A) : list A := firstn i l ++ x :: skipn (S i) l.

(** One scheduled step of thread [i]; a blocked or finished thread does nothing. *)
Definition step {K} (eqb : K -> K -> bool) (w : world K) (i : nat) : world K :=
  match nth_error (threads w) i with
  | None => w
  | Some t =>
      match todo t with
      | [] => w
      | k :: rest =>
          match ph t with
          | Idle =>
              match holder w with
              | Some _ => w
              | None => {| table := table w; holder := Some i;
                           threads := set_nth i {| todo := todo t; ph := Locked; results := results t |} (threads w) |}
              end
          | Locked =>
              {| table := table w; holder := holder w;
                 threads := set_nth i {| todo := todo t;
                                         ph := match lookup eqb (table w) k with Some h => Found h | None => Missed end;
                                         results := results t |} (threads w) |}
          | Missed =>
              let '(tb, h) := ({| items := items (table w) ++ [k];
                                  dedup := minsert eqb (dedup (table w)) k (length (items (table w))) |},
                               length (items (table w))) in
              {| table := tb; holder := holder w;
                 threads := set_nth i {| todo := todo t; ph := Found h; results := results t |} (threads w) |}
          | Found h =>
              {| table := table w; holder := None;
                 threads := set_nth i {| todo := rest; ph := Idle; results := (k, h) :: results t |} (threads w) |}
          end
      end
  end.

(** [programs]: for each thread the texts it interns in order. *)
Definition start {K} (programs : list (list K)) : world K :=
  {| table := new_interner K; holder := None;
     threads := map (fun p => {| todo := p; ph := Idle; results := [] |}) programs |}.
Definition run_schedule {K} (eqb : K -> K -> bool) (w : world K) (sched : list nat) : world K :=
  fold_left (step eqb) sched w.

(** ** Type aliases.  Names and types are handles. *)
Record aliases := { by_name : list (nat * nat); by_type : list (nat * nat); ordered : list (nat * nat) }.
Definition no_aliases : aliases := {| by_name := []; by_type := []; ordered := [] |}.

(** [iter_mut().find(...)]: update the first entry with this name. *)
Fixpoint update_first (n t : nat) (l : list (nat * nat)) : list (nat * nat) :=
  match l with
  | [] => []
  | (m, u) :: r => if Nat.eqb m n then (m, t) :: r else (m, u) :: update_first n t r
  end.

(** context.rs:194-206 *)
Definition register_type_alias (s : aliases) (name ty : nat) : aliases :=
  match mget Nat.eqb (by_name s) name with
  | Some old =>
      {| by_name := minsert Nat.eqb (by_name s) name ty;
         by_type := minsert Nat.eqb (mremove Nat.eqb (by_type s) old) ty name;
         ordered := update_first name ty (ordered s) |}
  | None =>
      {| by_name := minsert Nat.eqb (by_name s) name ty;
         by_type := minsert Nat.eqb (by_type s) ty name;
         ordered := ordered s ++ [(name, ty)] |}
  end.
(** context.rs:209-216 *)
Definition type_alias_by_name (s : aliases) (n : nat) : option nat := mget Nat.eqb (by_name s) n.
Definition type_alias_by_type (s : aliases) (t : nat) : option nat := mget Nat.eqb (by_type s) t.

Definition register_all (regs : list (nat * nat)) : aliases :=
  fold_left (fun s r => register_type_alias s (fst r) (snd r)) regs no_aliases.
