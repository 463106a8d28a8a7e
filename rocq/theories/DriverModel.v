(** The engine that applies rewrite patterns.
    Models crates/trunk-ir/src/rewrite/applicator.rs:178-366 and
    crates/trunk-ir/src/rewrite/rewriter.rs:94-228, with the verification of
    crates/trunk-ir/src/rewrite/conversion_target.rs:420-460.

    Simplifications: the arena is a tree of operations; replacing all uses is a
    renaming of operands that is applied to everything at once, including what was
    visited before.  A pattern sees its operation with its nested regions and the
    next free value; patterns that change the IR behind the back of the rewriter,
    the automatic conversion of types and the casts it inserts are not modelled. *)
From Coq Require Export List Arith Lia Bool.
Export ListNotations.
Open Scope nat_scope.

(** An operation: its kind (dialect, name and attributes), operands, results, and
    regions of blocks of operations. *)
Record data := { kind : nat; operands : list nat; results : list nat }.
Inductive op := Op (d : data) (rs : list (list (list op))).
Definition op_data (o : op) : data := let '(Op d _) := o in d.
Definition op_regions (o : op) := let '(Op _ rs) := o in rs.

(** [replace_all_uses], one pair after the other. *)
Definition subst := list (nat * nat).
Definition sub (s : subst) (x : nat) : nat := fold_left (fun x p => if x =? fst p then snd p else x) s x.
Definition rdata (s : subst) (d : data) : data := {| kind := kind d; operands := List.map (sub s) (operands d); results := results d |}.
Fixpoint rop (s : subst) (o : op) : op :=
  let '(Op d rs) := o in Op (rdata s d) (List.map (List.map (List.map (rop s))) rs).
Definition rops (s : subst) (l : list op) : list op := List.map (rop s) l.

(** rewriter.rs:11-20, [Mutations]. *)
Record mutation := { prefix : list op; replacement : option op; erase_values : option (list nat); module_ops : list op }.
(** rewriter.rs:97-102 *)
Definition has_mutations (m : mutation) : bool :=
  negb (match prefix m with [] => true | _ => false end) || match replacement m with Some _ => true | None => false end
  || match erase_values m with Some _ => true | None => false end || negb (match module_ops m with [] => true | _ => false end).

(** A pattern says whether it matches and what it records; it takes values from a
    counter. *)
Record pattern := { p_match : op -> bool; p_make : nat -> op -> mutation * nat }.

(** conversion_target.rs:17-25 and 54-63 *)
Inductive legality := Legal | Illegal | Unknown.
Inductive mode := Partial | Full.

(** What a visit leaves behind: the new code, the renaming, the counter, the number
    of changes and the operations for the module. *)
Record res (A : Type) := Res { out : A; ren : subst; next : nat; changes : nat; extra : list op }.
Arguments Res {A}. Arguments out {A}. Arguments ren {A}. Arguments next {A}. Arguments changes {A}. Arguments extra {A}.

(** The loops of 268-296: later renamings reach what was visited before. *)
Definition both {B} (rn : subst -> B -> B) (x : res B) (y : res (list B)) : res (list B) :=
  Res (rn (ren y) (out x) :: out y) (ren x ++ ren y) (next y) (changes x + changes y) (rops (ren y) (extra x) ++ extra y).
Definition chain {B} (rn : subst -> B -> B) (s : subst) (x : res B) (k : subst -> nat -> res (list B)) : res (list B) :=
  both rn x (k (s ++ ren x) (next x)).
Section Seq.
  Context {A B : Type}.
  Variable rn : subst -> B -> B.
  Variable f : subst -> nat -> A -> res B.
  Fixpoint seq (s : subst) (n : nat) (l : list A) : res (list B) :=
    match l with
    | [] => Res [] [] n 0 []
    | a :: l' => chain rn s (f s n a) (fun s' n' => seq s' n' l')
    end.
End Seq.
Definition flat (r : res (list (list op))) : res (list op) := Res (concat (out r)) (ren r) (next r) (changes r) (extra r).

Section Engine.
  Variable patterns : list pattern.
  (** [has_constraints], [is_legal], [is_recursively_legal]. *)
  Variable constrained : bool.
  Variable legal : op -> legality.
  Variable recursive : op -> bool.
  (** Whether the scope is a module; function scopes have no module block. *)
  Variable at_module : bool.

  (** 336-347: the first pattern that matches and records something. *)
  Fixpoint try (ps : list pattern) (n : nat) (o : op) : option mutation * nat :=
    match ps with
    | [] => (None, n)
    | p :: ps' =>
        let '(m, n') := p_make p n o in
        if p_match p o && has_mutations m then (Some m, n') else try ps' n' o
    end.

  (** rewriter.rs:149-228, [apply_mutations]. *)
  Definition apply_mutations (o : op) (m : mutation) : list op * subst * list op :=
    let mops := if at_module then module_ops m else [] in
    match replacement m with
    | Some new =>
        let s := combine (results (op_data o)) (results (op_data new)) in
        (rops s (prefix m) ++ [rop s new], s, rops s mops)
    | None =>
        match erase_values m with
        | Some vs => let s := combine (results (op_data o)) vs in (rops s (prefix m), s, rops s mops)
        | None => (prefix m ++ [o], [], mops)
        end
    end.

  (** 317-350: an operation whose nested regions have been visited. *)
  Definition work (s : subst) (d : data) (a : res (list (list (list op)))) : res (list op) :=
    let o := Op (rdata (s ++ ren a) d) (out a) in
    if constrained && match legal o with Legal => true | _ => false end
    then Res [o] (ren a) (next a) (changes a) (extra a)
    else
      match try patterns (next a) o with
      | (None, n') => Res [o] (ren a) n' (changes a) (extra a)
      | (Some m, n') =>
          let '(new, t, mops) := apply_mutations o m in
          Res new (ren a ++ t) n' (S (changes a)) (rops t (extra a) ++ mops)
      end.

  (** 298-352, the body of the loop over the operations of a block. *)
  Fixpoint visit (s : subst) (n : nat) (o : op) {struct o} : res (list op) :=
    match o with
    | Op d rs =>
        if constrained && recursive (rop s o) then Res [rop s o] [] n 0 []
        else work s d (seq (fun s r => List.map (rops s) r)
                         (fun s n r => seq rops (fun s n b => flat (seq rops visit s n b)) s n r) s n rs)
    end.
  Definition visit_block (s : subst) (n : nat) (b : list op) : res (list op) := flat (seq rops visit s n b).
  Definition visit_region (s : subst) (n : nat) (r : list (list op)) : res (list (list op)) := seq rops visit_block s n r.

  (** 252-266, [run_one_iteration]: the operations for the module go to the end of
      its first block. *)
  Definition push (l : list op) (r : list (list op)) : list (list op) :=
    match r with b :: r' => (b ++ l) :: r' | [] => [] end.
  Definition iteration (n : nat) (r : list (list op)) : list (list op) * nat * nat :=
    let x := visit_region [] n r in (push (extra x) (out x), next x, changes x).

  (** 193-219, [apply_partial]. *)
  Record applied := { a_region : list (list op); a_next : nat; iterations : nat; total_changes : nat; reached_fixpoint : bool }.
  Fixpoint apply (max done total n : nat) (r : list (list op)) : applied :=
    match max with
    | 0 => {| a_region := r; a_next := n; iterations := done; total_changes := total; reached_fixpoint := false |}
    | S max' =>
        let '(r', n', c) := iteration n r in
        if c =? 0 then {| a_region := r'; a_next := n'; iterations := S done; total_changes := total; reached_fixpoint := true |}
        else apply max' (S done) (total + c) n' r'
    end.

  (** conversion_target.rs:424-456, [verify_mode]; walk.rs. *)
  Definition failed (md : mode) (o : op) : bool :=
    match md, legal o with Partial, Illegal => true | Partial, _ => false | Full, Legal => false | Full, _ => true end.
  Fixpoint verify (md : mode) (o : op) : list op :=
    let '(Op d rs) := o in
    (if failed md o then [o] else []) ++ (if recursive o then [] else flat_map (flat_map (flat_map (verify md))) rs).

  (** 226-249, the two conversions; [None] is the error. *)
  Definition convert (md : mode) (max n : nat) (r : list (list op)) : option applied :=
    let a := apply max 0 0 n r in
    match flat_map (flat_map (verify md)) (a_region a) with [] => Some a | _ => None end.
End Engine.

(** 136: the limit unless another is set. *)
Definition max_iterations : nat := 10.
