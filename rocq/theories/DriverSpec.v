(** What users of the rewrite engine rely on. *)
From Verif Require Export DriverModel.

(** [x] is an operation of [o] the engine has to look at: not below one that is
    legal with all it contains. *)
Inductive seen (skip : op -> bool) : op -> op -> Prop :=
| SeenHere o : skip o = false -> seen skip o o
| SeenIn d rs r b o x : skip (Op d rs) = false -> In r rs -> In b r -> In o b -> seen skip o x -> seen skip (Op d rs) x.
Definition in_region (skip : op -> bool) (r : list (list op)) (x : op) : Prop := exists b o, In b r /\ In o b /\ seen skip o x.

(** Nothing is left to do for [ps] at [o]: what matches records no change. *)
Definition no_change (m : mutation) : Prop := prefix m = [] /\ replacement m = None /\ erase_values m = None /\ module_ops m = [].
Definition at_rest (ps : list pattern) (o : op) : Prop :=
  forall p, In p ps -> p_match p o = true -> exists n, no_change (fst (p_make p n o)).

Section Ranked.
  Variable ps : list pattern.
  Variable legal : op -> legality.
  Variable recursive : op -> bool.
  (** A number for every kind of operation. *)
  Variable rank : nat -> nat.

  (** Every operation to look at has rank [R] or less. *)
  Fixpoint below (R : nat) (o : op) : Prop :=
    let '(Op d rs) := o in
    recursive o = true \/
    (rank (kind d) <= R /\
     fold_right (fun r P => fold_right (fun b P => fold_right (fun o P => below R o /\ P) P b) P r) True rs).

  (** Patterns that work off the ranks: legal operations have rank 0 and those are
      left alone, any other is taken by some pattern, and what replaces it has a
      lower rank, apart from what was nested in it.  Legality goes by the kind. *)
  Record descending : Prop := {
    by_kind : forall o o', kind (op_data o) = kind (op_data o') -> recursive o = recursive o';
    recursive_legal : forall o, recursive o = true -> legal o = Legal;
    legal_low : forall o, legal o = Legal -> rank (kind (op_data o)) = 0;
    low_left : forall p o, In p ps -> p_match p o = true -> rank (kind (op_data o)) <> 0;
    high_taken : forall o, rank (kind (op_data o)) <> 0 -> exists p, In p ps /\ p_match p o = true;
    taken_replaced : forall p n o, In p ps -> p_match p o = true ->
      replacement (fst (p_make p n o)) <> None \/ erase_values (fst (p_make p n o)) <> None;
    taken_lowers : forall p n o R x, In p ps -> p_match p o = true -> rank (kind (op_data o)) <= S R ->
      (forall r b c, In r (op_regions o) -> In b r -> In c b -> below R c) ->
      In x (prefix (fst (p_make p n o))) \/ replacement (fst (p_make p n o)) = Some x \/ In x (module_ops (fst (p_make p n o))) -> below R x
  }.

  (** The same for a region. *)
  Definition region_below (R : nat) (r : list (list op)) : Prop := forall b o, In b r -> In o b -> below R o.
End Ranked.

(** ** Uses and definitions *)
Fixpoint uses (o : op) : list nat := let '(Op d rs) := o in operands d ++ flat_map (flat_map (flat_map uses)) rs.
Fixpoint defs (o : op) : list nat := let '(Op d rs) := o in results d ++ flat_map (flat_map (flat_map defs)) rs.
Definition nested (o : op) : list nat := flat_map (flat_map (flat_map defs)) (op_regions o).

(** Every use of a region is a value it defines or one from outside. *)
Definition closed (outside : nat -> Prop) (r : list (list op)) : Prop :=
  forall b o u, In b r -> In o b -> In u (uses o) -> outside u \/ exists b' o', In b' r /\ In o' b' /\ In u (defs o').
(** All values are below [n]. *)
Definition values_below (n : nat) (r : list (list op)) : Prop :=
  forall b o u, In b r -> In o b -> In u (uses o ++ defs o) -> u < n.

(** A pattern that uses only what the operation used or defined, or what it defines
    itself; gives one new value for every result; keeps the values of nested code;
    and takes new values from the counter. *)
Definition made (m : mutation) : list nat := flat_map defs (prefix m) ++ match replacement m with Some x => defs x | None => [] end.
Record sound_for (n : nat) (o : op) (m : mutation) (n' : nat) : Prop := {
  counter : n <= n';
  new_code : forall x u, In x (prefix m) \/ replacement m = Some x -> In u (uses x) -> In u (uses o ++ defs o ++ made m);
  module_code : forall x u, In x (module_ops m) -> In u (uses x) -> In u (uses o ++ defs o ++ made m ++ flat_map defs (module_ops m));
  new_values : forall x u, In x (prefix m) \/ replacement m = Some x \/ In x (module_ops m) -> In u (defs x) -> u < n';
  new_results : forall x, replacement m = Some x -> List.length (results (op_data x)) = List.length (results (op_data o)) /\
    forall v, In v (results (op_data x)) -> ~ In v (results (op_data o));
  new_erased : forall vs, replacement m = None -> erase_values m = Some vs -> List.length vs = List.length (results (op_data o)) /\
    forall v, In v vs -> In v (uses o ++ nested o ++ made m) /\ ~ In v (results (op_data o));
  nested_kept : replacement m <> None \/ erase_values m <> None -> forall v, In v (nested o) -> In v (made m)
}.
Definition sound (p : pattern) : Prop := forall n o m n', p_match p o = true -> p_make p n o = (m, n') ->
  (forall v, In v (uses o ++ defs o) -> v < n) -> sound_for n o m n'.
(** A pattern that does not match leaves the counter alone or moves it on. *)
Definition counts (p : pattern) : Prop := forall n o, n <= snd (p_make p n o).
