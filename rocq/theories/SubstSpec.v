(** What substitution, renaming and generalization mean: total structural functions on types
    and the variables occurring in them. *)
From Verif Require Export TyModel.

Definition map_args (f : ty -> ty) (r : row) : row :=
  (List.map (fun e : effect => (fst e, List.map f (snd e))) (fst r), snd r).

(** Replace bound variable [i] by [f i]. *)
Fixpoint plug (f : nat -> ty) (t : ty) {struct t} : ty :=
  let row := fun r : list (ability * list ty) * option nat =>
    (List.map (fun e => match e with (a, xs) => (a, List.map (plug f) xs) end) (fst r), snd r) in
  match t with
  | TBound i => f i
  | TNamed d n xs => TNamed d n (List.map (plug f) xs)
  | TFunc ps r e c => TFunc (List.map (plug f) ps) (plug f r) (row e) c
  | TTuple xs => TTuple (List.map (plug f) xs)
  | TApp c xs => TApp (plug f c) (List.map (plug f) xs)
  | TCont a r e => TCont (plug f a) (plug f r) (row e)
  | _ => t
  end.

(** Replace unification variable [v] by [f v]. *)
Fixpoint fill (f : nat -> ty) (t : ty) {struct t} : ty :=
  let row := fun r : list (ability * list ty) * option nat =>
    (List.map (fun e => match e with (a, xs) => (a, List.map (fill f) xs) end) (fst r), snd r) in
  match t with
  | TUni v => f v
  | TNamed d n xs => TNamed d n (List.map (fill f) xs)
  | TFunc ps r e c => TFunc (List.map (fill f) ps) (fill f r) (row e) c
  | TTuple xs => TTuple (List.map (fill f) xs)
  | TApp c xs => TApp (fill f c) (List.map (fill f) xs)
  | TCont a r e => TCont (fill f a) (fill f r) (row e)
  | _ => t
  end.

(** Rename row variables. *)
Fixpoint retail (f : nat -> nat) (t : ty) {struct t} : ty :=
  let row := fun r : list (ability * list ty) * option nat =>
    (List.map (fun e => match e with (a, xs) => (a, List.map (retail f) xs) end) (fst r),
     option_map f (snd r)) in
  match t with
  | TNamed d n xs => TNamed d n (List.map (retail f) xs)
  | TFunc ps r e c => TFunc (List.map (retail f) ps) (retail f r) (row e) c
  | TTuple xs => TTuple (List.map (retail f) xs)
  | TApp c xs => TApp (retail f c) (List.map (retail f) xs)
  | TCont a r e => TCont (retail f a) (retail f r) (row e)
  | _ => t
  end.

Definition opt_list (o : option nat) : list nat := match o with Some v => [v] | None => [] end.

(** Occurrences from left to right: a function's parameters, its result, then its row. *)
Section Occurrences.
  Variable at_leaf : ty -> list nat.
  Variable at_tail : option nat -> list nat.
  Fixpoint occurrences (t : ty) {struct t} : list nat :=
    let row := fun r : list (ability * list ty) * option nat =>
      flat_map (fun e => match e with (_, xs) => flat_map occurrences xs end) (fst r) ++ at_tail (snd r) in
    match t with
    | TNamed _ _ xs | TTuple xs => flat_map occurrences xs
    | TFunc ps r e _ => flat_map occurrences ps ++ occurrences r ++ row e
    | TApp c xs => occurrences c ++ flat_map occurrences xs
    | TCont a r e => occurrences a ++ occurrences r ++ row e
    | _ => at_leaf t
    end.
End Occurrences.

Definition bounds : ty -> list nat :=
  occurrences (fun t => match t with TBound i => [i] | _ => [] end) (fun _ => []).
Definition univars : ty -> list nat :=
  occurrences (fun t => match t with TUni v => [v] | _ => [] end) (fun _ => []).
Definition tails : ty -> list nat :=
  occurrences (fun _ => []) opt_list.

(** Each element once, in the order of first occurrence. *)
Fixpoint uniq (l : list nat) : list nat :=
  match l with
  | [] => []
  | x :: l => x :: filter (fun y => negb (Nat.eqb x y)) (uniq l)
  end.

(** Position of a variable in a list. *)
Fixpoint position (l : list nat) (v : nat) : option nat :=
  match l with
  | [] => None
  | x :: l => if Nat.eqb x v then Some 0 else option_map S (position l v)
  end.

(** Abstract the listed variables: the i-th becomes bound variable [i]. *)
Definition close_over (vs : list nat) : ty -> ty :=
  fill (fun v => match position vs v with Some i => TBound i | None => TUni v end).
