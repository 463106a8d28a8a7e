(** Ownership: who may do what, with no counters. *)
From Verif Require Import Base RcModel.
Open Scope Z_scope.

(** ** One box: the number of outstanding owners after each operation.  Only an
    owner may retain or release, so every operation needs at least one owner. *)
Definition owners_step (n : Z) (o : rcop) : Z :=
  match o with RcRetain => n + 1 | RcRelease => n - 1 end.
Definition owners (n : Z) (ops : list rcop) : Z := fold_left owners_step ops n.

(** Before every operation there is an owner; the number of owners stays below 2^32. *)
Fixpoint owned (n : Z) (ops : list rcop) : Prop :=
  match ops with
  | [] => n < 2 ^ 32
  | o :: ops' => 0 < n < 2 ^ 32 /\ owned (owners_step n o) ops'
  end.

(** ** The object graph: fields of every object ever created, and how many
    references to it the program itself holds. *)
Record graph := { shape : list (list (option nat)); roots : nat -> Z }.
Definition graph_init : graph := {| shape := []; roots := fun _ => 0 |}.

Definition count_in (a : nat) (fs : list (option nat)) : Z :=
  Z.of_nat (length (filter (fun f => match f with Some b => Nat.eqb a b | None => false end) fs)).

Inductive reachable (g : graph) : nat -> Prop :=
  | reach_root a : 0 < roots g a -> reachable g a
  | reach_field a b fs : reachable g b -> nth_error (shape g) b = Some fs -> In (Some a) fs -> reachable g a.

Definition add_root (r : nat -> Z) (a : nat) (k : Z) : nat -> Z :=
  fun b => if Nat.eqb a b then r b + k else r b.

(** What a correctly compiled program may do. *)
Inductive legal : graph -> hop -> graph -> Prop :=
  | legal_new g t size fs :
      0 < size -> (t = false -> fs = []) ->
      (forall a, count_in a fs <= roots g a) ->  (* the program hands over its references *)
      legal g (HNew t size fs)
            {| shape := shape g ++ [fs];
               roots := fun a => if Nat.eqb a (length (shape g)) then 1
                                 else roots g a - count_in a fs |}
  | legal_retain_null g : legal g (HRetain None) g
  | legal_retain g a : reachable g a ->
      legal g (HRetain (Some a)) {| shape := shape g; roots := add_root (roots g) a 1 |}
  | legal_release_null g size : legal g (HRelease None size) g
  | legal_release g a size : 0 < roots g a ->
      legal g (HRelease (Some a) size) {| shape := shape g; roots := add_root (roots g) a (-1) |}
  | legal_access g a : reachable g a -> legal g (HAccess a) g.

Inductive legal_run : graph -> list hop -> graph -> Prop :=
  | lr_nil g : legal_run g [] g
  | lr_cons g o g1 ops g2 : legal g o g1 -> legal_run g1 ops g2 -> legal_run g (o :: ops) g2.

(** Sizes given to releases are 0 or the object's allocation size. *)
Fixpoint sizes_ok (szs : list Z) (ops : list hop) : Prop :=
  match ops with
  | [] => True
  | HNew _ size _ :: ops' => sizes_ok (szs ++ [size]) ops'
  | HRelease (Some a) size :: ops' =>
      (size = 0 \/ nth_error szs a = Some size) /\ sizes_ok szs ops'
  | _ :: ops' => sizes_ok szs ops'
  end.

Fixpoint retains (ops : list hop) : Z :=
  match ops with
  | [] => 0
  | HRetain (Some _) :: ops' => 1 + retains ops'
  | _ :: ops' => retains ops'
  end.
