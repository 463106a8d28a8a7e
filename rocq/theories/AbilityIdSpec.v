(** Which handler should answer, and what it means that hashes do not collide. *)
From Verif Require Export AbilityIdModel.
Open Scope Z_scope.

(** The newest handler of the ability at the same type arguments. *)
Inductive newest_handler (i : instance) : list (instance * Z) -> option Z -> Prop :=
| Newest_none : newest_handler i [] None
| Newest_here tag hs : newest_handler i ((i, tag) :: hs) (Some tag)
| Newest_later j tag hs r : j <> i -> newest_handler i hs r -> newest_handler i ((j, tag) :: hs) r.

(** [g] tells the elements of [l] apart. *)
Definition tells_apart {A B} (g : A -> B) (l : list A) : Prop := forall x y, In x l -> In y l -> g x = g y -> x = y.

(** Types that differ in attributes only. *)
Inductive same_shape : irty -> irty -> Prop :=
| Same_shape d n ps ps' a a' : Forall2 same_shape ps ps' -> same_shape (IrTy d n ps a) (IrTy d n ps' a').

(** The first arm for an operation. *)
Inductive first_arm (x : string * string) : list (string * string) -> nat -> Prop :=
| First_here arms : first_arm x (x :: arms) 0
| First_later y arms n : y <> x -> first_arm x arms n -> first_arm x (y :: arms) (S n).

(** What identifies a type up to attributes: dialect, name, number of parameters, and the same for each of them. *)
Section Fed.
  Variable finish : list hitem -> Z.
  Definition word32 (l : list hitem) : Z := finish l mod 4294967296.
  Fixpoint code (t : irty) : list hitem :=
    let '(IrTy d n ps _) := t in
    HSymbol d :: HSymbol n :: HLength (List.length ps) :: List.map (fun p => HWord (word32 (code p))) ps.
  (** Everything that is hashed for a type. *)
  Fixpoint fed (t : irty) : list (list hitem) :=
    let '(IrTy _ _ ps _) := t in code t :: flat_map fed ps.
  Definition instance_code (i : instance) : list hitem :=
    HSymbol (iname i) :: HLength (List.length (iargs i)) :: List.map (fun p => HWord (word32 (code p))) (iargs i).
  Definition fed_for (i : instance) : list (list hitem) := instance_code i :: flat_map fed (iargs i).
End Fed.

(** The numbers that stand for an ability without arguments and for an operation. *)
Definition ability_word (finish : list hitem -> Z) (n : string) : Z := finish [HSymbol n; HLength 0] mod 4294967296.
Definition op_word (finish : list hitem -> Z) (x : string * string) : Z :=
  finish [HSome; HSymbol (fst x); HSome; HSymbol (snd x)] mod 2147483647.
