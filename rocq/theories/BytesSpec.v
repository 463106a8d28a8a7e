(** Bytes values as plain byte lists; a pointer is the index of the list. *)
From Verif Require Import Base BytesModel.
Open Scope N_scope.

Definition sub (l : list byte) (s n : N) : list byte :=
  firstn (N.to_nat n) (skipn (N.to_nat s) l).
Definition size (l : list byte) : N := N.of_nat (length l).

(** Abstract result: a list of contents, an abort, or a dangling argument. *)
Definition sstep (cs : list (list byte)) (o : bop) : outcome (list (list byte)) :=
  match o with
  | OpAlloc c => if MAX_ALLOC <? size c then Abort else Ret (cs ++ [c])
  | OpConcat a b =>
      match nth_error cs a, nth_error cs b with
      | Some x, Some y => if MAX_ALLOC <? size (x ++ y) then Abort else Ret (cs ++ [x ++ y])
      | _, _ => UB
      end
  | OpSlice a s e =>
      match nth_error cs a with
      | Some x => if (s <=? e) && (e <=? size x) then Ret (cs ++ [sub x s (e - s)]) else Abort
      | None => UB
      end
  end.

Fixpoint srun (cs : list (list byte)) (ops : list bop) : outcome (list (list byte)) :=
  match ops with
  | [] => Ret cs
  | o :: ops' => match sstep cs o with
                 | Ret cs' => srun cs' ops'
                 | Abort => Abort
                 | UB => UB
                 end
  end.

(** Number of slices taken directly from value [i] in a history; [next] is the
    index the next created value will get. *)
Fixpoint slices_of (i : nat) (ops : list bop) : N :=
  match ops with
  | [] => 0
  | OpSlice a _ _ :: ops' => (if Nat.eqb a i then 1 else 0) + slices_of i ops'
  | _ :: ops' => slices_of i ops'
  end.
