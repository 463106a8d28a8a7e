(** Removal of retain/release pairs.
    Models crates/tribute-passes/src/native/rc_optimization.rs:18-99.

    A block is the list of its operations; values are numbers.  Erasing operations and replacing all uses of the
    retained value are done on that list (uses in other blocks are replaced in the same way). *)
From Coq Require Export List.
From Verif Require Export Base.

Inductive pkind := PRetain | PRelease | PLoad (off : nat) | PStore (off : nat) | POther (id : nat).
(** [p_regions]: the operation has regions; [p_captures]: the values used in them. *)
Record pop := mkPop { p_kind : pkind; p_args : list nat; p_results : list nat; p_regions : bool; p_captures : list nat }.

Definition is_load (o : pop) : bool := match p_kind o with PLoad _ => true | _ => false end.
Definition is_store (o : pop) : bool := match p_kind o with PStore _ => true | _ => false end.

(** [is_proven_non_escaping_use], rc_optimization.rs:86-99. *)
Definition proven_use (o : pop) (index : nat) : bool :=
  if is_load o then index =? 0 else if is_store o then index =? 1 else false.

(** [is_barrier_for], rc_optimization.rs:68-84. *)
Fixpoint bad_operand (o : pop) (ptr retained : nat) (index : nat) (args : list nat) : bool :=
  match args with
  | [] => false
  | x :: args => (((x =? ptr) || (x =? retained)) && negb (proven_use o index)) || bad_operand o ptr retained (S index) args
  end.
Definition is_barrier (o : pop) (ptr retained : nat) : bool := p_regions o || bad_operand o ptr retained 0 (p_args o).

(** The inner loop of [eliminate_one_pair], rc_optimization.rs:48-63: the operations up to the matching release, and
    those after it. *)
Fixpoint find_release (ptr retained : nat) (os : list pop) : option (list pop * list pop) :=
  match os with
  | [] => None
  | o :: os =>
      if match p_kind o, p_args o with
         | PRelease, x :: _ => (x =? ptr) || (x =? retained)
         | _, _ => false
         end then Some ([], os)
      else if is_barrier o ptr retained then None
      else match find_release ptr retained os with Some (mid, post) => Some (o :: mid, post) | None => None end
  end.

(** [replace_all_uses]. *)
Definition rename (from to : nat) (x : nat) : nat := if x =? from then to else x.
Definition rename_op (from to : nat) (o : pop) : pop :=
  mkPop (p_kind o) (map (rename from to) (p_args o)) (p_results o) (p_regions o) (map (rename from to) (p_captures o)).

(** [eliminate_one_pair], rc_optimization.rs:40-66; [before] are the operations already looked at. *)
Fixpoint eliminate_from (before os : list pop) : option (list pop) :=
  match os with
  | [] => None
  | o :: os =>
      match p_kind o, p_args o, p_results o with
      | PRetain, ptr :: _, retained :: _ =>
          match find_release ptr retained os with
          | Some (mid, post) => Some (map (rename_op retained ptr) (before ++ mid ++ post))
          | None => eliminate_from (before ++ [o]) os
          end
      | _, _, _ => eliminate_from (before ++ [o]) os
      end
  end.
Definition eliminate_one (os : list pop) : option (list pop) := eliminate_from [] os.

(** [while eliminate_one_pair(ctx, block) {}], rc_optimization.rs:26-28, with fuel. *)
Fixpoint eliminate_all (fuel : nat) (os : list pop) : option (list pop) :=
  match fuel with
  | O => None
  | S fuel => match eliminate_one os with Some os' => eliminate_all fuel os' | None => Some os end
  end.
