(** C77: an operation reaches the handler of its own ability and the arm of its own name. *)
From Coq Require Import String List.
From Verif Require Import Base AbilityIdModel AbilityIdSpec AbilityIdProofs.
Open Scope string_scope. Open Scope list_scope. Import ListNotations.
Open Scope Z_scope.

(** The newest handler of the ability answers if no two names of abilities have the same hash and no handler of the same ability
    at other type arguments is installed. *)
Theorem an_operation_reaches_its_handler_partial : forall finish hs i,
  tells_apart (ability_word finish) (iname i :: List.map (fun h => iname (fst h)) hs) ->
  (forall j tag, In (j, tag) hs -> iname j = iname i -> j = i) ->
  newest_handler i hs (answering finish hs i).
Proof. exact answering_newest. Qed.
Print Assumptions an_operation_reaches_its_handler_partial.

(** Whatever the hash function: between two handlers of one ability at different type arguments, the inner one answers for the
    outer one. *)
Theorem an_operation_reaches_its_handler_refuted : forall finish n args args' tag tag', args <> args' ->
  answering finish [(mkInstance n args, tag); (mkInstance n args', tag')] (mkInstance n args') = Some tag /\
  newest_handler (mkInstance n args') [(mkInstance n args, tag); (mkInstance n args', tag')] (Some tag').
Proof. exact other_arguments. Qed.
Print Assumptions an_operation_reaches_its_handler_refuted.

(** Whatever the hash function, there are two abilities of which one answers for the other; nothing checks for it. *)
Theorem abilities_are_told_apart_refuted : forall finish, exists a b tag, a <> b /\
  answering finish [(mkInstance a [], tag)] (mkInstance b []) = Some tag /\
  newest_handler (mkInstance b []) [(mkInstance a [], tag)] None.
Proof. exact other_name. Qed.
Print Assumptions abilities_are_told_apart_refuted.

(** The references of the new lowering carry the type arguments.  Their numbers are the same if the arguments differ in
    attributes only ... *)
Theorem attributes_of_arguments_are_ignored : forall finish i j, iname i = iname j -> Forall2 same_shape (iargs i) (iargs j) ->
  compute_ability_id finish (logical_ref i) = compute_ability_id finish (logical_ref j).
Proof. exact logical_same. Qed.
Print Assumptions attributes_of_arguments_are_ignored.
(** ... and only then, unless hashes collide. *)
Theorem other_arguments_are_told_apart : forall finish i j, tells_apart (word32 finish) (fed_for finish i ++ fed_for finish j) ->
  compute_ability_id finish (logical_ref i) = compute_ability_id finish (logical_ref j) ->
  iname i = iname j /\ Forall2 same_shape (iargs i) (iargs j).
Proof. exact logical_apart. Qed.
Print Assumptions other_arguments_are_told_apart.
(** The name of a declared type is an attribute, so two declared types are not told apart, whatever the hash function. *)
Theorem declared_types_are_told_apart_refuted : forall finish, exists i j,
  i <> j /\ compute_ability_id finish (logical_ref i) = compute_ability_id finish (logical_ref j).
Proof.
  intros finish.
  exists (mkInstance "State" [IrTy "adt" "struct" [] [("name", ASymbol "Foo")]]), (mkInstance "State" [IrTy "adt" "struct" [] [("name", ASymbol "Bar")]]).
  split; [discriminate|]. apply logical_same; [reflexivity|]. repeat constructor.
Qed.
Print Assumptions declared_types_are_told_apart_refuted.

(** Within a handler, an operation that has an arm runs its first arm if no two of the operations have the same hash. *)
Theorem an_operation_runs_its_arm_partial : forall finish ability op arms n, first_arm (ability, op) arms n ->
  tells_apart (op_word finish) ((ability, op) :: arms) -> arm_of finish arms ability op = Some n.
Proof. exact arm_first. Qed.
Print Assumptions an_operation_runs_its_arm_partial.

(** A hash function, and a program with two abilities, that meet the hypotheses. *)
Definition sample (l : list hitem) : Z :=
  fold_left (fun h x => (h * 1000003 + match x with
    | HSymbol s => fold_left (fun k c => k * 131 + Z.of_nat (Ascii.nat_of_ascii c)) (list_ascii_of_string s) 7
    | HLength n => Z.of_nat n + 11 | HWord z => z + 13 | HSome => 1 | HNone => 0 end) mod 18446744073709551616) l 5.
Example reaches_example :
  let hs := [(mkInstance "Logger" [], 3); (mkInstance "State" [IrTy "core" "i32" [] []], 2); (mkInstance "Logger" [], 1)] in
  let i := mkInstance "State" [IrTy "core" "i32" [] []] in
  tells_apart (ability_word sample) (iname i :: List.map (fun h => iname (fst h)) hs) /\
  (forall j tag, In (j, tag) hs -> iname j = iname i -> j = i) /\
  answering sample hs i = Some 2 /\ answering sample hs (mkInstance "Logger" []) = Some 3.
Proof.
  split; [| split; [| split; vm_compute; reflexivity]].
  - intros x y X Y. cbn in X, Y. repeat (destruct X as [<- | X]); repeat (destruct Y as [<- | Y]); try contradiction;
      vm_compute; intros E; try reflexivity; discriminate.
  - intros j tag I E. cbn in I. repeat (destruct I as [I | I]; [injection I as <- <-; try discriminate E; reflexivity|]). contradiction.
Qed.
Example arms_example :
  let arms := [("State", "get"); ("State", "set"); ("Logger", "log")] in
  first_arm ("State", "set") arms 1 /\ tells_apart (op_word sample) (("State", "set") :: arms) /\ arm_of sample arms "State" "set" = Some 1%nat.
Proof.
  split; [constructor; [discriminate | constructor]|]. split; [| vm_compute; reflexivity].
  intros x y X Y. cbn in X, Y. repeat (destruct X as [<- | X]); repeat (destruct Y as [<- | Y]); try contradiction;
    vm_compute; intros E; try reflexivity; discriminate.
Qed.
Example told_apart_example :
  let i := mkInstance "State" [IrTy "core" "i32" [] []] in
  let j := mkInstance "State" [IrTy "core" "list" [IrTy "core" "i32" [] []] []] in
  tells_apart (word32 sample) (fed_for sample i ++ fed_for sample j) /\
  compute_ability_id sample (logical_ref i) <> compute_ability_id sample (logical_ref j).
Proof.
  split; [| vm_compute; discriminate].
  intros x y X Y. vm_compute in X, Y. repeat (destruct X as [<- | X]); repeat (destruct Y as [<- | Y]); try contradiction;
    vm_compute; intros E; try reflexivity; discriminate.
Qed.
