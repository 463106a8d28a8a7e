(** Property C82: two different types are never shown as the same. *)
From Verif Require Import TypeTextSpec TypeTextProofs.

(** Types without inference variables and with one row variable at most, in which every
    name stands for one definition, are told apart by what is shown. *)
Theorem shown_types_are_told_apart_partial : forall means : text -> nat -> Prop, (forall n i j, means n i -> means n j -> i = j) ->
  forall row t t', settled means row t -> settled means row t' -> print t = print t' -> t = t'.
Proof. exact print_inj. Qed.
Print Assumptions shown_types_are_told_apart_partial.

(** Nor is a shown type the beginning of another one with a comma, blank or bracket after it:
    lists of types are read in one way only. *)
Theorem shown_types_end_in_one_place : forall means : text -> nat -> Prop, (forall n i j, means n i -> means n j -> i = j) ->
  forall row t, settled means row t -> forall t' r r', settled means row t' -> closes r -> closes r' -> print t ++ r = print t' ++ r' -> t = t' /\ r = r'.
Proof. exact all_read. Qed.
Print Assumptions shown_types_end_in_one_place.

(** Primitive types are shown by their names, variables by letters while there are
    any, and by their number behind a mark after that. *)
Theorem leaves_are_shown_by_name : (forall p, print (Prim p) = txt (source_name p)) /\
  (forall i, shows_number "t" i (print (BoundVar i))) /\
  (forall n i, shows_number "?" (n + i) (print (UniVar (FunctionLocal n) i)) /\ shows_number "?" (n + i) (print (UniVar (Anonymous n) i)) /\ shows_number "?" (n + i) (print (UniVar (Solver n) i))).
Proof. exact leaves_shown. Qed.
Print Assumptions leaves_are_shown_by_name.

(** Otherwise not: two inference variables of one function; one of them and a variable
    of the signature; a function that is polymorphic in its effects in two ways; two
    definitions of one name. *)
Definition pair_of (a b : ty) : ty := Func [a] b [] None.
Lemma same_text :
  (let a := UniVar (FunctionLocal 0) 1 in let b := UniVar (FunctionLocal 1) 0 in a <> b /\ print (pair_of a b) = print (pair_of a a)) /\
  (let a := UniVar (Solver 0) 0 in a <> BoundVar 0 /\ print (pair_of a (BoundVar 0)) = print (pair_of a a)) /\
  (let f row := Func [] (Prim Int) [] (Some row) in f 0%nat <> f 1%nat /\ print (Func [f 0%nat] (f 1%nat) [] None) = print (Func [f 0%nat] (f 0%nat) [] None)) /\
  (forall n, print (Named 0 n []) = print (Named 1 n [])).
Proof. repeat split; cbn; discriminate. Qed.
Theorem shown_types_are_told_apart_refuted :
  (let a := UniVar (FunctionLocal 0) 1 in let b := UniVar (FunctionLocal 1) 0 in a <> b /\ print (pair_of a b) = print (pair_of a a)) /\
  (let a := UniVar (Solver 0) 0 in a <> BoundVar 0 /\ print (pair_of a (BoundVar 0)) = print (pair_of a a)) /\
  (let f row := Func [] (Prim Int) [] (Some row) in f 0%nat <> f 1%nat /\ print (Func [f 0%nat] (f 1%nat) [] None) = print (Func [f 0%nat] (f 0%nat) [] None)) /\
  (forall n, print (Named 0 n []) = print (Named 1 n [])).
Proof. exact same_text. Qed.
Print Assumptions shown_types_are_told_apart_refuted.

(** What is shown, and a case of the first theorem. *)
Definition list_t (t : ty) : ty := Named 7 (txt "List") [t].
Definition console : ty := Named 9 (txt "Console") [].
Definition state (t : ty) : ty := Named 8 (txt "State") [t].
Definition mapper : ty := Func [list_t (BoundVar 0); Func [BoundVar 0] (BoundVar 1) [] None] (list_t (BoundVar 1)) [state (Prim Nat'); console] (Some 0%nat).
Example mapper_shown : string_of_list_ascii (print mapper) = "fn(List(a), fn(a) -> b) ->{State(Nat), Console | e} List(b)"%string.
Proof. reflexivity. Qed.
Example others_shown : List.map (fun t => string_of_list_ascii (print t))
  [Tuple []; Tuple [Prim Int; Prim Bool']; Error; BoundVar 25; BoundVar 26; UniVar (Anonymous 20) 10; App (BoundVar 5) [Prim Rune];
   Func [] (Prim Nil) [console] (Some 0%nat); Func [Prim Bytes] (Prim Never) [] (Some 0%nat); Prim Float] =
  ["()"; "(Int, Bool)"; "<error>"; "z"; "t26"; "?30"; "f(Rune)"; "fn() ->{Console | e} Nil"; "fn(Bytes) ->{e} Never"; "Float"]%string.
Proof. reflexivity. Qed.
Definition means (n : text) (i : nat) : Prop := (n = txt "List" /\ i = 7) \/ (n = txt "State" /\ i = 8) \/ (n = txt "Console" /\ i = 9).
Lemma means_one n i j : means n i -> means n j -> i = j.
Proof. intros [[-> ->]|[[-> ->]|[-> ->]]] [[E ->]|[[E ->]|[E ->]]]; try discriminate; reflexivity. Qed.
Example mapper_settled : settled means 0 mapper.
Proof.
  assert (N : forall i n args, means n i -> Forall (settled means 0) args -> settled means 0 (Named i n args)).
  { intros i n args M F. constructor; auto.
    - destruct M as [[-> _]|[[-> _]|[-> _]]]; (split; [reflexivity|cbn; lia]).
    - intros [p E]. destruct M as [[-> _]|[[-> _]|[-> _]]]; destruct p; discriminate. }
  assert (B : forall i, settled means 0 (BoundVar i)) by (intros; constructor).
  unfold mapper. constructor.
  - auto.
  - constructor; [apply N; [unfold means; auto|repeat constructor]|]. constructor; [|constructor].
    apply SFunc; [auto|repeat constructor|apply B|constructor|intros e []].
  - apply N; [unfold means; auto|]. repeat constructor.
  - constructor; [apply N; [unfold means; auto|repeat constructor]|]. constructor; [apply N; [unfold means; auto|constructor]|constructor].
  - intros e [<-|[<-|[]]]; unfold state, console; eauto.
Qed.
