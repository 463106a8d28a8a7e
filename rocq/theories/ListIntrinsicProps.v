(** Property C83: turning the list construction intrinsic into list operations does
    not change what a program does. *)
From Verif Require Import ListIntrinsicSpec ListIntrinsicProofs.

(** Every function that is no such intrinsic does the same before and after, for all
    arguments and any depth of calls, if names are declared once and the intrinsic is
    called only, never used as a function value. *)
Lemma same_behaviour p : NoDup (List.map name p) -> (forall d i, In d p -> In i (body d) -> no_ref (stands_for_it p) i) ->
  forall fuel n args, ~ stands_for_it p n -> (forall v, In v args -> no_fun (stands_for_it p) v) -> invoke fuel (run p) n args = invoke fuel p n args.
Proof.
  intros U R fuel n args B F. apply invoke_same; auto.
  - intros d I. apply Forall_forall. intros i Ii. apply (R d i I Ii).
  - apply Forall_forall, F.
Qed.
Theorem list_construction_is_lowered_partial : forall p, NoDup (List.map name p) -> (forall d i, In d p -> In i (body d) -> no_ref (stands_for_it p) i) ->
  forall fuel n args, ~ stands_for_it p n -> (forall v, In v args -> no_fun (stands_for_it p) v) -> invoke fuel (run p) n args = invoke fuel p n args.
Proof. exact same_behaviour. Qed.
Print Assumptions list_construction_is_lowered_partial.

(** No declaration of the intrinsic is left, and no call of it with two arguments and
    one result. *)
Theorem no_list_intrinsic_is_left : forall p d, NoDup (List.map name p) -> In d (run p) -> ~ prepends d /\
  forall i c args rs, In i (body d) -> calls c args rs i -> stands_for_it p c -> List.length args <> 2 \/ List.length rs <> 1.
Proof. exact run_left. Qed.
Print Assumptions no_list_intrinsic_is_left.

(** A program that only has ordinary functions of that name is not touched. *)
Theorem functions_of_that_name_are_left_alone : forall p, (forall d, In d p -> ~ prepends d) -> run p = p.
Proof. exact run_none. Qed.
Print Assumptions functions_of_that_name_are_left_alone.

(** As a function value the intrinsic works before and is missing after the pass. *)
Definition intrinsic_decl : decl := {| name := public_name; intrinsic := true; params := [0; 1]; body := []; ret := 0 |}.
Definition by_value : program := [intrinsic_decl; {| name := txt "main"; intrinsic := false; params := [0; 1]; body := [Ref public_name 2; Indirect 2 [0; 1] 3]; ret := 3 |}].
Lemma value_missing : NoDup (List.map name by_value) /\ invoke 1 by_value (txt "main") [Atom 7; List [Atom 8]] = Done (List [Atom 7; Atom 8]) /\
  forall fuel, invoke (S fuel) (run by_value) (txt "main") [Atom 7; List [Atom 8]] = Stuck.
Proof. split; [repeat constructor; cbn; intuition discriminate|]. split; [vm_compute; reflexivity|]. intros fuel. vm_compute. reflexivity. Qed.
Theorem list_construction_is_lowered_refuted : NoDup (List.map name by_value) /\ invoke 1 by_value (txt "main") [Atom 7; List [Atom 8]] = Done (List [Atom 7; Atom 8]) /\
  forall fuel, invoke (S fuel) (run by_value) (txt "main") [Atom 7; List [Atom 8]] = Stuck.
Proof. exact value_missing. Qed.
Print Assumptions list_construction_is_lowered_refuted.

(** A case: specialized calls, one of them with a function of its own, in nested code. *)
Definition special_name (s : string) : text := public_name ++ txt "$" ++ txt s.
Definition prog : program :=
  [intrinsic_decl;
   {| name := special_name "Own"; intrinsic := false; params := [0; 1]; body := []; ret := 1 |};
   {| name := txt "main"; intrinsic := false; params := [0; 1];
      body := [Call (special_name "Int") [0; 1] [2]; If 0 [Call public_name [0; 2] [3]; Ref (txt "main") 5] [Call (special_name "Own") [0; 2] [3]]]; ret := 3 |}].
Example prog_lowered : run prog =
  [{| name := special_name "Own"; intrinsic := false; params := [0; 1]; body := []; ret := 1 |};
   {| name := txt "main"; intrinsic := false; params := [0; 1];
      body := [Prepend 0 1 2; If 0 [Prepend 0 2 3; Ref (txt "main") 5] [Call (special_name "Own") [0; 2] [3]]]; ret := 3 |}].
Proof. vm_compute. reflexivity. Qed.
Example prog_runs : invoke 2 (run prog) (txt "main") [Atom 1; List []] = Done (List [Atom 1; Atom 1]) /\
  invoke 2 (run prog) (txt "main") [Atom 0; List []] = Done (List [Atom 0]) /\ invoke 1 prog (txt "main") [Atom 0; List []] = More.
Proof. vm_compute. auto. Qed.
Example prog_meets : NoDup (List.map name prog) /\ (forall d i, In d prog -> In i (body d) -> no_ref (stands_for_it prog) i) /\ ~ stands_for_it prog (txt "main").
Proof.
  assert (M : ~ stands_for_it prog (txt "main")).
  { intros (d & E & [K _]). vm_compute in E. injection E as <-. discriminate. }
  split; [repeat constructor; cbn; intuition discriminate|]. split; [|exact M].
  intros d i [<-|[<-|[<-|[]]]] I; cbn in I; try contradiction. destruct I as [<-|[<-|[]]]; cbn [no_ref fold_right]; auto.
Qed.
