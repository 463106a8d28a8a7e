(** Property C23. *)
From Coq Require Import Lia.
From Verif Require Import InlineModel InlineSpec InlineProofs InlineMain InlineTerm InlineDone.
Local Open Scope N_scope.

(** C23: inlining does not change what calls of the module's functions do: they return the same values and leave the same memory (with all input and
    output), for every meaning of the other operations, every policy configuration and every valid module.
    Missing for the full property: functions of several blocks (inlining runs before control flow is lowered), and the effects of calls that never return. *)
Theorem inlining_keeps_behaviour_partial : forall V M (act : N -> list V -> list (list V) -> M -> action V M) leaves fval external rets cfg fuel next p next' c p',
  valid leaves rets next p -> inline_functions cfg fuel next p = Some (next', c, p') ->
  forall f vs m ws m', returns act leaves fval external p f vs m ws m' <-> returns act leaves fval external p' f vs m ws m'.
Proof. intros V M act leaves fval external rets cfg fuel next p next' c p' Hv E. exact (proj2 (proj2 (proj2 (proj2 (inline_step leaves rets act fval external cfg fuel next p next' c p' Hv E))))). Qed.
Print Assumptions inlining_keeps_behaviour_partial.

(** The same for one visit of all functions with any choice of what to inline. *)
Theorem any_inlining_keeps_behaviour_partial : forall V M (act : N -> list V -> list (list V) -> M -> action V M) leaves fval external rets pick next p next' c p',
  valid leaves rets next p -> visit_funcs pick next [] p = (next', c, p') ->
  forall f vs m ws m', returns act leaves fval external p f vs m ws m' <-> returns act leaves fval external p' f vs m ws m'.
Proof. intros V M act leaves fval external rets pick next p next' c p' Hv E. exact (proj2 (proj2 (proj2 (proj2 (funcs_step leaves rets act fval external pick p next [] next' c p' Hv E))))). Qed.
Print Assumptions any_inlining_keeps_behaviour_partial.

(** C23: the module stays valid — values are defined before they are used and only once, calls fit their callees — and keeps its functions. *)
Theorem inlining_keeps_validity : forall leaves rets cfg fuel next p next' c p',
  valid leaves rets next p -> inline_functions cfg fuel next p = Some (next', c, p') -> valid leaves rets next' p' /\ map name p' = map name p /\ map abi p' = map abi p.
Proof.
  intros leaves rets cfg fuel next p next' c p' Hv E.
  destruct (inline_step leaves rets (fun _ _ _ m => Finish [] m) (fun _ => tt) (fun _ _ (_ : unit) _ _ => True) cfg fuel next p next' c p' Hv E) as (_ & A & B & C & _).
  exact (conj A (conj (eq_sym B) (eq_sym C))).
Qed.
Print Assumptions inlining_keeps_validity.

(** C23: inlining comes to an end, for every module whose functions have different names. *)
Theorem inlining_terminates : forall cfg next p, NoDup (map name p) -> exists result fuel0, forall fuel, (fuel0 <= fuel)%nat -> inline_functions cfg fuel next p = Some result.
Proof. exact terminates. Qed.
Print Assumptions inlining_terminates.

(** C23: the policy is the documented one.  Recursion is reachability through calls and references. *)
Theorem policy_exact : forall p recursive cfg g, NoDup (map name p) -> recursive_in p = Some recursive -> (should_inline cfg p recursive p g = true <-> may_inline cfg p g).
Proof. exact policy. Qed.
Print Assumptions policy_exact.

(** C23: afterwards no call is left that may be inlined and can be: whose callee is one block ending in a return, with a parameter for each operand. *)
Theorem inlining_complete : forall cfg fuel next p next' c p', NoDup (map name p) -> inline_functions cfg fuel next p = Some (next', c, p') ->
  forall x rs k xs rg g, In x p' -> In (Op rs k xs rg) (func_ops x) -> k = Call g \/ k = TailCall g -> may_inline cfg p' g ->
  forall params ops, body_of p' g = Some (Region [Block params ops]) -> List.length params = List.length xs -> forall body last ys rg', ops <> body ++ [Op last Return ys rg'].
Proof. exact done_all. Qed.
Print Assumptions inlining_complete.
(** Inlining again changes nothing. *)
Theorem inlining_idempotent : forall cfg fuel next p next' c p', inline_functions cfg fuel next p = Some (next', c, p') -> inline_functions cfg 1 next' p' = Some (next', 0%nat, p').
Proof. exact again. Qed.
Print Assumptions inlining_idempotent.

(** ** Examples *)
(** f0(1) = 2 := f1(1); 3 := op5(2, 1); 4 := op6 (if) { 5 := f1(3); yield 5 } ; return 4.  f1(10) = 11 := op7(10); 12 := f2(11); return 12.
    f2(20) = tail f3(20).  f3(30) = 31 := f3(30); return 31.  f4(40) = 41 := op7(40); tail f1(41). *)
Definition ex_module : list func :=
  [ {| name := 0; abi := false; regions_of := [Region [Block [1] [Op [2] (Call 1) [1] []; Op [3] (Other 5) [2; 1] []; Op [4] (Other 6) [3] [Region [Block [] [Op [5] (Call 1) [3] []; Op [] (Other 9) [5] []]]]; Op [] Return [4] []]]] |};
    {| name := 1; abi := false; regions_of := [Region [Block [10] [Op [11] (Other 7) [10] []; Op [12] (Call 2) [11] []; Op [] Return [12] []]]] |};
    {| name := 2; abi := false; regions_of := [Region [Block [20] [Op [] (TailCall 3) [20] []]]] |};
    {| name := 3; abi := false; regions_of := [Region [Block [30] [Op [31] (Call 3) [30] []; Op [] Return [31] []]]] |};
    {| name := 4; abi := false; regions_of := [Region [Block [40] [Op [41] (Other 7) [40] []; Op [] (TailCall 1) [41] []]]] |};
    {| name := 5; abi := false; regions_of := [] |} ].
Definition ex_leaves (k : N) : bool := k =? 9.
Definition ex_cfg : config := {| size_threshold := 16; always_inline_single_call_site := true; inline_across_func_constant := false |}.
Ltac incl_tac := let x := fresh in intros x; cbn; tauto.
Ltac scoped_tac := repeat (match goal with |- Forall _ _ => constructor | |- scoped _ _ => constructor | |- region_scoped _ _ => constructor | |- incl _ _ => incl_tac end).
Ltac valid_tac := constructor; cbn [regions_of];
  [ first [left; reflexivity|right; eexists; eexists; reflexivity]
  | scoped_tac
  | cbn; repeat (constructor; [cbn; intuition discriminate|]); constructor
  | cbn; intros x H; repeat (destruct H as [<-|H]; [reflexivity|]); destruct H
  | cbn; repeat constructor
  | first [discriminate|intros ps os E; injection E as <- <-; cbn; split; [repeat (constructor; [reflexivity|]); constructor|intros _; repeat (constructor; [cbn; repeat split|]); constructor]] ].
Example ex_module_valid : valid ex_leaves (fun _ => 1%nat) 100 ex_module.
Proof. split; [cbn; repeat (constructor; [cbn; intuition discriminate|]); constructor|]. unfold ex_module. repeat (constructor; [valid_tac|]). constructor. Qed.
Example ex_module_inlined : inline_functions ex_cfg 5 100 ex_module = Some (106, 3%nat,
  [ {| name := 0; abi := false; regions_of := [Region [Block [1] [Op [100] (Other 7) [1] []; Op [101] (Call 2) [100] []; Op [3] (Other 5) [101; 1] [];
                                                Op [4] (Other 6) [3] [Region [Block [] [Op [102] (Other 7) [3] []; Op [103] (Call 2) [102] []; Op [] (Other 9) [103] []]]]; Op [] Return [4] []]]] |};
    {| name := 1; abi := false; regions_of := [Region [Block [10] [Op [11] (Other 7) [10] []; Op [12] (Call 2) [11] []; Op [] Return [12] []]]] |};
    {| name := 2; abi := false; regions_of := [Region [Block [20] [Op [] (TailCall 3) [20] []]]] |};
    {| name := 3; abi := false; regions_of := [Region [Block [30] [Op [31] (Call 3) [30] []; Op [] Return [31] []]]] |};
    {| name := 4; abi := false; regions_of := [Region [Block [40] [Op [41] (Other 7) [40] []; Op [104] (Other 7) [41] []; Op [105] (Call 2) [104] []; Op [] Return [105] []]]] |};
    {| name := 5; abi := false; regions_of := [] |} ]).
Proof. vm_compute. reflexivity. Qed.

(** ** What does not hold *)
(** f0(1) = 2 := f1(1); 3 := op5(2); return 3.  f1(10) = op20 { return 10 }; return 10.  A return inside a region of the callee is copied as it is: after
    inlining it returns from the caller.  Only the end of the callee's block is looked at. *)
Definition nested_return : list func :=
  [ {| name := 0; abi := false; regions_of := [Region [Block [1] [Op [2] (Call 1) [1] []; Op [3] (Other 5) [2] []; Op [] Return [3] []]]] |};
    {| name := 1; abi := false; regions_of := [Region [Block [10] [Op [] (Other 20) [] [Region [Block [] [Op [] Return [10] []]]]; Op [] Return [10] []]]] |} ].
Definition nested_act (k : N) (vs : list N) (h : list (list N)) (m : unit) : action N unit :=
  if k =? 20 then match h with [] => Run 0%nat [] m | _ => Finish [] m end else Finish (map (fun v => v + v) vs) m.
Theorem inlining_keeps_behaviour_refuted : exists next' c p',
  inline_functions ex_cfg 5 100 nested_return = Some (next', c, p') /\
  returns nested_act ex_leaves (fun _ => 0) (fun _ _ _ _ _ => False) nested_return 0 [1] tt [2] tt /\
  ~ returns nested_act ex_leaves (fun _ => 0) (fun _ _ _ _ _ => False) p' 0 [1] tt [2] tt.
Proof.
  eexists _, _, _. split; [vm_compute; reflexivity|]. split.
  - exists 2%nat. cbn [call_at body_of lookup find nested_return name N.eqb regions_of]. split; [reflexivity|].
    eapply run_call with (vs := [1]) (ws := [1]) (m' := tt); [reflexivity| |reflexivity|].
    + cbn [call_at body_of lookup find nested_return name N.eqb Pos.eqb regions_of]. split; [reflexivity|]. eapply run_exit with (vs := []); [reflexivity|]. eapply step_exit; [reflexivity|reflexivity|reflexivity|]. apply run_return. reflexivity.
    + eapply run_other with (vs := [1]) (ws := [2]); [reflexivity|apply step_finish; reflexivity|reflexivity|]. apply run_return. reflexivity.
  - intros ([|d] & H); [destruct H|]. cbn in H. destruct H as [_ H].
    assert (K : forall h e rg o, steps nested_act ex_leaves (fun _ => 0) (call_at nested_act ex_leaves (fun _ => 0) (fun _ _ _ _ _ => False)
        [ {| name := 0; abi := false; regions_of := [Region [Block [1] [Op [] (Other 20) [] [Region [Block [] [Op [] Return [1] []]]]; Op [3] (Other 5) [1] []; Op [] Return [3] []]]] |};
          {| name := 1; abi := false; regions_of := [Region [Block [10] [Op [] (Other 20) [] [Region [Block [] [Op [] Return [10] []]]]; Op [] Return [10] []]]] |} ] d) e rg 20 [] h tt o ->
      h = [] -> rg = [Region [Block [] [Op [] Return [1] []]]] -> value e 1 = Some 1 -> o = Exits [1] tt).
    { intros h e rg o S -> -> Ev. inversion S; subst; try match goal with A : nested_act _ _ _ _ = _ |- _ => discriminate A end.
      - match goal with A : nested_act _ _ _ _ = Run _ _ _ |- _ => injection A as <- <- <- end. match goal with A : nth_error _ _ = _ |- _ => injection A as <- <- end.
        match goal with A : run _ _ _ _ _ _ _ (Left_ _ _) |- _ => inversion A end.
      - match goal with A : nested_act _ _ _ _ = Run _ _ _ |- _ => injection A as <- <- <- end. match goal with A : nth_error _ _ = _ |- _ => injection A as <- <- end.
        match goal with A : run _ _ _ _ _ _ _ (Returned _ _) |- _ => inversion A; subst end. match goal with A : values _ _ = _ |- _ => cbn in A; rewrite Ev in A; injection A as <- end. reflexivity. }
    inversion H; subst; match goal with A : values _ [] = Some _ |- _ => injection A as <- end; match goal with A : steps _ _ _ _ _ _ _ _ _ _ _ |- _ => apply K in A; auto; discriminate A end.
Qed.
Print Assumptions inlining_keeps_behaviour_refuted.
(** The callee is what [valid] excludes. *)
Example nested_return_excluded : ~ exists rets, valid ex_leaves rets 100 nested_return.
Proof.
  intros (rets & _ & F). inversion F as [|? ? _ F1]; subst. inversion F1 as [|? ? V _]; subst. destruct V as [_ _ _ _ _ En]. specialize (En _ _ eq_refl). destruct En as [_ En]. specialize (En eq_refl). inversion En as [|? ? S _]; subst. destruct S as (_ & _ & S). discriminate.
Qed.
