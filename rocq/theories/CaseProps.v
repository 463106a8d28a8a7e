(** C54: a case expression runs the first arm that matches.  C55: the check for exhaustiveness. *)
From Coq Require Import Lia.
From Verif Require Import CaseSpec CaseProofs CaseMain CaseExhaust.
Local Open Scope N_scope.

Lemma fine_all variants t logical arms : well_typed variants t arms -> all_supported arms -> (logical = true \/ all_flat arms) -> Forall (fine variants t logical) arms.
Proof.
  unfold well_typed, all_supported, all_flat. rewrite !Forall_forall. intros H1 H2 H3 a Ha. split; [auto|]. split; [auto|]. destruct H3; auto.
Qed.
Lemma sees_self uses e sc arms : sees uses e sc (locals e sc) arms.
Proof. intros a x _ _. reflexivity. Qed.

Lemma logical_ok eval kont uses variants t v e next s sc arms exhaustive :
  depends_on uses eval -> distinct_variants variants -> typed variants v t -> well_typed variants t arms -> all_supported arms -> well_scoped uses arms -> in_place e next s v sc ->
  (exhaustive = true -> chosen eval v (locals e sc) arms) ->
  exists next' ops r, logical_chain exhaustive next s sc arms = Done (next', ops, r) /\ code_result eval kont e ops r = or_nil (select eval (locals e sc) v arms).
Proof.
  intros Du D Tv Tp Sp W (Hs & Ls & B) Ch. destruct (logical_emits exhaustive arms Sp next s sc Ls) as (n & ops & r & E & _). exists n, ops, r. split; [exact E|].
  eapply logical_code; eauto using sees_self. apply fine_all; auto.
Qed.
Lemma legacy_ok eval kont uses variants t v e next s sc arms ie :
  depends_on uses eval -> distinct_variants variants -> typed variants v t -> well_typed variants t arms -> all_supported arms -> all_flat arms -> in_place e next s v sc ->
  chosen eval v (locals e sc) arms ->
  exists next' ops r, legacy_chain ie next s sc arms = Done (next', ops, r) /\ code_result eval kont e ops r = select eval (locals e sc) v arms.
Proof.
  intros Du D Tv Tp Sp F (Hs & Ls & B) Ch. destruct (legacy_emits arms Sp ie next s sc Ls) as (n & ops & r & E & _). exists n, ops, r. split; [exact E|].
  eapply legacy_code; eauto using sees_self. apply fine_all; auto.
Qed.
Lemma comp_ok eval kont uses variants t v e next s k sc arms ie direct :
  depends_on uses eval -> distinct_variants variants -> typed variants v t -> well_typed variants t arms -> all_supported arms -> all_flat arms -> well_scoped uses arms -> in_place e next s v sc ->
  e k = Some VCont -> k < next -> chosen eval v (locals e sc) arms ->
  exists next' ops r, comp_chain direct ie next s k sc arms = Done (next', ops, r) /\ code_result eval kont e ops r = continued kont (select eval (locals e sc) v arms).
Proof.
  intros Du D Tv Tp Sp F W (Hs & Ls & B) Hk Lk Ch. destruct (comp_emits direct arms Sp ie next s k sc Ls) as (n & ops & r & E & _). exists n, ops, r. split; [exact E|].
  eapply comp_code; eauto using sees_self. apply fine_all; auto.
Qed.
Lemma checked_ok eval variants names t h v arms outer : distinct_variants variants -> all_named variants names -> seen t h -> typed variants v t -> well_typed variants t arms ->
  all_flat arms -> check_exhaustiveness names h arms = Exhaustive -> chosen eval v outer arms.
Proof.
  intros D Nm Sn Tv Tp F H. apply covered_chosen. eapply exhaustive_covers; eauto. unfold all_flat in F. rewrite Forall_forall in F. auto.
Qed.

(** ** C54 *)
(** The logical route, when the checker has not proved the arms exhaustive: the arm that the source selects, nil if there is none. *)
Theorem logical_case_runs_selected_arm eval kont uses variants t v e next s sc arms :
  depends_on uses eval -> distinct_variants variants -> typed variants v t -> well_typed variants t arms -> all_supported arms -> well_scoped uses arms -> in_place e next s v sc ->
  exists next' ops r, logical_chain false next s sc arms = Done (next', ops, r) /\ code_result eval kont e ops r = or_nil (select eval (locals e sc) v arms).
Proof. intros. eapply logical_ok; eauto. discriminate. Qed.
Print Assumptions logical_case_runs_selected_arm.
(** When it has, the last arm is run without a test: some arm must be selected. *)
Theorem logical_exhaustive_case_partial eval kont uses variants t v e next s sc arms :
  depends_on uses eval -> distinct_variants variants -> typed variants v t -> well_typed variants t arms -> all_supported arms -> well_scoped uses arms -> in_place e next s v sc ->
  chosen eval v (locals e sc) arms ->
  exists next' ops r, logical_chain true next s sc arms = Done (next', ops, r) /\ code_result eval kont e ops r = or_nil (select eval (locals e sc) v arms).
Proof. intros. eapply logical_ok; eauto. Qed.
Print Assumptions logical_exhaustive_case_partial.
(** The route of the driver does not test the fields of variants: their patterns must match everything.  The last arm is run without a test. *)
Theorem legacy_case_partial eval kont uses variants t v e next s sc arms :
  depends_on uses eval -> distinct_variants variants -> typed variants v t -> well_typed variants t arms -> all_supported arms -> all_flat arms -> in_place e next s v sc ->
  chosen eval v (locals e sc) arms ->
  exists next' ops r, legacy_chain false next s sc arms = Done (next', ops, r) /\ code_result eval kont e ops r = select eval (locals e sc) v arms.
Proof. intros. eapply legacy_ok; eauto. Qed.
Print Assumptions legacy_case_partial.
(** The same with a continuation: it is called once, at the end, with the value of the arm. *)
Theorem comp_case_partial eval kont uses variants t v e next s k sc arms direct :
  depends_on uses eval -> distinct_variants variants -> typed variants v t -> well_typed variants t arms -> all_supported arms -> all_flat arms -> well_scoped uses arms -> in_place e next s v sc ->
  e k = Some VCont -> k < next -> chosen eval v (locals e sc) arms ->
  exists next' ops r, comp_chain direct false next s k sc arms = Done (next', ops, r) /\ code_result eval kont e ops r = continued kont (select eval (locals e sc) v arms).
Proof. intros. eapply comp_ok; eauto. Qed.
Print Assumptions comp_case_partial.
(** With the check: if it accepts arms without tests inside variants, all three routes do what the source says, and some arm is selected. *)
Theorem checked_case_partial eval kont uses variants names t h v e next s k sc arms direct :
  depends_on uses eval -> distinct_variants variants -> all_named variants names -> seen t h -> typed variants v t -> well_typed variants t arms -> all_supported arms -> all_flat arms ->
  well_scoped uses arms -> in_place e next s v sc -> e k = Some VCont -> k < next -> check_exhaustiveness names h arms = Exhaustive ->
  chosen eval v (locals e sc) arms
  /\ (exists next' ops r, legacy_chain false next s sc arms = Done (next', ops, r) /\ code_result eval kont e ops r = select eval (locals e sc) v arms)
  /\ (exists next' ops r, comp_chain direct false next s k sc arms = Done (next', ops, r) /\ code_result eval kont e ops r = continued kont (select eval (locals e sc) v arms))
  /\ (exists next' ops r, logical_chain true next s sc arms = Done (next', ops, r) /\ code_result eval kont e ops r = select eval (locals e sc) v arms).
Proof.
  intros Du D Nm Sn Tv Tp Sp F W P Hk Lk H. pose proof (checked_ok eval variants names t h v arms (locals e sc) D Nm Sn Tv Tp F H) as Ch.
  split; [exact Ch|]. split; [eapply legacy_ok; eauto|]. split; [eapply comp_ok; eauto|].
  destruct (logical_ok eval kont uses variants t v e next s sc arms true) as (n & ops & r & E & C); auto. exists n, ops, r. split; [exact E|]. rewrite C. unfold or_nil.
  unfold chosen in Ch. destruct (select eval (locals e sc) v arms) as [t0 [u|[]]]; try reflexivity. exfalso. apply Ch. reflexivity.
Qed.
Print Assumptions checked_case_partial.

(** A case expression that meets the hypotheses: [case x { [] -> 10, [h, ..t] if g -> 11, [h, ..r] -> 12 }], the list [7, 8] and a guard that fails. *)
Definition ex_eval (x : N) (f : N -> option value) : option value := if x =? 5 then Some (VBool false) else if x =? 12 then f 3 else Some (VInt (Z.of_N x)).
Definition ex_uses (x : N) : list N := if x =? 12 then [3] else [].
Definition ex_arms := [{| pat := List_ []; guard := None; body := 10 |}; {| pat := ListRest [Bind (Some 0)] (Some 1); guard := Some 5; body := 11 |};
                       {| pat := ListRest [Bind (Some 2)] (Some 3); guard := None; body := 12 |}].
Definition ex_env : env := fun x => if x =? 0 then Some (VList [VInt 7; VInt 8]) else if x =? 1 then Some VCont else None.
Definition no_variants : N -> list (N * list ty) := fun _ => [].
Lemma ex_depends : depends_on ex_uses ex_eval.
Proof. intros x f g H. unfold ex_eval, ex_uses in *. destruct (x =? 5); [reflexivity|]. destruct (x =? 12); [apply H; left; reflexivity|reflexivity]. Qed.
Example checked_case_ex : depends_on ex_uses ex_eval /\ distinct_variants no_variants /\ all_named no_variants (fun _ => None) /\ seen (TList TNumber) HList
  /\ typed no_variants (VList [VInt 7; VInt 8]) (TList TNumber) /\ well_typed no_variants (TList TNumber) ex_arms /\ all_supported ex_arms /\ all_flat ex_arms /\ well_scoped ex_uses ex_arms
  /\ in_place ex_env 2 0 (VList [VInt 7; VInt 8]) [] /\ ex_env 1 = Some VCont /\ check_exhaustiveness (fun _ => None) HList ex_arms = Exhaustive
  /\ select ex_eval (locals ex_env []) (VList [VInt 7; VInt 8]) ex_arms = ([Eval 5; Eval 12], inl (VList [VInt 8])).
Proof.
  split; [exact ex_depends|]. split; [intros e; constructor|]. split; [intros e l H; discriminate|]. split; [right; reflexivity|]. split; [repeat constructor|].
  split; [repeat constructor|]. split; [repeat constructor|]. split; [repeat constructor|].
  split.
  { cbn [well_scoped ex_arms]. split; [intros b x [<-|[<-|[]]] H; cbn; tauto|]. split; [|split; [intros b x []|exact I]].
    intros b x [<-|[]] (Hn & y & Hy & Hx) Hin. cbn in Hin, Hy. destruct Hy as [<-|[]]. cbn in Hx. destruct Hx as [<-|[]]. destruct Hin as [H|[H|[]]]; discriminate. }
  split; [repeat split; constructor|]. split; [reflexivity|]. split; reflexivity.
Qed.

(** *** What fails *)
Definition option_enum : N -> list (N * list ty) := fun e => if e =? 0 then [(1, [TNumber]); (2, [])] else [].
Definition value_of (x : N) (_ : N -> option value) : option value := Some (VInt (Z.of_N x)).
Definition scrutinee (v : value) : env := fun x => if x =? 0 then Some v else None.
Definition no_kont (_ : value) : option value := None.
Definition plain_arm_of (p : pattern) (b : N) : arm := {| pat := p; guard := None; body := b |}.
(** [case x { Some(1) -> 10, _ -> 11 }] with [Some(2)]: the source selects 11, the driver's code runs 10. *)
Theorem legacy_case_refuted : exists variants t v arms next' ops r, distinct_variants variants /\ typed variants v t /\ well_typed variants t arms /\ all_supported arms
  /\ check_exhaustiveness (fun e => Some (map fst (variants e))) (HNamed 0) arms = Exhaustive
  /\ in_place (scrutinee v) 1 0 v [] /\ legacy_chain false 1 0 [] arms = Done (next', ops, r)
  /\ select value_of (fun _ => None) v arms = ([Eval 11], inl (VInt 11)) /\ code_result value_of no_kont (scrutinee v) ops r = ([Eval 10], inl (VInt 10)).
Proof.
  exists option_enum, (TEnum 0), (VVariant 1 [VInt 2]), [plain_arm_of (Variant 1 [Literal (Nat_ 1)]) 10; plain_arm_of Wildcard 11]. do 3 eexists.
  split; [intros e; unfold option_enum; destruct (e =? 0); cbn; repeat constructor; cbn; intuition discriminate|].
  split; [apply t_variant with (ts := [TNumber]); [left; reflexivity|repeat constructor]|].
  split; [repeat constructor; apply p_variant with (more := []) (ts := [TNumber]); [left; reflexivity|repeat constructor]|].
  split; [repeat constructor|]. split; [reflexivity|]. split; [repeat split; constructor|]. split; [reflexivity|]. split; vm_compute; reflexivity.
Qed.
Print Assumptions legacy_case_refuted.
(** [case x { (1, 2) -> 10, (3, 4) -> 11 }] with [(5, 6)]: only a warning is reported, no arm is selected, and the last one runs. *)
Theorem last_arm_refuted : exists variants t v arms next' ops r, distinct_variants variants /\ typed variants v t /\ well_typed variants t arms /\ all_supported arms /\ all_flat arms
  /\ seen t HOther /\ check_exhaustiveness (fun _ => None) HOther arms = Warned
  /\ in_place (scrutinee v) 1 0 v [] /\ legacy_chain false 1 0 [] arms = Done (next', ops, r)
  /\ select value_of (fun _ => None) v arms = ([], inr NoArm) /\ code_result value_of no_kont (scrutinee v) ops r = ([Eval 11], inl (VInt 11)).
Proof.
  exists no_variants, (TTuple [TNumber; TNumber]), (VStruct [VInt 5; VInt 6]),
    [plain_arm_of (Tuple [Literal (Nat_ 1); Literal (Nat_ 2)]) 10; plain_arm_of (Tuple [Literal (Nat_ 3); Literal (Nat_ 4)]) 11]. do 3 eexists.
  split; [intros e; constructor|]. split; [repeat constructor|]. split; [repeat constructor|]. split; [repeat constructor|]. split; [repeat constructor|]. split; [right; reflexivity|].
  split; [reflexivity|]. split; [repeat split; constructor|]. split; [reflexivity|]. split; vm_compute; reflexivity.
Qed.
Print Assumptions last_arm_refuted.
(** The logical route with [case x { Some(1) -> 10, None -> 11 }], which the check calls exhaustive, and [Some(2)]: the code is stuck or runs 11. *)
Theorem logical_exhaustive_case_refuted : exists variants t v arms next' ops r, distinct_variants variants /\ typed variants v t /\ well_typed variants t arms /\ all_supported arms
  /\ check_exhaustiveness (fun e => Some (map fst (variants e))) (HNamed 0) arms = Exhaustive
  /\ in_place (scrutinee v) 1 0 v [] /\ logical_chain true 1 0 [] arms = Done (next', ops, r)
  /\ select value_of (fun _ => None) v arms = ([], inr NoArm) /\ code_result value_of no_kont (scrutinee v) ops r = ([], inr Stuck).
Proof.
  exists option_enum, (TEnum 0), (VVariant 1 [VInt 2]), [plain_arm_of (Variant 1 [Literal (Nat_ 1)]) 10; plain_arm_of (Variant 2 []) 11]. do 3 eexists.
  split; [intros e; unfold option_enum; destruct (e =? 0); cbn; repeat constructor; cbn; intuition discriminate|].
  split; [apply t_variant with (ts := [TNumber]); [left; reflexivity|repeat constructor]|].
  split; [repeat constructor; [apply p_variant with (more := []) (ts := [TNumber])|apply p_variant with (more := []) (ts := [])]; try (cbn; auto; fail); repeat constructor|].
  split; [repeat constructor|]. split; [reflexivity|]. split; [repeat split; constructor|]. split; [reflexivity|]. split; vm_compute; reflexivity.
Qed.
Print Assumptions logical_exhaustive_case_refuted.
(** Strings, floats and units are accepted as patterns, and stop the compiler. *)
Theorem literal_case_refuted : exists variants arms1 arms2 arms3, well_typed variants TOther arms1 /\ well_typed variants TOther arms2 /\ well_typed variants TNil arms3
  /\ (forall arms, In arms [arms1; arms2; arms3] -> (forall h, check_exhaustiveness (fun _ => None) h arms = Exhaustive)
        /\ legacy_chain false 1 0 [] arms = Panics /\ logical_chain false 1 0 [] arms = Panics /\ comp_chain (fun _ => true) false 1 0 0 [] arms = Panics).
Proof.
  exists no_variants, [plain_arm_of (Literal (String_ [104])) 10; plain_arm_of Wildcard 11], [plain_arm_of (Literal (Float_ 0)) 10; plain_arm_of Wildcard 11],
    [plain_arm_of (Literal Unit_) 10; plain_arm_of Wildcard 11].
  split; [repeat constructor|]. split; [repeat constructor|]. split; [repeat constructor|]. intros arms [<-|[<-|[<-|[]]]]; repeat split.
Qed.
Print Assumptions literal_case_refuted.
(** [User { age }] of a structure with the fields [name] and [age]: the variable gets the first field. *)
Theorem named_field_refuted : exists c names vs written b x, matches (Variant c (constructor_fields written)) (VVariant c vs) = Some b
  /\ In (snd names, Bind (Some x)) written /\ lookup b x <> field [fst names; snd names] vs (snd names) /\ field [fst names; snd names] vs (snd names) <> None.
Proof.
  exists 1, (20, 21), [VOther 1; VInt 30], [(21, Bind (Some 7))], [(7, VOther 1)], 7. split; [reflexivity|]. split; [left; reflexivity|]. split; vm_compute; discriminate.
Qed.
Print Assumptions named_field_refuted.
(** Fields written in the order of the declaration, from the first on, are bound to the fields that they name.  Partial: nothing holds of the other orders. *)
Theorem named_fields_in_order_partial c written more vs xs : NoDup (map fst written ++ more) -> length vs = length (map fst written ++ more) -> NoDup xs ->
  map snd written = map (fun x => Bind (Some x)) xs ->
  exists b, matches (Variant c (constructor_fields written)) (VVariant c vs) = Some b
    /\ forall f x, In (f, Bind (Some x)) written -> lookup b x = field (map fst written ++ more) vs f.
Proof. exact (named_in_order c written more vs xs). Qed.
Print Assumptions named_fields_in_order_partial.
Example named_fields_ex : let written := [(20, Bind (Some 7)); (21, Bind (Some 8))] in NoDup (map fst written ++ [22]) /\ NoDup [7; 8]
  /\ matches (Variant 1 (constructor_fields written)) (VVariant 1 [VOther 1; VInt 30; VInt 31]) = Some [(7, VOther 1); (8, VInt 30)].
Proof. split; [repeat constructor; cbn; intuition congruence|]. split; [repeat constructor; cbn; intuition congruence|reflexivity]. Qed.

(** ** C55 *)
(** Arms that the check proves exhaustive match every value, if variants have no tests inside. *)
Theorem exhaustive_sound_partial variants names t h arms v : distinct_variants variants -> all_named variants names -> seen t h -> typed variants v t ->
  well_typed variants t arms -> (forall a, In a arms -> guard a = None -> flat (pat a)) -> check_exhaustiveness names h arms = Exhaustive -> covered arms v.
Proof. exact (exhaustive_covers variants names t h arms v). Qed.
Print Assumptions exhaustive_sound_partial.
(** Arms of one test each that match every value of an enum, a list or a Bool are found exhaustive. *)
Theorem exhaustive_complete_partial variants names t h arms : (match t with TBool | TList _ | TEnum _ => True | _ => False end) -> seen t h -> h <> HUniVar ->
  inhabited variants t -> (forall e c ts u, In (c, ts) (variants e) -> In u ts -> inhabited variants u) ->
  (forall e, t = TEnum e -> names e = Some (map fst (variants e))) -> (forall u, t = TList u -> inhabited variants u) ->
  (forall a, In a arms -> guard a = None -> plain_arm a) -> (forall v, typed variants v t -> covered arms v) -> check_exhaustiveness names h arms = Exhaustive.
Proof.
  intros Ht [H|H] Hu I1 I2 I3 I4 I5 I6; [contradiction|]. apply (exhaustive_complete variants names t); auto. rewrite H. destruct t; try reflexivity; contradiction.
Qed.
Print Assumptions exhaustive_complete_partial.
Example exhaustive_ex : check_exhaustiveness (fun e => Some (map fst (option_enum e))) (HNamed 0) [plain_arm_of (Variant 1 [Bind (Some 0)]) 10; plain_arm_of (As (Variant 2 []) (Some 1)) 11] = Exhaustive
  /\ check_exhaustiveness (fun e => Some (map fst (option_enum e))) (HNamed 0) [plain_arm_of (Variant 1 [Bind (Some 0)]) 10; {| pat := Variant 2 []; guard := Some 5; body := 11 |}] = NotCovered
  /\ typed option_enum (VVariant 1 [VInt 3]) (TEnum 0) /\ plain_arm (plain_arm_of (As (Variant 2 []) (Some 1)) 11).
Proof.
  split; [reflexivity|]. split; [reflexivity|]. split; [apply t_variant with (ts := [TNumber]); [left; reflexivity|repeat constructor]|]. right. do 2 eexists. split; [reflexivity|]. repeat constructor.
Qed.
(** [Some(1)] and [None] are called exhaustive, and [Some(2)] is not matched. *)
Theorem exhaustive_sound_refuted : exists variants t arms v, distinct_variants variants /\ typed variants v t /\ well_typed variants t arms /\ all_supported arms
  /\ check_exhaustiveness (fun e => Some (map fst (variants e))) (HNamed 0) arms = Exhaustive /\ ~ covered arms v.
Proof.
  exists option_enum, (TEnum 0), [plain_arm_of (Variant 1 [Literal (Nat_ 1)]) 10; plain_arm_of (Variant 2 []) 11], (VVariant 1 [VInt 2]).
  split; [intros e; unfold option_enum; destruct (e =? 0); cbn; repeat constructor; cbn; intuition discriminate|].
  split; [apply t_variant with (ts := [TNumber]); [left; reflexivity|repeat constructor]|].
  split; [repeat constructor; [apply p_variant with (more := []) (ts := [TNumber])|apply p_variant with (more := []) (ts := [])]; try (cbn; auto; fail); repeat constructor|].
  split; [repeat constructor|]. split; [reflexivity|]. intros (a & [<-|[<-|[]]] & _ & H); apply H; reflexivity.
Qed.
Print Assumptions exhaustive_sound_refuted.
(** [_] and then [1] match every number, and are refused; the arms [(1, _)] for a tuple do not, and are accepted with a warning; and nothing at all is
    said of [1] if the type is not known yet. *)
Theorem exhaustive_complete_refuted : (exists arms, well_typed no_variants TNumber arms /\ (forall v, covered arms v) /\ check_exhaustiveness (fun _ => None) HNumber arms = NotCovered)
  /\ (exists arms v, well_typed no_variants (TTuple [TNumber; TNumber]) arms /\ typed no_variants v (TTuple [TNumber; TNumber]) /\ ~ covered arms v /\ check_exhaustiveness (fun _ => None) HOther arms = Warned)
  /\ (exists arms v, well_typed no_variants TNumber arms /\ typed no_variants v TNumber /\ ~ covered arms v /\ check_exhaustiveness (fun _ => None) HUniVar arms = Silent).
Proof.
  split; [|split].
  - exists [plain_arm_of Wildcard 10; plain_arm_of (Literal (Nat_ 1)) 11]. split; [repeat constructor|]. split; [|reflexivity]. intros v. exists (plain_arm_of Wildcard 10). split; [left; reflexivity|]. split; [reflexivity|discriminate].
  - exists [plain_arm_of (Tuple [Literal (Nat_ 1); Wildcard]) 10], (VStruct [VInt 2; VInt 3]). split; [repeat constructor|]. split; [repeat constructor|]. split; [|reflexivity]. intros (a & [<-|[]] & _ & H); apply H; reflexivity.
  - exists [plain_arm_of (Literal (Nat_ 1)) 10], (VInt 2). split; [repeat constructor|]. split; [constructor|]. split; [|reflexivity]. intros (a & [<-|[]] & _ & H); apply H; reflexivity.
Qed.
Print Assumptions exhaustive_complete_refuted.
