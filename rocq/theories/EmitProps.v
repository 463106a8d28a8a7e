(** C72: structured control flow is compiled to valid WebAssembly that does the same. *)
From Verif Require Import EmitMain.

(** A small machine: numbers, and a counter as the world. *)
Definition int_t : vt := 2.
Definition ref_t : vt := 3.
Definition k_seven := 0.
Definition k_small := 1.      (* is it less than three *)
Definition k_return := 2.
Definition k_succ := 3.
Definition k_tick := 4.
Definition k_apply := 5.      (* an indirect operation: ten times the first plus the callee *)
Definition k_true := 6.
Definition k_leave := 7.
Definition k_null := 8.       (* what [wasm.nop] with a nil result becomes, emit.rs:958-966: a null reference *)
Definition x_sem (k : nat) (xs : list nat) (w : nat) : eff nat nat :=
  match k, xs with
  | 0, _ => EVal (Some 7) w
  | 1, x :: _ => EVal (Some (if Nat.ltb x 3 then 1 else 0)) w
  | 1, [] => ETrap w
  | 2, _ => EReturn xs w
  | 3, x :: _ => EVal (Some (S x)) w
  | 3, [] => ETrap w
  | 4, _ => EVal None (S w)
  | 5, [x; f] => EVal (Some (10 * x + f)) w
  | 5, _ => ETrap w
  | 6, _ => EVal (Some 1) w
  | 7, _ => EReturn [] w
  | 8, _ => EVal (Some 0) w
  | _, _ => ETrap w
  end.
Definition x_params (k : nat) : list vt :=
  match k with 1 | 2 | 3 => [int_t] | 5 => [int_t; int_t] | _ => [] end.
Definition x_pushes (k : nat) : option vt :=
  match k with 0 | 3 | 5 => Some int_t | 1 | 6 => Some bool_t | 8 => Some ref_t | _ => None end.
Definition x_ends (k : nat) : bool := match k with 2 | 7 => true | _ => false end.
Definition x_indirect (k : nat) : bool := Nat.eqb k 5.
Definition x_truth (x : nat) : bool := negb (Nat.eqb x 0).
Definition x_default (t : vt) : nat := 0.
Lemma x_lawful : lawful x_sem x_pushes x_ends.
Proof.
  split; intros k xs w o w' H;
    do 9 (destruct k as [|k]; [destruct xs as [|x [|y [|z xs]]]; cbn in *; try discriminate; injection H as <- _; eauto|]); discriminate.
Qed.
Notation x_run := (run_func 0 x_truth x_sem x_indirect).
Notation x_exec := (exec_func 0 x_truth x_sem (fun k => List.length (x_params k)) x_default).

(** Counts its argument up to three, then returns it with the function of itself. *)
Definition count_up : func := mkFunc [(0, int_t)]
  [OLoop [0] [(1, int_t)] 2 3 int_t
     [OPlain k_small [1] (Some (4, bool_t));
      OIf 4 5 int_t [OPlain k_succ [1] (Some (6, int_t)); OContinue [6]] [OBreak 1]];
   OPlain k_seven [] (Some (7, int_t));
   OPlain k_apply [7; 2] (Some (8, int_t));
   OPlain k_return [8] None].
Example count_up_fine : fine_func x_params x_pushes x_ends x_indirect count_up.
Proof.
  split.
  - cbn. eapply fine_loop.
    + repeat constructor.
    + apply fine_value; [reflexivity|reflexivity|repeat constructor|]. apply fine_last.
      * left. reflexivity.
      * exists [OPlain k_succ [1] (Some (6, int_t))], (OContinue [6]). split; [reflexivity|exact I].
      * exists [], (OBreak 1). split; [reflexivity|exact I].
      * right. reflexivity.
      * apply fine_value; [reflexivity|reflexivity|repeat constructor; cbn; tauto|]. apply fine_continue; [repeat constructor|cbn; lia].
      * apply fine_break. cbn. tauto.
    + apply fine_value; [reflexivity|reflexivity|repeat constructor|].
      apply fine_value; [reflexivity|reflexivity|repeat constructor; cbn; tauto|]. apply fine_end; [reflexivity|repeat constructor].
  - cbn. repeat (constructor; [cbn; intuition discriminate|]). constructor.
Qed.

(** Every function that the backend is made for compiles, and the code is valid for whatever result the function has. *)
Theorem structured_functions_compile_to_valid_code_partial params pushes ends indirect f :
  fine_func params pushes ends indirect f ->
  exists c, compile indirect f = Some c /\ forall result, valid params pushes ends (List.map snd (f_params f)) result c.
Proof. exact (compiles params pushes ends indirect f). Qed.
Print Assumptions structured_functions_compile_to_valid_code_partial.

(** And the code does the same: it returns the same values with the same effects, traps when the operations trap, and goes on as
    long as they do. *)
Theorem compiled_code_does_what_the_operations_do_partial {V W} (nilv : V) truth (sem : nat -> list V -> W -> eff V W)
    params pushes ends indirect default f args c :
  fine_func params pushes ends indirect f -> lawful sem pushes ends -> default nil_t = nilv ->
  Forall2 (fun x (b : nat * vt) => snd b = nil_t -> x = nilv) args (f_params f) ->
  compile indirect f = Some c -> forall n w,
  seen_res (exec_func nilv truth sem (fun k => List.length (params k)) default n c args w) = seen_out (run_func nilv truth sem indirect n f args w) /\
  seen_out (run_func nilv truth sem indirect n f args w) <> SBroken.
Proof. exact (faithful nilv truth sem params pushes ends indirect default f args c). Qed.
Print Assumptions compiled_code_does_what_the_operations_do_partial.
Example count_up_counts :
  option_map (fun c => seen_res (x_exec 10 c [1] 4)) (compile x_indirect count_up) = Some (SReturned [37] 4) /\
  seen_out (x_run 10 count_up [1] 4) = SReturned [37] 4 /\ seen_out (x_run 2 count_up [1] 4) = SUnfinished.
Proof. repeat split; vm_compute; reflexivity. Qed.

(** Distinct values live in distinct locals, each declared with the value's type. *)
Theorem values_live_in_locals_of_their_own indirect f c :
  NoDup (List.map fst (f_params f ++ flat_map defs (f_body f))) -> compile indirect f = Some c ->
  (forall v t, In (v, t) (f_params f ++ flat_map defs (f_body f)) ->
     exists i, position_of v (values f) = Some i /\ nth_error (List.map snd (f_params f) ++ expand (c_locals c)) i = Some t) /\
  (forall u v i, position_of u (values f) = Some i -> position_of v (values f) = Some i -> u = v).
Proof. exact (distinct_locals indirect f c). Qed.
Print Assumptions values_live_in_locals_of_their_own.
Example count_up_locals : option_map c_locals (compile x_indirect count_up) = Some [(1, int_t); (1, bool_t); (6, int_t)].
Proof. vm_compute. reflexivity. Qed.

(** ** Where it does not hold *)

(** A [break] below two conditionals goes back to the start of the loop: the distance of its branch is fixed. *)
Definition break_below : func := mkFunc []
  [OPlain k_true [] (Some (0, bool_t)); OPlain k_tick [] (Some (1, nil_t));
   OLoop [] [] 2 3 nil_t
     [OIf 0 4 nil_t [OIf 0 5 nil_t [OBreak 1] [OBreak 1]; OYield []] [OBreak 1]];
   OPlain k_leave [] None].
Lemma break_below_spins : exists c, compile x_indirect break_below = Some c /\
  (forall n w, seen_out (x_run (S n) break_below [] w) = SReturned [] (S w)) /\
  (forall n w, seen_res (x_exec n c [] w) = SUnfinished).
Proof.
  eexists. split; [vm_compute; reflexivity|]. split; [intros; reflexivity|]. intros n w. unfold exec_func, execs.
  cbn [c_instrs exec_list exec k_true k_tick x_params List.length Nat.leb x_sem firstn skipn rev app put].
  match goal with |- context [turns ?t ?s ?b n ?L ?w] => assert (X : forall m, turns t s b m L w = Over) end.
  { induction m as [|m IH]; [reflexivity|]. cbn [turns]. exact IH. }
  rewrite X. reflexivity.
Qed.
Theorem break_below_two_conditionals_leaves_the_loop_refuted :
  exists f c, compile x_indirect f = Some c /\
    (forall n w, seen_out (x_run (S n) f [] w) = SReturned [] (S w)) /\ (forall n w, seen_res (x_exec n c [] w) = SUnfinished).
Proof. exact (ex_intro _ break_below break_below_spins). Qed.
Print Assumptions break_below_two_conditionals_leaves_the_loop_refuted.

(** A [continue] directly in the loop leaves it. *)
Definition bare_continue : func := mkFunc [] [OLoop [] [] 0 1 nil_t [OContinue []]; OPlain k_leave [] None].
Lemma bare_continue_leaves : exists c, compile x_indirect bare_continue = Some c /\
  (forall n w, seen_out (x_run n bare_continue [] w) = SUnfinished) /\
  (forall n w, seen_res (x_exec (S n) c [] w) = SReturned [] w).
Proof.
  eexists. split; [vm_compute; reflexivity|]. split; [|intros; reflexivity]. intros n w. unfold run_func, run. cbn [f_body bare_continue run_list run_op].
  match goal with |- context [rounds ?b n ?xs ?w] => assert (X : forall m, rounds b m xs w = Unfinished) end.
  { induction m as [|m IH]; [reflexivity|]. cbn [rounds]. exact IH. }
  rewrite X. reflexivity.
Qed.
Theorem continue_in_the_loop_itself_goes_on_refuted :
  exists f c, compile x_indirect f = Some c /\
    (forall n w, seen_out (x_run n f [] w) = SUnfinished) /\ (forall n w, seen_res (x_exec (S n) c [] w) = SReturned [] w).
Proof. exact (ex_intro _ bare_continue bare_continue_leaves). Qed.
Print Assumptions continue_in_the_loop_itself_goes_on_refuted.

(** When the first branch of a conditional leaves the function, the value of the other branch is lost, and the code is valid. *)
Definition early_return : func := mkFunc [(0, bool_t)]
  [OIf 0 1 int_t
     [OPlain k_seven [] (Some (2, int_t)); OPlain k_return [2] None]
     [OPlain k_seven [] (Some (3, int_t)); OPlain k_succ [3] (Some (4, int_t)); OYield [4]];
   OPlain k_return [1] None].
Lemma early_return_loses : exists c, compile x_indirect early_return = Some c /\
  valid x_params x_pushes x_ends [bool_t] (Some int_t) c /\
  forall n w, seen_out (x_run n early_return [0] w) = SReturned [8] w /\ seen_res (x_exec n c [0] w) = SReturned [0] w.
Proof. eexists. split; [vm_compute; reflexivity|]. split; [vm_compute; reflexivity|]. intros n w. split; reflexivity. Qed.
Theorem value_of_a_conditional_with_an_early_return_refuted :
  exists f c, compile x_indirect f = Some c /\ valid x_params x_pushes x_ends [bool_t] (Some int_t) c /\
    forall n w, seen_out (x_run n f [0] w) = SReturned [8] w /\ seen_res (x_exec n c [0] w) = SReturned [0] w.
Proof. exact (ex_intro _ early_return early_return_loses). Qed.
Print Assumptions value_of_a_conditional_with_an_early_return_refuted.

(** A nil constant in a branch leaves a reference on the stack: no module with it is valid. *)
Definition nil_in_branch : func := mkFunc [(0, bool_t)]
  [OIf 0 1 nil_t [OPlain k_null [] (Some (2, nil_t)); OYield [2]] [OYield []]; OPlain k_leave [] None].
Lemma nil_in_branch_invalid : exists c, compile x_indirect nil_in_branch = Some c /\
  (forall n w, seen_out (x_run n nil_in_branch [1] w) = SReturned [] w) /\
  forall result, ~ valid x_params x_pushes x_ends [bool_t] result c.
Proof. eexists. split; [vm_compute; reflexivity|]. split; [reflexivity|]. intros result H. vm_compute in H. discriminate. Qed.
Theorem nil_constant_in_a_branch_is_valid_refuted :
  exists f c, compile x_indirect f = Some c /\ (forall n w, seen_out (x_run n f [1] w) = SReturned [] w) /\
    forall result, ~ valid x_params x_pushes x_ends [bool_t] result c.
Proof. exact (ex_intro _ nil_in_branch nil_in_branch_invalid). Qed.
Print Assumptions nil_constant_in_a_branch_is_valid_refuted.

(** A loop that carries two values cannot go on: its [continue] is left as it was and the emitter rejects it. *)
Definition two_carried : func := mkFunc [(0, int_t)]
  [OLoop [0; 0] [(1, int_t); (2, int_t)] 3 4 int_t
     [OPlain k_small [1] (Some (5, bool_t));
      OIf 5 6 int_t [OPlain k_succ [1] (Some (7, int_t)); OContinue [7; 2]] [OBreak 2]];
   OPlain k_return [3] None].
Lemma two_carried_rejected : seen_out (x_run 10 two_carried [1] 0) = SReturned [1] 0 /\ compile x_indirect two_carried = None.
Proof. split; vm_compute; reflexivity. Qed.
Theorem loop_with_two_carried_values_compiles_refuted :
  exists f, seen_out (x_run 10 f [1] 0) = SReturned [1] 0 /\ compile x_indirect f = None.
Proof. exact (ex_intro _ two_carried two_carried_rejected). Qed.
Print Assumptions loop_with_two_carried_values_compiles_refuted.
