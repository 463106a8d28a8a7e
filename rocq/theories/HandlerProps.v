(** Properties of compiled effect handlers (C66). *)
From Verif Require Import Base HandlerModel HandlerSpec HandlerProofs HandlerState.
Import ListNotations.

(** The compiled program ends with a number; it never stops; it goes wrong (a value of one shape is used as another). *)
Definition compiled_gives (checked : bool) (P : program) (z : Z) : Prop :=
  exists n c, trun P checked n (tstart P) = Some (c, TAnswer (AVal (TInt z)) []).
Definition compiled_runs_forever (checked : bool) (P : program) : Prop :=
  forall n, trun P checked n (tstart P) <> None.
Definition compiled_goes_wrong (checked : bool) (P : program) : Prop :=
  exists n c s, trun P checked n (tstart P) = Some (c, s) /\ tstep P checked c s = None /\ forall v, s <> TAnswer v [].

(** C66: in programs whose arms resume last and in which no ability is handled twice at once, the compiled program gives
    what the reference gives, on both targets. Missing: resumption in the middle of an arm, in closures or in the
    completion arm, [fn] arms and direct functions with handles, nested handlers of one ability (see the refutations). *)
Theorem handlers_give_reference_result_partial : forall checked P z,
  tidy_program P -> calm P -> gives P z -> compiled_gives checked P z.
Proof. intros checked P z [A B]. exact (gives_compiled P checked A B z). Qed.
Print Assumptions handlers_give_reference_result_partial.

Theorem handlers_keep_divergence_partial : forall checked P,
  tidy_program P -> calm P -> runs_forever P -> compiled_runs_forever checked P.
Proof. intros checked P [A B]. exact (forever_compiled P checked A B). Qed.
Print Assumptions handlers_keep_divergence_partial.

(** A result of the compiled program is that of the reference, if the reference does not get stuck (type checking). *)
Theorem handlers_give_only_reference_results_partial : forall checked P z,
  tidy_program P -> calm P ->
  (forall n s, srun P n (sstart P) = Some s -> sstep P s = None -> exists z', s = SReturn (SInt z') []) ->
  compiled_gives checked P z -> gives P z.
Proof. intros checked P z [A B] C S (n & c & H). exact (compiled_gives_back P checked A B z n c C S H). Qed.
Print Assumptions handlers_give_only_reference_results_partial.

(** The documented [run_state], on the native target, computes what a state does, for every sequence of reads and writes. *)
Theorem run_state_native : forall l d init z,
  state_run [] init l d = Some z -> compiled_gives false (state_program l d init) z.
Proof. intros l d init z H. exact (state_program_runs l d init z H). Qed.
Print Assumptions run_state_native.

(** ** A program of the positive theorem: two abilities, nested handlers, a loop, an early exit, a [fn] operation.

    fn loop(n) ->{Ask, Stop} Int { case n { 0 -> Stop::stop(7)  _ -> let x = Ask::ask(n); let y = Log::log(x); loop(n - 1) } }
    main: handle (handle (handle loop(3) { fn Log::log(x) { x + 1 } }) { do r { r } op Ask::ask(x) { resume x * 2 } })
          { do r { r + 1000 } op Stop::stop(x) { x + 100 } } *)
Definition ex_loop : func := MkFunc true [0]
  (EIf (DVar 0)
     (ELet 1 (EOp 0 0 (DVar 0)) (ELet 2 (EFn 2 0 (DVar 1)) (ECall 0 [DAdd (DVar 0) (DInt (-1))])))
     (EOp 1 0 (DInt 7))).
Definition ex_program : program :=
  MkProgram (fun a _ => if a =? 2 then KFn else KOp) [ex_loop]
    (ELet 5 (EHandle
       (EHandle (EHandle (ECall 0 [DInt 3]) (Handler None [Arm KFn 2 0 1 (EPure (DAdd (DVar 1) (DInt 1)))]))
          (Handler (Some (0, EPure (DVar 0))) [Arm KOp 0 0 1 (EResume (DMul (DVar 1) (DInt 2)))]))
       (Handler (Some (0, EPure (DAdd (DVar 0) (DInt 1000)))) [Arm KOp 1 0 1 (EPure (DAdd (DVar 1) (DInt 100)))]))
     (EPure (DAdd (DVar 5) (DInt 1)))).

Example ex_tidy : tidy_program ex_program.
Proof. split; repeat constructor. Qed.

(** Deciding claims about one program by running it. *)
Fixpoint s_end (P : program) (n : nat) (s : sstate) : bool * sstate :=
  match n with
  | 0 => (true, s)
  | S n => match sstep P s with Some s' => let (b, e) := s_end P n s' in (calm_now s && b, e) | None => (calm_now s, s) end
  end.

Fixpoint t_end (P : program) (checked : bool) (n : nat) (s : nat * tstate) : nat * tstate :=
  match n with
  | 0 => s
  | S n => match tstep P checked (fst s) (snd s) with Some s' => t_end P checked n s' | None => s end
  end.

Lemma s_end_gives P n : forall s b z, s_end P n s = (b, SReturn (SInt z) []) ->
  exists m, srun P m s = Some (SReturn (SInt z) []).
Proof.
  induction n; cbn; intros s b z H. { inv H. now exists 0. }
  destruct (sstep P s) as [s'|] eqn:E; [|inv H; now exists 0].
  destruct (s_end P n s') as [b' e] eqn:E2. inv H. destruct (IHn _ _ _ E2) as [m M]. exists (S m). cbn. now rewrite E.
Qed.

Lemma s_end_calm P n : forall s v, s_end P n s = (true, SReturn v []) -> forall m s', srun P m s = Some s' -> calm_now s' = true.
Proof.
  induction n; cbn; intros s v H m s' M.
  - inv H. destruct m; cbn in M; [|discriminate]. now inv M.
  - destruct m; cbn in M.
    + inv M. destruct (sstep P s'); [|now inv H]. destruct (s_end P n s). injection H as A B. apply andb_true_iff in A. tauto.
    + destruct (sstep P s) as [s1|] eqn:E; [|discriminate]. destruct (s_end P n s1) as [b e] eqn:E2. injection H as A B.
      apply andb_true_iff in A as [_ A]. subst b e. eapply IHn; eauto.
Qed.

Lemma t_end_run P checked n : forall s, exists m, trun P checked m s = Some (t_end P checked n s).
Proof.
  induction n; cbn; intros s; [now exists 0|].
  destruct (tstep P checked (fst s) (snd s)) as [s'|] eqn:E; [|now exists 0].
  destruct (IHn s') as [m M]. exists (S m). cbn. now rewrite E.
Qed.

Lemma by_gives P z : snd (s_end P 1000 (sstart P)) = SReturn (SInt z) [] -> gives P z.
Proof. intros H. destruct (s_end P 1000 (sstart P)) eqn:E. cbn in H. subst. eapply s_end_gives; eauto. Qed.

Lemma by_calm P v : s_end P 1000 (sstart P) = (true, SReturn v []) -> calm P.
Proof. intros H n s. apply (s_end_calm P _ _ _ H). Qed.

Lemma by_compiled P checked z : snd (t_end P checked 1000 (tstart P)) = TAnswer (AVal (TInt z)) [] -> compiled_gives checked P z.
Proof.
  intros H. destruct (t_end_run P checked 1000 (tstart P)) as [m M]. destruct (t_end P checked 1000 (tstart P)) as [c s].
  cbn in H. subst. now exists m, c.
Qed.

Lemma by_wrong P checked : (let (c, s) := t_end P checked 1000 (tstart P) in
    match tstep P checked c s with Some _ => false | None => match s with TAnswer _ [] => false | _ => true end end) = true ->
  compiled_goes_wrong checked P.
Proof.
  intros H. destruct (t_end_run P checked 1000 (tstart P)) as [m M]. destruct (t_end P checked 1000 (tstart P)) as [c s].
  exists m, c, s. split; [exact M|]. destruct (tstep P checked c s); [discriminate|]. split; [reflexivity|].
  intros v ->. discriminate.
Qed.

Example ex_calm : calm ex_program.
Proof. eapply by_calm. vm_compute. reflexivity. Qed.

Example ex_gives : gives ex_program 108.
Proof. apply by_gives. vm_compute. reflexivity. Qed.

Example ex_compiled : compiled_gives true ex_program 108.
Proof. apply handlers_give_reference_result_partial; [exact ex_tidy|exact ex_calm|exact ex_gives]. Qed.

Example ex_state : compiled_gives false
  (state_program [CSet 0 (DInt 3); CGet 1; CSet 0 (DAdd (DVar 1) (DInt 10)); CGet 2] (DVar 2) 0) 13.
Proof. apply run_state_native. reflexivity. Qed.

(** ** Where compiled programs differ from the reference *)

Definition only_op : nat -> nat -> okind := fun _ _ => KOp.

(** handle A::a() { do r { r * 10 } op A::a() { let x = resume 1; x + 1 } }: the value of [resume] is that of the body,
    not that of the handle, and the completion arm runs on what the arm returns. *)
Definition resume_program : program :=
  MkProgram only_op []
    (EHandle (EOp 0 0 (DInt 0))
       (Handler (Some (0, EPure (DMul (DVar 0) (DInt 10))))
          [Arm KOp 0 0 1 (ELet 2 (EResume (DInt 1)) (EPure (DAdd (DVar 2) (DInt 1))))])).

Theorem resume_value_refuted : exists P,
  calm P /\ gives P 11 /\ forall checked, compiled_gives checked P 20.
Proof.
  exists resume_program. split; [|split].
  - eapply by_calm. vm_compute. reflexivity.
  - apply by_gives. vm_compute. reflexivity.
  - intros []; apply by_compiled; vm_compute; reflexivity.
Qed.
Print Assumptions resume_value_refuted.

(** handle { let x = A::a(); A::stop() } { op A::a() { let r = resume 1; r + 100 } op A::stop() { 5 } }: an arm that
    completes the handle skips the rest of the arm that resumed. *)
Definition stop_program : program :=
  MkProgram only_op []
    (EHandle (ELet 0 (EOp 0 0 (DInt 0)) (EOp 0 1 (DInt 0)))
       (Handler None
          [Arm KOp 0 0 1 (ELet 2 (EResume (DInt 1)) (EPure (DAdd (DVar 2) (DInt 100))));
           Arm KOp 0 1 1 (EPure (DInt 5))])).

Theorem stop_skips_suffix_refuted : exists P,
  calm P /\ gives P 105 /\ forall checked, compiled_gives checked P 5.
Proof.
  exists stop_program. split; [|split].
  - eapply by_calm. vm_compute. reflexivity.
  - apply by_gives. vm_compute. reflexivity.
  - intros []; apply by_compiled; vm_compute; reflexivity.
Qed.
Print Assumptions stop_skips_suffix_refuted.

(** handle { let t = handle A::a() { op B::b() { 0 } }; t + 1 } { op A::a() { let x = resume 1; x * 2 } }: with another
    handler in between, [resume] returns the value of the inner body, and the rest of the outer body runs afterwards. *)
Definition between_program : program :=
  MkProgram only_op []
    (EHandle (ELet 0 (EHandle (EOp 0 0 (DInt 0)) (Handler None [Arm KOp 1 0 1 (EPure (DInt 0))])) (EPure (DAdd (DVar 0) (DInt 1))))
       (Handler None [Arm KOp 0 0 1 (ELet 2 (EResume (DInt 1)) (EPure (DMul (DVar 2) (DInt 2))))])).

Theorem resume_across_handler_refuted : exists P,
  calm P /\ gives P 4 /\ forall checked, compiled_gives checked P 3.
Proof.
  exists between_program. split; [|split].
  - eapply by_calm. vm_compute. reflexivity.
  - apply by_gives. vm_compute. reflexivity.
  - intros []; apply by_compiled; vm_compute; reflexivity.
Qed.
Print Assumptions resume_across_handler_refuted.

Definition answers (z : Z) : handler := Handler (Some (0, EPure (DVar 0))) [Arm KOp 0 0 1 (EResume (DInt z))].

(** handle { let a = handle A::a() { op A::a() { resume 10 } }; let b = A::a(); a + b } { op A::a() { resume 20 } }: the
    operation after the inner handle has ended goes to its handler. *)
Definition stale_program : program :=
  MkProgram only_op []
    (EHandle
       (ELet 0 (EHandle (EOp 0 0 (DInt 0)) (answers 10)) (ELet 1 (EOp 0 0 (DInt 0)) (EPure (DAdd (DVar 0) (DVar 1)))))
       (answers 20)).

Theorem finished_handler_refuted : exists P,
  tidy_program P /\ gives P 30 /\ forall checked, compiled_gives checked P 20.
Proof.
  exists stale_program. split; [|split].
  - split; repeat constructor.
  - apply by_gives. vm_compute. reflexivity.
  - intros []; apply by_compiled; vm_compute; reflexivity.
Qed.
Print Assumptions finished_handler_refuted.

(** handle handle A::a() { op A::a() { let x = A::a(); resume x } } { op A::a() { resume 20 } }: an arm that performs an
    operation of its own ability reaches itself instead of the outer handler, and never ends. *)
Definition own_arm : expr := ELet 2 (EOp 0 0 (DInt 1)) (EResume (DVar 2)).
Definition own_program : program :=
  MkProgram only_op []
    (EHandle (EHandle (EOp 0 0 (DInt 0)) (Handler None [Arm KOp 0 0 1 own_arm])) (answers 20)).

Lemma own_loops checked ev m : ev_lookup ev 0 = Some m -> m_handler m = Handler None [Arm KOp 0 0 1 own_arm] ->
  forall n c env z k N, trun own_program checked n (c, TComp HandleAnswer (EOp 0 0 (DInt z)) env ev ev k N) <> None.
Proof.
  intros L H n. enough (X : forall c env z k N,
    trun own_program checked n (c, TComp HandleAnswer (EOp 0 0 (DInt z)) env ev ev k N) <> None /\
    trun own_program checked (S n) (c, TComp HandleAnswer (EOp 0 0 (DInt z)) env ev ev k N) <> None) by (intros; apply X).
  induction n; intros c env z k N.
  - split; [discriminate|]. cbn. rewrite L, H. discriminate.
  - split; [apply IHn|]. cbn. rewrite L, H. cbn. apply IHn.
Qed.

Theorem own_ability_refuted : exists P,
  tidy_program P /\ gives P 20 /\ forall checked, compiled_runs_forever checked P.
Proof.
  exists own_program. split; [|split].
  - split; repeat constructor.
  - apply by_gives. vm_compute. reflexivity.
  - intros checked n. destruct n as [|[|n]]; [discriminate|discriminate|]. cbn. eapply own_loops; reflexivity.
Qed.
Print Assumptions own_ability_refuted.

(** The documented [run_state] with a single read: the answer of a continuation that makes a Normal carrier is cast to
    Escape, which traps on Wasm. *)
Theorem run_state_wasm_refuted : exists l d init z,
  state_run [] init l d = Some z /\ gives (state_program l d init) z /\ compiled_goes_wrong true (state_program l d init).
Proof.
  exists [CGet 0], (DVar 0), 5%Z, 5%Z. split; [reflexivity|]. split.
  - apply by_gives. vm_compute. reflexivity.
  - apply by_wrong. vm_compute. reflexivity.
Qed.
Print Assumptions run_state_wasm_refuted.

(** handle handle A::f() { fn A::f() { B::b() } } { op B::b() { resume 7 } }: an operation within a [fn] arm returns a bare
    value where a carrier is expected. *)
Definition fn_arm_program : program :=
  MkProgram (fun a _ => if a =? 0 then KFn else KOp) []
    (EHandle (EHandle (EFn 0 0 (DInt 0)) (Handler None [Arm KFn 0 0 1 (EOp 1 0 (DInt 0))]))
       (Handler None [Arm KOp 1 0 1 (EResume (DInt 7))])).

Theorem operation_in_fn_arm_refuted : exists P,
  calm P /\ gives P 7 /\ forall checked, compiled_goes_wrong checked P.
Proof.
  exists fn_arm_program. split; [|split].
  - eapply by_calm. vm_compute. reflexivity.
  - apply by_gives. vm_compute. reflexivity.
  - intros []; apply by_wrong; vm_compute; reflexivity.
Qed.
Print Assumptions operation_in_fn_arm_refuted.

(** handle A::set(3) { op A::get() { resume 1 } }: a handler without an arm for an operation of its ability runs its last
    arm for it. *)
Definition missing_program : program :=
  MkProgram only_op []
    (EHandle (EOp 0 1 (DInt 3)) (Handler None [Arm KOp 0 0 1 (EResume (DInt 1))])).

Theorem missing_arm_refuted : exists P,
  tidy_program P /\ calm_now (sstart P) = true /\ (forall z, ~ gives P z) /\ forall checked, compiled_gives checked P 1.
Proof.
  exists missing_program. split; [|split; [|split]].
  - split; repeat constructor.
  - reflexivity.
  - intros z [n H]. destruct n as [|[|n]]; cbn in H; discriminate.
  - intros []; apply by_compiled; vm_compute; reflexivity.
Qed.
Print Assumptions missing_arm_refuted.

(** ** Programs of tests/e2e_ability_handler.rs, with numbers for texts *)

(** test_handler_transforms_resumed_result: two operations, completion arm doubles. *)
Example ex_transforms : compiled_gives false
  (MkProgram only_op []
     (EHandle (ELet 0 (EOp 0 0 (DInt 0)) (ELet 1 (EOp 0 0 (DInt 0)) (EPure (DAdd (DAdd (DVar 0) (DVar 1)) (DInt 1)))))
        (Handler (Some (0, EPure (DMul (DVar 0) (DInt 2)))) [Arm KOp 0 0 1 (EResume (DInt 10))]))) 42.
Proof. apply by_compiled. vm_compute. reflexivity. Qed.

(** test_cps_control_foreign_escape_bypasses_resume_suffix. *)
Example ex_foreign_escape : compiled_gives false
  (MkProgram only_op
     [MkFunc true []
        (EHandle (ELet 0 (EOp 0 0 (DInt 0)) (EOp 1 0 (DInt 0)))
           (Handler (Some (0, EPure (DAdd (DVar 0) (DInt 10000))))
              [Arm KOp 0 0 1 (ELet 2 (EResume (DInt 5)) (EPure (DAdd (DVar 2) (DInt 1000))))]))]
     (EHandle (ECall 0 []) (Handler (Some (0, EPure (DAdd (DVar 0) (DInt 100000)))) [Arm KOp 1 0 1 (EPure (DInt 7))]))) 7.
Proof. apply by_compiled. vm_compute. reflexivity. Qed.
