(** Type checking (C71). *)
From Coq Require Import String List ZArith.
From Verif Require Import InferSpec InferMain InferSolve InferCheck InferTyped InferSound UnifyFuel.
Import ListNotations. Open Scope string_scope. Open Scope list_scope.

(** If a program is accepted, the first pass over each body made no guess, and no function is
    used before its definition at types it turns out not to have, then calling any function
    with arguments of its parameter types never goes wrong, and what it returns has its result
    type.  Missing for the full property: the two last conditions, which the checker does not
    enforce (see the refutations below), and records, methods, abilities and handlers. *)
Theorem accepted_programs_do_not_go_wrong_partial :
  forall cs ds pure fuel sigs,
  program_ok cs ds ->
  check_program cs (solve_with fuel) pure ds = Some sigs ->
  (forall i d, nth_error ds i = Some d ->
     guesses (nth_error (sigs_at ds sigs i)) (ctor_table cs) (solve_with fuel) pure d = []) ->
  no_early_promises ds sigs ->
  forall n f d args ts r,
  nth_error ds f = Some d -> sig_types sigs f (SFun ts r) ->
  Forall2 (has_type (sig_types sigs) (ctor_types cs)) args ts ->
  match eval cs ds n (combine (fd_params d) args) (fd_body d) with
  | Val v => has_type (sig_types sigs) (ctor_types cs) v r
  | Wrong => False
  | NoMatch | Timeout => True
  end.
Proof.
  exact (fun cs ds pure fuel sigs ok acc ng early n f d args ts r =>
    accepted_safe cs ds (solve_with fuel) pure ok (solver_answers fuel) sigs acc ng early n f d args ts r).
Qed.
Print Assumptions accepted_programs_do_not_go_wrong_partial.

(** A signature without type parameters is kept as declared, so using such functions before
    their definition is always fine. *)
Theorem closed_signatures_promise_nothing_early :
  forall cs ds solver pure sigs,
  (forall d, In d ds -> plain_sig (declared d)) ->
  check_program cs solver pure ds = Some sigs ->
  (forall i d j e, nth_error ds i = Some d -> mentions j (fd_body d) -> i <= j -> nth_error ds j = Some e -> fd_arity e = 0) ->
  no_early_promises ds sigs.
Proof. exact (fun cs ds solver pure sigs => closed_no_early_promises cs solver pure ds sigs). Qed.
Print Assumptions closed_signatures_promise_nothing_early.

(** One function: whatever instance of its checked signature is used, its body has the result
    type when the parameters have theirs. *)
Theorem checked_signatures_fit_their_bodies :
  forall fns cs pure fuel d sc,
  (forall f s, fns f = Some s -> plain_sig s) ->
  (forall k, In k cs -> plain_sig (ctor_poly k)) ->
  plain_sig (declared d) -> List.length (fd_params d) = List.length (fd_types d) ->
  wf (fd_body d) -> NoDup (ref_ids (fd_body d)) ->
  check_fn fns (ctor_table cs) (solve_with fuel) pure d = Some sc ->
  guesses fns (ctor_table cs) (solve_with fuel) pure d = [] ->
  plain_sig sc /\
  forall t, instance sc t -> exists ts r, t = SFun ts r /\ List.length ts = List.length (fd_params d) /\
    typed (fun f t => exists s, fns f = Some s /\ instance s t) (ctor_types cs)
      (extend (fun _ _ => False) (combine (fd_params d) ts)) (fd_body d) r.
Proof.
  exact (fun fns cs pure fuel d sc hf hc hs hl hw hi hk hg =>
    check_fn_sound fns cs (solve_with fuel) pure hf hc (solver_answers fuel) d hs hl hw hi sc hk hg).
Qed.
Print Assumptions checked_signatures_fit_their_bodies.

(** A type checker that is given more time gives the same answer. *)
Theorem more_fuel_solves_the_same :
  forall n m cs, n <= m -> ule (solve n cs) (solve m cs).
Proof. exact solve_more. Qed.
Print Assumptions more_fuel_solves_the_same.

(** * A program to which all of this applies *)
Definition opt : tydef := mkTyDef (Source 0) "Option".
Definition opt_ty (t : ty) : ty := TNamed opt "Option" [t].
Definition none_c := 0.
Definition some_c := 1.
Definition sample_ctors : list cdecl := [mkCtor opt 1 []; mkCtor opt 1 [TBound 0]].
Definition int_ty : ty := TPrim PInt.
Definition int (z : Z) : expr := ELit (LInt z).
Definition always (n : nat) := true.

(** fn main() -> Int { let f = fn(y) { y }  let #(a, b) = #(f(-1), f("text"))
                       get(Some(id(a)), later(a)) } *)
Definition sample_main : fdecl :=
  mkFn [] 0 [] int_ty
    [(Some (PBind 0 0, None), ELam 0 [(1, None)] (EVar 0 1));
     (Some (PTuple 1 [PBind 2 2; PBind 3 3], None),
      ETuple [ECall (EVar 1 0) [int (-1)]; ECall (EVar 2 0) [ELit (LText "text")]])]
    (ECall (EFn 1) [ECons some_c [ECall (EFn 0) [EVar 3 2]]; ECall (EFn 3) [EVar 4 2]]).
Definition sample_fns : list fdecl :=
  [ (* fn id(x) { x } *)
    mkFn [0] 2 [TBound 0] (TBound 1) [] (EVar 0 0);
    (* fn get(o: Option(a), d: a) -> a { case o { Some(x) -> x  None -> d } } *)
    mkFn [0; 1] 1 [opt_ty (TBound 0); TBound 0] (TBound 0) []
      (ECase (EVar 0 0) [(PVariant 0 some_c [PBind 1 2], None, EVar 1 2); (PVariant 2 none_c [], None, EVar 2 1)]);
    sample_main;
    (* fn later(n: Int) -> Int { case n { 0 -> n  _ -> later(0) } } *)
    mkFn [0] 0 [int_ty] int_ty []
      (ECase (EVar 0 0) [(PLit 0 (LInt 0), None, EVar 1 0); (PWild 1, None, ECall (EFn 3) [int 0])]) ].
Definition sample_sigs : list poly :=
  [ (1, func_ty [TBound 0] (TBound 0)); (1, func_ty [opt_ty (TBound 0); TBound 0] (TBound 0));
    (0, func_ty [] int_ty); (0, func_ty [int_ty] int_ty) ].

Ltac plain := split; [reflexivity|]; split; [cbn; repeat constructor | cbn; repeat split; discriminate].
Ltac distinct := repeat constructor; cbn; intuition discriminate.
Ltac each H tac := repeat (destruct H as [<- | H]; [tac|]); destruct H.
Ltac program_fine :=
  split; intros d H;
  [ each H ltac:(eexists; reflexivity) | each H plain | each H plain | each H reflexivity | each H distinct
  | each H ltac:(split; [cbn; repeat split; try discriminate; distinct | cbn; distinct]) ].

Example sample_ok : program_ok sample_ctors sample_fns.
Proof. program_fine. Qed.
Example sample_accepted : check_program sample_ctors (solve_with 60) always sample_fns = Some sample_sigs.
Proof. vm_compute. reflexivity. Qed.
Example sample_no_guesses : forall i d, nth_error sample_fns i = Some d ->
  guesses (nth_error (sigs_at sample_fns sample_sigs i)) (ctor_table sample_ctors) (solve_with 60) always d = [].
Proof. intros [|[|[|[|i]]]] d E; try (injection E as <-; vm_compute; reflexivity). destruct i; discriminate. Qed.
Example sample_early : no_early_promises sample_fns sample_sigs.
Proof.
  apply (closed_signatures_promise_nothing_early sample_ctors _ (solve_with 60) always); [apply sample_ok | apply sample_accepted|].
  intros [|[|[|[|i]]]] d j e E M L Ej; try (injection E as <-); cbn in M; try (destruct i; discriminate);
    intuition subst; try lia; try contradiction; cbn in Ej; injection Ej as <-; reflexivity.
Qed.
Example sample_main_safe : forall n, eval sample_ctors sample_fns n [] (fd_body sample_main) <> Wrong.
Proof.
  intros n. pose proof (accepted_programs_do_not_go_wrong_partial _ _ _ _ _ sample_ok sample_accepted sample_no_guesses sample_early
    n 2 sample_main [] [] (SPrim PInt) eq_refl) as H. change (combine (fd_params sample_main) []) with (@nil (nat * value)) in H. intros E. rewrite E in H. apply H; [|constructor].
  exists (0, func_ty [] int_ty). split; [reflexivity|]. exists none. reflexivity.
Qed.
Example sample_main_value : eval sample_ctors sample_fns 20 [] (fd_body sample_main) = Val (VLit (LInt (-1))).
Proof. vm_compute. reflexivity. Qed.

(** * Where the checker accepts programs that go wrong *)

(** [main] is the last function and takes no argument.  The right-hand sides of [let] in these
    programs are lambdas, so they are pure. *)
Definition runs_wrong (cs : list cdecl) (ds : list fdecl) : Prop :=
  program_ok cs ds /\
  (exists sigs, check_program cs (solve_with 60) always ds = Some sigs /\ no_early_promises ds sigs) /\
  exists n d, nth_error ds (List.length ds - 1) = Some d /\ fd_params d = [] /\ eval cs ds n [] (fd_body d) = Wrong.

Lemma accepted_here cs ds :
  (forall d, In d ds -> plain_sig (declared d)) ->
  match check_program cs (solve_with 60) always ds with Some _ => true | None => false end = true ->
  (forall i d j e, nth_error ds i = Some d -> mentions j (fd_body d) -> i <= j -> nth_error ds j = Some e -> fd_arity e = 0) ->
  exists sigs, check_program cs (solve_with 60) always ds = Some sigs /\ no_early_promises ds sigs.
Proof.
  intros P E H. destruct (check_program cs (solve_with 60) always ds) as [sigs|] eqn:Ec; [|discriminate]. exists sigs. split; [reflexivity|].
  exact (closed_signatures_promise_nothing_early cs ds (solve_with 60) always sigs P Ec H).
Qed.
Ltac wrong_run :=
  split; [program_fine|]; split;
  [ apply accepted_here;
    [ intros d H; each H plain | vm_compute; reflexivity
    | intros [|[|[|i]]] d j e Ei M L Ej; try (injection Ei as <-); cbn in M; try (destruct i; discriminate); try discriminate;
      intuition subst; try lia; try contradiction; cbn in Ej; injection Ej as <-; reflexivity ]
  | exists 10; eexists; split; [reflexivity|]; split; [reflexivity|]; vm_compute; reflexivity ].

(** The type of [&&] and [||] is left open when a body is inferred, so a body ending in one
    fits every result type:
      fn lie() -> fn(Int) -> Int { True && True }
      fn main() -> Int { lie()(+1) } *)
Theorem logic_has_its_type_refuted :
  exists ds, runs_wrong [] ds /\
    ds = [ mkFn [] 0 [] (func_ty [int_ty] int_ty) [] (ELogic true (ELit (LBool true)) (ELit (LBool true)));
           mkFn [] 0 [] int_ty [] (ECall (ECall (EFn 0) []) [int 1]) ].
Proof. eexists. split; [|reflexivity]. wrong_run. Qed.
Print Assumptions logic_has_its_type_refuted.

(** The variables of a tuple pattern get types of their own when the scrutinee is a call:
      fn pair() -> #(Int, Int) { #(+1, +2) }
      fn main() -> Int { case pair() { #(a, b) -> a(b) } } *)
Theorem tuple_patterns_type_their_variables_refuted :
  exists ds, runs_wrong [] ds /\
    ds = [ mkFn [] 0 [] (TTuple [int_ty; int_ty]) [] (ETuple [int 1; int 2]);
           mkFn [] 0 [] int_ty [] (ECase (ECall (EFn 0) [])
             [(PTuple 0 [PBind 1 0; PBind 2 1], None, ECall (EVar 0 0) [EVar 1 1])]) ].
Proof. eexists. split; [|reflexivity]. wrong_run. Qed.
Print Assumptions tuple_patterns_type_their_variables_refuted.

(** The same for list patterns:
      fn items() -> List(Int) { [+1] }
      fn main() -> Int { case items() { [a] -> a(+2)  _ -> +0 } } *)
Theorem list_patterns_type_their_variables_refuted :
  exists ds, runs_wrong [] ds /\
    ds = [ mkFn [] 0 [] (list_ty int_ty) [] (EList [int 1]);
           mkFn [] 0 [] int_ty [] (ECase (ECall (EFn 0) [])
             [(PList 0 [PBind 1 0], None, ECall (EVar 0 0) [int 2]); (PWild 2, None, int 0)]) ].
Proof. eexists. split; [|reflexivity]. wrong_run. Qed.
Print Assumptions list_patterns_type_their_variables_refuted.

(** A constructor pattern may have too many fields:
      fn main() -> Int { case Some(+1) { Some(a, b) -> b(a)  None -> +0 } } *)
Theorem constructor_patterns_have_all_fields_refuted :
  exists ds, runs_wrong sample_ctors ds /\
    ds = [ mkFn [] 0 [] int_ty [] (ECase (ECons some_c [int 1])
             [(PVariant 0 some_c [PBind 1 0; PBind 2 1], None, ECall (EVar 0 1) [EVar 1 0]); (PVariant 3 none_c [], None, int 0)]) ].
Proof. eexists. split; [|reflexivity]. wrong_run. Qed.
Print Assumptions constructor_patterns_have_all_fields_refuted.

(** Guards are not looked at when a body is inferred, and a use of a generalized function keeps
    the type it was given then:
      fn main() -> Int { let f = fn(x, y) { case +0 { n if x -> +1  _ -> +2 } }  f("text", +0) } *)
Theorem guards_are_conditions_refuted :
  exists ds, runs_wrong [] ds /\
    ds = [ mkFn [] 0 [] int_ty
             [(Some (PBind 0 0, None), ELam 0 [(1, None); (3, None)] (ECase (int 0)
                [(PBind 1 2, Some (EVar 0 1), int 1); (PWild 2, None, int 2)]))]
             (ECall (EVar 1 0) [ELit (LText "text"); int 0]) ].
Proof. eexists. split; [|reflexivity]. wrong_run. Qed.
Print Assumptions guards_are_conditions_refuted.

(** A function whose signature leaves types open promises any type to the functions before it:
      fn main() -> Int { cast(+1)(+2) }
      fn cast(x) { x } *)
Theorem open_signatures_keep_their_promises_refuted :
  exists ds, program_ok [] ds /\
    (exists sigs, check_program [] (solve_with 60) always ds = Some sigs) /\
    (forall d, In d ds -> guesses (nth_error (List.map declared ds)) (ctor_table []) (solve_with 60) always d = []) /\
    (exists n d, nth_error ds 0 = Some d /\ fd_params d = [] /\ eval [] ds n [] (fd_body d) = Wrong) /\
    ds = [ mkFn [] 0 [] int_ty [] (ECall (ECall (EFn 1) [int 1]) [int 2]);
           mkFn [0] 2 [TBound 0] (TBound 1) [] (EVar 0 0) ].
Proof.
  eexists. split; [|split; [|split; [|split; [|reflexivity]]]].
  - program_fine.
  - eexists. vm_compute. reflexivity.
  - intros d H. each H ltac:(vm_compute; reflexivity).
  - exists 10. eexists. split; [reflexivity|]. split; [reflexivity|]. vm_compute. reflexivity.
Qed.
Print Assumptions open_signatures_keep_their_promises_refuted.

(** A type named in a signature is not the caller's to choose:
      fn same(x: a) -> a { +1 }
    is accepted, as a function from Int to Int. *)
Theorem named_types_stay_open_refuted :
  exists d sc, check_fn (nth_error [declared d]) (ctor_table []) (solve_with 60) always d = Some sc /\
    d = mkFn [0] 1 [TBound 0] (TBound 0) [] (int 1) /\
    instance (declared d) (SFun [SBool] SBool) /\ ~ instance sc (SFun [SBool] SBool).
Proof.
  eexists. eexists. split; [|split; [reflexivity|]]; [vm_compute; reflexivity|]. split.
  - exists (fun _ => SBool). reflexivity.
  - intros [ts E]. discriminate.
Qed.
Print Assumptions named_types_stay_open_refuted.
