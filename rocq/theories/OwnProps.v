(** C67: which parameters are borrowed, and what calls do with counts. *)
From Coq Require Import List Lia PeanoNat Bool.
From Verif Require Import OwnSpec OwnProofs OwnMain.
Local Open Scope nat_scope.
Local Open Scope list_scope.
Import ListNotations.

(** C67.  The summaries are always found, in at most one round more than there are parameters, and a parameter is
    borrowed exactly if it is in the largest set of parameters that are only lent: so the answer does not depend on the
    order of the functions, and no larger answer would be right. *)
Theorem borrowed_parameters_exact P order : visits_all P order ->
  exists s, compute_summaries P order = Some s /\ forall f i, s f i = true <-> lendable P f i.
Proof. exact (borrowed_exact_all P order). Qed.
Print Assumptions borrowed_parameters_exact.

(** C67.  In every run of a function that got the reference at borrowed parameters only, neither the function nor
    anything it calls ever does something with the reference for which it would need a count: return it, store it, pass
    it on to a block, a closure, a function outside of the module or a tail call. *)
Theorem borrowed_argument_needs_no_count P order s fn m st : visits_all P order -> compute_summaries P order = Some s ->
  In fn P -> lent_call s fn m -> runs_many P (fn, m, []) st -> ~ needs_count P st.
Proof. exact (borrowed_never_needed_all P order s fn m st). Qed.
Print Assumptions borrowed_argument_needs_no_count.

(** C67.  A direct call with a contract: the caller gives the callee a count on each argument exactly if the callee takes
    one, and the caller treats an argument as borrowed exactly if the callee does.  An ordinary call adds the count, so that
    the caller keeps its own; a tail call gives up the caller's. *)
Theorem direct_call_contracts_agree P s fn o l g : call_contract P s fn o = Contract l -> q_kind o = OCall g \/ q_kind o = OTail g ->
  exists callee, only_definition P g callee /\ List.length l = List.length (n_params callee) /\ List.length (q_args o) = List.length l /\
  forall i v, nth_error (n_params callee) i = Some v -> exists a, nth_error l i = Some a /\
    caller_gives a = callee_takes callee v /\ (a = Plain <-> n_anyref callee v = false) /\
    (a = Borrowed <-> n_anyref callee v = true /\ n_cps callee = false /\ s g i = true) /\ (q_kind o = OTail g -> a <> Plain -> a = Transfer) /\
    (q_kind o = OCall g -> a <> Transfer).
Proof. exact (direct_contract P s fn o l g). Qed.
Print Assumptions direct_call_contracts_agree.

(** C67.  An indirect call of a function that fits the signature and the convention of the call (both are checked by
    target_abi.rs): no count changes hands unless the call is a tail call, and then exactly those the callee takes. *)
Theorem indirect_call_contracts_agree P s fn o callee : is_indirect_op o = true -> q_cps o = is_tail_op o -> is_tail_op o = n_cps callee ->
  q_sig o = Some (map (n_anyref callee) (n_params callee), n_cps callee) -> List.length (passed_on o) = List.length (n_params callee) ->
  (is_tail_op o = false -> call_contract P s fn o = NoContract /\ forall v, callee_takes callee v = 0) /\
  (is_tail_op o = true -> exists l, call_contract P s fn o = Contract l /\ List.length l = List.length (n_params callee) /\
     forall i v, nth_error (n_params callee) i = Some v -> exists a, nth_error l i = Some a /\ caller_gives a = callee_takes callee v).
Proof. exact (indirect_contract P s fn o callee). Qed.
Print Assumptions indirect_call_contracts_agree.

(** C67.  In an accepted module every tail call with a reference among its arguments has a contract. *)
Theorem tail_calls_have_contracts P s fn o : contracts_ok P s = true -> only_definition P (n_name fn) fn -> In o (n_ops fn) ->
  is_tail_op o = true -> (exists x, In x (passed_on o) /\ n_anyref fn x = true) -> q_cps o = true /\ exists l, call_contract P s fn o = Contract l.
Proof. exact (tail_calls_covered P s fn o). Qed.
Print Assumptions tail_calls_have_contracts.

(** ** An example *)
Definition oo (k : okind) (args results : list nat) : oop := mkOop k args results false false None.
(** 1: reads its parameter 0 through a cast and passes it to 2 along with parameter 1, which 2 stores. *)
Definition ex_lend : ofunc := mkOfunc 1 [0; 1] (fun v => v <? 3) false false
  [oo OCast [0] [2]; oo OLoad [2] [3]; oo (OCall 2) [2; 1] [4]; oo OReturn [4] []].
(** 2: compares its first parameter and writes its second one through it. *)
Definition ex_write : ofunc := mkOfunc 2 [0; 1] (fun _ => true) false false
  [oo OCmp [0; 0] [2]; oo (OStore 0) [0; 1] []; oo OReturn [2] []].
(** 3: calls itself; 4: its address is taken by 5; 6: hands its parameters to the continuation-passing 7. *)
Definition ex_loop : ofunc := mkOfunc 3 [0] (fun _ => true) false false [oo (OCall 3) [0] [1]; oo OReturn [1] []].
Definition ex_taken : ofunc := mkOfunc 4 [0] (fun _ => true) false false [oo OLoad [0] [1]; oo OReturn [1] []].
Definition ex_taker : ofunc := mkOfunc 5 [0] (fun _ => false) false false [oo (OConst 4) [] [1]; oo OReturn [1] []].
Definition ex_hand : ofunc := mkOfunc 6 [0; 1] (fun v => v =? 0) false true [mkOop (OTail 7) [0; 1] [] false true None].
Definition ex_cont : ofunc := mkOfunc 7 [0; 1] (fun v => v =? 0) false true [mkOop OTailInd [1; 0] [] false true (Some ([true], true))].
Definition ex_module : omodule := [ex_lend; ex_write; ex_loop; ex_taken; ex_taker; ex_hand; ex_cont].
Definition ex_order : list nat := [7; 6; 5; 4; 3; 2; 1].
Example ex_visits : visits_all ex_module ex_order.
Proof. intros f fn (N & pre & post & E & _). assert (In fn ex_module) as I by (rewrite E; apply in_elt). subst f. cbn in I. intuition (subst fn; cbn; auto 10). Qed.
Example ex_summaries : exists s, compute_summaries ex_module ex_order = Some s /\
  map (fun f => map (s f) [0; 1]) [1; 2; 3; 4; 5; 6; 7] = [[true; false]; [true; false]; [false; false]; [false; false]; [false; false]; [false; false]; [false; false]].
Proof. eexists. split; vm_compute; reflexivity. Qed.
Example ex_contracts : exists s, compute_summaries ex_module ex_order = Some s /\ contracts_ok ex_module s = true /\
  call_contract ex_module s ex_lend (oo (OCall 2) [2; 1] [4]) = Contract [Borrowed; Retained] /\
  call_contract ex_module s ex_hand (mkOop (OTail 7) [0; 1] [] false true None) = Contract [Transfer; Plain] /\
  call_contract ex_module s ex_cont (mkOop OTailInd [1; 0] [] false true (Some ([true], true))) = Contract [Transfer].
Proof. eexists. split; [vm_compute; reflexivity|]. repeat split; vm_compute; reflexivity. Qed.
(** A call of 1 that lends its first argument: it is read, and reaches 2. *)
Example ex_run : exists s m m' rest, compute_summaries ex_module ex_order = Some s /\ lent_call s ex_lend m /\ m 0 = true /\
  runs_many ex_module (ex_lend, m, []) (ex_write, m', rest) /\ m' 0 = true.
Proof.
  destruct ex_summaries as (s & E & H). exists s, (fun x => x =? 0). do 2 eexists. split; [exact E|]. split.
  { intros x X. apply Nat.eqb_eq in X. subst x. exists 0. split; [reflexivity|]. cbn in H. injection H as H _. exact H. }
  split; [reflexivity|]. split.
  - eapply runs_more; [eapply runs_more; [apply runs_none | apply (runs_cast _ _ _ (oo OCast [0] [2])); cbn; auto]|].
    apply (runs_call _ _ _ (oo (OCall 2) [2; 1] [4]) _ 2 ex_write); cbn; auto.
  - reflexivity.
Qed.
