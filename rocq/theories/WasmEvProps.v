(** C74: the evidence functions of the WebAssembly backend: an operation should reach the newest handler of its ability. *)
From Verif Require Import WasmEvProofs.
Open Scope Z_scope.

(** Installing a handler always succeeds, and evidence held by others stays as it is. *)
Theorem installing_a_handler_succeeds hs h p m rounds : installed hs h p -> fits hs -> (List.length hs < rounds)%nat ->
  exists q h', wasm_extend rounds h p m = Returned (Arr q) h'
    /\ forall a l, nth_error h a = Some l -> nth_error h' a = Some l.
Proof. exact (installing_total hs h p m rounds). Qed.
Print Assumptions installing_a_handler_succeeds.

(** A lookup ends, leaves the arrays alone and never gives a handler of another ability or one that was not installed. *)
Theorem a_found_handler_is_of_the_ability hs h p rounds id : installed hs h p -> fits hs -> (0 < rounds)%nat ->
  wasm_lookup rounds h p id = Trapped
  \/ exists x, wasm_lookup rounds h p id = Returned (Mk x) h /\ In x hs /\ ability_id x = id.
Proof. exact (lookup_sound hs h p rounds id). Qed.
Print Assumptions a_found_handler_is_of_the_ability.

(** An operation of an ability without handlers traps. *)
Theorem an_unhandled_ability_traps hs h p rounds id : installed hs h p -> fits hs -> (0 < rounds)%nat ->
  spec_lookup hs id = None -> wasm_lookup rounds h p id = Trapped.
Proof. exact (unhandled hs h p rounds id). Qed.
Print Assumptions an_unhandled_ability_traps.

(** The full claim would be: for every [id] and [x], [spec_lookup hs id = Some x -> wasm_lookup rounds h p id = Returned (Mk x) h].
    Proved for the ability of the handler installed last, with at most two handlers, or when all ids are at least the number of handlers.
    Missing: every other case, see the refutations. *)
Theorem the_newest_handler_is_found_partial m hs h p rounds : installed (m :: hs) h p -> fits (m :: hs) -> (0 < rounds)%nat ->
  (List.length hs <= 1)%nat \/ (forall x, In x (m :: hs) -> Z.of_nat (List.length (m :: hs)) <= ability_id x) ->
  wasm_lookup rounds h p (ability_id m) = Returned (Mk m) h.
Proof. exact (lookup_newest m hs h p rounds). Qed.
Print Assumptions the_newest_handler_is_found_partial.

(** With ids at least the number of handlers, an operation of any other ability traps, whether there is a handler or not. *)
Theorem outer_handlers_are_lost m hs h p rounds id : installed (m :: hs) h p -> fits (m :: hs) -> (0 < rounds)%nat ->
  (forall x, In x (m :: hs) -> Z.of_nat (List.length (m :: hs)) <= ability_id x) -> ability_id m <> id ->
  wasm_lookup rounds h p id = Trapped.
Proof. exact (only_newest_left m hs h p rounds id). Qed.
Print Assumptions outer_handlers_are_lost.

(** With negative ids all handlers are kept, in the order of installation, and the one in the middle is the only one that can be found. *)
Theorem only_the_middle_handler_is_found hs h p rounds id : installed hs h p -> fits hs -> (0 < rounds)%nat ->
  (forall x, In x hs -> ability_id x < 0) ->
  wasm_lookup rounds h p id =
    match nth_error (rev hs) (Nat.div (List.length hs) 2) with
    | Some x => if ability_id x =? id then Returned (Mk x) h else Trapped
    | None => Trapped
    end.
Proof. exact (middle_only hs h p rounds id). Qed.
Print Assumptions only_the_middle_handler_is_found.

(** Examples and refutations. *)
Definition handler_of (id tag : Z) : marker := Marker id tag 0 0.
(** The evidence the functions make of handlers, oldest first, and how it comes about. *)
Fixpoint install (ms : list marker) (h : list (list value)) (p : nat) : list (list value) * nat :=
  match ms with
  | [] => (h, p)
  | m :: ms => match wasm_extend 9 h p m with Returned (Arr q) h' => install ms h' q | _ => (h, p) end
  end.
Fixpoint installs (ms : list marker) (n : nat) (h : list (list value)) (p : nat) : bool :=
  match ms with
  | [] => true
  | m :: ms => (n <? 9)%nat && match wasm_extend 9 h p m with Returned (Arr q) h' => installs ms (S n) h' q | _ => false end
  end.
Lemma install_ok ms : forall hs h p, installed hs h p -> installs ms (List.length hs) h p = true ->
  installed (rev ms ++ hs) (fst (install ms h p)) (snd (install ms h p)).
Proof.
  induction ms as [|m ms IH]; intros hs h p Hi Hc; [exact Hi|]. cbn [installs install] in *. apply andb_prop in Hc as [Hn Hc].
  destruct (wasm_extend 9 h p m) as [| |v h'| | |] eqn:E; try discriminate Hc. destruct v as [|q| |]; try discriminate Hc.
  cbn [rev]. rewrite <- app_assoc. apply IH; [|exact Hc]. apply Nat.ltb_lt in Hn. exact (installed_one hs h p m 9 q h' Hi Hn E).
Qed.
Lemma from_scratch ms h p : installs ms 0 [[]] 0 = true -> install ms [[]] 0 = (h, p) -> installed (rev ms) h p.
Proof.
  intros Hc E. pose proof (install_ok ms [] [[]] 0%nat (installed_none [[]] 0%nat eq_refl) Hc) as H. rewrite E, app_nil_r in H. exact H.
Qed.
Ltac install_them ms := eexists _, _; split; [apply (from_scratch ms); [vm_compute; reflexivity | vm_compute; reflexivity] | ].
Example one_handler : exists h p, installed [handler_of 5 1] h p /\ wasm_lookup 9 h p 5 = Returned (Mk (handler_of 5 1)) h /\ wasm_lookup 9 h p 6 = Trapped.
Proof. install_them [handler_of 5 1]. split; vm_compute; reflexivity. Qed.
Example big_ids : exists h p, installed [handler_of 9 3; handler_of 7 2; handler_of 5 1] h p /\ wasm_lookup 9 h p 9 = Returned (Mk (handler_of 9 3)) h
  /\ wasm_lookup 9 h p 7 = Trapped.
Proof. install_them [handler_of 5 1; handler_of 7 2; handler_of 9 3]. split; vm_compute; reflexivity. Qed.
Example negative_ids : exists h p, installed [handler_of (-9) 3; handler_of (-7) 2; handler_of (-5) 1] h p
  /\ wasm_lookup 9 h p (-7) = Returned (Mk (handler_of (-7) 2)) h /\ wasm_lookup 9 h p (-9) = Trapped.
Proof. install_them [handler_of (-5) 1; handler_of (-7) 2; handler_of (-9) 3]. split; vm_compute; reflexivity. Qed.

(** A handler for one ability inside a handler for another: the operation of the outer ability traps. *)
Theorem an_outer_handler_is_found_refuted :
  exists hs id x h p, installed hs h p /\ fits hs /\ spec_lookup hs id = Some x /\ wasm_lookup 9 h p id = Trapped.
Proof.
  exists [handler_of 9 2; handler_of 5 1], 5, (handler_of 5 1). install_them [handler_of 5 1; handler_of 9 2].
  repeat split; vm_compute; reflexivity.
Qed.
Print Assumptions an_outer_handler_is_found_refuted.
(** Even when no handler is lost, the loop does not come to its second round. *)
Theorem a_kept_handler_is_found_refuted :
  exists hs id x h p, installed hs h p /\ fits hs /\ (exists l, nth_error h p = Some l /\ In (Mk x) l)
    /\ spec_lookup hs id = Some x /\ wasm_lookup 9 h p id = Trapped.
Proof.
  exists [handler_of (-3) 2; handler_of (-7) 1], (-7), (handler_of (-7) 1). install_them [handler_of (-7) 1; handler_of (-3) 2].
  split; [vm_compute; reflexivity|]. split; [eexists; split; [vm_compute; reflexivity|left; reflexivity]|]. split; vm_compute; reflexivity.
Qed.
Print Assumptions a_kept_handler_is_found_refuted.
(** Three nested handlers of one ability: the operation reaches the second. *)
Theorem the_newest_of_an_ability_is_found_refuted :
  exists hs id x y h p, installed hs h p /\ fits hs /\ spec_lookup hs id = Some x /\ wasm_lookup 9 h p id = Returned (Mk y) h /\ x <> y.
Proof.
  exists [handler_of (-7) 3; handler_of (-7) 2; handler_of (-7) 1], (-7), (handler_of (-7) 3), (handler_of (-7) 2).
  install_them [handler_of (-7) 1; handler_of (-7) 2; handler_of (-7) 3].
  split; [vm_compute; reflexivity|]. split; [vm_compute; reflexivity|]. split; [vm_compute; reflexivity|]. discriminate.
Qed.
Print Assumptions the_newest_of_an_ability_is_found_refuted.
