(** Properties C20 and C21. *)
From Verif Require Import CallGraphModel CallGraphSpec TarjanProofs CallGraphProofs.
From Coq Require Import Lia.

(** C20: two functions are in one component exactly when each can reach the other,
    every function of the module is in a component, and components are numbered so that a
    callee's number is never above its caller's.  Holds for every order in which the
    functions and callees are visited; the recursion never runs past [n > |functions|]. *)
Theorem components_exact : forall K (eqb : K -> K -> bool) (g : graph K) n,
  (forall a b, eqb a b = true <-> a = b) -> List.length (keys g) < n -> exists s, tarjan_scc eqb n g = Some s /\
    (forall x, scc s x <> None <-> In x (keys g)) /\
    (forall x y a, scc s x = Some a -> (scc s y = Some a <-> (reach (calls g) x y /\ reach (calls g) y x))) /\
    (forall x y a, scc s x = Some a -> calls g x y -> exists b, scc s y = Some b /\ b <= a) /\
    (forall x a, scc s x = Some a -> a < nscc s).
Proof. intros K eqb g n H. exact (tarjan_ok eqb H g n). Qed.
Print Assumptions components_exact.

(** C20: the functions reported recursive are exactly those that can reach themselves
    through at least one call. *)
Theorem recursive_functions_exact : forall K (eqb : K -> K -> bool) (g : graph K) n,
  (forall a b, eqb a b = true <-> a = b) -> NoDup (keys g) -> List.length (keys g) < n -> exists s, tarjan_scc eqb n g = Some s /\
    forall v, In v (recursive_functions eqb g s) <-> (In v (keys g) /\ reach1 (calls g) v v).
Proof. intros K eqb g n H ND. exact (recursive_ok eqb H g ND n). Qed.
Print Assumptions recursive_functions_exact.

(** 1 -> 2 -> 3 -> 2, 3 -> 4, 5 -> 5, 4 calls the undefined 9. *)
Definition ex_graph : graph nat :=
  {| keys := [4; 1; 2; 3; 5]; edges := fun x => match x with 1 => [2] | 2 => [3] | 3 => [4; 2] | 4 => [9] | 5 => [5] | _ => [] end |}.
Example ex_graph_components : exists s, tarjan_scc Nat.eqb 6 ex_graph = Some s /\ map (scc s) [1; 2; 3; 4; 5; 9] = [Some 2; Some 1; Some 1; Some 0; Some 3; None] /\
  recursive_functions Nat.eqb ex_graph s = [2; 3; 5].
Proof. eexists. split; [vm_compute; reflexivity|]. split; vm_compute; reflexivity. Qed.
Example ex_graph_hyps : (forall a b, Nat.eqb a b = true <-> a = b) /\ NoDup (keys ex_graph) /\ List.length (keys ex_graph) < 6.
Proof. split; [apply Nat.eqb_eq|]. split; [|cbn; lia]. repeat (constructor; [cbn; intuition discriminate|]). constructor. Qed.

(** C20: the call graph of a module has exactly the module's functions, the references
    in their bodies at any depth, and counts every call site. *)
Theorem call_graph_exact : forall items,
  (forall f, In f (cg_funcs (build_call_graph items)) <-> exists i, In (f, i) (functions by_sym items)) /\
  (forall f c, In (f, c) (cg_edges (build_call_graph items)) <-> refers_to (functions by_sym items) f c) /\
  (forall c, In c (cg_consts (build_call_graph items)) <-> exists f i, In (f, i) (functions by_sym items) /\ op_in_body (BConstant (Some c)) (body_of i)) /\
  (forall f, call_site_count (build_call_graph items) f = list_sum (map (fun p => list_sum (map (call_sites f) (body_of (snd p)))) (functions by_sym items))).
Proof. exact call_graph_ok. Qed.
Print Assumptions call_graph_exact.

(** C20: put together, for a module and any hash order. *)
Theorem module_recursion_exact : forall items g n, view_of (build_call_graph items) g -> List.length (keys g) < n ->
  exists s, tarjan_scc String.eqb n g = Some s /\
    forall f, In f (recursive_functions String.eqb g s) <->
      ((exists i, In (f, i) (functions by_sym items)) /\
       reach1 (fun a b => refers_to (functions by_sym items) a b /\ exists i, In (b, i) (functions by_sym items)) f f).
Proof. exact module_recursion_ok. Qed.
Print Assumptions module_recursion_exact.

Local Open Scope string_scope.
(** even/odd call each other inside nested regions of module m; main only calls. *)
Definition ex_module : list item :=
  [Func (Some "main") false [BOp BOther [BOp (BCall (Some "m::even")) []]];
   Mod None (Some "m") [Func (Some "even") false [BOp BOther [BOp BOther [BOp (BTailCall (Some "m::odd")) []]]];
                        Func (Some "odd") false [BOp (BCall (Some "m::even")) []; BOp (BCall (Some "m::even")) []];
                        Func (Some "spare") false [BOp (BConstant (Some "m::odd")) []]]].
Definition ex_view : graph string := {| keys := ["m::spare"; "main"; "m::odd"; "m::even"]; edges := callees (cg_edges (build_call_graph ex_module)) |}.
Example ex_view_ok : view_of (build_call_graph ex_module) ex_view.
Proof.
  split; [|split].
  - repeat (constructor; [cbn; intuition discriminate|]). constructor.
  - intro f. cbn. intuition.
  - intros f x. apply callees_In.
Qed.
Example ex_module_recursive : exists s, tarjan_scc String.eqb 5 ex_view = Some s /\ recursive_functions String.eqb ex_view s = ["m::odd"; "m::even"] /\
  call_site_count (build_call_graph ex_module) "m::even" = 3.
Proof. eexists. split; [vm_compute; reflexivity|]. split; vm_compute; reflexivity. Qed.

(** C21: elimination always finishes; the surviving functions are exactly those
    reachable from an entry point, in their original order; the removed names are the
    others; everything that is not a named function is unchanged. *)
Theorem eliminates_exactly_unreachable : forall cfg items, exists items' removed keep,
  eliminate_dead_functions cfg items = Some (items', removed) /\
  (forall f, keep f = true <-> live cfg items f) /\
  dce_functions cfg items' = filter (fun p => keep (fst p)) (dce_functions cfg items) /\
  removed = map fst (filter (fun p => negb (keep (fst p))) (dce_functions cfg items)) /\
  flat_map (dce_rest cfg) items' = flat_map (dce_rest cfg) items.
Proof. exact eliminate_ok. Qed.
Print Assumptions eliminates_exactly_unreachable.

(** C21, for modules whose nested modules carry both names: a function that survives
    keeps every function it refers to. *)
Theorem surviving_calls_resolve_partial : forall cfg items items' removed, recursive cfg = true -> Forall named_alike items ->
  eliminate_dead_functions cfg items = Some (items', removed) ->
  forall f i c j, In (f, i) (functions by_sym items) -> live cfg items f -> refers (body_of i) c -> In (c, j) (functions by_sym items) ->
  In (f, i) (functions by_name items') /\ In (c, j) (functions by_name items').
Proof. exact dce_keeps_calls. Qed.
Print Assumptions surviving_calls_resolve_partial.

Definition ex_cfg : dce_config := {| extra_entry_points := ["hook"]; recursive := true |}.
Definition ex_dce : list item :=
  [Func (Some "main") false [BOp BOther [BOp (BCall (Some "m::a")) []]]; Func (Some "dead") false [BOp (BCall (Some "m::c")) []]; Misc 7;
   Mod (Some "m") (Some "m") [Func (Some "a") false [BOp (BConstant (Some "m::b")) []]; Func (Some "b") false []; Func (Some "c") false []; Func (Some "hook") false []; Func None false []];
   Export (Some "used"); Func (Some "used") false []; Func (Some "ext") true []].
Example ex_dce_runs : exists items', eliminate_dead_functions ex_cfg ex_dce = Some (items', ["dead"; "m::c"]) /\
  map fst (functions by_name items') = ["main"; "m::a"; "m::b"; "m::hook"; "used"; "ext"].
Proof. eexists. split; [vm_compute; reflexivity|vm_compute; reflexivity]. Qed.
Example ex_dce_named : Forall named_alike ex_dce /\ live ex_cfg ex_dce "m::a" /\ In ("m::b", Func (Some "b") false []) (functions by_sym ex_dce).
Proof.
  split; [|split].
  - repeat constructor.
  - exists "main". split; [right; exists "main", false, [BOp BOther [BOp (BCall (Some "m::a")) []]]; split; [left; reflexivity|left; reflexivity]|].
    eapply reach_step; [apply reach_refl|]. exists (Func (Some "main") false [BOp BOther [BOp (BCall (Some "m::a")) []]]). split; [left; reflexivity|].
    left. eapply oib_deep; [left; reflexivity|]. eapply oib_here. left. reflexivity.
  - cbn. auto 10.
Qed.

(** C21 fails when nested modules carry only [sym_name], as the module operations the
    compiler builds do: elimination qualifies names by the [name] attribute instead, so a function
    that the call graph resolves and [main] calls is removed. *)
Theorem surviving_calls_resolve_refuted : exists cfg items items' removed f i c j,
  recursive cfg = true /\ eliminate_dead_functions cfg items = Some (items', removed) /\
  In (f, i) (functions by_sym items) /\ live cfg items f /\ refers (body_of i) c /\ In (c, j) (functions by_sym items) /\
  In (f, i) (functions by_sym items') /\ (forall k, ~ In (c, k) (functions by_sym items')) /\ In (f, c) (cg_edges (build_call_graph items)).
Proof.
  exists ex_cfg, [Func (Some "main") false [BOp (BCall (Some "m::f")) []]; Mod None (Some "m") [Func (Some "f") false []]].
  do 2 eexists. exists "main", (Func (Some "main") false [BOp (BCall (Some "m::f")) []]), "m::f", (Func (Some "f") false []).
  split; [reflexivity|]. split; [vm_compute; reflexivity|]. split; [left; reflexivity|]. split.
  - exists "main". split; [right; exists "main", false, [BOp (BCall (Some "m::f")) []]; split; [left; reflexivity|left; reflexivity]|apply reach_refl].
  - split; [left; eapply oib_here; left; reflexivity|]. split; [right; left; reflexivity|]. split; [left; reflexivity|]. split; [|left; reflexivity].
    intros k [H|[]]. discriminate.
Qed.
Print Assumptions surviving_calls_resolve_refuted.
