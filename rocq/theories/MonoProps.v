(** C58: generic functions are specialized for exactly the instances that the program needs. *)
From Coq Require Import String List.
From Verif Require Import MonoSpec MonoDone MonoCheck.
From Coq Require Import Lia.
Open Scope string_scope. Open Scope list_scope. Import ListNotations.

(** The declarations of the result are those of the source, with every reference that asks for an instance redirected, followed by one copy per needed instance of a
    declared function, with the type arguments filled in and references redirected. *)
Theorem specialized_program : forall types ds m variant shuffle s,
  source_ok types ds m -> orders shuffle -> separates variant types ds -> monomorphize variant shuffle types ds m = Done s ->
  exists go copies, redirects types go /\
    decls s = List.map (map_decl (fun i => i) go (fun r => r)) ds ++ List.map (fun x => let '(q, args, f, n) := x in DFunction (copy_for variant go args n f)) copies /\
    (forall q args f n, In (q, args, f, n) copies <-> needed types ds (q, args) /\ function_named ds q f /\ mangle_name q args = Some n) /\
    NoDup (List.map (fun x => fst (fst x)) copies) /\ (forall q args, needed types ds (q, args) -> mangle_name q args <> None).
Proof. exact done_copies. Qed.
Print Assumptions specialized_program.

(** The tables about source nodes stay; what they say about a node of a generic function holds for its copies, with the type arguments filled in. *)
Theorem specialized_tables : forall types ds m variant shuffle s,
  source_ok types ds m -> orders shuffle -> separates variant types ds -> monomorphize variant shuffle types ds m = Done s ->
  (forall b, lookup (node_types (metadata s)) (b, None) = lookup (node_types m) (b, None) /\ lookup (callees (metadata s)) (b, None) = lookup (callees m) (b, None) /\
    lookup (handlers (metadata s)) (b, None) = lookup (handlers m) (b, None) /\ lookup (performs (metadata s)) (b, None) = lookup (performs m) (b, None) /\
    lookup (lambdas (metadata s)) (b, None) = lookup (lambdas m) (b, None) /\ (In (b, None) (exhaustive (metadata s)) <-> In (b, None) (exhaustive m))) /\
  (forall q args f b, needed types ds (q, args) -> function_named ds q f -> func_node (b, None) f ->
    lookup (node_types (metadata s)) (b, Some (variant args)) = option_map (fill_in args) (lookup (node_types m) (b, None)) /\
    lookup (callees (metadata s)) (b, Some (variant args)) = option_map (fill_in args) (lookup (callees m) (b, None)) /\
    lookup (handlers (metadata s)) (b, Some (variant args)) = option_map (op_at args) (lookup (handlers m) (b, None)) /\
    lookup (performs (metadata s)) (b, Some (variant args)) = option_map (op_at args) (lookup (performs m) (b, None)) /\
    lookup (lambdas (metadata s)) (b, Some (variant args)) = option_map (lambda_at args) (lookup (lambdas m) (b, None)) /\
    (In (b, Some (variant args)) (exhaustive (metadata s)) <-> In (b, None) (exhaustive m))).
Proof. exact done_tables. Qed.
Print Assumptions specialized_tables.

(** The types of functions: those of the source, and one for every needed instance of a declared function or foreign function. *)
Theorem specialized_types : forall types ds m variant shuffle s,
  source_ok types ds m -> orders shuffle -> separates variant types ds -> monomorphize variant shuffle types ds m = Done s ->
  exists new, ftypes s = types ++ new /\ forall n sc, In (n, sc) new <-> exists q args sc0,
    needed types ds (q, args) /\ ((exists f, function_named ds q f) \/ extern_named ds q) /\ In (q, sc0) types /\ mangle_name q args = Some n /\
    sc = {| sc_params := 0; sc_rows := sc_rows sc0; sc_body := fill_in args (sc_body sc0) |}.
Proof. exact done_types. Qed.
Print Assumptions specialized_types.

(** No function of the result, copies included, refers to a generic function at a concrete instance. *)
Theorem no_instance_left_open : forall types ds m variant shuffle s,
  source_ok types ds m -> orders shuffle -> separates variant types ds -> monomorphize variant shuffle types ds m = Done s ->
  forall path f n r i, In (path, f) (source_functions (decls s)) -> uses (f_body f) n r -> ~ asks types r i.
Proof. exact done_settled. Qed.
Print Assumptions no_instance_left_open.

(** A redirected reference finds the copy under its new name, and has the type that is recorded for the copy, up to effects. *)
Theorem references_reach_copies : forall types ds m variant shuffle s,
  source_ok types ds m -> orders shuffle -> separates variant types ds -> monomorphize variant shuffle types ds m = Done s ->
  (forall i j n, needed types ds i -> needed types ds j -> mangle_name (fst i) (snd i) = Some n -> mangle_name (fst j) (snd j) = Some n -> i = j) ->
  exists go, redirects types go /\ forall r q args f, asks types r (q, args) -> needed types ds (q, args) -> function_named ds q f ->
  exists n sc, mangle_name q args = Some n /\ target (go r) = RFunction n /\ function_named (decls s) n (copy_for variant go args n f) /\ In (q, sc) types /\
    In (n, {| sc_params := 0; sc_rows := sc_rows sc; sc_body := fill_in args (sc_body sc) |}) (ftypes s) /\ fits TBound (fill_in args (sc_body sc)) (rty (go r)).
Proof. exact done_reached. Qed.
Print Assumptions references_reach_copies.

(** Different instances have different names.  Missing: arguments with effectful functions, see [copy_names_refuted]. *)
Theorem copy_names_distinct_partial : forall types ds m tdecl, source_ok types ds m -> (forall q args, needed types ds (q, args) -> Forall (plain tdecl) args) ->
  forall i j n, needed types ds i -> needed types ds j -> mangle_name (fst i) (snd i) = Some n -> mangle_name (fst j) (snd j) = Some n -> i = j.
Proof. exact names_distinct. Qed.
Print Assumptions copy_names_distinct_partial.

(** The result does not depend on the iteration order of hash maps. *)
Theorem specialization_order_irrelevant : forall types ds m variant shuffle shuffle',
  source_ok types ds m -> orders shuffle -> orders shuffle' -> separates variant types ds ->
  (forall i j n, needed types ds i -> needed types ds j -> mangle_name (fst i) (snd i) = Some n -> mangle_name (fst j) (snd j) = Some n -> i = j) ->
  monomorphize variant shuffle types ds m = monomorphize variant shuffle' types ds m.
Proof. exact order_irrelevant. Qed.
Print Assumptions specialization_order_irrelevant.

(** It succeeds if names can be formed, types are in scope, and every needed instance is needed by a chain of at most 63 uses. *)
Theorem specialization_succeeds : forall types ds m variant shuffle,
  source_ok types ds m -> orders shuffle -> separates variant types ds ->
  (forall i, needed types ds i -> mangle_name (fst i) (snd i) <> None) ->
  (forall q sc t, In (q, sc) types -> sc_params sc <> 0 -> scoped_under ds m q sc t -> Forall (fun i => i < sc_params sc) (bounds t)) ->
  (forall i, needed types ds i -> needed_in types ds 63 i) -> exists s, monomorphize variant shuffle types ds m = Done s.
Proof. exact succeeds. Qed.
Print Assumptions specialization_succeeds.
Theorem specialization_depth : forall types ds m variant shuffle s,
  source_ok types ds m -> orders shuffle -> separates variant types ds -> monomorphize variant shuffle types ds m = Done s ->
  forall i, needed types ds i -> needed_in types ds 63 i.
Proof. exact done_depth. Qed.
Print Assumptions specialization_depth.

(** ** An example *)
Definition at_ (n : N) : nid := (n, None).
Definition fn (a b : ty) : ty := TFunc [a] b pure_row Direct.
Definition poly : scheme := mkScheme 1 [] (fn (TBound 0) (TBound 0)).
Definition func_ex (n : N) (name : string) (body : expr) : func :=
  {| f_id := at_ n; f_pub := true; f_name := name; f_tparams := ["a"]; f_params := [mkParam (at_ (n + 1)) "x" 0 (Some 0%N)]; f_ret := 1; f_effects := 0; f_body := body |}.
Definition local_ex (n : N) (t : ty) : expr := Var (at_ n) (mkRef (ROther 0) t).
Definition use_ex (n : N) (q : string) (t : ty) : expr := Var (at_ n) (mkRef (RFunction q) t).
Definition id_ex := func_ex 0 "id" (local_ex 2 (TBound 0)).
Definition twice_ex := func_ex 10 "twice" (Call (at_ 12) (use_ex 13 "id" (fn (TBound 0) (TBound 0))) [Call (at_ 14) (use_ex 15 "id" (fn (TBound 0) (TBound 0))) [local_ex 16 (TBound 0)]]).
Definition main_ex := func_ex 20 "main" (Tuple (at_ 22) [Call (at_ 23) (use_ex 24 "m::twice" (fn (TPrim PInt) (TPrim PInt))) [Lit (at_ 25) 1]; Call (at_ 26) (use_ex 27 "id" (fn (TPrim PBool) (TPrim PBool))) [Lit (at_ 28) 1]]).
Definition ds_ex : list decl := [DFunction id_ex; DModule "m" (Some [DFunction twice_ex]); DFunction main_ex].
Definition types_ex : list (string * scheme) := [("id", poly); ("m::twice", poly); ("main", mkScheme 0 [] (fn (TPrim PNil) (TPrim PNil)))].
Definition meta_ex : meta :=
  {| node_types := [(at_ 2, TBound 0); (at_ 12, TBound 0)]; callees := [(at_ 13, fn (TBound 0) (TBound 0))]; handlers := []; performs := []; lambdas := [(at_ 14, (TBound 0, Direct))];
     exhaustive := [at_ 12] |}.
Definition variant_ex (args : list ty) : N := match args with [TPrim PInt] => 1 | [TPrim PBool] => 2 | _ => 0 end.
Definition needed_ex : list inst := [("m::twice", [TPrim PInt]); ("id", [TPrim PBool]); ("id", [TPrim PInt])].
Lemma source_ex : source_ok types_ex ds_ex meta_ex. Proof. apply check_ok. vm_compute. reflexivity. Qed.
Lemma separates_ex : separates variant_ex types_ex ds_ex. Proof. eapply separates_ok with (L := needed_ex); [apply source_ex|vm_compute; reflexivity|vm_compute; reflexivity]. Qed.
Lemma orders_ex : orders (fun _ l => l) /\ orders (fun _ l => rev l).
Proof. split; intros n l; [auto|apply Permutation_rev]. Qed.
(** The program meets the hypotheses; two rounds make three copies. *)
Example specialized_ex : source_ok types_ex ds_ex meta_ex /\ separates variant_ex types_ex ds_ex /\ orders (fun _ l => l) /\
  exists s, monomorphize variant_ex (fun _ l => l) types_ex ds_ex meta_ex = Done s /\
    List.map (fun d => match d with DFunction f => f_name f | DModule n _ => n | _ => "" end) (decls s) = ["id"; "m"; "main"; "id$Bool"; "m::twice$Int"; "id$Int"] /\
    lookup (node_types (metadata s)) (12%N, Some 1%N) = Some (TPrim PInt) /\ List.map fst (ftypes s) = ["id"; "m::twice"; "main"; "id$Bool"; "m::twice$Int"; "id$Int"].
Proof. split; [apply source_ex|]. split; [apply separates_ex|]. split; [apply orders_ex|]. eexists. split; [vm_compute; reflexivity|]. vm_compute. auto. Qed.
(** What it needs: also what the copy of [twice] needs. *)
Example needed_through_copy : needed types_ex ds_ex ("id", [TPrim PInt]).
Proof.
  apply needed_copy with (q := "m::twice") (args := [TPrim PInt]) (f := twice_ex) (n := at_ 13) (r := mkRef (RFunction "id") (fn (TBound 0) (TBound 0))).
  - apply needed_source with (path := ["main"]) (f := main_ex) (n := at_ 24) (r := mkRef (RFunction "m::twice") (fn (TPrim PInt) (TPrim PInt))); [cbn; auto|apply visit_uses; cbn; auto|].
    apply wanted_asks; [apply (so_keys _ _ _ source_ex)|reflexivity].
  - apply (func_at_iff _ _ _ source_ex). reflexivity.
  - apply visit_uses. cbn; auto.
  - apply wanted_asks; [apply (so_keys _ _ _ source_ex)|reflexivity].
Qed.
Example plain_ex : exists tdecl, forall q args, needed types_ex ds_ex (q, args) -> Forall (plain tdecl) args.
Proof.
  exists (fun n => (mkTyDef Synthetic n, n)). intros q args N. apply (closedb_ok _ _ _ needed_ex source_ex) in N; [|vm_compute; reflexivity].
  cbn in N. repeat (destruct N as [[= <- <-]|N]; [repeat constructor|]). destruct N.
Qed.
Example scoped_ex : forall q sc t, In (q, sc) types_ex -> sc_params sc <> 0 -> scoped_under ds_ex meta_ex q sc t -> Forall (fun i => i < sc_params sc) (bounds t).
Proof.
  intros q sc t I P U.
  assert (B : forall t, Forall (fun i => i < 1) (bounds t) -> Forall (fun i => i < sc_params sc) (bounds t)).
  { intros u F. cbn in I. repeat (destruct I as [[= <- <-]|I]; [try exact F; cbn in P; congruence|]). destruct I. }
  apply B. assert (FN : forall f, function_named ds_ex q f -> f = id_ex \/ f = twice_ex).
  { intros f F. apply (func_at_iff _ _ _ source_ex) in F. cbn in I. repeat (destruct I as [[= <- <-]|I]; [try (cbn in P; congruence); vm_compute in F; injection F as <-; auto|]). destruct I. }
  assert (NT : forall i u, lookup (node_types meta_ex) i = Some u \/ lookup (callees meta_ex) i = Some u -> Forall (fun i => i < 1) (bounds u)).
  { intros i u [L|L]; cbn in L; repeat (destruct (nid_eqb _ i); [injection L as <-; repeat constructor|]); discriminate. }
  destruct U as [|f u F T|f i u F N L|f i u F N L|f i o u F N L O|f i o u F N L O|f i u c F N L]; eauto; try (cbn in L; discriminate).
  - cbn in I. repeat (destruct I as [[= <- <-]|I]; [try (cbn in P; congruence); repeat constructor|]). destruct I.
  - destruct (FN f F) as [-> | ->]; cbn in T; repeat (destruct T as [<-|T]; [repeat constructor|]); destruct T.
  - cbn in L. destruct (nid_eqb _ i); [injection L as <- <-; repeat constructor|discriminate].
Qed.

(** ** What does not hold *)
(** A chain of generic functions without any recursion: sixty-four are too many. *)
Fixpoint name_ex (k : nat) : string := match k with O => "f" | S k => String.append (name_ex k) "x" end.
Definition link (k : nat) : func := func_ex (10 * N.of_nat k + 100) (name_ex k) (Call (at_ (10 * N.of_nat k + 102)) (use_ex (10 * N.of_nat k + 103) (name_ex (S k)) (fn (TBound 0) (TBound 0))) [local_ex (10 * N.of_nat k + 104) (TBound 0)]).
Definition chain (n : nat) : list decl :=
  DFunction (func_ex 0 "main" (Call (at_ 2) (use_ex 3 (name_ex 0) (fn (TPrim PInt) (TPrim PInt))) [Lit (at_ 4) 1])) :: List.map (fun k => DFunction (link k)) (seq 0 n) ++ [DFunction (func_ex 50 (name_ex n) (local_ex 52 (TBound 0)))].
Definition chain_types (n : nat) : list (string * scheme) := ("main", mkScheme 0 [] (fn (TPrim PNil) (TPrim PInt))) :: List.map (fun k => (name_ex k, poly)) (seq 0 (S n)).
Definition no_meta : meta := {| node_types := []; callees := []; handlers := []; performs := []; lambdas := []; exhaustive := [] |}.
Theorem deep_chain_refuted : exists types ds m variant, source_ok types ds m /\ separates variant types ds /\
  (forall q args, needed types ds (q, args) -> args = [TPrim PInt]) /\ monomorphize variant (fun _ l => l) types ds m = Exceeded.
Proof.
  exists (chain_types 63), (chain 63), no_meta, (fun _ => 0%N). assert (SO : source_ok (chain_types 63) (chain 63) no_meta) by (apply check_ok; vm_compute; reflexivity).
  assert (C : closedb (chain_types 63) (chain 63) (List.map (fun k => (name_ex k, [TPrim PInt])) (seq 0 64)) = true) by (vm_compute; reflexivity).
  split; [auto|]. split; [eapply separates_ok; [exact SO|exact C|vm_compute; reflexivity]|]. split.
  - intros q args N. apply (closedb_ok _ _ _ _ SO C) in N. apply in_map_iff in N as [k [[= _ <-] _]]. auto.
  - vm_compute. reflexivity.
Qed.
Print Assumptions deep_chain_refuted.
(** One function less is specialized. *)
Example chain_ok : exists s, monomorphize (fun _ => 0%N) (fun _ l => l) (chain_types 62) (chain 62) no_meta = Done s /\ List.length (decls s) = 127.
Proof. eexists. split; [vm_compute; reflexivity|]. vm_compute. reflexivity. Qed.

(** A function that calls itself at a larger type has no result. *)
Definition grow_types : list (string * scheme) := [("grow", mkScheme 1 [] (fn (TBound 0) (TPrim PNil)))].
Definition grow_ds : list decl :=
  [DFunction (func_ex 0 "grow" (Call (at_ 2) (use_ex 3 "grow" (fn (TTuple [TBound 0]) (TPrim PNil))) [Tuple (at_ 4) [local_ex 5 (TBound 0)]]));
   DFunction (func_ex 10 "main" (Call (at_ 12) (use_ex 13 "grow" (fn (TPrim PInt) (TPrim PNil))) [Lit (at_ 14) 1]))].
Lemma grow_source : source_ok grow_types grow_ds no_meta. Proof. apply check_ok. vm_compute. reflexivity. Qed.
Fixpoint nest (n : nat) : ty := match n with O => TPrim PInt | S n => TTuple [nest n] end.
Lemma nest_concrete n : is_concrete (nest n) = true. Proof. induction n; cbn; auto. rewrite IHn. auto. Qed.
Lemma nest_inj : forall a b, nest a = nest b -> a = b.
Proof. induction a as [|a IH]; intros [|b] E; cbn in E; try discriminate; auto. injection E as E. auto. Qed.
Lemma grow_wanted n : wanted grow_types (at_args [nest n] (mkRef (RFunction "grow") (fn (TTuple [TBound 0]) (TPrim PNil)))) = Some ("grow", [nest (S n)]).
Proof. unfold wanted, at_args, fill_in. cbn. rewrite nest_concrete. auto. Qed.
Lemma grow_needed n : needed grow_types grow_ds ("grow", [nest n]).
Proof.
  induction n as [|n IH].
  - eapply needed_source with (path := ["main"]); [cbn; auto|apply visit_uses; cbn; auto|]. apply wanted_asks; [apply (so_keys _ _ _ grow_source)|reflexivity].
  - eapply needed_copy with (n := at_ 3) (r := mkRef (RFunction "grow") (fn (TTuple [TBound 0]) (TPrim PNil))); [exact IH|apply (func_at_iff _ _ _ grow_source); reflexivity|apply visit_uses; cbn; auto|]. apply wanted_asks; [apply (so_keys _ _ _ grow_source)|apply grow_wanted].
Qed.
Lemma grow_level n i : needed_in grow_types grow_ds n i -> exists k, k < n /\ i = ("grow", [nest k]).
Proof.
  induction 1 as [n path f m r i I U A|n q args f m r i N IH F U A]; apply visit_uses in U; apply (wanted_asks _ (so_keys _ _ _ grow_source)) in A.
  - cbn in I. destruct I as [[= <- <-]|[[= <- <-]|[]]]; cbn in U; destruct U as [[= <- <-]|U]; try (destruct U as [[= <- <-]|[]]); try (vm_compute in A; discriminate); try contradiction.
    exists 0. split; [lia|]. vm_compute in A. injection A as <-. auto.
  - destruct IH as [k [L [= -> ->]]]. apply (func_at_iff _ _ _ grow_source) in F. vm_compute in F. injection F as <-. cbn in U. destruct U as [[= <- <-]|[[= <- <-]|[]]].
    + change (wanted grow_types (at_args [nest k] (mkRef (RFunction "grow") (fn (TTuple [TBound 0]) (TPrim PNil)))) = Some i) in A. rewrite grow_wanted in A. injection A as <-.
      exists (S k). split; [lia|auto].
    + unfold wanted, at_args in A. cbn in A. discriminate.
Qed.
Theorem polymorphic_recursion_refuted : exists types ds m, source_ok types ds m /\
  forall variant shuffle s, orders shuffle -> separates variant types ds -> monomorphize variant shuffle types ds m <> Done s.
Proof.
  exists grow_types, grow_ds, no_meta. split; [apply grow_source|]. intros variant shuffle s OR SEP D.
  pose proof (specialization_depth _ _ _ _ _ _ grow_source OR SEP D _ (grow_needed 63)) as N. apply grow_level in N as [k [L E]]. injection E as E. apply (nest_inj 63 k) in E. lia.
Qed.
Print Assumptions polymorphic_recursion_refuted.

(** Instances that differ in an effect only get the same name: both copies are declared under it. *)
Definition io_row : row := ([(mkAbility true "Io", [])], None).
Definition run (e : row) : ty := TFunc [] (TPrim PNil) e Direct.
Definition clash_types : list (string * scheme) := [("id", poly)].
Definition clash_ds : list decl :=
  [DFunction id_ex; DFunction (func_ex 10 "main" (Tuple (at_ 12) [Call (at_ 13) (use_ex 14 "id" (fn (run pure_row) (run pure_row))) [Lit (at_ 15) 1];
                                                                     Call (at_ 16) (use_ex 17 "id" (fn (run io_row) (run io_row))) [Lit (at_ 18) 1]]))].
Definition clash_variant (args : list ty) : N := match args with [TFunc _ _ ([], _) _] => 1 | _ => 0 end.
Theorem copy_names_refuted : exists types ds m variant s f g, source_ok types ds m /\ separates variant types ds /\
  monomorphize variant (fun _ l => l) types ds m = Done s /\ In (DFunction f) (decls s) /\ In (DFunction g) (decls s) /\ f_name f = f_name g /\ f_body f <> f_body g.
Proof.
  assert (SO : source_ok clash_types clash_ds no_meta) by (apply check_ok; vm_compute; reflexivity).
  exists clash_types, clash_ds, no_meta, clash_variant. eexists.
  exists (copy_for clash_variant (redirect clash_types) [run pure_row] "id$Fn$0$$1$Nil" id_ex), (copy_for clash_variant (redirect clash_types) [run io_row] "id$Fn$0$$1$Nil" id_ex).
  split; [auto|]. split; [eapply separates_ok with (L := [("id", [run pure_row]); ("id", [run io_row])]); [exact SO|vm_compute; reflexivity|vm_compute; reflexivity]|].
  split; [vm_compute; reflexivity|]. vm_compute. repeat split; auto 7. discriminate.
Qed.
Print Assumptions copy_names_refuted.

(** The type of a continuation counts as concrete, but has no name: the compiler panics. *)
Definition cont_ds : list decl :=
  [DFunction id_ex; DFunction (func_ex 10 "main" (Call (at_ 12) (use_ex 13 "id" (fn (TCont (TPrim PInt) (TPrim PNil) pure_row) (TCont (TPrim PInt) (TPrim PNil) pure_row))) [Lit (at_ 14) 1]))].
Theorem continuation_argument_refuted : exists types ds m, source_ok types ds m /\ (forall i, needed types ds i -> needed_in types ds 1 i) /\
  forall variant, monomorphize variant (fun _ l => l) types ds m = Panicked.
Proof.
  assert (SO : source_ok clash_types cont_ds no_meta) by (apply check_ok; vm_compute; reflexivity). exists clash_types, cont_ds, no_meta. split; [auto|]. split; [|intros; vm_compute; reflexivity].
  intros i N. apply (closedb_ok _ _ _ [("id", [TCont (TPrim PInt) (TPrim PNil) pure_row])] SO) in N; [|vm_compute; reflexivity]. destruct N as [<-|[]].
  eapply in_source with (path := ["main"]); [cbn; auto|apply visit_uses; cbn; auto|]. apply wanted_asks; [apply (so_keys _ _ _ SO)|reflexivity].
Qed.
Print Assumptions continuation_argument_refuted.

(** A type parameter that occurs in effects only is never determined: the function stays generic although its use is concrete. *)
Definition fail_at (t : ty) : ty := TFunc [] (TPrim PNil) ([(mkAbility false "Fail", [t])], None) Cps.
Definition fail_types : list (string * scheme) := [("fail", mkScheme 1 [] (fail_at (TBound 0)))].
Definition fail_ds : list decl := [DFunction (func_ex 0 "fail" (Lit (at_ 2) 0)); DFunction (func_ex 10 "main" (Call (at_ 12) (use_ex 13 "fail" (fail_at (TPrim PInt))) []))].
Theorem effect_parameter_refuted : exists types ds m variant s q sc r, source_ok types ds m /\ separates variant types ds /\ monomorphize variant (fun _ l => l) types ds m = Done s /\
  In (q, sc) types /\ sc_params sc = 1 /\ target r = RFunction q /\ rty r = fill_in [TPrim PInt] (sc_body sc) /\
  exists path f n, In (path, f) (source_functions (decls s)) /\ uses (f_body f) n r.
Proof.
  assert (SO : source_ok fail_types fail_ds no_meta) by (apply check_ok; vm_compute; reflexivity). exists fail_types, fail_ds, no_meta, (fun _ => 0%N).
  exists {| decls := fail_ds; known := []; ftypes := fail_types; metadata := no_meta |}, "fail", (mkScheme 1 [] (fail_at (TBound 0))), (mkRef (RFunction "fail") (fail_at (TPrim PInt))).
  split; [auto|]. split; [eapply separates_ok with (L := []); [exact SO|vm_compute; reflexivity|vm_compute; reflexivity]|]. split; [vm_compute; reflexivity|].
  split; [cbn; auto|]. repeat (split; [reflexivity|]). exists ["main"]. eexists. exists (at_ 13). split; [cbn; auto|]. apply visit_uses. cbn; auto.
Qed.
Print Assumptions effect_parameter_refuted.
