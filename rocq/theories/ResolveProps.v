(** C56, C57: name resolution. *)
From Coq Require Import String List NArith Lia.
From Verif Require Import ResolveItems ResolveUse.
Open Scope string_scope. Open Scope list_scope.
Import ListNotations.

(** ** C56: local variables *)
(** Every name in the output means what the scopes, the module and the environment say; all binders are different; no binder has the reserved number. *)
Theorem names_resolved shuffle prelude decls out reported : any_order shuffle -> resolve_module shuffle prelude decls = Some (out, reported) ->
  Forall2 (decl_ok (module_env shuffle prelude decls) reported []) decls out /\ NoDup (flat_map decl_binders out) /\ ~ In unresolved (flat_map decl_binders out).
Proof. exact (module_resolved shuffle prelude decls out reported). Qed.
Print Assumptions names_resolved.
(** Only names that were not found are reported. *)
Theorem reported_names_unresolved shuffle prelude decls out reported : resolve_module shuffle prelude decls = Some (out, reported) ->
  forall d, In d reported -> In (RLocal unresolved (last_segment_of d)) (flat_map decl_refs out).
Proof. exact (reports_honest shuffle _ decls out reported). Qed.
Print Assumptions reported_names_unresolved.

Definition id_order (A : Type) (m : map_of A) : map_of A := m.
Definition reversed (A : Type) (m : map_of A) : map_of A := rev m.
Lemma id_order_ok : any_order id_order.
Proof. intros A m. apply Permutation.Permutation_refl. Qed.
Lemma reversed_ok : any_order reversed.
Proof. intros A m. apply Permutation.Permutation_rev. Qed.

(** fn f(x) { let y = m::g(x, fn(x) { x }); case y { x -> x + g }; h(y) }   mod m { fn g(x) { g(x) } } *)
Definition sample : list (decl string) :=
  [DFunction "f" [("x", None)] None
     (Block [Let (PBind "y" None) (Call (Var "m::g") [Var "x"; Lambda [("x", None)] (Var "x")]);
             Do_ (Case (Var "y") [Arm (PBind "x" None) None (BinOp 0 (Var "x") (Var "g"))])] (Call (Var "h") [Var "y"]));
   DModule "m" (Some [DFunction "g" [("x", None)] None (Call (Var "g") [Var "x"])])].
Example sample_resolved : resolve_module id_order None sample =
  Some ([DFunction "f" [("x", Some 0%N)] None
           (Block [Let (PBind "y" (Some 2%N)) (Call (Var (RFunction "m::g")) [Var (RLocal 0 "x"); Lambda [("x", Some 1%N)] (Var (RLocal 1 "x"))]);
                   Do_ (Case (Var (RLocal 2 "y")) [Arm (PBind "x" (Some 3%N)) None (BinOp 0 (Var (RLocal 3 "x")) (Var (RLocal unresolved "g")))])]
              (Call (Var (RLocal unresolved "h")) [Var (RLocal 2 "y")]));
         DModule "m" (Some [DFunction "g" [("x", Some 4%N)] None (Call (Var (RFunction "m::g")) [Var (RLocal 4 "x")])])], ["g"; "h"]).
Proof. vm_compute. reflexivity. Qed.
Example sample_binders : exists out reported, resolve_module id_order None sample = Some (out, reported) /\ flat_map decl_binders out = [0; 1; 2; 3; 4]%N /\
  In (RLocal unresolved "h") (flat_map decl_refs out).
Proof. eexists. eexists. split; [apply sample_resolved|]. split; [vm_compute; reflexivity|]. vm_compute. tauto. Qed.

(** ** C57: declared items *)
(** The full path of a declared item means that item in every function, and so does its own name in its own module. *)
Theorem declared_items_reached shuffle prelude ds p n b : any_order shuffle -> opt_all env_ok prelude -> names_ok ds -> modules_once ds -> unambiguous ds ->
  declared [] ds (p ++ [n]) b -> p ++ [n] <> ["std"; "io"; "Io"] ->
  forall path effects global, global_ok (module_env shuffle prelude ds) path effects global ->
  (p <> [] -> global (path_text (p ++ [n])) = Some (as_ref b n)) /\ (path = p -> global n = Some (as_ref b n)).
Proof. exact (items_reached shuffle prelude ds p n b). Qed.
Print Assumptions declared_items_reached.
(** Without the assumption that meanings are unique, one of the declared meanings is found. *)
Theorem declared_items_found shuffle (ds : list (decl string)) p n b : any_order shuffle -> names_ok ds -> modules_once ds -> declared [] ds (p ++ [n]) b ->
  (p = [] -> exists b', at_key (definitions (build_env shuffle ds)) n = Some b' /\ declared [] ds [n] b') /\
  (p <> [] -> p ++ [n] <> ["std"; "io"; "Io"] -> exists b', lookup_qualified (build_env shuffle ds) (path_text p) n = Some b' /\ declared [] ds (p ++ [n]) b').
Proof. exact (build_complete shuffle ds p n b). Qed.
Print Assumptions declared_items_found.
(** Nothing else is found. *)
Theorem only_declared_items shuffle (ds : list (decl string)) ns n b : any_order shuffle -> names_ok ds -> modules_once ds -> lookup_qualified (build_env shuffle ds) ns n = Some b ->
  (exists p, p <> [] /\ ns = path_text p /\ declared [] ds (p ++ [n]) b) \/ (exists q, b = Module q) \/
  (ns = "std::io" /\ n = "Io" /\ b = Ability BuiltinIo) \/ (ns = "std::collections" /\ n = "List" /\ b = TypeDef BuiltinList).
Proof. exact (build_sound shuffle ds ns n b). Qed.
Print Assumptions only_declared_items.
Theorem only_declared_definitions shuffle (ds : list (decl string)) n b : any_order shuffle -> names_ok ds -> modules_once ds ->
  at_key (definitions (build_env shuffle ds)) n = Some b -> declared [] ds [n] b.
Proof. exact (build_defs shuffle ds n b). Qed.
Print Assumptions only_declared_definitions.

Definition small : list (decl string) :=
  [DModule "m" (Some [DModule "k" (Some [DFunction "f" [] None (Lit 1)]); DEnum "E" 5 [("V", 1)]]); DFunction "g" [] None (Var "m::k::f")].
Lemma name_dec n : negb (String.eqb n "") && negb (existsb (Ascii.eqb ":"%char) (list_ascii_of_string n)) = true -> name_ok n.
Proof.
  intros H. apply andb_prop in H as [A B]. split.
  - intros ->. discriminate.
  - intros I. apply Bool.negb_true_iff in B. rewrite <- Bool.not_true_iff_false in B. apply B. apply existsb_exists. exists ":"%char. split; [exact I|reflexivity].
Qed.
Example small_meets : names_ok small /\ modules_once small /\ unambiguous small /\ declared [] small ["m"; "k"; "f"] (Function "m::k::f") /\
  declared [] small ["m"; "E"; "V"] (Constructor "m::V" (Some "V") 1) /\
  lookup_qualified (build_env reversed small) "m::k" "f" = Some (Function "m::k::f") /\ lookup_qualified (build_env reversed small) "m::E" "V" = Some (Constructor "m::V" (Some "V") 1).
Proof.
  split; [|split; [|split; [|split; [|split; [|split]]]]].
  - intros n I. apply name_dec. cbn in I. repeat (destruct I as [<-|I]; [reflexivity|]). destruct I.
  - constructor; [cbn; repeat constructor; cbn; tauto|]. intros n body [[= <- <-]|[[=]|[]]]. constructor; [cbn; repeat constructor; cbn; tauto|].
    intros n body [[= <- <-]|[[=]|[]]]. constructor; [constructor|]. intros n body [[=]|[]].
  - assert (X : forall path b, declared [] small path b -> In (path, b) [(["m"; "k"; "f"], Function "m::k::f"); (["m"; "E"], TypeDef (SourceType "m::E" 5)); (["m"; "E"; "V"], Constructor "m::V" (Some "V") 1);
      (["m"; "V"], Constructor "m::V" (Some "V") 1); (["g"], Function "g")]).
    { intros path b (d & [<-|[<-|[]]] & D); inversion D; subst; [|cbn; tauto].
      match goal with H : In _ [_; _] |- _ => destruct H as [<-|[<-|[]]] end.
      - match goal with H : declares _ (DModule _ _) _ _ |- _ => inversion H; subst end. match goal with H : In _ [_] |- _ => destruct H as [<-|[]] end.
        match goal with H : declares _ (DFunction _ _ _ _) _ _ |- _ => inversion H; subst end. cbn. tauto.
      - match goal with H : declares _ (DEnum _ _ _) _ _ |- _ => inversion H; subst end; repeat match goal with H : In (_, _) [_] |- _ => destruct H as [[= <- <-]|[]] end; cbn; tauto. }
    intros path b b' D D'. apply X in D, D'. cbn in D, D'.
    destruct D as [D|[D|[D|[D|[D|[]]]]]], D' as [D'|[D'|[D'|[D'|[D'|[]]]]]]; injection D; injection D'; intros; congruence.
  - eexists. split; [left; reflexivity|]. apply of_inner with (d := DModule "k" (Some [DFunction "f" [] None (Lit 1)])); [left; reflexivity|].
    apply of_inner with (d := DFunction "f" [] None (Lit 1)); [left; reflexivity|]. apply (of_function ["m"; "k"]).
  - eexists. split; [left; reflexivity|]. apply of_inner with (d := DEnum "E" 5 [("V", 1)]); [right; left; reflexivity|]. apply (of_variant ["m"]). left. reflexivity.
  - vm_compute. reflexivity.
  - vm_compute. reflexivity.
Qed.

(** The prelude fills gaps and hides nothing. *)
Theorem prelude_fills_gaps shuffle e o : any_order shuffle -> env_ok o ->
  definitions (merge shuffle e o) = definitions e /\
  (forall ns n, lookup_qualified (merge shuffle e o) ns n = match lookup_qualified e ns n with Some b => Some b | None => lookup_qualified o ns n end) /\
  (forall n, at_key (imports (merge shuffle e o)) n = match at_key (imports e) n with Some b => Some b | None => match at_key (definitions e) n with Some _ => None | None => at_key (definitions o) n end end).
Proof. exact (fun AO => merge_is shuffle AO e o). Qed.
Print Assumptions prelude_fills_gaps.
(** The imports of a file are those that its declarations introduce; of two for the same name the last counts. *)
Theorem imports_are_declared shuffle (ds : list (decl string)) a p :
  at_key (imports (build_env shuffle ds)) a = Some (Module p) <-> introduced ds a p.
Proof. exact (imports_exact shuffle ds a p). Qed.
Print Assumptions imports_are_declared.
(** [use] gives the item a second name, and its members too. *)
Theorem use_gives_names shuffle e : any_order shuffle -> env_ok e -> independent e ->
  (forall a p b, waiting e a p -> import_target e p b ->
     at_key (imports (resolve_use_imports shuffle e)) a = Some b /\ at_key (use_paths (resolve_use_imports shuffle e)) a = Some p /\
     forall n, lookup_qualified e a n = None -> lookup_qualified (resolve_use_imports shuffle e) a n = lookup_qualified e (path_text p) n) /\
  (forall a, (forall p b, waiting e a p -> ~ import_target e p b) -> at_key (imports (resolve_use_imports shuffle e)) a = at_key (imports e) a /\
     forall n, lookup_qualified (resolve_use_imports shuffle e) a n = lookup_qualified e a n) /\
  (forall ns n b, lookup_qualified e ns n = Some b -> lookup_qualified (resolve_use_imports shuffle e) ns n = Some b) /\
  definitions (resolve_use_imports shuffle e) = definitions e.
Proof. exact (uses_spec shuffle e). Qed.
Print Assumptions use_gives_names.
(** The result is the same for every order of traversal of the hash maps. *)
Theorem resolution_order_irrelevant s1 s2 prelude decls : any_order s1 -> any_order s2 -> opt_all env_ok prelude -> independent (ready s1 prelude decls) ->
  resolve_module s1 prelude decls = resolve_module s2 prelude decls.
Proof. exact (order_irrelevant s1 s2 prelude decls). Qed.
Print Assumptions resolution_order_irrelevant.

(** use abilities::Abort   mod abilities { ability Abort { op abort } fn run() { 0 } }   use abilities::run as go   fn f() ->{Abort} { abort(go()) } *)
Definition importing : list (decl string) :=
  [DUse ["abilities"; "Abort"] None; DModule "abilities" (Some [DAbility "Abort" [("abort", false)]; DFunction "run" [] None (Lit 0)]); DUse ["abilities"; "run"] (Some "go");
   DFunction "f" [] (Some [Named "Abort"]) (Call (Var "abort") [Call (Var "go") []; Var "Abort::abort"])].
Example importing_introduces : introduced importing "go" ["abilities"; "run"].
Proof.
  eexists [_; _], _, [_]. split; [reflexivity|]. split; [apply (intro_alias ["abilities"])|].
  intros d' p [<-|[]] H. inversion H.
Qed.
Example importing_meets : independent (ready id_order None importing) /\
  waiting (ready id_order None importing) "go" ["abilities"; "run"] /\ import_target (ready id_order None importing) ["abilities"; "run"] (Function "abilities::run") /\
  resolve_module reversed None importing =
    Some ([DUse ["abilities"; "Abort"] None; DModule "abilities" (Some [DAbility "Abort" [("abort", false)]; DFunction "run" [] None (Lit 0)]); DUse ["abilities"; "run"] (Some "go");
           DFunction "f" [] (Some [Path ["abilities"; "Abort"]])
             (Call (Var (RAbilityOp (SourceAbility "abilities::Abort") "abort" false))
                [Call (Var (RFunction "abilities::run")) []; Var (RAbilityOp (SourceAbility "abilities::Abort") "abort" false)])], []).
Proof.
  split; [|split; [|split]].
  - assert (X : forall a p, waiting (ready id_order None importing) a p -> In (a, p) [("Abort", ["abilities"; "Abort"]); ("go", ["abilities"; "run"])]).
    { intros a p [W L]. apply (at_in _ _ _ (imports_ok _ (build_ok id_order importing))) in W. vm_compute in W.
      repeat (destruct W as [W|W]; [injection W; intros; subst; try discriminate; cbn in L |- *; try lia; tauto|]). destruct W. }
    intros a p b q A B N. apply X in A, B. destruct A as [[= <- <-]|[[= <- <-]|[]]], B as [[= <- <-]|[[= <- <-]|[]]]; try congruence; split; vm_compute; discriminate.
  - split; [vm_compute; reflexivity|cbn; lia].
  - exists ["abilities"], "run". split; reflexivity.
  - vm_compute. reflexivity.
Qed.

(** ** What does not hold *)
(** Imports that go through other imports: the order of traversal decides.
    mod a { mod b { fn c() { 0 } } }   use a::b   use b::c   fn f() { c() } *)
Definition chained : list (decl string) :=
  [DModule "a" (Some [DModule "b" (Some [DFunction "c" [] None (Lit 0)])]); DUse ["a"; "b"] None; DUse ["b"; "c"] None; DFunction "f" [] None (Call (Var "c") [])].
Theorem use_order_refuted : exists s1 s2 decls, any_order s1 /\ any_order s2 /\ names_ok decls /\ modules_once decls /\ resolve_module s1 None decls <> resolve_module s2 None decls.
Proof.
  exists id_order, reversed, chained. split; [apply id_order_ok|]. split; [apply reversed_ok|]. split; [|split].
  - intros n I. apply name_dec. cbn in I. repeat (destruct I as [<-|I]; [reflexivity|]). destruct I.
  - constructor; [cbn; repeat constructor; cbn; tauto|]. intros n body [[= <- <-]|[[=]|[[=]|[[=]|[]]]]]. constructor; [cbn; repeat constructor; cbn; tauto|].
    intros n body [[= <- <-]|[]]. constructor; [constructor|]. intros n body [[=]|[]].
  - vm_compute. discriminate.
Qed.
Print Assumptions use_order_refuted.
(** Variants of different enumerations are not always told apart.   enum A { X }   enum B { X }   fn f() { (A::X, B::X) } *)
Theorem variants_distinct_refuted : exists decls body a b, resolve_module id_order None decls = Some ([DEnum "A" 1 [("X", 0)]; DEnum "B" 2 [("X", 0)]; DFunction "f" [] None body], []) /\
  In (DFunction "f" [] None (Tuple [Var "A::X"; Var "B::X"])) decls /\ body = Tuple [Var a; Var b] /\ a = b.
Proof.
  exists [DEnum "A" 1 [("X", 0)]; DEnum "B" 2 [("X", 0)]; DFunction "f" [] None (Tuple [Var "A::X"; Var "B::X"])]. eexists. eexists. eexists.
  split; [vm_compute; reflexivity|]. split; [right; right; left; reflexivity|]. split; reflexivity.
Qed.
Print Assumptions variants_distinct_refuted.
(** A path that starts at a module next to the function is not found inside a module.
    mod outer { mod inner { fn value() { 7 } } fn use_inner() { inner::value() } } *)
Theorem neighbour_module_refuted : exists decls, names_ok decls /\ modules_once decls /\
  declared [] decls ["outer"; "inner"; "value"] (Function "outer::inner::value") /\
  In (DModule "outer" (Some [DModule "inner" (Some [DFunction "value" [] None (Lit 7)]); DFunction "use_inner" [] None (Call (Var "inner::value") [])])) decls /\
  exists out, resolve_module id_order None decls = Some (out, ["inner::value"]).
Proof.
  exists [DModule "outer" (Some [DModule "inner" (Some [DFunction "value" [] None (Lit 7)]); DFunction "use_inner" [] None (Call (Var "inner::value") [])])].
  split; [|split; [|split; [|split]]].
  - intros n I. apply name_dec. cbn in I. repeat (destruct I as [<-|I]; [reflexivity|]). destruct I.
  - constructor; [cbn; repeat constructor; cbn; tauto|]. intros n body [[= <- <-]|[]]. constructor; [cbn; repeat constructor; cbn; tauto|].
    intros n body [[= <- <-]|[[=]|[]]]. constructor; [constructor|]. intros n body [[=]|[]].
  - eexists. split; [left; reflexivity|]. eapply of_inner; [left; reflexivity|]. eapply of_inner; [left; reflexivity|]. apply (of_function ["outer"; "inner"]).
  - left. reflexivity.
  - eexists. vm_compute. reflexivity.
Qed.
Print Assumptions neighbour_module_refuted.
(** The same function, with the same ability next to it, resolves at the top of a file and not inside a module.
    ability A { op o }   fn f() ->{A} { o() } *)
Definition performing : list (decl string) := [DAbility "A" [("o", false)]; DFunction "f" [] (Some [Named "A"]) (Call (Var "o") [])].
Theorem module_effects_refuted : (exists out, resolve_module id_order None performing = Some (out, [])) /\
  exists out, resolve_module id_order None [DModule "m" (Some performing)] = Some (out, ["o"]).
Proof. split; eexists; vm_compute; reflexivity. Qed.
Print Assumptions module_effects_refuted.
(** [use] inside a module has no effect.   mod a { fn h() { 0 } }   mod m { use a::h   fn f() { h() } } *)
Theorem module_use_refuted : exists decls, In (DModule "m" (Some [DUse ["a"; "h"] None; DFunction "f" [] None (Call (Var "h") [])])) decls /\
  declared [] decls ["a"; "h"] (Function "a::h") /\ exists out, resolve_module id_order None decls = Some (out, ["h"]).
Proof.
  exists [DModule "a" (Some [DFunction "h" [] None (Lit 0)]); DModule "m" (Some [DUse ["a"; "h"] None; DFunction "f" [] None (Call (Var "h") [])])].
  split; [right; left; reflexivity|]. split; [|eexists; vm_compute; reflexivity].
  eexists. split; [left; reflexivity|]. eapply of_inner; [left; reflexivity|]. apply (of_function ["a"]).
Qed.
Print Assumptions module_use_refuted.
(** Items of a module further out are not found by their name.   mod c { fn empty() { 0 } mod l { fn f() { empty() } } } *)
Theorem outer_items_refuted : exists decls, In (DModule "c" (Some [DFunction "empty" [] None (Lit 0); DModule "l" (Some [DFunction "f" [] None (Call (Var "empty") [])])])) decls /\
  exists out, resolve_module id_order None decls = Some (out, ["empty"]).
Proof. eexists [_]. split; [left; reflexivity|]. eexists. vm_compute. reflexivity. Qed.
Print Assumptions outer_items_refuted.
(** With two modules of the same name a declared item can be lost; so [declared_items_reached] needs its assumption.
    mod a { mod b { fn c() { 0 } } }   mod a { mod b { mod c { fn z() { 0 } } } } *)
Theorem reopened_module_refuted : exists (decls : list (decl string)), names_ok decls /\ declared [] decls ["a"; "b"; "c"] (Function "a::b::c") /\
  lookup_qualified (build_env id_order decls) "a::b" "c" = Some (Module ["b"; "c"]).
Proof.
  exists [DModule "a" (Some [DModule "b" (Some [DFunction "c" [] None (Lit 0)])]); DModule "a" (Some [DModule "b" (Some [DModule "c" (Some [DFunction "z" [] None (Lit 0)])])])].
  split; [|split].
  - intros n I. apply name_dec. cbn in I. repeat (destruct I as [<-|I]; [reflexivity|]). destruct I.
  - eexists. split; [left; reflexivity|]. eapply of_inner; [left; reflexivity|]. eapply of_inner; [left; reflexivity|]. apply (of_function ["a"; "b"]).
  - vm_compute. reflexivity.
Qed.
Print Assumptions reopened_module_refuted.
