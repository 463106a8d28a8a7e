(** C59: a method call becomes the call of the one declared method that its receiver fits. *)
From Coq Require Import String List.
From Verif Require Import TdnrSpec TdnrDone.
From Coq Require Import Lia.
Open Scope string_scope. Open Scope list_scope. Import ListNotations.

(** Every method call whose receiver has a known type and fits exactly one declared method becomes the call of that method, under its path, with the receiver first.
    Everything else stays. *)
Theorem method_calls_resolved : forall ann effs lit other imports ds ds',
  meanings_ok ann effs other -> Forall (Forall decl_ok) imports -> Forall decl_ok ds -> resolve_tdnr ann effs lit other imports ds = Some ds' ->
  exists ms, all_methods ann effs lit other imports ds ms /\ Forall2 (becomes_decl lit ms (text other imports)) ds ds'.
Proof. intros ann effs lit other imports ds ds' M. exact (all_resolved ann effs lit other M imports ds ds'). Qed.
Print Assumptions method_calls_resolved.

(** The program determines the methods. *)
Theorem methods_determined : forall ann effs lit other imports ds a b,
  all_methods ann effs lit other imports ds a -> all_methods ann effs lit other imports ds b -> a = b.
Proof. exact methods_det. Qed.
Print Assumptions methods_determined.

(** A method call that is left has a receiver of unknown type, or one that fits no method or several. *)
Theorem remaining_calls_have_no_method : forall ann effs lit other imports ds ds' ms p f i o m es,
  meanings_ok ann effs other -> Forall (Forall decl_ok) imports -> Forall decl_ok ds -> resolve_tdnr ann effs lit other imports ds = Some ds' ->
  all_methods ann effs lit other imports ds ms -> In (p, f) (source_functions ds') -> within (MethodCall i o m es) (f_body f) ->
  forall t x, typed lit (text other imports) o t -> ~ the_method ms m t x.
Proof. exact left_over. Qed.
Print Assumptions remaining_calls_have_no_method.

(** The method calls that are left are reported, and nothing else. *)
Theorem remaining_calls_reported : forall ds i m, In (i, m) (report_unresolved_methods ds) <->
  exists p f o es, In (p, f) (source_functions ds) /\ within (MethodCall i o m es) (f_body f).
Proof. exact reported. Qed.
Print Assumptions remaining_calls_reported.

(** Resolving again changes nothing. *)
Theorem second_run_changes_nothing : forall ann effs lit other imports ds ds',
  resolve_tdnr ann effs lit other imports ds = Some ds' -> resolve_tdnr ann effs lit other imports ds' = Some ds'.
Proof. exact second. Qed.
Print Assumptions second_run_changes_nothing.

(** A field of a struct is a method of its values, unless the struct has the name of a primitive type or of a type in a module of its own name. *)
Theorem fields_are_methods_partial : forall ann effs lit other imports ds ms path n node name tps fields f a t,
  all_methods ann effs lit other imports ds ms -> In (path, n) (flat_map (others []) ds) -> other n = Struct node name tps fields -> In (Some f, a) fields ->
  (forall p, name <> prim_text p) ->
  declared (known_in other (imports ++ [ds])) (path ++ [name]) = Some (mkTyDef (Source node) (path_text (path ++ [name]))) ->
  declared (known_in other (imports ++ [ds])) (path ++ [name; name]) = None ->
  head_of t (inl (mkTyDef (Source node) (path_text (path ++ [name])))) ->
  exists ft, In (f, (path ++ [name; f], ft)) ms /\ takes ft t.
Proof. exact field_offered. Qed.
Print Assumptions fields_are_methods_partial.

(** The compiler panics exactly when a function with a receiver has a row variable among its effects. *)
Theorem panics_exactly : forall ann effs lit other imports ds,
  resolve_tdnr ann effs lit other imports ds = None <-> exists m d, In m (imports ++ [ds]) /\ In d m /\ open_method ann effs d.
Proof. exact panics. Qed.
Print Assumptions panics_exactly.

(** ** A program *)
Definition ann (n : N) : option annot :=
  match n with
  | 1%N => Some (ANamed "Point") | 2%N => Some (ANamed "Int") | 3%N => Some (AApp (ANamed "Box") [ANamed "Point"]) | 4%N => Some (ANamed "String") | 5%N => Some (ANamed "S") | _ => None
  end.
Definition effs (n : N) : option (list annot) := match n with 1%N => Some [] | 2%N => Some [ANamed "e"] | _ => None end.
Definition lit (n : N) : literal := match n with 0%N => LString | _ => LNat end.
Definition other (n : N) : other_decl :=
  match n with
  | 1%N => Struct 10 "Point" [] [(Some "x", ANamed "Int"); (Some "y", ANamed "Int")] | 2%N => Struct 20 "Box" ["a"] [(Some "v", ANamed "a")]
  | 3%N => Enum 30 "String" | 4%N => Struct 40 "S" [] [(Some "v", ANamed "Int")] | 5%N => Enum 50 "S" | _ => Opaque
  end.
Ltac names := repeat (constructor || split); try discriminate; cbn; intuition discriminate.
Lemma meanings : meanings_ok ann effs other.
Proof.
  unfold meanings_ok. split; [|split].
  - intros n a. unfold ann. repeat match goal with |- context [match ?x with _ => _ end] => destruct x; try discriminate end; intros [= <-]; cbn; names.
  - intros n a. unfold effs. repeat match goal with |- context [match ?x with _ => _ end] => destruct x; try discriminate end; intros [= <-]; cbn; names.
  - intros n. unfold other. repeat match goal with |- context [match ?x with _ => _ end] => destruct x; cbn; auto end; names.
Qed.
Definition nd (n : N) : nid := (n, None).
Definition point : ty := TNamed (mkTyDef (Source 10) "Point") "Point" [].
Definition var (n : N) (t : ty) : expr := Var (nd n) (mkRef (ROther n) t).
Definition function (name : string) (p a r e : N) (b : expr) : decl := DFunction (mkFunc (nd p) true name [] [mkParam (nd (p + 1)) "p" a None] r e b).
Definition prelude : list decl := [DOther 3; DModule "String" (Some [function "len" 100 4 2 1 (Lit (nd 102) 1)])].
Definition program : list decl :=
  [DOther 1; function "main" 1 1 2 1 (Block (nd 3) [Do_ (nd 4) (MethodCall (nd 5) (Lit (nd 6) 0) "len" [])] (MethodCall (nd 7) (var 8 point) "x" []))].
Lemma program_ok : Forall (Forall decl_ok) [prelude] /\ Forall decl_ok program.
Proof. repeat constructor; try discriminate; cbn; intuition discriminate. Qed.
Example program_resolved : exists ds', resolve_tdnr ann effs lit other [prelude] program = Some ds' /\ report_unresolved_methods ds' = [] /\
  exists f, In (["main"], f) (source_functions ds') /\
    f_body f = Block (nd 3)
      [Do_ (nd 4) (Call (nd 5) (Var (nd 5) (mkRef (RFunction "String::len") (TFunc [TNamed (mkTyDef (Source 30) "String") "String" []] (TPrim PInt) ([], None) Direct))) [Lit (nd 6) 0])]
      (Call (nd 7) (Var (nd 7) (mkRef (RFunction "Point::x") (TFunc [point] (TPrim PInt) ([], None) Direct))) [var 8 point]).
Proof. eexists. split; [vm_compute; reflexivity|]. split; [reflexivity|]. eexists. split; [left; reflexivity|reflexivity]. Qed.
Example point_fields : exists ms, all_methods ann effs lit other [prelude] program ms /\ In ([], 1%N) (flat_map (others []) program) /\
  (forall p, "Point" <> prim_text p) /\ declared (known_in other ([prelude] ++ [program])) ["Point"] = Some (mkTyDef (Source 10) "Point") /\
  declared (known_in other ([prelude] ++ [program])) ["Point"; "Point"] = None /\ head_of point (inl (mkTyDef (Source 10) "Point")).
Proof.
  destruct program_ok as [A B]. destruct program_resolved as [ds' [E _]]. destruct (method_calls_resolved _ _ _ _ _ _ _ meanings A B E) as [ms [M _]].
  exists ms. split; auto. split; [left; reflexivity|]. split; [intros []; discriminate|]. split; [reflexivity|]. split; [reflexivity|constructor].
Qed.
(** A call that no method fits is left and reported. *)
Example unknown_method : exists ds', resolve_tdnr ann effs lit other [] [DOther 1; function "main" 1 1 2 1 (MethodCall (nd 7) (var 8 point) "z" [])] = Some ds' /\
  report_unresolved_methods ds' = [(nd 7, "z")].
Proof. eexists. split; vm_compute; reflexivity. Qed.

(** ** Where the code falls short *)
(** [fn apply(p: Point) ->{e} Int]: a program with an effect variable makes the compiler panic. *)
Theorem row_variable_refuted : exists ann effs lit other ds, meanings_ok ann effs other /\ Forall decl_ok ds /\ resolve_tdnr ann effs lit other [] ds = None.
Proof.
  exists ann, effs, lit, other, [DOther 1; function "apply" 1 1 2 2 (Lit (nd 3) 1)]. split; [exact meanings|]. split; [|vm_compute; reflexivity].
  repeat constructor; try discriminate; cbn; intuition discriminate.
Qed.
Print Assumptions row_variable_refuted.
(** [struct S { v: Int }], [mod S { enum S { … } }] and [s.v]: the field of the struct is looked up in the module, and the access is left unresolved although the receiver is
    of type [S] and no other declaration has a field or method of this name. *)
Theorem companion_module_refuted : exists ann effs lit other ds ds', meanings_ok ann effs other /\ Forall decl_ok ds /\ resolve_tdnr ann effs lit other [] ds = Some ds' /\
  exists node i f, In (DOther 4) ds /\ other 4%N = Struct node "S" [] [(Some "v", ANamed "Int")] /\ In (["f"], f) (source_functions ds') /\
    f_body f = MethodCall i (var 8 (TNamed (mkTyDef (Source node) "S") "S" [])) "v" [].
Proof.
  exists ann, effs, lit, other, [DOther 4; DModule "S" (Some [DOther 5]); function "f" 1 5 2 1 (MethodCall (nd 7) (var 8 (TNamed (mkTyDef (Source 40) "S") "S" [])) "v" [])].
  eexists. split; [exact meanings|]. split; [repeat constructor; try discriminate; cbn; intuition discriminate|]. split; [vm_compute; reflexivity|].
  exists 40. do 2 eexists. split; [left; reflexivity|]. split; [reflexivity|]. split; [left; reflexivity|reflexivity].
Qed.
Print Assumptions companion_module_refuted.
(** [struct Box(a) { v: a }], [b: Box(Point)] and [b.v.x]: the type of [b.v] is read off the accessor without its type argument, and the access to [x] is left. *)
Theorem generic_field_refuted : exists ann effs lit other ds ds', meanings_ok ann effs other /\ Forall decl_ok ds /\ resolve_tdnr ann effs lit other [] ds = Some ds' /\
  exists i box f b, rty box = TNamed (mkTyDef (Source 20) "Box") "Box" [point] /\ other 2%N = Struct 20 "Box" ["a"] [(Some "v", ANamed "a")] /\
    other 1%N = Struct 10 "Point" [] [(Some "x", ANamed "Int"); (Some "y", ANamed "Int")] /\ In (DOther 1) ds /\ In (DOther 2) ds /\
    In (DFunction b) ds /\ f_body b = MethodCall i (MethodCall i (Var i box) "v" []) "x" [] /\
    In (["f"], f) (source_functions ds') /\ exists o, f_body f = MethodCall i o "x" [].
Proof.
  exists ann, effs, lit, other, [DOther 1; DOther 2; function "f" 1 3 2 1 (MethodCall (nd 7) (MethodCall (nd 7) (Var (nd 7) (mkRef (ROther 8) (TNamed (mkTyDef (Source 20) "Box") "Box" [point]))) "v" []) "x" [])].
  eexists. split; [exact meanings|]. split; [repeat constructor; try discriminate; cbn; intuition discriminate|]. split; [vm_compute; reflexivity|].
  do 4 eexists. split; [|split; [reflexivity|split; [reflexivity|split; [left; reflexivity|split; [right; left; reflexivity|split; [right; right; left; reflexivity|
    split; [reflexivity|split; [left; reflexivity|eexists; reflexivity]]]]]]]]. reflexivity.
Qed.
Print Assumptions generic_field_refuted.
