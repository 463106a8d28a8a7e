(** C29: distinct instantiations receive distinct names. *)
From Verif Require Export MangleProofs.
Open Scope string_scope.

(** Over concrete type arguments whose nominal types have identifier-shaped names outside the
    mangler's own vocabulary: a name is produced, and two instantiations get the same name
    exactly when they have the same base and their arguments differ at most in effect rows,
    minimum conventions, binder scopes and declaration origins.  Missing for the full
    property: those four differences are merged (refuted below), and nominal names in the
    mangler's vocabulary are not excluded by the code (refuted below). *)
Theorem mangled_names_distinguish_shapes_partial : forall b1 a1 b2 a2,
  no_dollar b1 -> no_dollar b2 ->
  Forall (concrete unreserved) a1 -> Forall (concrete unreserved) a2 ->
  mangle_name b1 a1 <> None /\
  (mangle_name b1 a1 = mangle_name b2 a2 <-> b1 = b2 /\ Forall2 same_shape a1 a2).
Proof. exact mangle_name_iff. Qed.
Print Assumptions mangled_names_distinguish_shapes_partial.

(** Where nothing is forgotten, names are injective outright. *)
Theorem mangled_names_injective_partial : forall decl b1 a1 b2 a2,
  no_dollar b1 -> no_dollar b2 ->
  Forall (plain decl) a1 -> Forall (plain decl) a2 ->
  mangle_name b1 a1 = mangle_name b2 a2 -> b1 = b2 /\ a1 = a2.
Proof. exact mangle_plain_inj. Qed.
Print Assumptions mangled_names_injective_partial.

Definition option_def := mkTyDef (Source 7) "std::option::Option".
Definition option_of t := TNamed option_def "Option" [t].
Definition list_of t := TNamed (mkTyDef BuiltinList "List") "List" [t].
Definition decl_ex (q : string) : tydef * string :=
  if String.eqb q "std::option::Option" then (option_def, "Option") else (mkTyDef Synthetic q, q).

Example mangle_hypotheses_hold :
  Forall (plain decl_ex)
    [option_of (list_of (TPrim PInt)); TFunc [TTuple []; TBound 10] (TPrim PBool) pure_row Direct] /\
  mangle_name "std::map" [option_of (list_of (TPrim PInt)); TFunc [TTuple []; TBound 10] (TPrim PBool) pure_row Direct]
  = Some "std::map$std::option::Option$0$BuiltinList$0$Int$1$1$Fn$0$Tup$0$$1$T10$1$Bool".
Proof.
  split; [|reflexivity]. repeat constructor; try discriminate.
Qed.

(** The full property fails: two different function types that differ only in their effects
    give one and the same symbol. *)
Theorem mangled_names_ignore_effects_refuted : exists t1 t2,
  concrete unreserved t1 /\ concrete unreserved t2 /\ t1 <> t2 /\
  forall base, mangle_name base [t1] = mangle_name base [t2] /\ mangle_name base [t1] <> None.
Proof.
  exists (TFunc [TPrim PInt] (TPrim PInt) pure_row Direct).
  exists (TFunc [TPrim PInt] (TPrim PInt) ([(mkAbility true "std::io::Io", [])], None) Direct).
  split; [repeat constructor|]. split; [repeat constructor|]. split; [discriminate|]. intros. split; [reflexivity | discriminate].
Qed.
Print Assumptions mangled_names_ignore_effects_refuted.

(** It also fails for user types whose (legal) names are the mangler's own words: a pair of
    [Fn(Int)] and [Bool], with [Fn] declared by the user, is named like a one-tuple
    holding a function from [Int] to [Bool]; and a user type called [T0] is named like a
    type variable. *)
Theorem mangled_names_reserved_words_refuted :
  (exists t1 t2, concrete identifier t1 /\ concrete identifier t2 /\ ~ same_shape t1 t2 /\
     forall base, mangle_name base [t1] = mangle_name base [t2] /\ mangle_name base [t1] <> None) /\
  (exists t1 t2, concrete identifier t1 /\ concrete identifier t2 /\
     (match t1, t2 with TTuple l1, TTuple l2 => List.length l1 <> List.length l2 | _, _ => False end) /\
     forall base, mangle_name base [t1] = mangle_name base [t2] /\ mangle_name base [t1] <> None).
Proof.
  split.
  - exists (TNamed (mkTyDef (Source 1) "T0") "T0" []), (TBound 0).
    split; [repeat constructor|]. split; [repeat constructor|].
    split; [intros H; inversion H|]. intros. split; [reflexivity | discriminate].
  - exists (TTuple [TNamed (mkTyDef (Source 1) "Fn") "Fn" [TPrim PInt]; TPrim PBool]).
    exists (TTuple [TFunc [TPrim PInt] (TPrim PBool) pure_row Direct]).
    split; [repeat constructor|]. split; [repeat constructor|].
    split; [discriminate|]. intros. split; [reflexivity | discriminate].
Qed.
Print Assumptions mangled_names_reserved_words_refuted.

(** And for two declarations with the same qualified name but different origins, which the
    compiler's identities keep apart. *)
Theorem mangled_names_ignore_origins_refuted : exists d1 d2 n,
  d1 <> d2 /\ unreserved (td_qualified d1) = true /\ unreserved (td_qualified d2) = true /\
  forall base, mangle_name base [TNamed d1 n []] = mangle_name base [TNamed d2 n []] /\
               mangle_type_name d1 n [TPrim PInt] = mangle_type_name d2 n [TPrim PInt].
Proof.
  exists (mkTyDef Synthetic "String"), (mkTyDef (Source 3) "String"), "String".
  split; [discriminate|]. split; [reflexivity|]. split; [reflexivity|]. intros. split; reflexivity.
Qed.
Print Assumptions mangled_names_ignore_origins_refuted.
