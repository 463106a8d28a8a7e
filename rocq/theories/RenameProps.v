(** C73: going to a definition, finding references and renaming. *)
From Coq Require Import String Ascii List Permutation Lia.
From Verif Require Import RenameMain.
Open Scope string_scope. Open Scope list_scope. Import ListNotations.

(** The parts of a file that are read here. *)
Local Notation "$ s" := (list_ascii_of_string s) (at level 5).
Local Definition raw (s : string) : item := Raw $s.
Local Definition local_name (i : nat) (s : string) : item := Name $s (TLocal i $s).
Local Definition param (i : nat) (s : string) : item := Sub (Node (RParam $s (Some i)) [local_name i s]).
Local Definition bind (i : nat) (s : string) : item := Sub (Node (RBind $s (Some i)) [local_name i s]).
Local Definition use (i : nat) (s : string) : item := Sub (Node (RVar (ResLocal i $s)) [local_name i s]).
Local Definition func_name (s : string) : item := Name $s (TFunction $s).
Local Definition func (s : string) (l : list item) : item := Sub (Node (RFunc $s) (raw "fn " :: func_name s :: l)).
Local Definition call (s : string) : item := Sub (Node (RVar (ResFunction $s)) [func_name s]).
Local Definition cons_name (s : string) : item := Name $s (TConstructor $"Opt" $s).
Local Definition file (l : list item) : node := Node ROther l.

(** fn f(x) { x } fn main(x) { let y = f(x); case y { Some(x) -> x, None -> y } } enum Opt { Some(Nat), None } *)
Local Definition example : node := file
  [func "f" [raw "("; param 0 "x"; raw ") { "; use 0 "x"; raw " }"]; raw " ";
   func "main" [raw "("; param 1 "x"; raw ") { let "; bind 2 "y"; raw " = "; call "f"; raw "("; use 1 "x"; raw "); case "; use 2 "y"; raw " { ";
                Sub (Node (RPatVariant (ResConstructor $"Opt" $"Some")) [cons_name "Some"; raw "("; bind 3 "x"; raw ")"]); raw " -> "; use 3 "x"; raw ", ";
                Sub (Node (RPatVariant (ResConstructor $"Opt" $"None")) [cons_name "None"]); raw " -> "; use 2 "y"; raw " } }"]; raw " ";
   Sub (Node (REnum $"Opt") [raw "enum "; Name $"Opt" (TType $"Opt"); raw " { ";
         Sub (Node (RVariantDecl $"Opt" $"Some") [cons_name "Some"; raw "(Nat)"]); raw ", ";
         Sub (Node (RVariantDecl $"Opt" $"None") [cons_name "None"]); raw " }"])].
Local Definition y : target := TLocal 2 $"y".
Local Definition none : target := TConstructor $"Opt" $"None".
Example example_text : text_of example =
  $"fn f(x) { x } fn main(x) { let y = f(x); case y { Some(x) -> x, None -> y } } enum Opt { Some(Nat), None }".
Proof. reflexivity. Qed.
Local Ltac listed := unfold declared, referred; match goal with |- picked ?f ?T ?l ?ss => exact (picked_list f T l) end.
Local Ltac sub k := eapply (holds_sub_nth _ _ _ k); [reflexivity|].
Local Ltac name k := eapply (holds_name_nth _ _ _ k); [reflexivity | reflexivity | vm_compute; lia].
Example example_named : named example. Proof. apply namedb_sound. reflexivity. Qed.
(** The cursor is on the last [y]. *)
Example example_cursor : cursor_on y example 72 (72, 73).
Proof. do 3 eexists. split; [sub 2; sub 19; name 0|]. left; reflexivity. Qed.
(** … or on the declaration. *)
Example example_declaration : cursor_on y example 31 (31, 32).
Proof. do 3 eexists. split; [sub 2; sub 5; name 0|]. right. split; [reflexivity|]. intros r [<- | [<- | []]]; reflexivity. Qed.
Example example_declared : declared y example [(31, 32)]. Proof. listed. Qed.
Example example_referred : referred y example [(46, 47); (72, 73)]. Proof. listed. Qed.
Example example_bare : bare y example. Proof. apply bareb_sound. reflexivity. Qed.
Example example_renamed : edits_give example [(31, 32); (46, 47); (72, 73)] $"opt"
  $"fn f(x) { x } fn main(x) { let opt = f(x); case opt { Some(x) -> x, None -> opt } } enum Opt { Some(Nat), None }".
Proof.
  pose proof (rename_text example (rename_fn y $"opt" example) y 72 _ _ _ $"opt" example_named (or_introl I) example_cursor example_declared
                example_referred example_bare (rename_fn_ok _ _ _)) as H.
  destruct H as (edits & E & G). { exists "o"%char, $"pt". simpl. repeat split; auto 20. - intros x [<- | [<- | []]]; auto 70. - intuition discriminate. }
  injection E as <-. exact G.
Qed.
Example example_none_bare : bare none example. Proof. apply bareb_sound. reflexivity. Qed.
Example example_function_own_name : own_name (TFunction $"f") example.
Proof. apply own_nameb_sound. reflexivity. Qed.

(** Find references: exactly the references to the symbol under the cursor are found, each once, and first, if asked for, its declaration. *)
Theorem find_references_finds_exactly_the_references :
  forall n T o s ss, named n -> identified T \/ own_name T n -> cursor_on T n o s -> referred T n ss ->
  exists l, Permutation l ss /\ find_references n o false = Some l
    /\ forall d, declared T n [d] -> find_references n o true = Some (d :: l).
Proof. exact find_exact. Qed.
Print Assumptions find_references_finds_exactly_the_references.

(** Go to definition leads from a reference to the one declaration of its symbol. *)
Theorem goto_definition_leads_to_the_declaration :
  forall n T o d, named n -> identified T \/ own_name T n -> declared T n [d] ->
  (exists around s r t m, holds 0 n o around s r t m /\ mentions r = Some T) ->
  goto_definition n o = Some d.
Proof. exact goto_exact. Qed.
Print Assumptions goto_definition_leads_to_the_declaration.

(** The rename that an editor offers is that of the symbol under the cursor, with its present name. *)
Theorem rename_is_offered_for_the_symbol_under_the_cursor :
  forall n T o s d, named n -> identified T \/ own_name T n -> cursor_on T n o s -> declared T n [d] ->
  prepare_rename n o = Some (s, symbol_name T) /\ fst s <= o < snd s.
Proof. exact prepare_exact. Qed.
Print Assumptions rename_is_offered_for_the_symbol_under_the_cursor.

(** Renaming replaces the declaration and every reference and nothing else, for every new name that is an identifier, and does nothing otherwise. *)
Theorem rename_replaces_the_declaration_and_the_references :
  forall n T o s d ss new, named n -> identified T \/ own_name T n -> cursor_on T n o s -> declared T n [d] -> referred T n ss ->
  (~ identifier T new -> rename n o new = None)
  /\ (identifier T new -> exists l, rename n o new = Some (d :: l) /\ Permutation l ss).
Proof. exact rename_edits. Qed.
Print Assumptions rename_replaces_the_declaration_and_the_references.

(** The full property is that the text becomes that of the file in which every name that stands for the symbol is the new one.  Proved where those
    names are the whole text of the declaration and the references (see the refutations below for the rest). *)
Theorem rename_renames_every_occurrence_partial :
  forall n n' T o s d ss new, named n -> identified T \/ own_name T n -> cursor_on T n o s -> declared T n [d] -> referred T n ss ->
  bare T n -> renamed T new n n' -> identifier T new ->
  exists edits, rename n o new = Some edits /\ edits_give n edits new (text_of n').
Proof. exact rename_text. Qed.
Print Assumptions rename_renames_every_occurrence_partial.

(** ** Where the code does not do that. *)
Local Ltac ordered := eexists; split; [apply Permutation_refl|].
Local Ltac edit p a b rest := refine (replaced_one _ p _ a b _ rest _ _ _ _); [vm_compute; lia | vm_compute; lia | vm_compute; lia |].

(** Renaming a function replaces its whole declaration with the new name: *)
Local Definition two : node := file
  [func "f" [raw "("; param 0 "x"; raw ") { "; use 0 "x"; raw " }"]; raw " "; func "main" [raw "() { "; call "f"; raw "(1) }"]].
Lemma function_lost : text_of two = $"fn f(x) { x } fn main() { f(1) }"
  /\ named two /\ own_name (TFunction $"f") two /\ cursor_on (TFunction $"f") two 26 (26, 27)
  /\ text_of (rename_fn (TFunction $"f") $"g" two) = $"fn g(x) { x } fn main() { g(1) }"
  /\ rename two 26 $"g" = Some [(0, 13); (26, 27)]
  /\ edits_give two [(0, 13); (26, 27)] $"g" $"g fn main() { g(1) }".
Proof.
  split; [reflexivity|]. split; [apply namedb_sound; reflexivity|]. split.
  { apply own_nameb_sound. reflexivity. }
  split. { do 3 eexists. split; [sub 2; sub 3; name 0|]. left; reflexivity. }
  split; [reflexivity|]. split; [reflexivity|].
  ordered. edit 0 0 13 $" fn main() { g(1) }". edit 13 26 27 $"(1) }". apply replaced_none.
Qed.
Theorem renaming_a_function_keeps_its_declaration_refuted :
  exists n T o s new edits bad, named n /\ own_name T n /\ cursor_on T n o s /\ rename n o new = Some edits /\ edits_give n edits new bad
    /\ forall n', renamed T new n n' -> text_of n' <> bad.
Proof.
  destruct function_lost as (_ & H1 & H2 & H3 & H4 & H5 & H6). do 7 eexists. repeat (split; [eassumption|]).
  intros n' Hr. rewrite (renamed_unique _ _ _ _ _ Hr (rename_fn_ok _ _ _)), H4. discriminate.
Qed.
Print Assumptions renaming_a_function_keeps_its_declaration_refuted.

(** Renaming a parameter with a type drops the type: *)
Local Definition typed : node := file
  [func "g" [raw "("; Sub (Node (RParam $"x" (Some 0)) [local_name 0 "x"; raw ": Nat"]); raw ") { "; use 0 "x"; raw " }"]].
Theorem renaming_a_parameter_keeps_its_type_refuted :
  exists n T o s new edits bad, named n /\ identified T /\ cursor_on T n o s /\ rename n o new = Some edits /\ edits_give n edits new bad
    /\ forall n', renamed T new n n' -> text_of n' <> bad.
Proof.
  exists typed, (TLocal 0 $"x"), 15, (15, 16), $"z", [(5, 11); (15, 16)], $"fn g(z) { z }".
  split; [apply namedb_sound; reflexivity|]. split; [exact I|].
  split. { do 3 eexists. split; [sub 0; sub 5; name 0|]. left; reflexivity. }
  split; [reflexivity|]. split.
  { ordered. edit 0 5 11 $") { z }". edit 11 15 16 $" }". apply replaced_none. }
  intros n' Hr. rewrite (renamed_unique _ _ _ _ _ Hr (rename_fn_ok _ _ _)). vm_compute. discriminate.
Qed.
Print Assumptions renaming_a_parameter_keeps_its_type_refuted.

(** Renaming a variant with fields drops the fields of its declaration and the arguments of its uses: *)
Local Definition wrapped : node := file
  [Sub (Node (REnum $"Opt") [raw "enum "; Name $"Opt" (TType $"Opt"); raw " { ";
         Sub (Node (RVariantDecl $"Opt" $"Some") [cons_name "Some"; raw "(Nat)"]); raw " }"]); raw " ";
   func "f" [raw "("; param 0 "a"; raw ") { "; Sub (Node (RCons (ResConstructor $"Opt" $"Some")) [cons_name "Some"; raw "("; use 0 "a"; raw ")"]); raw " }"]].
Theorem renaming_a_variant_keeps_fields_and_arguments_refuted :
  exists n T o s new edits bad, named n /\ identified T /\ cursor_on T n o s /\ rename n o new = Some edits /\ edits_give n edits new bad
    /\ forall n', renamed T new n n' -> text_of n' <> bad.
Proof.
  exists wrapped, (TConstructor $"Opt" $"Some"), 33, (33, 40), $"Just", [(11, 20); (33, 40)], $"enum Opt { Just } fn f(a) { Just }".
  split; [apply namedb_sound; reflexivity|]. split; [exact I|].
  split. { do 3 eexists. split; [sub 2; sub 5; name 0|]. left; reflexivity. }
  split; [reflexivity|]. split.
  { ordered. edit 0 11 20 $" } fn f(a) { Just }". edit 20 33 40 $" }". apply replaced_none. }
  intros n' Hr. rewrite (renamed_unique _ _ _ _ _ Hr (rename_fn_ok _ _ _)). vm_compute. discriminate.
Qed.
Print Assumptions renaming_a_variant_keeps_fields_and_arguments_refuted.

(** With the cursor on a variable that a pattern binds, the constructor around it is offered for renaming: *)
Theorem rename_is_offered_for_pattern_variables_refuted :
  exists n o around s r t T, named n /\ holds 0 n o around s r t T /\ declares r = Some T /\ identified T /\ declared T n [s]
    /\ exists s' T', prepare_rename n o = Some (s', symbol_name T') /\ symbol_name T' <> symbol_name T.
Proof.
  exists example, 55. do 5 eexists. split; [apply namedb_sound; reflexivity|].
  split; [sub 2; sub 13; sub 2; name 0|]. split; [reflexivity|]. split; [exact I|]. split; [listed|].
  exists (50, 57), (TConstructor $"Opt" $"Some"). split; [reflexivity | discriminate].
Qed.
Print Assumptions rename_is_offered_for_pattern_variables_refuted.

(** With the cursor on a parameter of a function that is passed to a method, the method is renamed: *)
Local Definition method : node := file
  [func "id" [raw "("; param 0 "l"; raw ", "; param 1 "k"; raw ") { "; use 0 "l"; raw " }"]; raw " ";
   func "main" [raw "("; param 2 "l"; raw ") { ";
     Sub (Node (RVar (ResFunction $"id")) [use 2 "l"; raw "."; func_name "id"; raw "(";
       Sub (Node ROther [raw "fn("; param 3 "e"; raw ") "; use 3 "e"]); raw ")"]); raw " }"]].
Theorem rename_renames_the_parameter_under_the_cursor_refuted :
  exists n o around s r t T new edits, named n /\ holds 0 n o around s r t T /\ declares r = Some T /\ identified T /\ declared T n [s]
    /\ rename n o new = Some edits /\ ~ In s edits.
Proof.
  exists method, 39. do 5 eexists. exists $"z". eexists. split; [apply namedb_sound; reflexivity|].
  split; [sub 2; sub 5; sub 4; sub 1; name 0|]. split; [reflexivity|]. split; [exact I|]. split; [listed|].
  split; [reflexivity|]. simpl. intuition discriminate.
Qed.
Print Assumptions rename_renames_the_parameter_under_the_cursor_refuted.

(** fn a(f) { f } fn f() { 1 } fn h() { f() } *)
Local Definition shadow : node := file
  [func "a" [raw "("; param 0 "f"; raw ") { "; use 0 "f"; raw " }"]; raw " "; func "f" [raw "() { 1 }"]; raw " ";
   func "h" [raw "() { "; call "f"; raw "() }"]].
(** A variable with the name of the function is counted as a reference to it: *)
Theorem find_references_tells_functions_from_variables_refuted :
  exists n T o s l s' i x, named n /\ cursor_on T n o s /\ find_references n o false = Some l
    /\ In (s', RVar (ResLocal i x)) (nodes 0 n) /\ T <> TLocal i x /\ In s' l.
Proof.
  exists shadow, (TFunction $"f"), 36, (36, 37). eexists. exists (10, 11), 0, $"f". split; [apply namedb_sound; reflexivity|].
  split. { do 3 eexists. split; [sub 4; sub 3; name 0|]. left; reflexivity. }
  split; [reflexivity|]. split; [vm_compute; auto 20|]. split; [discriminate|]. vm_compute; auto.
Qed.
Print Assumptions find_references_tells_functions_from_variables_refuted.
(** … and its declaration is taken for that of the function: *)
Theorem goto_definition_tells_functions_from_variables_refuted :
  exists n T o s d, named n /\ cursor_on T n o s /\ declared T n [d] /\ exists d', goto_definition n o = Some d' /\ d' <> d.
Proof.
  exists shadow, (TFunction $"f"), 36, (36, 37). eexists. split; [apply namedb_sound; reflexivity|].
  split. { do 3 eexists. split; [sub 4; sub 3; name 0|]. left; reflexivity. }
  split; [listed|]. eexists. split; [reflexivity|]. discriminate.
Qed.
Print Assumptions goto_definition_tells_functions_from_variables_refuted.

(** A name that something else in scope has already is accepted: *)
Local Definition pair : node := file [func "g" [raw "("; param 0 "x"; raw ", "; param 1 "y"; raw ") { "; use 0 "x"; raw " + "; use 1 "y"; raw " }"]].
Theorem rename_keeps_names_apart_refuted :
  exists n T o s new edits T' s', named n /\ identified T /\ bare T n /\ cursor_on T n o s /\ rename n o new = Some edits
    /\ declared T' n [s'] /\ T' <> T /\ symbol_name T' = new /\ edits_give n edits new $"fn g(y, y) { y + y }".
Proof.
  exists pair, (TLocal 0 $"x"), 13, (13, 14), $"y". eexists. exists (TLocal 1 $"y"), (8, 9). split; [apply namedb_sound; reflexivity|].
  split; [exact I|]. split; [apply bareb_sound; reflexivity|].
  split. { do 3 eexists. split; [sub 0; sub 7; name 0|]. left; reflexivity. }
  split; [reflexivity|]. split; [listed|]. split; [discriminate|]. split; [reflexivity|].
  ordered. edit 0 5 6 $", y) { y + y }". edit 6 13 14 $" + y }". apply replaced_none.
Qed.
Print Assumptions rename_keeps_names_apart_refuted.
