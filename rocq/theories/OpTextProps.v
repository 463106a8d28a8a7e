(** C51: printed operations and modules read back. *)
From Coq Require Import String List Lia.
From Verif Require Import OpTextSpec OpTextProofs OpTextMain OpTextModule TextProps.
Open Scope string_scope.
Open Scope list_scope.
Import ListNotations.

Lemma op_back : forall alias show finite read custom, decimal_floats show finite read -> forall o, op_ok alias finite custom o ->
  exists n, forall fuel indent rest, (n <= fuel)%nat -> follows rest -> (bare o -> next rest <> Some (ch "%")) ->
  exists rest', operation read custom fuel (write_op alias show finite indent o ++ rest) = Ok (reread alias o) rest' /\ skip rest' = skip rest.
Proof. intros alias show finite read custom H o Ho. exists (wo o). intros fuel indent rest Hf. exact (operations_back alias show finite read custom H fuel o Ho Hf indent rest). Qed.
(** An operation, with everything nested in it, reads back at any indentation and before anything that can follow an operation; only blanks after it may be consumed. *)
Theorem operations_read_back : forall alias show finite read custom, decimal_floats show finite read -> forall o, op_ok alias finite custom o ->
  exists n, forall fuel indent rest, (n <= fuel)%nat -> follows rest -> (bare o -> next rest <> Some (ch "%")) ->
  exists rest', operation read custom fuel (write_op alias show finite indent o ++ rest) = Ok (reread alias o) rest' /\ skip rest' = skip rest.
Proof. exact op_back. Qed.
Print Assumptions operations_read_back.

(** A module: its name, its alias definitions and its operations. *)
Theorem modules_read_back : forall alias show finite read custom, decimal_floats show finite read -> forall name defs ops,
  custom (lit "core") (lit "module") = None -> Forall (def_ok finite) defs -> Forall (op_ok alias finite custom) ops -> calm ops -> (defs <> [] \/ ops <> []) ->
  exists n, forall fuel, (n <= fuel)%nat -> parse_text read custom fuel (write_module alias show finite name (write_defs show finite defs) ops) =
    Ok (RawOp [] (lit "core") (lit "module") name [] None [] [] []
          [RawRegion (map def_read defs) (match ops with [] => [] | _ => [RawBlock (lit "bb0") [] (map (reread alias) ops)] end)] []) [].
Proof. exact module_back. Qed.
Print Assumptions modules_read_back.

Lemma apart : forall alias show finite read custom, decimal_floats show finite read -> forall name1 name2 defs1 defs2 ops1 ops2, custom (lit "core") (lit "module") = None ->
  Forall (def_ok finite) defs1 -> Forall (op_ok alias finite custom) ops1 -> calm ops1 -> (defs1 <> [] \/ ops1 <> []) ->
  Forall (def_ok finite) defs2 -> Forall (op_ok alias finite custom) ops2 -> calm ops2 -> (defs2 <> [] \/ ops2 <> []) ->
  write_module alias show finite name1 (write_defs show finite defs1) ops1 = write_module alias show finite name2 (write_defs show finite defs2) ops2 ->
  name1 = name2 /\ map def_read defs1 = map def_read defs2 /\ map (reread alias) ops1 = map (reread alias) ops2.
Proof.
  intros alias show finite read custom H name1 name2 defs1 defs2 ops1 ops2 Hc A1 A2 A3 A4 B1 B2 B3 B4 E.
  destruct (modules_read_back alias show finite read custom H name1 defs1 ops1 Hc A1 A2 A3 A4) as (n1 & P1). destruct (modules_read_back alias show finite read custom H name2 defs2 ops2 Hc B1 B2 B3 B4) as (n2 & P2).
  specialize (P1 (n1 + n2)%nat ltac:(lia)). specialize (P2 (n1 + n2)%nat ltac:(lia)). rewrite E, P2 in P1. inversion P1. repeat split; auto.
  destruct ops1, ops2; cbn in *; congruence.
Qed.
(** Modules with the same text have the same name, definitions and operations, up to what printing leaves out. *)
Theorem module_texts_apart : forall alias show finite read custom, decimal_floats show finite read -> forall name1 name2 defs1 defs2 ops1 ops2, custom (lit "core") (lit "module") = None ->
  Forall (def_ok finite) defs1 -> Forall (op_ok alias finite custom) ops1 -> calm ops1 -> (defs1 <> [] \/ ops1 <> []) ->
  Forall (def_ok finite) defs2 -> Forall (op_ok alias finite custom) ops2 -> calm ops2 -> (defs2 <> [] \/ ops2 <> []) ->
  write_module alias show finite name1 (write_defs show finite defs1) ops1 = write_module alias show finite name2 (write_defs show finite defs2) ops2 ->
  name1 = name2 /\ map def_read defs1 = map def_read defs2 /\ map (reread alias) ops1 = map (reread alias) ops2.
Proof. exact apart. Qed.
Print Assumptions module_texts_apart.

(** ** A case *)
Definition no_alias (t : ty) : option text := None.
Definition all (b : N) : bool := true.
Definition no_custom (d n : text) : option (list text -> option text -> parser raw_op) := None.
Definition fn_type : ty := Ty (lit "core") (lit "func") [i32; i32] [].
Definition ret_op (v : N) : op := Op [] (lit "func") (lit "return") [v] [] [] [] [].
Definition const_op (v : N) : op := Op [v] (lit "arith") (lit "const") [] [] [(lit "value", Int 7%Z)] [i32] [].
Definition branch : op := Op [] (lit "cf") (lit "cond_br") [0%N] [1; 2]%N [] [] [].
Definition if_op : op := Op [3%N] (lit "scf") (lit "if") [0%N] [] [] [i32] [Region [Block 3%N [] [const_op 4%N]]; Region [Block 4%N [(5%N, i32)] [ret_op 5%N]]].
Definition sample_func : op :=
  Op [] (lit "func") (lit "func") [] [] [(lit "sym_name", Symbol (lit "a::b")); (lit "type", Type_ fn_type); (lit "abi", String (lit "C"))] []
     [Region [Block 0%N [(0%N, i32)] [branch]; Block 1%N [(1%N, i32)] [const_op 2%N; ret_op 2%N]; Block 2%N [] [if_op; ret_op 3%N]]].
Definition declared : op := Op [] (lit "func") (lit "func") [] [] [(lit "sym_name", Symbol (lit "ext")); (lit "type", Type_ fn_type)] [] [].
Ltac idents := try (apply ident_lit; reflexivity).
Lemma i32_fine : type_ok no_alias all i32. Proof. exact i32_ok. Qed.
Lemma fn_fine : type_ok no_alias all fn_type. Proof. apply ok_type; idents; auto. repeat (constructor; [exact i32_fine|]). constructor. Qed.
Ltac plain := apply ok_generic; idents; try reflexivity; [constructor|constructor|constructor|intros ? ? E; discriminate E].
Lemma ret_ok : forall v, op_ok no_alias all no_custom (ret_op v).
Proof. intros. plain. Qed.
Lemma const_ok : forall v, op_ok no_alias all no_custom (const_op v).
Proof.
  intros. apply ok_generic; idents; try reflexivity.
  - constructor; [|constructor]. split; cbn [fst snd]. apply dotted_one; idents. constructor. lia.
  - constructor; [exact i32_fine|constructor].
  - constructor.
  - intros ? ? E; discriminate E.
Qed.
Lemma branch_ok : op_ok no_alias all no_custom branch.
Proof. plain. Qed.
Lemma if_ok : op_ok no_alias all no_custom if_op.
Proof.
  apply ok_generic; idents; try reflexivity.
  - constructor.
  - constructor; [exact i32_fine|constructor].
  - constructor; [|constructor; [|constructor]]; constructor; (constructor; [|constructor]); constructor; cbn [calm]; auto.
    + constructor; [apply const_ok|constructor].
    + constructor; [exact i32_fine|constructor].
    + constructor; [apply ret_ok|constructor].
  - intros r l E D. inversion E; subst. destruct D.
Qed.
Lemma func_ok : op_ok no_alias all no_custom sample_func.
Proof.
  apply ok_function.
  - constructor; [|constructor]. split; cbn [fst snd]. apply dotted_one; idents. constructor.
  - intros r ps E. cbn in E. inversion E; subst. split; [exact i32_fine|]. constructor; [exact i32_fine|constructor].
  - assert (NB : forall r d n a l s t g o, bare (Op r d n (a :: l) s t g o) -> False) by (cbn; intros; decompose [and] H; discriminate).
    constructor; [|constructor]. constructor. constructor; [|constructor; [|constructor; [|constructor]]]; constructor; cbn [calm]; auto.
    + constructor; [exact i32_fine|constructor].
    + constructor; [exact branch_ok|constructor].
    + constructor; [exact i32_fine|constructor].
    + constructor; [apply const_ok|]. constructor; [apply ret_ok|constructor].
    + split; auto. cbn. intros D. decompose [and] D. discriminate.
    + constructor; [exact if_ok|]. constructor; [apply ret_ok|constructor].
    + split; auto. intros D. cbn in D. decompose [and] D. discriminate.
  - intros ? ? ? ? ? E; discriminate E.
  - intros ? ? ? E; discriminate E.
Qed.
Lemma declared_ok : op_ok no_alias all no_custom declared.
Proof.
  apply ok_function; [constructor| |constructor|intros ? ? ? ? ? E; discriminate E|intros ? ? ? E; discriminate E].
  intros r ps E. cbn in E. inversion E; subst. split; [exact i32_fine|]. constructor; [exact i32_fine|constructor].
Qed.
Definition sample_defs : list (text * (ty -> option text) * ty) := [(lit "fn", no_alias, fn_type); (lit "a b", no_alias, i32)].
Lemma defs_ok : Forall (def_ok all) sample_defs.
Proof.
  constructor; [|constructor; [|constructor]]; (split; [|split; auto using fn_fine, i32_fine]).
  - intros c l E _. inversion E; subst. unfold name_start. lia.
  - left. apply forallb_word. reflexivity.
  - intros c l E _. inversion E; subst. unfold name_start. lia.
  - right. cbn. lia.
Qed.
Example sample_module_reads_back : exists n, forall fuel, (n <= fuel)%nat ->
  parse_text ex_read no_custom fuel (write_module no_alias ex_show all (Some (lit "m")) (write_defs ex_show all sample_defs) [declared; sample_func]) =
  Ok (RawOp [] (lit "core") (lit "module") (Some (lit "m")) [] None [] [] []
        [RawRegion [(lit "fn", fn_type); (lit "a b", i32)]
           [RawBlock (lit "bb0") []
              [RawOp [] (lit "func") (lit "func") (Some (lit "ext")) [(lit "arg0", i32)] (Some i32) [] [] [] [] [];
               RawOp [] (lit "func") (lit "func") (Some (lit "a::b")) [(lit "0", i32)] (Some i32) [] [(lit "abi", String (lit "C"))] []
                 [RawRegion []
                    [RawBlock (lit "bb0") [] [RawOp [] (lit "cf") (lit "cond_br") None [] None [lit "0"] [] [] [] [lit "bb1"; lit "bb2"]];
                     RawBlock (lit "bb1") [(lit "1", i32)] [RawOp [lit "2"] (lit "arith") (lit "const") None [] None [] [(lit "value", Int 7%Z)] [i32] [] []; RawOp [] (lit "func") (lit "return") None [] None [lit "2"] [] [] [] []];
                     RawBlock (lit "bb2") []
                       [RawOp [lit "3"] (lit "scf") (lit "if") None [] None [lit "0"] [] [i32]
                          [RawRegion [] [RawBlock (lit "bb0") [] [RawOp [lit "4"] (lit "arith") (lit "const") None [] None [] [(lit "value", Int 7%Z)] [i32] [] []]];
                           RawRegion [] [RawBlock (lit "bb4") [(lit "5", i32)] [RawOp [] (lit "func") (lit "return") None [] None [lit "5"] [] [] [] []]]] [];
                        RawOp [] (lit "func") (lit "return") None [] None [lit "3"] [] [] [] []]]] []]]] []) [].
Proof.
  refine (modules_read_back no_alias ex_show all ex_read no_custom ex_floats (Some (lit "m")) sample_defs [declared; sample_func] eq_refl defs_ok _ _ _).
  - constructor; [exact declared_ok|]. constructor; [exact func_ok|constructor].
  - cbn. split; auto. intros [D _]. discriminate D.
  - left. discriminate.
Qed.

(** ** What does not read back *)
(** After an operation that prints as a mere name, the results of the next one are taken for its operands, and the text does not parse. *)
Definition unreachable : op := Op [] (lit "ub") (lit "unreachable") [] [] [] [] [].
Theorem results_taken_as_operands_refuted : exists ops, Forall (op_ok no_alias all no_custom) ops
  /\ parse_text ex_read no_custom 20 (write_module no_alias ex_show all None [] ops) = Fail.
Proof.
  exists [unreachable; const_op 0%N]. split; [|reflexivity]. constructor; [|constructor; [apply const_ok|constructor]].
  plain.
Qed.
Print Assumptions results_taken_as_operands_refuted.

(** The body of an empty module is read as a dictionary of attributes. *)
Theorem empty_module_refuted : forall name, exists n, forall fuel, (n <= fuel)%nat -> parse_text ex_read no_custom fuel (write_module no_alias ex_show all (Some name) [] []) = Ok (RawOp [] (lit "core") (lit "module") (Some name) [] None [] [] [] [] []) [].
Proof.
  intros name. exists 3%nat. intros fuel Hf. destruct fuel as [|[|[|f]]]; try lia. unfold parse_text. rewrite ws_bind. unfold write_module.
  change (lit "core.module" ++ ?x) with (lit "core" ++ 46%N :: lit "module" ++ x). rewrite ident_skip by apply core_ident. rewrite operation_eq.
  match goal with |- context[pbind (pbind ws ?g) ?h ?i] => assert (E : pbind ws g i = Ok (RawOp [] (lit "core") (lit "module") (Some name) [] None [] [] [] [] []) []) end.
  { rewrite ws_bind, ident_skip by apply core_ident. rewrite (pbind_ok _ _ _ _ _ None (lit "core" ++ 46%N :: lit "module" ++ (ch " " :: write_symbol name) ++ lit " {" ++ nl ++ [] ++ concat (map (write_op no_alias ex_show all 2) []) ++ lit "}" ++ nl)) by (apply no_results; unfold next; rewrite ident_skip by apply core_ident; discriminate).
    rewrite ws_bind, ident_skip by apply core_ident.
    rewrite (pbind_ok _ _ _ _ _ (lit "core", lit "module") ((ch " " :: write_symbol name) ++ lit " {" ++ nl ++ [] ++ concat (map (write_op no_alias ex_show all 2) []) ++ lit "}" ++ nl)).
    2: { apply qualified_ok; try apply core_ident; try apply module_ident. apply nf_cons. unfold name_char, name_start, is_digit. cbn. lia. }
    rewrite (pbind_ok _ _ _ _ _ (Some name) (lit " {" ++ nl ++ lit "}" ++ nl)).
    - reflexivity.
    - apply opt_ok. cbn [app]. rewrite ws_bind. rewrite skip_blank by apply blank32. rewrite skip_nf by (apply nf_cons; unfold blank; cbn; lia). apply (symbol_ok name (lit " {" ++ nl ++ lit "}" ++ nl)). apply nf_cons. unfold name_char, name_start, is_digit. cbn. lia. }
  rewrite (pbind_ok _ _ _ _ _ _ _ E). reflexivity.
Qed.
Print Assumptions empty_module_refuted.

(** So is an empty region of an operation without attributes and result types. *)
Theorem empty_region_refuted : exists o, (match o with Op _ _ _ _ _ _ _ regions => List.length regions end) = 1%nat
  /\ operation ex_read no_custom 20 (write_op no_alias ex_show all 0 o) = Ok (RawOp [] (lit "scf") (lit "loop") None [] None [] [] [] [] []) [].
Proof. exists (Op [] (lit "scf") (lit "loop") [] [] [] [] [Region []]). split; reflexivity. Qed.
Print Assumptions empty_region_refuted.

(** An alias whose name contains a quote reads back where it is used, and not where it is defined. *)
Theorem quoted_alias_refuted : exists name, alias_name name /\ type_alias_ref (write_alias_name name) = Ok (Alias name) []
  /\ parse_text ex_read no_custom 20 (write_module no_alias ex_show all None (write_defs ex_show all [(name, no_alias, i32)]) []) = Fail.
Proof.
  exists (lit "a""b"). split; [|split; reflexivity]. intros c l E F. exfalso. inversion E; subst. inversion F; subst. inversion H2; subst. unfold name_char, name_start, is_digit in H3. lia.
Qed.
Print Assumptions quoted_alias_refuted.

(** A block without arguments that is alone in its region loses its label, also when it branches to itself. *)
Theorem elided_label_refuted : exists o, op_ok no_alias all no_custom o /\ exists b,
  reread no_alias o = RawOp [] (lit "scf") (lit "loop") None [] None [] [] [i32] [RawRegion [] [RawBlock (lit "bb0") [] [RawOp [] (lit "cf") (lit "br") None [] None [] [] [] [] [b]]]] [] /\ b <> lit "bb0".
Proof.
  exists (Op [] (lit "scf") (lit "loop") [] [] [] [i32] [Region [Block 3%N [] [Op [] (lit "cf") (lit "br") [] [3%N] [] [] []]]]). split.
  - apply ok_generic; idents; try reflexivity; [constructor|constructor; [exact i32_fine|constructor]| |intros r l E D; inversion E; subst; destruct D].
    constructor; [|constructor]. constructor. constructor; [|constructor]. constructor; [constructor| |cbn; auto]. constructor; [|constructor]. plain.
  - exists (lit "bb3"). split; [reflexivity|discriminate].
Qed.
Print Assumptions elided_label_refuted.
(** And a block without arguments and operations is lost altogether. *)
Theorem empty_block_refuted : forall b, reread_region no_alias (Region [Block b [] []]) = RawRegion [] [].
Proof. reflexivity. Qed.
