(** C53: a module that is printed, read and built again is the same module. *)
From Coq Require Import String List Lia.
From Verif Require Import BuildSpec BuildProofs BuildModule BuildStable OpTextProps AliasProps TextProps.
Open Scope string_scope.
Open Scope list_scope.
Import ListNotations.
Local Open Scope nat_scope.

(** Numbering gives each operation of a module other references for its values and blocks, different ones for different values. *)
Lemma renaming ops : Forall top_level ops -> NoDup (flat_map op_values ops) -> NoDup (flat_map op_blocks ops) ->
  exists nops, name_module ops = Some nops
    /\ Forall2 (fun o on => exists f g, one_to_one f (op_values o) /\ one_to_one g (op_blocks o) /\ on = rename f g o) ops nops.
Proof.
  intros T V B. destruct (module_named ops T V B) as (nops & E & F). exists nops. split; [exact E|]. clear - F. induction F as [|o on l l' H F IH]; constructor; auto.
  destruct H as (f & g & H1 & H2 & H3 & _). eauto.
Qed.
Theorem numbering_is_renaming : forall ops, Forall top_level ops -> NoDup (flat_map op_values ops) -> NoDup (flat_map op_blocks ops) ->
  exists nops, name_module ops = Some nops
    /\ Forall2 (fun o on => exists f g, one_to_one f (op_values o) /\ one_to_one g (op_blocks o) /\ on = rename f g o) ops nops.
Proof. exact renaming. Qed.
Print Assumptions numbering_is_renaming.

Lemma numbered_ok alias finite custom ops nops : Forall2 numbered_as ops nops -> Forall (op_ok alias finite custom) ops -> Forall (op_ok alias finite custom) nops.
Proof. induction 1 as [|o on l l' H F IH]; intros K; [constructor|]. inversion K; subst. constructor; auto. destruct H as (f & g & -> & _). apply (proj1 (rename_ok alias finite custom f g)). auto. Qed.
Lemma numbered_calm ops nops : Forall2 numbered_as ops nops -> calm ops -> calm nops.
Proof.
  induction 1 as [|o on l l' H F IH]; auto. intros [K C]. split; auto. destruct F as [|o' on' l l' H' F]; auto. destruct H as (f & g & -> & _). destruct H' as (f' & g' & -> & _).
  intros Q R. apply (K (proj1 (bare_rename (fun _ _ => None) f g o) Q) (proj1 (results_rename (fun _ _ => None) f' g' o') R)).
Qed.

Lemma round : forall complexity min_uses min_complexity show finite read custom fuel aliases counts defs m name ops fresh_v fresh_b,
  decimal_floats show finite read -> custom (lit "core") (lit "module") = None ->
  NoDup (map fst aliases) -> (forall a, In a aliases -> plain (snd a)) -> (forall c, In c counts -> plain (fst c)) ->
  (2 * List.length aliases + List.length counts <= fuel)%nat ->
  module_aliases complexity min_uses min_complexity show finite fuel aliases (initial aliases) counts = Some (defs, m) ->
  Forall (def_ok finite) (map as_known defs) -> Forall (op_ok (look m) finite custom) ops -> calm ops -> ops <> [] ->
  Forall top_level ops -> NoDup (flat_map op_values ops) -> NoDup (flat_map op_blocks ops) ->
  exists txt, print_module complexity min_uses min_complexity show finite fuel aliases counts name ops = Some txt
    /\ exists n, forall fuel', (n <= fuel')%nat -> exists b ops',
         parse_module read custom fuel' fresh_v fresh_b txt = Some (Op [] (lit "core") (lit "module") [] [] (name_attrs name) [] [Region [Block b [] ops']])
         /\ isomorphic ops ops'
         /\ print_module complexity min_uses min_complexity show finite fuel aliases counts name ops' = Some txt.
Proof.
  intros complexity mu mc show finite read custom fuel aliases counts defs m name ops fv fb D C N P1 P2 L E Dk O Ca Ne T V B.
  destruct (module_named ops T V B) as (nops & En & F). unfold print_module. rewrite E, En. eexists. split; [reflexivity|].
  destruct (modules_read_back (look m) show finite read custom D name (map as_known defs) nops C Dk (numbered_ok _ _ _ _ _ F O) (numbered_calm _ _ F Ca)) as (n & R).
  { right. intros ->. inversion F; subst. auto. }
  exists n. intros fuel' Lf. specialize (R fuel' Lf).
  destruct (module_aliases_resolve complexity mu mc show finite fuel aliases counts N P1 P2 L) as (defs' & m' & e & E' & Bd & Re). rewrite E in E'. injection E' as <- <-.
  unfold parse_module. rewrite R. rewrite def_read_known.
  replace (match nops with [] => [] | _ => [RawBlock (lit "bb0") [] (map (reread (look m)) nops)] end) with [RawBlock (lit "bb0") [] (map (reread (look m)) nops)] by (destruct F; [destruct Ne; reflexivity|reflexivity]).
  destruct (module_built (look m) e (map read_def defs) ops nops name {| sc := {| values := []; labels := []; types := [] |}; fresh_v := fv; fresh_b := fb |} Re Bd eq_refl F T V B) as (st' & b & ops' & Eb & I).
  exists b, ops'. split; [rewrite Eb; reflexivity|]. split; [exact I|]. rewrite (stable ops ops' T I), En. reflexivity.
Qed.
(** Printing, reading and building: the operations are the same up to the choice of references, and print as the same text again. *)
Theorem modules_round_trip_partial : forall complexity min_uses min_complexity show finite read custom fuel aliases counts defs m name ops fresh_v fresh_b,
  decimal_floats show finite read -> custom (lit "core") (lit "module") = None ->
  NoDup (map fst aliases) -> (forall a, In a aliases -> plain (snd a)) -> (forall c, In c counts -> plain (fst c)) ->
  (2 * List.length aliases + List.length counts <= fuel)%nat ->
  module_aliases complexity min_uses min_complexity show finite fuel aliases (initial aliases) counts = Some (defs, m) ->
  Forall (def_ok finite) (map as_known defs) -> Forall (op_ok (look m) finite custom) ops -> calm ops -> ops <> [] ->
  Forall top_level ops -> NoDup (flat_map op_values ops) -> NoDup (flat_map op_blocks ops) ->
  exists txt, print_module complexity min_uses min_complexity show finite fuel aliases counts name ops = Some txt
    /\ exists n, forall fuel', (n <= fuel')%nat -> exists b ops',
         parse_module read custom fuel' fresh_v fresh_b txt = Some (Op [] (lit "core") (lit "module") [] [] (name_attrs name) [] [Region [Block b [] ops']])
         /\ isomorphic ops ops'
         /\ print_module complexity min_uses min_complexity show finite fuel aliases counts name ops' = Some txt.
Proof. exact round. Qed.
Print Assumptions modules_round_trip_partial.

(** The text does not depend on the references. *)
Theorem text_ignores_references : forall ops ops', Forall top_level ops -> isomorphic ops ops' -> name_module ops' = name_module ops.
Proof. exact stable. Qed.
Print Assumptions text_ignores_references.

(** ** A case *)
Definition int_alias : list (text * ty) := [(lit "int", i32)].
Definition if_2 (r c v w b1 b2 : N) : op := Op [r] (lit "scf") (lit "if") [c] [] [] [i32] [Region [Block b1 [] [const_op v]]; Region [Block b2 [(w, i32)] [ret_op w; ret_op c]]].
Definition branch_2 (c b1 b2 : N) : op := Op [] (lit "cf") (lit "cond_br") [c] [b1; b2] [] [] [].
Definition unsorted_func : op :=
  Op [] (lit "func") (lit "func") [] [] [(lit "abi", String (lit "C")); (lit "sym_name", Symbol (lit "a::b")); (lit "type", Type_ fn_type)] []
     [Region [Block 90 [(70, i32)] [branch_2 70 40 20]; Block 20 [(31, i32)] [const_op 12; ret_op 12]; Block 40 [] [if_2 33 70 8 5 7 6; ret_op 33]]]%N.
Definition known : amap := initial int_alias.
Lemma int_ok : type_ok (look known) all i32.
Proof. apply (ok_alias _ _ _ _ _ _ (lit "int")); [reflexivity|]. intros c l E _. inversion E; subst. unfold name_start. lia. Qed.
Lemma fn_known : type_ok (look known) all fn_type.
Proof. apply ok_type; idents; auto. repeat (constructor; [exact int_ok|]). constructor. Qed.
Lemma ret_known v : op_ok (look known) all no_custom (ret_op v). Proof. plain. Qed.
Lemma const_known v : op_ok (look known) all no_custom (const_op v).
Proof.
  apply ok_generic; idents; try reflexivity.
  - constructor; [|constructor]. split; cbn [fst snd]. apply dotted_one; idents. constructor. lia.
  - constructor; [exact int_ok|constructor].
  - constructor.
  - intros ? ? E; discriminate E.
Qed.
Lemma branch_known a b c : op_ok (look known) all no_custom (branch_2 a b c). Proof. plain. Qed.
Lemma if_known r c v w b1 b2 : op_ok (look known) all no_custom (if_2 r c v w b1 b2).
Proof.
  apply ok_generic; idents; try reflexivity.
  - constructor.
  - constructor; [exact int_ok|constructor].
  - constructor; [|constructor; [|constructor]]; constructor; (constructor; [|constructor]); constructor; cbn [calm]; auto.
    + constructor; [apply const_known|constructor].
    + constructor; [exact int_ok|constructor].
    + constructor; [apply ret_known|]. constructor; [apply ret_known|constructor].
    + split; auto. intros D. cbn in D. decompose [and] D. discriminate.
  - intros r' l E D. inversion E; subst. destruct D.
Qed.
Lemma unsorted_known : op_ok (look known) all no_custom unsorted_func.
Proof.
  apply ok_function.
  - constructor; [|constructor]. split; cbn [fst snd]. apply dotted_one; idents. constructor.
  - intros r ps E. cbn in E. inversion E; subst. split; [exact int_ok|]. constructor; [exact int_ok|constructor].
  - constructor; [|constructor]. constructor. constructor; [|constructor; [|constructor; [|constructor]]]; constructor; cbn [calm]; auto.
    + constructor; [exact int_ok|constructor].
    + constructor; [apply branch_known|constructor].
    + constructor; [exact int_ok|constructor].
    + constructor; [apply const_known|]. constructor; [apply ret_known|constructor].
    + split; auto. cbn. intros D. decompose [and] D. discriminate.
    + constructor; [apply if_known|]. constructor; [apply ret_known|constructor].
    + split; auto. intros D. cbn in D. decompose [and] D. discriminate.
  - intros ? ? ? ? ? E; discriminate E.
  - intros ? ? ? E; discriminate E.
Qed.
Lemma declared_known : op_ok (look known) all no_custom declared.
Proof.
  apply ok_function; [constructor| |constructor|intros ? ? ? ? ? E; discriminate E|intros ? ? ? E; discriminate E].
  intros r ps E. cbn in E. inversion E; subst. split; [exact int_ok|]. constructor; [exact int_ok|constructor].
Qed.
Lemma plain_fn : plain fn_type. Proof. constructor; repeat (constructor; [exact plain_i32|]); constructor. Qed.
Ltac sorted := cbn [map fst]; repeat (constructor; [|repeat (constructor; [reflexivity|]); constructor]); constructor.
Ltac one := constructor; [|constructor].
Lemma gen_ret v : generic (ret_op v). Proof. constructor; auto; constructor. Qed.
Lemma gen_const v : generic (const_op v).
Proof. constructor; auto; [one; exact plain_i32| |sorted]. one. apply plain_leaf; intros; discriminate. Qed.
Lemma gen_branch a b c : generic (branch_2 a b c). Proof. constructor; auto; constructor. Qed.
Lemma gen_if r c v w b1 b2 : generic (if_2 r c v w b1 b2).
Proof.
  constructor; auto; [one; exact plain_i32|sorted|]. constructor; [|one].
  - constructor. one. constructor; [constructor|]. one. apply gen_const.
  - constructor. one. constructor; [one; exact plain_i32|]. constructor; [apply gen_ret|one]. apply gen_ret.
Qed.
Ltac member := intros ?x ?X; cbn [In map fst block_name app flat_map op_results if_2 const_op ret_op branch_2] in *; tauto.
Ltac fields := repeat (constructor; [apply plain_leaf; intros; discriminate|]); one; cbn [snd].
Lemma unsorted_top : top_level unsorted_func.
Proof.
  apply top_function.
  - fields. apply plain_type. exact plain_fn.
  - sorted.
  - right. exists (lit "a::b"). reflexivity.
  - left. exists i32. reflexivity.
  - exact I.
  - constructor; [|constructor; [|one]]; (constructor; [repeat (constructor; [exact plain_i32|]); constructor|]).
    + one. apply gen_branch.
    + constructor; [apply gen_const|one]. apply gen_ret.
    + constructor; [apply gen_if|one]. apply gen_ret.
  - constructor; [|constructor; [|constructor; [|constructor]]].
    + constructor; [constructor; [member|member|constructor]|constructor].
    + constructor; [constructor; [member|member|constructor]|]. constructor; [constructor; [member|member|constructor]|constructor].
    + constructor; [|constructor; [constructor; [member|member|constructor]|constructor]]. constructor; [member|member|]. constructor; [|one].
      * constructor; [exact I|]. constructor; [|constructor]. constructor; [constructor; [member|member|constructor]|constructor].
      * constructor; [exact I|]. constructor; [|constructor]. constructor; [constructor; [member|member|constructor]|]. constructor; [constructor; [member|member|constructor]|constructor].
Qed.
Lemma declared_top : top_level declared.
Proof. eapply top_declared; [|sorted|right; exists (lit "ext"); reflexivity|reflexivity]. fields. apply plain_type. exact plain_fn. Qed.
Ltac distinct := repeat constructor; cbn; intuition discriminate.
Example case_round_trip : exists txt, print_module heavy 2 40 ex_show all 20 int_alias [] (Some (lit "m")) [declared; unsorted_func] = Some txt
  /\ exists n, forall fuel', (n <= fuel')%nat -> exists b ops',
       parse_module ex_read no_custom fuel' 1000 2000 txt = Some (Op [] (lit "core") (lit "module") [] [] [(lit "sym_name", Symbol (lit "m"))] [] [Region [Block b [] ops']])
       /\ isomorphic [declared; unsorted_func] ops'
       /\ print_module heavy 2 40 ex_show all 20 int_alias [] (Some (lit "m")) ops' = Some txt.
Proof.
  refine (modules_round_trip_partial heavy 2 40 ex_show all ex_read no_custom 20 int_alias [] [(lit "int", [], i32)] known (Some (lit "m")) [declared; unsorted_func] 1000 2000
    ex_floats eq_refl _ _ _ _ _ _ _ _ _ _ _ _).
  - distinct.
  - intros a [<-|[]]. exact plain_i32.
  - intros c [].
  - cbn. lia.
  - reflexivity.
  - one. split; [|split].
    + intros c l E _. inversion E; subst. unfold name_start. lia.
    + left. apply forallb_word. reflexivity.
    + exact i32_fine.
  - constructor; [exact declared_known|one]. exact unsorted_known.
  - cbn [calm]. split; auto. intros [D _]. discriminate D.
  - discriminate.
  - constructor; [exact declared_top|one]. exact unsorted_top.
  - distinct.
  - distinct.
Qed.

(** ** What does not survive *)
(** A use in a block that is printed before the block of the definition, though that block dominates it, has no name. *)
Definition forward_func : op :=
  Op [] (lit "func") (lit "func") [] [] [(lit "sym_name", Symbol (lit "f"))] []
     [Region [Block 0 [] [Op [] (lit "cf") (lit "br") [] [2] [] [] []]; Block 1 [] [ret_op 0]; Block 2 [] [const_op 0; Op [] (lit "cf") (lit "br") [] [1] [] [] []]]]%N.
Theorem forward_use_refuted : NoDup (op_values forward_func) /\ NoDup (op_blocks forward_func) /\ Forall (op_ok no_alias all no_custom) [forward_func] /\ name_module [forward_func] = None.
Proof.
  split; [distinct|]. split; [distinct|]. split; [|reflexivity]. one. apply ok_function.
  - constructor.
  - intros ? ? E. discriminate E.
  - one. constructor. constructor; [|constructor; [|one]]; constructor; cbn [calm]; auto.
    + one. plain.
    + one. apply ret_ok.
    + constructor; [apply const_ok|one]. plain.
    + split; auto. intros D. cbn in D. decompose [and] D. discriminate.
  - intros ? ? ? ? ? E; discriminate E.
  - intros ? ? ? E; discriminate E.
Qed.
Print Assumptions forward_use_refuted.

(** Two operations of a module that have results are both printed as [%0], and the reader rejects the second. *)
Theorem repeated_results_refuted : Forall (op_ok no_alias all no_custom) [const_op 0; const_op 1] /\ calm [const_op 0; const_op 1]
  /\ exists txt, print_module heavy 2 40 ex_show all 20 [] [] None [const_op 0; const_op 1]%N = Some txt /\ parse_module ex_read no_custom 60 0 0 txt = None.
Proof.
  split; [constructor; [apply const_ok|one]; apply const_ok|]. split; [cbn; split; auto; intros D; decompose [and] D; discriminate|].
  eexists. split; [reflexivity|]. vm_compute. reflexivity.
Qed.
Print Assumptions repeated_results_refuted.

(** A function nested in another operation starts the numbers again and forgets the names outside. *)
Definition nested_func : op :=
  Op [] (lit "scf") (lit "loop") [] [] [] [i32] [Region [Block 0 [] [const_op 0; Op [] (lit "func") (lit "func") [] [] [(lit "sym_name", Symbol (lit "g"))] [] []; ret_op 0]]]%N.
Theorem nested_function_refuted : op_scoped [] [] nested_func /\ name_module [nested_func] = None.
Proof.
  split; [|reflexivity]. constructor; [member|member|]. one. constructor; [exact I|]. constructor; [|constructor].
  constructor; [constructor; [member|member|constructor]|]. constructor; [constructor; [member|member|constructor]|]. constructor; [constructor; [member|member|constructor]|constructor].
Qed.
Print Assumptions nested_function_refuted.

(** Every argument that is printed gets an attribute with its printed name when it is read: none is named [argN]. *)
Lemma gains : forall n j, bind_name j (write_uint n) = Some (write_uint n).
Proof.
  intros n j. pose proof (write_uint_digits n) as D. destruct (write_uint n) as [|c l]; [reflexivity|]. inversion D as [|? ? Hc]; subst. unfold bind_name.
  destruct c as [|p]; [reflexivity|]. destruct (Pos.eq_dec p 97) as [->|Np]; [exfalso; unfold is_digit in Hc; lia|].
  do 7 (destruct p as [p|p|]; try reflexivity); destruct Np; reflexivity.
Qed.
Theorem argument_names_refuted : forall n j, bind_name j (write_uint n) = Some (write_uint n).
Proof. exact gains. Qed.
Print Assumptions argument_names_refuted.

(** Attributes of a function's type are not printed. *)
Definition effect_type : ty := Ty (lit "core") (lit "func") [i32; i32] [(lit "effect", Symbol (lit "io"))].
Definition typed (t : ty) : op := Op [] (lit "func") (lit "func") [] [] [(lit "sym_name", Symbol (lit "f")); (lit "type", Type_ t)] [] [].
Theorem type_attributes_refuted : typed effect_type <> typed fn_type
  /\ print_module heavy 2 40 ex_show all 20 [] [] None [typed effect_type] = print_module heavy 2 40 ex_show all 20 [] [] None [typed fn_type].
Proof. split; [discriminate|reflexivity]. Qed.
Print Assumptions type_attributes_refuted.
