(** C35: printed types and attributes read back. *)
From Coq Require Import String List Lia.
From Verif Require Import TextSpec TextProofs TextMain TextAlias.
Open Scope string_scope.
Open Scope list_scope.
Import ListNotations.

(** Types: with any alias names, in any context that does not continue the type. *)
Theorem types_read_back : forall alias show finite read, decimal_floats show finite read -> forall t, type_ok alias finite t ->
  exists n, forall fuel rest, (n <= fuel)%nat -> after_type alias t rest -> raw_type read fuel (write_type alias show finite t ++ rest) = Ok (abbreviated alias t) rest.
Proof. exact read_back_type. Qed.
Print Assumptions types_read_back.

Theorem attributes_read_back : forall alias show finite read, decimal_floats show finite read -> forall a, attr_ok alias finite a ->
  exists n, forall fuel rest, (n <= fuel)%nat -> after_attr alias a rest -> raw_attr read fuel (write_attr alias show finite a ++ rest) = Ok (abbreviated_attr alias a) rest.
Proof. exact read_back_attr. Qed.
Print Assumptions attributes_read_back.

(** Without aliases, the text of a type or attribute reads as exactly that. *)
Theorem plain_text_reads_back : forall show finite read, decimal_floats show finite read ->
  (forall t, type_ok (fun _ => None) finite t -> exists n, forall fuel, (n <= fuel)%nat -> raw_type read fuel (write_type (fun _ => None) show finite t) = Ok t [])
  /\ (forall a, attr_ok (fun _ => None) finite a -> exists n, forall fuel, (n <= fuel)%nat -> raw_attr read fuel (write_attr (fun _ => None) show finite a) = Ok a []).
Proof. exact read_back_plain. Qed.
Print Assumptions plain_text_reads_back.

(** Different types and attributes print differently. *)
Theorem printing_is_injective : forall show finite read, decimal_floats show finite read ->
  (forall t u, type_ok (fun _ => None) finite t -> type_ok (fun _ => None) finite u -> write_type (fun _ => None) show finite t = write_type (fun _ => None) show finite u -> t = u)
  /\ (forall a b, attr_ok (fun _ => None) finite a -> attr_ok (fun _ => None) finite b -> write_attr (fun _ => None) show finite a = write_attr (fun _ => None) show finite b -> a = b).
Proof. exact printed_apart. Qed.
Print Assumptions printing_is_injective.

(** ** A case *)
(** Floats that are whole numbers, for the example. *)
Definition ex_show (b : N) : text := write_uint b.
Definition ex_read (s : text) : option N := Some (number (fst (span digit s))).
Lemma ex_floats : decimal_floats ex_show (fun _ => true) ex_read.
Proof.
  intros b _. exists [], (write_uint b), (lit "0"). split; [left; reflexivity|]. split; [apply write_uint_numeral|]. split; [split; [discriminate|]; repeat constructor|].
  - unfold is_digit. cbn. lia.
  - unfold is_digit. cbn. lia.
  - split; [right; split; [cbn; unfold ex_show; reflexivity|reflexivity]|]. unfold ex_read. cbn [app].
    rewrite span_all. cbn [fst]. rewrite number_write. reflexivity. apply digits_forallb. apply write_uint_digits. intros c r E. inversion E; subst. reflexivity.
Qed.
Definition i32 : ty := Ty (lit "core") (lit "i32") [] [].
Definition sample : ty :=
  Ty (lit "core") (lit "func") [i32; Ty (lit "adt") (lit "struct") [] [(lit "name", Symbol (lit "a b")); (lit "x.y", Bytes [0; 255; 34]%N)]]
     [(lit "effect", List [Type_ i32; String (lit "quote: "" done" ++ [10; 955; 128512]%N); Int (-5)%Z; Unit; List []]); (lit "at", Location (lit "m.trb") 3%N 17%N); (lit "f", Float 12%N)].
Lemma ident_lit : forall s, is_ident (lit s) = true -> identifier (lit s).
Proof.
  intros s H. destruct (lit s) as [|c l]; [discriminate|]. cbn in H. apply andb_true_iff in H. destruct H as (A & B). exists c, l. split; [reflexivity|]. split. apply word_start_spec; auto. apply forallb_word; auto.
Qed.
Lemma i32_ok : type_ok (fun _ => None) (fun _ => true) i32.
Proof. apply ok_type; auto; apply ident_lit; reflexivity. Qed.
Lemma keyword_free : forall s, forallb (fun k => negb (match word_lit k s with Ok _ _ => true | _ => false end)) [lit "true"; lit "false"; lit "unit"] = true -> no_keyword s.
Proof.
  intros s H k r Hk E. rewrite forallb_forall in H. specialize (H k Hk). subst s. rewrite word_ok in H. discriminate.
Qed.
Example sample_ok : type_ok (fun _ => None) (fun _ => true) sample.
Proof.
  apply ok_type; auto; try (apply ident_lit; reflexivity).
  - constructor; [apply i32_ok|]. constructor; [|constructor]. apply ok_type; auto; try (apply ident_lit; reflexivity). constructor; [|constructor; [|constructor]]; split; cbn [fst snd].
    + apply dotted_one. apply ident_lit. reflexivity.
    + constructor.
    + change (lit "x.y") with (lit "x" ++ lit "." ++ lit "y"). apply dotted_more. apply ident_lit. reflexivity. apply dotted_one. apply ident_lit. reflexivity.
    + constructor. repeat constructor.
  - repeat (constructor; [split; cbn [fst snd]; [apply dotted_one; apply ident_lit; reflexivity|]|]); [| | |constructor].
    + constructor. constructor. { apply ok_named. apply i32_ok. intros _. apply keyword_free. reflexivity. }
      constructor; [constructor|]. constructor; [constructor; lia|]. constructor; [constructor|]. constructor; [constructor; constructor|]. constructor.
    + constructor; reflexivity.
    + constructor. reflexivity.
Qed.
Example sample_reads_back : exists n, forall fuel, (n <= fuel)%nat -> raw_type ex_read fuel (write_type (fun _ => None) ex_show (fun _ => true) sample) = Ok sample [].
Proof. exact (proj1 (plain_text_reads_back _ _ _ ex_floats) sample sample_ok). Qed.

(** ** What does not read back *)
(** An alias name starting with a digit is printed bare, and the reader accepts only identifiers there. *)
Theorem alias_names_refuted : exists name, ~ alias_name name /\ forall read fuel rest, raw_type read (S fuel) (write_alias_name name ++ rest) = Fail.
Proof.
  exists (lit "2d"). split; [|intros; reflexivity]. intros H. specialize (H _ _ eq_refl). assert (name_start 50%N); [|unfold name_start in *; lia]. apply H. apply forallb_word. reflexivity.
Qed.
Print Assumptions alias_names_refuted.

(** A type as attribute value whose dialect starts with a keyword: the keyword is read. *)
Theorem keyword_dialect_refuted : exists t, (forall finite, type_ok (fun _ => None) finite t) /\ forall show finite read fuel,
  raw_attr read (S fuel) (write_attr (fun _ => None) show finite (Type_ t)) = Ok Unit (lit "s.meter").
Proof.
  exists (Ty (lit "units") (lit "meter") [] []). split; [|intros; reflexivity]. intros. apply ok_type; auto; apply ident_lit; reflexivity.
Qed.
Print Assumptions keyword_dialect_refuted.

(** A float that is not a number or infinite prints as a word, which does not read. *)
Theorem infinite_floats_do_not_read : forall show finite read bits, finite bits = false -> show bits = lit "NaN" \/ show bits = lit "inf" \/ show bits = lit "-inf" ->
  forall alias fuel, raw_attr read (S (S fuel)) (write_attr alias show finite (Float bits)) = Fail.
Proof. intros show finite read bits F [H|[H|H]] alias fuel; cbn [write_attr]; unfold write_float; rewrite F, H; reflexivity. Qed.
Print Assumptions infinite_floats_do_not_read.

(** A type with parameters takes an empty pair of braces after it for its attributes: the last result type of an operation swallows an empty region. *)
Theorem swallowed_braces_refuted : exists t, (forall finite, type_ok (fun _ => None) finite t) /\ forall show finite read fuel,
  raw_type read (S (S (S fuel))) (write_type (fun _ => None) show finite t ++ lit " {" ++ [10%N] ++ lit "}") = Ok t [].
Proof.
  exists (Ty (lit "core") (lit "ref") [i32] []). split; [|intros; reflexivity]. intros. apply ok_type; auto; try (apply ident_lit; reflexivity).
  constructor; [|constructor]. apply ok_type; auto; apply ident_lit; reflexivity.
Qed.
Print Assumptions swallowed_braces_refuted.
