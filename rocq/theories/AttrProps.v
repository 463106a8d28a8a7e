(** Theorems about typed attribute access (C34). *)
From Verif Require Import AttrModel AttrSpec AttrProofs.
Open Scope Z_scope.

(** C34: after any history of interning, insertions, removals and clears, reading an
    integer at a type gives the stored value exactly when it fits, an error naming the
    value and the type exactly when an integer is stored that does not fit, and
    "absent" exactly when no integer is stored under that text. *)
Theorem integer_getters_exact : forall h t ty,
  let r := get_integer ty (fst (arun h)) (snd (arun h)) (ByText t) in
  (forall v, r = OkInt (Some v) <-> (holds h t (AInt v) /\ representable ty v)) /\
  (forall v ty', r = OutOfRange v ty' <-> (ty' = ty /\ holds h t (AInt v) /\ ~ representable ty v)) /\
  (r = OkInt None <-> forall v, ~ holds h t (AInt v)).
Proof. exact get_integer_exact. Qed.
Print Assumptions integer_getters_exact.

(** C34: lookup by text finds exactly what is stored, whether or not the text was ever
    interned; a symbol for that text finds the same. *)
Theorem text_lookup_exact : forall h t a, get (fst (arun h)) (snd (arun h)) (ByText t) = Some a <-> holds h t a.
Proof. exact get_by_text. Qed.
Print Assumptions text_lookup_exact.
Theorem symbol_lookup_agrees : forall h t sym, position (fst (arun h)) t = Some sym ->
  get (fst (arun h)) (snd (arun h)) (BySymbol sym) = get (fst (arun h)) (snd (arun h)) (ByText t).
Proof. exact get_by_symbol. Qed.
Print Assumptions symbol_lookup_agrees.

(** C34: an integer written from a typed value reads back at that type. *)
Theorem typed_write_reads_back : forall h t ty v, representable ty v ->
  get_integer ty (fst (arun (h ++ [Insert t (from_int v)]))) (snd (arun (h ++ [Insert t (from_int v)]))) (ByText t) = OkInt (Some v).
Proof. exact round_trip. Qed.
Print Assumptions typed_write_reads_back.

Definition demo_attrs : list aop :=
  [Intern "x"; Insert "n" (AInt 300); Insert "m" (AInt (-1)); Insert "n" (AInt 255); Insert "b" (ABool true); Insert "gone" (AInt 1); Remove "gone"]%string.
Example demo_reads :
  map (fun k => get_integer U8 (fst (arun demo_attrs)) (snd (arun demo_attrs)) (ByText k)) ["n"; "m"; "b"; "gone"; "never"]%string =
  [OkInt (Some 255); OutOfRange (-1) U8; OkInt None; OkInt None; OkInt None] /\
  get_integer I32 (fst (arun demo_attrs)) (snd (arun demo_attrs)) (ByText "m") = OkInt (Some (-1)).
Proof. split; reflexivity. Qed.
Example demo_holds : holds demo_attrs "n" (AInt 255) /\ representable U8 255 /\ ~ representable U8 300.
Proof.
  split.
  - exists [Intern "x"; Insert "n" (AInt 300); Insert "m" (AInt (-1))]%string, [Insert "b" (ABool true); Insert "gone" (AInt 1); Remove "gone"]%string. split; [reflexivity|].
    intros o [<-|[<-|[<-|[]]]]; repeat split; discriminate.
  - split; [exists 255; split; [cbn; split; [discriminate|reflexivity]|reflexivity]|]. intros (b & B & E). cbn in *. subst b. destruct B as (_ & B). discriminate B.
Qed.
