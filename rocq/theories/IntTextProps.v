(** C61: decimal text of integers. *)
From Verif Require Import PreludeSpec PreludeIntProofs.
Local Open Scope Z_scope.

(** Int::parse answers every text as the decimal grammar and the 32-bit range
    say, on both targets. *)
Theorem int_parse_answers_partial : forall fuel t s r,
  Forall is_byte (text s) -> Z.of_nat (length (text s)) <= 2 ^ 31 ->
  (length (text s) < fuel)%nat ->
  int_parse fuel t Wrapping s = Done r <-> answer (text s) r.
Proof. exact (fun fuel t => parse_exactly fuel t Wrapping). Qed.
Print Assumptions int_parse_answers_partial.

Theorem int_parse_always_answers : forall fuel t s,
  Forall is_byte (text s) -> Z.of_nat (length (text s)) <= 2 ^ 31 ->
  (length (text s) < fuel)%nat ->
  exists r, int_parse fuel t Wrapping s = Done r /\ answer (text s) r.
Proof. exact (fun fuel t => parse_answers fuel t Wrapping). Qed.
Print Assumptions int_parse_always_answers.

(** Each text has one answer, so the statement above fixes the result. *)
Theorem answers_are_unique : forall bs r q, answer bs r -> answer bs q -> r = q.
Proof. exact answer_unique. Qed.
Print Assumptions answers_are_unique.

(** No multiplication, addition or subtraction of the parser leaves the range:
    on a machine that stopped at an overflow it would answer the same. *)
Theorem int_parse_never_overflows : forall fuel t s,
  Forall is_byte (text s) -> Z.of_nat (length (text s)) <= 2 ^ 31 ->
  (length (text s) < fuel)%nat ->
  int_parse fuel t Trapping s = int_parse fuel t Wrapping s.
Proof. exact no_overflow. Qed.
Print Assumptions int_parse_never_overflows.

(** Int::to_string gives every integer its canonical text. *)
Theorem int_to_string_is_canonical : forall fuel v, fits v -> (10 <= fuel)%nat ->
  exists s, int_to_string fuel v = Done s /\ canonical v (text s) /\ built s.
Proof. exact to_string_canonical. Qed.
Print Assumptions int_to_string_is_canonical.

Theorem canonical_texts_are_unique : forall v bs cs,
  canonical v bs -> canonical v cs -> bs = cs.
Proof. exact canonical_unique. Qed.
Print Assumptions canonical_texts_are_unique.

(** Parsing what was formatted gives the number back. *)
Theorem int_text_round_trip : forall fuel t v s, fits v -> (12 <= fuel)%nat ->
  int_to_string fuel v = Done s -> int_parse fuel t Wrapping s = Done (POk v).
Proof. exact (fun fuel t => text_round_trip fuel t Wrapping). Qed.
Print Assumptions int_text_round_trip.

(** Where the length does not fit 32 bits only a prefix is parsed. *)
Theorem huge_text_parsed_refuted : exists bs, Forall is_byte bs /\
  (forall n, int_parse (S (S n)) Native Wrapping (Leaf bs) = Done (POk 1)) /\
  ~ exists v, numeral bs v.
Proof. exact prefix_parsed. Qed.
Print Assumptions huge_text_parsed_refuted.

(** "-2147483648", "2147483648" and "007" as joined strings. *)
Example parse_minimum : int_parse 20 Native Wrapping
  (concat (Leaf [45; 50; 49; 52; 55]) (Leaf [52; 56; 51; 54; 52; 56])) = Done (POk (-2147483648)).
Proof. vm_compute. reflexivity. Qed.
Example parse_above : int_parse 20 Wasm Wrapping
  (Leaf [50; 49; 52; 55; 52; 56; 51; 54; 52; 56]) = Done (PError OutOfRange).
Proof. vm_compute. reflexivity. Qed.
Example parse_zeroes : int_parse 20 Native Wrapping (Leaf [43; 48; 48; 55]) = Done (POk 7).
Proof. vm_compute. reflexivity. Qed.
Example parse_space : int_parse 20 Native Wrapping (Leaf [32; 48]) = Done (PError InvalidSyntax).
Proof. vm_compute. reflexivity. Qed.
Example format_minimum : exists s, int_to_string 10 (-2147483648) = Done s /\
  text s = [45; 50; 49; 52; 55; 52; 56; 51; 54; 52; 56].
Proof. eexists. split; vm_compute; reflexivity. Qed.
