(** C62: strings are their text, whatever their shape; C63: reading and slicing bytes. *)
From Verif Require Import PreludeSpec PreludeIntProofs PreludeRopeProofs.
Local Open Scope Z_scope.

(** The length of a string is the length of its text, modulo 2^32. *)
Theorem string_len_is_text_length : forall s, built s ->
  rope_len s = Z.of_nat (length (text s)) mod 2 ^ 32.
Proof. exact built_len. Qed.
Print Assumptions string_len_is_text_length.

(** Flattening gives the text, and joining joins the texts. *)
Theorem to_bytes_is_text : forall s, to_bytes s = text s.
Proof. exact to_bytes_text. Qed.
Print Assumptions to_bytes_is_text.

(** (==) holds exactly for equal texts, takes no more steps than there are
    nodes, and neither traps nor reads outside of the bytes. *)
Theorem string_equality_is_text_equality : forall fuel t l r, built l -> built r ->
  (nodes l + nodes r < fuel)%nat ->
  exists b, string_eq fuel t l r = Done b /\ (b = true <-> text l = text r).
Proof. exact string_eq_ok. Qed.
Print Assumptions string_equality_is_text_equality.

Theorem string_inequality_is_text_inequality : forall fuel t l r, built l -> built r ->
  (nodes l + nodes r < fuel)%nat ->
  exists b, string_ne fuel t l r = Done b /\ (b = true <-> text l <> text r).
Proof. exact string_ne_ok. Qed.
Print Assumptions string_inequality_is_text_inequality.

(** Byte sequences whose length does not fit 32 bits compare as shorter ones. *)
Theorem huge_strings_equal_refuted : exists bs, Forall is_byte bs /\ bs <> [] /\
  forall fuel, string_eq fuel Native (from_bytes bs) rope_empty = Done true.
Proof. exact huge_equal. Qed.
Print Assumptions huge_strings_equal_refuted.

(** Bytes::get finds the byte at an index within the length, and None past it. *)
Theorem bytes_get_partial : forall t bs i b,
  Forall is_byte bs -> Z.of_nat (length bs) <= 2 ^ 31 -> 0 <= i < 2 ^ 32 ->
  nth_error bs (Z.to_nat i) = Some b -> (t = Wasm \/ b < 128) ->
  bytes_get t bs i = Done (Some b).
Proof. exact get_ok. Qed.
Print Assumptions bytes_get_partial.

Theorem bytes_get_past_end : forall t bs i,
  Z.of_nat (length bs) < 2 ^ 32 -> Z.of_nat (length bs) <= i ->
  bytes_get t bs i = Done None.
Proof. exact get_past. Qed.
Print Assumptions bytes_get_past_end.

(** On Wasm, get_or_panic stops the program past the end. *)
Theorem get_panics_on_wasm : forall bs i, Z.of_nat (length bs) <= i ->
  get_or_panic Wasm bs i = Trap.
Proof. exact wasm_panics. Qed.
Print Assumptions get_panics_on_wasm.

(** Native code never panics: past the end it reads memory of something else. *)
Theorem native_get_reads_past_the_end : forall bs i, 0 <= i < 2 ^ 32 ->
  Z.of_nat (length bs) <= i -> get_or_panic Native bs i = Wild.
Proof. exact native_strays. Qed.
Print Assumptions native_get_reads_past_the_end.

Theorem get_or_panic_native_refuted : exists bs i, 0 <= i < 2 ^ 32 /\ Z.of_nat (length bs) <= i /\ get_or_panic Native bs i <> Trap.
Proof. exact native_no_panic. Qed.
Print Assumptions get_or_panic_native_refuted.

(** Native code sign-extends the byte it reads. *)
Theorem get_high_byte_refuted : exists bs i, Forall is_byte bs /\
  nth_error bs (Z.to_nat i) = Some 255 /\ bytes_get Native bs i = Done (Some 4294967295).
Proof.
  exact high_byte.
Qed.
Print Assumptions get_high_byte_refuted.

(** Native code sign-extends the index, too. *)
Theorem get_far_index_refuted : exists bs i b, Forall is_byte bs /\
  Z.of_nat (length bs) < 2 ^ 32 /\ nth_error bs (Z.to_nat i) = Some b /\ 0 <= i < 2 ^ 32 /\
  bytes_get Native bs i = Wild.
Proof. exact native_far. Qed.
Print Assumptions get_far_index_refuted.

(** Bytes::slice clamps its bounds and never stops the program. *)
Theorem bytes_slice_clamps : forall bs s e,
  Z.of_nat (length bs) < 2 ^ 32 -> 0 <= s -> 0 <= e ->
  bytes_slice bs s e = Done (clamped bs s e).
Proof. exact slice_ok. Qed.
Print Assumptions bytes_slice_clamps.

Theorem slice_or_panic_panics : forall bs s e,
  slice_or_panic bs s e = Trap <-> (e < s \/ Z.of_nat (length bs) < e).
Proof. exact slice_panics. Qed.
Print Assumptions slice_or_panic_panics.

(** "ab" joined with "" and "c" equals "a" joined with "bc", but not "a" with "bd". *)
Definition left_shape := concat (concat (Leaf [97; 98]) (Leaf [])) (Leaf [99]).
Definition right_shape := concat (Leaf [97]) (Leaf [98; 99]).
Definition other_text := concat (Leaf [97]) (Leaf [98; 100]).
Example shapes_built : built left_shape /\ built right_shape /\ built other_text.
Proof.
  repeat split; repeat (apply built_join || (apply built_bytes; split;
    [repeat (apply Forall_cons || apply Forall_nil); unfold is_byte; split; discriminate|reflexivity])).
Qed.
Example shapes_equal : string_eq 10 Native left_shape right_shape = Done true /\
  string_eq 10 Wasm left_shape right_shape = Done true /\
  string_eq 10 Native left_shape other_text = Done false /\ rope_len left_shape = 3.
Proof. vm_compute. auto. Qed.
Example get_ex : bytes_get Native [104; 105] 1 = Done (Some 105) /\
  bytes_get Wasm [104; 200] 1 = Done (Some 200) /\ bytes_get Native [104] 7 = Done None.
Proof. vm_compute. auto. Qed.
Example slice_ex : bytes_slice [1; 2; 3; 4] 1 9 = Done [2; 3; 4] /\
  bytes_slice [1; 2; 3; 4] 3 1 = Done [] /\ bytes_slice [1; 2; 3; 4] 8 9 = Done [].
Proof. vm_compute. auto. Qed.
