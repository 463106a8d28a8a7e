(** Printed types and attributes read back. *)
From Coq Require Import Lia DecimalPos DecimalFacts.
From Verif Require Export TextSpec.
Open Scope N_scope.

(** ** Characters *)
Lemma digit_spec : forall c, digit c = true <-> is_digit c.
Proof. intros. unfold digit, is_digit. rewrite andb_true_iff, !N.leb_le. tauto. Qed.
Lemma word_start_spec : forall c, word_start c = true <-> name_start c.
Proof. intros. unfold word_start, alpha, name_start. rewrite !orb_true_iff, !andb_true_iff, !N.leb_le, N.eqb_eq. tauto. Qed.
Lemma word_spec : forall c, word c = true <-> name_char c.
Proof. intros. unfold word, name_char. rewrite <- word_start_spec, <- digit_spec. unfold word_start. rewrite !orb_true_iff. tauto. Qed.
Lemma bare_spec : forall c, bare_char c = true <-> name_char c.
Proof. intros. unfold bare_char, name_char. rewrite <- word_start_spec, <- digit_spec. unfold word_start. rewrite !orb_true_iff. tauto. Qed.
Lemma space_spec : forall c, space c = true <-> blank c.
Proof. intros. unfold space, blank. rewrite !orb_true_iff, !N.eqb_eq. tauto. Qed.
Lemma not_true : forall b P, (b = true <-> P) -> ~ P -> b = false.
Proof. intros. destruct b; auto. exfalso. apply H0. apply H. reflexivity. Qed.
Lemma forallb_bare : forall s, forallb bare_char s = true <-> Forall name_char s.
Proof. intros. rewrite forallb_forall, Forall_forall. split; intros H x Hx; apply bare_spec; auto. Qed.
Lemma forallb_word : forall s, forallb word s = true <-> Forall name_char s.
Proof. intros. rewrite forallb_forall, Forall_forall. split; intros H x Hx; apply word_spec; auto. Qed.

(** ** Pieces of parsers *)
Lemma pbind_ok : forall A B (p : parser A) (f : A -> parser B) i a r, p i = Ok a r -> pbind p f i = f a r.
Proof. intros. unfold pbind. rewrite H. reflexivity. Qed.
Lemma pbind_fail : forall A B (p : parser A) (f : A -> parser B) i, p i = Fail -> pbind p f i = Fail.
Proof. intros. unfold pbind. rewrite H. reflexivity. Qed.
Lemma opt_ok : forall A (p : parser A) i a r, p i = Ok a r -> opt p i = Ok (Some a) r.
Proof. intros. unfold opt. rewrite H. reflexivity. Qed.
Lemma opt_fail : forall A (p : parser A) i, p i = Fail -> opt p i = Ok None i.
Proof. intros. unfold opt. rewrite H. reflexivity. Qed.
Lemma pmap_ok : forall A B (f : A -> B) (p : parser A) i a r, p i = Ok a r -> pmap f p i = Ok (f a) r.
Proof. intros. unfold pmap, pbind. rewrite H. reflexivity. Qed.
Lemma pmap_fail : forall A B (f : A -> B) (p : parser A) i, p i = Fail -> pmap f p i = Fail.
Proof. intros. unfold pmap, pbind. rewrite H. reflexivity. Qed.
Lemma orelse_ok : forall A (p q : parser A) i a r, p i = Ok a r -> orelse p q i = Ok a r.
Proof. intros. unfold orelse. rewrite H. reflexivity. Qed.
Lemma orelse_fail : forall A (p q : parser A) i, p i = Fail -> orelse p q i = q i.
Proof. intros. unfold orelse. rewrite H. reflexivity. Qed.
Lemma tok_ok : forall c r, tok c (c :: r) = Ok tt r.
Proof. intros. unfold tok. rewrite N.eqb_refl. reflexivity. Qed.
Lemma tok_fail : forall c i, not_first (fun x => x = c) i -> tok c i = Fail.
Proof.
  intros. destruct i as [|x i]; [reflexivity|]. unfold tok. destruct (N.eqb_spec x c); [|reflexivity]. exfalso. exact (H _ _ eq_refl e).
Qed.
Lemma tok_no : forall c x r, x <> c -> tok c (x :: r) = Fail.
Proof. intros. unfold tok. destruct (N.eqb_spec x c); [contradiction|reflexivity]. Qed.
Lemma word_ok : forall k r, word_lit k (k ++ r) = Ok tt r.
Proof. induction k; intros; [reflexivity|]. cbn [word_lit app]. rewrite (pbind_ok _ _ _ _ _ tt (k ++ r)) by apply tok_ok. apply IHk. Qed.
Lemma word_no : forall k i, (forall r, i <> k ++ r) -> word_lit k i = Fail.
Proof.
  induction k as [|c k IH]; intros; [exfalso; exact (H i eq_refl)|]. cbn [word_lit]. destruct i as [|x i]; [reflexivity|].
  destruct (N.eq_dec x c) as [->|D].
  - rewrite (pbind_ok _ _ _ _ _ tt i) by apply tok_ok. apply IH. intros r E. apply (H r). subst. reflexivity.
  - apply pbind_fail. apply tok_no. exact D.
Qed.
Lemma word_first : forall c k x i, x <> c -> word_lit (c :: k) (x :: i) = Fail.
Proof. intros. cbn [word_lit]. apply pbind_fail. apply tok_no. exact H. Qed.

Lemma span_all : forall f a rest, forallb f a = true -> (forall c r, rest = c :: r -> f c = false) -> span f (a ++ rest) = (a, rest).
Proof.
  induction a as [|x a IH]; intros; cbn.
  - destruct rest as [|c r]; [reflexivity|]. cbn. rewrite (H0 c r eq_refl). reflexivity.
  - cbn in H. apply andb_true_iff in H. destruct H. rewrite H. rewrite (IH rest) by auto. reflexivity.
Qed.
Lemma take1_all : forall f a rest, a <> [] -> forallb f a = true -> (forall c r, rest = c :: r -> f c = false) -> take_while1 f (a ++ rest) = Ok a rest.
Proof. intros. unfold take_while1. rewrite span_all by auto. destruct a; [contradiction|reflexivity]. Qed.
Lemma take1_none : forall f c r, f c = false -> take_while1 f (c :: r) = Fail.
Proof. intros. unfold take_while1. cbn. rewrite H. reflexivity. Qed.
Lemma take_all : forall f a rest, forallb f a = true -> (forall c r, rest = c :: r -> f c = false) -> take_while f (a ++ rest) = Ok a rest.
Proof. intros. unfold take_while. rewrite span_all by auto. reflexivity. Qed.

Lemma ws_none : forall i, not_first blank i -> ws i = Ok tt i.
Proof.
  intros. unfold ws. apply pmap_ok with (a := []). change i with ([] ++ i) at 1. apply take_all; [reflexivity|]. intros c r E.
  apply (not_true _ _ (space_spec c)). exact (H c r E).
Qed.
Lemma ws_space : forall i, not_first blank i -> ws (32 :: i) = Ok tt i.
Proof.
  intros. unfold ws. apply pmap_ok with (a := [32]). change (32 :: i) with ([32] ++ i) at 1. apply take_all; [reflexivity|]. intros c r E.
  apply (not_true _ _ (space_spec c)). exact (H c r E).
Qed.
Lemma nf_cons : forall (P : N -> Prop) c r, ~ P c -> not_first P (c :: r).
Proof. intros P c r H x y E. inversion E; subst. exact H. Qed.
Lemma nf_nil : forall (P : N -> Prop), not_first P [].
Proof. intros P x y E. discriminate. Qed.

Lemma start_bounds : forall c, name_start c -> 65 <= c <= 122.
Proof. intros c [H|[H|H]]; lia. Qed.
Lemma char_bounds : forall c, name_char c -> 48 <= c <= 122 /\ c <> 46 /\ c <> 58 /\ c <> 91.
Proof. intros c [[H|[H|H]]|H]; unfold is_digit in *; lia. Qed.
Lemma start_not_digit : forall c, name_start c -> ~ is_digit c.
Proof. intros c [H|[H|H]]; unfold is_digit; lia. Qed.

Lemma ident_ok : forall s rest, identifier s -> not_first name_char rest -> ident (s ++ rest) = Ok s rest.
Proof.
  intros s rest (c & l & -> & Hc & Hl) Hr. unfold ident. cbn [app].
  rewrite (pbind_ok _ _ _ _ _ c (l ++ rest)). 2: { unfold one_of. rewrite (proj2 (word_start_spec c) Hc). reflexivity. }
  rewrite (pbind_ok _ _ _ _ _ l rest). 2: { apply take_all. apply forallb_word; auto. intros x r E. apply (not_true _ _ (word_spec x)). eauto. }
  reflexivity.
Qed.
Lemma ident_no : forall c r, ~ name_start c -> ident (c :: r) = Fail.
Proof. intros. unfold ident. apply pbind_fail. unfold one_of. rewrite (not_true _ _ (word_start_spec c) H). reflexivity. Qed.
Lemma dot_not_word : forall r, not_first name_char (46 :: r).
Proof. intros. apply nf_cons. intros H. apply char_bounds in H. lia. Qed.
Lemma qualified_ok : forall d n rest, identifier d -> identifier n -> not_first name_char rest ->
  qualified_name (d ++ 46 :: n ++ rest) = Ok (d, n) rest.
Proof.
  intros. unfold qualified_name. rewrite (pbind_ok _ _ _ _ _ d (46 :: n ++ rest)) by (apply ident_ok; [auto|apply dot_not_word]).
  rewrite (pbind_ok _ _ _ _ _ tt (n ++ rest)) by apply tok_ok. rewrite (pbind_ok _ _ _ _ _ n rest) by (apply ident_ok; auto). reflexivity.
Qed.

(** ** Numbers *)
Lemma digits_all : forall d, Forall is_digit (digits_of d).
Proof. induction d; cbn; constructor; auto; unfold is_digit; lia. Qed.
Lemma write_uint_digits : forall n, Forall is_digit (write_uint n).
Proof. intros. apply digits_all. Qed.
Lemma of_uint_acc_digits : forall d a, fold_left (fun a c => 10 * a + (c - 48)) (digits_of d) (Npos a) = Npos (Pos.of_uint_acc d a).
Proof.
  induction d; intros a; cbn [digits_of fold_left Pos.of_uint_acc]; [reflexivity|..];
    match goal with |- fold_left _ _ ?x = Npos (Pos.of_uint_acc _ ?y) => replace x with (Npos y) by lia end; apply IHd.
Qed.
Lemma of_uint_digits : forall d, number (digits_of d) = N.of_uint d.
Proof.
  unfold number, N.of_uint. induction d; cbn [digits_of fold_left Pos.of_uint]; [reflexivity|..].
  1: exact IHd.
  all: match goal with |- fold_left _ _ ?x = Npos (Pos.of_uint_acc _ ?y) => replace x with (Npos y) by lia end; apply of_uint_acc_digits.
Qed.
Lemma number_write : forall n, number (write_uint n) = n.
Proof. intros. unfold write_uint. rewrite of_uint_digits. apply DecimalN.Unsigned.of_to. Qed.
Lemma to_uint_norm : forall n, N.to_uint n = Decimal.unorm (N.to_uint n).
Proof. intros. rewrite <- DecimalN.Unsigned.to_of. rewrite DecimalN.Unsigned.of_to. reflexivity. Qed.
Lemma nzhead_not_zero : forall d e, Decimal.nzhead d <> Decimal.D0 e.
Proof. induction d; cbn; intros; try discriminate. apply IHd. Qed.
Lemma write_uint_head : forall n, write_uint n = [48] \/ exists c l, write_uint n = c :: l /\ 49 <= c <= 57 /\ Forall is_digit l.
Proof.
  intros. unfold write_uint. rewrite to_uint_norm. unfold Decimal.unorm. pose proof (nzhead_not_zero (N.to_uint n)) as NZ.
  destruct (Decimal.nzhead (N.to_uint n)) eqn:E; cbn; [left; reflexivity| exfalso; exact (NZ _ eq_refl)|..];
    right; do 2 eexists; (split; [reflexivity|]); (split; [lia|]); apply digits_all.
Qed.
Lemma write_uint_cons : forall n, exists c l, write_uint n = c :: l /\ is_digit c /\ Forall is_digit l.
Proof.
  intros. destruct (write_uint_head n) as [H|(c & l & H & H1 & H2)]; rewrite H; do 2 eexists; (split; [reflexivity|]); unfold is_digit; split; auto; lia.
Qed.
Lemma digits_forallb : forall s, Forall is_digit s -> forallb digit s = true.
Proof. intros s H. apply forallb_forall. intros x Hx. apply digit_spec. rewrite Forall_forall in H. auto. Qed.
Lemma nf_digit : forall rest, not_first is_digit rest -> forall c r, rest = c :: r -> digit c = false.
Proof. intros. apply (not_true _ _ (digit_spec c)). eauto. Qed.
Lemma take_digits : forall s rest, numeral s -> not_first is_digit rest -> take_while1 digit (s ++ rest) = Ok s rest.
Proof. intros s rest (A & B) C. apply take1_all; auto. apply digits_forallb; auto. apply nf_digit; auto. Qed.
Lemma write_uint_numeral : forall n, numeral (write_uint n).
Proof. intros. split; [|apply write_uint_digits]. destruct (write_uint_cons n) as (c & l & H & _). rewrite H. discriminate. Qed.

Lemma minus_no : forall c l rest, is_digit c -> opt (tok (ch "-")) ((c :: l) ++ rest) = Ok None ((c :: l) ++ rest).
Proof. intros. apply opt_fail. cbn [app]. apply tok_no. unfold is_digit, ch in *. cbn. lia. Qed.
Lemma uint_minus : forall n rest, opt (tok (ch "-")) (write_uint n ++ rest) = Ok None (write_uint n ++ rest).
Proof. intros. destruct (write_uint_cons n) as (c & l & -> & H & _). apply minus_no. exact H. Qed.
Lemma integer_ok : forall z rest, (- 2 ^ 127 <= z < 2 ^ 127)%Z -> not_first is_digit rest -> integer_lit (write_int z ++ rest) = Ok z rest.
Proof.
  intros z rest Hz Hr. unfold integer_lit, write_int. destruct (Z.ltb_spec z 0).
  - cbn [app]. rewrite (pbind_ok _ _ _ _ _ (Some tt) (write_uint (Z.to_N (- z)) ++ rest)) by (apply opt_ok; apply tok_ok).
    rewrite (pbind_ok _ _ _ _ _ (write_uint (Z.to_N (- z))) rest) by (apply take_digits; auto; apply write_uint_numeral). rewrite number_write.
    destruct (N.leb_spec (2 ^ 128) (Z.to_N (- z))); [exfalso; lia|]. destruct (N.ltb_spec (2 ^ 127) (Z.to_N (- z))); [exfalso; lia|].
    unfold ret. f_equal. lia.
  - rewrite (pbind_ok _ _ _ _ _ None (write_uint (Z.to_N z) ++ rest)) by apply uint_minus.
    rewrite (pbind_ok _ _ _ _ _ (write_uint (Z.to_N z)) rest) by (apply take_digits; auto; apply write_uint_numeral). rewrite number_write.
    destruct (N.leb_spec (2 ^ 128) (Z.to_N z)); [exfalso; lia|]. destruct (N.leb_spec (2 ^ 127) (Z.to_N z)); [exfalso; lia|].
    unfold ret. f_equal. lia.
Qed.
Lemma dec_ok : forall n rest, n < 2 ^ 64 -> not_first is_digit rest -> dec_uint (write_uint n ++ rest) = Ok n rest.
Proof.
  intros n rest Hn Hr. unfold dec_uint.
  rewrite (pbind_ok _ _ _ _ _ (write_uint n) rest).
  - rewrite number_write. destruct (N.leb_spec (2 ^ 64) n); [exfalso; lia|]. reflexivity.
  - destruct (write_uint_head n) as [->|(c & l & -> & Hc & Hl)].
    + rewrite orelse_fail by reflexivity. reflexivity.
    + apply orelse_ok. cbn [app]. rewrite (pbind_ok _ _ _ _ _ c (l ++ rest)).
      2: { unfold one_of. rewrite (proj2 (digit_spec c)) by (unfold is_digit; lia). destruct (N.eqb_spec c 48); [exfalso; lia|]. reflexivity. }
      rewrite (pbind_ok _ _ _ _ _ l rest). reflexivity. apply take_all. apply digits_forallb; auto. apply nf_digit; auto.
Qed.

(** ** Escapes *)
Lemma hex_table : forallb (fun n => match hex2 (hex_digit (n / 16)) (hex_digit (n mod 16)) with Some m => m =? n | None => false end) (map N.of_nat (seq 0 256)) = true.
Proof. vm_compute. reflexivity. Qed.
Lemma hex_ok : forall n, n < 256 -> hex2 (hex_digit (n / 16)) (hex_digit (n mod 16)) = Some n.
Proof.
  intros. pose proof hex_table as T. rewrite forallb_forall in T. specialize (T n). destruct (hex2 _ _).
  - f_equal. apply N.eqb_eq. apply T. apply in_map_iff. exists (N.to_nat n). split; [lia|]. apply in_seq. lia.
  - exfalso. cut (false = true); [discriminate|]. apply T. apply in_map_iff. exists (N.to_nat n). split; [lia|]. apply in_seq. lia.
Qed.
Definition prefix (s : text) (x : result text) : result text := match x with Ok l r => Ok (s ++ l) r | Fail => Fail | Out => Out end.
Lemma string_char : forall c i, string_body (escape_char c ++ i) = prefix [c] (string_body i).
Proof.
  intros. unfold escape_char.
  destruct (N.eqb_spec c 92); [subst; reflexivity|]. destruct (N.eqb_spec c 34); [subst; reflexivity|].
  destruct (N.eqb_spec c 10); [subst; reflexivity|]. destruct (N.eqb_spec c 9); [subst; reflexivity|].
  destruct (N.eqb_spec c 13); [subst; reflexivity|]. destruct (N.eqb_spec c 0); [subst; reflexivity|].
  destruct (control_char c) eqn:E.
  - unfold write_hex. cbn [app]. cbn [string_body]. change (92 =? 34) with false. change (92 =? 92) with true. cbn iota.
    change (120 =? 34) with false. change (120 =? 92) with false. change (120 =? 110) with false. change (120 =? 116) with false.
    change (120 =? 114) with false. change (120 =? 48) with false. change (120 =? 120) with true. cbn iota.
    rewrite hex_ok. reflexivity. unfold control_char in E. apply orb_true_iff in E. rewrite andb_true_iff, !N.ltb_lt, N.leb_le in E. lia.
  - cbn [app string_body]. destruct (N.eqb_spec c 34); [contradiction|]. destruct (N.eqb_spec c 92); [contradiction|].
    destruct (string_body i); reflexivity.
Qed.
Lemma string_ok : forall s rest, string_body (escape s ++ 34 :: rest) = Ok s rest.
Proof.
  induction s as [|c s IH]; intros; [reflexivity|]. cbn [escape flat_map]. rewrite <- app_assoc. rewrite string_char. fold (escape s). rewrite IH. reflexivity.
Qed.
Lemma string_lit_ok : forall s rest, string_lit (quote s ++ rest) = Ok s rest.
Proof.
  intros. unfold string_lit, quote. cbn [app]. rewrite <- app_assoc. cbn [app]. rewrite (pbind_ok _ _ _ _ _ tt (escape s ++ 34 :: rest)) by apply tok_ok.
  apply string_ok.
Qed.
Lemma bytes_char : forall c i, c < 256 -> bytes_content (escape_byte c ++ i) = (c :: fst (bytes_content i), snd (bytes_content i)).
Proof.
  intros c i Hc. unfold escape_byte.
  destruct (N.eqb_spec c 92); [subst; cbn; destruct (bytes_content i); reflexivity|].
  destruct (N.eqb_spec c 34); [subst; cbn; destruct (bytes_content i); reflexivity|].
  destruct (N.eqb_spec c 10); [subst; cbn; destruct (bytes_content i); reflexivity|].
  destruct (N.eqb_spec c 9); [subst; cbn; destruct (bytes_content i); reflexivity|].
  destruct (N.eqb_spec c 13); [subst; cbn; destruct (bytes_content i); reflexivity|].
  destruct (N.eqb_spec c 0); [subst; cbn; destruct (bytes_content i); reflexivity|].
  destruct ((32 <=? c) && (c <=? 126)) eqn:E.
  - apply andb_true_iff in E. rewrite !N.leb_le in E. cbn [app bytes_content]. destruct (N.eqb_spec c 34); [contradiction|]. destruct (N.eqb_spec c 92); [contradiction|].
    unfold utf8. destruct (N.ltb_spec c 128); [|exfalso; lia]. destruct (bytes_content i). reflexivity.
  - unfold write_hex. cbn [app]. cbn [bytes_content]. change (92 =? 34) with false. change (92 =? 92) with true. cbn iota.
    change (120 =? 34) with false. change (120 =? 92) with false. change (120 =? 110) with false. change (120 =? 116) with false.
    change (120 =? 114) with false. change (120 =? 48) with false. change (120 =? 120) with true. cbn iota.
    rewrite hex_ok by exact Hc. destruct (bytes_content i). reflexivity.
Qed.
Lemma bytes_ok : forall l rest, Forall (fun b => b < 256) l -> bytes_content (escape_bytes l ++ 34 :: rest) = (l, 34 :: rest).
Proof.
  induction l as [|c l IH]; intros rest H; [reflexivity|]. inversion H; subst. cbn [escape_bytes flat_map]. rewrite <- app_assoc. rewrite bytes_char by auto.
  fold (escape_bytes l). rewrite IH by auto. reflexivity.
Qed.
Lemma bytes_lit_ok : forall l rest, Forall (fun b => b < 256) l -> bytes_lit (ch "b" :: 34 :: escape_bytes l ++ [34] ++ rest) = Ok (Bytes l) rest.
Proof.
  intros. unfold bytes_lit. rewrite (pbind_ok _ _ _ _ _ tt (34 :: escape_bytes l ++ [34] ++ rest)) by apply tok_ok.
  rewrite (pbind_ok _ _ _ _ _ tt (escape_bytes l ++ [34] ++ rest)) by apply tok_ok.
  rewrite (pbind_ok _ _ _ _ _ l (34 :: rest)). 2: { cbn [app]. rewrite bytes_ok by auto. reflexivity. }
  rewrite (pbind_ok _ _ _ _ _ tt rest) by apply tok_ok. reflexivity.
Qed.

(** ** Names *)
Lemma quoting_false : forall s, needs_quoting s = false -> s <> [] /\ Forall name_char s.
Proof.
  intros. unfold needs_quoting in H. destruct s; [discriminate|]. split; [discriminate|]. apply forallb_bare. apply negb_false_iff. exact H.
Qed.
Lemma starts_char : forall c l rest, name_char c -> starts 34 ((c :: l) ++ rest) = false.
Proof. intros. cbn. apply N.eqb_neq. apply char_bounds in H. lia. Qed.
Lemma symbol_ok : forall s rest, not_first name_char rest -> symbol_ref (write_symbol s ++ rest) = Ok s rest.
Proof.
  intros. unfold symbol_ref, write_symbol. cbn [app]. rewrite (pbind_ok _ _ _ _ _ tt ((if needs_quoting s then quote s else s) ++ rest)) by apply tok_ok.
  destruct (needs_quoting s) eqn:E.
  - replace (starts 34 (quote s ++ rest)) with true by reflexivity. apply string_lit_ok.
  - apply quoting_false in E. destruct E as (E & F). destruct s as [|c l]; [contradiction|]. rewrite starts_char by (inversion F; auto).
    apply take1_all; auto. apply forallb_word; auto. intros x r Ex. apply (not_true _ _ (word_spec x)). eauto.
Qed.
Lemma alias_ok : forall s rest, alias_name s -> not_first name_char rest -> type_alias_ref (write_alias_name s ++ rest) = Ok (Alias s) rest.
Proof.
  intros. unfold type_alias_ref, write_alias_name, type_alias_name. cbn [app].
  rewrite (pbind_ok _ _ _ _ _ tt ((if needs_quoting s then quote s else s) ++ rest)) by apply tok_ok.
  rewrite (pbind_ok _ _ _ _ _ s rest); [reflexivity|].
  destruct (needs_quoting s) eqn:E.
  - replace (starts 34 (quote s ++ rest)) with true by reflexivity. apply string_lit_ok.
  - apply quoting_false in E. destruct E as (E & F). destruct s as [|c l]; [contradiction|]. rewrite starts_char by (inversion F; auto).
    apply ident_ok; auto. exists c, l. split; [reflexivity|]. split. exact (H c l eq_refl F). inversion F; auto.
Qed.
Lemma segments_word : forall s cur, Forall name_char s -> segments cur s = [rev cur ++ s].
Proof.
  induction s as [|c s IH]; intros cur H; cbn; [rewrite app_nil_r; reflexivity|]. inversion H; subst. destruct (N.eqb_spec c 46).
  - apply char_bounds in H2. lia.
  - rewrite IH by auto. cbn. rewrite <- app_assoc. reflexivity.
Qed.
Lemma segments_dot : forall s cur k, Forall name_char s -> segments cur (s ++ 46 :: k) = (rev cur ++ s) :: segments [] k.
Proof.
  induction s as [|c s IH]; intros cur k H; cbn; [rewrite app_nil_r; reflexivity|]. inversion H; subst. destruct (N.eqb_spec c 46).
  - apply char_bounds in H2. lia.
  - rewrite IH by auto. cbn. rewrite <- app_assoc. reflexivity.
Qed.
Lemma identifier_chars : forall s, identifier s -> Forall name_char s.
Proof. intros s (c & l & -> & Hc & Hl). constructor; auto. left; auto. Qed.
Lemma identifier_bool : forall s, identifier s -> is_ident s = true.
Proof. intros s (c & l & -> & Hc & Hl). cbn. rewrite (proj2 (word_start_spec c) Hc). apply forallb_word. auto. Qed.
Lemma dotted_segments : forall k, dotted k -> forallb is_ident (segments [] k) = true.
Proof.
  induction 1.
  - rewrite segments_word by (apply identifier_chars; auto). cbn. rewrite (identifier_bool s) by auto. reflexivity.
  - change (s ++ lit "." ++ k) with (s ++ 46 :: k). rewrite segments_dot by (apply identifier_chars; auto). cbn [rev app forallb]. rewrite (identifier_bool s) by auto. exact IHdotted.
Qed.
Lemma dotted_chars : forall k, dotted k -> k <> [] /\ Forall (fun c => name_char c \/ c = 46) k.
Proof.
  induction 1.
  - split. destruct H as (c & l & -> & _). discriminate. eapply Forall_impl; [|apply identifier_chars; eauto]. auto.
  - split. destruct H as (c & l & -> & _). discriminate. apply Forall_app. split. eapply Forall_impl; [|apply identifier_chars; eauto]. auto.
    cbn. constructor; [right; reflexivity|]. apply IHdotted.
Qed.
Lemma key_ok : forall k rest, dotted k -> not_first (fun c => name_char c \/ c = 46) rest -> attribute_key (k ++ rest) = Ok k rest.
Proof.
  intros. unfold attribute_key. destruct (dotted_chars k H) as (A & B).
  rewrite (pbind_ok _ _ _ _ _ k rest). rewrite dotted_segments by auto. reflexivity.
  apply take1_all; auto.
  - apply forallb_forall. intros x Hx. rewrite Forall_forall in B. destruct (B x Hx) as [D| ->]; [|reflexivity]. rewrite (proj2 (word_spec x) D). reflexivity.
  - intros c r E. specialize (H0 c r E). apply orb_false_iff. split. apply (not_true _ _ (word_spec c)); auto. apply N.eqb_neq. auto.
Qed.
Lemma key_start : forall k, dotted k -> exists c l, k = c :: l /\ name_start c.
Proof. induction 1; destruct H as (c & l & -> & Hc & _); do 2 eexists; (split; [reflexivity|exact Hc]). Qed.
