(** Text, bytes and runes. *)
From Verif Require Import LiteralModel LiteralSpec LiteralProofs.
Local Open Scope list_scope.

(** * Escape sequences *)
Lemma hex_all r : r = 16%N -> forall cs ds, Forall2 digit cs ds -> Forall2 (fun c d => digit c d /\ (d < r)%N) cs ds.
Proof.
  intros -> cs ds F. induction F as [|c d cs ds D F IH]; constructor; [|exact IH].
  split; [exact D|]. apply digit_range in D. tauto.
Qed.
Lemma hex_byte h1 h2 a b : digit h1 a -> digit h2 b -> from_str_radix u8_values 16 [h1; h2] = Some (a * 16 + b)%N.
Proof.
  intros A B. rewrite (from_radix_ok u8_values 16 [h1; h2] [a; b]);
    [|lia|apply hex_all; [reflexivity|repeat constructor; assumption]|discriminate|reflexivity].
  apply digit_range in A as [_ A], B as [_ B].
  assert (V : value 16 [a; b] = (a * 16 + b)%N).
  { cbn [value List.length]. change (N.of_nat 1) with 1%N. change (N.of_nat 0) with 0%N.
    rewrite N.pow_1_r, N.pow_0_r. lia. }
  rewrite V. unfold u8_values. destruct (N.ltb_spec (a * 16 + b) 256); [reflexivity|lia].
Qed.
Lemma value4 a b c d : value 16 [a; b; c; d] = (a * 4096 + b * 256 + c * 16 + d)%N.
Proof.
  cbn [value List.length]. change (16 ^ N.of_nat 3)%N with 4096%N. change (16 ^ N.of_nat 2)%N with 256%N.
  change (16 ^ N.of_nat 1)%N with 16%N. change (16 ^ N.of_nat 0)%N with 1%N. lia.
Qed.
Lemma hex_code h1 h2 h3 h4 a b c d : digit h1 a -> digit h2 b -> digit h3 c -> digit h4 d ->
  from_str_radix u32_values 16 [h1; h2; h3; h4] = Some (value 16 [a; b; c; d]).
Proof.
  intros A B C D. rewrite (from_radix_ok u32_values 16 [h1; h2; h3; h4] [a; b; c; d]);
    [|lia|apply hex_all; [reflexivity|repeat constructor; assumption]|discriminate|reflexivity].
  apply digit_range in A as [_ A], B as [_ B], C as [_ C], D as [_ D]. rewrite value4.
  unfold u32_values. change (2 ^ 32)%N with 4294967296%N.
  destruct (N.ltb_spec (a * 4096 + b * 256 + c * 16 + d) 4294967296); [reflexivity|lia].
Qed.
Lemma from_u32_scalar n : scalar n -> from_u32 n = Some n.
Proof.
  unfold scalar, from_u32. intros S.
  destruct (N.ltb_spec n 55296), (N.leb_spec 57344 n), (N.ltb_spec n 1114112); cbn; try reflexivity; lia.
Qed.
Lemma from_u32_not n : ~ scalar n -> from_u32 n = None.
Proof.
  unfold scalar, from_u32. intros S.
  destruct (N.ltb_spec n 55296), (N.leb_spec 57344 n), (N.ltb_spec n 1114112); cbn; try reflexivity; lia.
Qed.

Lemma copied w r : Forall (fun b => b <> ch "\") w -> process_escape_sequences (w ++ r) = w ++ process_escape_sequences r.
Proof.
  induction 1 as [|b w B F IH]; [reflexivity|]. cbn [app process_escape_sequences].
  destruct (N.eqb_spec b (ch "\")); [contradiction|]. cbn [negb]. rewrite IH. reflexivity.
Qed.
Lemma slash : ch "\" = 92%N.
Proof. reflexivity. Qed.
Lemma utf8_plain c : c <> ch "\" -> Forall (fun b => b <> ch "\") (utf8 c).
Proof.
  rewrite slash. intros C. unfold utf8.
  destruct (N.leb_spec c 127); [repeat constructor; exact C|].
  destruct (N.leb_spec c 2047); [repeat constructor; lia|].
  destruct (N.leb_spec c 65535); repeat constructor; lia.
Qed.
Lemma ascii_bytes cs : Forall (fun c => (c < 128)%N) cs -> as_bytes cs = cs.
Proof.
  induction 1 as [|c cs C F IH]; [reflexivity|]. unfold as_bytes in *. cbn [flat_map]. rewrite IH.
  unfold encode_utf8. destruct (N.ltb_spec c 128); [reflexivity|lia].
Qed.
Lemma digit_ascii c d : digit c d -> (c < 128)%N.
Proof. intros D. apply digit_range in D. lia. Qed.

Lemma esc_simple e c r : In (e, c) escapes ->
  process_escape_sequences (as_bytes (written (Escape e)) ++ r) = c :: process_escape_sequences r.
Proof.
  intros I. cbn [escapes In] in I.
  repeat match goal with H : _ \/ _ |- _ => destruct H as [H|H] | H : False |- _ => destruct H end; inv I; reflexivity.
Qed.
Lemma esc_byte h1 h2 a b r : digit h1 a -> digit h2 b ->
  process_escape_sequences (as_bytes (written (Byte h1 h2)) ++ r) = (a * 16 + b)%N :: process_escape_sequences r.
Proof.
  intros A B. rewrite ascii_bytes
    by (cbn [written]; repeat constructor; try (apply (digit_ascii _ _ A)); apply (digit_ascii _ _ B)).
  transitivity (match from_str_radix u8_values 16 [h1; h2] with Some b => b | None => 0%N end :: process_escape_sequences r).
  - reflexivity.
  - rewrite (hex_byte _ _ _ _ A B). reflexivity.
Qed.
Lemma esc_code h1 h2 h3 h4 a b c d r : digit h1 a -> digit h2 b -> digit h3 c -> digit h4 d ->
  process_escape_sequences (as_bytes (written (Code h1 h2 h3 h4)) ++ r) =
    match from_u32 (value 16 [a; b; c; d]) with Some k => utf8 k | None => [] end ++ process_escape_sequences r.
Proof.
  intros A B C D. rewrite ascii_bytes
    by (cbn [written]; repeat constructor; try (apply (digit_ascii _ _ A)); try (apply (digit_ascii _ _ B));
        try (apply (digit_ascii _ _ C)); apply (digit_ascii _ _ D)).
  transitivity (match from_str_radix u32_values 16 [h1; h2; h3; h4] with
                | Some n => match from_u32 n with Some k => encode_utf8 k | None => [] end
                | None => [] end ++ process_escape_sequences r).
  - reflexivity.
  - rewrite (hex_code _ _ _ _ _ _ _ _ A B C D). destruct (from_u32 _); [rewrite encode_same|]; reflexivity.
Qed.
Lemma esc_piece p l r : means_bytes p l ->
  process_escape_sequences (as_bytes (written p) ++ r) = l ++ process_escape_sequences r.
Proof.
  intros [q cs M|h1 h2 a b A B]; [|exact (esc_byte _ _ _ _ _ A B)].
  destruct M as [c S NB NQ|e c I|h1 h2 a b A B L|h1 h2 h3 h4 a b c d A B C D S].
  - cbn [written flat_map]. rewrite app_nil_r. unfold as_bytes. cbn [flat_map]. rewrite app_nil_r, encode_same.
    apply copied, utf8_plain, NB.
  - rewrite (esc_simple _ _ _ I). cbn [flat_map]. rewrite app_nil_r.
    cbn [escapes In] in I.
    repeat match goal with H : _ \/ _ |- _ => destruct H as [H|H] | H : False |- _ => destruct H end; inv I; reflexivity.
  - rewrite (esc_byte _ _ _ _ _ A B). cbn [flat_map]. unfold utf8. destruct (N.leb_spec (a * 16 + b) 127); [reflexivity|lia].
  - rewrite (esc_code _ _ _ _ _ _ _ _ _ A B C D), from_u32_scalar by exact S. cbn [flat_map].
    rewrite app_nil_r. reflexivity.
Qed.
Lemma escaped ps bs : all_mean means_bytes ps bs -> process_escape_sequences (as_bytes (text_of ps)) = bs.
Proof.
  intros (ls & F & ->). induction F as [|p l ps ls M F IH]; [reflexivity|].
  unfold text_of, as_bytes in *. cbn [flat_map]. rewrite flat_map_app.
  change (flat_map encode_utf8 (written p)) with (as_bytes (written p)). rewrite (esc_piece _ _ _ M), IH. reflexivity.
Qed.
Lemma means_scalar p cs : means p cs -> Forall scalar cs.
Proof.
  intros [c S NB NQ|e c I|h1 h2 a b A B L|h1 h2 h3 h4 a b c d A B C D S]; try (constructor; [exact S|constructor]).
  - cbn [escapes In] in I. unfold scalar.
    repeat match goal with H : _ \/ _ |- _ => destruct H as [H|H] | H : False |- _ => destruct H end; inv I;
      repeat constructor; cbv; auto.
  - repeat constructor. unfold scalar. lia.
Qed.
Lemma means_all ps cs : all_mean means ps cs -> all_mean means_bytes ps (flat_map utf8 cs) /\ Forall scalar cs.
Proof.
  intros (ls & F & ->). split.
  - exists (map (flat_map utf8) ls). split.
    + induction F; cbn; constructor; [constructor; assumption|assumption].
    + clear F. induction ls; cbn; [reflexivity|]. rewrite flat_map_app, IHls. reflexivity.
  - induction F as [|p l ps ls M F IH]; cbn; [constructor|]. apply Forall_app. split; [exact (means_scalar _ _ M)|exact IH].
Qed.

(** * Quotes and fences *)
Lemma trim_quoted a m : whitespace a = false -> trim (a :: m ++ [34%N]) = a :: m ++ [34%N].
Proof. intros A. apply trim_ends; [exact A|reflexivity]. Qed.

Lemma get_body P Q body R n m : n = len P + len Q -> m = len P + len Q + len body ->
  get (P ++ Q ++ body ++ R) n m = Some body.
Proof. intros -> ->. rewrite (app_assoc P Q). apply get_mid; rewrite len_app; reflexivity. Qed.

Lemma string_quoted pre body : In pre ["" ; "s"]%string ->
  parse_string_literal (quoted pre body) = from_utf8 (process_escape_sequences (as_bytes body)).
Proof.
  intros I. assert (T : trim (quoted pre body) = quoted pre body).
  { unfold quoted. cbn [In] in I. destruct I as [<-|[<-|[]]].
    - apply (trim_quoted 34 body). reflexivity.
    - apply (trim_quoted 115 (34%N :: body)). reflexivity. }
  unfold parse_string_literal. rewrite T. cbv zeta.
  assert (L : len (quoted pre body) - 1 = len (lit pre) + len [34%N] + len body).
  { unfold quoted. change (34%N :: body ++ [34%N]) with ([34%N] ++ body ++ [34%N]). rewrite !len_app.
    change (len [34%N]) with 1. lia. }
  assert (G1 : get (quoted pre body) (len (lit pre)) (len (lit pre) + 1) = Some [34%N]).
  { unfold quoted. apply (get_mid (lit pre) [34%N] (body ++ [34%N])); reflexivity. }
  assert (G2 : get (quoted pre body) (len (lit pre) + 1) (len (quoted pre body) - 1) = Some body).
  { rewrite L. apply (get_body (lit pre) [34%N] body [34%N]); reflexivity. }
  cbn [In] in I. destruct I as [<-|[<-|[]]].
  - change (len (lit "")) with 0 in *. cbn [Nat.add] in *.
    change (starts_with (lit "rs") (quoted "" body) || starts_with (lit "sr") (quoted "" body)) with false.
    change (starts_with (lit "r") (quoted "" body)) with false.
    change (starts_with (lit "s") (quoted "" body)) with false.
    cbv iota beta. change (0 <? 0) with false. cbv iota. cbn [Nat.add]. rewrite G1, G2. reflexivity.
  - change (len (lit "s")) with 1 in *. cbn [Nat.add] in *.
    change (starts_with (lit "rs") (quoted "s" body) || starts_with (lit "sr") (quoted "s" body)) with false.
    change (starts_with (lit "r") (quoted "s" body)) with false.
    change (starts_with (lit "s") (quoted "s" body)) with true.
    cbv iota beta. change (0 <? 0) with false. cbv iota. cbn [Nat.add]. rewrite G1, G2. reflexivity.
Qed.

Lemma hashes_counted n r : count_hashes (repeat (ch "#") n ++ 34%N :: r) = n.
Proof. induction n; cbn [repeat app count_hashes]; [reflexivity|]. rewrite N.eqb_refl, IHn. reflexivity. Qed.

Lemma hashed_body P n body k : k = len P ->
  hashed (P ++ repeat (ch "#") n ++ 34%N :: body ++ 34%N :: repeat (ch "#") n) k n = body.
Proof.
  intros ->. set (H := repeat (ch "#") n). unfold hashed. cbv zeta.
  assert (LH : len H = n) by apply len_repeat.
  assert (SH : P ++ H ++ 34%N :: body ++ 34%N :: H = (P ++ H) ++ [34%N] ++ body ++ 34%N :: H)
    by (rewrite <- app_assoc; reflexivity).
  rewrite SH. clear SH.
  assert (LPH : len (P ++ H) = len P + n) by (rewrite len_app; lia).
  rewrite (get_mid (P ++ H) [34%N] (body ++ 34%N :: H)) by (rewrite LPH; reflexivity).
  assert (LT : len ((P ++ H) ++ [34%N] ++ body ++ 34%N :: H) - (1 + n) = len P + n + 1 + len body).
  { rewrite !len_app, !len_cons. change (width 34) with 1. change (len []) with 0. lia. }
  rewrite LT. destruct (Nat.leb_spec (len P + n + 1 + len body) (len P + n + 1)) as [E|E].
  - destruct body as [|c body]; [reflexivity|]. rewrite len_cons in E. pose proof (width_pos c). lia.
  - replace ((P ++ H) ++ [34%N] ++ body ++ 34%N :: H) with (((P ++ H) ++ [34%N] ++ body) ++ 34%N :: H)
      by (rewrite <- !app_assoc; reflexivity).
    rewrite get_from_app by (rewrite !len_app; change (len [34%N]) with 1; lia).
    destruct (list_eq_dec N.eq_dec (34%N :: H) (34%N :: repeat (ch "#") n)) as [_|X]; [|exfalso; apply X; reflexivity].
    replace (((P ++ H) ++ [34%N] ++ body) ++ 34%N :: H) with ((P ++ H) ++ [34%N] ++ body ++ 34%N :: H)
      by (rewrite <- !app_assoc; reflexivity).
    rewrite (get_body (P ++ H) [34%N] body (34%N :: H)); [reflexivity|rewrite LPH; reflexivity|rewrite LPH; reflexivity].
Qed.

Lemma trim_fenced p pre n body : whitespace p = false ->
  trim (p :: pre ++ repeat (ch "#") n ++ 34%N :: body ++ 34%N :: repeat (ch "#") n) =
  p :: pre ++ repeat (ch "#") n ++ 34%N :: body ++ 34%N :: repeat (ch "#") n.
Proof.
  intros W. destruct n as [|n].
  - cbn [repeat app]. replace (p :: pre ++ 34%N :: body ++ [34%N]) with (p :: (pre ++ 34%N :: body) ++ [34%N])
      by (rewrite <- app_assoc; reflexivity). apply trim_quoted, W.
  - assert (S : repeat (ch "#") (S n) = repeat (ch "#") n ++ [ch "#"]) by apply repeat_cons.
    assert (E : forall x y : list N, pre ++ x ++ 34%N :: body ++ 34%N :: y ++ [ch "#"] = (pre ++ x ++ 34%N :: body ++ 34%N :: y) ++ [ch "#"])
      by (intros x y; rewrite <- !app_assoc; cbn [app]; rewrite <- app_assoc; reflexivity).
    rewrite S at 2 4. rewrite E. apply trim_ends; [exact W|reflexivity].
Qed.

Lemma trim_raw pre n body : In pre ["r"; "rs"; "sr"; "rb"; "br"; "b"; "s"]%string -> trim (fenced pre n body) = fenced pre n body.
Proof.
  intros I. unfold fenced. cbn [In] in I.
  destruct I as [<-|[<-|[<-|[<-|[<-|[<-|[<-|[]]]]]]]];
    match goal with |- context [lit (String ?a ?s)] => apply (trim_fenced (N_of_ascii a) (lit s)); reflexivity end.
Qed.
Lemma quoted_fenced pre body : quoted pre body = fenced pre 0 body.
Proof. reflexivity. Qed.

Lemma raw_parts pre n body :
  len (fenced pre n body) = len (lit pre) + n + 1 + len body + 1 + n.
Proof. unfold fenced. rewrite !len_app, !len_cons, len_app, len_cons, !len_repeat. change (width 34) with 1. lia. Qed.

Lemma raw_zero pre body k : k = len (lit pre) ->
  get (fenced pre 0 body) k (k + 1) = Some [34%N] /\
  get (fenced pre 0 body) (k + 1) (len (fenced pre 0 body) - 1) = Some body.
Proof.
  intros ->. split.
  - apply (get_mid (lit pre) [34%N] (body ++ [34%N])); reflexivity.
  - rewrite raw_parts. apply (get_body (lit pre) [34%N] body [34%N]); [reflexivity|]. change (len [34%N]) with 1. lia.
Qed.

Lemma string_raw pre n body : In pre ["r"; "rs"; "sr"]%string -> parse_string_literal (fenced pre n body) = Some body.
Proof.
  intros I. unfold parse_string_literal. rewrite trim_raw by (cbn [In] in *; tauto). cbv zeta.
  assert (P : (if starts_with (lit "rs") (fenced pre n body) || starts_with (lit "sr") (fenced pre n body) then (2, true)
     else if starts_with (lit "r") (fenced pre n body) then (1, true)
     else if starts_with (lit "s") (fenced pre n body) then (1, false) else (0, false)) = (len (lit pre), true)).
  { cbn [In] in I. destruct I as [<-|[<-|[<-|[]]]]; try reflexivity. destruct n; reflexivity. }
  rewrite P. clear P. cbv iota beta.
  assert (C : count_hashes (skipn (len (lit pre)) (fenced pre n body)) = n).
  { cbn [In] in I. destruct I as [<-|[<-|[<-|[]]]]; apply (hashes_counted n). }
  rewrite C. destruct (Nat.ltb_spec 0 n) as [L|L].
  - unfold fenced. rewrite hashed_body by reflexivity. reflexivity.
  - assert (n = 0) by lia. subst n. destruct (raw_zero pre body _ eq_refl) as [G1 G2]. rewrite G1, G2. reflexivity.
Qed.

Lemma bytes_raw pre n body : In pre ["rb"; "br"]%string -> parse_bytes_literal (fenced pre n body) = flat_map utf8 body.
Proof.
  intros I. unfold parse_bytes_literal. rewrite trim_raw by (cbn [In] in *; tauto). cbv zeta.
  assert (P : (if starts_with (lit "rb") (fenced pre n body) || starts_with (lit "br") (fenced pre n body) then Some (2, true)
     else if starts_with (lit "b") (fenced pre n body) then Some (1, false) else None) = Some (len (lit pre), true)).
  { cbn [In] in I. destruct I as [<-|[<-|[]]]; reflexivity. }
  rewrite P. clear P. cbv iota beta.
  assert (C : count_hashes (skipn (len (lit pre)) (fenced pre n body)) = n).
  { cbn [In] in I. destruct I as [<-|[<-|[]]]; apply (hashes_counted n). }
  rewrite C. destruct (Nat.ltb_spec 0 n) as [L|L].
  - unfold fenced. rewrite hashed_body by reflexivity. apply bytes_same.
  - assert (n = 0) by lia. subst n. destruct (raw_zero pre body _ eq_refl) as [_ G2]. rewrite G2. apply bytes_same.
Qed.
Lemma bytes_b n body : parse_bytes_literal (fenced "b" n body) =
  if 0 <? n then flat_map utf8 body else process_escape_sequences (as_bytes body).
Proof.
  unfold parse_bytes_literal. rewrite trim_raw by (cbn [In]; tauto). cbv zeta.
  assert (P : (if starts_with (lit "rb") (fenced "b" n body) || starts_with (lit "br") (fenced "b" n body) then Some (2, true)
     else if starts_with (lit "b") (fenced "b" n body) then Some (1, false) else None) = Some (1, false)) by (destruct n; reflexivity).
  rewrite P. clear P. cbv iota beta.
  assert (C : count_hashes (skipn 1 (fenced "b" n body)) = n) by apply (hashes_counted n).
  rewrite C. destruct (Nat.ltb_spec 0 n) as [L|L].
  - unfold fenced. rewrite hashed_body by reflexivity. apply bytes_same.
  - assert (n = 0) by lia. subst n. destruct (raw_zero "b" body 1 eq_refl) as [_ G2]. rewrite G2. reflexivity.
Qed.

(** * Texts *)
Lemma strings_ok pre ps cs : In pre [""; "s"]%string -> all_mean means ps cs ->
  parse_string_literal (quoted pre (text_of ps)) = Some cs.
Proof.
  intros I M. rewrite string_quoted by exact I. destruct (means_all _ _ M) as [B S].
  rewrite (escaped _ _ B). apply decode_all, S.
Qed.
Lemma strings_bytes pre ps bs cs : In pre [""; "s"]%string -> all_mean means_bytes ps bs ->
  (parse_string_literal (quoted pre (text_of ps)) = Some cs <-> bs = flat_map utf8 cs /\ Forall scalar cs).
Proof.
  intros I M. rewrite string_quoted, (escaped _ _ M) by exact I. split.
  - apply decoded.
  - intros [-> S]. apply decode_all, S.
Qed.
Lemma bytes_ok ps bs : all_mean means_bytes ps bs -> parse_bytes_literal (quoted "b" (text_of ps)) = bs.
Proof. intros M. rewrite quoted_fenced, bytes_b. cbn [Nat.ltb Nat.leb]. apply escaped, M. Qed.

Lemma writable cs : Forall scalar cs -> exists ps, all_mean means ps cs.
Proof.
  induction 1 as [|c cs S F (ps & ls & G & E)]; [exists [], []; split; constructor|].
  subst cs. destruct (N.eq_dec c (ch "\")) as [->|N1].
  - exists (Escape (ch "\") :: ps), ([ch "\"] :: ls). split; [|reflexivity]. constructor; [|exact G].
    constructor. cbn; tauto.
  - destruct (N.eq_dec c 34) as [->|N2].
    + exists (Escape 34%N :: ps), ([34%N] :: ls). split; [|reflexivity]. constructor; [|exact G]. constructor. cbn; tauto.
    + exists (Character c :: ps), ([c] :: ls). split; [|reflexivity]. constructor; [|exact G]. constructor; assumption.
Qed.
Lemma digit_of d : (d < 16)%N -> exists c, digit c d.
Proof.
  intros L. destruct (N.ltb_spec d 10) as [A|A]; [exists (48 + d)%N; constructor; exact A|].
  exists (97 + (d - 10))%N. constructor. lia.
Qed.
Lemma bytes_writable bs : Forall (fun b => (b < 256)%N) bs -> exists ps, all_mean means_bytes ps bs.
Proof.
  induction 1 as [|b bs S F (ps & ls & G & E)]; [exists [], []; split; constructor|].
  subst bs. destruct (digit_of (b / 16) ltac:(lia)) as [h1 D1]. destruct (digit_of (b mod 16) ltac:(lia)) as [h2 D2].
  exists (Byte h1 h2 :: ps), ([(b / 16 * 16 + b mod 16)%N] :: ls). split.
  - constructor; [|exact G]. apply bytes_byte; assumption.
  - cbn [concat app]. f_equal. lia.
Qed.

Lemma multiline_text pre n body : In pre [""; "s"]%string -> n <> 0 ->
  parse_string_literal (fenced pre n body) = Some (fenced pre n body).
Proof.
  intros I N. assert (T : trim (fenced pre n body) = fenced pre n body).
  { cbn [In] in I. destruct I as [<-|[<-|[]]]; [|apply trim_raw; cbn; tauto].
    destruct n; [congruence|]. unfold fenced. cbn [repeat lit list_ascii_of_string map app].
    pose proof (trim_fenced (ch "#") [] n body eq_refl) as E. cbn [app] in E.
    replace (ch "#" :: repeat (ch "#") n ++ 34%N :: body ++ 34%N :: ch "#" :: repeat (ch "#") n)
      with (ch "#" :: (repeat (ch "#") n ++ 34%N :: body ++ 34%N :: repeat (ch "#") n) ++ [ch "#"]).
    - apply trim_ends; reflexivity.
    - rewrite <- app_assoc. cbn [app]. rewrite <- app_assoc. cbn [app]. rewrite <- repeat_cons. reflexivity. }
  unfold parse_string_literal. rewrite T. cbv zeta. clear T. destruct n as [|n]; [congruence|].
  assert (G : get (fenced pre (S n) body) (len (lit pre)) (len (lit pre) + 1) = Some [ch "#"])
    by (unfold fenced; cbn [repeat]; apply (get_mid (lit pre) [ch "#"]); reflexivity).
  cbn [In] in I. destruct I as [<-|[<-|[]]].
  - change (starts_with (lit "rs") (fenced "" (S n) body) || starts_with (lit "sr") (fenced "" (S n) body)) with false.
    change (starts_with (lit "r") (fenced "" (S n) body)) with false.
    change (starts_with (lit "s") (fenced "" (S n) body)) with false.
    cbv iota beta. change (0 <? 0) with false. cbv iota. change (len (lit "")) with 0 in G. rewrite G. reflexivity.
  - change (starts_with (lit "rs") (fenced "s" (S n) body) || starts_with (lit "sr") (fenced "s" (S n) body)) with false.
    change (starts_with (lit "r") (fenced "s" (S n) body)) with false.
    change (starts_with (lit "s") (fenced "s" (S n) body)) with true.
    cbv iota beta. change (0 <? 0) with false. cbv iota. change (len (lit "s")) with 1 in G. rewrite G. reflexivity.
Qed.

(** * Runes *)
Lemma rune_ok p c : means p [c] -> p <> Escape 34%N -> parse_rune_literal (lit "?" ++ written p) = Some c.
Proof.
  intros M NQ.
  inversion M as [c' S NB NC|e c' I|h1 h2 a b A B L|h1 h2 h3 h4 a b c' d A B C D S]; subst.
  - unfold parse_rune_literal. cbn [written]. change (strip_prefix (lit "?") (lit "?" ++ [c])) with (Some [c]).
    cbv iota. change (strip_prefix (lit "\") [c]) with (if (ch "\" =? c)%N then Some ([] : list N) else None).
    destruct (N.eqb_spec (ch "\") c); [congruence|reflexivity].
  - cbn [escapes In] in I.
    repeat match goal with H : _ \/ _ |- _ => destruct H as [H|H] | H : False |- _ => destruct H end; inv I; try reflexivity.
    congruence.
  - transitivity (match from_str_radix u32_values 16 [h1; h2] with Some n => from_u32 n | None => None end); [reflexivity|].
    rewrite (from_radix_ok u32_values 16 [h1; h2] [a; b]);
      [|lia|apply hex_all; [reflexivity|repeat constructor; assumption]|discriminate|reflexivity].
    assert (V : value 16 [a; b] = (a * 16 + b)%N).
    { cbn [value List.length]. change (16 ^ N.of_nat 1)%N with 16%N. change (16 ^ N.of_nat 0)%N with 1%N. lia. }
    rewrite V. unfold u32_values. change (2 ^ 32)%N with 4294967296%N.
    destruct (N.ltb_spec (a * 16 + b) 4294967296); [|lia]. apply from_u32_scalar. unfold scalar. lia.
  - transitivity (match from_str_radix u32_values 16 [h1; h2; h3; h4] with Some n => from_u32 n | None => None end); [reflexivity|].
    rewrite (hex_code _ _ _ _ _ _ _ _ A B C D). apply from_u32_scalar, S.
Qed.
Lemma rune_byte h1 h2 a b : digit h1 a -> digit h2 b ->
  parse_rune_literal (lit "?" ++ written (Byte h1 h2)) = Some (a * 16 + b)%N.
Proof.
  intros A B. transitivity (match from_str_radix u32_values 16 [h1; h2] with Some n => from_u32 n | None => None end); [reflexivity|].
  rewrite (from_radix_ok u32_values 16 [h1; h2] [a; b]);
    [|lia|apply hex_all; [reflexivity|repeat constructor; assumption]|discriminate|reflexivity].
  apply digit_range in A as [_ A], B as [_ B].
  assert (V : value 16 [a; b] = (a * 16 + b)%N).
  { cbn [value List.length]. change (16 ^ N.of_nat 1)%N with 16%N. change (16 ^ N.of_nat 0)%N with 1%N. lia. }
  rewrite V. unfold u32_values. change (2 ^ 32)%N with 4294967296%N.
  destruct (N.ltb_spec (a * 16 + b) 4294967296); [|lia]. apply from_u32_scalar. unfold scalar. lia.
Qed.

(** * Patterns *)
(** In a pattern a byte escape stands for a character. *)
Lemma unescape_byte h1 h2 a b r s : digit h1 a -> digit h2 b ->
  unescape (St Plainly s) (written (Byte h1 h2) ++ r) = (a * 16 + b)%N :: unescape (St Plainly true) r.
Proof.
  intros A B. transitivity (byte_char [h1; h2] ++ unescape (St Plainly true) r); [reflexivity|].
  unfold byte_char. rewrite (hex_byte _ _ _ _ A B). reflexivity.
Qed.
Lemma unescape_state s s' t : unescape (St Plainly s) t = unescape (St Plainly s') t.
Proof.
  enough (K : forall t, unescape (St Plainly s) t = unescape (St Plainly s') t /\
                        unescape (St Backslash s) t = unescape (St Backslash s') t) by apply K.
  clear t. induction t as [|c t [IH1 IH2]]; [split; reflexivity|]. split; cbn [unescape].
  - rewrite IH1, IH2. reflexivity.
  - rewrite IH1. reflexivity.
Qed.
Lemma unescape_piece p cs r s : means p cs ->
  unescape (St Plainly s) (written p ++ r) = cs ++ unescape (St Plainly s) r.
Proof.
  intros [c S NB NQ|e c I|h1 h2 a b A B L|h1 h2 h3 h4 a b c d A B C D S].
  - cbn [written app unescape]. destruct (N.eqb_spec c (ch "\")); [congruence|reflexivity].
  - cbn [escapes In] in I.
    repeat match goal with H : _ \/ _ |- _ => destruct H as [H|H] | H : False |- _ => destruct H end; inv I; reflexivity.
  - rewrite (unescape_byte _ _ _ _ _ _ A B), (unescape_state true s). reflexivity.
  - assert (H1 : (h1 =? ch "{")%N = false)
      by (apply digit_range in A as [A _]; apply N.eqb_neq; change (ch "{") with 123%N; lia).
    transitivity (code_char [h1; h2; h3; h4] ++ unescape (St Plainly false) r).
    + cbn [written app]. change (unescape (St Plainly s) (ch "\" :: ch "u" :: h1 :: h2 :: h3 :: h4 :: r))
        with (unescape (St Unicode false) (h1 :: h2 :: h3 :: h4 :: r)).
      cbn [unescape]. rewrite H1. reflexivity.
    + unfold code_char. rewrite (hex_code _ _ _ _ _ _ _ _ A B C D), from_u32_scalar by exact S.
      rewrite (unescape_state false s). reflexivity.
Qed.
Lemma unescaped ps cs : all_mean means ps cs -> unescape_string (text_of ps) = cs.
Proof.
  intros (ls & F & ->). unfold unescape_string. induction F as [|p l ps ls M F IH]; [reflexivity|].
  unfold text_of in *. cbn [flat_map concat]. rewrite (unescape_piece _ _ _ _ M), IH. reflexivity.
Qed.

Lemma pattern_quoted body : pattern_string_literal (quoted "" body) = Some (unescape_string body).
Proof.
  unfold pattern_string_literal. assert (T : trim (quoted "" body) = quoted "" body) by (apply (trim_quoted 34 body); reflexivity).
  rewrite T. cbv zeta. clear T.
  change (starts_with (ch "r" :: [34%N]) (quoted "" body) || starts_with (lit "r#") (quoted "" body)) with false. cbv iota.
  change (starts_with [34%N] (quoted "" body)) with true.
  assert (E : ends_with 34 (quoted "" body) = true).
  { unfold ends_with, quoted. cbn [lit list_ascii_of_string map app]. rewrite app_comm_cons, rev_app_distr. reflexivity. }
  rewrite E. cbn [andb].
  assert (L : len (quoted "" body) = 1 + len body + 1).
  { rewrite quoted_fenced, raw_parts. change (len (lit "")) with 0. lia. }
  destruct (Nat.leb_spec 2 (len (quoted "" body))); [|lia].
  destruct (raw_zero "" body 0 eq_refl) as [_ G]. cbn [Nat.add] in G. rewrite quoted_fenced, G. reflexivity.
Qed.
Lemma pattern_raw n body : pattern_string_literal (fenced "r" n body) = Some body.
Proof.
  unfold pattern_string_literal. rewrite trim_raw by (cbn; tauto). cbv zeta. destruct n as [|n].
  - change (starts_with (ch "r" :: [34%N]) (fenced "r" 0 body) || starts_with (lit "r#") (fenced "r" 0 body)) with true.
    change (starts_with (lit "r#") (fenced "r" 0 body)) with false. cbv iota.
    destruct (raw_zero "r" body 1 eq_refl) as [_ G]. exact G.
  - change (starts_with (ch "r" :: [34%N]) (fenced "r" (S n) body) || starts_with (lit "r#") (fenced "r" (S n) body)) with true.
    change (starts_with (lit "r#") (fenced "r" (S n) body)) with true. cbv iota.
    assert (C : count_hashes (skipn 1 (fenced "r" (S n) body)) = S n) by apply (hashes_counted (S n)).
    rewrite C, raw_parts. change (len (lit "r")) with 1.
    replace (1 + S n + 1 + len body + 1 + S n - S n - 1) with (2 + S n + len body) by lia.
    destruct (Nat.ltb_spec (2 + S n) (2 + S n + len body)) as [L|L].
    + unfold fenced. change (34%N :: body ++ 34%N :: repeat (ch "#") (S n)) with ([34%N] ++ body ++ 34%N :: repeat (ch "#") (S n)).
      rewrite (app_assoc (lit "r")). apply get_body; rewrite len_app, len_repeat; change (len (lit "r")) with 1; change (len [34%N]) with 1; lia.
    + destruct body as [|c body]; [reflexivity|]. rewrite len_cons in L. pose proof (width_pos c). lia.
Qed.
Lemma pattern_text_same ps cs : all_mean means ps cs ->
  pattern_string_literal (quoted "" (text_of ps)) = parse_string_literal (quoted "" (text_of ps)).
Proof.
  intros M. rewrite pattern_quoted, (unescaped _ _ M), (strings_ok "" ps cs); [reflexivity|cbn; tauto|exact M].
Qed.
