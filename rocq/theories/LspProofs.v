From Verif Require Export LspSpec.

Lemma w8_pos c : 0 < w8 c.
Proof. unfold w8. repeat break_if; lia. Qed.
Lemma w16_pos c : 0 < w16 c.
Proof. unfold w16. break_if; lia. Qed.
Lemma w16_w8 c : w16 c <= w8 c.
Proof.
  unfold w16, w8. destruct (c <? 65536)%N eqn:E; [repeat break_if; lia|].
  apply N.ltb_ge in E. destruct (c <? 128)%N eqn:A; [apply N.ltb_lt in A; lia|]. destruct (c <? 2048)%N eqn:B; [apply N.ltb_lt in B; lia|]. lia.
Qed.

Definition wsum (w : N -> nat) (t : text) : nat := list_sum (List.map w t).
Lemma wsum_cons w c t : wsum w (c :: t) = w c + wsum w t.
Proof. reflexivity. Qed.
Lemma wsum_app w a b : wsum w (a ++ b) = wsum w a + wsum w b.
Proof. unfold wsum. rewrite map_app, list_sum_app. reflexivity. Qed.
Lemma wsum_firstn w t i : wsum w (firstn i t) <= wsum w t.
Proof. rewrite <- (firstn_skipn i t) at 2. rewrite wsum_app. lia. Qed.
Lemma units_bytes t : wsum w16 t <= wsum w8 t.
Proof. induction t as [|c t IH]; [apply le_n|]. rewrite !wsum_cons. pose proof (w16_w8 c). lia. Qed.
Lemma len_bytes t : List.length t <= wsum w8 t.
Proof. induction t as [|c t IH]; [apply le_n|]. rewrite wsum_cons. cbn [List.length]. pose proof (w8_pos c). lia. Qed.

Lemma index_at_exact w : (forall c, 0 < w c) -> forall t i, i <= List.length t -> index_at w t (wsum w (firstn i t)) = i.
Proof.
  intros W. induction t as [|c t IH]; intros i H; [cbn in H; cbn [index_at]; lia|].
  cbn [index_at]. destruct i as [|i]; cbn [firstn].
  - change (wsum w []) with 0. pose proof (W c). destruct (Nat.ltb_spec 0 (w c)); [reflexivity | lia].
  - rewrite wsum_cons. destruct (Nat.ltb_spec (w c + wsum w (firstn i t)) (w c)); [lia|].
    replace (w c + wsum w (firstn i t) - w c) with (wsum w (firstn i t)) by lia. rewrite IH; [reflexivity | cbn in H; lia].
Qed.

Lemma index_at_spec w : forall t b, b <= wsum w t ->
  let k := index_at w t b in k <= List.length t /\ wsum w (firstn k t) <= b /\ (k < List.length t -> b < wsum w (firstn (S k) t)) /\ (k = List.length t -> b = wsum w t).
Proof.
  induction t as [|c t IH]; intros b H; cbn [index_at]; cbv zeta.
  - change (wsum w []) with 0 in H. cbn [List.length]. change (wsum w (firstn 0 [])) with 0. change (wsum w []) with 0. lia.
  - rewrite wsum_cons in H. destruct (Nat.ltb_spec b (w c)) as [L|L].
    + split; [lia|]. split; [change (wsum w (firstn 0 (c :: t))) with 0; lia|]. split.
      * intros _. cbn [firstn]. rewrite wsum_cons. change (wsum w []) with 0. lia.
      * cbn [List.length]. lia.
    + specialize (IH (b - w c) ltac:(lia)). cbv zeta in IH. destruct IH as (A & B & C & D).
      cbn [List.length firstn]. rewrite !wsum_cons. split; [lia|]. split; [lia|]. split.
      * intros K. specialize (C ltac:(lia)). cbn [firstn] in C. destruct t; cbn [List.length] in *; [lia|]. rewrite wsum_cons in *. lia.
      * intros K. specialize (D ltac:(lia)). lia.
Qed.

Lemma wrap32_id n : (N.of_nat n < 4294967296)%N -> wrap32 n = n.
Proof. intros H. unfold wrap32. rewrite N.mod_small by exact H. apply Nat2N.id. Qed.

(** ** Lines *)

Lemma push_cons c l ls : push c (l :: ls) = (c :: l) :: ls.
Proof. reflexivity. Qed.

Lemma lines_cons t : exists l ls, lines t = l :: ls.
Proof.
  induction t as [|c t [l [ls IH]]]; [exists [], []; reflexivity|]. cbn [lines]. rewrite IH.
  destruct (ends_line c t); [exists [c], (l :: ls) | exists (c :: l), ls]; reflexivity.
Qed.

Lemma lines_concat t : concat (lines t) = t.
Proof.
  induction t as [|c t IH]; [reflexivity|]. cbn [lines]. destruct (ends_line c t).
  - cbn [concat app]. rewrite IH. reflexivity.
  - destruct (lines_cons t) as [l [ls E]]. rewrite E in *. cbn [push concat app] in *. rewrite IH. reflexivity.
Qed.

(** Lines other than the last are not empty. *)
Lemma lines_break t : Forall (fun l => exists b c, l = b ++ [c] /\ is_break c = true) (removelast (lines t)).
Proof.
  induction t as [|c t IH]; [constructor|]. cbn [lines]. destruct (lines_cons t) as [l [ls E]]. rewrite E in *.
  destruct (ends_line c t) eqn:B.
  - change (removelast ([c] :: l :: ls)) with ([c] :: removelast (l :: ls)). constructor; [|exact IH].
    exists [], c. split; [reflexivity|]. unfold ends_line in B. apply andb_prop in B as [B _]. exact B.
  - cbn [push]. destruct ls as [|l' ls]; [constructor|].
    change (removelast ((c :: l) :: l' :: ls)) with ((c :: l) :: removelast (l' :: ls)).
    change (removelast (l :: l' :: ls)) with (l :: removelast (l' :: ls)) in IH. inversion IH as [|? ? [b [d [-> Hd]]] H]; subst.
    constructor; [|exact H]. exists (c :: b), d. split; [reflexivity | exact Hd].
Qed.

Definition start (ls : list text) (k : nat) : nat := List.length (concat (firstn k ls)).

Lemma line_of_push c l ls i : line_of (push c (l :: ls)) (S i) = line_of (l :: ls) i.
Proof. destruct ls; reflexivity. Qed.
Lemma start_push c l ls k : start (push c (l :: ls)) (S k) = S (start (l :: ls) (S k)).
Proof. reflexivity. Qed.

Lemma line_of_lt l ls i : line_of (l :: ls) i < List.length (l :: ls).
Proof.
  revert l i. induction ls as [|l' ls IH]; intros l i; [cbn; lia|].
  change (line_of (l :: l' :: ls) i) with (if i <? List.length l then 0 else S (line_of (l' :: ls) (i - List.length l))).
  destruct (i <? List.length l); [cbn [List.length]; lia|]. specialize (IH l' (i - List.length l)). cbn [List.length] in *. lia.
Qed.

Lemma line_of_start ls : forall k i, k < List.length ls -> i <= List.length (nth k ls []) ->
  (S k < List.length ls -> i < List.length (nth k ls [])) -> line_of ls (start ls k + i) = k.
Proof.
  induction ls as [|l ls IH]; intros k i H Hi K; [cbn in H; lia|]. destruct k as [|k].
  - change (start (l :: ls) 0) with 0. cbn [Nat.add]. destruct ls as [|l' ls]; [reflexivity|].
    change (line_of (l :: l' :: ls) i) with (if i <? List.length l then 0 else S (line_of (l' :: ls) (i - List.length l))).
    specialize (K ltac:(cbn [List.length]; lia)). cbn [nth] in K. destruct (Nat.ltb_spec i (List.length l)); [reflexivity | lia].
  - destruct ls as [|l' ls]; [cbn in H; lia|].
    change (line_of (l :: l' :: ls) (start (l :: l' :: ls) (S k) + i)) with
      (if start (l :: l' :: ls) (S k) + i <? List.length l then 0 else S (line_of (l' :: ls) (start (l :: l' :: ls) (S k) + i - List.length l))).
    assert (E : start (l :: l' :: ls) (S k) = List.length l + start (l' :: ls) k).
    { unfold start. cbn [firstn concat]. rewrite app_length. reflexivity. }
    rewrite E. destruct (Nat.ltb_spec (List.length l + start (l' :: ls) k + i) (List.length l)); [lia|].
    f_equal. replace (List.length l + start (l' :: ls) k + i - List.length l) with (start (l' :: ls) k + i) by lia.
    cbn [nth] in Hi, K. apply IH; [cbn [List.length] in *; lia | exact Hi | intros X; apply K; cbn [List.length] in *; lia].
Qed.

(** Walking by ropey's line ends. *)
Lemma walk_lines w t : forall i l c, i <= List.length t ->
  let k := line_of (lines t) i in
  start (lines t) k <= i /\
  i - start (lines t) k <= List.length (without_lf (nth k (lines t) [])) /\
  firstn (i - start (lines t) k) (without_lf (nth k (lines t) [])) = firstn (i - start (lines t) k) (nth k (lines t) []) /\
  walk ends_line w t i l c = (l + k, (if k =? 0 then c else 0) + wsum w (firstn (i - start (lines t) k) (nth k (lines t) []))).
Proof.
  induction t as [|x t IH]; intros i l c H; cbv zeta.
  - cbn in H. assert (i = 0) by lia. subst i. cbn. repeat split; try lia. f_equal; lia.
  - destruct i as [|i].
    + assert (L : line_of (lines (x :: t)) 0 = 0).
      { cbn [lines]. destruct (lines_cons t) as [l0 [ls E]]. rewrite E. destruct (ends_line x t); [reflexivity|]. destruct ls; reflexivity. }
      rewrite L. change (start (lines (x :: t)) 0) with 0. cbn [Nat.sub firstn walk Nat.eqb]. change (wsum w []) with 0.
      repeat split; try lia. f_equal; lia.
    + cbn [List.length] in H. cbn [walk lines]. destruct (lines_cons t) as [l0 [ls E]]. destruct (ends_line x t) eqn:B.
      * specialize (IH i (S l) 0 ltac:(lia)). cbv zeta in IH. rewrite E in *.
        set (k := line_of (l0 :: ls) i) in *.
        change (line_of ([x] :: l0 :: ls) (S i)) with (S (line_of (l0 :: ls) (i - 0))). rewrite Nat.sub_0_r. fold k.
        change (start ([x] :: l0 :: ls) (S k)) with (S (start (l0 :: ls) k)).
        change (nth (S k) ([x] :: l0 :: ls) []) with (nth k (l0 :: ls) []). cbn [Nat.sub].
        destruct IH as (A & A' & B' & C). repeat split; [lia | exact A' | exact B' |].
        rewrite C. cbn [Nat.eqb]. f_equal; [lia|]. destruct (k =? 0); lia.
      * specialize (IH i l (c + w x) ltac:(lia)). cbv zeta in IH. rewrite E in *. rewrite line_of_push.
        set (k := line_of (l0 :: ls) i) in *. destruct IH as (A & A' & B' & C). rewrite C. clear C.
        destruct k as [|k].
        -- change (start (push x (l0 :: ls)) 0) with 0. change (start (l0 :: ls) 0) with 0 in *. rewrite !Nat.sub_0_r in *. cbn [push nth] in *.
           assert (W : without_lf (x :: l0) = x :: without_lf l0).
           { unfold without_lf. cbn [List.length]. destruct l0 as [|y l0].
             - cbn. destruct (x =? LF)%N eqn:Q; [|reflexivity]. apply N.eqb_eq in Q. subst x. unfold ends_line in B. cbn in B. discriminate.
             - cbn [List.length]. change (nth (S (List.length l0)) (x :: y :: l0) 0%N) with (nth (List.length l0) (y :: l0) 0%N).
               destruct (nth (List.length l0) (y :: l0) 0 =? LF)%N; reflexivity. }
           rewrite W. cbn [firstn List.length]. repeat split; [lia | lia | rewrite B'; reflexivity |].
           cbn [Nat.eqb]. rewrite wsum_cons. f_equal. lia.
        -- rewrite start_push. cbn [push nth Nat.sub]. repeat split; [lia | exact A' | exact B'].
Qed.

Lemma walk_ext e e' w t : (forall pre c rest, t = pre ++ c :: rest -> e c rest = e' c rest) ->
  forall i l c, walk e w t i l c = walk e' w t i l c.
Proof.
  induction t as [|x t IH]; intros H i l c; [destruct i; reflexivity|]. destruct i as [|i]; [reflexivity|].
  cbn [walk]. rewrite (H [] x t eq_refl).
  assert (K : forall pre c rest, t = pre ++ c :: rest -> e c rest = e' c rest) by (intros pre y rest ->; apply (H (x :: pre) y rest eq_refl)).
  destruct (e' x t); apply IH, K.
Qed.

Lemma walk_app e w (He : forall c r r', e c r = e c r') a b : forall i l c,
  walk e w (a ++ b) (List.length a + i) l c = let p := walk e w (a ++ b) (List.length a) l c in walk e w b i (fst p) (snd p).
Proof.
  induction a as [|x a IH]; intros i l c; cbn [app List.length Nat.add]; cbv zeta; [destruct b, i; reflexivity|].
  cbn [walk]. destruct (e x (a ++ b)); apply IH.
Qed.

Lemma bytes_wsum t : bytes t = wsum w8 t.
Proof. reflexivity. Qed.

Lemma walk_bounds e w t i l c : fst (walk e w t i l c) <= l + List.length t /\ snd (walk e w t i l c) <= c + wsum w t.
Proof.
  revert i l c. induction t as [|x t IH]; intros [|i] l c; cbn [walk fst snd List.length]; try (split; lia).
  rewrite wsum_cons. destruct (e x t).
  - destruct (IH i (S l) 0). split; lia.
  - destruct (IH i l (c + w x)). split; lia.
Qed.

Lemma byte_to_char_exact t i : i <= List.length t -> byte_to_char t (char_to_byte t i) = i.
Proof. apply (index_at_exact w8 w8_pos). Qed.
Lemma char_to_byte_le t i : char_to_byte t i <= bytes t.
Proof. apply (wsum_firstn w8). Qed.

Lemma position_walk t i : i <= List.length t -> addressable t ->
  position_from_offset t (char_to_byte t i) = walk ends_line w16 t i 0 0.
Proof.
  intros H A. unfold position_from_offset. rewrite Nat.min_l by apply char_to_byte_le. rewrite byte_to_char_exact by exact H.
  unfold char_to_line, line, line_to_char. fold (start (lines t) (line_of (lines t) i)).
  pose proof (walk_lines w16 t i 0 0 H) as W. cbv zeta in W. destruct W as (W1 & W2 & W3 & W4).
  unfold char_to_utf16_cu. rewrite W3.
  pose proof (walk_bounds ends_line w16 t i 0 0) as [B1 B2]. rewrite W4 in B1, B2. cbn [fst snd] in B1, B2.
  assert (X : ((if line_of (lines t) i =? 0 then 0 else 0) = 0)%nat) by (destruct (line_of (lines t) i =? 0); reflexivity).
  rewrite X in *. pose proof (len_bytes t). pose proof (units_bytes t). unfold addressable in A. rewrite bytes_wsum in A.
  rewrite W4. change units with (wsum w16). rewrite !wrap32_id by lia. reflexivity.
Qed.

Lemma char_to_byte_mono t k i : k <= i -> char_to_byte t k <= char_to_byte t i.
Proof.
  intros H. unfold char_to_byte. change bytes with (wsum w8). rewrite <- (firstn_skipn k (firstn i t)), wsum_app, firstn_firstn, Nat.min_l by exact H. lia.
Qed.
Lemma char_to_byte_prefix t i : char_to_byte t i = wsum w8 (firstn i t).
Proof. reflexivity. Qed.

(** Offset to position to offset. *)
Lemma offset_back t i : i <= List.length t -> addressable t ->
  let p := position_from_offset t (char_to_byte t i) in
  offset_from_position t (fst p) (snd p) = Some (char_to_byte t i).
Proof.
  intros H A. cbv zeta. rewrite (position_walk t i H A).
  pose proof (walk_lines w16 t i 0 0 H) as W. cbv zeta in W. destruct W as (W1 & W2 & W3 & W4). rewrite W4. cbn [fst snd Nat.add].
  set (k := line_of (lines t) i) in *.
  assert (X : ((if k =? 0 then 0 else 0) = 0)%nat) by (destruct (k =? 0); reflexivity). rewrite X. cbn [Nat.add].
  unfold offset_from_position, len_lines.
  assert (K : k < List.length (lines t)). { destruct (lines_cons t) as [l [ls E]]. unfold k. rewrite E. apply line_of_lt. }
  destruct (Nat.leb_spec (List.length (lines t)) k); [lia|]. unfold line. rewrite <- W3. change units with (wsum w16).
  rewrite Nat.min_l by apply wsum_firstn. unfold utf16_cu_to_char. rewrite (index_at_exact w16 w16_pos) by exact W2.
  unfold line_to_char. fold (start (lines t) k). do 2 f_equal. lia.
Qed.

(** Any offset: back to the start of the character it points into. *)
Lemma offset_any t o : addressable t ->
  position_from_offset t o = position_from_offset t (char_to_byte t (byte_to_char t (Nat.min o (bytes t)))).
Proof.
  intros A. unfold position_from_offset.
  rewrite (Nat.min_l (char_to_byte _ _)) by apply char_to_byte_le. rewrite byte_to_char_exact; [reflexivity|].
  pose proof (index_at_spec w8 t (Nat.min o (bytes t)) ltac:(rewrite bytes_wsum; lia)) as S. cbv zeta in S. apply S.
Qed.

Lemma content_len l : List.length (content l) <= List.length l.
Proof.
  unfold content. rewrite <- (rev_length l). destruct (rev l) as [|c [|d r]] eqn:E.
  - cbn. lia.
  - destruct (is_break c); [cbn; lia|]. rewrite <- (rev_length l), E. lia.
  - destruct ((c =? LF)%N && (d =? CR)%N); [rewrite rev_length; cbn; lia|].
    destruct (is_break c); [rewrite rev_length; cbn; lia|]. rewrite <- (rev_length l), E. lia.
Qed.

Lemma nth_removelast {A} (ls : list A) k d : S k < List.length ls -> nth k ls d = nth k (removelast ls) d /\ k < List.length (removelast ls).
Proof.
  revert k. induction ls as [|x ls IH]; intros k H; [cbn in H; lia|]. destruct ls as [|y ls]; [cbn in H; lia|].
  change (removelast (x :: y :: ls)) with (x :: removelast (y :: ls)). destruct k as [|k]; [split; [reflexivity | cbn; lia]|].
  cbn [nth]. destruct (IH k ltac:(cbn [List.length] in *; lia)) as [E L]. split; [exact E | cbn [List.length]; lia].
Qed.

Lemma inner_line t k : S k < len_lines t -> exists b c, line t k = b ++ [c] /\ is_break c = true.
Proof.
  intros H. unfold line. destruct (nth_removelast (lines t) k [] H) as [E L]. rewrite E.
  pose proof (lines_break t) as F. rewrite Forall_forall in F. apply F, nth_In, L.
Qed.

Lemma content_break b c : is_break c = true -> List.length (content (b ++ [c])) < List.length (b ++ [c]).
Proof.
  intros H. unfold content. rewrite rev_app_distr. cbn [rev app]. rewrite app_length. cbn [List.length].
  destruct (rev b) as [|d r] eqn:E.
  - rewrite H. cbn. lia.
  - rewrite H. rewrite <- (rev_length b), E. cbn [List.length].
    destruct ((c =? LF)%N && (d =? CR)%N); [|rewrite app_length]; rewrite rev_length; cbn [List.length]; lia.
Qed.

Lemma without_lf_content l : exists r, without_lf l = content l ++ r.
Proof.
  unfold without_lf, content. destruct l as [|x l] using rev_ind; [exists []; reflexivity|]. clear IHl.
  rewrite rev_app_distr. cbn [rev app]. rewrite app_length. cbn [List.length]. rewrite Nat.add_1_r.
  rewrite app_nth2, Nat.sub_diag by lia. cbn [nth].
  assert (F : firstn (List.length l) (l ++ [x]) = l) by (rewrite firstn_app, Nat.sub_diag, firstn_all; apply app_nil_r).
  rewrite F. destruct (rev l) as [|d r] eqn:R.
  - assert (l = []) by (rewrite <- (rev_involutive l), R; reflexivity). subst l. cbn [app].
    destruct (x =? LF)%N eqn:E; [apply N.eqb_eq in E; subst x; exists []; reflexivity|].
    destruct (is_break x); [exists [x] | exists []]; reflexivity.
  - assert (L : l = rev r ++ [d]) by (rewrite <- (rev_involutive l), R; reflexivity).
    destruct (x =? LF)%N eqn:E; cbn [andb].
    + apply N.eqb_eq in E. subst x. destruct (d =? CR)%N; [exists [d]; exact L|]. exists []. rewrite app_nil_r. cbn [rev]. rewrite <- L. reflexivity.
    + destruct (is_break x); [exists [x]; cbn [rev]; rewrite <- L; reflexivity | exists []; rewrite app_nil_r; reflexivity].
Qed.

Lemma firstn_len_le {A} k (l : list A) : k <= List.length l -> List.length (firstn k l) = k.
Proof. intros H. rewrite firstn_length. lia. Qed.

Lemma content_prefix l k : k <= List.length (content l) -> firstn k (without_lf l) = firstn k (content l) /\ firstn k (content l) = firstn k l.
Proof.
  intros H. destruct (without_lf_content l) as [r E]. split.
  - rewrite E, firstn_app. replace (k - List.length (content l)) with 0 by lia. apply app_nil_r.
  - assert (X : exists s, l = content l ++ s).
    { clear. unfold content. destruct l as [|x l] using rev_ind; [exists []; reflexivity|]. clear IHl.
      rewrite rev_app_distr. cbn [rev app]. destruct (rev l) as [|d r] eqn:R.
      - assert (l = []) by (rewrite <- (rev_involutive l), R; reflexivity). subst l. cbn [app].
        destruct (is_break x); [exists [x] | exists []]; reflexivity.
      - assert (L : l = rev r ++ [d]) by (rewrite <- (rev_involutive l), R; reflexivity).
        destruct ((x =? LF)%N && (d =? CR)%N); [exists [d; x]; rewrite L, <- app_assoc; reflexivity|].
        destruct (is_break x); [exists [x]; cbn [rev]; rewrite <- L; reflexivity | exists []; rewrite app_nil_r; reflexivity]. }
    destruct X as [s X]. rewrite X at 2. rewrite firstn_app. replace (k - List.length (content l)) with 0 by lia. symmetry. apply app_nil_r.
Qed.

Lemma start_line t ln : ln < len_lines t -> start (lines t) ln + List.length (line t ln) <= List.length t.
Proof.
  intros H. rewrite <- (lines_concat t) at 3. unfold start, line. revert ln H. unfold len_lines. induction (lines t) as [|l ls IH]; intros ln H; [cbn in H; lia|].
  destruct ln as [|ln]; cbn [firstn concat nth]; rewrite app_length; [cbn [List.length]; lia|].
  rewrite app_length. specialize (IH ln ltac:(cbn [List.length] in H; lia)). lia.
Qed.

(** Position to offset to position, inside a line. *)
Lemma position_back t ln k : ln < len_lines t -> k <= List.length (content (line t ln)) -> addressable t ->
  exists o, offset_from_position t ln (units (firstn k (content (line t ln)))) = Some o /\
    position_from_offset t o = (ln, units (firstn k (content (line t ln)))) /\
    o = char_to_byte t (line_to_char t ln + k).
Proof.
  intros H K A. exists (char_to_byte t (line_to_char t ln + k)).
  destruct (content_prefix (line t ln) k K) as [E1 E2]. pose proof (content_len (line t ln)) as CL.
  assert (WL : k <= List.length (without_lf (line t ln))).
  { destruct (without_lf_content (line t ln)) as [r ->]. rewrite app_length. lia. }
  split; [|split; [|reflexivity]].
  - unfold offset_from_position. destruct (Nat.leb_spec (len_lines t) ln); [lia|]. rewrite <- E1. change units with (wsum w16).
    rewrite Nat.min_l by apply wsum_firstn. unfold utf16_cu_to_char. rewrite (index_at_exact w16 w16_pos) by exact WL. reflexivity.
  - pose proof (start_line t ln H) as SL. unfold line_to_char. fold (start (lines t) ln).
    set (i := start (lines t) ln + k). assert (Hi : i <= List.length t) by (unfold i; lia).
    assert (LO : line_of (lines t) i = ln).
    { apply (line_of_start (lines t) ln k H); [exact (Nat.le_trans _ _ _ K CL)|]. intros S. destruct (inner_line t ln S) as [b [c [E B]]].
      pose proof (content_break b c B) as CB. rewrite <- E in CB. exact (Nat.le_lt_trans _ _ _ K CB). }
    rewrite (position_walk t i Hi A). pose proof (walk_lines w16 t i 0 0 Hi) as W. cbv zeta in W. rewrite LO in W.
    destruct W as (_ & _ & _ & ->). cbn [Nat.add]. replace (i - start (lines t) ln) with k by (unfold i; lia).
    fold (line t ln). rewrite <- E2. destruct (ln =? 0); reflexivity.
Qed.

(** Positions inside a line that are not at a character boundary go to the character's start. *)
Lemma position_inside t ln ch : ln < len_lines t -> ch < units (content (line t ln)) ->
  exists k, k < List.length (content (line t ln)) /\
    units (firstn k (content (line t ln))) <= ch < units (firstn (S k) (content (line t ln))) /\
    offset_from_position t ln ch = Some (char_to_byte t (line_to_char t ln + k)).
Proof.
  intros H C. destruct (without_lf_content (line t ln)) as [r E]. set (ct := content (line t ln)) in *.
  pose proof (index_at_spec w16 ct ch ltac:(change units with (wsum w16) in C; lia)) as S. cbv zeta in S.
  destruct S as (S1 & S2 & S3 & S4). set (k := index_at w16 ct ch) in *.
  assert (K : k < List.length ct). { destruct (Nat.eq_dec k (List.length ct)) as [X|X]; [|lia]. specialize (S4 X). change units with (wsum w16) in C. lia. }
  exists k. split; [exact K|]. split; [split; [exact S2 | exact (S3 K)]|].
  unfold offset_from_position. destruct (Nat.leb_spec (len_lines t) ln); [lia|]. rewrite E.
  rewrite Nat.min_l by (change units with (wsum w16) in *; rewrite wsum_app; lia).
  do 3 f_equal. unfold utf16_cu_to_char, k. clear -C. revert ch C. induction ct as [|c ct IH]; intros ch C; [cbn in C; lia|].
  cbn [app index_at]. destruct (Nat.ltb_spec ch (w16 c)); [reflexivity|]. f_equal. apply IH.
  change units with (wsum w16) in *. rewrite wsum_cons in C. lia.
Qed.

(** Past the end of a line that ends in a single LF, or of the last line. *)
Lemma position_past t ln ch : ln < len_lines t -> units (content (line t ln)) <= ch -> without_lf (line t ln) = content (line t ln) ->
  offset_from_position t ln ch = Some (char_to_byte t (line_to_char t ln + List.length (content (line t ln)))).
Proof.
  intros H C E. unfold offset_from_position. destruct (Nat.leb_spec (len_lines t) ln); [lia|]. rewrite E. rewrite Nat.min_r by exact C.
  unfold utf16_cu_to_char. pose proof (index_at_exact w16 w16_pos (content (line t ln)) (List.length (content (line t ln))) (le_n _)) as X.
  rewrite firstn_all in X. change (wsum w16) with units in X. rewrite X. reflexivity.
Qed.

Lemma plain_ends t : plain t -> forall pre c rest, t = pre ++ c :: rest -> ends_line c rest = lsp_ends c rest.
Proof.
  intros P pre c rest ->. apply Forall_app in P as [_ P]. apply Forall_inv in P. unfold ends_line, lsp_ends.
  destruct (is_break c) eqn:B.
  - destruct (P eq_refl) as [->| ->]; reflexivity.
  - destruct (c =? LF)%N eqn:E1; [apply N.eqb_eq in E1; subst; discriminate|].
    destruct (c =? CR)%N eqn:E2; [apply N.eqb_eq in E2; subst; discriminate|]. reflexivity.
Qed.

Lemma position_lsp t i : plain t -> i <= List.length t -> addressable t ->
  position_from_offset t (char_to_byte t i) = lsp_position t i.
Proof.
  intros P H A. rewrite (position_walk t i H A). apply walk_ext, plain_ends, P.
Qed.

Lemma offset_lsp t i : plain t -> i <= List.length t -> addressable t ->
  offset_from_position t (fst (lsp_position t i)) (snd (lsp_position t i)) = Some (char_to_byte t i).
Proof. intros P H A. rewrite <- (position_lsp t i P H A). apply (offset_back t i H A). Qed.

(** ** Edits *)

Lemma skipn_start ls : forall k, k < List.length ls -> exists r, skipn (start ls k) (concat ls) = nth k ls [] ++ r.
Proof.
  unfold start. induction ls as [|l ls IH]; intros k K; [cbn in K; lia|].
  destruct k as [|k]; [exists (concat ls); reflexivity|]. cbn [firstn concat nth]. rewrite app_length.
  rewrite skipn_app. rewrite skipn_all2 by lia. cbn [app].
  replace (List.length l + List.length (concat (firstn k ls)) - List.length l) with (List.length (concat (firstn k ls))) by lia.
  apply IH. cbn [List.length] in K. lia.
Qed.

Lemma byte_line_col_walk t i : i <= List.length t -> addressable t ->
  byte_line_col t (char_to_byte t i) = walk ends_line w8 t i 0 0.
Proof.
  intros H A. unfold byte_line_col. rewrite Nat.min_l by apply char_to_byte_le. rewrite byte_to_char_exact by exact H.
  unfold char_to_line, line_to_char. fold (start (lines t) (line_of (lines t) i)).
  pose proof (walk_lines w8 t i 0 0 H) as W. cbv zeta in W. destruct W as (W1 & W2 & W3 & W4).
  pose proof (walk_bounds ends_line w8 t i 0 0) as [B1 B2]. rewrite W4 in B1, B2. cbn [fst snd] in B1, B2.
  set (k := line_of (lines t) i) in *.
  assert (X : ((if k =? 0 then 0 else 0) = 0)%nat) by (destruct (k =? 0); reflexivity).
  rewrite X in *. rewrite W4. clear W4.
  assert (D : char_to_byte t i - char_to_byte t (start (lines t) k) = wsum w8 (firstn (i - start (lines t) k) (nth k (lines t) []))).
  { unfold char_to_byte. change bytes with (wsum w8).
    rewrite <- (firstn_skipn (start (lines t) k) (firstn i t)), wsum_app, firstn_firstn, Nat.min_l by exact W1.
    rewrite (Nat.add_comm (wsum w8 _)), Nat.add_sub. f_equal. rewrite skipn_firstn_comm.
    assert (K : k < List.length (lines t)). { destruct (lines_cons t) as [l [ls E]]. unfold k. rewrite E. apply line_of_lt. }
    assert (SK : exists r, skipn (start (lines t) k) t = nth k (lines t) [] ++ r).
    { pose proof (skipn_start (lines t) k K) as SX. rewrite lines_concat in SX. exact SX. }
    destruct SK as [r ->]. rewrite firstn_app.
    assert (L : i - start (lines t) k <= List.length (nth k (lines t) [])).
    { destruct (without_lf_content (nth k (lines t) [])) as [r' _]. clear r'.
      assert (Y : List.length (without_lf (nth k (lines t) [])) <= List.length (nth k (lines t) [])).
      { unfold without_lf. destruct (List.length (nth k (lines t) [])) as [|n] eqn:Q; [rewrite Q; lia|].
        destruct (nth n (nth k (lines t) []) 0 =? LF)%N; [rewrite firstn_length; lia | lia]. }
      lia. }
    replace (i - start (lines t) k - List.length (nth k (lines t) [])) with 0 by lia. cbn [firstn]. rewrite app_nil_r. reflexivity. }
  rewrite D. pose proof (len_bytes t). unfold addressable in A. rewrite bytes_wsum in A. rewrite !wrap32_id by lia. reflexivity.
Qed.

Lemma lf_ends t : lf_only t -> forall pre c rest, t = pre ++ c :: rest -> ends_line c rest = (c =? LF)%N.
Proof.
  intros P pre c rest E. unfold ends_line. destruct (is_break c) eqn:B.
  - destruct (P pre c rest E B) as [->|[-> [r ->]]]; reflexivity.
  - destruct (c =? LF)%N eqn:E1; [apply N.eqb_eq in E1; subst; discriminate|]. reflexivity.
Qed.

Lemma byte_line_col_point t i : lf_only t -> i <= List.length t -> addressable t ->
  byte_line_col t (char_to_byte t i) = parser_point t i.
Proof. intros P H A. rewrite (byte_line_col_walk t i H A). apply walk_ext. intros pre c rest E. apply (lf_ends t P pre c rest E). Qed.

Lemma split_lf_cons t : exists l ls, split_lf t = l :: ls.
Proof.
  induction t as [|c t [l [ls IH]]]; [exists [], []; reflexivity|]. cbn [split_lf]. rewrite IH.
  destruct (c =? LF)%N; [exists [], (l :: ls) | exists (c :: l), ls]; reflexivity.
Qed.

Lemma point_after_walk t : forall l c r, point_after_text (l, c) t = walk (fun c _ => (c =? LF)%N) w8 (t ++ r) (List.length t) l c.
Proof.
  induction t as [|x t IH]; intros l c r.
  - cbn. destruct r; rewrite Nat.add_0_r; reflexivity.
  - cbn [app List.length walk]. unfold point_after_text in *. cbn [split_lf]. destruct (split_lf_cons t) as [a [ls E]]. rewrite E in *.
    destruct (x =? LF)%N.
    + rewrite <- (IH (S l) 0 r). cbn [fst snd fold_left]. change (bytes []) with 0. reflexivity.
    + rewrite <- (IH l (c + w8 x) r). cbn [push fst snd]. change bytes with (wsum w8). rewrite wsum_cons, Nat.add_assoc. reflexivity.
Qed.

Lemma walk_prefix e w (He : forall c r r', e c r = e c r') a b b' : forall i l c, i <= List.length a ->
  walk e w (a ++ b) i l c = walk e w (a ++ b') i l c.
Proof.
  induction a as [|x a IH]; intros i l c H; cbn [List.length] in H.
  - assert (i = 0) by lia. subst. destruct b, b'; reflexivity.
  - destruct i as [|i]; [reflexivity|]. cbn [app walk]. rewrite (He x (a ++ b) (a ++ b')). destruct (e x (a ++ b')); apply IH; lia.
Qed.

Lemma new_end_point t i j new : i <= List.length t -> 
  point_after_text (parser_point t i) new = parser_point (replaced t i j new) (i + List.length new).
Proof.
  intros H. unfold parser_point, replaced.
  assert (L : List.length (firstn i t) = i) by (rewrite firstn_length; lia).
  set (e := fun (c : N) (_ : text) => (c =? LF)%N).
  pose proof (walk_app e w8 (fun _ _ _ => eq_refl) (firstn i t) (new ++ skipn j t) (List.length new) 0 0) as W.
  cbv zeta in W. rewrite L in W. rewrite W. clear W.
  assert (E : walk e w8 t i 0 0 = walk e w8 (firstn i t ++ new ++ skipn j t) i 0 0).
  { rewrite <- (firstn_skipn i t) at 1. apply walk_prefix; [reflexivity | lia]. }
  rewrite <- E. destruct (walk e w8 t i 0 0) as [l c]. cbn [fst snd]. apply point_after_walk.
Qed.

(** What a position resolves to: a character boundary. *)
Lemma offset_boundary t ln ch o : offset_from_position t ln ch = Some o ->
  exists i, i <= List.length t /\ o = char_to_byte t i.
Proof.
  unfold offset_from_position. destruct (Nat.leb_spec (len_lines t) ln) as [L|L]; [discriminate|]. intros E. injection E as <-.
  eexists. split; [|reflexivity]. unfold line_to_char. fold (start (lines t) ln). pose proof (start_line t ln L) as S.
  pose proof (index_at_spec w16 (without_lf (line t ln)) (Nat.min ch (units (without_lf (line t ln)))) ltac:(change units with (wsum w16); lia)) as K.
  cbv zeta in K. destruct K as [K _]. unfold utf16_cu_to_char.
  assert (Y : List.length (without_lf (line t ln)) <= List.length (line t ln)).
  { unfold without_lf. destruct (List.length (line t ln)) as [|n] eqn:Q; [rewrite Q; lia|].
    destruct (nth n (line t ln) 0 =? LF)%N; [rewrite firstn_length; lia | lia]. }
  lia.
Qed.

Lemma apply_change_ok t i j l1 c1 l2 c2 new : i <= j -> j <= List.length t ->
  offset_from_position t l1 c1 = Some (char_to_byte t i) ->
  offset_from_position t l2 c2 = Some (char_to_byte t j) ->
  apply_change t (mkChange (Some ((l1, c1), (l2, c2))) new) =
    Applied (replaced t i j new)
      (Some (mkEdit (bytes (firstn i t)) (bytes (firstn j t)) (bytes (firstn i t ++ new))
                    (byte_line_col t (char_to_byte t i)) (byte_line_col t (char_to_byte t j))
                    (point_after_text (byte_line_col t (char_to_byte t i)) new))).
Proof.
  intros H1 H2 E1 E2. unfold apply_change. cbn [c_range c_text]. rewrite E1, E2. rewrite !byte_to_char_exact by lia.
  destruct (Nat.ltb_spec j i); [lia|]. do 2 f_equal. unfold char_to_byte. f_equal. change bytes with (wsum w8). rewrite wsum_app. reflexivity.
Qed.

Lemma apply_change_points t i j l1 c1 l2 c2 new : i <= j -> j <= List.length t -> lf_only t -> addressable t ->
  offset_from_position t l1 c1 = Some (char_to_byte t i) ->
  offset_from_position t l2 c2 = Some (char_to_byte t j) ->
  apply_change t (mkChange (Some ((l1, c1), (l2, c2))) new) =
    Applied (replaced t i j new)
      (Some (mkEdit (bytes (firstn i t)) (bytes (firstn j t)) (bytes (firstn i t ++ new))
                    (parser_point t i) (parser_point t j)
                    (parser_point (replaced t i j new) (i + List.length new)))).
Proof.
  intros H1 H2 P A E1 E2. rewrite (apply_change_ok t i j l1 c1 l2 c2 new H1 H2 E1 E2).
  rewrite !byte_line_col_point by (assumption || lia). rewrite <- (new_end_point t i j new) by lia. reflexivity.
Qed.

Lemma client_edit_ok t e : plain t -> addressable t -> ce_from e <= ce_to e -> ce_to e <= List.length t ->
  exists ed, apply_change t (as_change t e) = Applied (client_apply t e) (Some ed).
Proof.
  intros P A H1 H2. eexists. unfold as_change, client_apply.
  pose proof (offset_lsp t (ce_from e) P ltac:(lia) A) as E1. pose proof (offset_lsp t (ce_to e) P H2 A) as E2.
  destruct (lsp_position t (ce_from e)) as [l1 c1]. destruct (lsp_position t (ce_to e)) as [l2 c2]. cbn [fst snd] in *.
  apply (apply_change_ok t _ _ l1 c1 l2 c2 (ce_text e) H1 H2 E1 E2).
Qed.

Lemma history_ok t es t' : client_history t es t' -> did_change t (as_changes t es) = Changed t'.
Proof.
  induction 1 as [t|t e es t' P A H1 H2 _ IH]; [reflexivity|]. cbn [as_changes did_change].
  destruct (client_edit_ok t e P A H1 H2) as [ed ->]. exact IH.
Qed.

(** A change either fails cleanly, or replaces the characters between two boundaries. *)
Lemma apply_change_cases t l1 c1 l2 c2 new :
  match apply_change t (mkChange (Some ((l1, c1), (l2, c2))) new) with
  | Bad => len_lines t <= l1 \/ len_lines t <= l2
  | Panic => exists o1 o2, offset_from_position t l1 c1 = Some o1 /\ offset_from_position t l2 c2 = Some o2 /\ o2 < o1
  | Applied t' _ => exists i j, i <= j <= List.length t /\ t' = replaced t i j new /\
      offset_from_position t l1 c1 = Some (char_to_byte t i) /\ offset_from_position t l2 c2 = Some (char_to_byte t j)
  end.
Proof.
  destruct (offset_from_position t l1 c1) as [o1|] eqn:E1.
  - destruct (offset_from_position t l2 c2) as [o2|] eqn:E2.
    + destruct (offset_boundary _ _ _ _ E1) as [i [Hi Ei]]. destruct (offset_boundary _ _ _ _ E2) as [j [Hj Ej]]. subst o1 o2.
      destruct (Nat.le_gt_cases i j) as [L|L].
      * rewrite (apply_change_ok t i j l1 c1 l2 c2 new L Hj E1 E2). exists i, j. repeat split; assumption || reflexivity.
      * unfold apply_change. cbn [c_range c_text]. rewrite E1, E2. rewrite !byte_to_char_exact by lia.
        destruct (Nat.ltb_spec j i); [|lia]. exists (char_to_byte t i), (char_to_byte t j). repeat split.
        pose proof (char_to_byte_mono t j i ltac:(lia)). destruct (Nat.eq_dec (char_to_byte t j) (char_to_byte t i)) as [E|E]; [|lia].
        rewrite <- (byte_to_char_exact t i Hi), <- E, byte_to_char_exact in L by lia. lia.
    + unfold apply_change. cbn [c_range]. rewrite E1, E2. right. unfold offset_from_position in E2.
      destruct (Nat.leb_spec (len_lines t) l2); [assumption | discriminate].
  - unfold apply_change. cbn [c_range]. rewrite E1. left. unfold offset_from_position in E1.
    destruct (Nat.leb_spec (len_lines t) l1); [assumption | discriminate].
Qed.

(** ** Completion *)
Section Completion.
  Variable alphanumeric : N -> bool.
  Definition ident (c : N) : bool := alphanumeric c || (c =? 95)%N.

  Lemma char_before t i : 0 < i -> i <= List.length t -> exists c, nth_error t (i - 1) = Some c /\
    byte_to_char t (char_to_byte t i - 1) = i - 1 /\ char_to_byte t i = char_to_byte t (i - 1) + w8 c.
  Proof.
    intros H1 H2. destruct (nth_error t (i - 1)) as [c|] eqn:E; [|apply nth_error_None in E; lia].
    exists c. split; [reflexivity|].
    assert (S : char_to_byte t i = char_to_byte t (i - 1) + w8 c).
    { unfold char_to_byte. change bytes with (wsum w8). destruct i as [|i]; [lia|]. replace (S i - 1) with i in * by lia.
      clear -E. revert i E. induction t as [|x t IH]; intros i E; [destruct i; discriminate|]. destruct i as [|i].
      - injection E as ->. cbn. lia.
      - cbn [nth_error] in E. specialize (IH i E). rewrite !firstn_cons, !wsum_cons. lia. }
    split; [|exact S]. rewrite S. pose proof (w8_pos c) as W.
    unfold byte_to_char, char_to_byte. change bytes with (wsum w8). remember (i - 1) as k eqn:Q. clear Q S H1 H2 i. revert k E.
    induction t as [|x t IH]; intros k E; [destruct k; discriminate|]. destruct k as [|k]; cbn [nth_error firstn index_at] in *.
    - injection E as ->. change (wsum w8 []) with 0. destruct (Nat.ltb_spec (0 + w8 c - 1) (w8 c)); [reflexivity | lia].
    - rewrite wsum_cons. destruct (Nat.ltb_spec (w8 x + wsum w8 (firstn k t) + w8 c - 1) (w8 x)); [lia|].
      replace (w8 x + wsum w8 (firstn k t) + w8 c - 1 - w8 x) with (wsum w8 (firstn k t) + w8 c - 1) by lia. rewrite (IH k E). reflexivity.
  Qed.

  Lemma prefix_start_ok t : forall fuel i, i <= List.length t -> i <= fuel ->
    exists k, k <= i /\ prefix_start alphanumeric fuel t (char_to_byte t i) = char_to_byte t k /\
      Forall (fun c => ident c = true) (firstn (i - k) (skipn k t)) /\
      (k = 0 \/ exists c, nth_error t (k - 1) = Some c /\ ident c = false).
  Proof.
    induction fuel as [|fuel IH]; intros i H F.
    - assert (i = 0) by lia. subst. exists 0. repeat split; [lia | constructor | left; reflexivity].
    - cbn [prefix_start]. destruct i as [|i].
      { exists 0. repeat split; [lia | constructor | left; reflexivity]. }
      destruct (char_before t (S i) ltac:(lia) H) as [c (E1 & E2 & E3)]. replace (S i - 1) with i in * by lia.
      pose proof (w8_pos c). destruct (Nat.eqb_spec (char_to_byte t (S i)) 0); [lia|]. rewrite E2, E1.
      fold (ident c). destruct (ident c) eqn:I.
      + rewrite E3, Nat.add_sub. destruct (IH i ltac:(lia) ltac:(lia)) as [k (K1 & K2 & K3 & K4)].
        exists k. split; [lia|]. split; [exact K2|]. split; [|exact K4].
        replace (S i - k) with (S (i - k)) by lia.
        assert (X : firstn (S (i - k)) (skipn k t) = firstn (i - k) (skipn k t) ++ [c]).
        { assert (N : nth_error (skipn k t) (i - k) = Some c) by (rewrite nth_error_skipn; replace (k + (i - k)) with i by lia; exact E1).
          clear -N. revert N. generalize (i - k) as n. generalize (skipn k t) as l. induction l as [|x l IH]; intros n N; [destruct n; discriminate|].
          destruct n as [|n]; [injection N as ->; reflexivity|]. cbn [firstn app]. cbn [nth_error] in N. rewrite <- (IH n N). reflexivity. }
        rewrite X. apply Forall_app. split; [exact K3 | constructor; [exact I | constructor]].
      + exists (S i). split; [lia|]. split; [reflexivity|]. split; [rewrite Nat.sub_diag; constructor|].
        right. exists c. split; [replace (S i - 1) with i by lia; exact E1 | exact I].
  Qed.

  Lemma completion_ok t i : i <= List.length t ->
    exists k, k <= i /\ completion_prefix alphanumeric t (char_to_byte t i) = firstn (i - k) (skipn k t) /\
      Forall (fun c => ident c = true) (firstn (i - k) (skipn k t)) /\
      (k = 0 \/ exists c, nth_error t (k - 1) = Some c /\ ident c = false).
  Proof.
    intros H. unfold completion_prefix. destruct (Nat.eqb_spec (char_to_byte t i) 0) as [Z|Z].
    { assert (i = 0) by (destruct i; [reflexivity|]; destruct (char_before t (S i) ltac:(lia) H) as [c (_ & _ & E)]; pose proof (w8_pos c); lia).
      subst. exists 0. repeat split; [lia | constructor | left; reflexivity]. }
    assert (FU : i <= char_to_byte t i).
    { unfold char_to_byte. change bytes with (wsum w8). pose proof (len_bytes (firstn i t)) as L. rewrite firstn_length in L. lia. }
    destruct (prefix_start_ok t (char_to_byte t i) i H FU) as [k (K1 & K2 & K3 & K4)]. rewrite K2.
    destruct (Nat.leb_spec (char_to_byte t i) (char_to_byte t k)) as [L|L].
    - assert (k = i). { rewrite <- (byte_to_char_exact t i H), <- (byte_to_char_exact t k) by lia. f_equal. pose proof (char_to_byte_mono t k i K1). lia. }
      subst k. exists i. rewrite Nat.sub_diag in *. repeat split; [lia | exact K3 | exact K4].
    - exists k. rewrite !byte_to_char_exact by lia. repeat split; [lia | exact K3 | exact K4].
  Qed.
End Completion.

(** ** Chunks *)

Lemma chunk_at_ok chunks : forall from b, from <= b -> b < from + List.length (concat chunks) ->
  let (c, s) := chunk_at chunks from b in
  from <= s <= b /\ b < s + List.length c /\ exists r, skipn (s - from) (concat chunks) = c ++ r.
Proof.
  induction chunks as [|c chunks IH]; intros from b H1 H2; [cbn in H2; lia|]. cbn [chunk_at]. cbn [concat] in H2. rewrite app_length in H2.
  destruct chunks as [|d chunks].
  - cbn [concat List.length] in *. split; [lia|]. split; [lia|]. rewrite Nat.sub_diag. exists []. reflexivity.
  - destruct (Nat.ltb_spec b (from + List.length c)) as [L|L].
    + split; [lia|]. split; [lia|]. rewrite Nat.sub_diag. exists (concat (d :: chunks)). reflexivity.
    + specialize (IH (from + List.length c) b ltac:(lia) ltac:(lia)). destruct (chunk_at (d :: chunks) (from + List.length c) b) as [x s].
      destruct IH as (A & B & [r C]). split; [lia|]. split; [lia|]. exists r. cbn [concat]. cbn [concat] in C. rewrite skipn_app.
      rewrite skipn_all2 by lia. cbn [app]. rewrite <- C. f_equal. lia.
Qed.

Lemma skipn_add {A} a b (l : list A) : skipn a (skipn b l) = skipn (a + b) l.
Proof.
  revert l. induction b as [|b IH]; intros l; [rewrite Nat.add_0_r; reflexivity|]. rewrite Nat.add_succ_r.
  destruct l as [|x l]; [rewrite !skipn_nil; reflexivity | apply IH].
Qed.

Lemma chunk_from_ok chunks b :
  (List.length (concat chunks) <= b -> chunk_from_byte chunks b = []) /\
  (b < List.length (concat chunks) -> chunk_from_byte chunks b <> [] /\ exists r, skipn b (concat chunks) = chunk_from_byte chunks b ++ r).
Proof.
  unfold chunk_from_byte. split; intros H.
  - destruct (Nat.leb_spec (List.length (concat chunks)) b); [reflexivity | lia].
  - destruct (Nat.leb_spec (List.length (concat chunks)) b); [lia|]. pose proof (chunk_at_ok chunks 0 b ltac:(lia) ltac:(lia)) as K.
    destruct (chunk_at chunks 0 b) as [c s]. destruct K as (A & B & [r C]). rewrite Nat.sub_0_r in C. split.
    + intros E. apply (f_equal (@List.length N)) in E. rewrite skipn_length in E. cbn in E. lia.
    + exists r. replace b with (s + (b - s)) at 1 by lia. rewrite Nat.add_comm, <- skipn_add, C, skipn_app.
      replace (b - s - List.length c) with 0 by lia. reflexivity.
Qed.

Lemma read_all_ok chunks : forall fuel b, List.length (concat chunks) - b < fuel -> read_all fuel chunks b = skipn b (concat chunks).
Proof.
  induction fuel as [|fuel IH]; intros b H; [lia|]. cbn [read_all]. destruct (chunk_from_ok chunks b) as [K1 K2].
  destruct (Nat.le_gt_cases (List.length (concat chunks)) b) as [L|L].
  - rewrite (K1 L), skipn_all2 by lia. reflexivity.
  - destruct (K2 L) as [N [r E]]. destruct (chunk_from_byte chunks b) as [|x got] eqn:G; [congruence|].
    assert (LE : List.length (concat chunks) - b = List.length (x :: got) + List.length r) by (rewrite <- app_length, <- E, skipn_length; reflexivity).
    cbn [List.length] in LE. rewrite IH by (cbn [List.length]; lia). rewrite E.
    replace (b + List.length (x :: got)) with (List.length (x :: got) + b) by lia. rewrite <- skipn_add, E, skipn_app, Nat.sub_diag.
    rewrite skipn_all. reflexivity.
Qed.

Lemma reads_all chunks fuel : List.length (concat chunks) < fuel -> read_all fuel chunks 0 = concat chunks.
Proof. intros H. rewrite read_all_ok by lia. reflexivity. Qed.

Lemma lsp_both t i : plain t -> i <= List.length t -> addressable t ->
  position_from_offset t (bytes (firstn i t)) = lsp_position t i /\
  offset_from_position t (fst (lsp_position t i)) (snd (lsp_position t i)) = Some (bytes (firstn i t)).
Proof. intros P H A. split; [exact (position_lsp t i P H A) | exact (offset_lsp t i P H A)]. Qed.

Lemma offset_inside t o : addressable t ->
  exists i, i <= List.length t /\ bytes (firstn i t) <= o /\
    (i < List.length t -> o < bytes (firstn (S i) t)) /\
    position_from_offset t o = position_from_offset t (bytes (firstn i t)).
Proof.
  intros A. exists (byte_to_char t (Nat.min o (bytes t))).
  pose proof (index_at_spec w8 t (Nat.min o (bytes t)) ltac:(rewrite bytes_wsum; lia)) as S. cbv zeta in S.
  destruct S as (S1 & S2 & S3 & S4). fold (byte_to_char t (Nat.min o (bytes t))) in *. change (wsum w8) with bytes in *.
  split; [exact S1|]. split; [lia|]. split; [|apply (offset_any t o A)].
  intros L. specialize (S3 L). pose proof (char_to_byte_le t (S (byte_to_char t (Nat.min o (bytes t))))) as M. unfold char_to_byte in M. lia.
Qed.

Lemma missing_line t ln ch : offset_from_position t ln ch = None <-> len_lines t <= ln.
Proof. unfold offset_from_position. destruct (Nat.leb_spec (len_lines t) ln); split; intros; (reflexivity || lia || discriminate). Qed.

Lemma without_lf_snoc l c : without_lf (l ++ [c]) = if (c =? LF)%N then l else l ++ [c].
Proof.
  unfold without_lf. rewrite app_length. cbn [List.length]. rewrite Nat.add_1_r.
  rewrite app_nth2, Nat.sub_diag by lia. cbn [nth]. rewrite firstn_app, Nat.sub_diag, firstn_all, app_nil_r. reflexivity.
Qed.

Lemma content_self_lf l : l = content l -> without_lf l = l.
Proof.
  destruct l as [|x l] using rev_ind; [reflexivity|]. clear IHl. intros E. rewrite without_lf_snoc.
  destruct (x =? LF)%N eqn:X; [|reflexivity]. apply N.eqb_eq in X. subst x. pose proof (content_break l LF eq_refl) as C.
  rewrite <- E in C. lia.
Qed.

Lemma past_end t ln ch : ln < len_lines t -> units (content (line t ln)) <= ch ->
  (line t ln = content (line t ln) \/ line t ln = content (line t ln) ++ [LF]) ->
  offset_from_position t ln ch = Some (bytes (firstn (line_to_char t ln + List.length (content (line t ln))) t)).
Proof.
  intros H C E. apply (position_past t ln ch H C). destruct E as [E|E].
  - rewrite (content_self_lf _ E). exact E.
  - rewrite E at 1. rewrite without_lf_snoc. reflexivity.
Qed.

Lemma edit_bytes t i j l1 c1 l2 c2 new : i <= j -> j <= List.length t ->
  offset_from_position t l1 c1 = Some (bytes (firstn i t)) ->
  offset_from_position t l2 c2 = Some (bytes (firstn j t)) ->
  exists e, apply_change t (mkChange (Some ((l1, c1), (l2, c2))) new) = Applied (replaced t i j new) (Some e) /\
    e_start e = bytes (firstn i t) /\ e_old_end e = bytes (firstn j t) /\ e_new_end e = bytes (firstn i t ++ new).
Proof.
  intros H1 H2 E1 E2. rewrite (apply_change_ok t i j l1 c1 l2 c2 new H1 H2 E1 E2). eexists. repeat split.
Qed.

Ltac is_plain := repeat constructor; intros; first [left; reflexivity | right; reflexivity | discriminate].

Lemma form_feed : exists t i, i <= List.length t /\ addressable t /\ position_from_offset t (bytes (firstn i t)) <> lsp_position t i.
Proof. exists [97; 12; 98]%N, 2. split; [cbn; lia|]. split; [reflexivity | vm_compute; discriminate]. Qed.

Lemma past_end_cr : exists t ln ch, ln < len_lines t /\ addressable t /\ plain t /\
  units (content (line t ln)) <= ch /\
  exists o, offset_from_position t ln ch = Some o /\ fst (position_from_offset t o) <> ln.
Proof.
  exists [97; 13; 98]%N, 0, 5. split; [cbn; lia|]. split; [reflexivity|]. split; [is_plain|]. split; [cbn; lia|].
  exists 2. split; [reflexivity | vm_compute; discriminate].
Qed.
Lemma past_end_crlf : exists t ln ch, ln < len_lines t /\ addressable t /\ lf_only t /\
  units (content (line t ln)) <= ch /\
  offset_from_position t ln ch <> Some (bytes (firstn (line_to_char t ln + List.length (content (line t ln))) t)).
Proof.
  exists [97; 13; 10]%N, 0, 5. split; [cbn; lia|]. split; [reflexivity|]. split.
  - intros pre c rest E B. destruct pre as [|? [|? [|? [|? ?]]]]; inversion E; subst; try discriminate;
    first [left; reflexivity | right; split; [reflexivity | eexists; reflexivity]].
  - split; [cbn; lia | vm_compute; discriminate].
Qed.
Lemma text_drifts : exists t e, addressable t /\ ce_from e <= ce_to e /\ ce_to e <= List.length t /\
  did_change t [as_change t e] <> Changed (client_apply t e).
Proof. exists [97; 12; 98; 99]%N, (mkClient 3 4 []). split; [reflexivity|]. split; [cbn; lia|]. split; [cbn; lia | vm_compute; discriminate]. Qed.
Lemma points_wrong : exists t i l1 c1 new, plain t /\ addressable t /\
  offset_from_position t l1 c1 = Some (bytes (firstn i t)) /\
  exists t' e, apply_change t (mkChange (Some ((l1, c1), (l1, c1))) new) = Applied t' (Some e) /\
    e_start_point e <> parser_point t i.
Proof.
  exists [97; 13; 98]%N, 2, 1, 0, [120%N]. split; [is_plain|]. split; [reflexivity|]. split; [reflexivity|].
  eexists _, _. split; [vm_compute; reflexivity | vm_compute; discriminate].
Qed.
Lemma reversed : exists t ch, plain t /\ addressable t /\ apply_change t ch = Panic.
Proof. exists [97; 98]%N, (mkChange (Some ((0, 2), (0, 1))) []). split; [is_plain|]. split; reflexivity. Qed.

(** ** Widths, full replacements and rejected changes *)
Lemma widths c : w8 c = List.length (utf8 c) /\ w16 c = List.length (utf16 c).
Proof.
  unfold w8, w16, utf8, utf16. rewrite !N.ltb_antisym.
  replace (128 <=? c)%N with (negb (c <=? 127)%N) by (rewrite <- N.ltb_antisym; apply Bool.eq_iff_eq_true; rewrite N.ltb_lt, N.leb_le; lia).
  replace (2048 <=? c)%N with (negb (c <=? 2047)%N) by (rewrite <- N.ltb_antisym; apply Bool.eq_iff_eq_true; rewrite N.ltb_lt, N.leb_le; lia).
  replace (65536 <=? c)%N with (negb (c <=? 65535)%N) by (rewrite <- N.ltb_antisym; apply Bool.eq_iff_eq_true; rewrite N.ltb_lt, N.leb_le; lia).
  rewrite !Bool.negb_involutive. repeat match goal with |- context [(c <=? ?k)%N] => destruct (c <=? k)%N end; split; reflexivity.
Qed.
Lemma did_change_app t chs chs' t1 : did_change t chs = Changed t1 -> did_change t (chs ++ chs') = did_change t1 chs'.
Proof.
  revert t. induction chs as [|ch chs IH]; intros t H; cbn in *; [injection H as ->; reflexivity|].
  destruct (apply_change t ch); try discriminate. apply IH, H.
Qed.
Lemma full_change t es t' new es' t'' : client_history t es t' -> client_history new es' t'' ->
  did_change t (as_changes t es ++ mkChange None new :: as_changes new es') = Changed t''.
Proof.
  intros H H'. rewrite (did_change_app _ _ _ t' (history_ok _ _ _ H)). cbn. apply history_ok, H'.
Qed.
Lemma rejected t es t' l1 c1 l2 c2 new rest : client_history t es t' -> len_lines t' <= l1 \/ len_lines t' <= l2 ->
  did_change t (as_changes t es ++ mkChange (Some ((l1, c1), (l2, c2))) new :: rest) = Failed t'.
Proof.
  intros H M. rewrite (did_change_app _ _ _ t' (history_ok _ _ _ H)). unfold did_change, apply_change. cbn [c_range].
  destruct M as [M|M].
  - rewrite (proj2 (missing_line t' l1 c1) M). reflexivity.
  - rewrite (proj2 (missing_line t' l2 c2) M). destruct (offset_from_position t' l1 c1); reflexivity.
Qed.
