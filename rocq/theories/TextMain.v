(** The round trip of types and attributes. *)
From Coq Require Import Lia.
From Verif Require Export TextProofs.
Open Scope N_scope.

(** ** Lists *)
Definition closing (c : N) : Prop := c = 41 \/ c = 93 \/ c = 125.
Definition delimited (rest : text) : Prop := exists c r, rest = c :: r /\ (c = 44 \/ closing c).
Lemma delimited_not : forall (P : N -> Prop) rest, delimited rest -> (forall c, c = 44 \/ closing c -> ~ P c) -> not_first P rest.
Proof. intros P rest (c & r & -> & H) Q. apply nf_cons. auto. Qed.
Lemma delimited_blank : forall rest, delimited rest -> not_first blank rest.
Proof. intros. eapply delimited_not; eauto. unfold closing, blank. intros. lia. Qed.
Lemma delimited_word : forall rest, delimited rest -> not_first name_char rest.
Proof. intros. eapply delimited_not; eauto. unfold closing. intros c E D. unfold name_char, name_start, is_digit in *. lia. Qed.

Section Lists.
  Context {A B : Type}.
  Variable q : parser B.
  Variable w : A -> text.
  Variable f : A -> B.
  Variable l : list A.
  Hypothesis element : forall x, In x l -> forall lead rest, lead = [] \/ lead = [32] -> delimited rest -> q (lead ++ w x ++ rest) = Ok (f x) rest.
  Variable close : N.
  Hypothesis closes : closing close.
  Fixpoint tail (l : list A) : text := match l with [] => [] | x :: l => 44 :: 32 :: w x ++ tail l end.
  Lemma join_tail : forall x l, join (lit ", ") (map w (x :: l)) = w x ++ tail l.
  Proof. intros x l0. revert x. induction l0 as [|y l0 IH]; intros; [cbn; symmetry; apply app_nil_r|]. change (join (lit ", ") (map w (x :: y :: l0))) with (w x ++ lit ", " ++ join (lit ", ") (map w (y :: l0))). rewrite IH. reflexivity. Qed.
  Lemma tail_delimited : forall l rest, delimited (tail l ++ close :: rest).
  Proof. intros [|x l0] rest; cbn; do 2 eexists; (split; [reflexivity|]); auto. Qed.
  Lemma more_ok : forall m n rest, (forall x, In x m -> In x l) -> (List.length m < n)%nat -> more n q (tail m ++ close :: rest) = Ok (map f m) (close :: rest).
  Proof.
    induction m as [|x m IH]; intros n rest Hin Hn; (destruct n as [|n]; [cbn in Hn; lia|]); cbn [more].
    - cbn [tail app]. rewrite pbind_fail; [reflexivity|]. apply tok_no. unfold closing in closes. cbn. lia.
    - cbn [tail app]. rewrite (pbind_ok _ _ _ _ _ tt (32 :: (w x ++ tail m) ++ close :: rest)) by apply tok_ok. rewrite <- app_assoc.
      change (32 :: w x ++ tail m ++ close :: rest) with ([32] ++ w x ++ tail m ++ close :: rest).
      rewrite element by (auto using in_eq; apply tail_delimited). cbn [map]. apply pmap_ok. apply IH. intros; apply Hin; right; auto. cbn in Hn. lia.
  Qed.
  Lemma separated_ok : forall n rest, (List.length l <= n)%nat -> l <> [] -> separated0 n q (join (lit ", ") (map w l) ++ close :: rest) = Ok (map f l) (close :: rest).
  Proof.
    intros n rest Hn Hl. destruct l as [|x m] eqn:El; [contradiction|]. rewrite join_tail. rewrite <- app_assoc. unfold separated0.
    change (w x ++ tail m ++ close :: rest) with ([] ++ w x ++ tail m ++ close :: rest). rewrite <- El in element. rewrite element; auto.
    2: { rewrite El. left; auto. } 2: apply tail_delimited. cbn [map]. apply pmap_ok. rewrite <- El in Hn. apply more_ok. rewrite El. intros; right; auto. rewrite El in Hn. cbn in Hn. lia.
  Qed.
  Lemma separated_all : forall n rest, (List.length l <= n)%nat -> q (close :: rest) = Fail -> separated0 n q (join (lit ", ") (map w l) ++ close :: rest) = Ok (map f l) (close :: rest).
  Proof. intros n rest Hn Hq. destruct l eqn:El. cbn. unfold separated0. rewrite Hq. reflexivity. rewrite <- El in *. apply separated_ok; auto. rewrite El. discriminate. Qed.
End Lists.

(** ** Sizes *)
Fixpoint wt (t : ty) : nat :=
  match t with
  | Ty _ _ ps ats => S (list_sum (map wt ps) + list_sum (map (fun kv => match kv with (_, v) => wa v end) ats))
  | Alias _ => 1%nat
  end
with wa (a : attr) : nat :=
  match a with
  | Type_ t => (2 + wt t)%nat
  | List l => (3 + list_sum (map wa l))%nat
  | _ => 2%nat
  end.
Lemma wt_pos : forall t, (1 <= wt t)%nat.
Proof. destruct t; cbn; lia. Qed.
Lemma wa_pos : forall t, (2 <= wa t)%nat.
Proof. destruct t; cbn; lia. Qed.
Lemma sum_in : forall A (f : A -> nat) l x, In x l -> (f x <= list_sum (map f l))%nat.
Proof. induction l; intros; [contradiction|]. change (list_sum (map f (a :: l))) with (f a + list_sum (map f l))%nat. destruct H as [->|H]; [lia|]. apply IHl in H. lia. Qed.
Lemma sum_length : forall A (f : A -> nat) l, (forall x, 1 <= f x)%nat -> (List.length l <= list_sum (map f l))%nat.
Proof. induction l; intros; [cbn; lia|]. change (list_sum (map f (a :: l))) with (f a + list_sum (map f l))%nat. specialize (IHl H). specialize (H a). cbn [List.length]. lia. Qed.

Section Main.
  Variable alias : ty -> option text.
  Variable show : N -> text.
  Variable finite : N -> bool.
  Variable read : text -> option N.
  Hypothesis floats : decimal_floats show finite read.
  Local Notation wtype := (write_type alias show finite).
  Local Notation wattr := (write_attr alias show finite).
  Local Notation rtype := (raw_type read).
  Local Notation rattr := (raw_attr read).

  (** Floats. *)
  Lemma digits_no : forall c s, Forall is_digit s -> ~ is_digit c -> contains c s = false.
  Proof. intros. unfold contains. destruct (existsb (N.eqb c) s) eqn:E; auto. apply existsb_exists in E. destruct E as (x & Hx & Ex). apply N.eqb_eq in Ex. subst. rewrite Forall_forall in H. exfalso. auto. Qed.
  Lemma write_float_shape : forall b, finite b = true -> exists s i g, (s = [] \/ s = lit "-") /\ numeral i /\ numeral g
    /\ write_float show finite b = s ++ i ++ 46 :: g /\ read (s ++ i ++ 46 :: g) = Some b.
  Proof.
    intros b Hb. destruct (floats b Hb) as (s & i & g & Hs & Hi & Hg & Hshow & Hread). exists s, i, g. repeat (split; [assumption|]). split; [|exact Hread].
    unfold write_float. rewrite Hb. cbn [andb]. destruct Hshow as [E|[E Eg]].
    - replace (contains (ch ".") (show b)) with true. cbn. exact E. symmetry. rewrite E. unfold contains. apply existsb_exists. exists 46. split; [|reflexivity].
      apply in_or_app. right. apply in_or_app. right. left. reflexivity.
    - assert (F : forall c, c <> 45 -> ~ is_digit c -> contains c (show b) = false).
      { intros c Hc Hd. rewrite E. unfold contains. rewrite existsb_app. apply orb_false_iff. split.
        - destruct Hs as [->| ->]; [reflexivity|]. cbn. apply orb_false_iff. split; [|reflexivity]. apply N.eqb_neq. exact Hc.
        - apply (digits_no c i); auto. apply Hi. }
      rewrite !F by (unfold is_digit, ch; cbn; lia). cbn [negb andb]. rewrite E, Eg. rewrite <- app_assoc. reflexivity.
  Qed.
  Lemma numeral_cons : forall i, numeral i -> exists c l, i = c :: l /\ is_digit c.
  Proof. intros i (A & B). destruct i as [|c l]; [contradiction|]. inversion B; subst. eauto. Qed.
  Lemma sign_ok : forall s i rest, (s = [] \/ s = lit "-") -> numeral i -> opt (tok (ch "-")) (s ++ i ++ rest) = Ok (match s with [] => None | _ => Some tt end) (i ++ rest).
  Proof.
    intros s i rest [->| ->] Hi. destruct (numeral_cons i Hi) as (c & l & -> & Hc). apply minus_no; auto. apply opt_ok. apply tok_ok.
  Qed.
  Lemma float_ok : forall b rest, finite b = true -> not_first (fun c => is_digit c \/ c = ch "e" \/ c = ch "E") rest ->
    float_with_dot read (write_float show finite b ++ rest) = Ok b rest.
  Proof.
    intros b rest Hb Hr. destruct (write_float_shape b Hb) as (s & i & g & Hs & Hi & Hg & E & R). rewrite E. rewrite <- !app_assoc. cbn [app].
    unfold float_with_dot. erewrite pbind_ok by (apply sign_ok; auto).
    rewrite (pbind_ok _ _ _ _ _ i (46 :: g ++ rest)). 2: { apply take_digits; auto. apply nf_cons. unfold is_digit. lia. }
    rewrite (pbind_ok _ _ _ _ _ tt (g ++ rest)) by apply tok_ok.
    rewrite (pbind_ok _ _ _ _ _ g rest). 2: { apply take_digits; auto. intros c r Er D. apply (Hr c r Er). auto. }
    rewrite (pbind_ok _ _ _ _ _ None rest).
    2: { apply opt_fail. apply pbind_fail. destruct rest as [|c r]; [reflexivity|]. unfold one_of. specialize (Hr c r eq_refl).
         destruct (N.eqb_spec c 101); [exfalso; apply Hr; right; left; auto|]. destruct (N.eqb_spec c 69); [exfalso; apply Hr; right; right; auto|]. reflexivity. }
    rewrite app_nil_r. replace (match match s with [] => None | _ :: _ => Some tt end with Some _ => [ch "-"] | None => [] end) with s.
    2: { destruct Hs as [->| ->]; reflexivity. }
    change (ch ".") with 46. rewrite R. reflexivity.
  Qed.

  (** First characters. *)
  Lemma type_first : forall t, type_ok alias finite t -> exists c l, wtype t = c :: l /\ (name_start c \/ c = 33).
  Proof.
    intros t H. inversion H; subst; cbn [write_type]; rewrite H0.
    - unfold write_alias_name. eauto.
    - destruct H1 as (c & l & -> & Hc & Hl). cbn [app]. do 2 eexists. split; [reflexivity|]. auto.
  Qed.
  Lemma write_int_first : forall z, exists c l, write_int z = c :: l /\ (c = 45 \/ is_digit c).
  Proof.
    intros. unfold write_int. destruct (z <? 0)%Z; [eauto|]. destruct (write_uint_cons (Z.to_N z)) as (c & l & -> & H & _). eauto.
  Qed.
  Lemma write_float_first : forall b, finite b = true -> exists c l, write_float show finite b = c :: l /\ (c = 45 \/ is_digit c).
  Proof.
    intros b Hb. destruct (write_float_shape b Hb) as (s & i & g & Hs & Hi & Hg & E & R). rewrite E. destruct (numeral_cons i Hi) as (c & l & -> & Hc).
    destruct Hs as [->| ->]; cbn [app lit]; do 2 eexists; (split; [reflexivity|]); auto.
  Qed.
  Definition attr_start (c : N) : Prop := name_char c \/ c = 33 \/ c = 45 \/ c = 34 \/ c = 64 \/ c = 91.
  Lemma attr_first : forall a, attr_ok alias finite a -> exists c l, wattr a = c :: l /\ attr_start c.
  Proof.
    intros a H. unfold attr_start. inversion H; subst; try (match goal with |- context [wattr (Type_ ?t)] => change (wattr (Type_ t)) with (wtype t) end); cbn [write_attr].
    - do 2 eexists. split; [reflexivity|]. left. left. apply word_start_spec. reflexivity.
    - destruct b; do 2 eexists; (split; [reflexivity|]); left; left; apply word_start_spec; reflexivity.
    - destruct (write_int_first z) as (c & l & -> & [->|Hc]); do 2 eexists; (split; [reflexivity|]); auto. left. right. auto.
    - destruct (write_float_first b H0) as (c & l & -> & [->|Hc]); do 2 eexists; (split; [reflexivity|]); auto. left. right. auto.
    - unfold quote. eauto 10.
    - do 2 eexists; (split; [reflexivity|]). left. left. apply word_start_spec. reflexivity.
    - unfold write_symbol. do 2 eexists; (split; [reflexivity|]). cbv. auto 10.
    - destruct (type_first _ H0) as (c & l & -> & [Hc|Hc]); do 2 eexists; (split; [reflexivity|]); auto. left. left. auto.
    - do 2 eexists; (split; [reflexivity|]). auto 10.
    - do 2 eexists. split; [reflexivity|]. left. left. apply word_start_spec. reflexivity.
  Qed.
  Lemma attr_start_bounds : forall c, attr_start c -> 33 <= c /\ c <> 93 /\ c <> 125 /\ c <> 41 /\ c <> 44.
  Proof. intros c H. unfold attr_start, name_char, name_start, is_digit in H. lia. Qed.
  Lemma attr_start_blank : forall c r, attr_start c -> not_first blank (c :: r).
  Proof. intros. apply nf_cons. apply attr_start_bounds in H. unfold blank. lia. Qed.
  Lemma type_start_attr : forall c, name_start c \/ c = 33 -> attr_start c.
  Proof. intros c [H| ->]; [left; left; auto|right; auto]. Qed.

  (** Failures. *)
  Lemma rtype_no : forall fuel c r, c <> 33 -> ~ name_start c -> rtype (S fuel) (c :: r) = Fail.
  Proof.
    intros. cbn [raw_type]. unfold starts. change (ch "!") with 33. destruct (N.eqb_spec c 33); [contradiction|]. apply pbind_fail. unfold qualified_name. apply pbind_fail.
    apply ident_no. auto.
  Qed.
  Lemma rattr_skip : forall fuel c r, ~ name_start c -> c <> 34 -> c <> 64 -> c <> 91 ->
    rattr (S fuel) (c :: r) = orelse (pmap Float (float_with_dot read)) (orelse (pmap Int integer_lit) (pmap Type_ (rtype fuel))) (c :: r).
  Proof.
    intros fuel c r H N1 N2 N3. cbn [raw_attr]. unfold name_start in H.
    rewrite orelse_fail by (apply pmap_fail; apply word_first; cbn; lia). rewrite orelse_fail by (apply pmap_fail; apply word_first; cbn; lia).
    rewrite orelse_fail by (apply pmap_fail; apply word_first; cbn; lia).
    rewrite orelse_fail by (unfold location; apply pbind_fail; apply word_first; cbn; lia).
    rewrite orelse_fail by (unfold bytes_lit; apply pbind_fail; apply tok_no; cbn; lia).
    rewrite orelse_fail by (apply pmap_fail; unfold string_lit; apply pbind_fail; apply tok_no; cbn; lia).
    rewrite orelse_fail by (apply pmap_fail; unfold symbol_ref; apply pbind_fail; apply tok_no; cbn; lia).
    rewrite orelse_fail by (apply pbind_fail; apply tok_no; cbn; lia). reflexivity.
  Qed.
  Lemma float_no : forall c r, c <> 45 -> ~ is_digit c -> float_with_dot read (c :: r) = Fail.
  Proof.
    intros. unfold float_with_dot. rewrite (pbind_ok _ _ _ _ _ None (c :: r)). 2: { apply opt_fail. apply tok_no. exact H. }
    apply pbind_fail. apply take1_none. apply (not_true _ _ (digit_spec c)). auto.
  Qed.
  Lemma integer_no : forall c r, c <> 45 -> ~ is_digit c -> integer_lit (c :: r) = Fail.
  Proof.
    intros. unfold integer_lit. rewrite (pbind_ok _ _ _ _ _ None (c :: r)). 2: { apply opt_fail. apply tok_no. exact H. }
    apply pbind_fail. apply take1_none. apply (not_true _ _ (digit_spec c)). auto.
  Qed.
  Lemma rattr_no : forall fuel c r, ~ attr_start c -> rattr (S (S fuel)) (c :: r) = Fail.
  Proof.
    intros fuel c r H. unfold attr_start, name_char in H. rewrite rattr_skip by tauto.
    rewrite orelse_fail by (apply pmap_fail; apply float_no; tauto). rewrite orelse_fail by (apply pmap_fail; apply integer_no; tauto).
    apply pmap_fail. apply rtype_no; tauto.
  Qed.

  (** A type name in the place of an attribute value. *)
  Lemma prefix_in : forall (k : text) r d x, Forall name_char k -> d ++ 46 :: x = k ++ r -> exists r', d = k ++ r'.
  Proof.
    induction k as [|c k IH]; intros r d x Hk E; [eexists; reflexivity|]. inversion Hk; subst. destruct d as [|y d].
    - inversion E; subst. apply char_bounds in H1. lia.
    - inversion E; subst. destruct (IH r d x H2 H3) as (r' & ->). exists r'. reflexivity.
  Qed.
  Lemma keyword_no : forall k d x, Forall name_char k -> (forall r, d <> k ++ r) -> word_lit k (d ++ 46 :: x) = Fail.
  Proof. intros. apply word_no. intros r E. destruct (prefix_in _ _ _ _ H E) as (r' & Er). exact (H0 r' Er). Qed.
  Lemma lit_chars : forall k, In k [lit "true"; lit "false"; lit "unit"; lit "loc"] -> Forall name_char k.
  Proof. intros k H. apply forallb_word. cbn [In] in H. decompose [or] H; subst; try reflexivity. contradiction. Qed.
  Lemma prefix_dec : forall (k i : text), (exists r, i = k ++ r) \/ (forall r, i <> k ++ r).
  Proof.
    induction k as [|c k IH]; intros i; [left; exists i; reflexivity|]. destruct i as [|x i]; [right; intros r E; discriminate|].
    destruct (N.eq_dec x c) as [->|D]; [|right; intros r E; inversion E; congruence].
    destruct (IH i) as [(r & ->)|H]; [left; exists r; reflexivity|right; intros r E; inversion E; eapply H; eauto].
  Qed.
  Lemma location_no : forall d x, identifier d -> location (d ++ 46 :: x) = Fail.
  Proof.
    intros d x Hd. unfold location. destruct (prefix_dec (lit "loc") d) as [(r' & ->)|F].
    2: { apply pbind_fail. apply keyword_no; auto. apply lit_chars. cbn. auto. }
    apply identifier_chars in Hd. apply Forall_app in Hd. destruct Hd as (_ & Hd).
    assert (F : not_first (fun c => blank c \/ c = 40) (r' ++ 46 :: x)).
    { destruct r' as [|c r']; apply nf_cons. unfold blank. lia. inversion Hd; subst. apply char_bounds in H1. unfold blank. lia. }
    rewrite <- app_assoc. rewrite (pbind_ok _ _ _ _ _ tt (r' ++ 46 :: x)) by apply word_ok.
    rewrite (pbind_ok _ _ _ _ _ tt (r' ++ 46 :: x)). 2: { apply ws_none. intros c r Er D. apply (F c r Er). auto. }
    apply pbind_fail. apply tok_fail. intros c r Er D. apply (F c r Er). auto.
  Qed.
  Lemma bytes_no : forall d x, identifier d -> bytes_lit (d ++ 46 :: x) = Fail.
  Proof.
    intros d x (c & l & -> & Hc & Hl). unfold bytes_lit. cbn [app]. destruct (N.eq_dec c 98) as [->|D].
    - rewrite (pbind_ok _ _ _ _ _ tt (l ++ 46 :: x)) by apply tok_ok. apply pbind_fail. apply tok_fail.
      destruct l as [|y l]; apply nf_cons. lia. inversion Hl; subst. apply char_bounds in H1. lia.
    - apply pbind_fail. apply tok_no. exact D.
  Qed.
  Lemma rattr_type : forall fuel d x, identifier d -> no_keyword d -> rattr (S fuel) (d ++ 46 :: x) = pmap Type_ (rtype fuel) (d ++ 46 :: x).
  Proof.
    intros fuel d x Hd Hk. cbn [raw_attr].
    rewrite orelse_fail. 2: { apply pmap_fail. apply keyword_no. apply lit_chars; cbn; auto. intros r. apply Hk. cbn; auto. }
    rewrite orelse_fail. 2: { apply pmap_fail. apply keyword_no. apply lit_chars; cbn; auto. intros r. apply Hk. cbn; auto. }
    rewrite orelse_fail. 2: { apply pmap_fail. apply keyword_no. apply lit_chars; cbn; auto. intros r. apply Hk. cbn; auto. }
    rewrite orelse_fail by (apply location_no; auto). rewrite orelse_fail by (apply bytes_no; auto).
    destruct Hd as (c & l & -> & Hc & Hl). pose proof (start_bounds c Hc) as B. pose proof (start_not_digit c Hc) as ND. cbn [app].
    assert (c <> 91) by (unfold name_start in Hc; lia).
    rewrite orelse_fail by (apply pmap_fail; unfold string_lit; apply pbind_fail; apply tok_no; cbn; lia).
    rewrite orelse_fail by (apply pmap_fail; unfold symbol_ref; apply pbind_fail; apply tok_no; cbn; lia).
    rewrite orelse_fail by (apply pbind_fail; apply tok_no; cbn; lia).
    rewrite orelse_fail by (apply pmap_fail; apply float_no; auto; lia). rewrite orelse_fail by (apply pmap_fail; apply integer_no; auto; lia). reflexivity.
  Qed.

  (** What must not happen after a printed type: its end being taken for the beginning of more. *)
  Definition no_dict (rest : text) : Prop := forall n p, (_ <~ ws ;; dict n p) rest = Fail.
  Definition ends_type (t : ty) (rest : text) : Prop :=
    match t with
    | Alias _ => not_first name_char rest
    | Ty d n ps ats =>
        match alias t with
        | Some _ => not_first name_char rest
        | None =>
            match ps, ats with
            | [], [] => not_first (fun c => name_char c \/ c = ch "(") rest
            | _, [] => no_dict rest
            | _, _ => True
            end
        end
    end.
  Definition ends_attr (a : attr) (rest : text) : Prop := match a with Type_ t => ends_type t rest | a => after_attr alias a rest end.
  Lemma dict_no : forall n p i, not_first (fun c => c = 123) i -> dict n p i = Fail.
  Proof. intros. unfold dict. apply pbind_fail. apply tok_fail. auto. Qed.
  (** Skipping blanks, in general. *)
  Lemma ws_any : forall i, exists w r, i = w ++ r /\ Forall blank w /\ ws i = Ok tt r /\ not_first blank r.
  Proof.
    induction i as [|c i (w & r & -> & Hw & E & Hr)]; [exists [], []; repeat split; auto; apply nf_nil|].
    destruct (space c) eqn:Ec.
    - exists (c :: w), r. repeat split; auto. constructor; auto. apply space_spec; auto. unfold ws, pmap, pbind, take_while in *. cbn [span]. rewrite Ec. cbn [app]. destruct (span space (w ++ r)). unfold ret in *. exact E.
    - exists [], (c :: w ++ r). assert (~ blank c). { intros D. apply space_spec in D. congruence. } repeat split; auto. apply ws_none. apply nf_cons; auto. apply nf_cons; auto.
  Qed.
  Lemma no_dict_after : forall rest, (forall w r, rest = w ++ ch "{" :: r -> ~ Forall blank w) -> no_dict rest.
  Proof.
    intros rest H n p. destruct (ws_any rest) as (w & r & Er & Hw' & Ew & Hr). rewrite (pbind_ok _ _ _ _ _ tt r Ew). apply dict_no. destruct r as [|c r]; [apply nf_nil|]. apply nf_cons. intros ->.
    exact (H w r Er Hw').
  Qed.
  Lemma after_ends : forall t rest, after_type alias t rest -> ends_type t rest.
  Proof.
    intros t rest H. unfold after_type, ends_type in *. destruct t as [d n ps ats|a]; auto. destruct (alias _); auto. destruct ps, ats; auto. apply no_dict_after; auto.
  Qed.
  Lemma after_ends_attr : forall a rest, after_attr alias a rest -> ends_attr a rest.
  Proof. intros. destruct a; auto. apply after_ends; auto. Qed.

  (** What follows an element of a list. *)
  Lemma after_type_delimited : forall t rest, delimited rest -> after_type alias t rest.
  Proof.
    intros t rest H. unfold after_type. destruct t as [d n ps ats|a]; [|apply delimited_word; auto]. destruct (alias _); [apply delimited_word; auto|].
    assert (K : forall w r, rest = w ++ ch "{" :: r -> ~ Forall blank w).
    { destruct H as (c & r & -> & Hc). intros w r' E Hw. destruct w as [|y w]; inversion E; subst. cbn in Hc. unfold closing in Hc. lia.
      inversion Hw; subst. unfold closing, blank in *. lia. }
    destruct ps, ats; auto. eapply delimited_not; eauto. unfold closing, name_char, name_start, is_digit. intros c Hc [D|D]; [lia|]. cbn in D. lia.
  Qed.
  Lemma after_attr_delimited : forall a rest, delimited rest -> after_attr alias a rest.
  Proof.
    intros a rest H. destruct a; cbn [after_attr]; auto.
    - eapply delimited_not; eauto. unfold closing, is_digit. intros c Hc [D|D]; [lia|]. cbn in D. lia.
    - eapply delimited_not; eauto. unfold closing, is_digit. intros c Hc [D|[D|D]]; [lia|..]; cbn in D; lia.
    - apply delimited_word; auto.
    - apply after_type_delimited; auto.
  Qed.
  Lemma spaced_ok : forall A (p : parser A) lead c l a rest, lead = [] \/ lead = [32] -> attr_start c -> p ((c :: l) ++ rest) = Ok a rest -> delimited rest ->
    spaced p (lead ++ (c :: l) ++ rest) = Ok a rest.
  Proof.
    intros A p lead c l a rest Hl Hc Hp Hr. unfold spaced. rewrite (pbind_ok _ _ _ _ _ tt ((c :: l) ++ rest)).
    2: { destruct Hl as [->| ->]; cbn [app]; [apply ws_none|apply ws_space]; apply attr_start_blank; auto. }
    rewrite (pbind_ok _ _ _ _ _ a rest) by auto. rewrite (pbind_ok _ _ _ _ _ tt rest); [reflexivity|]. apply ws_none. apply delimited_blank; auto.
  Qed.
  Lemma closing_blank : forall c r, closing c -> not_first blank (c :: r).
  Proof. intros. apply nf_cons. unfold closing, blank in *. lia. Qed.
  Lemma spaced_no : forall A (p : parser A) c r, closing c -> p (c :: r) = Fail -> spaced p (c :: r) = Fail.
  Proof. intros. unfold spaced. rewrite (pbind_ok _ _ _ _ _ tt (c :: r)) by (apply ws_none; apply closing_blank; auto). apply pbind_fail. auto. Qed.
  Lemma closing_start : forall c, closing c -> ~ attr_start c.
  Proof. intros c H D. apply attr_start_bounds in D. unfold closing in H. lia. Qed.

  (** One entry of a dictionary. *)
  Definition entry (value : parser attr) : parser (text * attr) :=
    _ <~ ws ;; k <~ attribute_key ;; _ <~ ws ;; _ <~ tok (ch "=") ;; _ <~ ws ;; v <~ value ;; _ <~ ws ;; ret (k, v).
  Lemma entry_ok : forall p lead k v a rest, lead = [] \/ lead = [32] -> dotted k -> (exists c l, v = c :: l /\ attr_start c) -> p (v ++ rest) = Ok a rest -> delimited rest ->
    entry p (lead ++ (k ++ lit " = " ++ v) ++ rest) = Ok (k, a) rest.
  Proof.
    intros p lead k v a rest Hl Hk (c & l & Ev & Hc) Hp Hr. unfold entry. rewrite <- !app_assoc. destruct (key_start k Hk) as (y & z & Ek & Hy).
    rewrite (pbind_ok _ _ _ _ _ tt (k ++ lit " = " ++ v ++ rest)).
    2: { assert (not_first blank (k ++ lit " = " ++ v ++ rest)).
         { rewrite Ek. cbn [app]. apply attr_start_blank. left. left. auto. }
         destruct Hl as [->| ->]; cbn [app]; [apply ws_none|apply ws_space]; auto. }
    rewrite (pbind_ok _ _ _ _ _ k (32 :: 61 :: 32 :: v ++ rest)).
    2: { apply key_ok; auto. apply nf_cons. intros [D|D]; [apply char_bounds in D|]; lia. }
    rewrite (pbind_ok _ _ _ _ _ tt (61 :: 32 :: v ++ rest)). 2: { apply ws_space. apply nf_cons. unfold blank. lia. }
    rewrite (pbind_ok _ _ _ _ _ tt (32 :: v ++ rest)) by apply tok_ok.
    rewrite (pbind_ok _ _ _ _ _ tt (v ++ rest)). 2: { apply ws_space. rewrite Ev. cbn [app]. apply attr_start_blank. auto. }
    rewrite (pbind_ok _ _ _ _ _ a rest) by auto. rewrite (pbind_ok _ _ _ _ _ tt rest) by (apply ws_none; apply delimited_blank; auto). reflexivity.
  Qed.
  Lemma entry_no : forall p c r, closing c -> entry p (c :: r) = Fail.
  Proof.
    intros p c r H. unfold entry. rewrite (pbind_ok _ _ _ _ _ tt (c :: r)) by (apply ws_none; apply closing_blank; auto). apply pbind_fail.
    unfold attribute_key. apply pbind_fail. apply take1_none. apply orb_false_iff. split.
    - apply (not_true _ _ (word_spec c)). intros D. apply (closing_start c H). left. auto.
    - apply N.eqb_neq. unfold closing in H. lia.
  Qed.
  Definition write_entry (kv : text * attr) : text := match kv with (k, v) => k ++ lit " = " ++ wattr v end.
  Definition read_entry (kv : text * attr) : text * attr := match kv with (k, v) => (k, abbreviated_attr alias v) end.
  Lemma dict_ok : forall ats n p rest, (List.length ats <= n)%nat -> Forall (fun kv => dotted (fst kv) /\ attr_ok alias finite (snd kv)) ats ->
    (forall k v r, In (k, v) ats -> delimited r -> p (wattr v ++ r) = Ok (abbreviated_attr alias v) r) ->
    dict n p (ch "{" :: join (lit ", ") (map write_entry ats) ++ 125 :: rest) = Ok (map read_entry ats) rest.
  Proof.
    intros ats n p rest Hn Ho Hp. unfold dict. rewrite (pbind_ok _ _ _ _ _ tt (join (lit ", ") (map write_entry ats) ++ 125 :: rest)) by apply tok_ok.
    assert (HC : closing 125) by (unfold closing; auto).
    assert (F : not_first blank (join (lit ", ") (map write_entry ats) ++ 125 :: rest)).
    { destruct ats as [|[k v] ats]; [apply nf_cons; unfold blank; cbn; lia|]. inversion Ho; subst. destruct (key_start k (proj1 H1)) as (y & z & -> & Hy).
      rewrite join_tail. cbn [write_entry app]. apply attr_start_blank. left. left. auto. }
    rewrite (pbind_ok _ _ _ _ _ tt (join (lit ", ") (map write_entry ats) ++ 125 :: rest)) by (apply ws_none; auto).
    rewrite (pbind_ok _ _ _ _ _ (map read_entry ats) (125 :: rest)).
    - rewrite (pbind_ok _ _ _ _ _ tt (125 :: rest)) by (apply ws_none; apply closing_blank; auto). rewrite (pbind_ok _ _ _ _ _ tt rest) by apply tok_ok. reflexivity.
    - apply (separated_all (entry p)); auto.
      + intros [k v] Hin lead r Hl Hr. rewrite Forall_forall in Ho. destruct (Ho _ Hin) as (Hk & Hv). cbn [write_entry read_entry].
        apply entry_ok; auto. destruct (attr_first _ Hv) as (c & l & E & Hc). eauto. eapply Hp; eauto.
  Qed.

  Theorem round_trip : forall n,
    (forall t, (wt t <= n)%nat -> type_ok alias finite t -> forall fuel rest, (wt t <= fuel)%nat -> ends_type t rest -> rtype fuel (wtype t ++ rest) = Ok (abbreviated alias t) rest)
    /\ (forall a, (wa a <= n)%nat -> attr_ok alias finite a -> forall fuel rest, (wa a <= fuel)%nat -> ends_attr a rest -> rattr fuel (wattr a ++ rest) = Ok (abbreviated_attr alias a) rest).
  Proof.
    induction n as [|n [IHt IHa]].
    { split; intros; [pose proof (wt_pos t)|pose proof (wa_pos a)]; lia. }
    split.
    - intros t Hw Ho fuel rest Hf Ha. destruct fuel as [|fuel]; [pose proof (wt_pos t); lia|]. inversion Ho as [d n0 ps ats a Ea Hn|d n0 ps ats Ea Hd Hn Hps Hats]; subst.
      + cbn [write_type abbreviated]. unfold ends_type in Ha. rewrite Ea in *. cbn [raw_type]. replace (starts (ch "!") (write_alias_name a ++ rest)) with true by reflexivity.
        apply alias_ok; auto.
      + cbn [write_type abbreviated]. unfold ends_type in Ha. rewrite Ea in *. cbn [raw_type].
        rewrite <- app_assoc. cbn [app]. rewrite <- app_assoc.
        match goal with |- (if starts _ (d ++ ch "." :: n0 ++ ?x) then _ else _) = _ => remember x as tl eqn:Etl end.
        replace (starts (ch "!") (d ++ ch "." :: n0 ++ tl)) with false.
        2: { destruct Hd as (c & l & -> & Hc & _). symmetry. apply N.eqb_neq. apply start_bounds in Hc. cbn. lia. }
        assert (W1 : forall t, In t ps -> (wt t <= n /\ wt t <= fuel)%nat).
        { intros t Ht. cbn in Hw, Hf. pose proof (sum_in _ wt ps t Ht). lia. }
        assert (W2 : forall k v, In (k, v) ats -> (wa v <= n /\ wa v <= fuel)%nat).
        { intros k v Ht. cbn in Hw, Hf. pose proof (sum_in _ (fun kv : text * attr => match kv with (_, v) => wa v end) ats _ Ht). cbn in H. lia. }
        pose (params := (_ <~ tok (ch "(") ;; _ <~ ws ;; l <~ separated0 fuel (spaced (rtype fuel)) ;; _ <~ ws ;; _ <~ tok (ch ")") ;; ret l)).
        assert (PS : (1 <= fuel)%nat -> forall r, params (ch "(" :: join (lit ", ") (map wtype ps) ++ 41 :: r) = Ok (map (abbreviated alias) ps) r).
        { intros Hfu r. unfold params. rewrite (pbind_ok _ _ _ _ _ tt (join (lit ", ") (map wtype ps) ++ 41 :: r)) by apply tok_ok.
          assert (HC : closing 41) by (unfold closing; auto).
          rewrite (pbind_ok _ _ _ _ _ tt (join (lit ", ") (map wtype ps) ++ 41 :: r)).
          2: { apply ws_none. destruct ps as [|t ps']; [apply closing_blank; auto|]. inversion Hps; subst. destruct (type_first _ H1) as (c & l & E & Hc). rewrite join_tail, E. cbn [app].
               apply attr_start_blank. apply type_start_attr; auto. }
          rewrite (pbind_ok _ _ _ _ _ (map (abbreviated alias) ps) (41 :: r)).
          2: { apply (separated_all (spaced (rtype fuel))); auto.
               - intros t Ht lead r' Hl Hr'. rewrite Forall_forall in Hps. pose proof (Hps _ Ht) as Hto. destruct (type_first _ Hto) as (c & l & E & Hc). rewrite E.
                 apply spaced_ok; auto. apply type_start_attr; auto. rewrite <- E. apply IHt; auto; try apply W1; auto. apply after_ends; apply after_type_delimited; auto.
               - cbn in Hf. pose proof (sum_length _ wt ps wt_pos). lia.
               - apply spaced_no; auto. destruct fuel; [lia|]. apply rtype_no. lia. unfold name_start. lia. }
          rewrite (pbind_ok _ _ _ _ _ tt (41 :: r)) by (apply ws_none; apply closing_blank; auto). rewrite (pbind_ok _ _ _ _ _ tt r) by apply tok_ok. reflexivity. }
        fold params.
        assert (QN : not_first name_char tl -> qualified_name (d ++ ch "." :: n0 ++ tl) = Ok (d, n0) tl) by (apply qualified_ok; auto).
        assert (CASES : (ps = [] /\ ats = [] /\ tl = rest) \/ ((ps <> [] \/ ats <> []) /\ tl = ch "(" :: join (lit ", ") (map wtype ps) ++ 41 ::
                  (match ats with [] => [] | _ => lit " {" ++ join (lit ", ") (map write_entry ats) ++ [ch "}"] end) ++ rest)).
        { subst tl. destruct ps as [|t ps'].
          - destruct ats as [|kv ats']; [left; auto|]. right. split; [right; discriminate|]. cbn [map join app]. rewrite <- !app_assoc. reflexivity.
          - right. split; [left; discriminate|]. rewrite <- !app_assoc. cbn [app]. rewrite <- !app_assoc. reflexivity. }
        clear Etl. destruct CASES as [(-> & -> & ->)|(HNE & ->)].
        * rewrite (pbind_ok _ _ _ _ _ (d, n0) rest). 2: { apply QN. intros c r Er D. apply (Ha c r Er). auto. }
          rewrite (pbind_ok _ _ _ _ _ None rest). 2: { apply opt_fail. unfold params. apply pbind_fail. apply tok_fail. intros c r Er D. apply (Ha c r Er). auto. }
          reflexivity.
        * assert (FU : (1 <= fuel)%nat).
          { cbn in Hf. pose proof (sum_length _ wt ps wt_pos).
            pose proof (sum_length _ (fun kv : text * attr => match kv with (_, v) => wa v end) ats) as SL.
            assert (forall x : text * attr, (1 <= match x with (_, v) => wa v end)%nat) as SP by (intros [k v]; pose proof (wa_pos v); lia). specialize (SL SP).
            destruct HNE as [HNE|HNE]; [destruct ps|destruct ats]; cbn [List.length] in *; try contradiction; lia. }
          erewrite pbind_ok. 2: { apply QN. apply nf_cons. unfold name_char, name_start, is_digit. cbn. lia. }
          erewrite pbind_ok. 2: { apply opt_ok. apply PS. exact FU. }
          cbn [fst snd]. destruct ats as [|kv ats'] eqn:EA.
          -- cbn [map app]. rewrite (pbind_ok _ _ _ _ _ None rest); [reflexivity|]. apply opt_fail.
             destruct ps; [destruct HNE; contradiction|]. apply Ha.
          -- rewrite <- EA in *. replace (match ats with [] => [] | _ :: _ => lit " {" ++ join (lit ", ") (map write_entry ats) ++ [ch "}"] end) with (lit " {" ++ join (lit ", ") (map write_entry ats) ++ [ch "}"]) by (rewrite EA; reflexivity).
             rewrite (pbind_ok _ _ _ _ _ (Some (map read_entry ats)) rest); [reflexivity|]. apply opt_ok. rewrite <- !app_assoc. cbn [app].
             rewrite (pbind_ok _ _ _ _ _ tt (ch "{" :: join (lit ", ") (map write_entry ats) ++ 125 :: rest)). 2: { apply ws_space. apply nf_cons. unfold blank. cbn. lia. }
             apply dict_ok; auto.
             ++ cbn in Hf. pose proof (sum_length _ (fun kv : text * attr => match kv with (_, v) => wa v end) ats) as SL.
                assert (forall x : text * attr, (1 <= match x with (_, v) => wa v end)%nat) as SP by (intros [k v]; pose proof (wa_pos v); lia). specialize (SL SP). lia.
             ++ intros k v r Hin Hr. destruct (W2 k v Hin). rewrite Forall_forall in Hats. apply IHa; auto. apply (Hats (k, v) Hin). apply after_ends_attr; apply after_attr_delimited; auto.
    - intros a Hw Ho fuel rest Hf Ha. destruct fuel as [|fuel]; [pose proof (wa_pos a); lia|]. inversion Ho; subst.
      + reflexivity.
      + destruct b; reflexivity.
      + change (wattr (Int z)) with (write_int z). destruct (write_int_first z) as (c & l & E & Hc). rewrite E. cbn [app].
        rewrite rattr_skip by (unfold name_start; unfold is_digit in Hc; lia). change (c :: l ++ rest) with ((c :: l) ++ rest). rewrite <- E.
        rewrite orelse_fail. 2: { apply pmap_fail. cbn [ends_attr after_attr] in Ha.
          assert (DI : exists s n, (s = [] \/ s = lit "-") /\ write_int z = s ++ write_uint n).
          { unfold write_int. destruct (z <? 0)%Z; [exists (lit "-")|exists []]; eexists; (split; [auto|reflexivity]). }
          destruct DI as (s & m & Hs & ->). rewrite <- app_assoc. unfold float_with_dot. erewrite pbind_ok by (apply sign_ok; [auto|apply write_uint_numeral]).
          rewrite (pbind_ok _ _ _ _ _ (write_uint m) rest). 2: { apply take_digits; [apply write_uint_numeral|]. intros x r Er D. apply (Ha x r Er). auto. }
          apply pbind_fail. apply tok_fail. intros x r Er D. apply (Ha x r Er). auto. }
        rewrite (orelse_ok _ _ _ _ (Int z) rest); [reflexivity|]. apply pmap_ok. apply integer_ok; auto. intros x r Er D. apply (Ha x r Er). auto.
      + change (wattr (Float b)) with (write_float show finite b). destruct (write_float_first b H) as (c & l & E & Hc). rewrite E. cbn [app].
        rewrite rattr_skip by (unfold name_start; unfold is_digit in Hc; lia). change (c :: l ++ rest) with ((c :: l) ++ rest). rewrite <- E.
        rewrite (orelse_ok _ _ _ _ (Float b) rest); [reflexivity|]. apply pmap_ok. apply float_ok; auto.
      + change (wattr (String s)) with (quote s). change (rattr (S fuel) (quote s ++ rest)) with (orelse (pmap String string_lit)
          (orelse (pmap Symbol symbol_ref) (orelse (_ <~ tok (ch "[") ;; _ <~ ws ;; l <~ separated0 fuel (spaced (rattr fuel)) ;; _ <~ ws ;; _ <~ tok (ch "]") ;; ret (List l))
             (orelse (pmap Float (float_with_dot read)) (orelse (pmap Int integer_lit) (pmap Type_ (rtype fuel)))))) (quote s ++ rest)).
        apply orelse_ok. apply pmap_ok. apply string_lit_ok.
      + cbn [write_attr]. rewrite <- app_comm_cons. cbn [raw_attr]. do 4 (rewrite orelse_fail by reflexivity). apply orelse_ok. rewrite <- app_comm_cons. rewrite <- app_assoc. apply bytes_lit_ok. auto.
      + cbn [write_attr]. cbn [raw_attr]. do 6 (rewrite orelse_fail by reflexivity). apply orelse_ok. apply pmap_ok. apply symbol_ok. exact Ha.
      + change (wattr (Type_ (Ty d n0 ps ats))) with (wtype (Ty d n0 ps ats)). change (abbreviated_attr alias (Type_ (Ty d n0 ps ats))) with (Type_ (abbreviated alias (Ty d n0 ps ats))).
        change (wa (Type_ (Ty d n0 ps ats))) with (2 + wt (Ty d n0 ps ats))%nat in *.
        assert (R : rattr (S fuel) (wtype (Ty d n0 ps ats) ++ rest) = pmap Type_ (rtype fuel) (wtype (Ty d n0 ps ats) ++ rest)).
        { inversion H as [? ? ? ? aa Ea Hn|? ? ? ? Ea Hd Hn Hps Hats]; subst; cbn [write_type]; rewrite Ea.
          - cbn [raw_attr]. unfold write_alias_name. do 10 (rewrite orelse_fail by reflexivity). reflexivity.
          - rewrite <- app_assoc. cbn [app]. change (ch ".") with 46. apply rattr_type; auto. }
        rewrite R. apply pmap_ok. apply IHt; auto; lia.
      + change (wattr (List l)) with (ch "[" :: join (lit ", ") (map wattr l) ++ [ch "]"]). change (abbreviated_attr alias (List l)) with (List (map (abbreviated_attr alias) l)).
        change (wa (List l)) with (3 + list_sum (map wa l))%nat in *. cbn [raw_attr]. do 7 (rewrite orelse_fail by reflexivity). apply orelse_ok.
        rewrite <- app_comm_cons. rewrite <- app_assoc. cbn [app]. change (ch "]") with 93.
        rewrite (pbind_ok _ _ _ _ _ tt (join (lit ", ") (map wattr l) ++ 93 :: rest)) by apply tok_ok.
        assert (HC : closing 93) by (unfold closing; auto).
        rewrite (pbind_ok _ _ _ _ _ tt (join (lit ", ") (map wattr l) ++ 93 :: rest)).
        2: { apply ws_none. destruct l as [|t ps']; [apply closing_blank; auto|]. inversion H; subst. destruct (attr_first _ H2) as (c & l & E & Hc). rewrite join_tail, E. cbn [app].
             apply attr_start_blank. auto. }
        rewrite (pbind_ok _ _ _ _ _ (map (abbreviated_attr alias) l) (93 :: rest)).
        2: { apply (separated_all (spaced (rattr fuel))); auto.
             - intros v Hv lead r' Hl Hr'. rewrite Forall_forall in H. pose proof (H _ Hv) as Hto. destruct (attr_first _ Hto) as (c & l' & E & Hc). rewrite E.
               pose proof (sum_in _ wa l v Hv). apply spaced_ok; auto. rewrite <- E. apply IHa; auto; try lia. apply after_ends_attr; apply after_attr_delimited; auto.
             - pose proof (sum_length _ wa l). assert (forall x, (1 <= wa x)%nat) by (intros x; pose proof (wa_pos x); lia). specialize (H0 H1). lia.
             - apply spaced_no; auto. destruct fuel as [|[|fuel]]; try lia. apply rattr_no. apply closing_start; auto. }
        rewrite (pbind_ok _ _ _ _ _ tt (93 :: rest)) by (apply ws_none; apply closing_blank; auto). rewrite (pbind_ok _ _ _ _ _ tt rest) by apply tok_ok. reflexivity.
      + cbn [write_attr abbreviated_attr]. cbn [raw_attr]. do 3 (rewrite orelse_fail by reflexivity). apply orelse_ok. rewrite <- !app_assoc. cbn [app]. rewrite <- !app_assoc. cbn [app]. rewrite <- !app_assoc. cbn [app].
        unfold location. change (lit "loc(") with (lit "loc" ++ lit "("). rewrite <- app_assoc.
        rewrite (pbind_ok _ _ _ _ _ tt _ (word_ok _ _)). cbn [lit map list_ascii_of_string app].
        erewrite pbind_ok. 2: { apply ws_none. apply nf_cons. unfold blank. cbn. lia. } erewrite pbind_ok by apply tok_ok.
        erewrite pbind_ok. 2: { apply ws_none. apply nf_cons. unfold blank. lia. } erewrite pbind_ok by apply string_lit_ok.
        destruct (write_uint_cons a0) as (c & l & E & Hc & _).
        rewrite (pbind_ok _ _ _ _ _ tt (write_uint a0 ++ ch ":" :: write_uint b ++ ch ")" :: rest)).
        2: { apply ws_space. rewrite E. apply nf_cons. unfold blank, is_digit in *. lia. }
        erewrite pbind_ok. 2: { apply dec_ok; auto. apply nf_cons. unfold is_digit. cbn. lia. } erewrite pbind_ok by apply tok_ok.
        erewrite pbind_ok. 2: { apply dec_ok; auto. apply nf_cons. unfold is_digit. cbn. lia. }
        erewrite pbind_ok. 2: { apply ws_none. apply nf_cons. unfold blank. cbn. lia. } erewrite pbind_ok by apply tok_ok. reflexivity.
  Qed.
End Main.
