(** Pieces of the round trip of operations. *)
From Coq Require Import Lia.
From Verif Require Export OpTextSpec TextMain.
Open Scope N_scope.

(** ** Skipping blanks *)
Lemma ws_skip : forall i, ws i = Ok tt (skip i).
Proof. intros. unfold ws, skip, pmap, pbind, take_while. destruct (span space i). reflexivity. Qed.
Lemma ws_bind : forall A (f : unit -> parser A) i, pbind ws f i = f tt (skip i).
Proof. intros. apply pbind_ok. apply ws_skip. Qed.
Lemma skip_blank : forall c i, blank c -> skip (c :: i) = skip i.
Proof. intros. unfold skip. cbn [span]. rewrite (proj2 (space_spec c) H). destruct (span space i). reflexivity. Qed.
Lemma skip_keep : forall c i, ~ blank c -> skip (c :: i) = c :: i.
Proof. intros. unfold skip. cbn [span]. rewrite (not_true _ _ (space_spec c) H). reflexivity. Qed.
Lemma skip_nf : forall i, not_first blank i -> skip i = i.
Proof. intros. destruct i as [|c i]; [reflexivity|]. apply skip_keep. exact (H c i eq_refl). Qed.
Lemma skip_first : forall i, not_first blank (skip i).
Proof. induction i as [|c i IH]; [apply nf_nil|]. destruct (space c) eqn:E. rewrite skip_blank by (apply space_spec; auto). exact IH.
  assert (~ blank c) by (intros D; apply space_spec in D; congruence). rewrite skip_keep by auto. apply nf_cons; auto. Qed.
Lemma skip_skip : forall i, skip (skip i) = skip i.
Proof. intros. apply skip_nf. apply skip_first. Qed.
Lemma skip_spaces : forall n i, skip (spaces n ++ i) = skip i.
Proof. induction n; intros; [reflexivity|]. cbn [spaces repeat app]. rewrite skip_blank by (unfold blank; auto). apply IHn. Qed.
Lemma skip_nl : forall i, skip (nl ++ i) = skip i.
Proof. intros. apply skip_blank. unfold blank. auto. Qed.
Lemma next_skip : forall i j, skip i = skip j -> next i = next j.
Proof. intros. unfold next. rewrite H. reflexivity. Qed.
Lemma next_keep : forall c i, ~ blank c -> next (c :: i) = Some c.
Proof. intros. unfold next. rewrite skip_keep by auto. reflexivity. Qed.
Lemma next_blank : forall c i, blank c -> next (c :: i) = next i.
Proof. intros. unfold next. rewrite skip_blank by auto. reflexivity. Qed.
Lemma next_spaces : forall n i, next (spaces n ++ i) = next i.
Proof. intros. apply next_skip. apply skip_spaces. Qed.
Lemma starts_next : forall c i, starts c (skip i) = true <-> next i = Some c.
Proof. intros. unfold starts, next. destruct (skip i); split; intros; try discriminate. apply N.eqb_eq in H. congruence. inversion H. apply N.eqb_refl. Qed.
Lemma starts_not : forall c i, next i <> Some c -> starts c (skip i) = false.
Proof. intros. destruct (starts c (skip i)) eqn:E; auto. apply starts_next in E. contradiction. Qed.
Lemma tok_skip_no : forall c i, next i <> Some c -> tok c (skip i) = Fail.
Proof. intros. apply tok_fail. intros x r E D. subst x. apply H. unfold next. rewrite E. reflexivity. Qed.
Lemma blank32 : blank 32. Proof. unfold blank. auto. Qed.
Lemma blank10 : blank 10. Proof. unfold blank. auto. Qed.

(** ** Lists whose elements may be followed by blanks *)
Section Spaced.
  Context {A B : Type}.
  Variable p : parser B.
  Variable w : A -> text.
  Variable f : A -> B.
  Variable R : text.
  Hypothesis stop : next R <> Some 44.
  Lemma spaced_one : forall lead x rest, lead = [] \/ lead = [32] -> not_first blank (w x ++ rest) -> p (w x ++ rest) = Ok (f x) rest -> spaced p (lead ++ w x ++ rest) = Ok (f x) (skip rest).
  Proof.
    intros lead x rest Hl Hn Hp. unfold spaced. rewrite ws_bind. replace (skip (lead ++ w x ++ rest)) with (w x ++ rest).
    2: { destruct Hl as [->| ->]; cbn [app]; [|rewrite skip_blank by apply blank32]; symmetry; apply skip_nf; auto. }
    rewrite (pbind_ok _ _ _ _ _ (f x) rest) by auto. rewrite ws_bind. reflexivity.
  Qed.
  Lemma more_spaced : forall l n,
    (forall x r, In x l -> not_first blank (w x ++ r)) -> (forall x r, In x l -> p (w x ++ 44 :: r) = Ok (f x) (44 :: r)) -> (forall m x, l = m ++ [x] -> p (w x ++ R) = Ok (f x) R) ->
    (List.length l < n)%nat -> more n (spaced p) (match l with [] => skip R | _ => tail w l ++ R end) = Ok (map f l) (skip R).
  Proof.
    induction l as [|x l IH]; intros n Hb Hc Hr Hn; (destruct n as [|n]; [cbn in Hn; lia|]); cbn [more].
    - rewrite pbind_fail by (apply tok_skip_no; auto). reflexivity.
    - cbn [tail app]. rewrite (pbind_ok _ _ _ _ _ tt (32 :: (w x ++ tail w l) ++ R)) by apply tok_ok. rewrite <- app_assoc.
      change (32 :: w x ++ tail w l ++ R) with ([32] ++ w x ++ tail w l ++ R).
      assert (IHl : more n (spaced p) (match l with [] => skip R | _ => tail w l ++ R end) = Ok (map f l) (skip R)).
      { apply IH. intros; apply Hb; right; auto. intros; apply Hc; right; auto. intros m y E. apply (Hr (x :: m)). rewrite E. reflexivity. cbn in Hn. lia. }
      destruct l as [|y l].
      + change (tail w [] ++ R) with R. rewrite (spaced_one [32] x R); auto. 2: apply Hb; left; auto. 2: apply (Hr []); auto. cbn [map]. apply pmap_ok. exact IHl.
      + rewrite (spaced_one [32] x (tail w (y :: l) ++ R)); auto.
        2: apply Hb; left; auto. 2: { cbn [tail app]. apply Hc. left; auto. }
        rewrite skip_nf. 2: { cbn [tail app]. apply nf_cons. unfold blank. lia. } cbn [map]. apply pmap_ok. exact IHl.
  Qed.
  Lemma spaced_list : forall lead l n, lead = [] \/ lead = [32] -> l <> [] -> (List.length l <= n)%nat ->
    (forall x r, In x l -> not_first blank (w x ++ r)) -> (forall x r, In x l -> p (w x ++ 44 :: r) = Ok (f x) (44 :: r)) -> (forall m x, l = m ++ [x] -> p (w x ++ R) = Ok (f x) R) ->
    separated1 n (spaced p) (lead ++ join (lit ", ") (map w l) ++ R) = Ok (map f l) (skip R).
  Proof.
    intros lead l n Hlead Hl Hn Hb Hc Hr. destruct l as [|x l]; [contradiction|]. rewrite join_tail. rewrite <- app_assoc. unfold separated1.
    assert (M : more n (spaced p) (match l with [] => skip R | _ => tail w l ++ R end) = Ok (map f l) (skip R)).
    { apply more_spaced. intros; apply Hb; right; auto. intros; apply Hc; right; auto. intros m y E. apply (Hr (x :: m)). rewrite E. reflexivity. cbn in Hn. lia. }
    destruct l as [|y l].
    - cbn [tail app]. rewrite (pbind_ok _ _ _ _ _ (f x) (skip R)). apply pmap_ok. exact M. apply spaced_one; auto. apply Hb; left; auto. apply (Hr []); auto.
    - rewrite (pbind_ok _ _ _ _ _ (f x) (tail w (y :: l) ++ R)). cbn [map]. apply pmap_ok. exact M.
      rewrite (spaced_one lead x (tail w (y :: l) ++ R)); auto.
      + apply Hb; left; auto.
      + cbn [tail app]. apply Hc. left; auto.
  Qed.
End Spaced.

(** ** Values and labels *)
Lemma uint_chars : forall v, Forall name_char (write_uint v).
Proof. intros. eapply Forall_impl; [|apply write_uint_digits]. intros c H. right. auto. Qed.
Lemma ref_ok : forall s rest, s <> [] -> Forall name_char s -> not_first name_char rest -> value_ref (ch "%" :: s ++ rest) = Ok s rest.
Proof.
  intros. unfold value_ref. rewrite (pbind_ok _ _ _ _ _ tt (s ++ rest)) by apply tok_ok. apply take1_all; auto. apply forallb_word; auto.
  intros x r E. apply (not_true _ _ (word_spec x)). eauto.
Qed.
Lemma uint_nonempty : forall v, write_uint v <> [].
Proof. intros. apply write_uint_numeral. Qed.
Lemma value_ok : forall v rest, not_first name_char rest -> value_ref (value v ++ rest) = Ok (write_uint v) rest.
Proof. intros. unfold value. cbn [app]. apply ref_ok; auto. apply uint_nonempty. apply uint_chars. Qed.
Lemma bb_chars : forall b, Forall name_char (bb b).
Proof. intros. unfold bb. apply Forall_app. split; [apply forallb_word; reflexivity|apply uint_chars]. Qed.
Lemma label_ok : forall b rest, not_first name_char rest -> block_label (label b ++ rest) = Ok (bb b) rest.
Proof.
  intros. unfold block_label, label. change (lit "^bb" ++ write_uint b) with (ch "^" :: bb b). cbn [app]. rewrite (pbind_ok _ _ _ _ _ tt (bb b ++ rest)) by apply tok_ok. apply take1_all.
  discriminate. apply forallb_word; apply bb_chars. intros x r E. apply (not_true _ _ (word_spec x)). eauto.
Qed.
Lemma comma_not_char : forall r, not_first name_char (44 :: r).
Proof. intros. apply nf_cons. unfold name_char, name_start, is_digit. lia. Qed.
Lemma value_first : forall v r, not_first blank (value v ++ r).
Proof. intros. apply nf_cons. unfold blank. cbn. lia. Qed.
Lemma label_first : forall v r, not_first blank (label v ++ r).
Proof. intros. apply nf_cons. unfold blank. cbn. lia. Qed.
Lemma values_ok : forall lead l n R, lead = [] \/ lead = [32] -> l <> [] -> (List.length l <= n)%nat -> next R <> Some 44 -> not_first name_char R ->
  separated1 n (spaced value_ref) (lead ++ comma (map value l) ++ R) = Ok (map write_uint l) (skip R).
Proof.
  intros. apply spaced_list; auto.
  - intros. apply value_first.
  - intros. apply value_ok. apply comma_not_char.
  - intros. apply value_ok. auto.
Qed.
Lemma no_values : forall n i, next i <> Some (ch "%") -> separated1 n (spaced value_ref) i = Fail.
Proof. intros. unfold separated1. apply pbind_fail. unfold spaced. rewrite ws_bind. apply pbind_fail. unfold value_ref. apply pbind_fail. apply tok_skip_no. auto. Qed.
Lemma results_ok : forall l n R, l <> [] -> (List.length l <= n)%nat -> result_list n (comma (map value l) ++ lit " = " ++ R) = Ok (map write_uint l) (32 :: R).
Proof.
  intros. unfold result_list. change (comma (map value l) ++ lit " = " ++ R) with ([] ++ comma (map value l) ++ 32 :: 61 :: 32 :: R).
  rewrite (pbind_ok _ _ _ _ _ (map write_uint l) (skip (32 :: 61 :: 32 :: R))).
  - rewrite ws_bind. rewrite skip_skip, skip_blank by apply blank32. rewrite skip_keep by (unfold blank; lia). rewrite (pbind_ok _ _ _ _ _ tt (32 :: R)) by apply tok_ok. reflexivity.
  - apply values_ok; auto. rewrite next_blank by apply blank32. rewrite next_keep by (unfold blank; lia). discriminate. apply nf_cons. unfold name_char, name_start, is_digit. lia.
Qed.
Lemma no_results : forall n i, next i <> Some (ch "%") -> opt (result_list n) i = Ok None i.
Proof. intros. apply opt_fail. unfold result_list. apply pbind_fail. apply no_values. auto. Qed.

(** ** Sections of an operation that are not there *)
Lemma no_symbol : forall i, next i <> Some (ch "@") -> opt (_ <~ ws ;; symbol_ref) i = Ok None i.
Proof. intros. apply opt_fail. rewrite ws_bind. unfold symbol_ref. apply pbind_fail. apply tok_skip_no. auto. Qed.
Lemma no_succs : forall n i, next i <> Some (ch "[") -> opt (_ <~ ws ;; successor_list n) i = Ok None i.
Proof. intros. apply opt_fail. rewrite ws_bind. unfold successor_list. apply pbind_fail. apply tok_skip_no. auto. Qed.
Lemma no_return : forall read n i, next i <> Some (ch "-") -> opt (return_type read n) i = Ok None i.
Proof. intros. apply opt_fail. unfold return_type. rewrite ws_bind. apply pbind_fail. apply tok_skip_no. auto. Qed.
Lemma no_types : forall read n i, next i <> Some (ch ":") -> opt (type_annotation read n) i = Ok None i.
Proof. intros. apply opt_fail. unfold type_annotation. rewrite ws_bind. apply pbind_fail. apply tok_skip_no. auto. Qed.
Lemma no_braces : forall i, next i <> Some (ch "{") -> no_dict i.
Proof. intros i H n p. rewrite ws_bind. unfold dict. apply pbind_fail. apply tok_skip_no. auto. Qed.
Lemma no_attrs : forall read n i, no_dict i -> opt (_ <~ ws ;; attr_dict read n) i = Ok None i.
Proof. intros. apply opt_fail. apply H. Qed.

(** ** Successors *)
Lemma succs_ok : forall l n R, l <> [] -> (List.length l <= n)%nat -> opt (_ <~ ws ;; successor_list n) (lit " [" ++ comma (map label l) ++ lit "]" ++ R) = Ok (Some (map bb l)) R.
Proof.
  intros. apply opt_ok. rewrite ws_bind. cbn [lit map list_ascii_of_string app]. rewrite skip_blank by apply blank32. rewrite skip_keep by (unfold blank; cbn; lia).
  unfold successor_list. rewrite (pbind_ok _ _ _ _ _ tt (comma (map label l) ++ 93 :: R)) by apply tok_ok. rewrite ws_bind.
  rewrite skip_nf. 2: { destruct l as [|x l]; [contradiction|]. unfold comma. rewrite join_tail. rewrite <- app_assoc. apply label_first. }
  rewrite (pbind_ok _ _ _ _ _ (map bb l) (93 :: R)).
  - rewrite ws_bind. rewrite skip_keep by (unfold blank; lia). rewrite (pbind_ok _ _ _ _ _ tt R) by apply tok_ok. reflexivity.
  - change (comma (map label l) ++ 93 :: R) with ([] ++ comma (map label l) ++ 93 :: R). rewrite (spaced_list block_label label bb (93 :: R)); auto.
    + rewrite next_keep by (unfold blank; lia). discriminate.
    + intros. apply label_first.
    + intros. apply label_ok. apply comma_not_char.
    + intros. apply label_ok. apply nf_cons. unfold name_char, name_start, is_digit. lia.
Qed.

Section Types.
  Variable alias : ty -> option text.
  Variable show : N -> text.
  Variable finite : N -> bool.
  Variable read : text -> option N.
  Hypothesis floats : decimal_floats show finite read.
  Local Notation wtype := (write_type alias show finite).
  Local Notation wattr := (write_attr alias show finite).
  Local Notation type_ok := (type_ok alias finite).
  Local Notation attr_ok := (attr_ok alias finite).
  Local Notation abbr := (abbreviated alias).

  Lemma type_back : forall t fuel rest, type_ok t -> (wt t <= fuel)%nat -> ends_type alias t rest -> raw_type read fuel (wtype t ++ rest) = Ok (abbr t) rest.
  Proof. intros. eapply (proj1 (round_trip alias show finite read floats (wt t))); eauto. Qed.
  Lemma attr_back : forall a fuel rest, attr_ok a -> (wa a <= fuel)%nat -> delimited rest -> raw_attr read fuel (wattr a ++ rest) = Ok (abbreviated_attr alias a) rest.
  Proof. intros. eapply (proj2 (round_trip alias show finite read floats (wa a))); eauto. apply after_ends_attr. apply after_attr_delimited. auto. Qed.
  Lemma type_nonblank : forall t r, type_ok t -> not_first blank (wtype t ++ r).
  Proof. intros. destruct (type_first alias show finite _ H) as (c & l & E & Hc). rewrite E. cbn [app]. apply attr_start_blank. apply type_start_attr; auto. Qed.
  Lemma ends_comma : forall t r, ends_type alias t (44 :: r).
  Proof. intros. apply after_ends. apply after_type_delimited. exists 44, r. auto. Qed.
  Definition wes (l : list (text * attr)) : nat := list_sum (map (fun kv => wa (snd kv)) l).
  Lemma wes_length : forall l, (List.length l <= wes l)%nat.
  Proof. intros. unfold wes. apply (sum_length _ (fun kv : text * attr => wa (snd kv))). intros x. pose proof (wa_pos (snd x)). lia. Qed.
  Lemma entries_dict : forall l n R, entries_ok alias finite l -> (wes l <= n)%nat -> attr_dict read n (ch "{" :: write_entries alias show finite l ++ lit "}" ++ R) = Ok (entries_read alias l) R.
  Proof.
    intros l n R Ho Hn. unfold attr_dict, write_entries, comma, entries_read.
    assert (D : dict n (raw_attr read n) (ch "{" :: join (lit ", ") (map (write_entry alias show finite) l) ++ 125 :: R) = Ok (map (read_entry alias) l) R).
    { apply (dict_ok alias show finite read floats); auto.
      - pose proof (wes_length l). lia.
      - intros k v r Hin Hd. unfold entries_ok in Ho. rewrite Forall_forall in Ho. apply attr_back; auto. apply (Ho _ Hin).
        unfold wes in Hn. pose proof (sum_in _ (fun kv : text * attr => wa (snd kv)) l _ Hin). cbn [snd] in H. lia. }
    assert (E1 : map (write_entry alias show finite) l = map (fun kv => fst kv ++ lit " = " ++ wattr (snd kv)) l) by (apply map_ext; intros [k v]; reflexivity).
    assert (E2 : map (read_entry alias) l = map (fun kv => (fst kv, abbreviated_attr alias (snd kv))) l) by (apply map_ext; intros [k v]; reflexivity).
    rewrite E1, E2 in D. exact D.
  Qed.
  Lemma attrs_ok : forall l n R, entries_ok alias finite l -> (wes l <= n)%nat -> opt (_ <~ ws ;; attr_dict read n) (lit " {" ++ write_entries alias show finite l ++ lit "}" ++ R) = Ok (Some (entries_read alias l)) R.
  Proof.
    intros. apply opt_ok. rewrite ws_bind. change (lit " {") with [32; 123]. cbn [app]. rewrite skip_blank by apply blank32. rewrite skip_keep by (unfold blank; lia). apply entries_dict; auto.
  Qed.
  Definition wts (l : list ty) : nat := list_sum (map wt l).
  Lemma types_ok : forall l n R, l <> [] -> Forall type_ok l -> (wts l <= n)%nat -> next R <> Some 44 -> (forall m t, l = m ++ [t] -> ends_type alias t R) ->
    opt (type_annotation read n) (lit " : " ++ comma (map wtype l) ++ R) = Ok (Some (map abbr l)) (skip R).
  Proof.
    intros l n R Hl Ho Hn Hs He. rewrite Forall_forall in Ho. apply opt_ok. unfold type_annotation. rewrite ws_bind. cbn [lit map list_ascii_of_string app]. rewrite skip_blank by apply blank32. rewrite skip_keep by (unfold blank; cbn; lia).
    rewrite (pbind_ok _ _ _ _ _ tt (32 :: comma (map wtype l) ++ R)) by apply tok_ok. rewrite ws_bind. rewrite skip_blank by apply blank32.
    rewrite skip_nf. 2: { destruct l as [|x l]; [contradiction|]. unfold comma. rewrite join_tail. rewrite <- app_assoc. apply type_nonblank. apply Ho. left; auto. }
    assert (W : forall x, In x l -> (wt x <= n)%nat). { intros x Hx. pose proof (sum_in _ wt l x Hx). unfold wts in Hn. lia. }
    change (comma (map wtype l) ++ R) with ([] ++ comma (map wtype l) ++ R). apply spaced_list; auto.
    - pose proof (sum_length _ wt l wt_pos). unfold wts in Hn. lia.
    - intros. apply type_nonblank. auto.
    - intros. apply type_back; auto. apply ends_comma.
    - intros m x E. assert (In x l). { rewrite E. apply in_or_app. right. left. auto. } apply type_back; auto. eapply He; eauto.
  Qed.
  (** Parameters. *)
  Definition param (n : nat) : parser (text * ty) := _ <~ ws ;; v <~ value_ref ;; _ <~ ws ;; _ <~ tok (ch ":") ;; _ <~ ws ;; t <~ raw_type read n ;; _ <~ ws ;; ret (v, t).
  Lemma param_ok : forall n lead s t rest, lead = [] \/ lead = [32] -> s <> [] -> Forall name_char s -> type_ok t -> (wt t <= n)%nat -> delimited rest ->
    param n (lead ++ ((ch "%" :: s) ++ lit ": " ++ wtype t) ++ rest) = Ok (s, abbr t) rest.
  Proof.
    intros n lead s t rest Hl Hs Hc Ht Hw Hd. unfold param. rewrite ws_bind.
    replace (skip (lead ++ ((ch "%" :: s) ++ lit ": " ++ wtype t) ++ rest)) with (ch "%" :: s ++ 58 :: 32 :: wtype t ++ rest).
    2: { cbn [app]. rewrite <- !app_assoc. destruct Hl as [->| ->]; cbn [app]; [|rewrite skip_blank by apply blank32]; rewrite skip_keep by (unfold blank; cbn; lia); reflexivity. }
    rewrite (pbind_ok _ _ _ _ _ s (58 :: 32 :: wtype t ++ rest)). 2: { apply ref_ok; auto. apply nf_cons. unfold name_char, name_start, is_digit. lia. }
    rewrite ws_bind. rewrite skip_keep by (unfold blank; lia). rewrite (pbind_ok _ _ _ _ _ tt (32 :: wtype t ++ rest)) by apply tok_ok.
    rewrite ws_bind. rewrite skip_blank by apply blank32. rewrite skip_nf by (apply type_nonblank; auto).
    rewrite (pbind_ok _ _ _ _ _ (abbr t) rest). 2: { apply type_back; auto. apply after_ends. apply after_type_delimited. auto. }
    rewrite ws_bind. rewrite skip_nf by (apply delimited_blank; auto). reflexivity.
  Qed.
  Lemma params_ok : forall A (nm : A -> text) (tp : A -> ty) (l : list A) n R,
    (forall a, In a l -> nm a <> [] /\ Forall name_char (nm a) /\ type_ok (tp a) /\ (wt (tp a) <= n)%nat) -> (List.length l <= n)%nat ->
    func_params read n (ch "(" :: comma (map (fun a => (ch "%" :: nm a) ++ lit ": " ++ wtype (tp a)) l) ++ lit ")" ++ R) = Ok (map (fun a => (nm a, abbr (tp a))) l) R.
  Proof.
    intros A nm tp l n R H Hn. unfold func_params. set (txt := comma (map (fun a => (ch "%" :: nm a) ++ lit ": " ++ wtype (tp a)) l)).
    rewrite (pbind_ok _ _ _ _ _ tt (txt ++ lit ")" ++ R)) by apply tok_ok.
    assert (HC : closing 41) by (unfold closing; auto).
    rewrite ws_bind. rewrite skip_nf. 2: { unfold txt. destruct l as [|x l]; [cbn; apply closing_blank; auto|]. unfold comma. rewrite join_tail. apply nf_cons. unfold blank. cbn. lia. }
    rewrite (pbind_ok _ _ _ _ _ (map (fun a => (nm a, abbr (tp a))) l) (41 :: R)).
    - rewrite ws_bind. rewrite skip_keep by (unfold blank; lia). rewrite (pbind_ok _ _ _ _ _ tt R) by apply tok_ok. reflexivity.
    - apply (separated_all (param n)); auto.
      intros x Hx lead rest Hlead Hd. destruct (H x Hx) as (A1 & A2 & A3 & A4). apply param_ok; auto.
  Qed.
  Definition wargs (l : list (N * ty)) : nat := list_sum (map (fun a => wt (snd a)) l).
  Lemma args_ok : forall l n R, Forall (fun a => type_ok (snd a)) l -> (wargs l <= n)%nat -> func_params read n (write_args alias show finite l ++ R) = Ok (map (arg_read alias) l) R.
  Proof.
    intros l n R Ho Hn. unfold write_args, write_arg, value. cbn [app]. rewrite <- app_assoc. unfold arg_read. rewrite Forall_forall in Ho.
    apply (params_ok (N * ty)).
    - intros a Ha. split; [apply uint_nonempty|]. split; [apply uint_chars|]. split; [auto|]. pose proof (sum_in _ (fun a : N * ty => wt (snd a)) l a Ha). unfold wargs in Hn. cbn in H. lia.
    - pose proof (sum_length _ (fun a : N * ty => wt (snd a)) l). unfold wargs in Hn. assert (forall x : N * ty, (1 <= wt (snd x))%nat) by (intros; apply wt_pos). specialize (H H0). lia.
  Qed.
End Types.
