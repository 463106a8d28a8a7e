(** The round trip of a module. *)
From Coq Require Import Lia.
From Verif Require Export OpTextMain.
Open Scope N_scope.

(** ** Alias definitions *)
Lemma hex_no_quote : forall n, hex_digit n <> 34.
Proof. intros n. unfold hex_digit. destruct (N.ltb_spec n 10); lia. Qed.
Lemma escape_char_quote : forall c, c <> 34 -> ~ In 34 (escape_char c).
Proof.
  intros c H. unfold escape_char. destruct (N.eqb_spec c 34); [contradiction|].
  repeat (match goal with |- ~ In 34 (if ?b then _ else _) => destruct b end); cbn [In]; try (intros D; decompose [or] D; try discriminate; contradiction).
  intros [D|[D|[D|[D|[]]]]]; try discriminate; eapply hex_no_quote; eauto.
Qed.
Lemma escape_quote : forall s, ~ In 34 s -> ~ In 34 (escape s).
Proof.
  intros s H D. unfold escape in D. apply in_flat_map in D. destruct D as (c & Hc & D). revert D. apply escape_char_quote. intros ->. contradiction.
Qed.
Lemma after_quote_ok : forall s r, ~ In 34 s -> after_quote (s ++ 34 :: r) = Some r.
Proof. induction s as [|c s IH]; intros r H; cbn [after_quote app]; [reflexivity|]. destruct (N.eqb_spec c 34) as [->|]; [exfalso; apply H; left; reflexivity|]. apply IH. intros D. apply H. right. exact D. Qed.
Lemma alias_def_seen : forall s r, alias_name s -> (Forall name_char s \/ ~ In 34 s) -> is_alias_def (write_alias_name s ++ lit " = " ++ r) = true.
Proof.
  intros s r Ha Hq. unfold is_alias_def, write_alias_name. cbn [app]. rewrite N.eqb_refl. change (lit " = " ++ r) with (32 :: 61 :: 32 :: r).
  destruct (needs_quoting s) eqn:E.
  - replace (starts 34 (quote s ++ 32 :: 61 :: 32 :: r)) with true by reflexivity. unfold quote. cbn [app List.tl]. rewrite <- app_assoc. cbn [app]. rewrite after_quote_ok; [reflexivity|].
    apply escape_quote. destruct Hq as [Hq|Hq]; auto. destruct s as [|c s]; [auto|]. exfalso. unfold needs_quoting in E. apply forallb_word in Hq. unfold word in Hq. apply negb_true_iff in E. unfold bare_char in E.
    rewrite forallb_forall in Hq. assert (X : forallb (fun c0 : N => digit c0 || alpha c0 || (c0 =? 95)%N)%bool (c :: s) = true); [|congruence]. apply forallb_forall. intros x Hx. specialize (Hq x Hx). exact Hq.
  - apply quoting_false in E. destruct E as (E & F). destruct s as [|c l]; [contradiction|]. cbn [app]. unfold starts. destruct (N.eqb_spec c 34).
    { subst. inversion F; subst. unfold name_char, name_start, is_digit in *. lia. }
    change (c :: l ++ 32 :: 61 :: 32 :: r) with ((c :: l) ++ 32 :: 61 :: 32 :: r). rewrite span_all. reflexivity. apply forallb_word; auto. intros x y X. inversion X; subst. reflexivity.
Qed.

Section Module.
  Variable alias : ty -> option text.
  Variable show : N -> text.
  Variable finite : N -> bool.
  Variable read : text -> option N.
  Variable custom : text -> text -> option (list text -> option text -> parser raw_op).
  Hypothesis floats : decimal_floats show finite read.
  Local Notation op_ok := (op_ok alias finite custom).
  Local Notation wop := (write_op alias show finite).
  Local Notation ops_text := (ops_text0 alias show finite).
  Local Notation def_ok := (def_ok finite).

  Lemma name_ok : forall s rest, alias_name s -> not_first name_char rest -> (_ <~ tok (ch "!") ;; type_alias_name) (write_alias_name s ++ rest) = Ok s rest.
  Proof.
    intros. unfold write_alias_name, type_alias_name. cbn [app].
    rewrite (pbind_ok _ _ _ _ _ tt ((if needs_quoting s then quote s else s) ++ rest)) by apply tok_ok.
    destruct (needs_quoting s) eqn:E.
    - replace (starts 34 (quote s ++ rest)) with true by reflexivity. apply string_lit_ok.
    - apply quoting_false in E. destruct E as (E & F). destruct s as [|c l]; [contradiction|]. rewrite starts_char by (inversion F; auto).
      apply ident_ok; auto. exists c, l. split; [reflexivity|]. split. exact (H c l eq_refl F). inversion F; auto.
  Qed.
  Lemma def_back : forall fuel name known t R, def_ok (name, known, t) -> (wt t <= fuel)%nat -> next R <> Some 123 ->
    type_alias_def read fuel (write_alias_name name ++ lit " = " ++ write_type known show finite t ++ nl ++ R) = Ok (name, abbreviated known t) (nl ++ R).
  Proof.
    intros fuel name known t R (Hn & Hq & Ht) Hf HR. unfold type_alias_def.
    assert (NF : not_first name_char (lit " = " ++ write_type known show finite t ++ nl ++ R)) by (apply nf_cons; unfold name_char, name_start, is_digit; cbn; lia).
    pose proof (name_ok name (lit " = " ++ write_type known show finite t ++ nl ++ R) Hn NF) as N.
    unfold pbind in N at 1. unfold pbind at 1. destruct (tok (ch "!") (write_alias_name name ++ lit " = " ++ write_type known show finite t ++ nl ++ R)) as [[] i| |]; try discriminate.
    rewrite (pbind_ok _ _ _ _ _ _ _ N). rewrite ws_bind. change (lit " = " ++ ?x) with (32 :: 61 :: 32 :: x). rewrite skip_blank by apply blank32. rewrite skip_keep by (apply nb; cbn; tauto).
    rewrite (pbind_ok _ _ _ _ _ tt (32 :: write_type known show finite t ++ nl ++ R)) by apply tok_ok. rewrite ws_bind. rewrite skip_blank by apply blank32.
    rewrite skip_nf by (apply (type_nonblank known show finite); auto).
    rewrite (pbind_ok _ _ _ _ _ (abbreviated known t) (nl ++ R)). reflexivity.
    apply (type_back known show finite read floats); auto. apply (ends_of known custom). apply led_nl. intros _. apply no_braces. rewrite (next_skip _ R) by apply skip_nl. exact HR.
  Qed.
  Definition wdefs (defs : list (text * (ty -> option text) * ty)) : nat := list_sum (map (fun d => wt (snd d)) defs).
  Lemma alias_first : forall s r, skip (write_alias_name s ++ r) = write_alias_name s ++ r /\ next (write_alias_name s ++ r) = Some 33.
  Proof. intros. unfold write_alias_name. cbn [app]. split; [apply skip_keep|apply next_keep]; apply nb; cbn; tauto. Qed.
  Lemma defs_next : forall defs R, next R <> Some 123 -> next (concat (map (write_def show finite) defs) ++ R) <> Some 123.
  Proof.
    intros [|[[name known] t] defs] R H; [exact H|]. cbn [map concat write_def]. rewrite <- !app_assoc. rewrite next_spaces. rewrite (proj2 (alias_first _ _)). discriminate.
  Qed.
  Lemma defs_back : forall defs fuel R i, Forall def_ok defs -> (List.length defs + wdefs defs < fuel)%nat -> next R <> Some 123 -> next R <> Some 33 ->
    i = skip (concat (map (write_def show finite) defs) ++ R) -> alias_defs read fuel i = Ok (map def_read defs) (skip R).
  Proof.
    induction defs as [|[[name known] t] defs IH]; intros fuel R i Hd Hf H1 H2 ->; (destruct fuel as [|fuel]; [lia|]).
    - apply (no_aliases read custom); auto with arith.
    - inversion Hd; subst. cbn [map concat write_def]. rewrite <- !app_assoc. rewrite skip_spaces. rewrite (proj1 (alias_first _ _)). cbn [alias_defs].
      rewrite alias_def_seen by apply H3. unfold wdefs in Hf. cbn [map List.length] in Hf. unfold list_sum in Hf. cbn [fold_right snd] in Hf.
      rewrite (pbind_ok _ _ _ _ _ (name, abbreviated known t) (nl ++ concat (map (write_def show finite) defs) ++ R)).
      2: { apply def_back; auto. lia. apply defs_next; auto. }
      rewrite ws_bind. apply pmap_ok. apply IH; auto. unfold wdefs, list_sum. lia. rewrite skip_nl. reflexivity.
  Qed.
  Lemma header_eq : forall defs R, skip (write_defs show finite defs ++ R) = skip (concat (map (write_def show finite) defs) ++ match defs with [] => R | _ => nl ++ R end).
  Proof. intros [|d defs] R; [reflexivity|]. unfold write_defs. rewrite <- app_assoc. reflexivity. Qed.

  Definition module_read (name : option text) (defs : list (text * (ty -> option text) * ty)) (ops : list op) : raw_op :=
    RawOp [] (lit "core") (lit "module") name [] None [] [] [] [RawRegion (map def_read defs) (match ops with [] => [] | _ => [RawBlock (lit "bb0") [] (map (reread alias) ops)] end)] [].
  Lemma region_module : forall f defs ops R, Forall def_ok defs -> Forall op_ok ops -> calm ops -> Forall (reads_back alias show finite read custom f) ops ->
    (List.length ops < f)%nat -> (List.length defs + wdefs defs < f)%nat ->
    region_ read custom (S f) (123 :: nl ++ write_defs show finite defs ++ ops_text 2 ops ++ 125 :: R) = Ok (RawRegion (map def_read defs) (from_ops alias ops)) R.
  Proof.
    intros f defs ops R Hd Ho Hc Hr Hn Hf. set (Z := 125 :: R) in *.
    assert (C1 : next Z = Some 125) by (apply next_keep; apply nb; cbn; tauto). assert (C2 : skip Z = 125 :: R) by (apply skip_keep; apply nb; cbn; tauto).
    assert (HN : exists c, next (ops_text 2 ops ++ Z) = Some c /\ (c = 37 \/ c = 125 \/ name_start c)).
    { destruct ops as [|o ops]; [exists 125; auto|]. rewrite ops_cons. inversion Ho; subst. destruct (op_next alias show finite custom o 2 (ops_text 2 ops ++ Z)) as (c & E & [[-> _]|Hh]); eauto. }
    assert (NN : forall x, In x [33; 94; 123] -> next (ops_text 2 ops ++ Z) <> Some x).
    { intros x Hx. destruct HN as (c & -> & Hcc). intros X. inversion X; subst. cbn in Hx. unfold name_start in Hcc. lia. }
    rewrite region_eq. rewrite (pbind_ok _ _ _ _ _ tt (nl ++ write_defs show finite defs ++ ops_text 2 ops ++ Z)) by apply tok_ok. rewrite ws_bind, skip_nl. rewrite header_eq.
    set (R' := match defs with [] => ops_text 2 ops ++ Z | _ => nl ++ ops_text 2 ops ++ Z end).
    assert (ER : skip R' = skip (ops_text 2 ops ++ Z)) by (unfold R'; destruct defs; [reflexivity|apply skip_nl]).
    rewrite (pbind_ok _ _ _ _ _ (map def_read defs) (skip R')). 2: { apply (defs_back defs); auto; rewrite (next_skip _ _ ER); apply NN; cbn; tauto. }
    rewrite ER. rewrite (pbind_ok _ _ _ _ _ (from_ops alias ops) (125 :: R)).
    - rewrite ws_bind. rewrite skip_keep by (apply nb; cbn; tauto). rewrite (pbind_ok _ _ _ _ _ tt R) by apply tok_ok. reflexivity.
    - rewrite starts_not by (apply NN; cbn; tauto). destruct ops as [|o ops].
      + change (ops_text 2 [] ++ Z) with Z. rewrite C2. reflexivity.
      + rewrite ops_cons. rewrite (stop_op alias show finite custom (ch "}")) by (cbn; inversion Ho; auto). rewrite <- ops_cons. unfold from_ops. apply (pmap_ok _ _ (fun ops => [RawBlock (lit "bb0") [] ops])). rewrite <- C2.
        apply (many_ops alias show finite read custom _ f 2 Z); auto.
        * unfold follows. rewrite C2. right. left. exists 125, R. auto.
        * rewrite C1. discriminate.
        * intros o' F Hok. rewrite (stop_op alias show finite custom (ch "}")) by (auto; cbn; auto). rewrite op_nonempty with (custom := custom) by auto. reflexivity.
        * apply skip_skip.
  Qed.
  Lemma core_ident : identifier (lit "core"). Proof. exists 99, (lit "ore"). split; [reflexivity|]. split. unfold name_start. lia. apply forallb_word. reflexivity. Qed.
  Lemma module_ident : identifier (lit "module"). Proof. exists 109, (lit "odule"). split; [reflexivity|]. split. unfold name_start. lia. apply forallb_word. reflexivity. Qed.
  Definition wm (defs : list (text * (ty -> option text) * ty)) (ops : list op) : nat := (4 + List.length defs + wdefs defs + list_sum (map wo ops))%nat.
  Lemma module_back : forall name defs ops, custom (lit "core") (lit "module") = None -> Forall def_ok defs -> Forall op_ok ops -> calm ops -> (defs <> [] \/ ops <> []) ->
    exists n, forall fuel, (n <= fuel)%nat -> parse_text read custom fuel (write_module alias show finite name (write_defs show finite defs) ops) = Ok (module_read name defs ops) [].
  Proof.
    intros name defs ops Hcu Hd Ho Hc Hne. exists (2 + wm defs ops)%nat. intros fuel Hf. destruct fuel as [|[|f]]; [lia|lia|]. unfold wm in Hf.
    unfold parse_text. rewrite ws_bind. unfold write_module. set (B := 123 :: nl ++ write_defs show finite defs ++ ops_text 2 ops ++ 125 :: nl).
    assert (EB : lit " {" ++ nl ++ write_defs show finite defs ++ concat (map (wop 2) ops) ++ lit "}" ++ nl = 32 :: B) by reflexivity. rewrite EB. clear EB.
    set (T := match name with Some s => ch " " :: write_symbol s | None => [] end ++ 32 :: B).
    change (lit "core.module" ++ T) with (lit "core" ++ 46 :: lit "module" ++ T). rewrite ident_skip by apply core_ident.
    assert (NB : next (32 :: B) = Some 123) by (apply next_32; apply nb; cbn; tauto).
    assert (ND : no_dict (32 :: B)).
    { unfold B. apply (opening_dict custom). destruct defs as [|d defs].
      - destruct Hne as [D|D]; [contradiction|]. unfold write_defs. cbn [app]. apply (opening_ops alias show finite custom ops 2 0 nl); auto.
      - split.
        + unfold write_defs. destruct d as [[nm known] t]. cbn [map concat write_def]. rewrite (next_skip _ _ (skip_nl _)). rewrite <- !app_assoc. rewrite next_spaces. rewrite (proj2 (alias_first _ _)). discriminate.
        + intros A q j Ej. destruct d as [[nm known] t]. rewrite skip_nl in Ej. unfold write_defs in Ej. cbn [map concat write_def] in Ej. rewrite <- !app_assoc in Ej. rewrite skip_spaces in Ej. rewrite (proj1 (alias_first _ _)) in Ej.
          unfold write_alias_name in Ej. cbn [app] in Ej. eapply (no_key 33); [apply nb; cbn; tauto|unfold name_char, name_start, is_digit; lia|lia|exact Ej]. }
    assert (EO : operation read custom (S (S f)) (lit "core" ++ 46 :: lit "module" ++ T) = Ok (module_read name defs ops) []).
    { rewrite operation_eq, ws_bind, ident_skip by apply core_ident.
      rewrite (pbind_ok _ _ _ _ _ None (lit "core" ++ 46 :: lit "module" ++ T)). 2: { apply no_results. unfold next. rewrite ident_skip by apply core_ident. discriminate. }
      rewrite ws_bind, ident_skip by apply core_ident.
      rewrite (pbind_ok _ _ _ _ _ (lit "core", lit "module") T).
      2: { apply qualified_ok; try apply core_ident; try apply module_ident. unfold T. destruct name; apply nf_cons; unfold name_char, name_start, is_digit; cbn; lia. }
      assert (ES : opt (_ <~ ws ;; symbol_ref) T = Ok name (32 :: B)).
      { unfold T. destruct name as [s|].
        - apply opt_ok. cbn [app]. rewrite ws_bind. rewrite skip_blank by apply blank32. rewrite skip_nf by (apply nf_cons; unfold blank; cbn; lia). apply symbol_ok. apply nf_cons. unfold name_char, name_start, is_digit. lia.
        - apply no_symbol. cbn [app]. rewrite NB. discriminate. }
      rewrite (pbind_ok _ _ _ _ _ name (32 :: B) ES). cbn [fst snd]. change (is_op (lit "core") (lit "module") "func" "func") with false. cbn match. rewrite Hcu.
      unfold generic_rest. rewrite ws_bind. assert (EB : skip (32 :: B) = B) by (rewrite skip_blank by apply blank32; apply skip_keep; apply nb; cbn; tauto). rewrite EB.
      assert (NB' : next B = Some 123) by (apply next_keep; apply nb; cbn; tauto).
      rewrite (pbind_ok _ _ _ _ _ ([], []) B) by reflexivity.
      rewrite (pbind_ok _ _ _ _ _ None B). 2: { apply no_succs. rewrite NB'. discriminate. }
      rewrite (pbind_ok _ _ _ _ _ None B). 2: { apply no_return. rewrite NB'. discriminate. }
      rewrite (pbind_ok _ _ _ _ _ None B). 2: { apply no_attrs. apply (no_dict_same (32 :: B)); auto. }
      rewrite (pbind_ok _ _ _ _ _ None B). 2: { apply no_types. rewrite NB'. discriminate. }
      pose proof (sum_length _ wo ops wo_pos) as Hl.
      assert (ER : region_ read custom (S f) B = Ok (RawRegion (map def_read defs) (from_ops alias ops)) nl).
      { apply region_module; auto; try lia. rewrite Forall_forall in *. intros o Hin. apply (operations_back alias show finite read custom floats); auto. pose proof (sum_in _ wo ops o Hin). lia. }
      rewrite (pbind_ok _ _ _ _ _ [RawRegion (map def_read defs) (from_ops alias ops)] []). reflexivity.
      cbn [regions_loop]. rewrite ws_bind. replace (skip B) with B by (rewrite <- EB at 1; symmetry; rewrite <- EB; apply skip_skip). change (starts (ch "{") B) with true. cbn match.
      rewrite (pbind_ok _ _ _ _ _ _ nl ER). destruct f as [|f]; [lia|]. reflexivity. }
    rewrite (pbind_ok _ _ _ _ _ _ [] EO). reflexivity.
  Qed.
End Module.
