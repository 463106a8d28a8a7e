(** The round trip of operations. *)
From Coq Require Import Lia.
From Verif Require Export OpTextProofs.
Open Scope N_scope.

Lemma ws_same : forall A (f : unit -> parser A) i j, skip i = skip j -> pbind ws f i = pbind ws f j.
Proof. intros. rewrite !ws_bind, H. reflexivity. Qed.
Lemma no_dict_same : forall i j, skip i = skip j -> no_dict i -> no_dict j.
Proof. intros i j E H n p. rewrite <- (ws_same _ _ _ _ E). apply H. Qed.

(** ** What follows an operation *)
Lemma start_not : forall c x, name_start c -> In x [64; 91; 45; 123; 58; 40; 44; 61; 37; 125; 94; 33] -> c <> x.
Proof. intros c x H I ->. cbn in I. unfold name_start in H. lia. Qed.
Lemma follows_not : forall F x, follows F -> In x [64; 91; 45; 123; 58; 40; 44; 61] -> next F <> Some x.
Proof.
  intros F x [H|[(c & r & H & Hc)|(d & r & (c & l & -> & Hc & Hl) & H)]] I; unfold next; rewrite H.
  - discriminate.
  - intros E. inversion E; subst. cbn in Hc, I. lia.
  - cbn [app]. intros E. inversion E; subst. eapply start_not; [exact Hc| |reflexivity]. cbn in *. tauto.
Qed.
Lemma follows_same : forall F G, skip F = skip G -> follows F -> follows G.
Proof. intros F G E H. unfold follows in *. rewrite <- E. exact H. Qed.

(** ** Texts of blocks *)
Section Texts.
  Variable alias : ty -> option text.
  Variable show : N -> text.
  Variable finite : N -> bool.
  Local Notation wop := (write_op alias show finite).
  Definition ops_text0 (k : nat) (ops : list op) : text := concat (map (wop k) ops).
  Definition args_text (args : list (N * ty)) : text := match args with [] => [] | _ => write_args alias show finite args end.
  Fixpoint blocks_text0 (gap : bool) (indent : nat) (l : list block) : text :=
    match l with
    | [] => []
    | Block b args ops :: l =>
        spaces (indent + 2) ++ label b ++ args_text args ++ lit ":" ++ nl ++ ops_text0 (indent + 4) ops ++ blank_after (negb gap || match l with [] => true | _ => false end) ++ blocks_text0 gap indent l
    end.
  Definition body_text (indent : nat) (blocks : list block) : text := match blocks with [Block _ [] ops] => ops_text0 (indent + 4) ops | _ => blocks_text0 true indent blocks end.
  Lemma write_region_eq : forall indent blocks, write_region alias show finite indent (Region blocks) = lit " {" ++ nl ++ body_text indent blocks ++ spaces indent ++ lit "}".
  Proof.
    intros. cbn [write_region]. f_equal. f_equal. unfold body_text.
    assert (E : (fix go (l : list block) : text :=
                  match l with
                  | [] => []
                  | Block b args ops :: l =>
                      spaces (indent + 2) ++ label b ++ match args with [] => [] | _ => write_args alias show finite args end ++ lit ":" ++ nl
                      ++ concat (map (wop (indent + 4)) ops) ++ blank_after (match l with [] => true | _ => false end) ++ go l
                  end) blocks = blocks_text0 true indent blocks).
    { induction blocks as [|[b args ops] l IH]; [reflexivity|]. cbn [blocks_text0]. rewrite <- IH. reflexivity. }
    destruct blocks as [|[b [|a args] ops] [|b' l]]; try reflexivity; f_equal; exact E.
  Qed.
  Definition func_text (indent : nat) (blocks : list block) : text :=
    match blocks with
    | [Block _ _ ops] => ops_text0 (indent + 4) ops
    | Block b _ ops :: l => blocks_text0 false indent (Block b [] ops :: l)
    | [] => []
    end.
  Lemma write_func_eq : forall indent results operands succs attrs rtypes regions,
    wop indent (Op results (lit "func") (lit "func") operands succs attrs rtypes regions) =
    spaces indent ++ lit "func.func" ++ write_signature alias show finite attrs regions
    ++ match regions with Region blocks :: _ => lit " {" ++ nl ++ func_text indent blocks ++ spaces indent ++ lit "}" ++ nl | [] => nl end.
  Proof.
    intros. cbn [write_op]. replace (is_op (lit "func") (lit "func") "func" "func") with true by reflexivity. do 3 f_equal.
    destruct regions as [|[blocks] regions]; [reflexivity|]. f_equal. f_equal.
    assert (E : forall l, (fix go (first : bool) (l : list block) : text :=
                           match l with
                           | [] => []
                           | Block b args ops :: l =>
                               spaces (indent + 2) ++ label b ++ (if first then [] else match args with [] => [] | _ => write_args alias show finite args end) ++ lit ":" ++ nl
                               ++ concat (map (wop (indent + 4)) ops) ++ go false l
                           end) false l = blocks_text0 false indent l).
    { induction l as [|[b args ops] l IH]; [reflexivity|]. cbn [blocks_text0 negb orb blank_after app]. rewrite <- IH. reflexivity. }
    destruct blocks as [|[b args ops] [|b' l]]; try reflexivity. f_equal. unfold func_text. cbn [blocks_text0 negb orb blank_after app args_text].
    do 5 f_equal. unfold ops_text0. f_equal. destruct b' as [b1 args1 ops1]. specialize (E (Block b1 args1 ops1 :: l)). cbn [blocks_text0 negb orb blank_after app] in E. exact E.
  Qed.
  Lemma write_generic_eq : forall indent o, (match o with Op _ d n _ _ _ _ _ => is_op d n "func" "func" end) = false ->
    wop indent o = spaces indent ++ write_head alias show finite o ++ concat (map (write_region alias show finite indent) (match o with Op _ _ _ _ _ _ _ l => l end)) ++ nl.
  Proof. intros indent [results d n operands succs attrs rtypes regions] H. cbn [write_op]. rewrite H. reflexivity. Qed.
End Texts.

(** ** Weights *)
Fixpoint wo (o : op) : nat :=
  match o with
  | Op results _ _ operands succs attrs rtypes regions =>
      (4 + List.length results + List.length operands + List.length succs + wes attrs + wts rtypes + list_sum (map wr regions))%nat
  end
with wr (r : region) : nat := match r with Region blocks => (4 + list_sum (map wb blocks))%nat end
with wb (b : block) : nat := match b with Block _ args ops => (4 + wargs args + list_sum (map wo ops))%nat end.
Lemma wo_pos : forall o, (1 <= wo o)%nat. Proof. intros []. cbn [wo]. lia. Qed.
Lemma wr_pos : forall o, (1 <= wr o)%nat. Proof. intros []. cbn [wr]. lia. Qed.
Lemma wb_pos : forall o, (1 <= wb o)%nat. Proof. intros []. cbn [wb]. lia. Qed.

Lemma attr_at_find : forall k l, find_attr k l = attr_at k l.
Proof. intros. unfold find_attr. induction l as [|[k' v] l IH]; [reflexivity|]. cbn [find attr_at fst]. destruct (text_eqb k' k); auto. Qed.
Lemma func_type_signature : forall l, func_type l = signature l.
Proof. intros. unfold func_type, signature. rewrite attr_at_find. reflexivity. Qed.
Lemma text_eqb_spec : forall a b, text_eqb a b = true <-> a = b.
Proof. intros. unfold text_eqb. destruct (list_eq_dec N.eq_dec a b); split; intros; congruence. Qed.
Lemma is_op_spec : forall d n d' n', is_op d n d' n' = true <-> d = lit d' /\ n = lit n'.
Proof. intros. unfold is_op. rewrite andb_true_iff, !text_eqb_spec. tauto. Qed.

Lemma start_blank : forall c, name_start c -> ~ blank c.
Proof. intros c H D. unfold name_start, blank in *. lia. Qed.
Lemma ident_first : forall d, identifier d -> exists c l, d = c :: l /\ name_start c.
Proof. intros d (c & l & E & H & _). eauto. Qed.
Lemma ident_skip : forall d r, identifier d -> skip (d ++ r) = d ++ r.
Proof. intros d r H. destruct (ident_first _ H) as (c & l & -> & Hc). cbn [app]. apply skip_keep. apply start_blank; auto. Qed.
Lemma blank_no_char : forall c r, blank c -> not_first name_char (c :: r).
Proof. intros c r H. apply nf_cons. unfold name_char, name_start, is_digit, blank in *. lia. Qed.
Lemma blank_not : forall x c r, blank c -> ~ blank x -> not_first (fun y => y = x) (c :: r).
Proof. intros x c r H N. apply nf_cons. intros ->. contradiction. Qed.
Definition led (i : text) : Prop := exists c r, i = c :: r /\ blank c.
Lemma led_char : forall i, led i -> not_first name_char i.
Proof. intros i (c & r & -> & H). apply blank_no_char; auto. Qed.

Section Main.
  Variable alias : ty -> option text.
  Variable show : N -> text.
  Variable finite : N -> bool.
  Variable read : text -> option N.
  Variable custom : text -> text -> option (list text -> option text -> parser raw_op).
  Hypothesis floats : decimal_floats show finite read.
  Local Notation wop := (write_op alias show finite).
  Local Notation wreg := (write_region alias show finite).
  Local Notation op_ok := (op_ok alias finite custom).
  Local Notation region_ok := (region_ok alias finite custom).
  Local Notation block_ok := (block_ok alias finite custom).
  Local Notation ops_text := (ops_text0 alias show finite).
  Local Notation blocks_text := (blocks_text0 alias show finite).
  Local Notation oper := (operation read custom).

  Lemma operation_skip : forall f i j, skip i = skip j -> oper f i = oper f j.
  Proof. intros f i j E. destruct f as [|f]; [reflexivity|]. cbn [operation]. apply ws_same. exact E. Qed.
  Lemma block_skip : forall f i j, skip i = skip j -> block_ read custom f i = block_ read custom f j.
  Proof. intros f i j E. destruct f as [|f]; [reflexivity|]. cbn [block_]. apply ws_same. exact E. Qed.

  (** *** The sections of a generic operation, from its operands on *)
  Definition t5 (k : nat) (o : op) (F : text) : text := match o with Op _ _ _ _ _ _ _ regions => concat (map (wreg k) regions) ++ nl ++ F end.
  Definition t4 k o F : text := match o with Op _ _ _ _ _ _ rtypes _ => match rtypes with [] => [] | _ => lit " : " ++ comma (map (write_type alias show finite) rtypes) end ++ t5 k o F end.
  Definition t3 k o F : text := match o with Op _ _ _ _ _ attrs _ _ => match attrs with [] => [] | _ => lit " {" ++ write_entries alias show finite attrs ++ lit "}" end ++ t4 k o F end.
  Definition t2 k o F : text := match o with Op _ _ _ _ succs _ _ _ => match succs with [] => [] | _ => lit " [" ++ comma (map label succs) ++ lit "]" end ++ t3 k o F end.
  Definition t1 k o F : text := match o with Op _ _ _ operands _ _ _ _ => match operands with [] => [] | _ => ch " " :: comma (map value operands) end ++ t2 k o F end.
  Lemma wop_eq : forall k results d n operands succs attrs rtypes regions F, is_op d n "func" "func" = false ->
    let o := Op results d n operands succs attrs rtypes regions in
    wop k o ++ F = spaces k ++ match results with [] => [] | _ => comma (map value results) ++ lit " = " end ++ d ++ ch "." :: n ++ t1 k o F.
  Proof.
    intros. rewrite write_generic_eq by exact H. unfold t1, t2, t3, t4, t5, o. cbn [write_head]. rewrite <- !app_assoc. cbn [app]. rewrite <- !app_assoc. reflexivity.
  Qed.
  Lemma led_nl : forall F, led (nl ++ F). Proof. intros. exists 10, F. split; [reflexivity|apply blank10]. Qed.
  Lemma led32 : forall F, led (32 :: F). Proof. intros. exists 32, F. split; [reflexivity|apply blank32]. Qed.
  Lemma led5 : forall k o F, led (t5 k o F).
  Proof. intros k [? ? ? ? ? ? ? [|[bs] l]] F; cbn [t5 map concat app]; [apply led_nl|]. rewrite write_region_eq. apply led32. Qed.
  Lemma led4 : forall k o F, led (t4 k o F).
  Proof. intros k o F. pose proof (led5 k o F). destruct o as [? ? ? ? ? ? [|] ?]; unfold t4; [exact H|apply led32]. Qed.
  Lemma led3 : forall k o F, led (t3 k o F).
  Proof. intros k o F. pose proof (led4 k o F). destruct o as [? ? ? ? ? [|] ? ?]; unfold t3; [exact H|apply led32]. Qed.
  Lemma led2 : forall k o F, led (t2 k o F).
  Proof. intros k o F. pose proof (led3 k o F). destruct o as [? ? ? ? [|] ? ? ?]; unfold t2; [exact H|apply led32]. Qed.
  Lemma led1 : forall k o F, led (t1 k o F).
  Proof. intros k o F. pose proof (led2 k o F). destruct o as [? ? ? [|] ? ? ? ?]; unfold t1; [exact H|apply led32]. Qed.

  Lemma nb : forall x, In x [64; 91; 45; 123; 58; 40; 44; 61; 37; 125; 94; 33] -> ~ blank x.
  Proof. intros x H D. cbn in H. unfold blank in D. lia. Qed.
  Lemma next_32 : forall x i, ~ blank x -> next (32 :: x :: i) = Some x.
  Proof. intros. rewrite next_blank by apply blank32. apply next_keep; auto. Qed.
  Lemma next5 : forall k o F, (match o with Op _ _ _ _ _ _ _ l => l end = [] /\ next (t5 k o F) = next F) \/ (match o with Op _ _ _ _ _ _ _ l => l end <> [] /\ next (t5 k o F) = Some 123).
  Proof.
    intros k [? ? ? ? ? ? ? [|[bs] l]] F; cbn [t5 map concat app]; [left|right]; (split; [congruence || reflexivity|]).
    - apply next_blank. apply blank10.
    - rewrite write_region_eq. apply next_32. apply nb. cbn. tauto.
  Qed.
  Lemma next4 : forall k o F, (match o with Op _ _ _ _ _ _ l _ => l end = [] /\ t4 k o F = t5 k o F) \/ (match o with Op _ _ _ _ _ _ l _ => l end <> [] /\ next (t4 k o F) = Some 58).
  Proof. intros k [? ? ? ? ? ? [|] ?] F; unfold t4; [left|right]; (split; [congruence || reflexivity|]). reflexivity. apply next_32. apply nb. cbn. tauto. Qed.
  Lemma next3 : forall k o F, (match o with Op _ _ _ _ _ l _ _ => l end = [] /\ t3 k o F = t4 k o F) \/ (match o with Op _ _ _ _ _ l _ _ => l end <> [] /\ next (t3 k o F) = Some 123).
  Proof. intros k [? ? ? ? ? [|] ? ?] F; unfold t3; [left|right]; (split; [congruence || reflexivity|]). reflexivity. apply next_32. apply nb. cbn. tauto. Qed.
  Lemma next2 : forall k o F, (match o with Op _ _ _ _ l _ _ _ => l end = [] /\ t2 k o F = t3 k o F) \/ (match o with Op _ _ _ _ l _ _ _ => l end <> [] /\ next (t2 k o F) = Some 91).
  Proof. intros k [? ? ? ? [|] ? ? ?] F; unfold t2; [left|right]; (split; [congruence || reflexivity|]). reflexivity. apply next_32. apply nb. cbn. tauto. Qed.
  Lemma next1 : forall k o F, (match o with Op _ _ _ l _ _ _ _ => l end = [] /\ t1 k o F = t2 k o F) \/ (match o with Op _ _ _ l _ _ _ _ => l end <> [] /\ next (t1 k o F) = Some 37).
  Proof.
    intros k [? ? ? [|v l] ? ? ? ?] F; unfold t1; [left|right]; (split; [congruence || reflexivity|]). reflexivity.
    cbn [map app]. unfold comma. change (map value (v :: l)) with (map value (v :: l)). change (value v :: map value l) with (map value (v :: l)). rewrite join_tail. cbn [app]. apply next_32. apply nb. cbn. tauto.
  Qed.
  (** A character that cannot come next. *)
  Definition seen (l : list N) (F i : text) : Prop := next i = next F \/ exists c, next i = Some c /\ In c l.
  Lemma seen5 : forall k o F, seen [123] F (t5 k o F).
  Proof. intros. destruct (next5 k o F) as [[_ E]|[_ E]]; [left; auto|right; exists 123; split; auto; cbn; auto]. Qed.
  Lemma seen4 : forall k o F, seen [58; 123] F (t4 k o F).
  Proof. intros. destruct (next4 k o F) as [[_ E]|[_ E]]. rewrite E. destruct (seen5 k o F) as [H|(c & H & I)]; [left; auto|right; exists c; split; auto; cbn in *; tauto]. right. exists 58. cbn. auto. Qed.
  Lemma seen3 : forall k o F, seen [123; 58] F (t3 k o F).
  Proof. intros. destruct (next3 k o F) as [[_ E]|[_ E]]. rewrite E. destruct (seen4 k o F) as [H|(c & H & I)]; [left; auto|right; exists c; split; auto; cbn in *; tauto]. right. exists 123. cbn. auto. Qed.
  Lemma seen2 : forall k o F, seen [91; 123; 58] F (t2 k o F).
  Proof. intros. destruct (next2 k o F) as [[_ E]|[_ E]]. rewrite E. destruct (seen3 k o F) as [H|(c & H & I)]; [left; auto|right; exists c; split; auto; cbn in *; tauto]. right. exists 91. cbn. auto. Qed.
  Lemma seen1 : forall k o F, seen [37; 91; 123; 58] F (t1 k o F).
  Proof. intros. destruct (next1 k o F) as [[_ E]|[_ E]]. rewrite E. destruct (seen2 k o F) as [H|(c & H & I)]; [left; auto|right; exists c; split; auto; cbn in *; tauto]. right. exists 37. cbn. auto. Qed.
  Lemma seen_not : forall l F i x, follows F -> seen l F i -> In x [64; 91; 45; 123; 58; 40; 44; 61] -> ~ In x l -> next i <> Some x.
  Proof. intros l F i x Hf [E|(c & E & I)] Hx N D. rewrite E in D. eapply follows_not; eauto. rewrite E in D. inversion D; subst. contradiction. Qed.

  (** *** The beginning of an operation *)
  (** A place where an attribute dictionary does not start: after the brace comes no closing brace and no attribute. *)
  Definition opening (i : text) : Prop := next i <> Some 125 /\ forall A (q : text -> parser A) j, skip j = skip i -> (_ <~ ws ;; k <~ attribute_key ;; _ <~ ws ;; _ <~ tok (ch "=") ;; q k) j = Fail.
  Lemma opening_dict : forall i, opening i -> no_dict (32 :: 123 :: i).
  Proof.
    intros i (H & K) n p. rewrite ws_bind. rewrite skip_blank by apply blank32. rewrite skip_keep by (apply nb; cbn; tauto). unfold dict.
    rewrite (pbind_ok _ _ _ _ _ tt i) by apply tok_ok. rewrite ws_bind. rewrite (pbind_ok _ _ _ _ _ [] (skip i)).
    - rewrite ws_bind, skip_skip. apply pbind_fail. apply tok_skip_no. exact H.
    - unfold separated0. rewrite (K _ (fun k => _ <~ ws ;; v <~ p ;; _ <~ ws ;; ret (k, v)) (skip i) (skip_skip i)). reflexivity.
  Qed.
  Lemma no_key : forall c r, ~ blank c -> ~ name_char c -> c <> 46 -> forall A (q : text -> parser A) j, skip j = c :: r -> (_ <~ ws ;; k <~ attribute_key ;; _ <~ ws ;; _ <~ tok (ch "=") ;; q k) j = Fail.
  Proof.
    intros c r B N D A q j E. rewrite ws_bind, E. apply pbind_fail. unfold attribute_key. apply pbind_fail. unfold take_while1. cbn [span].
    rewrite (not_true _ _ (word_spec c) N). rewrite (proj2 (N.eqb_neq c 46) D). reflexivity.
  Qed.
  Lemma dotted_pair : forall d n, identifier d -> identifier n -> dotted (d ++ 46 :: n).
  Proof. intros. apply (dotted_more d n); auto. apply dotted_one; auto. Qed.
  Lemma opening_name : forall d n T i, identifier d -> identifier n -> not_first (fun c => name_char c \/ c = 46) T -> next T <> Some 61 -> skip i = d ++ 46 :: n ++ T -> opening i.
  Proof.
    intros d n T i Hd Hn HT He E. split.
    - unfold next. rewrite E. destruct (ident_first _ Hd) as (c & l & -> & Hc). cbn [app]. intros X. inversion X; subst. unfold name_start in Hc. lia.
    - intros A q j Ej. rewrite ws_bind, Ej, E. rewrite (pbind_ok _ _ _ _ _ (d ++ 46 :: n) T).
      + rewrite ws_bind. apply pbind_fail. apply tok_skip_no. exact He.
      + replace (d ++ 46 :: n ++ T) with ((d ++ 46 :: n) ++ T) by (rewrite <- app_assoc; reflexivity). apply key_ok; auto. apply dotted_pair; auto.
  Qed.
  Lemma opening_char : forall c r i, c = 37 \/ c = 94 -> skip i = c :: r -> opening i.
  Proof.
    intros c r i Hc E. split. unfold next. rewrite E. intros X. inversion X. lia.
    intros. apply (no_key c r); try (rewrite H; auto). apply nb. cbn. lia. unfold name_char, name_start, is_digit. lia. lia.
  Qed.

  (** The texts of operations. *)
  Definition sig_text (attrs : list (text * attr)) (regions : list region) (k : nat) (F : text) : text :=
    write_signature alias show finite attrs regions ++ match regions with Region blocks :: _ => lit " {" ++ nl ++ func_text alias show finite k blocks ++ spaces k ++ lit "}" ++ nl ++ F | [] => nl ++ F end.
  Lemma wfunc_eq : forall k results operands succs attrs rtypes regions F,
    wop k (Op results (lit "func") (lit "func") operands succs attrs rtypes regions) ++ F = spaces k ++ lit "func" ++ 46 :: lit "func" ++ sig_text attrs regions k F.
  Proof. intros. rewrite write_func_eq. unfold sig_text. rewrite <- !app_assoc. change (lit "func.func") with (lit "func" ++ 46 :: lit "func"). rewrite <- !app_assoc. do 2 f_equal. cbn [app]. do 3 f_equal. destruct regions as [|[b] l]; rewrite <- ?app_assoc; reflexivity. Qed.
  Lemma sig_first : forall attrs regions k F, exists c r, sig_text attrs regions k F = c :: r /\ (c = 40 \/ c = 32 /\ exists r', r = 64 :: r').
  Proof.
    intros. unfold sig_text, write_signature.
    assert (H : func_name attrs = [] \/ exists s, func_name attrs = 32 :: 64 :: s).
    { unfold func_name. destruct (find_attr (lit "sym_name") attrs) as [[]|]; auto. right. eexists. reflexivity. }
    destruct H as [->|(s & ->)].
    - cbn [app]. destruct regions as [|r l]; [destruct (func_type attrs) as [[]|]|]; eexists _, _; (split; [reflexivity|left; reflexivity]).
    - cbn [app]. eexists _, _. split; [reflexivity|]. right. split; auto. eexists; reflexivity.
  Qed.
  Lemma func_ident : identifier (lit "func").
  Proof. exists 102, (lit "unc"). split; [reflexivity|]. split. unfold name_start. lia. apply forallb_word. reflexivity. Qed.

  Lemma results_text : forall (v : N) l r, exists r', (comma (map value (v :: l)) ++ lit " = ") ++ r = 37 :: r'.
  Proof. intros. unfold comma. rewrite join_tail. eexists. reflexivity. Qed.
  Lemma op_head : forall o k F, op_ok o ->
    (has_results o /\ exists r, skip (wop k o ++ F) = 37 :: r) \/
    (~ has_results o /\ exists d n T, identifier d /\ identifier n /\ skip (wop k o ++ F) = d ++ 46 :: n ++ T /\ not_first (fun c => name_char c \/ c = 46) T /\ (follows F -> next T <> Some 61)).
  Proof.
    intros o k F H. inversion H; subst.
    - destruct results as [|v results].
      + right. split. { intros [_ D]. contradiction. } exists d, n. eexists. split; [assumption|]. split; [assumption|].
        rewrite wop_eq by assumption. rewrite skip_spaces. change ([] ++ d ++ ch "." :: n ++ ?x) with (d ++ 46 :: n ++ x). rewrite ident_skip by assumption. split; [reflexivity|].
        match goal with |- context[t1 k ?o F] => set (oo := o) end. destruct (led1 k oo F) as (c & r & E & Hc). split.
        * rewrite E. apply nf_cons. unfold name_char, name_start, is_digit, blank in *. lia.
        * intros Hf. eapply seen_not; [exact Hf|apply seen1| |]; cbn; [tauto|lia].
      + left. split. { split; [assumption|discriminate]. } rewrite wop_eq by assumption. rewrite skip_spaces.
        match goal with |- exists r, skip (?a ++ ?b) = _ => destruct (results_text v results b) as (r' & E); rewrite E end. exists r'. apply skip_keep. apply nb. cbn. tauto.
    - right. split. { intros [D _]. discriminate D. } exists (lit "func"), (lit "func"). eexists. split; [apply func_ident|]. split; [apply func_ident|].
      rewrite wfunc_eq, skip_spaces, ident_skip by apply func_ident. split; [reflexivity|].
      destruct (sig_first attrs regions k F) as (c & r & E & Hc). rewrite E. split.
      + apply nf_cons. unfold name_char, name_start, is_digit. destruct Hc as [->|[-> _]]; lia.
      + intros _. destruct Hc as [->|(-> & r' & ->)]. rewrite next_keep by (apply nb; cbn; tauto). discriminate. rewrite next_32 by (apply nb; cbn; tauto). discriminate.
  Qed.
  Lemma op_opening : forall o k F, op_ok o -> follows F -> opening (wop k o ++ F).
  Proof.
    intros o k F H Hf. destruct (op_head o k F H) as [(_ & r & E)|(_ & d & n & T & Hd & Hn & E & H1 & H2)].
    - apply (opening_char 37 r); auto.
    - apply (opening_name d n T); auto.
  Qed.
  Lemma op_follows : forall o k F, op_ok o -> follows (wop k o ++ F).
  Proof.
    intros o k F H. unfold follows. destruct (op_head o k F H) as [(_ & r & ->)|(_ & d & n & T & Hd & Hn & -> & H1 & H2)].
    - right. left. exists 37, r. auto.
    - right. right. exists d, (n ++ T). auto.
  Qed.
  Lemma op_next : forall o k F, op_ok o -> exists c, next (wop k o ++ F) = Some c /\ (c = 37 /\ has_results o \/ name_start c).
  Proof.
    intros o k F H. unfold next. destruct (op_head o k F H) as [(Hr & r & ->)|(_ & d & n & T & Hd & Hn & -> & H1 & H2)].
    - eauto.
    - destruct (ident_first _ Hd) as (c & l & -> & Hc). cbn [app]. eauto.
  Qed.

  (** *** One step of the parsers *)
  Lemma region_eq : forall f, region_ read custom (S f) =
        (_ <~ tok (ch "{") ;; _ <~ ws ;;
        aliases <~ alias_defs read f ;;
        blocks <~ (fun i =>
          if starts (ch "^") i then many f (starts (ch "}")) (block_ read custom f) i
          else if starts (ch "}") i then Ok [] i
          else pmap (fun ops => [RawBlock (lit "bb0") [] ops]) (many f (fun i => starts (ch "}") i || match i with [] => true | _ => false end) (oper f)) i) ;;
        _ <~ ws ;; _ <~ tok (ch "}") ;; ret (RawRegion aliases blocks)).
  Proof. reflexivity. Qed.
  Definition func_rest (f : nat) (results : option (list text)) (sym : option text) : parser raw_op :=
          _ <~ ws ;;
          params <~ (fun i => if starts (ch "(") i then func_params read f i else Ok [] i) ;;
          ret_ty <~ opt (return_type read f) ;;
          attrs <~ opt (_ <~ ws ;; _ <~ word_lit (lit "attributes") ;; _ <~ ws ;; attr_dict read f) ;;
          _ <~ ws ;;
          regions <~ (fun i => if starts (ch "{") i then pmap (fun r => [r]) (region_ read custom f) i else Ok [] i) ;;
          ret (RawOp (default results) (lit "func") (lit "func") sym params ret_ty [] (default attrs) [] regions []).
  Definition generic_rest (f : nat) (results : option (list text)) (dn : text * text) (sym : option text) : parser raw_op :=
              _ <~ ws ;;
              po <~ params_or_operands read f ;;
              succs <~ opt (_ <~ ws ;; successor_list f) ;;
              ret_ty <~ opt (return_type read f) ;;
              attrs <~ opt (_ <~ ws ;; attr_dict read f) ;;
              rtypes <~ opt (type_annotation read f) ;;
              regions <~ regions_loop f (region_ read custom f) ;;
              ret (RawOp (default results) (fst dn) (snd dn) sym (fst po) ret_ty (snd po) (default attrs) (default rtypes) regions (default succs)).
  Lemma operation_eq : forall f, oper (S f) =
        (_ <~ ws ;; results <~ opt (result_list f) ;; _ <~ ws ;; dn <~ qualified_name ;; sym <~ opt (_ <~ ws ;; symbol_ref) ;;
        if is_op (fst dn) (snd dn) "func" "func" then func_rest f results sym
        else match custom (fst dn) (snd dn) with Some p => p (default results) sym | None => generic_rest f results dn sym end).
  Proof. reflexivity. Qed.

  (** *** Lists of operations *)
  Definition reads_back (f : nat) (o : op) : Prop :=
    forall k F, follows F -> (bare o -> next F <> Some 37) -> exists G, oper f (wop k o ++ F) = Ok (reread alias o) G /\ skip G = skip F.
  Lemma ops_cons : forall k o l R, ops_text k (o :: l) ++ R = wop k o ++ ops_text k l ++ R.
  Proof. intros. unfold ops_text0. cbn [map concat]. rewrite <- app_assoc. reflexivity. Qed.
  Lemma ops_follow : forall ops k R, Forall op_ok ops -> follows R -> follows (ops_text k ops ++ R).
  Proof. intros [|o ops] k R H Hf; [exact Hf|]. rewrite ops_cons. apply op_follows. inversion H; auto. Qed.
  Lemma many_ops : forall stop f k R, follows R -> next R <> Some 37 -> stop (skip R) = true -> (forall o F, op_ok o -> stop (skip (wop k o ++ F)) = false) ->
    forall ops n i, Forall op_ok ops -> calm ops -> Forall (reads_back f) ops -> (List.length ops < n)%nat -> skip i = skip (ops_text k ops ++ R) ->
    many n stop (oper f) i = Ok (map (reread alias) ops) (skip R).
  Proof.
    intros stop f k R Hf Hp Hs Hg. induction ops as [|o ops IH]; intros n i Ho Hc Hr Hn Hi; (destruct n as [|n]; [cbn in Hn; lia|]); cbn [many]; rewrite ws_bind, Hi.
    - cbn [ops_text0 map concat app]. rewrite Hs. reflexivity.
    - rewrite ops_cons. inversion Ho; subst. inversion Hr; subst. rewrite Hg by assumption. set (F := ops_text k ops ++ R) in *.
      assert (HF : follows F) by (apply ops_follow; auto).
      assert (HB : bare o -> next F <> Some 37).
      { intros Hb. unfold F. destruct ops as [|o' ops]; [exact Hp|]. rewrite ops_cons. inversion H2; subst. destruct (op_next o' k (ops_text k ops ++ R)) as (c & -> & [[-> Hh]|Hh]); auto.
        - destruct Hc as [Hc _]. exfalso. apply (Hc Hb Hh).
        - intros X. inversion X; subst. unfold name_start in Hh. lia. }
      destruct (H3 k F HF HB) as (G & EG & SG).
      rewrite (pbind_ok _ _ _ _ _ (reread alias o) G). 2: { rewrite (operation_skip f (skip (wop k o ++ F)) (wop k o ++ F)) by apply skip_skip. exact EG. }
      cbn [map]. apply pmap_ok. apply IH; auto. apply Hc. cbn in Hn. lia.
  Qed.

  (** *** Blocks *)
  Local Notation reread := (reread alias).
  Definition reread_block (b : block) : raw_block := match b with Block b args ops => RawBlock (bb b) (map (arg_read alias) args) (map reread ops) end.
  Definition block_back (f : nat) (b : block) : Prop := match b with Block _ args ops => (wargs args <= f)%nat /\ (List.length ops < f)%nat /\ Forall (reads_back f) ops end.
  Lemma label_skip : forall b r, skip (label b ++ r) = label b ++ r.
  Proof. intros. apply skip_nf. apply label_first. Qed.
  Lemma label_next : forall b r, next (label b ++ r) = Some 94.
  Proof. intros. apply next_keep. apply nb. cbn. tauto. Qed.
  Lemma stop_op : forall (c : N) o k F, op_ok o -> In c [125; 94] -> starts c (skip (wop k o ++ F)) = false.
  Proof. intros c o k F H I. apply starts_not. destruct (op_next o k F H) as (x & -> & [[-> _]|Hx]); intros X; inversion X; subst; cbn in I; [|unfold name_start in Hx]; lia. Qed.
  Lemma op_nonempty : forall o k F, op_ok o -> match skip (wop k o ++ F) with [] => true | _ => false end = false.
  Proof. intros o k F H. destruct (op_next o k F H) as (x & E & _). unfold next in E. destruct (skip (wop k o ++ F)); [discriminate|reflexivity]. Qed.
  Lemma gap_skip : forall b i, skip (blank_after b ++ i) = skip i.
  Proof. intros [|] i; [reflexivity|apply skip_nl]. Qed.
  Lemma block_one : forall f b args ops k i gap R, block_ok (Block b args ops) -> block_back f (Block b args ops) -> (next R = Some 94 \/ next R = Some 125) ->
    skip i = skip (label b ++ args_text alias show finite args ++ lit ":" ++ nl ++ ops_text k ops ++ blank_after gap ++ R) ->
    block_ read custom (S f) i = Ok (reread_block (Block b args ops)) (skip R).
  Proof.
    intros f b args ops k i gap R Hb (Ha & Hl & Hr) HR Hi. inversion Hb; subst. cbn [block_ reread_block]. rewrite ws_bind, Hi, label_skip.
    set (T := 58 :: nl ++ ops_text k ops ++ blank_after gap ++ R).
    change (lit ":" ++ nl ++ ops_text k ops ++ blank_after gap ++ R) with T.
    rewrite (pbind_ok _ _ _ _ _ (bb b) (args_text alias show finite args ++ T)).
    2: { apply label_ok. destruct args; apply nf_cons; unfold name_char, name_start, is_digit; cbn; lia. }
    assert (E : exists x, opt (func_params read f) (args_text alias show finite args ++ T) = Ok x T /\ default x = map (arg_read alias) args).
    { destruct args as [|a args].
      - exists None. split; [|reflexivity]. apply opt_fail. unfold func_params. apply pbind_fail. apply tok_no. discriminate.
      - exists (Some (map (arg_read alias) (a :: args))). split; [|reflexivity]. apply opt_ok. apply (args_ok alias show finite read floats); auto. }
    destruct E as (x & E & Ex). rewrite (pbind_ok _ _ _ _ _ x T E). rewrite ws_bind. unfold T at 1. rewrite skip_keep by (apply nb; cbn; tauto).
    rewrite (pbind_ok _ _ _ _ _ tt (nl ++ ops_text k ops ++ blank_after gap ++ R)) by apply tok_ok.
    assert (Hn : next (blank_after gap ++ R) = next R) by (apply next_skip; apply gap_skip).
    rewrite (pbind_ok _ _ _ _ _ (map reread ops) (skip R)). { unfold ret. rewrite Ex. reflexivity. }
    rewrite <- (gap_skip gap R).
    apply (many_ops _ f k (blank_after gap ++ R)); auto.
    - unfold follows. rewrite gap_skip. right. left. unfold next in HR. destruct (skip R) as [|c r]; [destruct HR; discriminate|]. exists c, r. split; auto. destruct HR as [HR|HR]; inversion HR; subst; auto.
    - rewrite Hn. destruct HR as [-> | ->]; discriminate.
    - destruct HR as [HR|HR].
      + replace (starts (ch "^") (skip (blank_after gap ++ R))) with true. reflexivity. symmetry. apply starts_next. rewrite Hn. exact HR.
      + replace (starts (ch "}") (skip (blank_after gap ++ R))) with true. rewrite orb_true_r. reflexivity. symmetry. apply starts_next. rewrite Hn. exact HR.
    - intros o F Hok. rewrite (stop_op (ch "^")) by (auto; cbn; auto). rewrite (stop_op (ch "}")) by (auto; cbn; auto). rewrite op_nonempty by auto. reflexivity.
    - apply skip_nl.
  Qed.
  Lemma blocks_next : forall gap k l R, next R = Some 125 -> next (blocks_text gap k l ++ R) = Some 94 \/ next (blocks_text gap k l ++ R) = Some 125.
  Proof. intros gap k [|[b args ops] l] R H; [right; exact H|left]. cbn [blocks_text0]. rewrite <- !app_assoc. rewrite next_spaces. apply label_next. Qed.
  Lemma many_blocks : forall f gap k R, next R = Some 125 -> forall l n i, Forall block_ok l -> Forall (block_back f) l -> (List.length l < n)%nat -> skip i = skip (blocks_text gap k l ++ R) ->
    many n (starts (ch "}")) (block_ read custom (S f)) i = Ok (map reread_block l) (skip R).
  Proof.
    intros f gap k R HR. induction l as [|[b args ops] l IH]; intros n i Ho Hr Hn Hi; (destruct n as [|n]; [cbn in Hn; lia|]); cbn [many]; rewrite ws_bind, Hi.
    - cbn [blocks_text0 app]. replace (starts (ch "}") (skip R)) with true by (symmetry; apply starts_next; exact HR). reflexivity.
    - inversion Ho; subst. inversion Hr; subst. cbn [blocks_text0]. rewrite <- !app_assoc. rewrite skip_spaces.
      rewrite starts_not by (rewrite label_next; discriminate).
      rewrite (pbind_ok _ _ _ _ _ (reread_block (Block b args ops)) (skip (blocks_text gap k l ++ R))).
      + cbn [map]. apply pmap_ok. apply IH; auto. cbn in Hn. lia. apply skip_skip.
      + eapply block_one; eauto. apply blocks_next; auto. rewrite skip_skip. reflexivity.
  Qed.

  (** *** Regions *)
  Local Notation reg := (region_ read custom).
  Lemma not_alias : forall i, next i <> Some 33 -> is_alias_def (skip i) = false.
  Proof. intros. unfold is_alias_def. destruct (skip i) as [|c r] eqn:E; [reflexivity|]. destruct (N.eqb_spec c (ch "!")); auto. exfalso. apply H. unfold next. rewrite E. subst. reflexivity. Qed.
  Lemma no_aliases : forall n i, next i <> Some 33 -> (1 <= n)%nat -> alias_defs read n (skip i) = Ok [] (skip i).
  Proof. intros [|n] i H Hn; [lia|]. cbn [alias_defs]. rewrite not_alias by auto. reflexivity. Qed.
  Lemma close_region : forall k R, next (spaces k ++ 125 :: R) = Some 125 /\ skip (spaces k ++ 125 :: R) = 125 :: R.
  Proof. intros. rewrite next_spaces, skip_spaces. split; [apply next_keep|apply skip_keep]; apply nb; cbn; tauto. Qed.
  Definition from_ops (ops : list op) : list raw_block := match ops with [] => [] | _ => [RawBlock (lit "bb0") [] (map reread ops)] end.
  Lemma region_ops : forall f ops k k' R, Forall op_ok ops -> calm ops -> Forall (reads_back f) ops -> (List.length ops < f)%nat ->
    reg (S f) (123 :: nl ++ ops_text k ops ++ spaces k' ++ 125 :: R) = Ok (RawRegion [] (from_ops ops)) R.
  Proof.
    intros f ops k k' R Ho Hc Hr Hn. destruct (close_region k' R) as (C1 & C2). set (Z := spaces k' ++ 125 :: R) in *.
    rewrite region_eq. rewrite (pbind_ok _ _ _ _ _ tt (nl ++ ops_text k ops ++ Z)) by apply tok_ok. rewrite ws_bind, skip_nl.
    assert (HN : next (ops_text k ops ++ Z) <> Some 33 /\ next (ops_text k ops ++ Z) <> Some 94).
    { destruct ops as [|o ops]; [cbn [ops_text0 map concat app]; rewrite C1; split; discriminate|]. rewrite ops_cons. inversion Ho; subst.
      destruct (op_next o k (ops_text k ops ++ Z)) as (c & -> & [[-> _]|Hh]); auto; [split; discriminate|]. unfold name_start in Hh. split; intros X; inversion X; lia. }
    rewrite (pbind_ok _ _ _ _ _ [] (skip (ops_text k ops ++ Z))). 2: { apply no_aliases; [apply HN|lia]. }
    rewrite (pbind_ok _ _ _ _ _ (from_ops ops) (125 :: R)).
    - rewrite ws_bind. rewrite skip_keep by (apply nb; cbn; tauto). rewrite (pbind_ok _ _ _ _ _ tt R) by apply tok_ok. reflexivity.
    - rewrite starts_not by apply HN. destruct ops as [|o ops].
      + cbn [ops_text0 map concat app from_ops]. rewrite C2. reflexivity.
      + rewrite ops_cons. rewrite (stop_op (ch "}")) by (cbn; inversion Ho; auto). rewrite <- ops_cons. unfold from_ops. apply (pmap_ok _ _ (fun ops => [RawBlock (lit "bb0") [] ops])). rewrite <- C2.
        apply (many_ops _ f k Z); auto.
        * unfold follows. rewrite C2. right. left. exists 125, R. auto.
        * rewrite C1. discriminate.
        * rewrite C2. reflexivity.
        * intros o' F Hok. rewrite (stop_op (ch "}")) by (auto; cbn; auto). rewrite op_nonempty by auto. reflexivity.
        * apply skip_skip.
  Qed.
  Lemma region_blocks_back : forall f gap l k k' R, Forall block_ok l -> Forall (block_back f) l -> (List.length l <= f)%nat -> forall f', f' = S f ->
    reg (S f') (123 :: nl ++ blocks_text gap k l ++ spaces k' ++ 125 :: R) = Ok (RawRegion [] (map reread_block l)) R.
  Proof.
    intros f gap l k k' R Ho Hr Hn f' Hf. destruct (close_region k' R) as (C1 & C2). set (Z := spaces k' ++ 125 :: R) in *.
    rewrite region_eq. rewrite (pbind_ok _ _ _ _ _ tt (nl ++ blocks_text gap k l ++ Z)) by apply tok_ok. rewrite ws_bind, skip_nl.
    rewrite (pbind_ok _ _ _ _ _ [] (skip (blocks_text gap k l ++ Z))). 2: { apply no_aliases; [|lia]. destruct (blocks_next gap k l Z C1) as [-> | ->]; discriminate. }
    rewrite (pbind_ok _ _ _ _ _ (map reread_block l) (125 :: R)).
    - rewrite ws_bind. rewrite skip_keep by (apply nb; cbn; tauto). rewrite (pbind_ok _ _ _ _ _ tt R) by apply tok_ok. reflexivity.
    - destruct l as [|[b args ops] l].
      + cbn [blocks_text0 app map]. rewrite C2. reflexivity.
      + replace (starts (ch "^") (skip (blocks_text gap k (Block b args ops :: l) ++ Z))) with true.
        2: { symmetry. apply starts_next. cbn [blocks_text0]. rewrite <- !app_assoc. rewrite next_spaces. apply label_next. }
        rewrite <- C2. subst f'. apply (many_blocks f gap k Z); auto. cbn [List.length] in *. lia. apply skip_skip.
  Qed.

  (** *** The regions of an operation *)
  Lemma region_text : forall k blocks X, wreg k (Region blocks) ++ X = 32 :: 123 :: nl ++ body_text alias show finite k blocks ++ spaces k ++ 125 :: X.
  Proof. intros. rewrite write_region_eq. change (lit " {") with [32; 123]. rewrite <- !app_assoc. reflexivity. Qed.
  Lemma opening_skip : forall i j, skip i = skip j -> opening i -> opening j.
  Proof. intros i j E (H & K). split. unfold next in *. rewrite <- E. exact H. intros. apply K. congruence. Qed.
  Lemma closing_follows : forall k X, follows (spaces k ++ 125 :: X).
  Proof. intros. unfold follows. destruct (close_region k X) as (_ & ->). right. left. exists 125, X. auto. Qed.
  Lemma opening_ops : forall ops k k' X, Forall op_ok ops -> ops <> [] -> opening (nl ++ ops_text k ops ++ spaces k' ++ 125 :: X).
  Proof.
    intros [|o ops] k k' X H N; [contradiction|]. apply (opening_skip (ops_text k (o :: ops) ++ spaces k' ++ 125 :: X)). symmetry; apply skip_nl.
    inversion H; subst. rewrite ops_cons. apply op_opening; auto. apply ops_follow; auto. apply closing_follows.
  Qed.
  Lemma opening_blocks : forall gap l k X, l <> [] -> opening (nl ++ blocks_text gap k l ++ X).
  Proof.
    intros gap [|[b args ops] l] k X N; [contradiction|]. cbn [blocks_text0]. rewrite <- !app_assoc. eapply (opening_char 94); [auto|]. rewrite skip_nl, skip_spaces, label_skip. reflexivity.
  Qed.
  Lemma region_open : forall k r X, region_ok r -> ~ nothing_in r -> no_dict (wreg k r ++ X).
  Proof.
    intros k [blocks] X H N. rewrite region_text. apply opening_dict. inversion H; subst.
    destruct blocks as [|[b args ops] l]; [exfalso; apply N; exact I|]. unfold body_text.
    destruct args as [|a args]; [|apply opening_blocks; discriminate]. destruct l; [|apply opening_blocks; discriminate].
    inversion H1; subst. inversion H3; subst. apply opening_ops; auto. intros ->. apply N. exact I.
  Qed.
  Definition region_back (f : nat) (r : region) : Prop :=
    match r with Region blocks => forall k X, reg f (123 :: nl ++ body_text alias show finite k blocks ++ spaces k ++ 125 :: X) = Ok (reread_region alias r) X end.
  Lemma regions_ok : forall f k F, next F <> Some 123 -> forall l n i, Forall (region_back f) l -> (List.length l < n)%nat -> skip i = skip (concat (map (wreg k) l) ++ nl ++ F) ->
    regions_loop n (reg f) i = Ok (map (reread_region alias) l) (skip F).
  Proof.
    intros f k F HF. induction l as [|[blocks] l IH]; intros n i Hr Hn Hi; (destruct n as [|n]; [cbn in Hn; lia|]); cbn [regions_loop]; rewrite ws_bind, Hi.
    - cbn [map concat app]. change (10 :: F) with (nl ++ F). rewrite skip_nl. rewrite starts_not by exact HF. reflexivity.
    - inversion Hr; subst. cbn [map concat]. rewrite <- app_assoc. rewrite region_text. rewrite skip_blank by apply blank32. rewrite skip_keep by (apply nb; cbn; tauto).
      change (starts (ch "{") (123 :: ?x)) with true. cbn match. rewrite (pbind_ok _ _ _ _ _ (reread_region alias (Region blocks)) (concat (map (wreg k) l) ++ nl ++ F)) by apply H1.
      apply pmap_ok. apply IH; auto. cbn in Hn. lia.
  Qed.
  Lemma ends_of : forall t R, led R -> (open_type alias t -> no_dict R) -> ends_type alias t R.
  Proof.
    intros t R L H. pose proof (led_char _ L) as C. unfold ends_type. destruct t as [d n ps ats|a]; auto. destruct (alias (Ty d n ps ats)) eqn:E; auto. destruct ps, ats; auto.
    - destruct L as (c & r & -> & Hc). apply nf_cons. unfold name_char, name_start, is_digit, blank in *. cbn. lia.
    - apply H. cbn. repeat split; auto. discriminate.
  Qed.

  (** *** A generic operation after its name *)
  Lemma bare_next : forall k results d n succs attrs rtypes regions F, let o := Op results d n [] succs attrs rtypes regions in
    next (t2 k o F) = Some 37 -> succs = [] /\ attrs = [] /\ rtypes = [] /\ regions = [] /\ next F = Some 37.
  Proof.
    intros. destruct (next2 k o F) as [[E2 H2]|[E2 H2]]; [|rewrite H2 in H; discriminate]. rewrite H2 in H.
    destruct (next3 k o F) as [[E3 H3]|[E3 H3]]; [|rewrite H3 in H; discriminate]. rewrite H3 in H.
    destruct (next4 k o F) as [[E4 H4]|[E4 H4]]; [|rewrite H4 in H; discriminate]. rewrite H4 in H.
    destruct (next5 k o F) as [[E5 H5]|[E5 H5]]; [|rewrite H5 in H; discriminate]. rewrite H5 in H. auto.
  Qed.
  Lemma app3 : forall a b c d : text, (a ++ b ++ c) ++ d = a ++ b ++ c ++ d.
  Proof. intros. rewrite <- !app_assoc. reflexivity. Qed.
  Lemma opt_same : forall A (p : parser A) i j a r, skip i = skip j -> opt (_ <~ ws ;; p) j = Ok (Some a) r -> opt (_ <~ ws ;; p) i = Ok (Some a) r.
  Proof. intros A p i j a r E H. unfold opt in *. rewrite (ws_same _ _ i j E). destruct ((_ <~ ws ;; p) j); congruence. Qed.
  Lemma generic_back : forall f k results d n operands succs attrs rtypes regions F rs i, let o := Op results d n operands succs attrs rtypes regions in
    op_ok o -> is_op d n "func" "func" = false -> (wo o <= S f)%nat -> Forall (region_back f) regions -> follows F -> (bare o -> next F <> Some 37) -> skip i = skip (t1 k o F) ->
    generic_rest f rs (d, n) None i =
    Ok (RawOp (default rs) d n None [] None (map write_uint operands) (entries_read alias attrs) (map (abbreviated alias) rtypes) (map (reread_region alias) regions) (map bb succs)) (skip F).
  Proof.
    intros f k results d n operands succs attrs rtypes regions F rs i o Ho Hnf Hw Hr HF Hb Hi.
    assert (Hx : entries_ok alias finite attrs /\ Forall (type_ok alias finite) rtypes /\ Forall region_ok regions /\ keeps_region alias attrs rtypes regions).
    { inversion Ho; subst; auto. discriminate Hnf. }
    destruct Hx as (Ha & Ht & Hrg & Hk). cbn [wo] in Hw. unfold o in Hw. cbn [wo] in Hw.
    unfold generic_rest. rewrite ws_bind, Hi.
    (* operands *)
    rewrite (pbind_ok _ _ _ _ _ ([], map write_uint operands) (skip (t2 k o F))).
    2: { unfold params_or_operands. destruct operands as [|v operands].
         - change (t1 k o F) with (t2 k o F). rewrite starts_not by (eapply seen_not; [exact HF|apply seen2| |]; cbn; [tauto|lia]).
           rewrite starts_not. reflexivity. intros E. apply bare_next in E. destruct E as (-> & -> & -> & -> & E). apply Hb; auto. cbn. repeat split; auto.
         - assert (E : t1 k o F = [32] ++ comma (map value (v :: operands)) ++ t2 k o F) by reflexivity.
           assert (En : next (t1 k o F) = Some 37). { destruct (next1 k o F) as [[D _]|[_ D]]; [discriminate D|exact D]. }
           rewrite starts_not by (rewrite En; discriminate). change (ch "%") with 37. rewrite (proj2 (starts_next 37 (t1 k o F)) En).
           apply (pmap_ok _ _ (fun o => ([], default o)) _ _ (Some (map write_uint (v :: operands)))). apply opt_ok. unfold operand_list.
           replace (skip (t1 k o F)) with ([] ++ comma (map value (v :: operands)) ++ t2 k o F).
           + apply values_ok; auto. discriminate. cbn [List.length] in *. lia. eapply seen_not; [exact HF|apply seen2| |]; cbn; [tauto|lia]. apply led_char. apply led2.
           + rewrite E. cbn [app]. rewrite skip_blank by apply blank32. symmetry. apply skip_nf. unfold comma. rewrite join_tail. apply nf_cons. unfold blank. cbn. lia. }
    (* successors *)
    assert (E : exists x Y, opt (_ <~ ws ;; successor_list f) (skip (t2 k o F)) = Ok x Y /\ default x = map bb succs /\ skip Y = skip (t3 k o F)).
    { destruct succs as [|s succs].
      - exists None, (skip (t2 k o F)). split; [|split; [reflexivity|apply skip_skip]]. apply no_succs. rewrite (next_skip _ (t2 k o F)) by apply skip_skip.
        change (t2 k o F) with (t3 k o F). eapply seen_not; [exact HF|apply seen3| |]; cbn; [tauto|lia].
      - exists (Some (map bb (s :: succs))), (t3 k o F). split; [|split; reflexivity]. apply (opt_same _ _ _ (t2 k o F)); [apply skip_skip|].
        assert (E2 : t2 k o F = lit " [" ++ comma (map label (s :: succs)) ++ lit "]" ++ t3 k o F) by exact (app3 _ _ _ _). rewrite E2.
        apply succs_ok; [discriminate|cbn [List.length] in *; lia]. }
    destruct E as (x & Y & E & Ex & EY). rewrite (pbind_ok _ _ _ _ _ x Y E). clear E.
    rewrite (pbind_ok _ _ _ _ _ None Y). 2: { apply no_return. rewrite (next_skip _ _ EY). eapply seen_not; [exact HF|apply seen3| |]; cbn; [tauto|lia]. }
    (* attributes *)
    assert (E : exists a Z, opt (_ <~ ws ;; attr_dict read f) Y = Ok a Z /\ default a = entries_read alias attrs /\ skip Z = skip (t4 k o F)).
    { destruct attrs as [|a attrs].
      - exists None, Y. split; [|split; [reflexivity|exact EY]]. apply no_attrs. apply (no_dict_same (t4 k o F)). symmetry; exact EY.
        destruct (next4 k o F) as [[E4 H4]|[E4 H4]]. 2: { apply no_braces. rewrite H4. discriminate. }
        rewrite H4. unfold o in E4. subst rtypes. destruct regions as [|r regions].
        + apply no_braces. destruct (next5 k o F) as [[_ ->]|[D _]]; [|exfalso; apply D; reflexivity]. apply follows_not; cbn; tauto.
        + unfold t5, o. cbn [map concat]. rewrite <- app_assoc. inversion Hrg; subst. apply region_open; auto. intros D. destruct (Hk r regions eq_refl D) as ([D1|D1] & _); apply D1; reflexivity.
      - exists (Some (entries_read alias (a :: attrs))), (t4 k o F). split; [|split; reflexivity].
        apply (opt_same _ _ _ (t3 k o F)); [exact EY|].
        assert (E3 : t3 k o F = lit " {" ++ write_entries alias show finite (a :: attrs) ++ lit "}" ++ t4 k o F) by exact (app3 _ _ _ _). rewrite E3.
        apply (attrs_ok alias show finite read floats); auto; lia. }
    destruct E as (a & Z & E & Ea & EZ). rewrite (pbind_ok _ _ _ _ _ a Z E). clear E.
    (* types *)
    assert (E : exists t W, opt (type_annotation read f) Z = Ok t W /\ default t = map (abbreviated alias) rtypes /\ skip W = skip (t5 k o F)).
    { destruct rtypes as [|t rtypes].
      - exists None, Z. split; [|split; [reflexivity|exact EZ]]. apply no_types. rewrite (next_skip _ _ EZ). change (t4 k o F) with (t5 k o F). eapply seen_not; [exact HF|apply seen5| |]; cbn; [tauto|lia].
      - exists (Some (map (abbreviated alias) (t :: rtypes))), (skip (t5 k o F)). split; [|split; [reflexivity|apply skip_skip]].
        apply (opt_same _ _ _ (t4 k o F)); [exact EZ|].
        assert (E4 : t4 k o F = lit " : " ++ comma (map (write_type alias show finite) (t :: rtypes)) ++ t5 k o F) by exact (eq_sym (app_assoc _ _ _)). rewrite E4.
        apply (types_ok alias show finite read floats).
        + discriminate.
        + auto.
        + lia.
        + eapply seen_not; [exact HF|apply seen5| |]; cbn; [tauto|lia].
        + intros m t' Em. apply ends_of; [apply led5|]. intros Ho'. destruct regions as [|r regions].
          * apply no_braces. destruct (next5 k o F) as [[_ ->]|[D _]]; [|exfalso; apply D; reflexivity]. apply follows_not; cbn; tauto.
          * unfold t5, o. cbn [map concat]. rewrite <- app_assoc. inversion Hrg; subst. apply region_open; auto. intros D. destruct (Hk r regions eq_refl D) as (_ & D1). exact (D1 _ _ Em Ho'). }
    destruct E as (t & W & E & Et & EW). rewrite (pbind_ok _ _ _ _ _ t W E). clear E.
    rewrite (pbind_ok _ _ _ _ _ (map (reread_region alias) regions) (skip F)).
    - unfold ret. cbn [fst snd]. rewrite Ex, Ea, Et. reflexivity.
    - apply (regions_ok f k F); auto. apply follows_not; auto; cbn; tauto. pose proof (sum_length _ wr regions wr_pos). lia.
  Qed.

  (** *** A function after its name *)
  Definition w_body (k : nat) (regions : list region) (F : text) : text :=
    match regions with Region blocks :: _ => 32 :: 123 :: nl ++ func_text alias show finite k blocks ++ spaces k ++ 125 :: nl ++ F | [] => nl ++ F end.
  Definition w_attrs (attrs : list (text * attr)) : text := match other_attrs attrs with [] => [] | l => lit " attributes {" ++ write_entries alias show finite l ++ lit "}" end.
  Definition w_ret (attrs : list (text * attr)) : text := match signature attrs with Some (r, _) => lit " -> " ++ write_type alias show finite r | None => [] end.
  Definition w_params (attrs : list (text * attr)) (regions : list region) : text :=
    match regions with
    | r :: _ => write_args alias show finite (entry_args r)
    | [] =>
        match signature attrs with
        | Some (_, ps) => ch "(" :: comma (map (fun ip => (ch "%" :: lit "arg" ++ write_uint (fst ip)) ++ lit ": " ++ write_type alias show finite (snd ip)) (combine (map N.of_nat (seq 0 (List.length ps))) ps)) ++ lit ")"
        | None => lit "()"
        end
    end.
  Lemma sig_text_eq : forall attrs regions k F, sig_text attrs regions k F = func_name attrs ++ w_params attrs regions ++ w_ret attrs ++ w_attrs attrs ++ w_body k regions F.
  Proof.
    intros. unfold sig_text, write_signature. rewrite <- !app_assoc. f_equal. unfold w_params, w_ret, w_attrs. rewrite func_type_signature.
    reflexivity.
  Qed.
  Lemma led_body : forall k regions F, led (w_body k regions F).
  Proof. intros k [|[bs] l] F; [apply led_nl|apply led32]. Qed.
  Lemma led_attrs : forall attrs k regions F, led (w_attrs attrs ++ w_body k regions F).
  Proof. intros. unfold w_attrs. destruct (other_attrs attrs); [apply led_body|apply led32]. Qed.
  Lemma body_next : forall k regions F, (regions = [] /\ next (w_body k regions F) = next F /\ skip (w_body k regions F) = skip F) \/ (regions <> [] /\ next (w_body k regions F) = Some 123).
  Proof.
    intros k [|[bs] l] F; [left|right].
    - split; auto. cbn [w_body]. rewrite (next_skip _ F) by apply skip_nl. rewrite skip_nl. auto.
    - split; [discriminate|]. apply next_32. apply nb. cbn. tauto.
  Qed.
  Lemma attrs_next : forall attrs k regions F, (other_attrs attrs = [] /\ w_attrs attrs ++ w_body k regions F = w_body k regions F) \/ (other_attrs attrs <> [] /\ next (w_attrs attrs ++ w_body k regions F) = Some 97).
  Proof.
    intros. unfold w_attrs. destruct (other_attrs attrs); [left|right]; (split; [congruence || discriminate|]). reflexivity.
    change (lit " attributes {") with (32 :: 97 :: lit "ttributes {"). cbn [app]. rewrite next_blank by apply blank32. apply next_keep. unfold blank. lia.
  Qed.
  Lemma no_attributes : forall A (p : parser A) k regions F, follows F ->
    (forall i, next i <> Some 123 -> p (skip i) = Fail) -> (_ <~ ws ;; _ <~ word_lit (lit "attributes") ;; _ <~ ws ;; p) (w_body k regions F) = Fail.
  Proof.
    intros A p k regions F HF Hp. rewrite ws_bind.
    assert (Hc : forall c r, c <> 97 -> (_ <~ word_lit (lit "attributes") ;; _ <~ ws ;; p) (c :: r) = Fail).
    { intros c r H. apply pbind_fail. apply word_no. intros r' E. inversion E. subst. apply H. reflexivity. }
    destruct (body_next k regions F) as [(_ & _ & ->)|(_ & En)].
    - destruct HF as [E|[(c & r & E & Ec)|(d & r & Hd & E)]]; rewrite E.
      + reflexivity.
      + apply Hc. destruct Ec as [->|[->| ->]]; discriminate.
      + destruct (word_lit (lit "attributes") (d ++ ch "." :: r)) as [[] r'| |] eqn:EW.
        * rewrite (pbind_ok _ _ _ _ _ tt r') by exact EW. rewrite ws_bind. apply Hp.
          (* the rest of the word, then the dot *)
          assert (Er : d ++ ch "." :: r = lit "attributes" ++ r').
          { clear -EW. revert EW. generalize (d ++ ch "." :: r). generalize (lit "attributes"). induction t as [|c t IH]; intros i H; [cbn in H; unfold ret in H; cbn [app]; congruence|].
            cbn [word_lit] in H. destruct i as [|x i]; [discriminate|]. unfold pbind, tok in H. destruct (N.eqb_spec x c) as [->|]; [|discriminate]. cbn [app]. f_equal. apply IH. exact H. }
          assert (Hs : exists s, r' = s ++ ch "." :: r /\ Forall name_char s).
          { destruct Hd as (c & l & -> & Hc1 & Hl). assert (Hall : Forall name_char (c :: l)) by (constructor; [left; exact Hc1|exact Hl]).
            clear -Er Hall. revert Er Hall. generalize (c :: l) as d. assert (Hdot : Forall (fun c => c <> ch ".") (lit "attributes")) by (repeat constructor; discriminate).
            revert Hdot. generalize (lit "attributes") as t. induction t as [|x t IH]; intros Hdot d E Hd; [exists d; cbn in E; auto|].
            inversion Hdot; subst. destruct d as [|y d]; cbn [app] in E; inversion E; subst. { contradiction. } inversion Hd; subst. apply (IH H2 d); auto. }
          destruct Hs as (s & -> & Hs). destruct s as [|x s].
          -- cbn [app]. rewrite next_keep. discriminate. unfold blank. cbn. lia.
          -- inversion Hs; subst. cbn [app]. rewrite next_keep. intros X. inversion X; subst. unfold name_char, name_start, is_digit in *. lia. unfold name_char, name_start, is_digit, blank in *. lia.
        * apply pbind_fail. exact EW.
        * exfalso. revert EW. clear. generalize (d ++ ch "." :: r). generalize (lit "attributes"). induction t as [|c t IH]; intros i H; [discriminate|].
          cbn [word_lit] in H. unfold pbind, tok in H. destruct i as [|x i]; [discriminate|]. destruct (N.eqb_spec x c); [|discriminate]. exact (IH _ H).
    - unfold next in En. destruct (skip (w_body k regions F)) as [|c r]; [discriminate|]. inversion En; subst. apply Hc. discriminate.
  Qed.

  Definition body_read (blocks : list block) : raw_region :=
    RawRegion [] match blocks with
                 | [] => []
                 | [Block _ _ []] => []
                 | [Block _ _ ops] => [RawBlock (lit "bb0") [] (map reread ops)]
                 | Block b _ ops :: l => RawBlock (bb b) [] (map reread ops) :: map reread_block l
                 end.
  Definition body_back (f : nat) (blocks : list block) : Prop := forall k X, reg f (123 :: nl ++ func_text alias show finite k blocks ++ spaces k ++ 125 :: X) = Ok (body_read blocks) X.
  Lemma wes_filter : forall g l, (wes (filter g l) <= wes l)%nat.
  Proof. induction l as [|a l IH]; [auto|]. unfold wes in *. cbn [filter]. unfold list_sum in *. destruct (g a); cbn [map fold_right]; lia. Qed.
  Lemma attr_at_wes : forall k l a, attr_at k l = Some a -> (wa a <= wes l)%nat.
  Proof. induction l as [|[k' v] l IH]; intros a H; [discriminate|]. cbn [attr_at] in H. unfold wes in *. change (list_sum (map (fun kv : text * attr => wa (snd kv)) ((k', v) :: l))) with (wa v + list_sum (map (fun kv : text * attr => wa (snd kv)) l))%nat. destruct (text_eqb k' k); [inversion H; subst; lia|]. apply IH in H. lia. Qed.
  Lemma signature_wes : forall l r ps, signature l = Some (r, ps) -> (wt r + wts ps <= wes l)%nat.
  Proof.
    intros l r ps H. unfold signature in H. destruct (attr_at (lit "type") l) as [[]|] eqn:E; try discriminate. destruct t as [d n [|r0 ps0] ats|]; try discriminate.
    destruct (text_eqb d (lit "core") && text_eqb n (lit "func"))%bool; [|discriminate]. inversion H; subst. apply attr_at_wes in E.
    change (wa (Type_ (Ty d n (r :: ps) ats))) with (2 + wt (Ty d n (r :: ps) ats))%nat in E. cbn [wt] in E. unfold wts. change (list_sum (map wt (r :: ps))) with (wt r + list_sum (map wt ps))%nat in E. lia.
  Qed.
  Lemma func_back : forall f k results operands succs attrs rtypes regions F rs i, let o := Op results (lit "func") (lit "func") operands succs attrs rtypes regions in
    op_ok o -> (wo o <= S f)%nat -> (forall blocks l, regions = Region blocks :: l -> body_back f blocks) -> follows F ->
    skip i = skip (w_params attrs regions ++ w_ret attrs ++ w_attrs attrs ++ w_body k regions F) ->
    exists G, func_rest f rs (sym_read attrs) i =
      Ok (RawOp (default rs) (lit "func") (lit "func") (sym_read attrs) (params_read alias attrs regions) (ret_read alias attrs) [] (entries_read alias (other_attrs attrs)) []
            match regions with [] => [] | Region blocks :: _ => [body_read blocks] end []) G /\ skip G = skip F.
  Proof.
    intros f k results operands succs attrs rtypes regions F rs i o Ho Hw Hr HF Hi.
    assert (Hx : entries_ok alias finite (other_attrs attrs) /\ (forall r ps, signature attrs = Some (r, ps) -> type_ok alias finite r /\ Forall (type_ok alias finite) ps) /\ Forall region_ok regions
      /\ (forall b args l r ps, regions = Region [Block b args []] :: l -> signature attrs = Some (r, ps) -> other_attrs attrs = [] -> ~ open_type alias r)
      /\ (forall l r ps, regions = Region [] :: l -> signature attrs = Some (r, ps) -> other_attrs attrs = [] -> ~ open_type alias r)).
    { inversion Ho; subst; [discriminate|]. auto. }
    destruct Hx as (Ha & Ht & Hrg & K1 & K2). unfold o in Hw. cbn [wo] in Hw.
    set (W := w_body k regions F) in *. set (V := w_attrs attrs ++ W) in *. set (U := w_ret attrs ++ V) in *.
    unfold func_rest. rewrite ws_bind, Hi.
    (* parameters *)
    assert (Hp : exists r, w_params attrs regions ++ U = 40 :: r). { unfold w_params. destruct regions as [|r l]; [destruct (signature attrs) as [[]|]|]; eexists; reflexivity. }
    rewrite (pbind_ok _ _ _ _ _ (params_read alias attrs regions) U).
    2: { destruct Hp as (r & Er). rewrite Er. rewrite skip_keep by (apply nb; cbn; tauto). change (starts (ch "(") (40 :: r)) with true. cbn match. rewrite <- Er. clear r Er.
         unfold w_params, params_read. destruct regions as [|[blocks] l].
         - destruct (signature attrs) as [[r ps]|] eqn:ES.
           + destruct (Ht _ _ eq_refl) as (_ & Hps). rewrite Forall_forall in Hps. pose proof (signature_wes _ _ _ ES) as Hs. pose proof (sum_length _ wt ps wt_pos) as Hl. unfold wts in Hs.
             cbn [app]. rewrite <- app_assoc. apply (params_ok alias show finite read floats (N * ty) (fun ip => lit "arg" ++ write_uint (fst ip)) snd).
             * intros [n t] Hin. cbn [fst snd]. split; [discriminate|]. split; [apply Forall_app; split; [apply forallb_word; reflexivity|apply uint_chars]|].
               apply in_combine_r in Hin. split; auto. pose proof (sum_in _ wt ps t Hin). lia.
             * rewrite combine_length, map_length, seq_length. lia.
           + apply (params_ok alias show finite read floats ty (fun _ => []) (fun t => t) [] f U). intros a []. cbn. lia.
         - change (entry_args (Region blocks)) with (match blocks with Block _ args _ :: _ => args | _ => [] end).
           assert (E : match blocks with Block _ args _ :: _ => map (arg_read alias) args | [] => [] end = map (arg_read alias) (match blocks with Block _ args _ :: _ => args | _ => [] end)) by (destruct blocks as [|[]]; reflexivity).
           rewrite E. inversion Hrg; subst. inversion H1; subst. apply (args_ok alias show finite read floats).
           + destruct blocks as [|[b args ops] bs]; [constructor|]. inversion H0; subst. inversion H4; subst. auto.
           + change (list_sum (map wr (Region blocks :: l))) with (wr (Region blocks) + list_sum (map wr l))%nat in Hw. cbn [wr] in Hw. destruct blocks as [|[b args ops] bs]; [cbn; lia|].
             change (list_sum (map wb (Block b args ops :: bs))) with (wb (Block b args ops) + list_sum (map wb bs))%nat in Hw. cbn [wb] in Hw. lia. }
    (* result *)
    assert (LV : led V) by apply led_attrs.
    rewrite (pbind_ok _ _ _ _ _ (ret_read alias attrs) V).
    2: { unfold ret_read, U, w_ret. destruct (signature attrs) as [[r ps]|] eqn:ES; cbn [option_map fst].
         - destruct (Ht _ _ eq_refl) as (Hrt & _). pose proof (signature_wes _ _ _ ES) as Hs. apply opt_ok. unfold return_type. rewrite ws_bind. rewrite <- app_assoc.
           change (lit " -> " ++ ?x) with (32 :: 45 :: 62 :: 32 :: x). rewrite skip_blank by apply blank32. rewrite skip_keep by (apply nb; cbn; tauto).
           rewrite (pbind_ok _ _ _ _ _ tt (62 :: 32 :: write_type alias show finite r ++ V)) by apply tok_ok. rewrite (pbind_ok _ _ _ _ _ tt (32 :: write_type alias show finite r ++ V)) by apply tok_ok.
           rewrite ws_bind. rewrite skip_blank by apply blank32. rewrite skip_nf by (apply (type_nonblank alias show finite); auto). apply (type_back alias show finite read floats); auto. lia.
           apply ends_of; auto. intros Hop. destruct (attrs_next attrs k regions F) as [[EA EV]|[EA EV]]; unfold V, W.
           + rewrite EV. destruct regions as [|[blocks] l].
             * apply no_braces. destruct (body_next k [] F) as [(_ & -> & _)|(D & _)]; [|contradiction]. apply follows_not; cbn; tauto.
             * unfold w_body. apply opening_dict. inversion Hrg; subst. inversion H1; subst.
               destruct blocks as [|[b args ops] bs]; [exfalso; exact (K2 _ _ _ eq_refl eq_refl EA Hop)|]. unfold func_text. destruct bs as [|b' bs].
               -- inversion H0; subst. inversion H4; subst. apply opening_ops; auto. intros ->. exact (K1 _ _ _ _ _ eq_refl eq_refl EA Hop).
               -- apply opening_blocks. discriminate.
           + apply no_braces. rewrite EV. discriminate.
         - cbn [app]. apply no_return. destruct (attrs_next attrs k regions F) as [[EA EV]|[EA EV]]; unfold V, W; rewrite EV; [|discriminate].
           destruct (body_next k regions F) as [(_ & -> & _)|(_ & ->)]; [|discriminate]. apply follows_not; auto; cbn; tauto. }
    (* attributes *)
    assert (E : exists a, opt (_ <~ ws ;; _ <~ word_lit (lit "attributes") ;; _ <~ ws ;; attr_dict read f) V = Ok a W /\ default a = entries_read alias (other_attrs attrs)).
    { unfold V, w_attrs. destruct (other_attrs attrs) as [|e l] eqn:EA.
      - exists None. split; [|reflexivity]. cbn [app]. apply opt_fail. unfold W. apply no_attributes; auto. intros j Hj. unfold attr_dict, dict. apply pbind_fail. apply tok_skip_no. exact Hj.
      - exists (Some (entries_read alias (e :: l))). split; [|reflexivity]. apply opt_ok. rewrite ws_bind. rewrite app3.
        change (lit " attributes {" ++ ?x) with (32 :: 97 :: lit "ttributes" ++ 32 :: 123 :: x). rewrite skip_blank by apply blank32. rewrite skip_keep by (unfold blank; lia).
        change (97 :: lit "ttributes" ++ ?x) with (lit "attributes" ++ x).
        rewrite (pbind_ok _ _ _ _ _ tt _ (word_ok (lit "attributes") _)). rewrite ws_bind. rewrite skip_blank by apply blank32. rewrite skip_keep by (apply nb; cbn; tauto).
        apply (entries_dict alias show finite read floats). rewrite <- EA in *. auto. rewrite <- EA. pose proof (wes_filter (fun kv => negb (text_eqb (fst kv) (lit "sym_name")) && negb (text_eqb (fst kv) (lit "type"))) attrs). unfold other_attrs. lia. }
    destruct E as (a & E & Ea). rewrite (pbind_ok _ _ _ _ _ a W E). clear E. rewrite ws_bind.
    (* body *)
    unfold W. destruct regions as [|[blocks] l].
    - exists (skip F). split; [|apply skip_skip]. destruct (body_next k [] F) as [(_ & _ & ->)|(D & _)]; [|contradiction].
      rewrite (pbind_ok _ _ _ _ _ [] (skip F)). { unfold ret. rewrite Ea. reflexivity. } rewrite starts_not. reflexivity. apply follows_not; auto; cbn; tauto.
    - exists (nl ++ F). split; [|apply skip_nl]. unfold w_body. rewrite skip_blank by apply blank32. rewrite skip_keep by (apply nb; cbn; tauto).
      rewrite (pbind_ok _ _ _ _ _ [body_read blocks] (nl ++ F)). { unfold ret. rewrite Ea. reflexivity. }
      change (starts (ch "{") (123 :: ?x)) with true. cbn match. apply (pmap_ok _ _ (fun r => [r])). apply (Hr _ _ eq_refl).
  Qed.

  (** *** All together *)
  Lemma region_in_sum : forall r l, In r l -> (wr r <= list_sum (map wr l))%nat. Proof. intros. apply (sum_in _ wr); auto. Qed.
  Definition deep (f : nat) (o : op) : Prop := op_ok o -> (wo o <= f)%nat -> reads_back f o.
  Lemma blocks_deep : forall f blocks, (forall o, deep f o) -> Forall block_ok blocks -> (list_sum (map wb blocks) <= f)%nat -> Forall (block_back f) blocks.
  Proof.
    intros f blocks D Hb Hw. rewrite Forall_forall in *. intros [b args ops] Hin. specialize (Hb _ Hin). inversion Hb; subst.
    pose proof (sum_in _ wb blocks _ Hin) as Hs. cbn [wb] in Hs. pose proof (sum_length _ wo ops wo_pos). cbn [block_back]. split; [lia|]. split; [lia|].
    rewrite Forall_forall in *. intros o Ho. apply D; auto. pose proof (sum_in _ wo ops o Ho). lia.
  Qed.
  Lemma ops_deep : forall f b args ops, (forall o, deep f o) -> block_ok (Block b args ops) -> (wb (Block b args ops) <= f)%nat -> Forall (reads_back f) ops /\ (List.length ops < f)%nat.
  Proof.
    intros f b args ops D Hb Hw. assert (H : Forall (block_back f) [Block b args ops]). { apply blocks_deep; auto. unfold list_sum. cbn [map fold_right]. lia. }
    inversion H; subst. destruct H2 as (_ & H2 & H4). auto.
  Qed.
  Lemma region_deep : forall f r, (forall g, (g < f)%nat -> forall o, deep g o) -> region_ok r -> (wr r <= f)%nat -> region_back f r.
  Proof.
    intros f [blocks] D Hr Hw. inversion Hr; subst. cbn [wr] in Hw. destruct f as [|[|f]]; [lia|lia|]. intros k X.
    assert (DB : forall l, Forall block_ok l -> (list_sum (map wb l) <= f)%nat -> reg (S (S f)) (123 :: nl ++ blocks_text true k l ++ spaces k ++ 125 :: X) = Ok (RawRegion [] (map reread_block l)) X).
    { intros l Hl Hs. apply (region_blocks_back f); auto. apply blocks_deep; auto. pose proof (sum_length _ wb l wb_pos). lia. }
    assert (Hs : (list_sum (map wb blocks) <= f)%nat) by lia.
    destruct blocks as [|[b args ops] l]; [apply DB; auto|]. destruct args as [|a args]; [|apply (DB (Block b (a :: args) ops :: l)); auto].
    destruct l as [|b' l]; [|pose proof (DB (Block b [] ops :: b' :: l) H0 Hs) as DB'; destruct ops; exact DB'].
    inversion H0; subst. inversion H2; subst. unfold list_sum in Hs. cbn [map fold_right] in Hs. destruct (ops_deep (S f) b [] ops) as (O1 & O2); auto. lia.
    unfold body_text. rewrite region_ops by auto. destruct ops; reflexivity.
  Qed.
  Lemma body_deep : forall f blocks, (forall g, (g < f)%nat -> forall o, deep g o) -> region_ok (Region blocks) -> (wr (Region blocks) <= f)%nat -> body_back f blocks.
  Proof.
    intros f blocks D Hr Hw. inversion Hr; subst. cbn [wr] in Hw. destruct f as [|[|f]]; [lia|lia|]. intros k X.
    assert (DB : forall l, Forall block_ok l -> (list_sum (map wb l) <= f)%nat -> reg (S (S f)) (123 :: nl ++ blocks_text false k l ++ spaces k ++ 125 :: X) = Ok (RawRegion [] (map reread_block l)) X).
    { intros l Hl Hs. apply (region_blocks_back f); auto. apply blocks_deep; auto. pose proof (sum_length _ wb l wb_pos). lia. }
    assert (Hs : (list_sum (map wb blocks) <= f)%nat) by lia.
    destruct blocks as [|[b args ops] l]; [apply (DB []); auto|].
    unfold list_sum in Hs. cbn [map fold_right] in Hs. inversion H0; subst. inversion H2; subst.
    assert (Hb : block_ok (Block b [] ops)) by (constructor; auto).
    destruct l as [|b' l].
    - cbn [wb] in Hs. destruct (ops_deep (S f) b [] ops) as (O1 & O2); auto. cbn [wb]. change (wargs []) with 0%nat. lia.
      unfold func_text. rewrite region_ops by auto. destruct ops; reflexivity.
    - unfold func_text. rewrite (DB (Block b [] ops :: b' :: l)). destruct ops; reflexivity. constructor; auto.
      unfold list_sum. cbn [map fold_right]. cbn [wb] in *. change (wargs []) with 0%nat. cbn [map fold_right] in Hs. lia.
  Qed.
  Lemma symbol_back : forall attrs R, (exists r, R = 40 :: r) -> exists i, opt (_ <~ ws ;; symbol_ref) (func_name attrs ++ R) = Ok (sym_read attrs) i /\ skip i = skip R.
  Proof.
    intros attrs R (r & ->). unfold func_name, sym_read. rewrite attr_at_find.
    assert (NO : exists i, opt (_ <~ ws ;; symbol_ref) ([] ++ 40 :: r) = Ok None i /\ skip i = skip (40 :: r)).
    { exists (40 :: r). split; reflexivity. }
    destruct (attr_at (lit "sym_name") attrs) as [[]|]; auto.
    exists (40 :: r). split; auto. apply opt_ok. cbn [app]. rewrite ws_bind. rewrite skip_blank by apply blank32. rewrite skip_nf by (apply nf_cons; unfold blank; cbn; lia).
    apply symbol_ok. apply nf_cons. unfold name_char, name_start, is_digit. lia.
  Qed.
  Theorem operations_back : forall f o, deep f o.
  Proof.
    induction f as [f IH] using lt_wf_ind. intros o Ho Hw k F HF Hb. destruct f as [|f]; [pose proof (wo_pos o); lia|].
    assert (IH' : forall g, (g < f)%nat -> forall o, deep g o) by (intros; apply IH; lia).
    rewrite operation_eq. rewrite ws_bind. destruct o as [results d n operands succs attrs rtypes regions].
    assert (Hrw : forall r, In r regions -> (wr r <= f)%nat). { intros r Hin. pose proof (region_in_sum _ _ Hin). cbn [wo] in Hw. lia. }
    destruct (is_op d n "func" "func") eqn:Ef.
    - apply is_op_spec in Ef. destruct Ef as (-> & ->). rewrite wfunc_eq, skip_spaces, ident_skip by apply func_ident.
      rewrite (pbind_ok _ _ _ _ _ None (lit "func" ++ 46 :: lit "func" ++ sig_text attrs regions k F)). 2: { apply no_results. unfold next. rewrite ident_skip by apply func_ident. discriminate. }
      rewrite ws_bind, ident_skip by apply func_ident.
      rewrite (pbind_ok _ _ _ _ _ (lit "func", lit "func") (sig_text attrs regions k F)).
      2: { apply qualified_ok; try apply func_ident. destruct (sig_first attrs regions k F) as (c & r & -> & Hc). apply nf_cons. unfold name_char, name_start, is_digit. destruct Hc as [->|[-> _]]; lia. }
      rewrite sig_text_eq.
      destruct (symbol_back attrs (w_params attrs regions ++ w_ret attrs ++ w_attrs attrs ++ w_body k regions F)) as (i & Es & Ei); auto.
      { unfold w_params. destruct regions as [|r l]; [destruct (signature attrs) as [[]|]|]; eexists; reflexivity. }
      rewrite (pbind_ok _ _ _ _ _ (sym_read attrs) i Es). change (is_op (fst (lit "func", lit "func")) (snd (lit "func", lit "func")) "func" "func") with true. cbn match.
      destruct (func_back f k results operands succs attrs rtypes regions F None i) as (G & EG & SG); auto.
      { intros blocks l ->. apply body_deep; auto. inversion Ho; subst; [discriminate|]. inversion H7; auto. apply Hrw. left. reflexivity. }
      exists G. split; [|exact SG]. rewrite EG. cbn [OpTextSpec.reread]. change (is_op (lit "func") (lit "func") "func" "func") with true. cbn match. destruct regions as [|[blocks] l]; reflexivity.
    - rewrite wop_eq by exact Ef. rewrite skip_spaces. set (o := Op results d n operands succs attrs rtypes regions) in *.
      assert (Hid : identifier d /\ identifier n /\ custom d n = None /\ Forall region_ok regions). { inversion Ho; subst; auto. discriminate. }
      destruct Hid as (Hd & Hn & Hcu & Hrg).
      assert (E : exists x, opt (result_list f) (skip (match results with [] => [] | _ => comma (map value results) ++ lit " = " end ++ d ++ ch "." :: n ++ t1 k o F)) = Ok x (match results with [] => d ++ 46 :: n ++ t1 k o F | _ => 32 :: d ++ 46 :: n ++ t1 k o F end)
        /\ default x = map write_uint results).
      { destruct results as [|v results].
        - exists None. split; [|reflexivity]. cbn [app]. rewrite ident_skip by auto. apply no_results. unfold next. rewrite ident_skip by auto. destruct (ident_first _ Hd) as (c & l & -> & Hc). cbn [app]. intros X; inversion X; subst. unfold name_start in Hc. cbn in Hc. lia.
        - exists (Some (map write_uint (v :: results))). split; [|reflexivity]. apply opt_ok.
          replace (skip ((comma (map value (v :: results)) ++ lit " = ") ++ d ++ ch "." :: n ++ t1 k o F)) with (comma (map value (v :: results)) ++ lit " = " ++ d ++ ch "." :: n ++ t1 k o F).
          + apply results_ok. discriminate. unfold o in Hw. cbn [wo List.length] in *. lia.
          + rewrite <- app_assoc. symmetry. apply skip_nf. unfold comma. rewrite join_tail. apply nf_cons. unfold blank. cbn. lia. }
      destruct E as (x & E & Ex). rewrite (pbind_ok _ _ _ _ _ x _ E). rewrite ws_bind.
      replace (skip (match results with [] => d ++ 46 :: n ++ t1 k o F | _ => 32 :: d ++ 46 :: n ++ t1 k o F end)) with (d ++ 46 :: n ++ t1 k o F).
      2: { destruct results; [|rewrite skip_blank by apply blank32]; rewrite ident_skip by auto; reflexivity. }
      rewrite (pbind_ok _ _ _ _ _ (d, n) (t1 k o F)). 2: { apply qualified_ok; auto. apply led_char. apply led1. }
      rewrite (pbind_ok _ _ _ _ _ None (t1 k o F)). 2: { apply no_symbol. eapply seen_not; [exact HF|apply seen1| |]; cbn; [tauto|lia]. }
      cbn [fst snd]. rewrite Ef, Hcu.
      exists (skip F). split; [|apply skip_skip].
      unfold o. rewrite (generic_back f k results d n operands succs attrs rtypes regions F x); auto.
      + rewrite Ex. cbn [OpTextSpec.reread]. rewrite Ef. reflexivity.
      + rewrite Forall_forall in *. intros r Hr. apply region_deep; auto.
  Qed.
End Main.
