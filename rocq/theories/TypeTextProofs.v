From Verif Require Import TypeTextSpec.
From Coq Require DecimalN DecimalPos.
From Coq Require Import DecimalString.

Section TyInd.
  Variable P : ty -> Prop.
  Hypothesis HP : forall p, P (Prim p).
  Hypothesis HB : forall i, P (BoundVar i).
  Hypothesis HU : forall s i, P (UniVar s i).
  Hypothesis HN : forall i n args, Forall P args -> P (Named i n args).
  Hypothesis HF : forall ps r es rest, Forall P ps -> P r -> Forall P es -> P (Func ps r es rest).
  Hypothesis HT : forall l, Forall P l -> P (Tuple l).
  Hypothesis HA : forall c l, P c -> Forall P l -> P (App c l).
  Hypothesis HE : P Error.
  Fixpoint ty_ind' (t : ty) : P t :=
    let fix ts (l : list ty) : Forall P l := match l with [] => Forall_nil _ | x :: l' => Forall_cons _ (ty_ind' x) (ts l') end in
    match t with
    | Prim p => HP p | BoundVar i => HB i | UniVar s i => HU s i
    | Named i n args => HN i n args (ts args)
    | Func ps r es rest => HF ps r es rest (ts ps) (ty_ind' r) (ts es)
    | Tuple l => HT l (ts l) | App c l => HA c l (ty_ind' c) (ts l) | Error => HE
    end.
End TyInd.

(** ** Words *)
Definition stops (r : text) : Prop := match r with [] => True | c :: _ => word_char c = false end.
Lemma word_split w : forall w' r r', forallb word_char w = true -> forallb word_char w' = true -> stops r -> stops r' -> w ++ r = w' ++ r' -> w = w' /\ r = r'.
Proof.
  induction w as [|c w IH]; intros [|c' w'] r r' W W' S S' E; cbn [app forallb] in *.
  - auto.
  - subst r. cbn in S. apply andb_true_iff in W' as [W' _]. congruence.
  - subst r'. cbn in S'. apply andb_true_iff in W as [W _]. congruence.
  - injection E as -> E. apply andb_true_iff in W as [_ W]. apply andb_true_iff in W' as [_ W']. destruct (IH w' r r' W W' S S' E) as [-> ->]. auto.
Qed.

Lemma closes_stops r : closes r -> stops r.
Proof. destruct r as [|c r]; [auto|]. cbn. intros [<-|[<-|[<-|[<-|[]]]]]; reflexivity. Qed.

Lemma prim_word p : forallb word_char (primitive_name p) = true.
Proof. destruct p; reflexivity. Qed.
Lemma prim_capital p : match primitive_name p with c :: _ => (65 <= N_of_ascii c <= 90)%N | [] => False end.
Proof. destruct p; cbn; lia. Qed.
Lemma prim_inj p p' : primitive_name p = primitive_name p' -> p = p'.
Proof. destruct p, p'; try discriminate; reflexivity. Qed.
Lemma letter_code i : (i < 26)%N -> N_of_ascii (letter i) = (97 + i)%N.
Proof. intros L. unfold letter. apply N_ascii_embedding. lia. Qed.
Lemma letter_word i : (i < 26)%N -> forallb word_char [letter i] = true.
Proof.
  intros L. cbn. rewrite andb_true_r. unfold word_char. rewrite (letter_code i L).
  replace (97 <=? 97 + i)%N with true by (symmetry; apply N.leb_le; lia). replace (97 + i <=? 122)%N with true by (symmetry; apply N.leb_le; lia).
  rewrite !orb_true_r. reflexivity.
Qed.

(** ** Variables *)
Lemma digits_word d : forallb word_char (txt (NilEmpty.string_of_uint d)) = true.
Proof. induction d; cbn [NilEmpty.string_of_uint txt list_ascii_of_string forallb]; try (apply andb_true_iff; split; [reflexivity|assumption]). reflexivity. Qed.
Lemma decimal_word n : forallb word_char (decimal n) = true.
Proof. unfold decimal, NilZero.string_of_uint. destruct (N.to_uint n); try apply digits_word. reflexivity. Qed.
Lemma to_uint_some n : N.to_uint n <> Decimal.Nil.
Proof. destruct n as [|p]; [discriminate|]. apply DecimalPos.Unsigned.to_uint_nonnil. Qed.
Lemma decimal_back n : NilZero.uint_of_string (string_of_list_ascii (decimal n)) = Some (N.to_uint n).
Proof. unfold decimal, txt. rewrite string_of_list_ascii_of_string. apply NilZero.usu, to_uint_some. Qed.
Lemma decimal_inj n m : decimal n = decimal m -> n = m.
Proof.
  intros E. pose proof (decimal_back n) as A. rewrite E, decimal_back in A. injection A as A.
  apply (f_equal N.of_uint) in A. rewrite !DecimalN.Unsigned.of_to in A. congruence.
Qed.
Definition var (i : N) : text := variable (txt "t") i.
Lemma var_word i : forallb word_char (var i) = true.
Proof. unfold var, variable. destruct (N.ltb_spec i 26); [apply letter_word; assumption|apply decimal_word]. Qed.
Lemma var_first i : exists c w, var i = c :: w /\ (97 <= N_of_ascii c <= 122)%N.
Proof.
  unfold var, variable. destruct (N.ltb_spec i 26) as [L|L].
  - exists (letter i), []. rewrite letter_code by assumption. split; [reflexivity|lia].
  - exists "t"%char, (decimal i). split; [reflexivity|]. cbn. lia.
Qed.
Lemma decimal_some n : decimal n <> [].
Proof. intros E. pose proof (decimal_back n) as A. rewrite E in A. discriminate. Qed.
Lemma var_inj i j : var i = var j -> i = j.
Proof.
  unfold var, variable. destruct (N.ltb_spec i 26) as [L|L], (N.ltb_spec j 26) as [K|K]; cbn [txt list_ascii_of_string app]; intros E.
  - injection E as E. apply (f_equal N_of_ascii) in E. rewrite !letter_code in E by assumption. lia.
  - injection E as _ E. symmetry in E. destruct (decimal_some _ E).
  - injection E as _ E. destruct (decimal_some _ E).
  - injection E as E. apply decimal_inj, E.
Qed.
Lemma var_fn i : var i <> txt "fn".
Proof. unfold var, variable. destruct (N.ltb_spec i 26) as [L|L]; cbn; intros E; discriminate. Qed.
Lemma var_nil i : var i <> [].
Proof. destruct (var_first i) as (c & w & -> & _). discriminate. Qed.
Lemma var_prim i p : var i <> primitive_name p.
Proof. destruct (var_first i) as (c & w & E & L). intros K. pose proof (prim_capital p) as P. rewrite <- K, E in P. lia. Qed.
Lemma var_type i n : type_name n -> var i <> n.
Proof. destruct (var_first i) as (c & w & E & L). intros [_ T] <-. rewrite E in T. lia. Qed.

(** The word a type begins with and what follows it. *)
Definition word (t : ty) : text :=
  match t with Prim p => primitive_name p | BoundVar i => var i | Named _ n _ => n | Func _ _ _ _ => txt "fn" | _ => [] end.
Definition arguments (args : list ty) : text := match args with [] => [] | _ => txt "(" ++ join (List.map print args) ++ txt ")" end.
Definition arrow (es : list ty) (rest : option nat) : text :=
  match es, rest with
  | [], None => txt " -> "
  | _, None => txt " ->{" ++ join (List.map print es) ++ txt "} "
  | [], Some _ => txt " ->{e} "
  | _, Some _ => txt " ->{" ++ join (List.map print es) ++ txt " | e} "
  end.
Definition after (t : ty) : text :=
  match t with
  | Prim _ | BoundVar _ => []
  | Named _ _ args => arguments args
  | Func ps r es rest => txt "(" ++ join (List.map print ps) ++ txt ")" ++ arrow es rest ++ print r
  | _ => print t
  end.
Section Settled.
  Variable means : text -> nat -> Prop.
  Hypothesis One : forall n i j, means n i -> means n j -> i = j.
  Variable row : nat.
  Notation settled := (settled means row).

  Lemma print_word t : settled t -> print t = word t ++ after t.
  Proof.
    intros S. destruct S as [p|i|id name args T Np M F|ps r es rest Rw Fp Sr Fe Ne|l F|]; cbn [print word after].
    - rewrite app_nil_r. reflexivity.
    - rewrite app_nil_r. reflexivity.
    - unfold arguments. destruct args; [rewrite app_nil_r; reflexivity|reflexivity].
    - unfold arrow. destruct es, rest; cbn [txt list_ascii_of_string app]; rewrite <- ?app_assoc; cbn [app]; rewrite <- ?app_assoc; reflexivity.
    - reflexivity.
    - reflexivity.
  Qed.
  Lemma word_ok t : settled t -> forallb word_char (word t) = true.
  Proof. intros S. destruct S as [p|i|id name args T Np M F|ps r es rest Rw Fp Sr Fe Ne|l F|]; cbn [word]; auto using prim_word, var_word. apply T. Qed.
  Lemma after_stops t r : settled t -> closes r -> stops (after t ++ r).
  Proof.
    intros S C. destruct S as [p|i|id name args T Np M F|ps r' es rest Rw Fp Sr Fe Ne|l F|]; cbn [after app]; try (apply closes_stops; exact C); try reflexivity.
    unfold arguments. destruct args; [apply closes_stops; exact C|reflexivity].
  Qed.

  (** A printed type begins with no closing bracket. *)
  Lemma print_open t : settled t -> forall r r', closes r' -> print t ++ r <> r'.
  Proof.
    intros S r r' C E. subst r'. rewrite (print_word t S), <- app_assoc in C.
    assert (W : forall w x, forallb word_char w = true -> w <> [] -> ~ closes (w ++ x)).
    { intros [|c w] x H N K; [congruence|]. cbn in H, K. destruct K as [<-|[<-|[<-|[<-|[]]]]]; discriminate. }
    destruct S as [p|i|id name args T Np M F|ps r' es rest Rw Fp Sr Fe Ne|l F|]; cbn [word after] in C.
    - apply (W _ _ (prim_word p)) in C; [exact C|]. destruct p; discriminate.
    - apply (W _ _ (var_word i)) in C; [exact C|]. destruct (var_first i) as (c & w & -> & _). discriminate.
    - destruct T as [T1 T2]. apply (W _ _ T1) in C; [exact C|]. intros ->. destruct T2.
    - cbn in C. destruct C as [C|[C|[C|[C|[]]]]]; discriminate.
    - cbn in C. destruct C as [C|[C|[C|[C|[]]]]]; discriminate.
    - cbn in C. destruct C as [C|[C|[C|[C|[]]]]]; discriminate.
  Qed.

  Definition reads (t : ty) : Prop := settled t -> forall t' r r', settled t' -> closes r -> closes r' -> print t ++ r = print t' ++ r' -> t = t' /\ r = r'.
  Lemma list_reads l : Forall reads l -> Forall settled l -> forall l' c c' r r', Forall settled l' -> In c (txt ")} ") -> In c' (txt ")} ") ->
    join (List.map print l) ++ c :: r = join (List.map print l') ++ c' :: r' -> l = l' /\ c = c' /\ r = r'.
  Proof.
    intros H. induction H as [|t l Rt F IH]; intros S l' c c' r r' S' Ic Ic' E.
    - destruct l' as [|t' l']; [cbn in E; injection E as -> ->; auto|]. exfalso. inversion S' as [|? ? St Sl]; subst.
      assert (C : closes (c :: r)) by (cbn in *; tauto).
      destruct l' as [|t2 l']; cbn [List.map join app] in E; [symmetry in E; apply (print_open t' St) in E; auto|].
      rewrite <- app_assoc in E. symmetry in E. apply (print_open t' St) in E; auto.
    - inversion S as [|? ? St Sl]; subst. destruct l' as [|t' l'].
      { exfalso. assert (C : closes (c' :: r')) by (cbn in *; tauto).
        destruct l as [|t2 l]; cbn [List.map join app] in E; [apply (print_open t St) in E; auto|].
        rewrite <- app_assoc in E. apply (print_open t St) in E; auto. }
      inversion S' as [|? ? St' Sl']; subst.
      assert (Sp : forall x (k : list ty) c s, join (List.map print (x :: k)) ++ c :: s = print x ++ match k with [] => c :: s | _ => txt ", " ++ join (List.map print k) ++ c :: s end).
      { intros x [|y k] c0 s; [reflexivity|]. cbn [List.map join]. rewrite <- !app_assoc. reflexivity. }
      assert (Cl : forall (k : list ty) c s, In c (txt ")} ") -> closes (match k with [] => c :: s | _ => txt ", " ++ join (List.map print k) ++ c :: s end)).
      { intros [|y k] c0 s I0; cbn in *; tauto. }
      rewrite !Sp in E. destruct (Rt St t' _ _ St' (Cl l c r Ic) (Cl l' c' r' Ic') E) as [-> E'].
      destruct l as [|a l], l' as [|b l'].
      + injection E' as -> ->. auto.
      + exfalso. cbn in E', Ic. injection E' as K _; try subst c. destruct Ic as [Ic|[Ic|[Ic|[]]]]; discriminate.
      + exfalso. cbn in E', Ic'. injection E' as K _; try subst c'. destruct Ic' as [Ic'|[Ic'|[Ic'|[]]]]; discriminate.
      + apply app_inv_head in E'. destruct (IH Sl (b :: l') c c' r r' Sl' Ic Ic' E') as (K & -> & ->). split; [congruence|auto].
  Qed.

  (** A list of effects does not begin like the row variable. *)
  Lemma effects_capital e es : settled e -> (exists id name args, e = Named id name args) -> forall r, match join (List.map print (e :: es)) ++ r with c :: _ => (65 <= N_of_ascii c <= 90)%N | [] => False end.
  Proof.
    intros S (id & n & args & ->) r. inversion S as [| |? ? ? T Np M F| | |]; subst. destruct T as [_ T]. destruct n as [|c n]; [destruct T|].
    destruct args; destruct es; cbn [List.map join print app] in *; exact T.
  Qed.
  Lemma arrow_reads es rest es' rest' : Forall reads es -> Forall settled es -> Forall settled es' ->
    (forall e, In e es -> exists id name args, e = Named id name args) -> (forall e, In e es' -> exists id name args, e = Named id name args) ->
    (rest = None \/ rest = Some row) -> (rest' = None \/ rest' = Some row) -> forall r r',
    arrow es rest ++ r = arrow es' rest' ++ r' -> es = es' /\ rest = rest' /\ r = r'.
  Proof.
    intros He Fe Fe' Ne Ne' Rw Rw' r r' E.
    assert (X : forall e l s t, Forall settled (e :: l) -> (forall x, In x (e :: l) -> exists id name args, x = Named id name args) -> join (List.map print (e :: l)) ++ s = "e"%char :: t -> False).
    { intros e l s t F N K. inversion F; subst. pose proof (effects_capital e l ltac:(assumption) (N e (or_introl eq_refl)) s) as P. rewrite K in P. cbn in P. lia. }
    destruct es as [|e es], es' as [|e1 es'], Rw as [-> | ->], Rw' as [-> | ->]; cbn [arrow] in E; rewrite <- ?app_assoc in E;
      try (apply app_inv_head in E; auto; fail); try (cbn in E; discriminate).
    all: cbn [txt list_ascii_of_string] in E; rewrite <- ?app_comm_cons in E; cbn [app] in E; injection E as E.
    all: try (exfalso; first [eapply (X e es); [eassumption|eassumption|exact E]|symmetry in E; eapply (X e1 es'); [eassumption|eassumption|exact E]]).
    all: apply (list_reads _ He Fe _ _ _ _ _ Fe') in E as (-> & K & E); [|cbn; auto|cbn; auto]; try discriminate K.
    all: injection E as ->; auto.
  Qed.

  Lemma all_read t : reads t.
  Proof.
    induction t as [p|i|s i|id n args H|ps rt es rest Hp Hr He|l H|c l Hc H|] using ty_ind'; intros S t' r r' S' C C' E.
    all: pose proof S as S0; pose proof S' as S0'.
    all: rewrite (print_word _ S), (print_word t' S'), <- !app_assoc in E.
    all: apply word_split in E as [Ew Ea]; [|apply word_ok; assumption|apply word_ok; assumption|apply after_stops; assumption|apply after_stops; assumption].
    (* constructors that begin with different words *)
    all: inversion S as [p0|i0|id0 n0 args0 T Np M F|ps0 r0 es0 rest0 Rw Fp Sr Fe Ne|l0 F|]; subst; try (exfalso; congruence).
    all: inversion S' as [p1|i1|id1 n1 args1 T' Np' M' F'|ps1 r1 es1 rest1 Rw' Fp' Sr' Fe' Ne'|l1 F'|]; subst; cbn [word after] in Ew, Ea.
    all: try (exfalso; clear - Ew; repeat match goal with p : prim |- _ => destruct p end; cbn in Ew; discriminate).
    all: try (exfalso; solve [eapply var_nil; eauto|eapply var_prim; eauto|eapply var_fn; eauto|eapply (var_type _ _ T); eauto|eapply (var_type _ _ T'); eauto]).
    - cbn in Ea. apply prim_inj in Ew. subst. auto.
    - destruct Np'. exists p. congruence.
    - cbn in Ea. apply var_inj in Ew. subst. auto.
    - destruct Np. exists p1. congruence.
    - subst n1. assert (id = id1) by (eapply One; eauto). subst id1.
      assert (K : args = args1 /\ r = r').
      { unfold arguments in Ea. destruct args as [|a args], args1 as [|a1 args1].
        - auto.
        - exfalso. cbn [app] in Ea. subst r. cbn in C. destruct C as [C|[C|[C|[C|[]]]]]; discriminate.
        - exfalso. cbn [app] in Ea. subst r'. cbn in C'. destruct C' as [C'|[C'|[C'|[C'|[]]]]]; discriminate.
        - rewrite <- !app_assoc in Ea. apply app_inv_head in Ea. apply (list_reads _ H F _ _ _ _ _ F') in Ea as (K & _ & K'); [auto|cbn; auto|cbn; auto]. }
      destruct K as [-> ->]. auto.
    - exfalso. destruct T as [_ T]. rewrite Ew in T. cbn in T. lia.
    - exfalso. destruct T as [_ T]. rewrite Ew in T. destruct T.
    - exfalso. destruct T as [_ T]. rewrite Ew in T. destruct T.
    - exfalso. destruct T' as [_ T']. rewrite <- Ew in T'. cbn in T'. lia.
    - rewrite <- !app_assoc in Ea. apply app_inv_head in Ea. cbn [txt list_ascii_of_string app] in Ea.
      apply (list_reads _ Hp Fp _ _ _ _ _ Fp') in Ea as (-> & _ & Ea); [|cbn; auto|cbn; auto].
      destruct (arrow_reads es rest es1 rest1 He Fe Fe' Ne Ne' Rw Rw' _ _ Ea) as (-> & -> & K).
      destruct (Hr Sr r1 r r' Sr' C C' K) as [-> ->]. auto.
    - exfalso. destruct T' as [_ T']. rewrite <- Ew in T'. destruct T'.
    - cbn [app print] in Ea. rewrite <- !app_assoc in Ea. apply app_inv_head in Ea. cbn [txt list_ascii_of_string app] in Ea.
      apply (list_reads _ H F _ _ _ _ _ F') in Ea as (-> & _ & ->); [auto|cbn; auto|cbn; auto].
    - cbn in Ea. discriminate.
    - exfalso. destruct T' as [_ T']. rewrite <- Ew in T'. destruct T'.
    - cbn in Ea. discriminate.
    - cbn [app print] in Ea. apply app_inv_head in Ea. auto.
  Qed.

  Lemma print_inj t t' : settled t -> settled t' -> print t = print t' -> t = t'.
  Proof. intros S S' E. apply (all_read t S t' [] [] S' I I). rewrite !app_nil_r. exact E. Qed.
End Settled.

Lemma variable_shows c n : shows_number c n (variable [c] n).
Proof.
  unfold variable. destruct (N.ltb_spec n 26) as [L|L].
  - left. split; [exact L|]. exists (letter n). split; [reflexivity|]. apply letter_code, L.
  - right. split; [exact L|]. exists (decimal n), (N.to_uint n). split; [reflexivity|]. split; [apply decimal_back|apply DecimalN.Unsigned.of_to].
Qed.
Lemma leaves_shown : (forall p, print (Prim p) = txt (source_name p)) /\
  (forall i, shows_number "t" i (print (BoundVar i))) /\
  (forall n i, shows_number "?" (n + i) (print (UniVar (FunctionLocal n) i)) /\ shows_number "?" (n + i) (print (UniVar (Anonymous n) i)) /\ shows_number "?" (n + i) (print (UniVar (Solver n) i))).
Proof.
  split; [intros []; reflexivity|]. split; [intros i; apply (variable_shows "t")|].
  intros n i. repeat split; apply (variable_shows "?").
Qed.
