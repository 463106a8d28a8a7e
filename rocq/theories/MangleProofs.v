From Coq Require Import Ascii Decimal DecimalString DecimalNat DecimalFacts.
From Verif Require Export MangleModel MangleSpec TyProofs.
Open Scope string_scope.

(** * Splitting at dollar signs *)
Fixpoint split (s : string) : string * list string :=
  match s with
  | EmptyString => ("", [])
  | String c s =>
      let (w, ws) := split s in
      if Ascii.eqb "$" c then ("", w :: ws) else (String c w, ws)
  end.

Lemma append_assoc (a b c : string) : (a ++ b) ++ c = a ++ (b ++ c).
Proof. induction a as [|x a IH]; simpl; [reflexivity | f_equal; exact IH]. Qed.
Lemma append_nil (a : string) : a ++ "" = a.
Proof. induction a as [|x a IH]; simpl; [reflexivity | f_equal; exact IH]. Qed.

Definition word (s : string) : Prop := mentions "$" s = false.

Fixpoint dollar (ws : list string) : string :=
  match ws with
  | [] => ""
  | w :: ws => "$" ++ w ++ dollar ws
  end.

Lemma split_dollar w ws : word w -> Forall word ws -> split (w ++ dollar ws) = (w, ws).
Proof.
  unfold word. intros Hw Hws. revert w Hw. induction Hws as [|v vs Hv _ IH]; intros w Hw.
  - simpl. rewrite append_nil. induction w as [|c w IHw]; [reflexivity|].
    cbn [mentions] in Hw. apply orb_false_iff in Hw as [H1 H2]. cbn [split].
    rewrite (IHw H2), H1. reflexivity.
  - induction w as [|c w IHw].
    + change ("" ++ dollar (v :: vs)) with (String "$" (v ++ dollar vs)).
      cbn [split]. rewrite (IH v Hv). reflexivity.
    + cbn [mentions] in Hw. apply orb_false_iff in Hw as [H1 H2].
      change (String c w ++ dollar (v :: vs)) with (String c (w ++ dollar (v :: vs))).
      cbn [split]. rewrite (IHw H2), H1. reflexivity.
Qed.

Lemma dollar_inj w ws v vs : word w -> Forall word ws -> word v -> Forall word vs ->
  w ++ dollar ws = v ++ dollar vs -> w = v /\ ws = vs.
Proof.
  intros A B C D E. apply (f_equal split) in E.
  rewrite (split_dollar w ws A B), (split_dollar v vs C D) in E. inversion E. auto.
Qed.

Lemma dollar_app a b : dollar (a ++ b)%list = dollar a ++ dollar b.
Proof.
  induction a as [|x a IH]; [reflexivity|]. cbn [List.app dollar]. rewrite IH, !append_assoc. reflexivity.
Qed.

Lemma word_app a b : word a -> word b -> word (a ++ b).
Proof.
  unfold word. intros Ha Hb. induction a as [|c a IH]; [exact Hb|].
  cbn [mentions append] in *. apply orb_false_iff in Ha as [-> H]. rewrite (IH H). reflexivity.
Qed.

(** * Tokens of a mangled type *)
Fixpoint toks (t : ty) : list string :=
  let list_toks := fun ts => match ts with [] => [""] | _ => List.concat (List.map toks ts) end in
  match t with
  | TPrim p => [prim_text p]
  | TNamed id name args =>
      match args with
      | [] => [nominal_base id name]
      | _ => nominal_base id name :: "0" :: List.concat (List.map toks args) ++ ["1"]
      end
  | TFunc ps r _ _ => "Fn" :: "0" :: list_toks ps ++ "1" :: toks r
  | TTuple ts => "Tup" :: "0" :: list_toks ts ++ ["1"]
  | TBound i | TLocal _ i => [("T" ++ decimal i)%string]
  | TUni _ | TApp _ _ | TCont _ _ _ => [""]
  | TError => ["error"]
  end%list.
Definition list_toks (ts : list ty) : list string :=
  match ts with [] => [""] | _ => List.concat (List.map toks ts) end.

Lemma concat_dollar ss : dollar [String.concat "$" ss] = match ss with [] => "$" | _ => dollar ss end.
Proof.
  destruct ss as [|s ss]; [reflexivity|]. cbn [dollar]. rewrite append_nil.
  f_equal. revert s. induction ss as [|v ss IH]; intros s.
  - cbn. rewrite append_nil. reflexivity.
  - change (String.concat "$" (s :: v :: ss)) with (s ++ "$" ++ String.concat "$" (v :: ss)).
    rewrite (IH v). reflexivity.
Qed.

Lemma nominal_base_eq id name : nominal_base id name =
  match td_origin id with BuiltinList => "BuiltinList" | _ => td_qualified id end.
Proof.
  unfold nominal_base. destruct (td_origin id); try reflexivity;
  destruct (String.eqb_spec (td_qualified id) name); congruence.
Qed.

Lemma sequence_map ts : Forall (fun t => exists s, mangle t = Some s /\ "$" ++ s = dollar (toks t)) ts ->
  exists ss, sequence (List.map mangle ts) = Some ss /\ List.length ss = List.length ts /\
             dollar ss = dollar (List.concat (List.map toks ts)).
Proof.
  induction 1 as [|t ts [s [Es Hs]] _ [ss [Ess [L Hss]]]].
  - exists []. auto.
  - exists (s :: ss). cbn [List.map sequence]. rewrite Es, Ess. split; [reflexivity|]. split; [simpl; lia|].
    cbn [dollar List.concat]. rewrite dollar_app, <- Hs, <- Hss, append_assoc. reflexivity.
Qed.

Lemma mangle_toks ok t : concrete ok t ->
  exists s, mangle t = Some s /\ "$" ++ s = dollar (toks t).
Proof.
  induction t as [p|i|s i|i|d n args IH|ps r e c IHp IHr IHe|xs IH|c xs IHc IH|a r e IHa IHr IHe|]
    using ty_induct; intros H; inversion H; subst; try (eexists; split; [reflexivity|]; cbn [toks dollar];
    rewrite append_nil; reflexivity).
  - assert (IH' : Forall (fun t => exists s, mangle t = Some s /\ "$" ++ s = dollar (toks t)) args).
    { apply Forall_forall. intros x Hx. rewrite Forall_forall in *. apply IH; auto. }
    destruct (sequence_map _ IH') as [ss [E [L D]]]. destruct args as [|a args].
    + exists (nominal_base d n). split; [reflexivity|]. cbn [toks dollar]. rewrite append_nil. reflexivity.
    + exists (nominal_base d n ++ "$0$" ++ String.concat "$" ss ++ "$1").
      split. { cbn [mangle]. rewrite E. reflexivity. }
      cbn [toks dollar]. rewrite dollar_app, <- D.
      pose proof (concat_dollar ss) as C. destruct ss; [discriminate|]. rewrite <- C.
      cbn [dollar]. rewrite !append_nil, !append_assoc. reflexivity.
  - assert (IH' : Forall (fun t => exists s, mangle t = Some s /\ "$" ++ s = dollar (toks t)) ps).
    { apply Forall_forall. intros x Hx. rewrite Forall_forall in *. apply IHp; auto. }
    destruct (sequence_map _ IH') as [ss [E [L D]]]. match goal with H : concrete ok r |- _ => destruct (IHr H) as [sr [Er Hr]] end.
    exists ("Fn$0$" ++ String.concat "$" ss ++ "$1$" ++ sr).
    split. { cbn [mangle]. rewrite E, Er. reflexivity. }
    assert (C : dollar (list_toks ps) = dollar [String.concat "$" ss]).
    { rewrite concat_dollar. destruct ps, ss; try discriminate; [reflexivity|].
      symmetry. exact D. }
    change (toks (TFunc ps r e c)) with (["Fn"; "0"] ++ list_toks ps ++ "1" :: toks r)%list.
    rewrite !dollar_app, C. cbn [dollar]. rewrite <- Hr, !append_nil, !append_assoc. reflexivity.
  - assert (IH' : Forall (fun t => exists s, mangle t = Some s /\ "$" ++ s = dollar (toks t)) xs).
    { apply Forall_forall. intros x Hx. rewrite Forall_forall in *. apply IH; auto. }
    destruct (sequence_map _ IH') as [ss [E [L D]]].
    exists ("Tup$0$" ++ String.concat "$" ss ++ "$1").
    split. { cbn [mangle]. rewrite E. reflexivity. }
    assert (C : dollar (list_toks xs) = dollar [String.concat "$" ss]).
    { rewrite concat_dollar. destruct xs, ss; try discriminate; [reflexivity|].
      symmetry. exact D. }
    change (toks (TTuple xs)) with (["Tup"; "0"] ++ list_toks xs ++ ["1"])%list.
    rewrite !dollar_app, C. cbn [dollar]. rewrite !append_nil, !append_assoc. reflexivity.
Qed.

(** * Tokens determine the type *)
Lemma decimal_digits n : all_digits (decimal n) = true.
Proof.
  unfold decimal. induction (Nat.to_uint n); simpl; try reflexivity; exact IHu.
Qed.

Lemma decimal_inj n m : decimal n = decimal m -> n = m.
Proof.
  unfold decimal. intros E. apply (f_equal NilEmpty.uint_of_string) in E.
  rewrite !NilEmpty.usu in E. inversion E as [E']. apply Unsigned.to_uint_inj. exact E'.
Qed.

Lemma digits_word s : all_digits s = true -> word s.
Proof.
  unfold word. induction s as [|c s IH]; cbn [all_digits mentions]; intros H; [reflexivity|].
  apply andb_true_iff in H as [H1 H2]. rewrite (IH H2), orb_false_r.
  destruct (Ascii.eqb_spec "$" c) as [<-|]; [discriminate H1 | reflexivity].
Qed.

Definition good (t : ty) : Prop := concrete unreserved t.

(** The first token of a type, and what kind of type it announces. *)
Definition head (t : ty) : string := List.hd "" (toks t).

Lemma unreserved_facts s : unreserved s = true ->
  word s /\ s <> "" /\ starts_with_digit s = false /\ reserved s = false.
Proof.
  unfold unreserved, identifier, word. intros H.
  apply andb_true_iff in H as [H R]. apply andb_true_iff in H as [H S]. apply andb_true_iff in H as [E M].
  apply negb_true_iff in R, S, M. repeat split; auto. intros ->. discriminate E.
Qed.

Lemma head_not_digit t : good t -> starts_with_digit (head t) = false /\ head t <> "".
Proof.
  intros H. unfold head. inversion H; subst; try (split; [reflexivity | discriminate]).
  - destruct p; split; try reflexivity; discriminate.
  - assert (E : List.hd "" (toks (TNamed id name args)) = nominal_base id name) by (destruct args; reflexivity).
    rewrite E, nominal_base_eq. destruct H0 as [H0|H0].
    + apply unreserved_facts in H0 as [_ [A [B _]]].
      destruct (td_origin id); auto; split; try reflexivity; discriminate.
    + rewrite H0. split; [reflexivity | discriminate].
Qed.

Lemma toks_head t : exists r, toks t = head t :: r.
Proof.
  unfold head. destruct t; try (eexists; reflexivity). destruct args; eexists; reflexivity.
Qed.

Lemma not_digit_neq s d : starts_with_digit s = false -> starts_with_digit d = true -> s <> d.
Proof. intros A B ->. congruence. Qed.

Definition stops (r : list string) : Prop := List.hd "" r <> "0".

Lemma stops_toks t r : good t -> stops (toks t ++ r)%list.
Proof.
  intros H. destruct (toks_head t) as [x E]. rewrite E. unfold stops. simpl.
  apply not_digit_neq; [apply head_not_digit; exact H | reflexivity].
Qed.

Definition PT (t1 : ty) : Prop := forall t2 r1 r2,
  good t1 -> good t2 -> stops r1 -> stops r2 -> (toks t1 ++ r1 = toks t2 ++ r2)%list ->
  same_shape t1 t2 /\ r1 = r2.

Lemma list_decode l1 : Forall PT l1 -> forall l2 r1 r2,
  Forall good l1 -> Forall good l2 ->
  (List.concat (List.map toks l1) ++ "1" :: r1 = List.concat (List.map toks l2) ++ "1" :: r2)%list ->
  Forall2 same_shape l1 l2 /\ r1 = r2.
Proof.
  induction 1 as [|t l1 Ht _ IH]; intros [|u l2] r1 r2 G1 G2 E.
  - cbn in E. inversion E. auto.
  - exfalso. inversion G2; subst. destruct (toks_head u) as [x Ex]. cbn in E. rewrite Ex in E. cbn in E.
    injection E as E _. destruct (head_not_digit u H1) as [D _]. rewrite <- E in D. discriminate D.
  - exfalso. inversion G1; subst. destruct (toks_head t) as [x Ex]. cbn in E. rewrite Ex in E. cbn in E.
    injection E as E _. destruct (head_not_digit t H1) as [D _]. rewrite E in D. discriminate D.
  - inversion G1; subst. inversion G2; subst. cbn [List.map List.concat] in E. rewrite <- !app_assoc in E.
    apply (Ht u) in E as [S E]; auto.
    + apply IH in E as [F E]; auto.
    + destruct l1 as [|v l1]; [discriminate|]. cbn [List.map List.concat]. rewrite <- app_assoc.
      inversion H2; subst. apply stops_toks. assumption.
    + destruct l2 as [|v l2]; [discriminate|]. cbn [List.map List.concat]. rewrite <- app_assoc.
      inversion H4; subst. apply stops_toks. assumption.
Qed.

Lemma list_toks_decode l1 : Forall PT l1 -> forall l2 r1 r2,
  Forall good l1 -> Forall good l2 ->
  (list_toks l1 ++ "1" :: r1 = list_toks l2 ++ "1" :: r2)%list ->
  Forall2 same_shape l1 l2 /\ r1 = r2.
Proof.
  intros P l2 r1 r2 G1 G2 E. destruct l1 as [|t l1], l2 as [|u l2].
  - cbn in E. inversion E. auto.
  - exfalso. inversion G2; subst. destruct (toks_head u) as [x Ex]. cbn in E. rewrite Ex in E. cbn in E.
    injection E as E _. destruct (head_not_digit u H1) as [_ D]. auto.
  - exfalso. inversion G1; subst. destruct (toks_head t) as [x Ex]. cbn in E. rewrite Ex in E. cbn in E.
    injection E as E _. destruct (head_not_digit t H1) as [_ D]. auto.
  - apply list_decode; assumption.
Qed.

Lemma reserved_neq s w : reserved s = false -> reserved w = true -> s <> w.
Proof. intros A B ->. congruence. Qed.

Lemma reserved_T n : reserved ("T" ++ decimal n) = true.
Proof.
  unfold reserved. cbn [append]. rewrite decimal_digits. cbn [Ascii.eqb Bool.eqb]. apply orb_true_r.
Qed.

(** Classification of heads: equal heads force equal constructors. *)
Inductive shape := SPrim (p : prim) | SVar (i : nat) | SErr | SFn | STup | SList | SNominal (s : string) | SNone.
Definition shape_of (t : ty) : shape :=
  match t with
  | TPrim p => SPrim p
  | TBound i | TLocal _ i => SVar i
  | TError => SErr
  | TFunc _ _ _ _ => SFn
  | TTuple _ => STup
  | TNamed d _ _ => match td_origin d with BuiltinList => SList | _ => SNominal (td_qualified d) end
  | _ => SNone
  end.

Definition head_of (s : shape) : string :=
  match s with
  | SPrim p => prim_text p
  | SVar i => "T" ++ decimal i
  | SErr => "error" | SFn => "Fn" | STup => "Tup" | SList => "BuiltinList"
  | SNominal s => s | SNone => ""
  end.

Lemma head_shape t : head t = head_of (shape_of t).
Proof.
  unfold head. destruct t; try reflexivity. cbn [shape_of].
  assert (E : List.hd "" (toks (TNamed id name args)) = nominal_base id name) by (destruct args; reflexivity).
  rewrite E, nominal_base_eq. destruct (td_origin id); reflexivity.
Qed.

Definition good_shape (s : shape) : Prop :=
  match s with SNominal s => reserved s = false | SNone => False | _ => True end.

Lemma good_shape_of t : good t -> good_shape (shape_of t).
Proof.
  intros H. inversion H; subst; try exact I. cbn [shape_of].
  destruct H0 as [H0|H0].
  - apply unreserved_facts in H0 as [_ [_ [_ R]]]. destruct (td_origin id); try exact R. exact I.
  - rewrite H0. exact I.
Qed.

Lemma good_shape_reserved s : good_shape s -> match s with SNominal _ => True | _ => reserved (head_of s) = true end.
Proof.
  destruct s; cbn; intros H; try exact I; try reflexivity; try contradiction.
  - destruct p; reflexivity.
  - apply reserved_T.
Qed.

Lemma T_neq i s : (forall c s', s = String "T" (String c s') -> is_digit c = false) ->
  (s <> "T") -> decimal i <> "" -> "T" ++ decimal i <> s.
Proof.
  intros H N D E. pose proof (decimal_digits i) as A. destruct (decimal i) as [|c s'] eqn:Ed; [congruence|].
  symmetry in E. specialize (H c s' E). cbn in A. rewrite H in A. discriminate A.
Qed.

Lemma decimal_nonempty i : decimal i <> "".
Proof.
  unfold decimal. intros E. apply (f_equal NilEmpty.uint_of_string) in E.
  rewrite NilEmpty.usu in E. inversion E as [E'].
  assert (N : Nat.of_uint (Nat.to_uint i) = Nat.of_uint Nil) by (rewrite E'; reflexivity).
  rewrite Unsigned.of_to in N. cbn in N. subst i. discriminate E'.
Qed.

Lemma T_tup i : "T" ++ decimal i <> "Tup".
Proof.
  apply (T_neq i "Tup"); [|discriminate|apply decimal_nonempty].
  intros c s' X. injection X as <- _. reflexivity.
Qed.

Lemma T_prim i p : "T" ++ decimal i <> prim_text p.
Proof.
  apply (T_neq i); [|destruct p; discriminate|apply decimal_nonempty].
  intros c s'. destruct p; intros X; discriminate X.
Qed.

Lemma head_of_inj s1 s2 : good_shape s1 -> good_shape s2 -> head_of s1 = head_of s2 -> s1 = s2.
Proof.
  intros G1 G2 E. pose proof (good_shape_reserved s1 G1) as R1. pose proof (good_shape_reserved s2 G2) as R2.
  destruct s1 as [p| i | | | | | w |], s2 as [q| j | | | | | v |]; cbn [good_shape head_of] in *;
    try contradiction; try reflexivity; try discriminate E;
    try (rewrite E in R1; cbn in R1; congruence); try (rewrite <- E in R2; cbn in R2; congruence);
    try (destruct p; discriminate E); try (destruct q; discriminate E);
    try (exfalso; apply (T_tup i); congruence); try (exfalso; apply (T_tup j); congruence);
    try (exfalso; apply (T_prim i q); congruence); try (exfalso; apply (T_prim j p); congruence).
  - destruct p, q; try reflexivity; discriminate E.
  - f_equal. apply decimal_inj. injection E as E. exact E.
  - congruence.
Qed.

Lemma decode t : PT t.
Proof.
  induction t as [p|i|s i|i|d n args IH|ps r e c IHp IHr IHe|xs IH|c xs IHc IH|a r e IHa IHr IHe|]
    using ty_induct; intros t2 r1 r2 G1 G2 S1 S2 E;
  (assert (HS : shape_of t2 = _) by
    (symmetry; apply head_of_inj; [exact (good_shape_of _ G1) | exact (good_shape_of _ G2)|];
     rewrite <- !head_shape; destruct (toks_head t2) as [x2 E2];
     match type of E with (toks ?t ++ _)%list = _ => destruct (toks_head t) as [x1 E1] end;
     rewrite E1, E2 in E; injection E as E _; exact E));
  try (exfalso; inversion G1; fail).
  - destruct t2; cbn [shape_of] in HS; try discriminate HS; try (destruct (td_origin id); discriminate HS).
    injection HS as ->. cbn in E. injection E as E. split; [constructor | exact E].
  - destruct t2; cbn [shape_of] in HS; try discriminate HS; try (destruct (td_origin id); discriminate HS);
      injection HS as ->; cbn in E; injection E as E; split; try constructor; exact E.
  - destruct t2; cbn [shape_of] in HS; try discriminate HS; try (destruct (td_origin id); discriminate HS);
      injection HS as ->; cbn in E; injection E as E; split; try constructor; exact E.
  - destruct t2 as [| | | |d2 n2 args2| | | | |]; cbn [shape_of] in HS; try (destruct (td_origin d); discriminate HS).
    assert (K : Forall2 same_shape args args2 -> same_shape (TNamed d n args) (TNamed d2 n2 args2)).
    { intros F. destruct (td_origin d) eqn:O1, (td_origin d2) eqn:O2; try discriminate HS;
        try (apply same_named; [congruence|congruence|injection HS as HS; congruence|exact F]).
      apply same_list; auto. }
    inversion G1 as [| | | |? ? ? _ F1| |]; subst. inversion G2 as [| | | |? ? ? _ F2| |]; subst.
    destruct args as [|a args], args2 as [|b args2].
    + cbn in E. injection E as _ E. auto.
    + exfalso. cbn in E. injection E as _ E. apply S1. rewrite E. reflexivity.
    + exfalso. cbn in E. injection E as _ E. apply S2. rewrite <- E. reflexivity.
    + cbn [toks] in E. injection E as _ E. rewrite <- !app_assoc in E.
      destruct (list_decode (a :: args) IH (b :: args2) r1 r2 F1 F2) as [F E']; auto.
      cbn [List.map List.concat]. rewrite <- !app_assoc. exact E.
  - destruct t2 as [| | | | |ps2 q2 e2 c2| | | |]; cbn [shape_of] in HS; try discriminate HS;
      try (destruct (td_origin id); discriminate HS).
    inversion G1 as [| | | | |? ? ? ? F1 H1|]; subst. inversion G2 as [| | | | |? ? ? ? F2 H2|]; subst.
    change (toks (TFunc ps r e c)) with ("Fn" :: "0" :: list_toks ps ++ "1" :: toks r)%list in E.
    change (toks (TFunc ps2 q2 e2 c2)) with ("Fn" :: "0" :: list_toks ps2 ++ "1" :: toks q2)%list in E.
    cbn [List.app] in E. injection E as E. rewrite <- !app_assoc in E. cbn [List.app] in E.
    apply (list_toks_decode ps IHp) in E as [F E]; auto.
    apply (IHr q2) in E as [S E]; auto. split; [|exact E]. constructor; assumption.
  - destruct t2 as [| | | | | |ys| | |]; cbn [shape_of] in HS; try discriminate HS;
      try (destruct (td_origin id); discriminate HS).
    inversion G1 as [| | | | | |? F1]; subst. inversion G2 as [| | | | | |? F2]; subst.
    change (toks (TTuple xs)) with ("Tup" :: "0" :: list_toks xs ++ ["1"])%list in E.
    change (toks (TTuple ys)) with ("Tup" :: "0" :: list_toks ys ++ ["1"])%list in E.
    cbn [List.app] in E. injection E as E. rewrite <- !app_assoc in E. cbn [List.app] in E.
    apply (list_toks_decode xs IH) in E as [F E]; auto. split; [|exact E]. constructor; assumption.
  - destruct t2; cbn [shape_of] in HS; try discriminate HS; try (destruct (td_origin id); discriminate HS).
    cbn in E. injection E as E. split; [constructor | exact E].
Qed.

Lemma decode_all l1 : forall l2, Forall good l1 -> Forall good l2 ->
  List.concat (List.map toks l1) = List.concat (List.map toks l2) -> Forall2 same_shape l1 l2.
Proof.
  intros l2 G1 G2 E. apply (list_decode l1) with (r1 := []) (r2 := []); auto.
  - apply Forall_forall. intros. apply decode.
  - rewrite E. reflexivity.
Qed.

Lemma Forall_concat_map {A B} (P : B -> Prop) (f : A -> list B) l :
  Forall (fun x => Forall P (f x)) l -> Forall P (List.concat (List.map f l)).
Proof.
  induction 1 as [|x l H _ IH]; [constructor|]. cbn [List.map List.concat]. apply Forall_app. auto.
Qed.

Lemma word_unreserved s : unreserved s = true -> word s.
Proof. intros H. apply unreserved_facts in H. tauto. Qed.

Lemma Forall_mp {A} (P Q : A -> Prop) l : Forall (fun x => P x -> Q x) l -> Forall P l -> Forall Q l.
Proof. intros H F. induction F; constructor; inversion H; subst; auto. Qed.

Lemma toks_words t : good t -> Forall word (toks t).
Proof.
  induction t as [p|i|s i|i|d n args IH|ps r e c IHp IHr IHe|xs IH|c xs IHc IH|a r e IHa IHr IHe|]
    using ty_induct; intros H; inversion H; subst; try (repeat constructor; fail).
  - destruct p; repeat constructor.
  - repeat constructor. apply (word_app "T"); [reflexivity | apply digits_word, decimal_digits].
  - repeat constructor. apply (word_app "T"); [reflexivity | apply digits_word, decimal_digits].
  - assert (W : word (nominal_base d n)).
    { rewrite nominal_base_eq. destruct H2 as [H2|H2].
      - apply word_unreserved in H2. destruct (td_origin d); try exact H2. reflexivity.
      - rewrite H2. reflexivity. }
    destruct args as [|a args]; [repeat constructor; exact W|].
    cbn [toks]. constructor; [exact W|]. constructor; [reflexivity|]. apply Forall_app. split; [|repeat constructor].
    apply Forall_concat_map. apply (Forall_mp _ _ _ IH). assumption.
   
  - change (toks (TFunc ps r e c)) with ("Fn" :: "0" :: list_toks ps ++ "1" :: toks r)%list.
    constructor; [reflexivity|]. constructor; [reflexivity|]. apply Forall_app. split.
    + destruct ps; [repeat constructor|]. apply Forall_concat_map. apply (Forall_mp _ _ _ IHp). assumption.
    + constructor; [reflexivity|]. apply IHr. assumption.
  - change (toks (TTuple xs)) with ("Tup" :: "0" :: list_toks xs ++ ["1"])%list.
    constructor; [reflexivity|]. constructor; [reflexivity|]. apply Forall_app. split; [|repeat constructor].
    destruct xs; [repeat constructor|]. apply Forall_concat_map. apply (Forall_mp _ _ _ IH). assumption.
Qed.

Lemma concat_map_dollar ss : String.concat "" (List.map (fun s => "$" ++ s) ss) = dollar ss.
Proof.
  induction ss as [|s ss IH]; [reflexivity|].
  cbn [dollar]. rewrite <- IH. destruct ss; cbn; [rewrite append_nil; reflexivity | reflexivity].
Qed.

Lemma mangle_name_toks ok b args : Forall (concrete ok) args ->
  mangle_name b args = Some (b ++ dollar (List.concat (List.map toks args))).
Proof.
  intros H. destruct (sequence_map args) as [ss [E [_ D]]].
  - apply Forall_impl with (2 := H). intros t. apply mangle_toks.
  - unfold mangle_name. rewrite E. cbn [option_map]. rewrite concat_map_dollar, D. reflexivity.
Qed.

Lemma Forall2_in_iff {A B} (R S : A -> B -> Prop) l1 l2 :
  Forall (fun x => forall y, R x y -> S x y) l1 -> Forall2 R l1 l2 -> Forall2 S l1 l2.
Proof. intros H F. induction F; constructor; inversion H; subst; auto. Qed.

Lemma same_toks t1 : forall t2, same_shape t1 t2 -> toks t1 = toks t2.
Proof.
  assert (K : forall l1 l2, Forall2 (fun x y => toks x = toks y) l1 l2 ->
              List.map toks l1 = List.map toks l2).
  { intros l1 l2 F. induction F; cbn; congruence. }
  induction t1 as [p|i|s i|i|d n args IH|ps r e c IHp IHr IHe|xs IH|c xs IHc IH|a r e IHa IHr IHe|]
    using ty_induct; intros t2 H; inversion H; subst; try reflexivity.
  - assert (F : List.map toks args = List.map toks args') by (apply K; eapply Forall2_in_iff; eassumption).
    match goal with H : Forall2 _ args args' |- _ => pose proof (Forall2_len _ _ _ H) as L end.
    assert (B : nominal_base d n = nominal_base id' n') by (rewrite !nominal_base_eq; repeat match goal with H : td_origin _ = _ |- _ => rewrite H end; reflexivity).
    destruct args, args'; try discriminate L; cbn [toks]; rewrite B; [reflexivity|].
    rewrite F. reflexivity.
  - assert (F : List.map toks args = List.map toks args') by (apply K; eapply Forall2_in_iff; eassumption).
    match goal with H : Forall2 _ args args' |- _ => pose proof (Forall2_len _ _ _ H) as L end.
    assert (B : nominal_base d n = nominal_base id' n').
    { rewrite !nominal_base_eq. destruct (td_origin d), (td_origin id'); congruence. }
    destruct args, args'; try discriminate L; cbn [toks]; rewrite B; [reflexivity|].
    rewrite F. reflexivity.
  - assert (F : List.map toks ps = List.map toks ps') by (apply K; eapply Forall2_in_iff; eassumption).
    match goal with H : Forall2 _ ps ps' |- _ => pose proof (Forall2_len _ _ _ H) as L end.
    match goal with H : same_shape r _ |- _ => apply IHr in H; rename H into Er end. cbn [toks]. rewrite Er. destruct ps, ps'; try discriminate L; [reflexivity|]. rewrite F. reflexivity.
  - assert (F : List.map toks xs = List.map toks ts') by (apply K; eapply Forall2_in_iff; eassumption).
    match goal with H : Forall2 _ xs ts' |- _ => pose proof (Forall2_len _ _ _ H) as L end.
    cbn [toks]. destruct xs, ts'; try discriminate L; [reflexivity|]. rewrite F. reflexivity.
Qed.

Lemma mangle_name_iff b1 a1 b2 a2 :
  mentions "$" b1 = false -> mentions "$" b2 = false ->
  Forall (concrete unreserved) a1 -> Forall (concrete unreserved) a2 ->
  mangle_name b1 a1 <> None /\
  (mangle_name b1 a1 = mangle_name b2 a2 <-> b1 = b2 /\ Forall2 same_shape a1 a2).
Proof.
  intros W1 W2 G1 G2. rewrite (mangle_name_toks _ b1 a1 G1), (mangle_name_toks _ b2 a2 G2).
  split; [discriminate|]. split.
  - intros E. injection E as E. apply dollar_inj in E as [-> E]; auto.
    + split; [reflexivity|]. apply decode_all; auto.
    + apply Forall_concat_map. apply Forall_impl with (2 := G1). apply toks_words.
    + apply Forall_concat_map. apply Forall_impl with (2 := G2). apply toks_words.
  - intros [-> F].
    assert (M : List.map toks a1 = List.map toks a2).
    { clear -F. induction F as [|x y l l' H _ IH]; cbn; [reflexivity|]. rewrite (same_toks _ _ H). congruence. }
    rewrite M. reflexivity.
Qed.

Lemma plain_same decl t1 : forall t2, plain decl t1 -> plain decl t2 -> same_shape t1 t2 -> t1 = t2.
Proof.
  assert (K : forall l1, Forall (fun t1 => forall t2, plain decl t1 -> plain decl t2 -> same_shape t1 t2 -> t1 = t2) l1 ->
     forall l2, Forall (plain decl) l1 -> Forall (plain decl) l2 -> Forall2 same_shape l1 l2 -> l1 = l2).
  { induction 1; intros l2 P1 P2 F; inversion F; subst; [reflexivity|].
    inversion P1; subst. inversion P2; subst. f_equal; auto. }
  induction t1 as [p|i|s i|i|d n args IH|ps r e c IHp IHr IHe|xs IH|c xs IHc IH|a r e IHa IHr IHe|]
    using ty_induct; intros t2 P1 P2 H; inversion H; subst; try reflexivity;
    try (inversion P1; fail); try (inversion P2; fail).
  - inversion P1; subst; [|cbn in *; congruence]. inversion P2; subst; [|cbn in *; congruence].
    f_equal. apply K; auto.
  - inversion P1; subst; [cbn in *; congruence|]. inversion P2; subst; [cbn in *; congruence|].
    match goal with E : td_qualified d = td_qualified id' |- _ => rename E into Q end.
    match goal with E1 : decl (td_qualified d) = _ , E2 : decl (td_qualified id') = _ |- _ =>
      rewrite Q, E2 in E1; injection E1 as -> -> end.
    f_equal. apply K; auto.
  - inversion P1; subst. inversion P2; subst. f_equal; auto.
  - inversion P1; subst. inversion P2; subst. f_equal; auto.
Qed.

Lemma plain_good decl t : plain decl t -> concrete unreserved t.
Proof.
  induction t as [p|i|s i|i|d n args IH|ps r e c IHp IHr IHe|xs IH|c xs IHc IH|a r e IHa IHr IHe|]
    using ty_induct; intros H; inversion H; subst; constructor; auto; try (right; reflexivity);
  apply Forall_forall; intros x Hx.
  - rewrite Forall_forall in *. auto.
  - rewrite Forall_forall in *. auto.
  - rewrite Forall_forall in *. auto.
  - rewrite Forall_forall in *. auto.
Qed.

Lemma mangle_plain_inj decl b1 a1 b2 a2 :
  mentions "$" b1 = false -> mentions "$" b2 = false ->
  Forall (plain decl) a1 -> Forall (plain decl) a2 ->
  mangle_name b1 a1 = mangle_name b2 a2 -> b1 = b2 /\ a1 = a2.
Proof.
  intros W1 W2 P1 P2 E.
  assert (G1 : Forall (concrete unreserved) a1) by (apply Forall_impl with (2 := P1); apply plain_good).
  assert (G2 : Forall (concrete unreserved) a2) by (apply Forall_impl with (2 := P2); apply plain_good).
  apply (mangle_name_iff b1 a1 b2 a2 W1 W2 G1 G2) in E as [-> F]. split; [reflexivity|].
  clear -P1 P2 F. induction F; [reflexivity|]. inversion P1; subst. inversion P2; subst.
  f_equal; [apply (plain_same decl) | ]; auto.
Qed.
