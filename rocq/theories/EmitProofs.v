(** Lemmas about locals and emission (C72). *)
From Coq Require Import Permutation.
From Verif Require Export EmitSpec.

(** ** Where values live *)
Lemma position_fst v : forall l i, position_of v l = Some i -> nth_error (List.map fst l) i = Some v.
Proof.
  induction l as [|x l IH]; intros i H; [discriminate|]. cbn in H. destruct (Nat.eqb_spec (fst x) v).
  - injection H as <-. cbn. congruence.
  - destruct (position_of v l) as [j|]; [|discriminate]. injection H as <-. cbn. auto.
Qed.
Lemma position_in v t : forall l, NoDup (List.map fst l) -> In (v, t) l ->
  exists i, position_of v l = Some i /\ nth_error (List.map snd l) i = Some t.
Proof.
  induction l as [|x l IH]; intros N H; [destruct H|]. cbn in *. inversion N as [|? ? N1 N2]; subst. destruct (Nat.eqb_spec (fst x) v) as [E|E].
  - exists 0. split; [reflexivity|]. destruct H as [->|H]; [reflexivity|]. exfalso. apply N1. rewrite E. exact (in_map fst l (v, t) H).
  - destruct H as [->|H]; [exfalso; apply E; reflexivity|]. destruct (IH N2 H) as [i [E1 E2]]. exists (S i). rewrite E1. auto.
Qed.

(** ** Locals are the values of the operations *)
Fixpoint sop_ind' (P : sop -> Prop)
  (H1 : forall k args res, P (OPlain k args res))
  (H2 : forall c r t th el, Forall P th -> Forall P el -> P (OIf c r t th el))
  (H3 : forall init ps r r' t body, Forall P body -> P (OLoop init ps r r' t body))
  (H4 : forall vs, P (OYield vs)) (H5 : forall vs, P (OContinue vs)) (H6 : forall v, P (OBreak v)) (o : sop) : P o :=
  let all := fix go (l : list sop) : Forall P l :=
    match l with [] => Forall_nil P | o :: l => Forall_cons o (sop_ind' P H1 H2 H3 H4 H5 H6 o) (go l) end in
  match o with
  | OPlain k args res => H1 k args res
  | OIf c r t th el => H2 c r t th el (all th) (all el)
  | OLoop init ps r r' t body => H3 init ps r r' t body (all body)
  | OYield vs => H4 vs
  | OContinue vs => H5 vs
  | OBreak v => H6 v
  end.
Definition own (l : list sop) : list (nat * vt) := flat_map locals_of (flat_map lower l).
Lemma own_cons o l : own (o :: l) = flat_map locals_of (lower o) ++ own l.
Proof. unfold own. cbn. apply flat_map_app. Qed.
Lemma own_all l : Forall (fun o => Permutation (flat_map locals_of (lower o)) (defs o)) l -> Permutation (own l) (flat_map defs l).
Proof. induction 1 as [|o l H _ IH]; [constructor|]. rewrite own_cons. cbn. apply Permutation_app; assumption. Qed.
Lemma own_op o : Permutation (flat_map locals_of (lower o)) (defs o).
Proof.
  induction o as [k args res|c r t th el IH1 IH2|init ps r r' t body IH|vs|vs|v] using sop_ind'; cbn.
  - destruct res; reflexivity.
  - apply own_all in IH1, IH2. unfold own in *. rewrite app_nil_r, app_assoc, Permutation_app_comm. cbn. constructor. apply Permutation_app; assumption.
  - apply own_all in IH. unfold own in *. rewrite !app_nil_r. rewrite Permutation_app_comm. cbn. constructor.
    rewrite app_assoc, Permutation_app_comm. cbn. constructor. apply Permutation_app_head. assumption.
  - destruct vs as [|v [|]]; reflexivity.
  - destruct vs as [|v [|]]; reflexivity.
  - reflexivity.
Qed.
Lemma own_defs l : Permutation (own l) (flat_map defs l).
Proof. apply own_all. apply Forall_forall. intros o _. apply own_op. Qed.

Lemma expand_compress_from t : forall l n, flat_map (fun x : nat * vt => repeat (snd x) (fst x)) (compress_from t n l) = repeat t n ++ l.
Proof.
  intro l. revert t. induction l as [|u l IH]; intros t n; cbn [compress_from].
  - cbn. rewrite !app_nil_r. reflexivity.
  - destruct (Nat.eqb_spec u t) as [->|E].
    + rewrite IH. cbn [repeat]. rewrite (repeat_cons n t), <- app_assoc. reflexivity.
    + cbn [flat_map fst snd]. rewrite IH. reflexivity.
Qed.
Lemma expand_compress l : expand (compress_locals l) = l.
Proof. destruct l as [|t l]; [reflexivity|]. unfold expand, compress_locals. rewrite expand_compress_from. reflexivity. Qed.

(** ** Parts of an emission *)
Section Parts.
  Variable slot : nat -> option nat.
  Variable indirect : nat -> bool.
  Notation emits := (emits slot indirect).
  Notation emit := (emit slot indirect).

  Lemma obind_some {A B} (x : option A) (f : A -> option B) b : obind x f = Some b -> exists a, x = Some a /\ f a = Some b.
  Proof. destruct x; [eauto|discriminate]. Qed.
  Definition not_yield (o : wop) : Prop := match o with WYield _ => False | _ => True end.
  Lemma emits_cons nest o l : not_yield o ->
    emits nest (o :: l) = (a <- emit nest o ;; b <- emits nest l ;; Some (a ++ b)).
  Proof. destruct o; intros H; try reflexivity. destruct H. Qed.
  Lemma emits_cons_inv nest o l is : not_yield o -> emits nest (o :: l) = Some is ->
    exists a b, emit nest o = Some a /\ emits nest l = Some b /\ is = a ++ b.
  Proof.
    intros H E. rewrite emits_cons in E by exact H. apply obind_some in E. destruct E as [a [Ea E]].
    apply obind_some in E. destruct E as [b [Eb E]]. exists a, b. split; [exact Ea|]. split; [exact Eb|]. congruence.
  Qed.
  Lemma result_right a b v : region_result b = Some v -> region_result (a ++ b) = Some v.
  Proof. unfold region_result. rewrite rev_app_distr. destruct (rev b) as [|o l]; [discriminate|]. cbn. auto. Qed.
  Lemma result_yield a v : region_result (a ++ [WYield v]) = Some v.
  Proof. apply result_right. reflexivity. Qed.

  Lemma slots_length : forall vs is, slots slot vs = Some is -> List.length is = List.length vs.
  Proof.
    induction vs as [|v vs IH]; cbn; intros is E; [injection E as <-; reflexivity|].
    apply obind_some in E. destruct E as [i [_ E]]. apply obind_some in E. destruct E as [js [Ej E]]. injection E as <-. cbn. f_equal. auto.
  Qed.
  Lemma slots_nth : forall vs is, slots slot vs = Some is -> Forall2 (fun v i => slot v = Some i) vs is.
  Proof.
    induction vs as [|v vs IH]; cbn; intros is E; [injection E as <-; constructor|].
    apply obind_some in E. destruct E as [i [Ei E]]. apply obind_some in E. destruct E as [js [Ej E]]. injection E as <-. constructor; auto.
  Qed.
  Lemma slots_some vs : (forall v, In v vs -> exists i, slot v = Some i) -> exists is, slots slot vs = Some is.
  Proof.
    induction vs as [|v vs IH]; intros H; cbn; [eauto|]. destruct (H v) as [i ->]; [left; reflexivity|].
    destruct IH as [is ->]; [intros u Hu; apply H; right; exact Hu|]. cbn. eauto.
  Qed.
End Parts.

Lemma leaves_tail ends o l : l <> [] -> leaves ends (o :: l) -> leaves ends l.
Proof.
  intros N [l' [x [E H]]]. destruct l' as [|y l']; [injection E as -> ->; contradiction|]. injection E as -> ->. exists l', x. auto.
Qed.
Lemma yields_tail o l : l <> [] -> yields_value (o :: l) -> yields_value l.
Proof. intros N [l' [v E]]. destruct l' as [|y l']; [injection E as -> ->; contradiction|]. injection E as -> ->. exists l', v. reflexivity. Qed.
Lemma fine_nonempty params pushes ends indirect G p l : fine params pushes ends indirect G p l -> l <> [].
Proof. destruct 1; discriminate. Qed.
Lemma lower_app a b : flat_map lower (a ++ b) = flat_map lower a ++ flat_map lower b.
Proof. apply flat_map_app. Qed.
Lemma yields_result l : yields_value l -> exists v, region_result (flat_map lower l) = Some v.
Proof. intros [l' [v ->]]. exists v. rewrite lower_app. cbn. apply result_yield. Qed.
Lemma leaves_result ends l : leaves ends l -> region_result (flat_map lower l) = None.
Proof.
  intros [l' [o [-> H]]]. rewrite lower_app. unfold region_result. rewrite rev_app_distr.
  destruct o as [k args [x|]|c r t th el|init ps r r' t body|vs|vs|v]; try contradiction; try reflexivity.
  destruct vs as [|v [|v' vs]]; reflexivity.
Qed.
