(** Whole functions (C72). *)
From Coq Require Import Permutation.
From Verif Require Export EmitValid.

Lemma values_perm f : Permutation (values f) (f_params f ++ flat_map defs (f_body f)).
Proof. unfold values. fold (own (f_body f)). apply Permutation_app_head, own_defs. Qed.
Lemma values_unique params pushes ends indirect f : fine_func params pushes ends indirect f -> NoDup (List.map fst (values f)).
Proof. intros [_ N]. eapply Permutation_NoDup; [|exact N]. apply Permutation_map. symmetry. apply values_perm. Qed.
Lemma compile_locals indirect f c : compile indirect f = Some c ->
  List.map snd (f_params f) ++ expand (c_locals c) = List.map snd (values f).
Proof.
  unfold compile. intros E. apply obind_some in E. destruct E as [is [_ E]]. injection E as <-. cbn [c_locals]. rewrite expand_compress.
  unfold values. rewrite map_app. f_equal. rewrite skipn_app, skipn_all, Nat.sub_diag. reflexivity.
Qed.

Lemma distinct_locals indirect f c : NoDup (List.map fst (f_params f ++ flat_map defs (f_body f))) -> compile indirect f = Some c ->
  (forall v t, In (v, t) (f_params f ++ flat_map defs (f_body f)) ->
     exists i, position_of v (values f) = Some i /\ nth_error (List.map snd (f_params f) ++ expand (c_locals c)) i = Some t) /\
  (forall u v i, position_of u (values f) = Some i -> position_of v (values f) = Some i -> u = v).
Proof.
  intros N E. split.
  - intros v t H. rewrite (compile_locals _ _ _ E). apply position_in.
    + eapply Permutation_NoDup; [|exact N]. apply Permutation_map. symmetry. apply values_perm.
    + eapply Permutation_in; [symmetry; apply values_perm|exact H].
  - intros u v i Hu Hv. apply position_fst in Hu, Hv. congruence.
Qed.

Lemma compiles params pushes ends indirect f : fine_func params pushes ends indirect f ->
  exists c, compile indirect f = Some c /\ forall result, valid params pushes ends (List.map snd (f_params f)) result c.
Proof.
  intros FF. pose proof (values_unique _ _ _ _ f FF) as U. destruct FF as [F N].
  assert (X : forall result, exists is s', emits (fun v => position_of v (values f)) indirect [] (flat_map lower (f_body f)) = Some is /\
    checks params pushes ends (List.map snd (values f)) [result] is ([], false) = Some s' /\ ok ends (values f) Top (f_body f) ([], false) s').
  { intros result. apply (valid_fine indirect ends params pushes (values f) U (f_params f) Top (f_body f) F [] [] [result] ([], false)).
    - intros x Hx. apply in_or_app. left. exact Hx.
    - intros x Hx. apply in_or_app. right. exact Hx.
    - exact Logic.I.
    - exact Logic.I. }
  destruct (X None) as [is [s' [E _]]].
  exists (mkCode (compress_locals (List.map snd (skipn (List.length (f_params f)) (values f)))) is).
  assert (C : compile indirect f = Some (mkCode (compress_locals (List.map snd (skipn (List.length (f_params f)) (values f)))) is)).
  { unfold compile. rewrite E. reflexivity. }
  split; [exact C|]. intros result. unfold valid. rewrite (compile_locals _ _ _ C). cbn [c_instrs].
  destruct (X result) as [is' [s'' [E' [K O]]]]. rewrite E in E'. injection E' as <-. rewrite K.
  destruct O as [[-> _]|[_ [t [T _]]]]; [|discriminate]. destruct result; reflexivity.
Qed.

Section Start.
  Context {V : Type}.
  Variable nilv : V.
  Lemma binds_other v : forall ps e xs, ~ In v (List.map fst ps) -> binds nilv e ps xs v = e v.
  Proof.
    induction ps as [|b ps IH]; intros e [|x xs] H; try reflexivity. cbn. rewrite IH; [|intros X; apply H; right; exact X].
    unfold bind. apply put_other. intros ->. apply H. left. reflexivity.
  Qed.
  Lemma binds_at : forall ps xs e i v t, NoDup (List.map fst ps) -> nth_error ps i = Some (v, t) ->
    Forall2 (fun x (b : nat * vt) => snd b = nil_t -> x = nilv) xs ps -> exists x, nth_error xs i = Some x /\ binds nilv e ps xs v = x /\ (t = nil_t -> x = nilv).
  Proof.
    induction ps as [|b ps IH]; intros xs e i v t N E F; inversion F as [|x b' l ps' Hx Hl]; subst; [destruct i; discriminate|]. inversion N as [|? ? N1 N2]; subst. destruct i as [|i]; cbn in E.
    - injection E as ->. exists x. split; [reflexivity|]. cbn. rewrite binds_other by exact N1. unfold bind. cbn [fst snd]. rewrite put_same.
      split; [|exact Hx]. cbn in Hx. unfold is_nil. destruct (Nat.eqb_spec t nil_t); [symmetry; auto|reflexivity].
    - destruct (IH l (bind nilv e b x) i v t N2 E Hl) as [y [E1 [E2 E3]]]. exists y. auto.
  Qed.
End Start.

Lemma position_nth v : forall l i, position_of v l = Some i -> exists t, nth_error l i = Some (v, t).
Proof.
  induction l as [|x l IH]; intros i H; [discriminate|]. cbn in H. destruct (Nat.eqb_spec (fst x) v).
  - injection H as <-. destruct x as [u t]. cbn in *. subst. eauto.
  - destruct (position_of v l) as [j|]; [|discriminate]. injection H as <-. cbn. auto.
Qed.

Lemma faithful {V W} (nilv : V) truth (sem : nat -> list V -> W -> eff V W) params pushes ends indirect default f args c :
  fine_func params pushes ends indirect f -> lawful sem pushes ends -> default nil_t = nilv ->
  Forall2 (fun x (b : nat * vt) => snd b = nil_t -> x = nilv) args (f_params f) ->
  compile indirect f = Some c -> forall n w,
  seen_res (exec_func nilv truth sem (fun k => List.length (params k)) default n c args w) = seen_out (run_func nilv truth sem indirect n f args w) /\
  seen_out (run_func nilv truth sem indirect n f args w) <> SBroken.
Proof.
  intros FF LW DF FA C n w. pose proof (values_unique _ _ _ _ f FF) as U. pose proof (compile_locals _ _ _ C) as CL. destruct FF as [F N].
  pose proof C as C'. unfold compile in C'. apply obind_some in C'. destruct C' as [is [E E']]. injection E' as <-.
  set (c := mkCode (compress_locals (List.map snd (skipn (List.length (f_params f)) (values f)))) is) in *.
  assert (NP : NoDup (List.map fst (f_params f))).
  { rewrite map_app in N. apply NoDup_app_two in N. tauto. }
  assert (CL' : expand (c_locals c) = List.map snd (own (f_body f))).
  { unfold c. cbn [c_locals]. rewrite expand_compress. unfold values. rewrite skipn_app, skipn_all, Nat.sub_diag. reflexivity. }
  assert (LA : List.length args = List.length (f_params f)) by exact (Forall2_len _ _ _ FA).
  assert (PP : forall v i, position_of v (values f) = Some i -> forall t, In (v, t) (f_params f) ->
    frame nilv default c args i = binds nilv (fun _ => nilv) (f_params f) args v).
  { intros v i Hi t Hv. apply In_nth_error in Hv. destruct Hv as [j Hj].
    destruct (position_nth v _ _ Hi) as [t' Ht'].
    assert (Hj' : nth_error (values f) j = Some (v, t)) by (unfold values; rewrite nth_error_app1; [exact Hj|apply nth_error_Some; congruence]).
    assert (i = j).
    { apply (proj1 (NoDup_nth_error (List.map fst (values f))) U).
      - apply nth_error_Some. rewrite (map_nth_error fst _ _ Ht'). discriminate.
      - rewrite (map_nth_error fst _ _ Ht'), (map_nth_error fst _ _ Hj'). reflexivity. }
    subst j. destruct (binds_at nilv _ args (fun _ => nilv) i v t NP Hj FA) as [x [X1 [X2 _]]]. rewrite X2.
    unfold frame. apply nth_error_nth. rewrite nth_error_app1; [exact X1|]. apply nth_error_Some. congruence. }
  assert (A : agree nilv (values f) (f_params f) (binds nilv (fun _ => nilv) (f_params f) args) (frame nilv default c args)).
  { split.
    - intros v t i Hv Hi. eapply PP; eauto.
    - intros v Hv. apply In_nth_error in Hv. destruct Hv as [j Hj]. destruct (binds_at nilv _ args (fun _ => nilv) j v nil_t NP Hj FA) as [x [X1 [X2 X3]]]. rewrite X2. auto.
    - intros v i Hv Hi. destruct (position_in v nil_t (values f) U Hv) as [i' [Ei Ti]]. rewrite Hi in Ei. injection Ei as <-.
      unfold frame. rewrite CL'. unfold values in Ti. rewrite map_app in Ti.
      destruct (Nat.lt_ge_cases i (List.length (f_params f))) as [Lt|Ge].
      + rewrite nth_error_app1 in Ti by (rewrite map_length; exact Lt).
        assert (X : exists x, nth_error args i = Some x /\ x = nilv).
        { clear - Ti FA. revert i Ti. induction FA as [|x b args ps H _ IH]; intros i Ti; [destruct i; discriminate|]. destruct i as [|i]; cbn in Ti |- *.
          - injection Ti as Ti. exists x. auto.
          - auto. }
        destruct X as [x [X ->]]. apply nth_error_nth. rewrite nth_error_app1; [exact X|]. lia.
      + rewrite nth_error_app2 in Ti by (rewrite map_length; exact Ge). rewrite map_length in Ti.
        apply nth_error_nth. rewrite nth_error_app2 by lia. rewrite LA, <- DF. apply map_nth_error. exact Ti. }
  pose proof (sim nilv truth sem indirect ends params pushes LW (values f) U n (f_params f) Top (f_body f) F [] [] is
    (binds nilv (fun _ => nilv) (f_params f) args) (frame nilv default c args) [] w) as S.
  assert (I1 : incl (f_params f) (values f)) by (intros x Hx; apply in_or_app; left; exact Hx).
  assert (I2 : incl (own (f_body f)) (values f)) by (intros x Hx; apply in_or_app; right; exact Hx).
  specialize (S I1 I2 U Logic.I E A). unfold exec_func, run_func. cbn [c_instrs]. unfold takes_of in S.
  change (c_instrs c) with is.
  destruct (run nilv truth sem indirect n (f_body f) (binds nilv (fun _ => nilv) (f_params f) args) w) as [w1|xs w1|xs w1|x w1|xs w1|w1| |]; cbn [fits] in S.
  - destruct S.
  - destruct S as [L' [_ [_ [t [T _]]]]]. discriminate.
  - destruct S as [d [L' [s' [D _]]]]. discriminate.
  - destruct S as [d [L' [s' [D _]]]]. discriminate.
  - rewrite S. split; [reflexivity|discriminate].
  - rewrite S. split; [reflexivity|discriminate].
  - rewrite S. split; [reflexivity|discriminate].
  - destruct S.
Qed.
