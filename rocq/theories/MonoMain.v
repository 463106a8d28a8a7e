(** The result of the rounds. *)
From Verif Require Export MonoRounds.
From Verif Require Import SubstProofs.
From Coq Require Import Lia.

(** ** Identity and extensionality of declarations *)
Section Same.
  Variables (fi : nid -> nid) (fv fr : tref -> tref).
  Hypothesis HI : forall i, fi i = i.
  Hypothesis HV : forall r, fv r = r.
  Hypothesis HR : forall r, fr r = r.
  Lemma map_expr_id e : map_expr fi fv fr e = e.
  Proof.
    induction e using expr_all; eqs; cbn [map_expr]; rewrite ?HI, ?HV, ?HR, ?IHe, ?IHe1, ?IHe2; auto; try (f_equal; apply map_same; auto; fail).
    - f_equal; [|destruct sp; eqs; congruence]. apply map_same. each H. cbn. rewrite H2. destruct a; auto.
    - f_equal. apply map_same. each H. destruct a; eqs; rewrite ?map_pat_id, HI, H1; auto.
    - f_equal. apply map_same. each H. destruct a as [j p g b]; eqs. destruct H1 as [G B]. rewrite map_pat_id, HI, B by auto. destruct g; eqs; congruence.
    - f_equal. apply map_same. each H. destruct a; eqs. rewrite map_kind_id, HI, H1 by auto. auto.
  Qed.
  Lemma map_decl_id d : map_decl fi fv fr d = d.
  Proof.
    induction d using decl_all; cbn [map_decl]; auto.
    - unfold map_func. rewrite map_expr_id, HI. destruct f; auto.
    - destruct b; eqs; auto. f_equal. f_equal. apply map_same; auto.
  Qed.
End Same.
Lemma map_decl_ext fi fv gv fr d path : (forall p f, In (p, f) (all_functions path d) -> on_vars fv gv (visit_expr (f_body f))) -> map_decl fi fv fr d = map_decl fi gv fr d.
Proof.
  revert path. induction d using decl_all; intros path O; cbn [map_decl]; auto.
  - unfold map_func. rewrite (map_expr_ext fi fv gv fr fr); auto; [eapply O; cbn; auto|]. intros r _. auto.
  - destruct b as [b|]; auto. cbn [option_map]. f_equal. f_equal. apply map_eq. cbn [opt_all] in H. each H. apply (H1 (path ++ [n])).
    intros p f I. eapply O. cbn [all_functions]. apply in_flat_map. eauto.
Qed.

Section Result.
  Variables (types : list (string * scheme)) (ds : list decl) (m0 : meta) (variant : list ty -> N) (shuffle : nat -> list inst -> list inst).
  Hypothesis SO : source_ok types ds m0.
  Hypothesis OR : orders shuffle.
  Hypothesis SEP : separates variant types ds.
  Let keys := so_keys _ _ _ SO.
  Let dollars := so_types _ _ _ SO.
  Notation inv := (inv types ds m0 variant).
  Definition start : state := {| decls := ds; known := []; ftypes := types; metadata := m0 |}.
  Lemma inv_start : inv start [].
  Proof.
    split; cbn.
    - unfold source_at. rewrite app_nil_r. symmetry. apply map_same, Forall_forall. intros d _. apply map_decl_id; auto. intros r. unfold redir. destruct (wanted types r); auto.
    - constructor.
    - intros i [].
    - intros q args f m. split; [intros []|intros [[] _]].
    - constructor.
    - intros q args f m [].
    - apply minv_nil. apply (so_tables _ _ _ SO).
    - exists []. rewrite app_nil_r. split; auto. intros n sc. split; [intros []|intros [q [args [sc0 [[] _]]]]].
  Qed.
  (** The instances that are known after [k] rounds. *)
  Definition level (k : nat) (s : state) : Prop := forall i, In i (known s) <-> needed_in types ds k i.
  Lemma level_start : level 0 start.
  Proof. intros i. split; [intros []|]. intros H. inversion H. Qed.
  Lemma needed_in_more n i : needed_in types ds n i -> needed_in types ds (S n) i.
  Proof. induction 1; [eapply in_source|eapply in_copy]; eauto. Qed.
  Lemma needed_in_le n k i : n <= k -> needed_in types ds n i -> needed_in types ds k i.
  Proof. induction 1; auto. intros H1. apply needed_in_more; auto. Qed.
  Lemma needed_in_needed n i : needed_in types ds n i -> needed types ds i.
  Proof. induction 1; [eapply needed_source|eapply needed_copy]; eauto. Qed.
  Lemma needed_has_level i : needed types ds i -> exists n, needed_in types ds n i.
  Proof. induction 1 as [path f n r i I U A|q args f n r i N [k IH] F U A]; [exists 1; eapply in_source; eauto|exists (S k); eapply in_copy; eauto]. Qed.
  Lemma known_dec (K : list inst) i : In i K \/ ~ In i K.
  Proof. destruct (knows K i) eqn:E; [left; apply knows_in; auto|right; intros I; apply knows_in in I; congruence]. Qed.
  Lemma finds_level k s l i : inv s l -> level k s -> (In i (known s) \/ finds types ds (known s) l i) <-> needed_in types ds (S k) i.
  Proof.
    intros H L. split.
    - intros [I|[_ [[path [f [n [r [P [U A]]]]]]|[q [args [f [m [n [r [P [U A]]]]]]]]]]]; [apply needed_in_more, L; auto|eapply in_source; eauto|].
      apply (in_items _ _ _ _ _ _ H) in P as [K [F _]]. eapply in_copy; eauto. apply L; auto.
    - intros N. destruct (known_dec (known s) i) as [I|I]; auto. right. split; auto.
      inversion N as [n path f m r i' P U A|n q args f m r i' K F U A]; subst; [left; exists path, f, m, r; auto|]. right. apply L in K.
      pose proof (in_known _ _ _ _ _ _ H _ K) as [_ M]. cbn [fst snd] in M. destruct (mangle_name q args) as [k'|] eqn:E; [|congruence].
      exists q, args, f, k', m, r. split; auto. apply (in_items _ _ _ _ _ _ H). auto.
  Qed.
  Lemma round_known n s s' : round variant shuffle types n s = Some (Some s') ->
    known s' = known s ++ unseen (known s) (collect_instantiations types (callees (metadata s)) (decls s)) /\ unseen (known s) (collect_instantiations types (callees (metadata s)) (decls s)) <> [].
  Proof.
    unfold round. intros R. destruct (unseen (known s) (collect_instantiations types (callees (metadata s)) (decls s))) as [|i new] eqn:E; [discriminate|].
    apply obind_some in R as [g [_ R]]. apply obind_some in R as [m [_ R]]. apply obind_some in R as [rm [_ R]]. injection R as <-. split; [auto|discriminate].
  Qed.
  Lemma round_level n k s l s' : inv s l -> level k s -> round variant shuffle types n s = Some (Some s') -> level (S k) s' /\ exists i, needed_in types ds (S k) i /\ ~ needed_in types ds k i.
  Proof.
    intros H L R. apply round_known in R as [E NE].
    destruct (unseen_new (known s) (collect_instantiations types (callees (metadata s)) (decls s))) as [_ U]. split.
    - intros i. rewrite E, in_app_iff, U, <- (finds_level k s l i H L). rewrite (collected types ds m0 variant SO s l i H). split.
      + intros [I|[F _]]; auto.
      + intros [I|F]; auto. right. split; auto. apply F.
    - destruct (unseen _ _) as [|i new] eqn:Q; [congruence|]. assert (I : In i (i :: new)) by (cbn; auto). apply U in I as [I N]. exists i.
      split; [|intros X; apply L in X; auto]. apply (finds_level k s l i H L). right. apply (collected types ds m0 variant SO s l i H). auto.
  Qed.
  Lemma round_end n k s l : inv s l -> level k s -> round variant shuffle types n s = Some None -> forall i, needed types ds i -> needed_in types ds k i.
  Proof.
    intros H L R.
    assert (E : unseen (known s) (collect_instantiations types (callees (metadata s)) (decls s)) = []).
    { unfold round in R. destruct (unseen _ _) as [|i new]; auto. apply obind_some in R as [g [_ R]]. apply obind_some in R as [m [_ R]]. apply obind_some in R as [rm [_ R]]. discriminate. }
    destruct (unseen_new (known s) (collect_instantiations types (callees (metadata s)) (decls s))) as [_ U]. rewrite E in U.
    assert (NX : forall i, needed_in types ds (S k) i -> needed_in types ds k i).
    { intros i N. apply (finds_level k s l i H L) in N as [I|F]; [apply L; auto|]. exfalso. apply (U i). split; [apply (collected types ds m0 variant SO s l i H); auto|apply F]. }
    intros i N. apply needed_has_level in N as [n0 N]. induction n0 as [|n0 IH] in i, N |- *; [inversion N|]. apply NX.
    inversion N as [n' path f m r i' P UU A|n' q args f m r i' K F UU A]; subst; [eapply in_source; eauto|]. eapply in_copy; eauto.
  Qed.
  Lemma rounds_done fuel n k s l out : inv s l -> level k s -> rounds variant shuffle types fuel n s = Done out ->
    exists l' k', inv out l' /\ level k' out /\ (forall i, needed types ds i -> needed_in types ds k' i) /\ k' < k + fuel.
  Proof.
    revert n k s l. induction fuel as [|fuel IH]; intros n k s l H L D; cbn in D; [discriminate|].
    destruct (round variant shuffle types n s) as [[s'|]|] eqn:R; try discriminate.
    - destruct (round_step types ds m0 variant shuffle SO OR SEP n s l s' H R) as [it H']. destruct (round_level n k s l s' H L R) as [L' _].
      destruct (IH _ _ _ _ H' L' D) as [l' [k' [A [B [C E]]]]]. exists l', k'. split; auto. split; auto. split; auto. lia.
    - injection D as <-. exists l, k. split; auto. split; auto. split; [eapply round_end; eauto|lia].
  Qed.
  Lemma rounds_exceeded fuel n k s l : inv s l -> level k s -> rounds variant shuffle types (S fuel) n s = Exceeded -> exists i, needed_in types ds (S (k + fuel)) i /\ ~ needed_in types ds (k + fuel) i.
  Proof.
    revert n k s l. induction fuel as [|fuel IH]; intros n k s l H L D; cbn [rounds] in D; destruct (round variant shuffle types n s) as [[s'|]|] eqn:R; try discriminate.
    - rewrite Nat.add_0_r. apply (round_level n k s l s' H L R).
    - destruct (round_step types ds m0 variant shuffle SO OR SEP n s l s' H R) as [it H']. destruct (round_level n k s l s' H L R) as [L' _].
      replace (k + S fuel) with (S k + fuel) by lia. eapply IH; eauto.
  Qed.

  (** ** The theorem *)
  Lemma redirect_redirects : redirects types (redirect types).
  Proof.
    split; intros r.
    - intros i m A M. unfold redirect. apply (wanted_asks types keys) in A as ->. rewrite M. auto.
    - intros N. unfold redirect. apply (wanted_none types keys) in N as ->. auto.
  Qed.
  Lemma redir_all K r : (forall i, asks types r i -> In i K) -> redir types K r = redirect types r.
  Proof.
    intros N. unfold redir, redirect. destruct (wanted types r) as [i|] eqn:W; auto. apply (wanted_asks types keys) in W. rewrite (proj2 (knows_in K i) (N i W)). auto.
  Qed.
  Lemma done_inv s : monomorphize variant shuffle types ds m0 = Done s -> exists l k, inv s l /\ level k s /\ (forall i, needed types ds i -> needed_in types ds k i) /\ k < max_rounds.
  Proof. intros D. apply (rounds_done max_rounds 0 0 start []) in D; auto using inv_start, level_start. Qed.
  Definition copies_of (go : tref -> tref) (l : list item) : list decl := List.map (fun x : item => let '(q, args, f, m) := x in DFunction (copy_for variant go args m f)) l.
  Lemma result s l k : inv s l -> level k s -> (forall i, needed types ds i -> needed_in types ds k i) ->
    decls s = List.map (map_decl (fun i => i) (redirect types) (fun r => r)) ds ++ copies_of (redirect types) l /\
    (forall q args f m, In (q, args, f, m) l <-> needed types ds (q, args) /\ function_named ds q f /\ mangle_name q args = Some m) /\
    (forall i, needed types ds i -> mangle_name (fst i) (snd i) <> None).
  Proof.
    intros H L C. assert (KN : forall i, In i (known s) <-> needed types ds i) by (intros i; rewrite (L i); split; [apply needed_in_needed|auto]).
    split; [|split].
    - rewrite (in_decls _ _ _ _ _ _ H). unfold source_at, copies_of. f_equal.
      + apply map_eq, Forall_forall. intros d I. apply map_decl_ext with (path := []). intros p f J i r V. apply redir_all. intros j A. apply KN.
        eapply needed_source; [apply in_flat_map; eauto|apply visit_uses; eauto|auto].
      + apply map_eq, Forall_forall. intros [[[q args] f] m] I. f_equal. unfold copy, copy_for. cbn [fst snd]. f_equal.
        apply map_expr_ext; [|intros r _; auto]. intros i r V. apply redir_all. intros j A. apply KN.
        apply (in_items _ _ _ _ _ _ H) in I as [I [F _]]. eapply needed_copy; eauto; [apply KN; auto|apply visit_uses; eauto].
    - intros q args f m. rewrite (in_items _ _ _ _ _ _ H), KN. tauto.
    - intros i N. apply KN in N. apply (in_known _ _ _ _ _ _ H i N).
  Qed.
End Result.
