(** Inlining keeps modules valid and their calls the same. *)
From Coq Require Import Lia.
From Verif Require Export InlineVisit.
Local Open Scope N_scope.

Lemma lookup_app a b f : lookup (a ++ b) f = match lookup a f with Some x => Some x | None => lookup b f end.
Proof. unfold lookup. induction a as [|x a IH]; cbn; auto. destruct (name x =? f); auto. Qed.
Lemma lookup_cons x b f : lookup (x :: b) f = if name x =? f then Some x else lookup b f.
Proof. reflexivity. Qed.
Lemma lookup_none a f : ~ In f (map name a) -> lookup a f = None.
Proof. intros H. unfold lookup. destruct (find _ a) eqn:E; auto. apply find_some in E as [I E]. apply N.eqb_eq in E. destruct H. apply in_map_iff. eauto. Qed.
Lemma lookup_some_none a f x : lookup a f = Some x -> In f (map name a).
Proof. unfold lookup. intros H. apply find_some in H as [I E]. apply N.eqb_eq in E. apply in_map_iff. eauto. Qed.

Section Main.
  Variables (leaves : N -> bool) (rets : N -> nat).
  Notation valid := (valid leaves rets).
  Lemma func_step pick next done x todo next' c rg' : valid next (done ++ x :: todo) ->
    visit_regions (visit_region pick (done ++ x :: todo)) [] next (regions_of x) = (next', c, rg') ->
    let p' := done ++ {| name := name x; abi := abi x; regions_of := rg' |} :: todo in
    next <= next' /\ valid next' p' /\ forall f, body_emulated leaves (done ++ x :: todo) p' f.
  Proof.
    intros Hv E p'. pose proof Hv as [Dn Fv]. pose proof Fv as Fv0. apply Forall_app in Fv0 as [F1 F2]. inversion F2 as [|? ? Vx F3]; subst. pose proof Vx as [O S D A R En].
    destruct (visit_all leaves rets next (done ++ x :: todo) (name x) Hv pick) as (_ & VR & _).
    assert (Od : old next [] [] next (flat_map region_defs (regions_of x))).
    { split; auto. split; [intros y []|]. split; [intros y I; split; [auto|reflexivity]|]. split; [lia|intros y []]. }
    destruct (regions_visit leaves rets next (done ++ x :: todo) (name x) pick (regions_of x)) with (sub := @nil (N * N)) (vis := @nil N) (next := next) (next' := next') (c := c) (rg' := rg') as [(Nw1 & Nw2 & Nw3) Em]; auto.
    { apply Forall_forall. intros r _. apply VR. }
    change (graph [] []) with (@nil (N * N)) in Em.
    split; [exact Nw1|]. split.
    - split; [unfold p'; rewrite map_app in *; exact Dn|]. unfold p'. apply Forall_app. split; [eapply Forall_impl; [|exact F1]; intros; eapply valid_func_up; eauto|]. constructor; [|eapply Forall_impl; [|exact F3]; intros; eapply valid_func_up; eauto].
      constructor; cbn [regions_of name].
      + destruct O as [O|(ps & ops & O)]; rewrite O in Em; inversion Em; subst; auto. match goal with K : emu_regions _ _ _ [] _ |- _ => inversion K; subst end. right. eauto.
      + eapply emu_scoped; eauto.
      + exact Nw2.
      + intros y I. apply Nw3 in I as [I|I]; [apply A in I|]; lia.
      + eapply emu_arity; eauto.
      + intros ps' ops' Er. destruct O as [O|(ps & ops & O)]; rewrite O, Er in Em; inversion Em; subst. eapply emu_ends; eauto.
    - intros f. unfold body_emulated, body_of, p'. rewrite !lookup_app, !lookup_cons. cbn [name]. destruct (lookup done f) as [y|] eqn:Ed; [destruct (regions_of y); auto|].
      destruct (N.eqb_spec (name x) f) as [Ef|Ef]; [|destruct (lookup todo f) as [y|]; [destruct (regions_of y)|]; auto]. cbn [regions_of].
      destruct O as [O|(ps & ops & O)]; rewrite O in *; inversion Em; subst; auto. match goal with K : emu_regions _ _ _ [] _ |- _ => inversion K; subst end. right. exact Em.
  Qed.

  Section Calls.
    Context {V M : Type}.
    Variable act : N -> list V -> list (list V) -> M -> action V M.
    Variable fval : N -> V.
    Variable external : N -> list V -> M -> list V -> M -> Prop.
    Notation returns := (returns act leaves fval external).
    Definition same_module (p p' : list func) : Prop :=
      map name p = map name p' /\ map abi p = map abi p' /\ forall f vs m ws m', returns p f vs m ws m' <-> returns p' f vs m ws m'.
    Lemma same_refl p : same_module p p.
    Proof. repeat split; auto. Qed.
    Lemma same_trans p p' p'' : same_module p p' -> same_module p' p'' -> same_module p p''.
    Proof. intros (A1 & A2 & A3) (B1 & B2 & B3). split; [congruence|]. split; [congruence|]. intros. rewrite A3. apply B3. Qed.
    Lemma funcs_step pick todo : forall next done next' c p', valid next (done ++ todo) -> visit_funcs pick next done todo = (next', c, p') -> next <= next' /\ valid next' p' /\ same_module (done ++ todo) p'.
    Proof.
      induction todo as [|x todo IH]; intros next done next' c p' Hv E; cbn [visit_funcs] in E.
      - injection E as <- <- <-. rewrite app_nil_r in *. split; [lia|]. split; auto. apply same_refl.
      - destruct (visit_regions (visit_region (pick (done ++ x :: todo)) (done ++ x :: todo)) [] next (regions_of x)) as [[n1 c1] rg1] eqn:E1.
        destruct (visit_funcs pick n1 (done ++ [{| name := name x; abi := abi x; regions_of := rg1 |}]) todo) as [[n2 c2] p2] eqn:E2. injection E as <- <- <-.
        destruct (func_step _ _ _ _ _ _ _ _ Hv E1) as (L & V1 & B). apply IH in E2 as (L2 & V2 & S2); [|rewrite <- app_assoc; exact V1]. split; [lia|]. split; auto. eapply same_trans; [|exact S2]. rewrite <- app_assoc. cbn [app].
        split; [rewrite !map_app; reflexivity|]. split; [rewrite !map_app; reflexivity|]. apply same_calls. exact B.
    Qed.
    Lemma inline_step cfg fuel : forall next p next' c p', valid next p -> inline_functions cfg fuel next p = Some (next', c, p') -> next <= next' /\ valid next' p' /\ same_module p p'.
    Proof.
      induction fuel as [|fuel IH]; intros next p next' c p' Hv E; cbn [inline_functions] in E; [discriminate|]. destruct (recursive_in p) as [recursive|]; [|discriminate].
      destruct (visit_funcs (should_inline cfg p recursive) next [] p) as [[n1 c1] p1] eqn:E1. apply funcs_step in E1 as (L & V1 & S1); [|exact Hv]. cbn [app] in S1. destruct c1 as [|c1]; [injection E as <- <- <-; auto|].
      destruct (inline_functions cfg fuel n1 p1) as [[[n2 c2] p2]|] eqn:E2; [|discriminate]. injection E as <- <- <-. apply IH in E2 as (L2 & V2 & S2); auto. split; [lia|]. split; auto. eapply same_trans; eauto.
    Qed.
  End Calls.
End Main.
