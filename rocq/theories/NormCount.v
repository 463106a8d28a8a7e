(** How many temporaries the normaliser creates. *)
From Coq Require Import List NArith Bool Lia.
From Verif Require Import Base NormModel NormSpec NormProofs.
Import ListNotations.
Open Scope N_scope.

Definition few (e : expr) : Prop := forall n, snd (norm e n) + 1 <= n + nodes e.

Lemma few_eq e n e' n' : few e -> norm e n = (e', n') -> n' + 1 <= n + nodes e.
Proof. intros H E. specialize (H n). rewrite E in H. exact H. Qed.

Lemma to_atom_few e n ss a n' : few e -> to_atom (norm e) n = (ss, a, n') ->
  n' <= n + nodes e.
Proof.
  unfold to_atom. intros H E. destruct (norm e n) as [e' n1] eqn:E1.
  apply few_eq in E1; auto. destruct (split e') as [p v].
  destruct (is_atom v); inv E; lia.
Qed.

Lemma to_atoms_few es : Forall few es -> forall n ss l n',
  to_atoms (map norm es) n = (ss, l, n') -> n' <= n + total (map nodes es).
Proof.
  induction 1 as [|e es He H IH]; cbn [map to_atoms total fold_right]; intros n ss l n' E.
  - inv E. lia.
  - destruct (to_atom (norm e) n) as [[ss1 a] n1] eqn:E1.
    destruct (to_atoms (map norm es) n1) as [[ss2 l2] n2] eqn:E2. inv E.
    apply to_atom_few in E1; auto. apply IH in E2. unfold total in E2. lia.
Qed.

Lemma norm_few e : few e.
Proof.
  induction e using expr_ind'; intros n; cbn [norm nodes].
  - cbn [snd]. lia.
  - cbn [snd]. lia.
  - destruct (to_atom (norm e) n) as [[ss1 a] n1] eqn:E1.
    destruct (to_atoms (map norm args) n1) as [[ss2 l] n2] eqn:E2.
    apply to_atom_few in E1; auto. apply to_atoms_few in E2; auto. cbn [snd]. lia.
  - destruct (to_atoms (map norm args) n) as [[ss2 l] n2] eqn:E2.
    apply to_atoms_few in E2; auto. cbn [snd]. lia.
  - destruct (to_atoms (map norm args) n) as [[ss2 l] n2] eqn:E2.
    apply to_atoms_few in E2; auto. cbn [snd]. lia.
  - destruct (to_atoms (map norm args) n) as [[ss2 l] n2] eqn:E2.
    apply to_atoms_few in E2; auto. cbn [snd]. lia.
  - destruct (to_atom_opt (option_map norm s) n) as [[ss1 a] n1] eqn:E1.
    destruct (to_atoms (map (fun f => norm (snd f)) fs) n1) as [[ss2 l] n2] eqn:E2.
    rewrite <- (map_map snd norm) in E2. apply to_atoms_few in E2.
    2: { clear - H0. induction H0; cbn; constructor; auto. }
    rewrite (map_map snd nodes) in E2.
    assert (n1 <= n + match s with Some s => nodes s | None => 0 end).
    { destruct s as [s|]; cbn in E1; [|inv E1; lia].
      destruct (to_atom (norm s) n) as [[ss0 a0] n0] eqn:E0. inv E1.
      apply to_atom_few in E0; auto. }
    cbn [snd]. lia.
  - destruct (to_atom (norm e) n) as [[ss1 a] n1] eqn:E1.
    destruct (to_atoms (map norm args) n1) as [[ss2 l] n2] eqn:E2.
    apply to_atom_few in E1; auto. apply to_atoms_few in E2; auto. cbn [snd]. lia.
  - destruct (norm_stmts (map (map_stmt norm) ss) n) as [ss1 n1] eqn:E1.
    destruct (norm e n1) as [v' n2] eqn:E2. destruct (split v') as [ss' w].
    apply few_eq in E2; auto. cbn [snd].
    assert (n1 <= n + total (map (fun s => match s with
                               | SLet _ w => nodes w
                               | SExpr w => nodes w
                               end) ss)); [|lia].
    clear - H E1. revert n ss1 n1 E1.
    induction H as [|[p x|x] ss Hx H IH]; cbn [map map_stmt norm_stmts total fold_right];
      intros n ss1 n1 E.
    + inv E. lia.
    + destruct (norm x n) as [x' m] eqn:Ex. destruct (split x') as [s1 v1] eqn:Es.
      destruct (norm_stmts (map (map_stmt norm) ss) m) eqn:Er. inv E.
      apply few_eq in Ex; auto. apply IH in Er. unfold total in Er. lia.
    + destruct (norm x n) as [x' m] eqn:Ex. destruct (split x') as [s1 v1] eqn:Es.
      destruct (norm_stmts (map (map_stmt norm) ss) m) eqn:Er. inv E.
      apply few_eq in Ex; auto. apply IH in Er. unfold total in Er. lia.
  - destruct (to_atom (norm e) n) as [[ss1 a] n1] eqn:E1.
    destruct (norm_arms (map (map_arm norm) arms) n1) as [l n2] eqn:E2.
    apply to_atom_few in E1; auto. cbn [snd].
    assert (n2 <= n1 + total (map (fun a => match a with
                                 | mkArm _ g b =>
                                     match g with Some g => nodes g | None => 0 end
                                     + nodes b
                                 end) arms)); [|lia].
    clear - H E2. revert n1 l n2 E2.
    induction H as [|[p g b] arms [Hg Hb] H IH];
      cbn [map map_arm norm_arms total fold_right]; intros n l n' E.
    + inv E. lia.
    + lazymatch type of E with
      | (let (_, _) := ?x in _) = _ => destruct x as [g' n1] eqn:Eg
      end.
      destruct (norm b n1) as [b' n2] eqn:Eb.
      destruct (norm_arms (map (map_arm norm) arms) n2) as [l2 n3] eqn:El. inv E.
      apply IH in El. unfold total in El. apply few_eq in Eb; auto.
      assert (n1 <= n + match g with Some g => nodes g | None => 0 end); [|lia].
      destruct g as [g|]; cbn in Eg; [|inv Eg; lia].
      destruct (norm g n) as [e0 n0] eqn:E0. inv Eg. apply few_eq in E0; auto. lia.
  - destruct (norm e n) as [b' n1] eqn:E1. apply few_eq in E1; auto. cbn [snd]. lia.
  - destruct (norm e n) as [b' n1] eqn:E1.
    destruct (norm_handlers (map (map_harm norm) hs) n1) as [l n2] eqn:E2.
    apply few_eq in E1; auto. cbn [snd].
    assert (n2 <= n1 + total (map (fun h => match h with mkHarm _ b => nodes b end) hs));
      [|lia].
    clear - H E2. revert n1 l n2 E2.
    induction H as [|[k b] hs Hb H IH];
      cbn [map map_harm norm_handlers total fold_right]; intros n l n' E.
    + inv E. lia.
    + destruct (norm b n) as [b' n2] eqn:Eb.
      destruct (norm_handlers (map (map_harm norm) hs) n2) as [l2 n3] eqn:El. inv E.
      apply IH in El. unfold total in El. apply few_eq in Eb; auto. lia.
  - destruct (to_atom (norm e) n) as [[ss1 a] n1] eqn:E1.
    apply to_atom_few in E1; auto. cbn [snd]. lia.
  - destruct (to_atom (norm e1) n) as [[ss1 a] n1] eqn:E1.
    destruct (norm e2 n1) as [r' n2] eqn:E2.
    apply to_atom_few in E1; auto. apply few_eq in E2; auto. cbn [snd]. lia.
  - cbn [snd]. lia.
Qed.

Lemma normalize_succeeds n e : n + nodes e <= unresolved_id ->
  exists e' n', normalize_for_cps n e = Some (e', n').
Proof.
  intros H. unfold normalize_for_cps. destruct (norm e n) as [e' n'] eqn:E.
  pose proof (few_eq _ _ _ _ (norm_few e) E) as F.
  exists e', n'. destruct (n' <=? unresolved_id) eqn:B; auto.
  apply N.leb_gt in B. lia.
Qed.
