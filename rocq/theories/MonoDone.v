(** What the result means: references, tables, types, names. *)
From Verif Require Export MonoOrder.
From Verif Require Import SubstProofs MangleProofs.
From Coq Require Import Lia.
Local Open Scope list_scope.

Lemma fits_self t : fits TBound t t.
Proof.
  induction t as [p|i|sc i|i|d n args IH|ps r e k IHp IHr IHe|xs IH|h xs IHc IH|a r e IHa IHr IHe|] using ty_induct; constructor; auto.
  - induction IH; constructor; auto.
  - induction IHp; constructor; auto.
  - induction IH; constructor; auto.
Qed.
(** What fits a scheme is like its instance. *)
Lemma fits_alike f s c : first_order s -> fits f s c -> fits TBound (plug f s) c.
Proof.
  assert (L : forall ss, Forall (fun s => forall c, first_order s -> fits f s c -> fits TBound (plug f s) c) ss -> Forall first_order ss -> forall cs, Forall2 (fits f) ss cs -> Forall2 (fits TBound) (List.map (plug f) ss) cs).
  { induction 1; intros O cs F; inversion F; subst; cbn; constructor; inversion O; auto. }
  revert c. induction s as [p|i|sc i|i|d n args IH|ps r e k IHp IHr IHe|xs IH|h xs IHc IH|a r e IHa IHr IHe|] using ty_induct; intros c O F; inversion F; subst; cbn [plug];
    try (constructor; fail); try (destruct O; fail); try apply fits_self; cbn [first_order] in O; try destruct O as [O O2]; apply first_order_list in O; constructor; auto.
Qed.

Section Done.
  Variables (types : list (string * scheme)) (ds : list decl) (m0 : meta) (variant : list ty -> N) (shuffle : nat -> list inst -> list inst) (s : state).
  Hypothesis SO : source_ok types ds m0.
  Hypothesis OR : orders shuffle.
  Hypothesis SEP : separates variant types ds.
  Hypothesis DONE : monomorphize variant shuffle types ds m0 = Done s.
  Lemma done_copies : exists go copies, redirects types go /\
    decls s = List.map (map_decl (fun i => i) go (fun r => r)) ds ++ List.map (fun x => let '(q, args, f, m) := x in DFunction (copy_for variant go args m f)) copies /\
    (forall q args f m, In (q, args, f, m) copies <-> needed types ds (q, args) /\ function_named ds q f /\ mangle_name q args = Some m) /\
    NoDup (List.map (fun x => fst (fst x)) copies) /\ (forall q args, needed types ds (q, args) -> mangle_name q args <> None).
  Proof.
    destruct (done_inv types ds m0 variant shuffle SO OR SEP s DONE) as [l [k [H [L [C _]]]]]. destruct (result types ds m0 variant SO s l k H L C) as [D [I M]].
    exists (redirect types), l. split; [eapply redirect_redirects; eauto|]. split; [exact D|]. split; [exact I|]. split; [apply (in_once _ _ _ _ _ _ H)|]. intros q args N. apply (M _ N).
  Qed.
  Lemma done_tables :
    (forall b, lookup (node_types (metadata s)) (b, None) = lookup (node_types m0) (b, None) /\ lookup (callees (metadata s)) (b, None) = lookup (callees m0) (b, None) /\
      lookup (handlers (metadata s)) (b, None) = lookup (handlers m0) (b, None) /\ lookup (performs (metadata s)) (b, None) = lookup (performs m0) (b, None) /\
      lookup (lambdas (metadata s)) (b, None) = lookup (lambdas m0) (b, None) /\ (In (b, None) (exhaustive (metadata s)) <-> In (b, None) (exhaustive m0))) /\
    (forall q args f b, needed types ds (q, args) -> function_named ds q f -> func_node (b, None) f ->
      lookup (node_types (metadata s)) (b, Some (variant args)) = option_map (fill_in args) (lookup (node_types m0) (b, None)) /\
      lookup (callees (metadata s)) (b, Some (variant args)) = option_map (fill_in args) (lookup (callees m0) (b, None)) /\
      lookup (handlers (metadata s)) (b, Some (variant args)) = option_map (op_at args) (lookup (handlers m0) (b, None)) /\
      lookup (performs (metadata s)) (b, Some (variant args)) = option_map (op_at args) (lookup (performs m0) (b, None)) /\
      lookup (lambdas (metadata s)) (b, Some (variant args)) = option_map (lambda_at args) (lookup (lambdas m0) (b, None)) /\
      (In (b, Some (variant args)) (exhaustive (metadata s)) <-> In (b, None) (exhaustive m0))).
  Proof.
    destruct (done_inv types ds m0 variant shuffle SO OR SEP s DONE) as [l [k [H [L [C _]]]]]. destruct (result types ds m0 variant SO s l k H L C) as [_ [I M]].
    pose proof (in_meta _ _ _ _ _ _ H) as MI. split.
    - intros b. destruct MI as [[N1 _ _] [C1 _ _] [H1 _ _] [P1 _ _] [L1 _ _] E _]. rewrite N1, C1, H1, P1, L1. repeat split; auto; intros X.
      + apply E in X as [[_ X]|[a [o [_ [X _]]]]]; [auto|discriminate].
      + apply E. auto.
    - intros q args f b N F FN. pose proof (M _ N) as MN. cbn [fst snd] in MN. destruct (mangle_name q args) as [m|] eqn:E; [|congruence].
      eapply copied_entries; eauto; [|apply ids_node; eauto]. apply in_map_iff. exists (q, args, f, m). split; auto. apply I; auto.
  Qed.
  Lemma done_types : exists new, ftypes s = types ++ new /\ forall n sc, In (n, sc) new <-> exists q args sc0,
    needed types ds (q, args) /\ ((exists f, function_named ds q f) \/ extern_named ds q) /\ In (q, sc0) types /\ mangle_name q args = Some n /\
    sc = {| sc_params := 0; sc_rows := sc_rows sc0; sc_body := fill_in args (sc_body sc0) |}.
  Proof.
    destruct (done_inv types ds m0 variant shuffle SO OR SEP s DONE) as [l [k [H [L [C _]]]]]. destruct (in_types _ _ _ _ _ _ H) as [new [E I]]. exists new. split; auto.
    intros n sc. rewrite I. split; intros [q [args [sc0 [K X]]]]; exists q, args, sc0; (split; [|exact X]).
    - apply needed_in_needed with (n := k). apply L; auto.
    - apply L. auto.
  Qed.
  (** Nothing asks for an instance any more. *)
  Lemma done_settled path f n r i : In (path, f) (source_functions (decls s)) -> uses (f_body f) n r -> ~ asks types r i.
  Proof.
    destruct (done_inv types ds m0 variant shuffle SO OR SEP s DONE) as [l [k [H [L [C _]]]]]. destruct (result types ds m0 variant SO s l k H L C) as [D [I M]].
    assert (S : forall r0, (forall j, asks types r0 j -> needed types ds j) -> ~ asks types (redirect types r0) i).
    { intros r0 N A. unfold redirect in A. destruct (wanted types r0) as [j|] eqn:W.
      - pose proof (proj1 (wanted_asks types (so_keys _ _ _ SO) r0 j) W) as AJ. pose proof (M j (N j AJ)) as MJ. destruct (mangle_name (fst j) (snd j)) as [m|] eqn:E; [|congruence].
        apply (wanted_asks types (so_keys _ _ _ SO)) in A. rewrite wanted_copy in A; [discriminate|apply (so_keys _ _ _ SO)|apply (so_types _ _ _ SO)|]. eapply mangled_dollar; eauto. eapply asks_args; eauto.
      - apply (wanted_none types (so_keys _ _ _ SO)) with (i := i) in W. auto. }
    intros J U. unfold source_functions in J. rewrite D, flat_map_app, in_app_iff in J. apply visit_uses in U. destruct J as [J|J]; apply in_flat_map in J as [d [J K]].
    - apply in_map_iff in J as [d0 [<- J]]. rewrite all_functions_map in K. apply in_map_iff in K as [[p g] [[= <- <-] K]]. cbn [map_func f_body] in U. rewrite visit_map in U.
      apply in_map_iff in U as [[n0 r0] [[= <- <-] U]]. apply S. intros j A. eapply needed_source; [apply in_flat_map; eauto|apply visit_uses; eauto|auto].
    - unfold copies_of in J. apply in_map_iff in J as [[[[q args] g] m] [<- J]]. cbn in K. destruct K as [[= <- <-]|[]]. cbn [copy_for f_body] in U. rewrite visit_map in U.
      apply in_map_iff in U as [[n0 r0] [[= <- <-] U]]. apply S. intros j A. apply I in J as [N [F _]]. eapply needed_copy; eauto. apply visit_uses; eauto.
  Qed.
  (** What is asked for is there. *)
  Lemma done_reached : (forall i j m, needed types ds i -> needed types ds j -> mangle_name (fst i) (snd i) = Some m -> mangle_name (fst j) (snd j) = Some m -> i = j) ->
    exists go, redirects types go /\ forall r q args f, asks types r (q, args) -> needed types ds (q, args) -> function_named ds q f ->
    exists m sc, mangle_name q args = Some m /\ target (go r) = RFunction m /\ function_named (decls s) m (copy_for variant go args m f) /\ In (q, sc) types /\
      In (m, {| sc_params := 0; sc_rows := sc_rows sc; sc_body := fill_in args (sc_body sc) |}) (ftypes s) /\ fits TBound (fill_in args (sc_body sc)) (rty (go r)).
  Proof.
    intros NAMES. destruct (done_inv types ds m0 variant shuffle SO OR SEP s DONE) as [l [k [H [L [C _]]]]]. destruct (result types ds m0 variant SO s l k H L C) as [D [I M]].
    assert (GO : redirects types (redirect types)) by (eapply redirect_redirects; eauto).
    exists (redirect types). split; auto. intros r q args f A N F.
    pose proof (M _ N) as MN. cbn [fst snd] in MN. destruct (mangle_name q args) as [m|] eqn:E; [|congruence].
    pose proof A as [T [sc [IS [AR G]]]]. cbn [fst snd] in *. exists m, sc. split; auto.
    assert (GR : redirect types r = {| target := RFunction m; rty := rty r |}).
    { destruct GO as [GO _]. apply (GO r (q, args) m); auto. }
    rewrite GR. split; auto.
    assert (J : In (q, args, f, m) l) by (apply I; auto).
    split; [|split; auto; split].
    - assert (ND : ~ no_dollar m). { eapply mangled_dollar; [|exact E]. destruct AR as [P [LN _]]. intros ->. cbn in LN. congruence. }
      apply in_split in J as [l1 [l2 EL]]. exists (source_functions (List.map (map_decl (fun i => i) (redirect types) (fun r => r)) ds) ++ source_functions (copies_of variant (redirect types) l1)), [m],
        (source_functions (copies_of variant (redirect types) l2)). split.
      + rewrite D, EL. unfold source_functions, copies_of. rewrite map_app, !flat_map_app. rewrite <- app_assoc. auto.
      + split; auto. intros p g K. unfold source_functions, copies_of in K. apply in_flat_map in K as [d [K Q]]. apply in_map_iff in K as [[[[q' args'] f'] m'] [<- K]]. cbn in Q.
        destruct Q as [[= <- _]|[]]. cbn. intros ->. assert (J : In (q', args', f', m) l) by (rewrite EL; apply in_or_app; cbn; auto). apply I in J as [N' [_ E']].
        pose proof (NAMES (q', args') (q, args) m N' N E' E) as EQ. injection EQ as -> ->.
        pose proof (in_once _ _ _ _ _ _ H) as ONCE. rewrite EL, map_app in ONCE. cbn in ONCE. apply NoDup_remove_2 in ONCE. apply ONCE, in_or_app. right. apply in_map_iff. exists (q, args, f', m). auto.
    - destruct done_types as [new [-> IT]]. apply in_or_app. right. apply IT. exists q, args, sc. repeat split; auto. left. eauto.
    - cbn [rty]. apply fits_alike; [eapply (so_first_order _ _ _ SO); eauto|apply AR].
  Qed.
End Done.
(** Names of instances over plain types. *)
Lemma names_distinct types ds m0 tdecl : source_ok types ds m0 -> (forall q args, needed types ds (q, args) -> Forall (plain tdecl) args) ->
  forall i j m, needed types ds i -> needed types ds j -> mangle_name (fst i) (snd i) = Some m -> mangle_name (fst j) (snd j) = Some m -> i = j.
Proof.
  intros SO P [q a] [p b] m N1 N2 E1 E2. cbn [fst snd] in *.
  destruct (needed_plain types ds m0 SO _ _ N1) as [D1 _]. destruct (needed_plain types ds m0 SO _ _ N2) as [D2 _].
  destruct (mangle_plain_inj tdecl q a p b D1 D2 (P _ _ N1) (P _ _ N2)) as [-> ->]; congruence.
Qed.
Lemma done_depth types ds m0 variant shuffle s : source_ok types ds m0 -> orders shuffle -> separates variant types ds -> monomorphize variant shuffle types ds m0 = Done s ->
  forall i, needed types ds i -> needed_in types ds 63 i.
Proof.
  intros SO OR SEP D i N. destruct (done_inv types ds m0 variant shuffle SO OR SEP s D) as [l [k [_ [_ [C K]]]]]. apply (needed_in_le types ds k 63); auto. unfold max_rounds in K. lia.
Qed.
