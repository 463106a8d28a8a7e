From Verif Require Import SigHelpSpec.

Section NodeInd.
  Variable P : node -> Prop.
  Hypothesis HN : forall k s e cs, Forall (fun c => P (snd c)) cs -> P (Node k s e cs).
  Fixpoint node_ind' (n : node) : P n :=
    match n with
    | Node k s e cs => HN k s e cs ((fix all (cs : list (option field * node)) : Forall (fun c => P (snd c)) cs :=
        match cs with [] => Forall_nil _ | c :: cs' => Forall_cons c (node_ind' (snd c)) (all cs') end) cs)
    end.
End NodeInd.

Lemma enters_spec o n : enters o n = true <-> covers o n.
Proof. unfold enters, covers. rewrite andb_true_iff, Nat.leb_le, Nat.ltb_lt. reflexivity. Qed.

(** The child that is entered. *)
Fixpoint entered (o : nat) (cs : list (option field * node)) : option node :=
  match cs with [] => None | (_, c) :: cs' => if enters o c then Some c else entered o cs' end.
Lemma upward_eq o k s e cs : upward o (Node k s e cs) = match entered o cs with Some c => upward o c | None => [] end ++ [Node k s e cs].
Proof.
  cbn [upward]. f_equal. induction cs as [|[f c] cs IH]; [reflexivity|]. cbn [entered]. destruct (enters o c); [reflexivity|exact IH].
Qed.
Lemma entered_in o cs c : entered o cs = Some c -> covers o c /\ exists f, In (f, c) cs.
Proof.
  induction cs as [|[f x] cs IH]; cbn [entered]; [discriminate|]. destruct (enters o x) eqn:E.
  - intros K. injection K as <-. split; [apply enters_spec, E|exists f; cbn; auto].
  - intros K. destruct (IH K) as [C [g I]]. split; [exact C|exists g; cbn; auto].
Qed.
Lemma order_after s e cs : in_order s e cs -> forall f c, In (f, c) cs -> s <= start_byte c /\ start_byte c <= end_byte c /\ end_byte c <= e.
Proof.
  revert s. induction cs as [|[g x] cs IH]; intros s O f c I; [destruct I|]. cbn [in_order] in O. destruct O as (A & B & O).
  assert (T : end_byte x <= e). { clear - O. revert O. generalize (end_byte x). induction cs as [|[g y] cs IH]; intros m O; cbn [in_order] in O; [exact O|]. destruct O as (A & B & O). apply IH in O. lia. }
  destruct I as [E|I]; [injection E as <- <-; auto|]. destruct (IH _ O f c I) as (X & Y & Z). repeat split; lia.
Qed.
Lemma entered_only o s e cs : in_order s e cs -> forall f c, In (f, c) cs -> covers o c -> entered o cs = Some c.
Proof.
  revert s. induction cs as [|[g x] cs IH]; intros s O f c I C; [destruct I|]. cbn [in_order entered] in *. destruct O as (A & B & O).
  destruct I as [E|I].
  - injection E as <- <-. apply enters_spec in C. rewrite C. reflexivity.
  - pose proof (order_after _ _ _ O f c I) as (X & _). destruct (enters o x) eqn:K.
    + apply enters_spec in K. unfold covers in *. lia.
    + exact (IH _ O f c I C).
Qed.

Lemma below_formed n d : below n d -> formed n -> formed d /\ start_byte n <= start_byte d /\ end_byte d <= end_byte n.
Proof.
  induction 1 as [n f c I|n f c d I B IH]; intros F; destruct F as [k s e cs O Fc]; cbn [children] in I; destruct (order_after _ _ _ O f c I) as (X & Y & Z).
  - split; [exact (Fc f c I)|]. cbn. lia.
  - destruct (IH (Fc f c I)) as (A & B1 & B2). split; [exact A|]. cbn. lia.
Qed.
Lemma find_snoc {A} (p : A -> bool) l x : find p (l ++ [x]) = match find p l with Some y => Some y | None => if p x then Some x else None end.
Proof. induction l as [|y l IH]; cbn [app find]; [reflexivity|]. destruct (p y); [reflexivity|exact IH]. Qed.
Lemma is_call_spec n : is_call n = true <-> node_kind n = CallExpression.
Proof. unfold is_call. destruct (node_kind n); split; congruence. Qed.

(** Calls found are below the root or the root itself; calls not found do not exist. *)
Lemma find_up o root : formed root -> match find is_call (upward o root) with
  | Some n => (n = root \/ (below root n /\ covers o n)) /\ node_kind n = CallExpression /\ forall d, below n d -> node_kind d = CallExpression -> ~ covers o d
  | None => node_kind root <> CallExpression /\ forall d, below root d -> node_kind d = CallExpression -> ~ covers o d
  end.
Proof.
  induction root as [k s e cs IH] using node_ind'. intros F. rewrite upward_eq, find_snoc. inversion F as [? ? ? ? O Fc]; subst.
  assert (Down : forall d, below (Node k s e cs) d -> covers o d -> exists f c, In (f, c) cs /\ covers o c /\ (d = c \/ below c d)).
  { intros d B C. inversion B as [? f c I|? f c ? I Bc]; subst; cbn [children] in I; [exists f, d; auto|].
    exists f, c. split; [exact I|]. split; [|auto]. destruct (below_formed c d Bc (Fc f c I)) as (_ & X & Y). unfold covers in *. lia. }
  destruct (entered o cs) as [c|] eqn:E.
  - destruct (entered_in _ _ _ E) as [C [f I]]. rewrite Forall_forall in IH. specialize (IH (f, c) I (Fc f c I)). cbn [snd] in IH.
    assert (One : forall d, below (Node k s e cs) d -> covers o d -> d = c \/ below c d).
    { intros d B Cd. destruct (Down d B Cd) as (g & c' & I' & C' & K). rewrite (entered_only o s e cs O g c' I' C') in E. injection E as <-. exact K. }
    destruct (find is_call (upward o c)) as [n|].
    + destruct IH as (K & Kn & Kd). split; [|auto]. right. destruct K as [-> |[B Cn]]; [split; [eapply BChild; cbn; eauto|exact C]|split; [eapply BDeep; cbn; eauto|exact Cn]].
    + destruct IH as (Kc & Kd).
      assert (No : forall d, below (Node k s e cs) d -> node_kind d = CallExpression -> ~ covers o d).
      { intros d B Kk Cd. destruct (One d B Cd) as [-> |B']; [contradiction|]. exact (Kd d B' Kk Cd). }
      destruct (is_call (Node k s e cs)) eqn:Q.
      * split; [auto|]. split; [apply is_call_spec, Q|exact No].
      * split; [|exact No]. intros K. apply is_call_spec in K. congruence.
  - assert (No : forall d, below (Node k s e cs) d -> node_kind d = CallExpression -> ~ covers o d).
    { intros d B Kk Cd. destruct (Down d B Cd) as (g & c' & I' & C' & K). rewrite (entered_only o s e cs O g c' I' C') in E. discriminate. }
    cbn [find]. destruct (is_call (Node k s e cs)) eqn:Q.
    * split; [auto|]. split; [apply is_call_spec, Q|exact No].
    * split; [|exact No]. intros K. apply is_call_spec in K. congruence.
Qed.

(** Nested nodes around the cursor are on one path. *)
Lemma comparable o root : formed root -> forall a b, below root a -> below root b -> covers o a -> covers o b -> a = b \/ below a b \/ below b a.
Proof.
  induction root as [k s e cs IH] using node_ind'. intros F a b A B Ca Cb. inversion F as [? ? ? ? O Fc]; subst.
  assert (Down : forall d, below (Node k s e cs) d -> covers o d -> exists f c, In (f, c) cs /\ covers o c /\ (d = c \/ below c d)).
  { intros d Bd C. inversion Bd as [? f c I|? f c ? I Bc]; subst; cbn [children] in I; [exists f, d; auto|].
    exists f, c. split; [exact I|]. split; [|auto]. destruct (below_formed c d Bc (Fc f c I)) as (_ & X & Y). unfold covers in *. lia. }
  destruct (Down a A Ca) as (f & c & I & C & Ka), (Down b B Cb) as (g & c' & I' & C' & Kb).
  pose proof (entered_only o s e cs O f c I C) as E1. pose proof (entered_only o s e cs O g c' I' C') as E2. rewrite E1 in E2. injection E2 as <-.
  destruct Ka as [-> |Ka], Kb as [-> |Kb]; auto. rewrite Forall_forall in IH. exact (IH (f, c) I (Fc f c I) a b Ka Kb Ca Cb).
Qed.
Lemma below_trans a b c : below a b -> below b c -> below a c.
Proof. induction 1 as [n f x I|n f x d I B IH]; intros K; [eapply BDeep; eauto|]. eapply BDeep; eauto. Qed.
Lemma innermost_unique root o a b : formed root -> innermost_call root o a -> innermost_call root o b -> a = b.
Proof.
  intros F (A1 & A2 & A3 & A4) (B1 & B2 & B3 & B4). destruct (comparable o root F a b A1 B1 A3 B3) as [-> |[K|K]]; [reflexivity| |].
  - destruct (A4 b K B2 B3).
  - destruct (B4 a K A2 A3).
Qed.

Lemma field_spec f g : field_eqb f g = true <-> f = g.
Proof. destruct f, g; cbn; try (split; congruence). rewrite Nat.eqb_eq. split; congruence. Qed.
Lemma child_the n f c : the_child n f c -> child_by_field_name n f = Some c.
Proof.
  intros [I U]. unfold child_by_field_name. destruct (find _ (children n)) as [[g x]|] eqn:E.
  - apply find_some in E as [J K]. cbn [fst] in K. destruct g as [g|]; [|discriminate]. apply field_spec in K. subst g. cbn. f_equal. apply U, J.
  - exfalso. pose proof (find_none _ _ E _ I) as K. cbn in K. assert (field_eqb f f = true) by (apply field_spec; reflexivity). congruence.
Qed.

Lemma count_spec s e cs o : in_order s e cs -> visible cs -> count_commas cs o = commas_until o cs.
Proof.
  revert s. induction cs as [|[f c] cs IH]; intros s O V; [reflexivity|]. cbn [count_commas]. pose proof O as O0. cbn [in_order] in O. destruct O as (A & B & O).
  assert (V' : visible cs) by (intros g d I; apply (V g d); cbn; auto).
  destruct (Nat.leb_spec o (start_byte c)) as [L|L].
  - symmetry. unfold commas_until. assert (Z : filter (fun c => match node_kind (snd c) with Comma => end_byte (snd c) <=? o | _ => false end) ((f, c) :: cs) = []); [|rewrite Z; reflexivity].
    assert (All : forall g d, In (g, d) ((f, c) :: cs) -> node_kind d = Comma -> o < end_byte d).
    { intros g d I K. pose proof (V g d I K). destruct I as [E|I]; [injection E as <- <-; lia|]. pose proof (order_after _ _ _ O g d I). lia. }
    clear - All. induction ((f, c) :: cs) as [|[g d] l IHl]; [reflexivity|]. cbn [filter snd].
    destruct (node_kind d) eqn:K; try (apply IHl; intros; eapply All; cbn; eauto).
    pose proof (All g d (or_introl eq_refl) K) as Q. destruct (Nat.leb_spec (end_byte d) o); [lia|]. apply IHl. intros; eapply All; cbn; eauto.
  - unfold commas_until. cbn [filter snd]. rewrite (IH _ O V'). unfold commas_until. destruct (node_kind c); try reflexivity. destruct (end_byte c <=? o); reflexivity.
Qed.
Lemma commas_in_argument s e pre f x post o : in_order s e (pre ++ (f, x) :: post) -> visible (pre ++ (f, x) :: post) -> node_kind x <> Comma ->
  start_byte x <= o <= end_byte x -> commas_until o (pre ++ (f, x) :: post) = commas pre.
Proof.
  intros O V K L. unfold commas_until, commas. rewrite filter_app, app_length. cbn [filter snd].
  assert (X : (match node_kind x with Comma => end_byte x <=? o | _ => false end) = false) by (destruct (node_kind x); congruence || reflexivity). rewrite X.
  assert (Split : forall pre s, in_order s e (pre ++ (f, x) :: post) -> (forall g d, In (g, d) pre -> end_byte d <= start_byte x) /\ in_order (end_byte x) e post).
  { clear - pre. intros pre'. clear pre. induction pre' as [|[g d] p IH]; intros s O; cbn [app in_order] in O.
    - split; [intros g d []|apply O].
    - destruct O as (A & B & O). destruct (IH _ O) as [P Q]. split; [|exact Q]. intros g' d' [E|I]; [injection E as <- <-|exact (P g' d' I)].
      pose proof (order_after _ _ _ O f x ltac:(apply in_app_iff; cbn; auto)). lia. }
  destruct (Split pre s O) as [P Q].
  assert (Z : filter (fun c => match node_kind (snd c) with Comma => end_byte (snd c) <=? o | _ => false end) post = []).
  { assert (All : forall g d, In (g, d) post -> node_kind d = Comma -> o < end_byte d).
    { intros g d I Kd. pose proof (order_after _ _ _ Q g d I). pose proof (V g d ltac:(apply in_app_iff; cbn; auto) Kd). lia. }
    clear - All. induction post as [|[g d] l IHl]; [reflexivity|]. cbn [filter snd].
    destruct (node_kind d) eqn:Kd; try (apply IHl; intros; eapply All; cbn; eauto).
    pose proof (All g d (or_introl eq_refl) Kd) as R. destruct (Nat.leb_spec (end_byte d) o); [lia|]. apply IHl. intros; eapply All; cbn; eauto. }
  rewrite Z. cbn [List.length]. rewrite Nat.add_0_r. f_equal.
  assert (Y : forall g d, In (g, d) pre -> end_byte d <= o) by (intros g d I; specialize (P g d I); lia).
  clear - Y. induction pre as [|[g d] p IH]; [reflexivity|]. cbn [filter snd].
  rewrite IH by (intros; eapply Y; cbn; eauto). destruct (node_kind d); try reflexivity.
  pose proof (Y g d (or_introl eq_refl)). destruct (Nat.leb_spec (end_byte d) o); [reflexivity|lia].
Qed.

Lemma finds_innermost root o n : formed root -> node_kind root <> CallExpression -> innermost_call root o n -> find is_call (upward o root) = Some n.
Proof.
  intros F R Inn. pose proof (find_up o root F) as U. destruct (find is_call (upward o root)) as [m|].
  - f_equal. destruct U as (K & Km & Kd). destruct K as [-> |[B C]]; [contradiction|]. apply (innermost_unique root o m n F); [|exact Inn]. repeat split; try assumption; apply C.
  - destruct Inn as (B & K & C & _). destruct U as [_ U]. destruct (U n B K C).
Qed.
Lemma shows_call root o n f args : formed root -> node_kind root <> CallExpression -> innermost_call root o n ->
  the_child n Function f -> the_child n Arguments args -> visible (children args) ->
  find_enclosing_call root o = Some (start_byte f, end_byte f, commas_until o (children args)).
Proof.
  intros F R Inn Ff Fa V. unfold find_enclosing_call. rewrite (finds_innermost root o n F R Inn). unfold extract_call_info.
  rewrite (child_the n Function f Ff), (child_the n Arguments args Fa). unfold count_commas_before. do 2 f_equal.
  assert (Fn : formed args). { destruct Inn as (B & _). destruct (below_formed _ _ B F) as [Fn _]. destruct Fa as [I _]. eapply (below_formed n args); [eapply BChild; eauto|exact Fn]. }
  inversion Fn as [k s e cs O Fc]; subst. apply (count_spec s e); assumption.
Qed.
Lemma shows_argument root o n f args pre g x post : formed root -> node_kind root <> CallExpression -> innermost_call root o n ->
  the_child n Function f -> the_child n Arguments args -> visible (children args) ->
  children args = pre ++ (g, x) :: post -> node_kind x <> Comma -> start_byte x <= o <= end_byte x ->
  find_enclosing_call root o = Some (start_byte f, end_byte f, commas pre).
Proof.
  intros F R Inn Ff Fa V E K L. rewrite (shows_call root o n f args F R Inn Ff Fa V). do 2 f_equal.
  assert (Fn : formed args). { destruct Inn as (B & _). destruct (below_formed _ _ B F) as [Fn _]. destruct Fa as [I _]. eapply (below_formed n args); [eapply BChild; eauto|exact Fn]. }
  inversion Fn as [k s e cs O Fc]; subst. cbn [children] in *. subst cs. eapply commas_in_argument; eauto.
Qed.
Lemma shows_nothing root o : formed root -> node_kind root <> CallExpression -> (forall n, ~ innermost_call root o n) -> find_enclosing_call root o = None.
Proof.
  intros F R No. unfold find_enclosing_call. pose proof (find_up o root F) as U. destruct (find is_call (upward o root)) as [m|]; [|reflexivity].
  destruct U as (K & Km & Kd). destruct K as [-> |[B C]]; [contradiction|]. destruct (No m). repeat split; try assumption; apply C.
Qed.
Lemma never_shown root : (forall n c, ~ (below root n /\ In (Some Arguments, c) (children n))) -> node_kind root <> CallExpression -> forall o, find_enclosing_call root o = None.
Proof.
  intros H R o. unfold find_enclosing_call. destruct (find is_call (upward o root)) as [m|] eqn:E; [|reflexivity].
  assert (M : m = root \/ below root m).
  { apply find_some in E as [E _]. clear - E. revert m E. induction root as [k s e cs IH] using node_ind'. intros m E. rewrite upward_eq in E. apply in_app_iff in E as [E|[<-|[]]]; [|auto].
    destruct (entered o cs) as [c|] eqn:K; [|destruct E]. destruct (entered_in _ _ _ K) as [_ [f I]]. rewrite Forall_forall in IH. destruct (IH (f, c) I m E) as [-> |B]; right; [eapply BChild|eapply BDeep]; cbn; eauto. }
  apply find_some in E as [_ Q]. apply is_call_spec in Q. destruct M as [-> |B]; [contradiction|].
  unfold extract_call_info. destruct (child_by_field_name m Function); [|reflexivity].
  assert (Z : child_by_field_name m Arguments = None); [|rewrite Z; reflexivity].
  unfold child_by_field_name. destruct (find _ (children m)) as [[g x]|] eqn:K; [|reflexivity]. exfalso. apply find_some in K as [I K]. cbn [fst] in K.
  destruct g as [g|]; [|discriminate]. apply field_spec in K. subst g. apply (H m x). auto.
Qed.
