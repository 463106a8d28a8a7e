(** One visit of a function emulates the function. *)
From Coq Require Import Lia.
From Verif Require Export InlineClone.
Local Open Scope N_scope.

Lemma valid_func_up leaves rets next next' f : next <= next' -> valid_func leaves rets next f -> valid_func leaves rets next' f.
Proof. intros L [A B C D E F]. constructor; auto. intros x I. apply D in I. lia. Qed.
Lemma valid_up leaves rets next next' p : next <= next' -> valid leaves rets next p -> valid leaves rets next' p.
Proof. intros L [A B]. split; auto. eapply Forall_impl; [|exact B]. intros f. apply valid_func_up. exact L. Qed.
Lemma after_in vis ops x : In x (after vis ops) -> In x vis \/ In x (flat_map op_defs ops).
Proof.
  revert vis. induction ops as [|[rs k xs rg] l IH]; intros vis H; cbn in *; auto. apply IH in H as [H|H]; [|right; apply in_or_app; auto]. apply in_app_or in H as [H|H]; auto. right. apply in_or_app. left. apply in_or_app. auto.
Qed.

Lemma visit_op_eq pick p sub next rs k xs rg : visit_op pick p sub next (Op rs k xs rg) =
  let '(next, c, regions) := visit_regions (visit_region pick p) sub next rg in
  match site pick p next k (map (look sub) xs), k with
  | Some (next, pre, rets), TailCall _ => (next, S c, pre ++ [Op [] Return rets []], sub)
  | Some (next, pre, rets), _ => (next, S c, pre, combine rs rets ++ sub)
  | None, _ => (next, c, [Op rs k (map (look sub) xs) regions], sub)
  end.
Proof. reflexivity. Qed.
Lemma visit_region_eq pick p sub next blocks : visit_region pick p sub next (Region blocks) = let '(next, c, blocks) := visit_blocks (visit_op pick p) sub next blocks in (next, c, Region blocks).
Proof. reflexivity. Qed.

Section Visit.
  Variables (leaves : N -> bool) (rets : N -> nat) (next0 : N) (p : list func) (f : N).
  Hypothesis Hp : valid leaves rets next0 p.
  Variable pick : N -> bool.
  Notation emu := (emu leaves p).
  Notation emu_regions := (emu_regions leaves p).
  Lemma splice_ok next g callee xs next' pre zs : next0 <= next -> lookup p g = Some callee -> (forall x, In x xs -> x < next) -> splice next callee xs = Some (next', pre, zs) ->
    exists params body ys rho1, inlinable p g params body ys /\ NoDup params /\ List.length params = List.length xs /\ emu (combine params xs) body pre rho1 /\ related rho1 ys zs /\ Forall (straight leaves) body /\ List.length ys = rets g /\
      next <= next' /\ NoDup (flat_map op_defs pre) /\ (forall y, In y (flat_map op_defs pre) -> next <= y < next') /\ (forall z, In z zs -> In z xs \/ next <= z < next').
  Proof.
    intros L0 Lk B S. unfold splice in S. destruct (regions_of callee) as [|[[|[params ops] [|]]] rest] eqn:Ec; try discriminate. destruct (Nat.eqb_spec (List.length params) (List.length xs)) as [Le|]; [|discriminate].
    destruct (split_last ops) as [[body [rs k ys rg]]|] eqn:El; [|discriminate]. destruct k; try discriminate. apply split_last_some in El. subst ops.
    destruct (clone_list clone_op next (combine params xs) body) as [[n1 m1] pre1] eqn:E1. injection S as <- <- <-.
    assert (Hi : inlinable p g params body ys) by (exists rs, rg; unfold body_of; rewrite Lk, Ec; reflexivity).
    destruct (inlinable_valid _ _ _ _ Hp _ _ _ _ Hi) as (D & Sc & In1 & Ar & St & _ & Dd & Al). pose proof Dd as Dd0. apply nodup_app in Dd0 as (_ & D2 & D3).
    assert (G : graph (combine params xs) params = combine params xs) by (rewrite <- (app_nil_r (combine params xs)) at 1; apply graph_new; auto).
    assert (Bd : bounded (combine params xs) params next).
    { intros x I. assert (K : In (x, look (combine params xs) x) (combine params xs)) by (rewrite <- G at 2; apply graph_in; auto). apply in_combine_r in K. auto. }
    destruct (clone_emulates leaves p body params next _ _ _ _ D2 D3 Bd Sc E1) as [T M]. rewrite G in M. exists params, body, ys, (graph m1 (after params body)).
    split; [exact Hi|]. split; [exact D|]. split; [exact Le|]. split; [exact M|]. split; [apply graph_related; exact In1|]. split; [exact St|]. split; [exact Ar|].
    destruct T as (T1 & T2 & T3 & T4). split; [exact T1|]. split; [exact T4|]. split; [exact T3|]. intros z I.
    destruct (proj1 (emu_scoped leaves p) _ _ _ _ M xs) as [_ Tg]; [intros x x' K; apply in_combine_r in K; exact K|]. apply in_map_iff in I as (y & <- & I).
    assert (K : In (y, look m1 y) (graph m1 (after params body))) by (apply graph_in; auto). apply Tg, after_in in K as [K|K]; auto.
  Qed.

  Definition news (next next' : N) (defs defs' : list N) : Prop := next <= next' /\ NoDup defs' /\ forall y, In y defs' -> In y defs \/ next <= y < next'.
  Lemma news_app next next1 next2 d d1 e e1 : next0 <= next -> (forall x, In x (d ++ e) -> x < next0) -> NoDup (d ++ e) -> news next next1 d d1 -> news next1 next2 e e1 -> news next next2 (d ++ e) (d1 ++ e1).
  Proof.
    intros L0 B D (A1 & A2 & A3) (B1 & B2 & B3). apply nodup_app in D as (D1 & D2 & D3). split; [lia|]. split.
    - apply nodup_app. repeat split; auto. intros x I J. apply A3 in I as [I|I]; apply B3 in J as [J|J].
      + eapply D3; eauto.
      + specialize (B x (in_or_app _ _ _ (or_introl I))). lia.
      + specialize (B x (in_or_app _ _ _ (or_intror J))). lia.
      + lia.
    - intros y I. apply in_app_or in I as [I|I]; [apply A3 in I as [I|I]|apply B3 in I as [I|I]]; rewrite in_app_iff; auto; right; lia.
  Qed.
  Definition old (sub : mapping) (vis : list N) (next : N) (defs : list N) : Prop :=
    NoDup defs /\ apart defs vis /\ (forall x, In x defs -> x < next0 /\ look sub x = x) /\ next0 <= next /\ forall x, In x vis -> look sub x < next /\ ~ In (look sub x) defs.
  Lemma old_incl sub vis next d e : old sub vis next d -> incl e d -> NoDup e -> old sub vis next e.
  Proof. intros (A1 & A2 & A3 & A4 & A5) I D. split; auto. split; [intros x K J; eapply A2; eauto|]. split; auto. split; auto. intros x K. destruct (A5 x K). auto. Qed.
  Lemma old_up sub vis next next' d : next <= next' -> old sub vis next d -> old sub vis next' d.
  Proof. intros L (A1 & A2 & A3 & A4 & A5). split; auto. split; auto. split; auto. split; [lia|]. intros x K. destruct (A5 x K). split; auto. lia. Qed.

  Definition vop_ok (o : op) : Prop := forall sub vis next next' c os sub', old sub vis next (op_defs o) -> scoped vis [o] -> arity rets f o -> visit_op pick p sub next o = (next', c, os, sub') ->
    news next next' (op_defs o) (flat_map op_defs os) /\
    (forall l l' rho', emu (graph sub' (op_results o ++ vis)) l l' rho' -> emu (graph sub vis) (o :: l) (os ++ l') rho') /\
    (forall x, ~ In x (op_results o) -> look sub' x = look sub x) /\
    (forall x, In x (op_results o) -> In (look sub' x) (op_results o) \/ next <= look sub' x < next' \/ exists y, In y vis /\ look sub' x = look sub y).
  Definition vops_ok (ops : list op) : Prop := forall sub vis next next' c ops', old sub vis next (flat_map op_defs ops) -> scoped vis ops -> Forall (arity rets f) ops -> visit_ops (visit_op pick p) sub next ops = (next', c, ops') ->
    news next next' (flat_map op_defs ops) (flat_map op_defs ops') /\ exists rho', emu (graph sub vis) ops ops' rho'.
  Definition vregion_ok (r : region) : Prop := forall sub vis next next' c r', old sub vis next (region_defs r) -> region_scoped vis r -> region_arity rets f r -> visit_region pick p sub next r = (next', c, r') ->
    news next next' (region_defs r) (region_defs r') /\ emu_regions (graph sub vis) [r] [r'].

  Lemma ops_visit ops : Forall vop_ok ops -> vops_ok ops.
  Proof.
    induction 1 as [|o l H F IH]; intros sub vis next next' c ops' O S Ar E; cbn [visit_ops] in E.
    - injection E as <- <- <-. split; [split; [lia|split; [constructor|intros y []]]|eexists; constructor].
    - destruct (visit_op pick p sub next o) as [[[n1 c1] os] sub1] eqn:E1. destruct (visit_ops (visit_op pick p) sub1 n1 l) as [[n2 c2] l1] eqn:E2. injection E as <- <- <-. cbn [flat_map] in *.
      pose proof O as (D & A & X & L0 & Y). pose proof D as D0. apply nodup_app in D0 as (D1 & D2 & D3). inversion Ar; subst.
      assert (So : scoped vis [o]) by (inversion S; subst; constructor; auto; constructor).
      assert (Sl : scoped (op_results o ++ vis) l) by (inversion S; subst; auto).
      assert (Ir : incl (op_results o) (op_defs o)) by (destruct o; intros x I; cbn; apply in_or_app; auto).
      destruct (H _ _ _ _ _ _ _ (old_incl _ _ _ _ _ O (incl_appl _ (incl_refl _)) D1) So H2 E1) as (Nw & Em & Lo & Lr).
      assert (O1 : old sub1 (op_results o ++ vis) n1 (flat_map op_defs l)).
      { destruct Nw as (N1 & N2 & N3). split; auto. split; [|split; [|split; [lia|]]].
        - intros x I. apply in_app_or in I as [I|I]; [apply D3; auto|]. intros J. eapply A; eauto. apply in_or_app. auto.
        - intros x I. destruct (X x) as [X1 X2]; [apply in_or_app; auto|]. split; auto. rewrite Lo; auto. intros J. eapply D3; eauto.
        - intros x I. destruct (in_dec N.eq_dec x (op_results o)) as [J|J].
          + apply Lr in J as [J|[J|(y & J & ->)]].
            * split; [|apply D3; auto]. destruct (X (look sub1 x)); [apply in_or_app; auto|]. lia.
            * split; [lia|]. intros K. destruct (X (look sub1 x)); [apply in_or_app; auto|]. lia.
            * destruct (Y y J). split; [lia|]. intros K. apply H1. apply in_or_app. auto.
          + apply in_app_or in I as [I|I]; [contradiction|]. rewrite Lo by auto. destruct (Y x I) as [Y1 Y2]. split; [lia|]. intros K. apply Y2. apply in_or_app. auto. }
      destruct (IH _ _ _ _ _ _ O1 Sl H3 E2) as (Nw2 & rho' & M). split; [rewrite flat_map_app; eapply news_app; eauto; intros x I; destruct (X x I); auto|]. exists rho'. apply Em. exact M.
  Qed.
  Lemma regions_visit rg : Forall vregion_ok rg -> forall sub vis next next' c rg', old sub vis next (flat_map region_defs rg) -> Forall (region_scoped vis) rg -> Forall (region_arity rets f) rg -> visit_regions (visit_region pick p) sub next rg = (next', c, rg') ->
    news next next' (flat_map region_defs rg) (flat_map region_defs rg') /\ emu_regions (graph sub vis) rg rg'.
  Proof.
    induction 1 as [|r l H F IH]; intros sub vis next next' c rg' O S Ar E; cbn [visit_regions] in E.
    - injection E as <- <- <-. split; [split; [lia|split; [constructor|intros y []]]|constructor].
    - destruct (visit_region pick p sub next r) as [[n1 c1] r1] eqn:E1. destruct (visit_regions (visit_region pick p) sub n1 l) as [[n2 c2] l1] eqn:E2. injection E as <- <- <-. cbn [flat_map] in *.
      pose proof O as (D & A & X & L0 & Y). pose proof D as D0. apply nodup_app in D0 as (D1 & D2 & D3). inversion Ar; subst. inversion S; subst.
      destruct (H _ _ _ _ _ _ (old_incl _ _ _ _ _ O (incl_appl _ (incl_refl _)) D1) H4 H2 E1) as [Nw Em].
      destruct (IH _ _ _ _ _ _ (old_up _ _ _ _ _ (proj1 Nw) (old_incl _ _ _ _ _ O (incl_appr _ (incl_refl _)) D2)) H5 H3 E2) as [Nw2 Em2].
      split; [eapply news_app; eauto; intros x I; destruct (X x I); auto|]. inversion Em; subst. econstructor; eauto.
  Qed.
  Lemma graph_self sub vis rs : (forall x, In x rs -> look sub x = x) -> graph sub (rs ++ vis) = combine rs rs ++ graph sub vis.
  Proof. intros H. unfold graph. rewrite map_app. f_equal. induction rs as [|r rs IH]; auto. cbn [map combine]. rewrite H by (left; auto). f_equal. apply IH. intros x I. apply H. right. auto. Qed.
  Lemma visit_all : (forall o, vop_ok o) /\ (forall r, vregion_ok r) /\ (forall b : block, match b with Block args ops => vops_ok ops end).
  Proof.
    apply op_all.
    - intros rs k xs rg IH sub vis next next' c os sub' O S Ar E. rewrite visit_op_eq in E. destruct (visit_regions (visit_region pick p) sub next rg) as [[n1 c1] rg1] eqn:E1. cbn [op_defs] in *. rewrite arity_op in Ar. destruct Ar as [Ar Arg].
      pose proof O as (D & A & X & L0 & Y). pose proof D as D0. apply nodup_app in D0 as (D1 & D2 & D3). inversion S as [|? ? ? ? ? ? Hx Hr]; subst.
      destruct (regions_visit rg IH _ _ _ _ _ _ (old_incl _ _ _ _ _ O (incl_appr _ (incl_refl _)) D2) Hr Arg E1) as [Nw Em]. pose proof Nw as (Nw1 & Nw2 & Nw3).
      pose proof (graph_related sub vis xs Hx) as Rx. cbn [op_results]. destruct (site pick p n1 k (map (look sub) xs)) as [[[n2 pre] zs]|] eqn:Es.
      + assert (exists g callee, (k = Call g \/ k = TailCall g) /\ lookup p g = Some callee /\ splice n1 callee (map (look sub) xs) = Some (n2, pre, zs)) as (g & callee & Kg & Lk & Sp).
        { unfold site in Es. destruct k as [g|g| | |]; try discriminate; destruct (pick g); try discriminate; destruct (lookup p g) as [callee|] eqn:Lk; try discriminate; exists g, callee; auto. }
        assert (Bx : forall x, In x (map (look sub) xs) -> x < n1). { intros x I. apply in_map_iff in I as (y & <- & I). destruct (Y y (Hx y I)). lia. }
        destruct (splice_ok n1 g callee _ _ _ _ (N.le_trans _ _ _ L0 Nw1) Lk Bx Sp) as (params & body & ys & rho1 & Hi & Dp & Lp & M & Z & St & Ly & L2 & Dpre & Bpre & Bz). rewrite map_length in Lp.
        assert (Cl : forall x x', In (x, x') (graph sub vis) -> ~ In x' (flat_map op_results pre)).
        { intros x x' I J. apply graph_in in I as [I ->]. apply in_flat_map in J as ([rs1 k1 xs1 rg1'] & J1 & J2). cbn in J2. destruct (Y x I). specialize (Bpre (look sub x)). 
          assert (K : In (look sub x) (flat_map op_defs pre)) by (apply in_flat_map; exists (Op rs1 k1 xs1 rg1'); split; auto; cbn; apply in_or_app; auto). apply Bpre in K. lia. }
        assert (Npre : forall extra, flat_map op_defs extra = [] -> news next n2 (rs ++ flat_map region_defs rg) (flat_map op_defs (pre ++ extra))).
        { intros extra Ex. rewrite flat_map_app, Ex, app_nil_r. split; [lia|]. split; auto. intros y I. apply Bpre in I. lia. }
        destruct Kg as [->| ->]; injection E as <- <- <- <-.
        * split; [rewrite <- (app_nil_r pre); apply Npre; reflexivity|]. split.
          { intros l l' rho' M2. rewrite graph_bind in M2; [|exact D1|rewrite <- (related_in _ _ _ Z); congruence|intros x I J; eapply A; eauto; apply in_or_app; auto].
            eapply emu_call with (xs' := map (look sub) xs); eauto; [congruence|].
            intros x x' I J. apply graph_in in I as [I ->]. eapply A; eauto. apply in_or_app. auto.
 }
          split; [intros x I; apply look_out; auto|]. intros x I. assert (K : In (x, look (combine rs zs ++ sub) x) (combine rs zs)).
          { rewrite <- (graph_new rs zs sub) at 2; [apply graph_in; auto|exact D1|rewrite <- (related_in _ _ _ Z); congruence]. }
          apply in_combine_r, Bz in K as [K|K]; [right; right; apply in_map_iff in K as (y & K & J); exists y; split; auto|right; left; lia].
        * destruct Ar as [-> Ar]. split; [apply Npre; reflexivity|]. split.
          { intros l l' rho' M2. cbn [app] in M2. rewrite <- app_assoc. cbn [app]. eapply emu_tail with (xs' := map (look sub) xs); eauto. }
          split; auto. 
      + assert (E' : (n1, c1, [Op rs k (map (look sub) xs) rg1], sub) = (next', c, os, sub')) by (destruct k; exact E). injection E' as <- <- <- <-. clear E. cbn [flat_map]. rewrite app_nil_r. cbn [op_defs].
        assert (Dr : news next next rs rs) by (split; [lia|split; auto]).
        split; [eapply news_app; eauto; intros x I; destruct (X x I); auto|]. split; [|split; auto].
        * intros l l' rho' M. cbn [app]. eapply emu_op; eauto.
          -- split; auto. split; auto. split; auto. intros x x' I. apply graph_in in I as [I ->]. split; [intros J; eapply A; eauto; apply in_or_app; auto|]. destruct (Y x I) as [_ Yx]. intros J. apply Yx. apply in_or_app. auto.
          -- rewrite <- graph_self; auto. intros x I. destruct (X x); auto. apply in_or_app. auto.
        * intros x I. left. destruct (X x) as [_ ->]; auto. apply in_or_app. auto.
    - intros bs IH sub vis next next' c r' O S Ar E. inversion S; subst. inversion IH as [|? ? IHo _]; subst. rewrite visit_region_eq in E. cbn [visit_blocks] in E. destruct (visit_ops (visit_op pick p) sub next ops) as [[n1 c1] ops1] eqn:E1. injection E as <- <- <-.
      cbn [region_defs flat_map block_defs] in *. rewrite !app_nil_r in *. rewrite arity_single in Ar. pose proof O as (D & A & X & L0 & Y). pose proof D as D0. apply nodup_app in D0 as (D1 & D2 & D3).
      assert (O1 : old sub (args ++ vis) next (flat_map op_defs ops)).
      { split; auto. split; [|split; [|split; auto]].
        - intros x I. apply in_app_or in I as [I|I]; auto. intros J. eapply A; eauto. apply in_or_app. auto.
        - intros x I. apply X. apply in_or_app. auto.
        - intros x I. apply in_app_or in I as [I|I]; [destruct (X x) as [X1 ->]; [apply in_or_app; auto|]; split; [lia|auto]|]. destruct (Y x I) as [Y1 Y2]. split; auto. intros J. apply Y2. apply in_or_app. auto. }
      destruct (IHo _ _ _ _ _ _ O1 H1 Ar E1) as (Nw & rho' & M). split; [eapply news_app with (next1 := next); eauto; [intros x I; destruct (X x I); auto|split; [lia|split; auto]]|].
      econstructor; [| |constructor].
      + split; auto. split; auto. split; auto. intros x x' I. apply graph_in in I as [I ->]. split; [intros J; eapply A; eauto; apply in_or_app; auto|]. destruct (Y x I) as [_ Yx]. intros J. apply Yx. apply in_or_app. auto.
      + rewrite <- graph_self; [exact M|]. intros x I. destruct (X x); auto. apply in_or_app. auto.
    - intros args ops IH. apply ops_visit. exact IH.
  Qed.
End Visit.
