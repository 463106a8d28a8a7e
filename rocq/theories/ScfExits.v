(** Turning yields, continues and breaks into branches: which operations are turned, and into what. *)
From Verif Require Import ScfModel ScfSpec IrProofs IrInvProofs IrMainProofs ScfSim CastProofs ScfArena ScfLower.
From Coq Require Import Lia.

Section Exits.
  Variable shape_of : nat -> shape.
  Variable br_kind : nat.
  Hypothesis Kb : shape_of br_kind = SBr.
  Variable c : ctx.
  Variable dead : list nat.
  Hypothesis I : inv c dead.
  Hypothesis T : tidy c dead.
  Hypothesis bare : forall x d, nth_error (ops c) x = Some d -> is_exit (shape_of (o_kind d)) = true -> o_regions d = [].
  Variables b0 s P m : nat.
  Variables pre post : list nat.
  Variable arg : option (nat * nat).
  (** The arguments and the target of the branch for an exit with the given operands. *)
  Variable turn : shape -> list nat -> option (list nat * nat).
  Hypothesis turn_exit : forall x l r, turn x l = Some r -> is_exit x = true.
  Hypothesis turn_incl : forall x l vs t, turn x l = Some (vs, t) -> incl vs l.
  Variable Q : nat -> bool.
  Variable tail : list nat.
  Local Notation low c1 dead1 log := (lowering shape_of c dead c1 dead1 b0 s P m pre post Q log tail arg).
  Notation rho := (into Q P).

  Record stage (c1 : ctx) (dead1 : list nat) (log : list (nat * nat)) : Prop := {
    st_low : low c1 dead1 log;
    st_log : forall y z, image log y = Some z -> exists d dz vs t, nth_error (ops c) y = Some d /\ turn (shape_of (o_kind d)) (map (swap arg) (o_operands d)) = Some (vs, t) /\
               nth_error (ops c1) z = Some dz /\ o_kind dz = br_kind /\ o_operands dz = vs /\ o_succs dz = [t] /\ op_results c1 z = [];
    st_new : forall z d, length (ops c) <= z -> nth_error (ops c1) z = Some d -> is_exit (shape_of (o_kind d)) = false;
  }.
  Record ran (Z : nat -> Prop) (c1 : ctx) (dead1 : list nat) (log : list (nat * nat)) (c2 : ctx) (dead2 : list nat) (log2 : list (nat * nat)) : Prop := {
    r_stage : stage c2 dead2 log2;
    r_regions : regions c2 = regions c1;
    r_bpar : forall b, bpar (blocks c2) b = bpar (blocks c1) b;
    r_live : forall q, live c1 dead1 q -> live c2 dead2 q;
    r_ops : forall b x, In x (bops (blocks c1) b) -> ~ Z x -> In x (bops (blocks c2) b);
    r_log : forall y z, image log y = Some z -> image log2 y = Some z;
    r_Z : forall y z, image log2 y = Some z -> image log y = Some z \/ Z y;
    r_keeps : keeps c1 dead1 c2 dead2;
    r_loose : loose dead c1 dead1 -> loose dead c2 dead2;
    r_blks : length (blocks c2) = length (blocks c1);
    r_vals : length (vals c2) = length (vals c1);
  }.
  Lemma ran_refl Z c1 dead1 log : stage c1 dead1 log -> ran Z c1 dead1 log c1 dead1 log.
  Proof. intros S. constructor; try assumption; try reflexivity; auto. apply keeps_refl. apply (st_low _ _ _ S). Qed.
  Lemma ran_trans (Z Z1 Z2 : nat -> Prop) c1 dead1 log c2 dead2 log2 c3 dead3 log3 : ran Z1 c1 dead1 log c2 dead2 log2 -> ran Z2 c2 dead2 log2 c3 dead3 log3 -> (forall x, Z1 x -> Z x) -> (forall x, Z2 x -> Z x) -> ran Z c1 dead1 log c3 dead3 log3.
  Proof.
    intros A B H1 H2. constructor; try apply B.
    - rewrite (r_regions _ _ _ _ _ _ _ B). apply A.
    - intros b. rewrite (r_bpar _ _ _ _ _ _ _ B). apply A.
    - intros q K. apply B, A, K.
    - intros b x K N. apply (r_ops _ _ _ _ _ _ _ B); [apply (r_ops _ _ _ _ _ _ _ A); [exact K | intros K1; apply N, H1, K1] | intros K1; apply N, H2, K1].
    - intros y z K. apply (r_log _ _ _ _ _ _ _ B), (r_log _ _ _ _ _ _ _ A), K.
    - intros y z K. destruct (r_Z _ _ _ _ _ _ _ B y z K) as [K1|K1]; [|right; apply H2; exact K1]. destruct (r_Z _ _ _ _ _ _ _ A y z K1) as [K2|K2]; [left; exact K2 | right; apply H1; exact K2].
    - eapply keeps_trans; [apply A | apply B].
    - intros K. apply B, A, K.
    - rewrite (r_blks _ _ _ _ _ _ _ B). apply A.
    - rewrite (r_vals _ _ _ _ _ _ _ B). apply A.
  Qed.
  Lemma ran_weak (Z Z1 : nat -> Prop) c1 dead1 log c2 dead2 log2 : ran Z1 c1 dead1 log c2 dead2 log2 -> (forall x, Z1 x -> Z x) -> ran Z c1 dead1 log c2 dead2 log2.
  Proof.
    intros A H. constructor; try apply A.
    - intros b x K N. apply (r_ops _ _ _ _ _ _ _ A); auto.
    - intros y z K. destruct (r_Z _ _ _ _ _ _ _ A y z K) as [K1|K1]; auto.
  Qed.

  Lemma swapped c1 dead1 log y d d1 : low c1 dead1 log -> nth_error (ops c) y = Some d -> nth_error (ops c1) y = Some d1 -> ~ In y dead -> o_operands d1 = map (swap arg) (o_operands d) /\ o_kind d1 = o_kind d /\ o_regions d1 = o_regions d.
  Proof. intros L E E1 N. destruct (lo_ops _ _ _ _ _ _ _ _ _ _ _ _ _ _ _ L y d E) as (d2 & E2 & (S1 & _ & S3 & _) & O2). assert (d2 = d1) as -> by congruence. auto. Qed.

  (** The place being worked on: block [b] of a region [q] inside [s]. *)
  Definition site (c1 : ctx) (dead1 : list nat) (b q : nat) : Prop := bpar (blocks c) b = Some q /\ (forall x, stands c x q -> inside_op c s x) /\ live c1 dead1 (rho q).
  Lemma site_ran Z c1 dead1 log c2 dead2 log2 b q : ran Z c1 dead1 log c2 dead2 log2 -> site c1 dead1 b q -> site c2 dead2 b q.
  Proof. intros A (S1 & S2 & S3). split; [exact S1|]. split; [exact S2|]. apply A. exact S3. Qed.
  Lemma site_in c1 dead1 log b q y : low c1 dead1 log -> site c1 dead1 b q -> In y (bops (blocks c1) b) -> y < length (ops c) ->
    par (ops c1) y = Some b /\ stands c y q /\ inside_op c s y /\ image log y = None /\ ~ In y dead1 /\ ~ In y dead.
  Proof.
    clear Kb bare turn_exit turn_incl turn br_kind. intros L (S1 & S2 & S3) K Ly. pose proof (lo_inv _ _ _ _ _ _ _ _ _ _ _ _ _ _ _ L) as I1. pose proof (bpar_old c b q S1) as Lb. assert (Py : par (ops c1) y = Some b) by (apply (in_bops c1 dead1 y b I1); exact K).
    assert (St1 : stands c1 y (rho q)). { apply (stands_par c1 dead1 y (rho q) I1). exists b. split; [exact Py|]. rewrite (lo_bpar _ _ _ _ _ _ _ _ _ _ _ _ _ _ _ L b Lb), S1. reflexivity. }
    assert (St : stands c y q).
    { apply (stands_par c dead y q I). exists b. split; [|exact S1]. apply (in_bops c dead y b I). rewrite (lo_bops _ _ _ _ _ _ _ _ _ _ _ _ _ _ _ L b Lb) in K. apply (relist_In _ _ _ _ _ (lo_once _ _ _ _ _ _ _ _ _ _ _ _ _ _ _ L)) in K. destruct K as [K|[K|(w & _ & K)]]; [exact K | apply (lo_tail _ _ _ _ _ _ _ _ _ _ _ _ _ _ _ L) in K; lia | apply (lo_log _ _ _ _ _ _ _ _ _ _ _ _ _ _ _ L) in K; lia]. }
    split; [exact Py|]. split; [exact St|]. split; [apply S2; exact St|]. destruct (par_back shape_of c dead I T b0 s P m pre post arg _ _ _ _ _ _ _ L Py (S2 y St)) as (_ & _ & Im). split; [exact Im|].
    assert (N1 : ~ In y dead1) by (apply (ti_live c1 dead1 (tidy_after _ _ _ _ _ _ _ _ _ _ _ _ _ _ _ I T L) _ _ St1 S3)). split; [exact N1|]. intros K1. apply N1. apply L. exact K1.
  Qed.
  Lemma exit_here depth c1 dead1 log b q y d vs t c2 : stage c1 dead1 log -> site c1 dead1 b q -> In y (bops (blocks c1) b) -> nth_error (ops c1) y = Some d ->
    turn (shape_of (o_kind d)) (o_operands d) = Some (vs, t) -> turn_into_br br_kind depth c1 b y vs t = Some c2 ->
    exists dead2 log2, ran (fun x => x = y) c1 dead1 log c2 dead2 log2 /\ image log2 y <> None /\ y < length (ops c).
  Proof.
    intros S St K Ed Et H. pose proof (st_low _ _ _ S) as L. pose proof (turn_exit _ _ _ Et) as Ex.
    assert (Ly : y < length (ops c)). { destruct (Nat.lt_ge_cases y (length (ops c))) as [Ly|Ly]; [exact Ly|]. rewrite (st_new _ _ _ S y d Ly Ed) in Ex. discriminate. }
    destruct (site_in _ _ _ _ _ _ L St K Ly) as (Py & Sy & Dy & Im & N1 & N0). destruct (nth_error (ops c) y) as [dy|] eqn:Ey; [|apply nth_error_None in Ey; lia]. destruct (swapped _ _ _ _ _ _ L Ey Ed N0) as (W1 & W2 & W3).
    assert (Er : o_regions d = []) by (rewrite W3; apply (bare y dy Ey); rewrite <- W2; exact Ex).
    assert (V : forall v, In v vs -> v < length (vals c1)). { intros v Kv. apply (turn_incl _ _ _ _ Et) in Kv. apply (ti_exist c1 dead1 (tidy_after _ _ _ _ _ _ _ _ _ _ _ _ _ _ _ I T L) y d v Ed N1 Kv). }
    destruct (exited shape_of c dead I T b0 s P m pre post arg br_kind depth c1 dead1 c2 Q log tail b y vs t d L H Kb Ed Er Ex Py Dy N1 V) as (L2 & Kp & _ & Lo & (dz & Z1 & Z2 & Z3 & Z4) & Zr & B & Bp & Rg & Lo2 & Lb2 & Lv2).
    exists (dead1 ++ [y]), (log ++ [(y, length (ops c1))]). split; [|split; [rewrite (image_snoc log y _ y Im), Nat.eqb_refl; discriminate | exact Ly]]. constructor; try assumption.
    - constructor; [exact L2 | |].
      + intros x z E. rewrite (image_snoc log y _ x Im) in E. destruct (Nat.eqb_spec y x) as [<-|].
        * injection E as <-. exists dy, dz, vs, t. rewrite <- W2, <- W1. repeat split; assumption.
        * destruct (st_log _ _ _ S x z E) as (dx & dw & ws & u & F1 & F2 & F3 & F4 & F5 & F6 & F7). destruct (k_ops _ _ _ _ Kp z dw F3) as (dw2 & G1 & (G2 & _ & _ & G3) & G4). exists dx, dw2, ws, u. split; [exact F1|]. split; [exact F2|]. split; [exact G1|]. rewrite (k_results _ _ _ _ Kp) by (apply nth_error_Some; congruence). repeat split; congruence.
      + intros z d2 Lz E. destruct (Nat.lt_ge_cases z (length (ops c1))) as [K1|K1].
        * destruct (nth_error (ops c1) z) as [d1|] eqn:E1; [|apply nth_error_None in E1; lia]. destruct (k_ops _ _ _ _ Kp z d1 E1) as (d3 & E3 & (G2 & _) & _). assert (d3 = d2) as -> by congruence. rewrite G2. apply (st_new _ _ _ S z d1 Lz E1).
        * assert (z < length (ops c2)) by (apply nth_error_Some; congruence). assert (z = length (ops c1)) as -> by lia. assert (dz = d2) as <- by congruence. rewrite Z2, Kb. reflexivity.
    - intros q1 Lq o Ro Ko. apply in_app_or in Ko. assert (Ro1 : region_parent c1 q1 o) by (apply rpar_in; rewrite <- Rg; apply rpar_in; exact Ro). destruct Ko as [Ko|[<-|[]]]; [exact (Lq o Ro1 Ko)|].
      apply rpar_in in Ro1. apply (in_oregs c1 dead1 q1 y (lo_inv _ _ _ _ _ _ _ _ _ _ _ _ _ _ _ L)) in Ro1. unfold oregs in Ro1. rewrite Ed, Er in Ro1. destruct Ro1.
    - intros b1 x Kx Nx. rewrite B. destruct (Nat.eqb_spec b1 b) as [->|]; [|exact Kx]. apply in_or_app. left. apply In_without. split; [exact Kx | exact Nx].
    - intros x z E. rewrite (image_snoc log y _ x Im). destruct (Nat.eqb_spec y x) as [<-|]; [congruence | exact E].
    - intros x z E. rewrite (image_snoc log y _ x Im) in E. destruct (Nat.eqb_spec y x) as [<-|]; [right; reflexivity | left; exact E].
  Qed.
  Lemma unlogged c1 dead1 log b q y : low c1 dead1 log -> site c1 dead1 b q -> In y (bops (blocks c) b) -> image log y = None -> In y (bops (blocks c1) b).
  Proof.
    clear Kb bare turn_exit turn_incl turn br_kind. intros L (S1 & S2 & _) K E. rewrite (lo_bops _ _ _ _ _ _ _ _ _ _ _ _ _ _ _ L b (bpar_old c b q S1)). assert (St : forall y, In y (bops (blocks c) b) -> stands c y q) by (intros x Kx; apply (stands_par c dead x q I); exists b; split; [apply (in_bops c dead x b I); exact Kx | exact S1]).
    destruct (ti_rank c dead T) as (rank & R). assert (Ns : ~ In s (bops (blocks c) b)). { intros Ks. pose proof (inside_rank shape_of c rank s s R (S2 s (St s Ks))). lia. }
    apply relist_keeps; [exact K | intros ->; contradiction | exact E | intros Ks; contradiction].
  Qed.
End Exits.

(** ** Yields *)
Section Yields.
  Variable shape_of : nat -> shape.
  Variable br_kind : nat.
  Hypothesis Kb : shape_of br_kind = SBr.
  Variable c : ctx.
  Variable dead : list nat.
  Hypothesis I : inv c dead.
  Hypothesis T : tidy c dead.
  Hypothesis bare : forall x d, nth_error (ops c) x = Some d -> is_exit (shape_of (o_kind d)) = true -> o_regions d = [].
  Variables b0 s P m : nat.
  Variables pre post : list nat.
  Variable arg : option (nat * nat).
  Variable Q : nat -> bool.
  Variable tail : list nat.

  Definition width : nat := match arg with Some _ => 1 | None => 0 end.
  Definition yield_turn (x : shape) (l : list nat) : option (list nat * nat) := match x with SYield => Some (firstn width l, m) | _ => None end.
  Lemma yield_exit x l r : yield_turn x l = Some r -> is_exit x = true.
  Proof. destruct x; try discriminate. reflexivity. Qed.
  Lemma yield_incl x l vs t : yield_turn x l = Some (vs, t) -> incl vs l.
  Proof. destruct x; try discriminate. intros [= <- <-] v K. rewrite <- (firstn_skipn width l). apply in_or_app. left. exact K. Qed.
  Lemma width_args c1 dead1 log : lowering shape_of c dead c1 dead1 b0 s P m pre post Q log tail arg -> length (block_args c1 m) = width.
  Proof. intros L. pose proof (lo_arg _ _ _ _ _ _ _ _ _ _ _ _ _ _ _ L) as A. unfold width. destruct arg as [[r a]|]; [destruct A as (_ & _ & _ & -> & _) | destruct A as (-> & _)]; reflexivity. Qed.
  Notation stage := (stage shape_of br_kind c dead b0 s P m pre post arg yield_turn Q tail).
  Notation ran := (ran shape_of br_kind c dead b0 s P m pre post arg yield_turn Q tail).
  Notation site := (site c s P Q).

  Lemma yields_in_list depth b q l : forall c1 dead1 log c2, stage c1 dead1 log -> site c1 dead1 b q -> NoDup l -> (forall x, In x l -> In x (bops (blocks c1) b)) ->
    iter (fun c o => d <- nth_error (ops c) o ;; match shape_of (o_kind d) with SYield => turn_into_br br_kind depth c b o (firstn width (o_operands d)) m | _ => Some c end) c1 l = Some c2 ->
    exists dead2 log2, ran (fun x => In x l /\ x < length (ops c)) c1 dead1 log c2 dead2 log2 /\ forall y, In y l -> shape_at shape_of c y = Some SYield -> image log2 y <> None.
  Proof.
    induction l as [|o l IH]; intros c1 dead1 log c2 S St Nd Hin H; cbn [iter] in H.
    { injection H as <-. exists dead1, log. split; [apply ran_refl; exact S | intros y []]. }
    inversion Nd as [|? ? No Nd']; subst. destruct (nth_error (ops c1) o) as [d|] eqn:Ed; [|discriminate]. cbn [obind] in H.
    assert (Step : exists c', iter (fun c o => d <- nth_error (ops c) o ;; match shape_of (o_kind d) with SYield => turn_into_br br_kind depth c b o (firstn width (o_operands d)) m | _ => Some c end) c' l = Some c2 /\
              exists dead' log', ran (fun x => x = o /\ o < length (ops c)) c1 dead1 log c' dead' log' /\ (shape_at shape_of c o = Some SYield -> image log' o <> None)).
    { destruct (shape_of (o_kind d)) eqn:Es.
      6:{ destruct (turn_into_br br_kind depth c1 b o (firstn width (o_operands d)) m) as [c'|] eqn:Et; [|discriminate]. cbn [obind] in H. exists c'. split; [exact H|].
          destruct (exit_here shape_of br_kind Kb c dead I T bare b0 s P m pre post arg yield_turn yield_exit yield_incl Q tail depth c1 dead1 log b q o d (firstn width (o_operands d)) m c' S St (Hin o (or_introl eq_refl)) Ed) as (dead' & log' & R & Im & Lo); [rewrite Es; reflexivity | exact Et|]. exists dead', log'. split; [eapply ran_weak; [exact R | intros x ->; split; [reflexivity | exact Lo]] | intros _; exact Im]. }
      all: exists c1; split; [exact H|]; exists dead1, log; split; [apply ran_refl; exact S|]; intros Sy; exfalso; rewrite <- (shape_kept _ _ _ _ _ _ _ _ _ _ _ _ _ _ _ (st_low _ _ _ _ _ _ _ _ _ _ _ _ _ _ _ _ _ S)) in Sy by (unfold shape_at in Sy; destruct (nth_error (ops c) o) eqn:Eo; [apply nth_error_Some; congruence | discriminate]); unfold shape_at in Sy; rewrite Ed in Sy; cbn [option_map] in Sy; congruence. }
    destruct Step as (c' & H' & dead' & log' & R & Im).
    destruct (IH c' dead' log' c2) as (dead2 & log2 & R2 & C2); [apply R | eapply site_ran; eassumption | exact Nd' | | exact H' |].
    { intros x Kx. apply (r_ops _ _ _ _ _ _ _ _ _ _ _ _ _ _ _ _ _ _ _ _ _ R); [apply Hin; right; exact Kx | intros (-> & _); contradiction]. }
    exists dead2, log2. split; [eapply ran_trans; [exact R | exact R2 | intros x (-> & Kl); split; [left; reflexivity | exact Kl] | intros x (Kx & Kl); split; [right; exact Kx | exact Kl]]|].
    intros y [<-|Ky] Sy; [|apply C2; assumption]. specialize (Im Sy). destruct (image log' o) as [z|] eqn:Ez; [|exfalso; apply Im; reflexivity]. rewrite (r_log _ _ _ _ _ _ _ _ _ _ _ _ _ _ _ _ _ _ _ _ _ R2 o z Ez). discriminate.
  Qed.
  Lemma yields_replaced depth q bs : forall c1 dead1 log c2, stage c1 dead1 log -> (forall b, In b bs -> site c1 dead1 b q) -> replace_yield shape_of br_kind depth c1 bs m = Some c2 ->
    exists dead2 log2, ran (fun x => stands c x q) c1 dead1 log c2 dead2 log2 /\ forall b y, In b bs -> In y (bops (blocks c) b) -> shape_at shape_of c y = Some SYield -> image log2 y <> None.
  Proof.
    intros c1 dead1 log c2 S Hs H. unfold replace_yield in H. rewrite (width_args c1 dead1 log (st_low _ _ _ _ _ _ _ _ _ _ _ _ _ _ _ _ _ S)) in H. revert c1 dead1 log S Hs H. induction bs as [|b bs IH]; intros c1 dead1 log S Hs H; cbn [iter] in H.
    { injection H as <-. exists dead1, log. split; [apply ran_refl; exact S | intros b y []]. }
    destruct (nth_error (blocks c1) b) as [bd|] eqn:Eb; [|discriminate]. cbn [obind] in H. destruct (iter _ c1 (b_ops bd)) as [c'|] eqn:Ei; [|discriminate]. cbn [obind] in H. rewrite <- (bops_nth c1 b bd Eb) in Ei.
    pose proof (st_low _ _ _ _ _ _ _ _ _ _ _ _ _ _ _ _ _ S) as L. pose proof (lo_inv _ _ _ _ _ _ _ _ _ _ _ _ _ _ _ L) as I1. pose proof (Hs b (or_introl eq_refl)) as Sb.
    destruct (yields_in_list depth b q _ c1 dead1 log c' S Sb (bops_nodup c1 dead1 b I1) (fun x K => K) Ei) as (dead' & log' & R & C).
    destruct (IH c' dead' log') as (dead2 & log2 & R2 & C2); [apply R | intros b1 K; eapply site_ran; [exact R | apply Hs; right; exact K] | exact H |].
    exists dead2, log2. split.
    - eapply ran_trans; [exact R | exact R2 | | intros x Kx; exact Kx]. intros x (Kx & Kl). eapply (fun H => proj1 (proj2 H)). eapply site_in; [exact I | exact T | exact L | exact Sb | exact Kx | exact Kl].
    - intros b1 y [<-|Kb1] Ky Sy; [|eapply C2; eassumption]. destruct (image log' y) as [z|] eqn:Ez.
      + rewrite (r_log _ _ _ _ _ _ _ _ _ _ _ _ _ _ _ _ _ _ _ _ _ R2 y z Ez). discriminate.
      + exfalso. destruct (image log y) as [z|] eqn:Ez0; [rewrite (r_log _ _ _ _ _ _ _ _ _ _ _ _ _ _ _ _ _ _ _ _ _ R y z Ez0) in Ez; discriminate|]. eapply C; [|exact Sy | exact Ez]. eapply unlogged; [exact I | exact T | exact L | exact Sb | exact Ky | exact Ez0].
  Qed.
End Yields.

(** ** Continues and breaks *)
Section LoopExits.
  Variable shape_of : nat -> shape.
  Variable br_kind : nat.
  Hypothesis Kb : shape_of br_kind = SBr.
  Variable c : ctx.
  Variable dead : list nat.
  Hypothesis I : inv c dead.
  Hypothesis T : tidy c dead.
  Hypothesis bare : forall x d, nth_error (ops c) x = Some d -> is_exit (shape_of (o_kind d)) = true -> o_regions d = [].
  Variables b0 s P m : nat.
  Variables pre post : list nat.
  Variable arg : option (nat * nat).
  Variable Q : nat -> bool.
  Variable tail : list nat.
  Variable header : nat.
  Hypothesis Qs : forall q, Q q = true -> region_parent c q s.

  Definition loop_turn (x : shape) (l : list nat) : option (list nat * nat) :=
    match x with
    | SContinue => Some (l, header)
    | SBreak => match l with v :: _ => Some (if Nat.eqb (width arg) 0 then [] else [v], m) | [] => None end
    | _ => None
    end.
  Lemma loop_exit x l r : loop_turn x l = Some r -> is_exit x = true.
  Proof. destruct x; try discriminate; reflexivity. Qed.
  Lemma loop_incl x l vs t : loop_turn x l = Some (vs, t) -> incl vs l.
  Proof. destruct x; try discriminate; [intros [= <- <-] v K; exact K|]. destruct l as [|v l]; [discriminate|]. intros [= <- <-] w. destruct (Nat.eqb _ _); [intros [] | intros [<-|[]]; left; reflexivity]. Qed.
  Notation stage := (stage shape_of br_kind c dead b0 s P m pre post arg loop_turn Q tail).
  Notation ran := (ran shape_of br_kind c dead b0 s P m pre post arg loop_turn Q tail).
  Notation site := (site c s P Q).
  Notation visit fuel depth b := (fun c o =>
    d <- nth_error (ops c) o ;;
    match shape_of (o_kind d) with
    | SContinue => turn_into_br br_kind depth c b o (o_operands d) header
    | SBreak => v <- nth_error (o_operands d) 0 ;; turn_into_br br_kind depth c b o (if Nat.eqb (width arg) 0 then [] else [v]) m
    | SLoop => Some c
    | _ => iter (fun c r => rd <- nth_error (regions c) r ;; replace_exits shape_of br_kind fuel depth c (r_blocks rd) header m) c (o_regions d)
    end).

  (** Operations that [replace_continue_break] comes to, starting from region [q]. *)
  Definition entered (x : shape) : bool := match x with SLoop | SContinue | SBreak => false | _ => true end.
  Inductive reach (q : nat) : nat -> Prop :=
  | reach_here y : stands c y q -> reach q y
  | reach_in o x q' y : stands c o q -> shape_at shape_of c o = Some x -> entered x = true -> region_parent c q' o -> reach q' y -> reach q y.
  Definition leaves (y : nat) : Prop := shape_at shape_of c y = Some SContinue \/ shape_at shape_of c y = Some SBreak.

  Lemma reach_deep q y : reach q y -> deep c q y.
  Proof. induction 1 as [q y S|q o x q' y S _ _ R _ IH]; [apply deep_here; exact S | eapply deep_trans; [apply deep_here; exact S | exact R | exact IH]]. Qed.
  Lemma reach_more q o : reach q o -> forall x q' y, shape_at shape_of c o = Some x -> entered x = true -> region_parent c q' o -> stands c y q' -> reach q y.
  Proof. induction 1 as [q o S|q o1 x1 q1 o S Sx Ex R _ IH]; intros x q' y Sh En R' S'; [eapply reach_in; [exact S | exact Sh | exact En | exact R' | apply reach_here; exact S'] | eapply reach_in; eauto]. Qed.
  Lemma reach_up q0 y : reach q0 y -> forall q, stands c y q -> q <> q0 -> exists o x, region_parent c q o /\ shape_at shape_of c o = Some x /\ entered x = true /\ reach q0 o.
  Proof.
    induction 1 as [q0 y S|q0 o x q' y S Sx Ex R _ IH]; intros q Sy N; [exfalso; apply N; eapply stands_unique; eassumption|]. destruct (Nat.eq_dec q q') as [->|Ne].
    - exists o, x. repeat split; try assumption. apply reach_here. exact S.
    - destruct (IH q Sy Ne) as (o' & x' & A1 & A2 & A3 & A4). exists o', x'. repeat split; try assumption. eapply reach_in; eassumption.
  Qed.

  Definition goal (fuel : nat) : Prop := forall depth q bs c1 dead1 log c2, stage c1 dead1 log -> (forall b, In b bs -> site c1 dead1 b q) -> replace_exits shape_of br_kind fuel depth c1 bs header m = Some c2 ->
    exists dead2 log2, ran (reach q) c1 dead1 log c2 dead2 log2 /\ ((forall b, bpar (blocks c) b = Some q -> In b bs) -> forall y, reach q y -> leaves y -> image log2 y <> None).

  Lemma kept Z c1 dead1 log c2 dead2 log2 y : ran Z c1 dead1 log c2 dead2 log2 -> image log y <> None -> image log2 y <> None.
  Proof. intros R N. destruct (image log y) as [z|] eqn:E; [|exfalso; apply N; reflexivity]. rewrite (r_log _ _ _ _ _ _ _ _ _ _ _ _ _ _ _ _ _ _ _ _ _ R y z E). discriminate. Qed.

  Lemma exits_in_regions fuel depth o q : goal fuel -> stands c o q -> (forall x, stands c x q -> inside_op c s x) -> forall rs c1 dead1 log c2, stage c1 dead1 log -> ~ In o dead1 -> (forall r, In r rs -> region_parent c r o) ->
    iter (fun c r => rd <- nth_error (regions c) r ;; replace_exits shape_of br_kind fuel depth c (r_blocks rd) header m) c1 rs = Some c2 ->
    exists dead2 log2, ran (fun x => exists r, region_parent c r o /\ reach r x) c1 dead1 log c2 dead2 log2 /\ (forall r y, In r rs -> reach r y -> leaves y -> image log2 y <> None).
  Proof.
    intros G So Sq. pose proof (Sq o So) as Do. induction rs as [|r rs IH]; intros c1 dead1 log c2 S No Hr H; cbn [iter] in H.
    { injection H as <-. exists dead1, log. split; [apply ran_refl; exact S | intros r y []]. }
    destruct (nth_error (regions c1) r) as [rd|] eqn:Er; [|discriminate]. cbn [obind] in H. destruct (replace_exits shape_of br_kind fuel depth c1 (r_blocks rd) header m) as [c'|] eqn:E1; [|discriminate]. cbn [obind] in H.
    pose proof (st_low _ _ _ _ _ _ _ _ _ _ _ _ _ _ _ _ _ S) as L. pose proof (lo_inv _ _ _ _ _ _ _ _ _ _ _ _ _ _ _ L) as I1. pose proof (Hr r (or_introl eq_refl)) as Ro.
    destruct (ti_rank c dead T) as (rank & Rk). pose proof (inside_rank shape_of c rank s o Rk Do) as Lt.
    assert (Qr : Q r = false). { destruct (Q r) eqn:Eq; [|reflexivity]. pose proof (rparent_unique c r o s Ro (Qs r Eq)). subst. lia. }
    assert (rP : r <> P). { intros ->. pose proof (Rk s P o (s_stands _ _ _ _ _ _ _ _ _ _ _ _ _ _ _ I L) Ro). lia. }
    assert (Rr : forall x, stands c x r -> inside_op c o x) by (intros x Sx; exists r; split; [exact Ro | apply deep_here; exact Sx]).
    assert (Bs : forall b, In b (r_blocks rd) <-> bpar (blocks c) b = Some r).
    { intros b. rewrite <- (rblks_nth c1 r rd Er). rewrite (in_rblks c1 dead1 b r I1). split; intros E.
      - destruct (Nat.lt_ge_cases b (length (blocks c))) as [Lb|Lb].
        + rewrite (lo_bpar _ _ _ _ _ _ _ _ _ _ _ _ _ _ _ L b Lb) in E. destruct (bpar (blocks c) b) as [q1|]; [|discriminate]. cbn in E. injection E as E. unfold into in E. destruct (Q q1); congruence.
        + exfalso. apply rP. eapply (lo_newpar _ _ _ _ _ _ _ _ _ _ _ _ _ _ _ L); eassumption.
      - rewrite (lo_bpar _ _ _ _ _ _ _ _ _ _ _ _ _ _ _ L b (bpar_old c b r E)), E. cbn. unfold into. rewrite Qr. reflexivity. }
    destruct (G depth r (r_blocks rd) c1 dead1 log c' S) as (dead' & log' & R & C); [|exact E1|].
    { intros b Kb1. split; [apply Bs; exact Kb1|]. split.
      - intros x Sx. destruct Do as (q0 & Hq0 & D0). exists q0. split; [exact Hq0|]. eapply deep_in; eassumption.
      - unfold into. rewrite Qr. intros o1 Ro1. apply (rparent_same _ _ _ _ _ _ _ _ _ _ _ _ _ _ _ L) in Ro1. rewrite <- (rparent_unique c r o o1 Ro Ro1). exact No. }
    destruct (IH c' dead' log' c2) as (dead2 & log2 & R2 & C2); [apply R | | intros r1 K1; apply Hr; right; exact K1 | exact H |].
    { assert (Lr : live c1 dead1 r). { intros o1 Ro1. apply (rparent_same _ _ _ _ _ _ _ _ _ _ _ _ _ _ _ L) in Ro1. rewrite <- (rparent_unique c r o o1 Ro Ro1). exact No. }
      apply (r_live _ _ _ _ _ _ _ _ _ _ _ _ _ _ _ _ _ _ _ _ _ R r Lr o). apply (rparent_same _ _ _ _ _ _ _ _ _ _ _ _ _ _ _ (st_low _ _ _ _ _ _ _ _ _ _ _ _ _ _ _ _ _ (r_stage _ _ _ _ _ _ _ _ _ _ _ _ _ _ _ _ _ _ _ _ _ R))). exact Ro. }
    exists dead2, log2. split.
    - eapply ran_trans; [exact R | exact R2 | | intros x Kx; exact Kx]. intros x Dx. exists r. split; assumption.
    - intros r1 y [<-|K1] Ry Ly; [|eapply C2; eassumption]. eapply kept; [exact R2|]. apply C; [intros b E; apply Bs; exact E | exact Ry | exact Ly].
  Qed.

  Lemma exits_in_list fuel depth b q : goal fuel -> forall l c1 dead1 log c2, stage c1 dead1 log -> site c1 dead1 b q -> NoDup l -> (forall x, In x l -> In x (bops (blocks c1) b)) ->
    iter (visit fuel depth b) c1 l = Some c2 ->
    exists dead2 log2, ran (reach q) c1 dead1 log c2 dead2 log2 /\ forall o, In o l ->
      (leaves o -> image log2 o <> None) /\ (forall x q' y, shape_at shape_of c o = Some x -> entered x = true -> region_parent c q' o -> reach q' y -> leaves y -> image log2 y <> None).
  Proof.
    intros G. induction l as [|o l IH]; intros c1 dead1 log c2 S St Nd Hin H; cbn [iter] in H.
    { injection H as <-. exists dead1, log. split; [apply ran_refl; exact S | intros y []]. }
    inversion Nd as [|? ? No Nd']; subst. destruct (nth_error (ops c1) o) as [d|] eqn:Ed; [|discriminate]. cbn [obind] in H. pose proof (st_low _ _ _ _ _ _ _ _ _ _ _ _ _ _ _ _ _ S) as L.
    assert (Sh : forall x, shape_at shape_of c o = Some x -> shape_of (o_kind d) = x).
    { intros x Sx. assert (Lx : o < length (ops c)) by (unfold shape_at in Sx; destruct (nth_error (ops c) o) eqn:Eo; [apply nth_error_Some; congruence | discriminate]). rewrite <- (shape_kept _ _ _ _ _ _ _ _ _ _ _ _ _ _ _ L o Lx) in Sx. unfold shape_at in Sx. rewrite Ed in Sx. cbn [option_map] in Sx. congruence. }
    assert (Step : exists c', iter (visit fuel depth b) c' l = Some c2 /\
              exists dead' log', ran (fun x => o < length (ops c) /\ (x = o \/ exists sh r, shape_at shape_of c o = Some sh /\ entered sh = true /\ region_parent c r o /\ reach r x)) c1 dead1 log c' dead' log' /\
                (leaves o -> image log' o <> None) /\ (forall x q' y, shape_at shape_of c o = Some x -> entered x = true -> region_parent c q' o -> reach q' y -> leaves y -> image log' y <> None)).
    { destruct (entered (shape_of (o_kind d))) eqn:Een.
      - assert (exists c', iter (visit fuel depth b) c' l = Some c2 /\ iter (fun c r => rd <- nth_error (regions c) r ;; replace_exits shape_of br_kind fuel depth c (r_blocks rd) header m) c1 (o_regions d) = Some c') as (c' & H1 & H2).
        { destruct (shape_of (o_kind d)); try discriminate; destruct (iter _ c1 (o_regions d)) as [c'|]; try discriminate; exists c'; split; solve [exact H | reflexivity]. }
        clear H. exists c'. split; [exact H1|]. destruct (Nat.lt_ge_cases o (length (ops c))) as [Lo|Lo].
        + destruct (site_in shape_of c dead I T b0 s P m pre post arg Q tail c1 dead1 log b q o L St (Hin o (or_introl eq_refl)) Lo) as (Po & So & Do & Im & N1 & N0). destruct (nth_error (ops c) o) as [d0|] eqn:Eo; [|apply nth_error_None in Eo; lia].
          destruct (swapped shape_of c dead b0 s P m pre post arg Q tail _ _ _ _ _ _ L Eo Ed N0) as (W1 & W2 & W3).
          destruct (exits_in_regions fuel depth o q G So (proj1 (proj2 St)) (o_regions d) c1 dead1 log c' S N1) as (dead' & log' & R & C); [intros r Kr; rewrite W3 in Kr; eapply regions_owned; eassumption | exact H2|].
          exists dead', log'. split; [eapply ran_weak; [exact R | intros x (r & Kx1 & Kx2); split; [exact Lo | right; exists (shape_of (o_kind d)), r; split; [unfold shape_at; rewrite Eo, W2; reflexivity | split; [exact Een | split; assumption]]]]|]. split.
          * intros [Lv|Lv]; rewrite (Sh _ Lv) in Een; discriminate.
          * intros x q' y Sx Ex Rq Ry Ly. apply (C q' y); [|exact Ry | exact Ly]. rewrite W3. apply rpar_in in Rq. apply (in_oregs c dead q' o I) in Rq. unfold oregs in Rq. rewrite Eo in Rq. exact Rq.
        + assert (Er : o_regions d = []) by (apply (lo_new _ _ _ _ _ _ _ _ _ _ _ _ _ _ _ L o d Lo Ed)). rewrite Er in H2. cbn in H2. injection H2 as <-. exists dead1, log. split; [apply ran_refl; exact S|]. split.
          * intros [Lv|Lv]; rewrite (Sh _ Lv) in Een; discriminate.
          * intros x q' y Sx. exfalso. unfold shape_at in Sx. destruct (nth_error (ops c) o) eqn:Eo; [|discriminate]. assert (o < length (ops c)) by (apply nth_error_Some; congruence). lia.
      - assert (Z : shape_of (o_kind d) = SLoop \/ exists vs t c', loop_turn (shape_of (o_kind d)) (o_operands d) = Some (vs, t) /\ turn_into_br br_kind depth c1 b o vs t = Some c' /\ iter (visit fuel depth b) c' l = Some c2).
        { destruct (shape_of (o_kind d)); try discriminate; [left; reflexivity | right | right].
          - destruct (turn_into_br br_kind depth c1 b o (o_operands d) header) as [c'|] eqn:Et; [|discriminate]. exists (o_operands d), header, c'. split; [reflexivity|]. split; [exact Et | exact H].
          - destruct (o_operands d) as [|v vs]; [discriminate|]. cbn [nth_error obind] in H. destruct (turn_into_br br_kind depth c1 b o (if Nat.eqb (width arg) 0 then [] else [v]) m) as [c'|] eqn:Et; [|discriminate]. exists (if Nat.eqb (width arg) 0 then [] else [v]), m, c'. split; [reflexivity|]. split; [exact Et | exact H]. }
        destruct Z as [Z|(vs & t & c' & Z1 & Z2 & Z3)].
        + rewrite Z in H. cbn [obind] in H. exists c1. split; [exact H|]. exists dead1, log. split; [apply ran_refl; exact S|]. split.
          * intros [Lv|Lv]; rewrite (Sh _ Lv) in Z; discriminate.
          * intros x q' y Sx Ex. rewrite (Sh x Sx) in Een. congruence.
        + exists c'. split; [exact Z3|]. destruct (exit_here shape_of br_kind Kb c dead I T bare b0 s P m pre post arg loop_turn loop_exit loop_incl Q tail depth c1 dead1 log b q o d vs t c' S St (Hin o (or_introl eq_refl)) Ed Z1 Z2) as (dead' & log' & R & Im & Lo).
          exists dead', log'. split; [eapply ran_weak; [exact R | intros x ->; split; [exact Lo | left; reflexivity]]|]. split; [intros _; exact Im|]. intros x q' y Sx Ex. rewrite (Sh x Sx) in Een. congruence. }
    destruct Step as (c' & H' & dead' & log' & R & Im & Re). clear H.
    assert (Ro : forall x, In x l -> In x (bops (blocks c') b)).
    { intros x Kx. apply (r_ops _ _ _ _ _ _ _ _ _ _ _ _ _ _ _ _ _ _ _ _ _ R); [apply Hin; right; exact Kx|]. intros (Lo & [->|(sh & r0 & _ & _ & Rr0 & Ix0)]); [contradiction|]. assert (Ix : inside_op c o x) by (exists r0; split; [exact Rr0 | apply reach_deep; exact Ix0]). destruct (ti_rank c dead T) as (rank & Rk).
      destruct (site_in shape_of c dead I T b0 s P m pre post arg Q tail c1 dead1 log b q o L St (Hin o (or_introl eq_refl)) Lo) as (_ & So & _). assert (Lx : x < length (ops c)) by (destruct Ix as (r & _ & Dx); assert (exists q, stands c x q) as (q1 & S1) by (destruct Dx; eauto); destruct (stands_old c dead I x q1 S1) as (d0 & E0); apply nth_error_Some; congruence).
      destruct (site_in shape_of c dead I T b0 s P m pre post arg Q tail c1 dead1 log b q x L St (Hin x (or_intror Kx)) Lx) as (_ & Sx & _). exact (inside_elsewhere shape_of c dead rank o x q I Rk So Ix Sx). }
    destruct (IH c' dead' log' c2) as (dead2 & log2 & R2 & C2); [apply R | eapply site_ran; eassumption | exact Nd' | exact Ro | exact H' |].
    exists dead2, log2. split.
    - eapply ran_trans; [exact R | exact R2 | | intros x Kx; exact Kx]. intros x (Lo & Kx). destruct (site_in shape_of c dead I T b0 s P m pre post arg Q tail c1 dead1 log b q o L St (Hin o (or_introl eq_refl)) Lo) as (_ & So & _). destruct Kx as [->|(sh & r & S1 & S2 & Rr & Dx)]; [apply reach_here; exact So | eapply reach_in; eassumption].
    - intros y [<-|Ky]; [|apply C2; exact Ky]. split; [intros Lv; eapply kept; [exact R2 | apply Im; exact Lv]|]. intros x q' y Sx Ex Rq Ry Ly. eapply kept; [exact R2 | eapply Re; eassumption].
  Qed.

  Theorem exits_replaced fuel : goal fuel.
  Proof.
    induction fuel as [|fuel IHf]; intros depth q bs c1 dead1 log c2 S Hs H; [discriminate|]. cbn [replace_exits] in H.
    rewrite (width_args shape_of c dead b0 s P m pre post arg Q tail c1 dead1 log (st_low _ _ _ _ _ _ _ _ _ _ _ _ _ _ _ _ _ S)) in H.
    assert (Go : exists dead2 log2, ran (reach q) c1 dead1 log c2 dead2 log2 /\ forall b o, In b bs -> In o (bops (blocks c) b) ->
      (leaves o -> image log2 o <> None) /\ (forall x q' y, shape_at shape_of c o = Some x -> entered x = true -> region_parent c q' o -> reach q' y -> leaves y -> image log2 y <> None)).
    { revert c1 dead1 log S Hs H. induction bs as [|b bs IH]; intros c1 dead1 log S Hs H; cbn [iter] in H.
      { injection H as <-. exists dead1, log. split; [apply ran_refl; exact S | intros b y []]. }
      destruct (nth_error (blocks c1) b) as [bd|] eqn:Eb; [|discriminate]. cbn [obind] in H. destruct (iter _ c1 (b_ops bd)) as [c'|] eqn:Ei; [|discriminate]. cbn [obind] in H. rewrite <- (bops_nth c1 b bd Eb) in Ei.
      pose proof (st_low _ _ _ _ _ _ _ _ _ _ _ _ _ _ _ _ _ S) as L. pose proof (lo_inv _ _ _ _ _ _ _ _ _ _ _ _ _ _ _ L) as I1. pose proof (Hs b (or_introl eq_refl)) as Sb.
      destruct (exits_in_list fuel depth b q IHf _ c1 dead1 log c' S Sb (bops_nodup c1 dead1 b I1) (fun x K => K) Ei) as (dead' & log' & R & C).
      destruct (IH c' dead' log') as (dead2 & log2 & R2 & C2); [apply R | intros b1 K; eapply site_ran; [exact R | apply Hs; right; exact K] | exact H |].
      exists dead2, log2. split; [eapply ran_trans; [exact R | exact R2 | intros x Kx; exact Kx | intros x Kx; exact Kx]|].
      intros b1 o [<-|Kb1] Ko; [|eapply C2; eassumption]. destruct (image log o) as [z|] eqn:Ez0.
      - assert (Im : image log2 o <> None) by (eapply kept; [exact R2|]; eapply kept; [exact R|]; congruence). split; [intros _; exact Im|]. intros x q' y Sx Ex. exfalso.
        destruct (st_log _ _ _ _ _ _ _ _ _ _ _ _ _ _ _ _ _ S o z Ez0) as (d & _ & vs & t & Ed & Et & _). unfold shape_at in Sx. rewrite Ed in Sx. cbn [option_map] in Sx. injection Sx as <-. destruct (shape_of (o_kind d)); discriminate.
      - destruct (C o) as (C3 & C4); [eapply unlogged; [exact I | exact T | exact L | exact Sb | exact Ko | exact Ez0]|]. split; [intros Lv; eapply kept; [exact R2 | apply C3; exact Lv]|]. intros x q' y Sx Ex Rq Ry Ly. eapply kept; [exact R2 | eapply C4; eassumption]. }
    destruct Go as (dead2 & log2 & R & C). exists dead2, log2. split; [exact R|]. intros All y Ry Ly. destruct Ry as [y Sy|o x q' y So Sx Ex Rq Ry].
    - apply (stands_par c dead y q I) in Sy. destruct Sy as (b & Sb & Sq). apply (C b y); [apply All; exact Sq | apply (in_bops c dead y b I); exact Sb | exact Ly].
    - apply (stands_par c dead o q I) in So. destruct So as (b & Sb & Sq). eapply (C b o); [apply All; exact Sq | apply (in_bops c dead o b I); exact Sb | exact Sx | exact Ex | exact Rq | exact Ry | exact Ly].
  Qed.
End LoopExits.
