(** Lowering one switch. *)
From Verif Require Import ScfModel ScfSpec IrProofs IrInvProofs IrMainProofs ScfSim ScfRun ScfArena ScfLower ScfExits ScfObl ScfIf.
From Coq Require Import Lia.

(** ** The cases of a switch body *)
Section Cases.
  Context {V : Type}.
  Variable shape_of : nat -> shape.
  Variable case_value : nat -> nat.
  Variable equal : V -> nat -> bool.
  Variable c : ctx.

  Definition body_of (o r : nat) (x : shape) : Prop := exists d, nth_error (ops c) o = Some d /\ shape_of (o_kind d) = x /\ nth_error (o_regions d) 0 = Some r.
  Lemma collect_case l : forall cases def, collect shape_of case_value c l = Some (cases, def) -> forall v r, In (v, r) cases -> exists o, In o l /\ body_of o r SCase.
  Proof.
    induction l as [|o l IH]; intros cases def H v r K; cbn [collect] in H.
    - injection H as <- <-. destruct K.
    - bindin H d Ed. destruct (shape_of (o_kind d)) eqn:Es;
        try (destruct (IH _ _ H v r K) as (o' & K1 & K2); exists o'; split; [right; exact K1 | exact K2]).
      + bindin H r0 Er. bindin H y Ey. destruct y as [cs df]. injection H as <- <-. destruct K as [K|K].
        * injection K as <- <-. exists o. split; [left; reflexivity | exists d; auto].
        * destruct (IH _ _ eq_refl v r K) as (o' & K1 & K2). exists o'. split; [right; exact K1 | exact K2].
      + bindin H r0 Er. bindin H y Ey. destruct y as [cs df]. injection H as <- <-. destruct (IH _ _ eq_refl v r K) as (o' & K1 & K2). exists o'. split; [right; exact K1 | exact K2].
  Qed.
  Lemma collect_default l : forall cases def, collect shape_of case_value c l = Some (cases, def) -> forall r, def = Some r -> exists o, In o l /\ body_of o r SDefault.
  Proof.
    induction l as [|o l IH]; intros cases def H r K; cbn [collect] in H.
    - injection H as <- <-. discriminate.
    - bindin H d Ed. destruct (shape_of (o_kind d)) eqn:Es;
        try (destruct (IH _ _ H r K) as (o' & K1 & K2); exists o'; split; [right; exact K1 | exact K2]).
      + bindin H r0 Er. bindin H y Ey. destruct y as [cs df]. injection H as <- <-. destruct (IH _ _ eq_refl r K) as (o' & K1 & K2). exists o'. split; [right; exact K1 | exact K2].
      + bindin H r0 Er. bindin H y Ey. destruct y as [cs df]. injection H as <- <-. destruct df as [r1|].
        * destruct (IH _ _ eq_refl r K) as (o' & K1 & K2). exists o'. split; [right; exact K1 | exact K2].
        * injection K as <-. exists o. split; [left; reflexivity | exists d; auto].
  Qed.
  Lemma collect_nodup dead l : inv c dead -> NoDup l -> forall cases def, collect shape_of case_value c l = Some (cases, def) -> NoDup (map snd cases).
  Proof.
    intros I. induction l as [|o l IH]; intros N cases def H; cbn [collect] in H; inversion N as [|? ? No Nl]; subst.
    - injection H as <- <-. constructor.
    - bindin H d Ed. destruct (shape_of (o_kind d)) eqn:Es; try exact (IH Nl _ _ H).
      + bindin H r0 Er. bindin H y Ey. destruct y as [cs df]. injection H as <- <-. cbn [map snd]. constructor; [|exact (IH Nl _ _ eq_refl)].
        intros K. apply in_map_iff in K. destruct K as ([v r] & Ek & K). cbn in Ek. subst r. destruct (collect_case l cs df Ey v r0 K) as (o' & K1 & (d' & E' & S' & R')). assert (o' = o) by (eapply rparent_unique; [exact (region_of c dead o' d' 0 r0 I E' R') | exact (region_of c dead o d 0 r0 I Ed Er)]). subst o'. contradiction.
      + bindin H r0 Er. bindin H y Ey. destruct y as [cs df]. injection H as <- <-. exact (IH Nl _ _ eq_refl).
  Qed.
  Definition region_at (o r : nat) : Prop := exists d, nth_error (ops c) o = Some d /\ nth_error (o_regions d) 0 = Some r.
  (** Which body runs, read off the collected lists. *)
  Lemma collect_find l v : forall cases def, collect shape_of case_value c l = Some (cases, def) ->
    match find (fun p => equal v (fst p)) cases with
    | Some p => exists o, find (matching_case shape_of case_value equal c v) l = Some o /\ region_at o (snd p)
    | None => find (matching_case shape_of case_value equal c v) l = None
    end.
  Proof.
    induction l as [|o l IH]; intros cases def H; cbn [collect] in H.
    - injection H as <- <-. reflexivity.
    - bindin H d Ed. cbn [find]. unfold matching_case at 1 3. rewrite Ed. destruct (shape_of (o_kind d)) eqn:Es; try exact (IH _ _ H).
      + bindin H r0 Er. bindin H y Ey. destruct y as [cs df]. injection H as <- <-. cbn [find fst]. destruct (equal v (case_value (o_kind d))); [|exact (IH _ _ eq_refl)]. exists o. split; [reflexivity | exists d; auto].
      + bindin H r0 Er. bindin H y Ey. destruct y as [cs df]. injection H as <- <-. exact (IH _ _ eq_refl).
  Qed.
  Lemma find_snoc {X} (f : X -> bool) l a : find f (l ++ [a]) = match find f l with Some x => Some x | None => if f a then Some a else None end.
  Proof. induction l as [|x l IH]; cbn; [reflexivity|]. destruct (f x); [reflexivity | exact IH]. Qed.
  Lemma collect_rev l : forall cases def, collect shape_of case_value c l = Some (cases, def) ->
    match def with
    | Some r => exists o, find (default_case shape_of c) (rev l) = Some o /\ region_at o r
    | None => find (default_case shape_of c) (rev l) = None
    end.
  Proof.
    induction l as [|o l IH]; intros cases def H; cbn [collect] in H.
    - injection H as <- <-. reflexivity.
    - bindin H d Ed. cbn [rev]. rewrite find_snoc. unfold default_case at 2 4. rewrite Ed. assert (Go : forall cs df, collect shape_of case_value c l = Some (cs, df) -> shape_of (o_kind d) <> SDefault ->
        match df with
        | Some r => exists o0, match find (default_case shape_of c) (rev l) with Some x => Some x | None => if match shape_of (o_kind d) with SDefault => true | _ => false end then Some o else None end = Some o0 /\ region_at o0 r
        | None => match find (default_case shape_of c) (rev l) with Some x => Some x | None => if match shape_of (o_kind d) with SDefault => true | _ => false end then Some o else None end = None
        end).
      { intros cs df E N. specialize (IH cs df E). destruct df as [r|]; [destruct IH as (o0 & -> & K); exists o0; auto|]. rewrite IH. destruct (shape_of (o_kind d)); try reflexivity. contradiction. }
      destruct (shape_of (o_kind d)) eqn:Es; try (apply (Go _ _ H); discriminate).
      + bindin H r0 Er. bindin H y Ey. destruct y as [cs df]. injection H as <- <-. apply (Go _ _ eq_refl). discriminate.
      + bindin H r0 Er. bindin H y Ey. destruct y as [cs df]. injection H as <- <-. specialize (IH _ _ eq_refl). destruct df as [r|].
        * destruct IH as (o0 & -> & K). exists o0. auto.
        * rewrite IH. exists o. split; [reflexivity | exists d; auto].
  Qed.
  Lemma collect_selected l v cases def : collect shape_of case_value c l = Some (cases, def) ->
    match find (fun p => equal v (fst p)) cases with
    | Some p => exists o, selected shape_of case_value equal c v l = Some o /\ region_at o (snd p)
    | None => match def with
              | Some r => exists o, selected shape_of case_value equal c v l = Some o /\ region_at o r
              | None => selected shape_of case_value equal c v l = None
              end
    end.
  Proof.
    intros H. pose proof (collect_find l v cases def H) as F. pose proof (collect_rev l cases def H) as R. unfold selected. destruct (find (fun p => equal v (fst p)) cases) as [p|].
    - destruct F as (o & -> & K). exists o. auto.
    - rewrite F. exact R.
  Qed.
End Cases.

(** ** Moving the bodies *)
Section Bodies.
  Variable shape_of : nat -> shape.
  Variable br_kind : nat.
  Hypothesis Kb : shape_of br_kind = SBr.
  Variable c : ctx.
  Variable dead : list nat.
  Hypothesis I : inv c dead.
  Hypothesis T : tidy c dead.
  Hypothesis bare : forall x d, nth_error (ops c) x = Some d -> is_exit (shape_of (o_kind d)) = true -> o_regions d = [].
  Variables b0 s P m : nat.
  Variables pre post : list nat.
  Variable arg : option (nat * nat).
  Local Notation low c1 dead1 Q log tail := (lowering shape_of c dead c1 dead1 b0 s P m pre post Q log tail arg).
  Local Notation stage Q := (stage shape_of br_kind c dead b0 s P m pre post arg (yield_turn m arg) Q []).

  Record bodies (Q : nat -> bool) (c1 : ctx) (dead1 : list nat) (log : list (nat * nat)) : Prop := {
    bo_stage : stage Q c1 dead1 log;
    bo_within : forall y z q, image log y = Some z -> stands c y q -> Q q = true;
    bo_complete : forall y q, stands c y q -> Q q = true -> shape_at shape_of c y = Some SYield -> image log y <> None;
  }.
  Lemma one_body depth Q c1 dead1 log r c2 e bs : bodies Q c1 dead1 log -> loose dead c1 dead1 -> child shape_of c s r -> Q r = false -> inline_case shape_of br_kind depth c1 r P m = Some (c2, (e, bs)) ->
    exists dead2 log2, bodies (fun q => Nat.eqb q r || Q q) c2 dead2 log2 /\ loose dead c2 dead2 /\ hd_error (rblks (regions c) r) = Some e /\ (forall x, In x bs -> bpar (blocks c) x = Some r).
  Proof.
    intros Bo Lo Ch Qr H. unfold inline_case in H. bindin H y1 E1. destruct y1 as [c3 bs0]. bindin H c4 E4. bindin H e0 Ee. injection H as <- <- <-. pose proof (bo_stage _ _ _ _ Bo) as S1. pose proof (st_low _ _ _ _ _ _ _ _ _ _ _ _ _ _ _ _ _ S1) as L1.
    destruct (inlined shape_of c dead I T b0 s P m pre post arg _ _ _ _ _ _ _ _ L1 Lo E1 Ch Qr) as (L3 & Lo3 & K3 & Bt & _ & Ht & B3 & _ & O3). set (Q' := fun q => Nat.eqb q r || Q q) in *. assert (Q'r : Q' r = true) by (unfold Q'; rewrite Nat.eqb_refl; reflexivity).
    assert (S3 : stage Q' c3 dead1 log). { constructor; [exact L3 | |]. - intros y z K. destruct (st_log _ _ _ _ _ _ _ _ _ _ _ _ _ _ _ _ _ S1 y z K) as (d & dz & vs & t & F1 & F2 & F3 & F4 & F5 & F6 & F7). exists d, dz, vs, t. rewrite O3, (k_results _ _ _ _ K3) by (apply nth_error_Some; congruence). repeat split; assumption. - rewrite O3. apply S1. }
    destruct (yields_replaced shape_of br_kind Kb c dead I T bare b0 s P m pre post arg Q' [] depth r bs0 c3 dead1 log c4 S3) as (dead4 & log4 & A4 & F4). { intros b1 K. eapply own_site; [exact I | exact T | exact L3 | apply Bt; exact K | exact Q'r]. } { exact E4. }
    exists dead4, log4. split; [constructor|split; [|split]].
    - apply (r_stage _ _ _ _ _ _ _ _ _ _ _ _ _ _ _ _ _ _ _ _ _ A4).
    - intros y z q Im Sy. destruct (r_Z _ _ _ _ _ _ _ _ _ _ _ _ _ _ _ _ _ _ _ _ _ A4 y z Im) as [K|K]; [unfold Q'; rewrite (bo_within _ _ _ _ Bo y z q K Sy); apply orb_true_r | rewrite (stands_unique c dead y q r I Sy K); exact Q'r].
    - intros y q Sy EQ Yy. destruct (Nat.eqb_spec q r) as [->|Nq].
      + pose proof Sy as Sy0. apply (stands_par c dead y r I) in Sy0. destruct Sy0 as (b1 & Py & Pb). apply (in_bops c dead y b1 I) in Py. exact (F4 b1 y (proj2 (Bt b1) Pb) Py Yy).
      + unfold Q' in EQ. destruct (Nat.eqb_spec q r); [contradiction|]. cbn [orb] in EQ. pose proof (bo_complete _ _ _ _ Bo y q Sy EQ Yy) as N. destruct (image log y) as [w|] eqn:Im; [|contradiction]. rewrite (r_log _ _ _ _ _ _ _ _ _ _ _ _ _ _ _ _ _ _ _ _ _ A4 y w Im). discriminate.
    - apply (r_loose _ _ _ _ _ _ _ _ _ _ _ _ _ _ _ _ _ _ _ _ _ A4). exact Lo3.
    - rewrite <- Ht, <- nth_hd. exact Ee.
    - intros x K. apply Bt. exact K.
  Qed.
  Lemma all_bodies depth rs : forall Q c1 dead1 log c2 es bs, bodies Q c1 dead1 log -> loose dead c1 dead1 -> NoDup rs -> (forall r, In r rs -> child shape_of c s r /\ Q r = false) ->
    inline_cases shape_of br_kind depth c1 rs P m = Some (c2, (es, bs)) ->
    exists Q2 dead2 log2, bodies Q2 c2 dead2 log2 /\ loose dead c2 dead2 /\ (forall q, Q2 q = true <-> In q rs \/ Q q = true) /\ Forall2 (fun r e => hd_error (rblks (regions c) r) = Some e) rs es /\ (forall x, In x bs -> exists r, In r rs /\ bpar (blocks c) x = Some r).
  Proof.
    induction rs as [|r rs IH]; intros Q c1 dead1 log c2 es bs Bo Lo N Ch H; cbn [inline_cases] in H.
    - injection H as <- <- <-. exists Q, dead1, log. split; [exact Bo|]. split; [exact Lo|]. split; [cbn; tauto|]. split; [constructor | intros x []].
    - bindin H y1 E1. destruct y1 as [c3 [e bs1]]. bindin H y2 E2. destruct y2 as [c4 [es2 bs2]]. injection H as <- <- <-. inversion N as [|? ? Nr Nrs]; subst. destruct (Ch r (or_introl eq_refl)) as (Cr & Qr).
      destruct (one_body depth Q c1 dead1 log r c3 e bs1 Bo Lo Cr Qr E1) as (dead3 & log3 & Bo3 & Lo3 & He & Hb).
      destruct (IH _ c3 dead3 log3 c4 es2 bs2 Bo3 Lo3 Nrs) as (Q2 & dead2 & log2 & Bo2 & Lo2 & HQ & HF & HB); [|exact E2|].
      + intros r' K. destruct (Ch r' (or_intror K)) as (C' & Q'). split; [exact C'|]. destruct (Nat.eqb_spec r' r) as [->|]; [contradiction | exact Q'].
      + exists Q2, dead2, log2. split; [exact Bo2|]. split; [exact Lo2|]. split; [|split; [constructor; assumption|]].
        * intros q. rewrite HQ. destruct (Nat.eqb_spec q r) as [->|Nq]; cbn [orb In]; [intuition congruence|]. intuition congruence.
        * intros x K. apply in_app_or in K. destruct K as [K|K]; [exists r; split; [left; reflexivity | apply Hb; exact K]|]. destruct (HB x K) as (r' & K1 & K2). exists r'. split; [right; exact K1 | exact K2].
  Qed.
  Lemma new_inside Q c1 dead1 log x q : bodies Q c1 dead1 log -> stands c1 x q -> length (ops c) <= x -> q = P.
  Proof.
    intros Bo Sx Lx. pose proof (st_low _ _ _ _ _ _ _ _ _ _ _ _ _ _ _ _ _ (bo_stage _ _ _ _ Bo)) as L1. pose proof (lo_inv _ _ _ _ _ _ _ _ _ _ _ _ _ _ _ L1) as I1.
    apply (stands_par c1 dead1 x q I1) in Sx. destruct Sx as (b & Px & Pb). destruct (Nat.lt_ge_cases b (length (blocks c))) as [Lb|Lb]; [|exact (lo_newpar _ _ _ _ _ _ _ _ _ _ _ _ _ _ _ L1 b q Lb Pb)].
    apply (in_bops c1 dead1 x b I1) in Px. rewrite (lo_bops _ _ _ _ _ _ _ _ _ _ _ _ _ _ _ L1 b Lb) in Px. apply (relist_In _ _ _ _ _ (lo_once _ _ _ _ _ _ _ _ _ _ _ _ _ _ _ L1)) in Px. destruct Px as [K|[[]|(y & K & Im)]].
    - apply (in_bops c dead x b I) in K. unfold par in K. destruct (nth_error (ops c) x) eqn:E; [|discriminate]. assert (x < length (ops c)) by (apply nth_error_Some; congruence). lia.
    - rewrite (lo_bpar _ _ _ _ _ _ _ _ _ _ _ _ _ _ _ L1 b Lb) in Pb. destruct (bpar (blocks c) b) as [q0|] eqn:Eq; [|discriminate]. cbn [option_map] in Pb. injection Pb as <-. apply rho_in. apply (bo_within _ _ _ _ Bo y x q0 Im). apply (stands_par c dead y q0 I). exists b. split; [apply (in_bops c dead y b I); exact K | exact Eq].
  Qed.
End Bodies.

(** ** The comparisons *)
Definition described (c : ctx) (o kind : nat) (vs ss rs : list nat) : Prop := exists d, nth_error (ops c) o = Some d /\ o_kind d = kind /\ o_operands d = vs /\ o_succs d = ss /\ op_results c o = rs.
Lemma described_kept c1 dead1 c2 dead2 o k vs ss rs : keeps c1 dead1 c2 dead2 -> described c1 o k vs ss rs -> described c2 o k vs ss rs.
Proof.
  intros K (d & E & E1 & E2 & E3 & E4). destruct (k_ops _ _ _ _ K o d E) as (d' & E' & (S1 & _ & _ & S4) & O'). exists d'. rewrite (k_results _ _ _ _ K) by (apply nth_error_Some; congruence). repeat split; congruence.
Qed.

Section Chain.
  Variable shape_of : nat -> shape.
  Variables br_kind cond_br_kind cmp_kind bool_type : nat.
  Variable const_kind : nat -> nat.
  Variable c : ctx.
  Variable dead : list nat.
  Hypothesis I : inv c dead.
  Hypothesis T : tidy c dead.
  Variables b0 s P m : nat.
  Variables pre post : list nat.
  Variable arg : option (nat * nat).
  Local Notation low c1 dead1 Q log tail := (lowering shape_of c dead c1 dead1 b0 s P m pre post Q log tail arg).

  Inductive tests (c' : ctx) (disc default : nat) : list (nat * nat) -> list nat -> Prop :=
  | ts_last a e k q z kv qv : described c' k (const_kind a) [] [] [kv] -> described c' q cmp_kind [disc; kv] [] [qv] -> described c' z cond_br_kind [qv] [e; default] [] ->
      length (vals c) <= kv -> length (vals c) <= qv -> tests c' disc default [(a, e)] [k; q; z]
  | ts_more a e k q z kv qv other rest l : described c' k (const_kind a) [] [] [kv] -> described c' q cmp_kind [disc; kv] [] [qv] -> described c' z cond_br_kind [qv] [e; other] [] ->
      length (vals c) <= kv -> length (vals c) <= qv -> bpar (blocks c') other = Some P -> bops (blocks c') other = l -> tests c' disc default rest l ->
      tests c' disc default ((a, e) :: rest) [k; q; z].

  Definition spare (c1 : ctx) (b : nat) : Prop := b = b0 \/ (length (blocks c) <= b /\ b <> m /\ b < length (blocks c1)).
  Lemma put Q log c1 dead1 tail b z c2 : low c1 dead1 Q log tail -> spare c1 b -> push_op c1 b z = Some c2 -> length (ops c) <= z ->
    exists tail2, low c2 dead1 Q log tail2 /\ keeps c1 dead1 c2 dead1 /\ (forall x, bops (blocks c2) x = if Nat.eqb x b then bops (blocks c1) b ++ [z] else bops (blocks c1) x) /\
      (forall x, bpar (blocks c2) x = bpar (blocks c1) x) /\ length (blocks c2) = length (blocks c1) /\ regions c2 = regions c1 /\ op_results c2 = op_results c1 /\ vals c2 = vals c1 /\ length (ops c2) = length (ops c1).
  Proof.
    intros L [->|(B1 & B2 & B3)] H Lz.
    - destruct (pushed shape_of c dead I b0 s P m pre post arg _ _ _ _ _ _ _ L H Lz) as (L2 & K2 & M2 & P2 & R2 & Lb2 & O2). exists (tail ++ [z]). split; [exact L2|]. split; [exact K2|]. split; [|split; [exact P2|split; [exact Lb2|split; [exact R2 | split; [apply M2 | split; [apply M2 | apply (mv_len _ _ M2)]]]]]].
      intros x. destruct (Nat.eqb_spec x b0) as [->|N]; [|apply O2; exact N].
      assert (Lb : b0 < length (blocks c)) by (apply (bpar_old c b0 P); apply L). rewrite (lo_bops _ _ _ _ _ _ _ _ _ _ _ _ _ _ _ L2 b0 Lb), (lo_bops _ _ _ _ _ _ _ _ _ _ _ _ _ _ _ L b0 Lb), (lo_home _ _ _ _ _ _ _ _ _ _ _ _ _ _ _ L). unfold relist. rewrite existsb_app. cbn [existsb]. rewrite Nat.eqb_refl, orb_true_r. apply app_assoc.
    - destruct (pushed_new shape_of c dead I b0 s P m pre post arg _ _ _ _ _ _ _ _ L H Lz B1 B2) as (L2 & K2 & M2 & P2 & R2 & Lb2 & O2). exists tail. split; [exact L2|]. split; [exact K2|]. split; [exact O2|]. split; [exact P2|]. split; [exact Lb2|]. split; [exact R2|]. split; [apply M2|]. split; [apply M2 | apply (mv_len _ _ M2)].
  Qed.
  (** Make an operation and push it. *)
  Lemma made Q log c1 dead1 tail b k vs ts ss c2 z c3 : low c1 dead1 Q log tail -> spare c1 b -> create_op c1 k vs ts [] ss = Some (c2, z) -> (forall v, In v vs -> v < length (vals c1)) -> push_op c2 b z = Some c3 ->
    exists tail2, low c3 dead1 Q log tail2 /\ keeps c1 dead1 c3 dead1 /\ (forall x, bops (blocks c3) x = if Nat.eqb x b then bops (blocks c1) b ++ [z] else bops (blocks c1) x) /\
      (forall x, bpar (blocks c3) x = bpar (blocks c1) x) /\ length (blocks c3) = length (blocks c1) /\ regions c3 = regions c1 /\
      described c3 z k vs ss (seq (length (vals c1)) (length ts)) /\ length (vals c3) = length (vals c1) + length ts /\ z = length (ops c1) /\ length (ops c3) = S (length (ops c1)).
  Proof.
    intros L Sp H Vs H2. destruct (created shape_of c dead I b0 s P m pre post arg _ _ _ _ _ _ _ _ _ _ _ L H Vs) as (L2 & K2 & Ez & Lo2 & B2 & R2 & Dz & Rz & V2).
    assert (Lz : length (ops c) <= z). { rewrite Ez. eapply low_olen. exact L. } assert (Sp2 : spare c2 b) by (unfold spare in *; rewrite B2; exact Sp).
    destruct (put Q log c2 dead1 tail b z c3 L2 Sp2 H2 Lz) as (tail2 & L3 & K3 & O3 & P3 & Lb3 & R3 & Rs3 & V3 & Lo3). exists tail2. split; [exact L3|]. split; [eapply keeps_trans; eassumption|]. rewrite B2 in O3, P3, Lb3. split; [exact O3|]. split; [exact P3|]. split; [exact Lb3|]. split; [congruence|]. split.
    - eapply described_kept; [exact K3|]. exists {| o_kind := k; o_operands := vs; o_result_types := ts; o_regions := []; o_succs := ss; o_parent := None |}. repeat split; assumption.
    - split; [rewrite V3; exact V2|]. split; [exact Ez | congruence].
  Qed.
  Lemma block_before_ok Q log c1 dead1 tail c2 b : low c1 dead1 Q log tail -> block_before c1 P m = Some (c2, b) ->
    low c2 dead1 Q log tail /\ keeps c1 dead1 c2 dead1 /\ b = length (blocks c1) /\ length (blocks c2) = S (length (blocks c1)) /\ (forall x, bops (blocks c2) x = bops (blocks c1) x) /\
    (forall x, bpar (blocks c2) x = if Nat.eqb x b then Some P else bpar (blocks c1) x) /\ op_results c2 = op_results c1 /\ length (vals c2) = length (vals c1).
  Proof.
    intros L H. unfold block_before in H. destruct (create_block c1 []) as [c3 b'] eqn:E3. bindin H rgd Er. bindin H p Ep. injection H as <- <-.
    destruct (block_made shape_of c dead I b0 s P m pre post arg _ _ _ _ _ _ _ L E3) as (L3 & K3 & Eb & O3 & R3 & Lb3 & V3 & _ & Rs3 & B3 & P3 & N3).
    pose proof (low_blen shape_of c dead b0 s P m pre post arg _ _ _ _ _ L) as Lc.
    destruct (block_placed shape_of c dead I T b0 s P m pre post arg _ _ _ _ _ b' p rgd L3 Er Ep) as (L2 & K2 & M2 & O2 & B2 & P2 & Lb2); [lia | lia | exact N3|]. split; [exact L2|]. split; [eapply keeps_trans; eassumption|]. split; [exact Eb|]. split; [lia|]. split; [intros x; rewrite B2; apply B3|].
    split; [intros x; rewrite P2; destruct (Nat.eqb x b'); [reflexivity | apply P3]|]. split; [rewrite (mv_results _ _ M2); exact Rs3 | rewrite (mv_vals _ _ M2), V3; reflexivity].
  Qed.
  Lemma chain_ok Q log disc ty default l : forall c1 dead1 tail b c2, low c1 dead1 Q log tail -> spare c1 b -> l <> [] -> disc < length (vals c) ->
    chain cond_br_kind cmp_kind bool_type const_kind c1 b disc ty l default P m = Some c2 ->
    exists tail2 l2, low c2 dead1 Q log tail2 /\ keeps c1 dead1 c2 dead1 /\ bops (blocks c2) b = bops (blocks c1) b ++ l2 /\ (forall x, x < length (blocks c1) -> x <> b -> bops (blocks c2) x = bops (blocks c1) x) /\
      (forall x, x < length (blocks c1) -> bpar (blocks c2) x = bpar (blocks c1) x) /\ tests c2 disc default l l2.
  Proof.
    induction l as [|[a e] rest IH]; intros c1 dead1 tail b c2 L Sp Nl Ld H; [contradiction|]. cbn [chain] in H.
    bindin H y1 E1. destruct y1 as [ca k]. bindin H cb E2. bindin H kv E3. bindin H y4 E4. destruct y4 as [cc q]. bindin H cd E5. bindin H y6 E6. destruct y6 as [ce other]. bindin H qv E7. bindin H y8 E8. destruct y8 as [cf z]. bindin H cg E9.
    pose proof (lo_vals _ _ _ _ _ _ _ _ _ _ _ _ _ _ _ L) as V1. assert (Lb : b < length (blocks c1)). { destruct Sp as [->|(_ & _ & K)]; [|exact K]. pose proof (bpar_old c b0 P (lo_where _ _ _ _ _ _ _ _ _ _ _ _ _ _ _ L)). pose proof (low_blen shape_of c dead b0 s P m pre post arg _ _ _ _ _ L). lia. }
    destruct (made Q log c1 dead1 tail b _ _ _ _ ca k cb L Sp E1 ltac:(intros v []) E2) as (t2 & Lb2 & K2 & O2 & P2 & N2 & R2 & D2 & V2 & _). cbn [length seq] in D2, V2.
    assert (kv = length (vals c1)) as ->. { destruct D2 as (d & _ & _ & _ & _ & D). rewrite D in E3. cbn in E3. congruence. }
    assert (Sp2 : spare cb b) by (unfold spare in *; rewrite N2; exact Sp).
    destruct (made Q log cb dead1 t2 b _ _ _ _ cc q cd Lb2 Sp2 E4) as (t3 & L3 & K3 & O3 & P3 & N3 & R3 & D3 & V3 & _); [intros v [<-|[<-|[]]]; lia | exact E5|]. cbn [length seq] in D3, V3.
    assert (J : low ce dead1 Q log t3 /\ keeps cd dead1 ce dead1 /\ length (blocks cd) <= length (blocks ce) /\ (forall x, bops (blocks ce) x = bops (blocks cd) x) /\ (forall x, x < length (blocks cd) -> bpar (blocks ce) x = bpar (blocks cd) x) /\ length (vals ce) = length (vals cd) /\
      (rest = [] -> ce = cd /\ other = default) /\ (rest <> [] -> other = length (blocks cd) /\ length (blocks ce) = S (length (blocks cd)) /\ bpar (blocks ce) other = Some P)).
    { destruct rest as [|p rest].
      - injection E6 as <- <-. split; [exact L3|]. split; [apply keeps_refl; apply L3|]. split; [lia|]. split; [reflexivity|]. split; [reflexivity|]. split; [reflexivity|]. split; [auto | contradiction].
      - destruct (block_before_ok Q log cd dead1 t3 ce other L3 E6) as (J1 & J2 & J3 & J4 & J5 & J6 & J7 & J8). split; [exact J1|]. split; [exact J2|]. split; [lia|]. split; [exact J5|]. split; [intros x Lx; rewrite J6; destruct (Nat.eqb_spec x other); [lia | reflexivity]|]. split; [exact J8|]. split; [discriminate|]. intros _. split; [exact J3|]. split; [exact J4|]. rewrite J6, Nat.eqb_refl. reflexivity. }
    destruct J as (J1 & J2 & J3 & J5 & J6 & J8 & J9 & J10). pose proof (keeps_trans _ _ _ _ _ _ K3 J2) as K3e.
    assert (qv = length (vals cb)) as ->. { pose proof (described_kept _ _ _ _ _ _ _ _ _ J2 D3) as (d & _ & _ & _ & _ & D). rewrite D in E7. cbn in E7. congruence. }
    assert (Sp3 : spare ce b) by (unfold spare in *; destruct Sp as [K|(A1 & A2 & A3)]; [left; exact K | right; repeat split; lia]).
    destruct (made Q log ce dead1 t3 b _ _ _ _ cf z cg J1 Sp3 E8) as (t4 & L4 & K4 & O4 & P4 & N4 & R4 & D4 & V4 & _); [intros v [<-|[]]; lia | exact E9|]. cbn [length seq] in D4, V4.
    pose proof (keeps_trans _ _ _ _ _ _ K3e K4) as K34. pose proof (keeps_trans _ _ _ _ _ _ K2 K34) as K24. pose proof (described_kept _ _ _ _ _ _ _ _ _ K34 D2) as D2'. pose proof (described_kept _ _ _ _ _ _ _ _ _ J2 D3) as D3'. apply (described_kept _ _ _ _ _ _ _ _ _ K4) in D3'.
    assert (Ob : bops (blocks cg) b = bops (blocks c1) b ++ [k; q; z]). { rewrite O4, Nat.eqb_refl, J5, O3, Nat.eqb_refl, O2, Nat.eqb_refl. rewrite <- !app_assoc. reflexivity. }
    assert (Ox : forall x, x <> b -> bops (blocks cg) x = bops (blocks c1) x). { intros x Nx. pose proof (proj2 (Nat.eqb_neq x b) Nx) as Ex. rewrite O4, Ex, J5, O3, Ex, O2, Ex. reflexivity. }
    assert (Px : forall x, x < length (blocks c1) -> bpar (blocks cg) x = bpar (blocks c1) x) by (intros x Lx; rewrite P4, J6, P3, P2; [reflexivity | lia]).
    destruct rest as [|p rest].
    - injection H as <-. destruct (J9 eq_refl) as (_ & ->). exists t4, [k; q; z]. split; [exact L4|]. split; [exact K24|]. split; [exact Ob|]. split; [intros x _; apply Ox|]. split; [exact Px|]. eapply ts_last; try eassumption; lia.
    - destruct (J10 ltac:(discriminate)) as (Eo & Lo & Po). pose proof (low_blen shape_of c dead b0 s P m pre post arg _ _ _ _ _ L3) as Lc. pose proof (lo_blen' _ _ _ _ _ _ _ _ _ _ _ _ _ _ _ L3) as Lm.
      destruct (IH cg dead1 t4 other c2 L4) as (t5 & l5 & L5 & K5 & O5 & Ox5 & Px5 & T5); [right; repeat split; lia | discriminate | exact Ld | exact H|]. pose proof (keeps_trans _ _ _ _ _ _ K24 K5) as K.
      exists t5, [k; q; z]. split; [exact L5|]. split; [exact K|]. split; [rewrite Ox5 by lia; exact Ob|]. split; [intros x Lx Nx; rewrite Ox5 by lia; apply Ox; exact Nx|]. split; [intros x Lx; rewrite Px5 by lia; apply Px; exact Lx|].
      eapply ts_more with (l := l5); try (eapply described_kept; [exact K5|]; eassumption); try lia; [rewrite Px5 by lia; rewrite P4; exact Po | | exact T5].
      rewrite O5, Ox by lia. unfold bops. rewrite (proj2 (nth_error_None (blocks c1) other)) by lia. reflexivity.
  Qed.
End Chain.

(** ** The default *)
Section Default.
  Variable shape_of : nat -> shape.
  Variable br_kind : nat.
  Hypothesis Kb : shape_of br_kind = SBr.
  Variable c : ctx.
  Variable dead : list nat.
  Hypothesis I : inv c dead.
  Hypothesis T : tidy c dead.
  Hypothesis bare : forall x d, nth_error (ops c) x = Some d -> is_exit (shape_of (o_kind d)) = true -> o_regions d = [].
  Variables b0 s P m : nat.
  Variables pre post : list nat.
  Variable arg : option (nat * nat).
  Local Notation bodies := (bodies shape_of br_kind c dead b0 s P m pre post arg).

  (** A block that goes straight to the merge block. *)
  Definition falls (c1 : ctx) (b : nat) : Prop := bpar (blocks c1) b = Some P /\ b <> b0 /\ b < length (blocks c1) /\ exists z, bops (blocks c1) b = [z] /\ described c1 z br_kind [] [m] [].
  Definition starts_default (c1 : ctx) (def : option nat) (b : nat) : Prop := match def with Some r => hd_error (rblks (regions c) r) = Some b | None => falls c1 b end.
  Lemma default_body depth Q c1 dead1 log def c2 e bs : bodies Q c1 dead1 log -> loose dead c1 dead1 -> (forall r, def = Some r -> child shape_of c s r /\ Q r = false) -> inline_default shape_of br_kind depth c1 def P m = Some (c2, (e, bs)) ->
    exists Q2 dead2 log2, bodies Q2 c2 dead2 log2 /\ (forall q, Q2 q = true <-> def = Some q \/ Q q = true) /\ starts_default c2 def e /\ (forall x, In x bs -> exists r, def = Some r /\ bpar (blocks c) x = Some r).
  Proof.
    intros Bo Lo Ch H. destruct def as [r|]; cbn [inline_default] in H.
    - destruct (Ch r eq_refl) as (Cr & Qr). destruct (one_body shape_of br_kind Kb c dead I T bare b0 s P m pre post arg depth Q c1 dead1 log r c2 e bs Bo Lo Cr Qr H) as (dead2 & log2 & Bo2 & _ & He & Hb). exists (fun q => Nat.eqb q r || Q q), dead2, log2. split; [exact Bo2|]. split; [|split; [exact He | intros x K; exists r; auto]].
      intros q. destruct (Nat.eqb_spec q r) as [->|N]; cbn [orb]; intuition congruence.
    - destruct (create_block c1 []) as [c3 b] eqn:E3. bindin H y4 E4. destruct y4 as [c4 z]. bindin H c5 E5. bindin H rgd Er. bindin H p Ep. injection H as <- <- <-. pose proof (bo_stage _ _ _ _ _ _ _ _ _ _ _ _ _ _ _ Bo) as S1. pose proof (st_low _ _ _ _ _ _ _ _ _ _ _ _ _ _ _ _ _ S1) as L1.
      destruct (block_made shape_of c dead I b0 s P m pre post arg _ _ _ _ _ _ _ L1 E3) as (L3 & K3 & Eb & O3 & R3 & Lb3 & V3 & _ & Rs3 & B3 & P3 & N3).
      pose proof (low_blen shape_of c dead b0 s P m pre post arg _ _ _ _ _ L1) as Lc. pose proof (lo_blen' _ _ _ _ _ _ _ _ _ _ _ _ _ _ _ L1) as Lm. pose proof (bpar_old c b0 P (lo_where _ _ _ _ _ _ _ _ _ _ _ _ _ _ _ L1)) as Lb0.
      unfold branch in E4. destruct (made shape_of c dead I b0 s P m pre post arg Q log c3 dead1 [] b br_kind [] [] [m] c4 z c5 L3) as (t5 & L5 & K5 & O5 & P5 & N5 & R5 & D5 & V5 & Ez & Lo5); [right; repeat split; lia | exact E4 | intros v [] | exact E5|].
      destruct (block_placed shape_of c dead I T b0 s P m pre post arg _ _ _ _ _ b p rgd L5 Er Ep) as (L2 & K2 & M2 & O2 & B2 & P2 & Lb2); [lia | lia | rewrite P5; exact N3|]. set (c2 := place_block c5 P p b) in *.
      pose proof (keeps_trans _ _ _ _ _ _ (keeps_trans _ _ _ _ _ _ K3 K5) K2) as K. assert (t5 = []) as ->.
      { pose proof (lo_bops _ _ _ _ _ _ _ _ _ _ _ _ _ _ _ L5 b0 Lb0) as A. rewrite O5 in A. destruct (Nat.eqb_spec b0 b); [lia|]. rewrite B3, (lo_bops _ _ _ _ _ _ _ _ _ _ _ _ _ _ _ L1 b0 Lb0), (lo_home _ _ _ _ _ _ _ _ _ _ _ _ _ _ _ L1) in A. unfold relist in A. rewrite existsb_app in A. cbn [existsb] in A. rewrite Nat.eqb_refl, orb_true_r in A. apply app_inv_head in A. symmetry. exact A. }
      exists Q, dead1, log. split; [|split; [|split]].
      + constructor; [constructor; [exact L2 | |] | apply Bo | apply Bo].
        * intros y w Im. destruct (st_log _ _ _ _ _ _ _ _ _ _ _ _ _ _ _ _ _ S1 y w Im) as (d & dz & vs & t & F1 & F2 & F3 & F4 & F5 & F6 & F7). destruct (k_ops _ _ _ _ K w dz F3) as (dw & G1 & (G2 & _ & _ & G3) & G4). exists d, dw, vs, t. rewrite (k_results _ _ _ _ K) by (apply nth_error_Some; congruence). repeat split; congruence.
        * intros w d Lw Ed. destruct (Nat.lt_ge_cases w (length (ops c1))) as [Kw|Kw].
          -- destruct (nth_error (ops c1) w) as [d1|] eqn:E1; [|apply nth_error_None in E1; lia]. destruct (k_ops _ _ _ _ K w d1 E1) as (d2 & E2 & (G2 & _) & _). assert (d2 = d) as -> by congruence. rewrite G2. apply (st_new _ _ _ _ _ _ _ _ _ _ _ _ _ _ _ _ _ S1 w d1 Lw E1).
          -- assert (w < length (ops c2)) by (apply nth_error_Some; congruence). rewrite O2, Lo5, O3 in H. rewrite O3 in Ez. assert (w = z) as -> by lia. destruct (described_kept _ _ _ _ _ _ _ _ _ K2 D5) as (dz & G1 & G2 & _). assert (dz = d) as -> by congruence. rewrite G2, Kb. reflexivity.
      + intros q. intuition congruence.
      + cbn. split; [rewrite P2, Nat.eqb_refl; reflexivity|]. split; [lia|]. split; [lia|]. exists z. split; [|eapply described_kept; [exact K2 | exact D5]]. rewrite B2, O5, Nat.eqb_refl, B3. unfold bops. rewrite (proj2 (nth_error_None (blocks c1) b)) by lia. reflexivity.
      + intros x [].
  Qed.
End Default.
