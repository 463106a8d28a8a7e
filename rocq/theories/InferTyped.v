(** Inference without guesses gives every expression a type it has. *)
From Verif Require Import TyProofs UnifySpec UnifyComplete SubstProofs InferRun InferSolve InferFo InferPat InferSound.

(** * References *)

(** Only the references [ids] get an instance. *)
Definition rframe {A} (ids : list nat) (m : M A) : Prop := forall st a st', m st = (a, st') ->
  forall i, ~ In i ids -> look i (i_refs st') = look i (i_refs st).
Lemma rframe_ret {A} ids (a : A) : rframe ids (ret a).
Proof. intros st b st' [= <- <-] i _. reflexivity. Qed.
Lemma rframe_bnd {A B} ids (m : M A) (f : A -> M B) : rframe ids m -> (forall a, rframe ids (f a)) -> rframe ids (bnd m f).
Proof.
  intros H K st b st' E i Hi. apply bnd_inv in E as [a [st1 [E1 E2]]]. rewrite (K a _ _ _ E2 i Hi). apply (H _ _ _ E1 i Hi).
Qed.
Lemma rframe_incl {A} ids ids' (m : M A) : incl ids ids' -> rframe ids m -> rframe ids' m.
Proof. intros H K st a st' E i Hi. apply (K _ _ _ E). auto. Qed.
Lemma rframe_fresh ids : rframe ids fresh.
Proof. intros st a st' [= <- <-] i _. reflexivity. Qed.
Lemma rframe_guessed ids g : rframe ids (guessed g).
Proof. intros st a st' [= <- <-] i _. reflexivity. Qed.
Lemma rframe_eqn ids a b : rframe ids (eqn a b).
Proof. intros st u st' [= <- <-] i _. reflexivity. Qed.
Lemma rframe_record ids k t : rframe ids (record k t).
Proof. intros st u st' [= <- <-] i _. reflexivity. Qed.
Lemma rframe_record_lam ids k t : rframe ids (record_lam k t).
Proof. intros st u st' [= <- <-] i _. destruct (look k (i_lams st)); reflexivity. Qed.
Lemma rframe_mmap {A B} ids (f : A -> M B) l : Forall (fun a => rframe ids (f a)) l -> rframe ids (mmap f l).
Proof.
  induction 1; cbn [mmap]; [apply rframe_ret|]. apply rframe_bnd; [assumption|]. intros b. apply rframe_bnd; [assumption|]. intros; apply rframe_ret.
Qed.
Lemma rframe_mzip {A B C} ids (f : A -> B -> M C) l : (forall a b, In a l -> rframe ids (f a b)) -> forall l', rframe ids (mzip f l l').
Proof.
  induction l as [|a l IH]; intros H [|b l']; cbn [mzip]; try apply rframe_ret. apply rframe_bnd; [apply H; left; reflexivity|]. intros c.
  apply rframe_bnd; [apply IH; intros; apply H; right; assumption|]. intros; apply rframe_ret.
Qed.
Lemma rframe_fresh_for {A} ids (l : list A) : rframe ids (fresh_for l).
Proof. apply rframe_mmap, Forall_forall. intros. apply rframe_fresh. Qed.
Lemma rframe_instantiate ids sc : rframe ids (instantiate_poly sc).
Proof. unfold instantiate_poly. apply rframe_bnd; [apply rframe_fresh_for | intros; apply rframe_ret]. Qed.
Lemma rframe_known ids sc : rframe ids (known sc).
Proof.
  destruct sc; cbn [known]; [apply rframe_instantiate|]. apply rframe_bnd; [apply rframe_guessed | intros; apply rframe_fresh].
Qed.
Lemma rframe_keeps {A} ids (m : M A) : keeps m -> rframe ids m.
Proof. intros H st a st' E i _. destruct (H _ _ _ E) as [_ [_ [R _]]]. rewrite R. reflexivity. Qed.
Lemma rframe_pat ids ctors p : rframe ids (infer_pat ctors p).
Proof.
  induction p as [i|i x|i l|i c ps F|i ps F|i ps F|i ps r F|i p x IH] using pat_ind'; cbn [infer_pat].
  - apply rframe_bnd; [apply rframe_fresh|]. intros. apply rframe_bnd; [apply rframe_record|]. intros. apply rframe_ret.
  - apply rframe_bnd; [apply rframe_fresh|]. intros. apply rframe_bnd; [apply rframe_record|]. intros. apply rframe_ret.
  - apply rframe_bnd; [apply rframe_record|]. intros. apply rframe_ret.
  - apply rframe_bnd; [apply rframe_known|]. intros t. apply rframe_bnd; [apply rframe_record|]. intros _.
    assert (O : rframe ids (match ps with [] => ret tt | _ => guessed Arity end ;~ ret t)).
    { apply rframe_bnd; [destruct ps; [apply rframe_ret | apply rframe_guessed]|]. intros. apply rframe_ret. }
    destruct t; try exact O. apply rframe_bnd; [destruct (Nat.eqb _ _); [apply rframe_ret | apply rframe_guessed]|]. intros _.
    apply rframe_bnd; [|intros; apply rframe_ret]. apply rframe_mzip. intros p q Hp.
    apply rframe_bnd; [apply (proj1 (Forall_forall _ _) F _ Hp)|]. intros. apply rframe_eqn.
  - apply rframe_bnd; [apply rframe_mmap, F|]. intros. apply rframe_bnd; [apply rframe_record|]. intros. apply rframe_ret.
  - apply rframe_bnd; [apply rframe_fresh|]. intros a. apply rframe_bnd.
    + apply rframe_mmap. revert F. apply Forall_impl. intros p Hp. apply rframe_bnd; [exact Hp|]. intros. apply rframe_eqn.
    + intros _. apply rframe_bnd; [apply rframe_record|]. intros. apply rframe_ret.
  - apply rframe_bnd; [apply rframe_fresh|]. intros a. apply rframe_bnd.
    + apply rframe_mmap. revert F. apply Forall_impl. intros p Hp. apply rframe_bnd; [exact Hp|]. intros. apply rframe_eqn.
    + intros _. apply rframe_bnd; [apply rframe_record|]. intros. apply rframe_ret.
  - apply rframe_bnd; [exact IH|]. intros. apply rframe_bnd; [apply rframe_record|]. intros. apply rframe_ret.
Qed.
Lemma rframe_bind_let ids solver pure D p t : rframe ids (bind_let solver pure D p t).
Proof.
  intros st D' st' E i Hi. unfold bind_let in E. destruct (solver _); [injection E as _ <-; reflexivity|].
  revert i Hi. revert st D' st' E. apply (rframe_bnd ids); [apply rframe_keeps, keeps_bind | intros; apply rframe_ret].
Qed.
Lemma rframe_call ids t ts : rframe ids (infer_call t ts).
Proof.
  unfold infer_call. apply rframe_bnd; [apply rframe_fresh_for|]. intros ps. apply rframe_bnd; [apply rframe_fresh|]. intros r.
  apply rframe_bnd.
  - destruct (Nat.eqb _ _); [|apply rframe_ret]. apply rframe_bnd; [apply rframe_fresh|]. intros. apply rframe_bnd; [apply rframe_fresh|]. intros. apply rframe_ret.
  - intros _. apply rframe_bnd; [apply rframe_eqn|]. intros _. apply rframe_bnd; [|intros; apply rframe_ret]. apply rframe_mzip. intros. apply rframe_eqn.
Qed.

(** * The types of local variables *)
Definition den (th : nat -> styp) (D : env) (x : nat) (w : styp) : Prop :=
  exists sc, look x D = Some sc /\ exists be, w = mean th be (snd sc).

Lemma look_app {A} x (l l' : list (nat * A)) : look x (l ++ l') = match look x l with Some a => Some a | None => look x l' end.
Proof. unfold look. induction l as [|[y a] l IH]; cbn; [destruct (List.find _ l'); reflexivity|]. destruct (Nat.eqb y x); [reflexivity | exact IH]. Qed.
Lemma look_none {A} x (l : list (nat * A)) : look x l = None <-> ~ In x (List.map fst l).
Proof.
  unfold look. induction l as [|[y a] l IH]; cbn; [split; [intros _ [] | reflexivity]|]. destruct (Nat.eqb_spec y x) as [->|D].
  - split; [discriminate | intros H; exfalso; apply H; auto].
  - rewrite IH. split; [intros H [X|X]; auto | tauto].
Qed.
Lemma look_in {A} x (l : list (nat * A)) a : look x l = Some a -> In (x, a) l.
Proof.
  unfold look. destruct (List.find _ l) as [[y b]|] eqn:E; [|discriminate]. intros [= <-]. apply find_some in E as [E1 E2].
  apply Nat.eqb_eq in E2. cbn in E2. subst. exact E1.
Qed.
Lemma look_mono x bs : look x (mono bs) = option_map (fun t => (0, t)) (look x bs).
Proof. unfold look, mono. induction bs as [|[y t] bs IH]; cbn; [reflexivity|]. destruct (Nat.eqb y x); [reflexivity | exact IH]. Qed.

Lemma den_extend th bs D x w : all_fo bs -> den th (mono bs ++ D) x w -> extend (den th D) (means th bs) x w.
Proof.
  intros F [sc [E [be ->]]]. unfold extend. rewrite look_app, look_mono in E. destruct (look x bs) as [t|] eqn:L.
  - cbn in E. injection E as <-. cbn. apply look_in in L.
    assert (X : In (x, mean th be t) (means th bs)).
    { unfold means. apply in_map_iff. exists (x, t). split; [|exact L]. cbn. f_equal. apply mean_bound_free.
      apply (proj1 (Forall_forall _ _) F _ L). }
    rewrite (proj2 (existsb_eqb x _)); [exact X|]. apply (in_map fst) in X. exact X.
  - cbn in E. destruct (existsb _ _) eqn:B; [|exists sc; eauto]. exfalso. apply existsb_eqb in B. apply look_none in L. apply L.
    unfold means in B. rewrite map_map in B. exact B.
Qed.

Section Typed.
  Variable fns : nat -> option poly.
  Variable cs : list cdecl.
  Variable solver : list (ty * ty) -> option (nat -> ty).
  Variable pure : nat -> bool.
  Hypothesis Hfns : forall f sc, fns f = Some sc -> plain_sig sc.
  Hypothesis Hcs : forall k, In k cs -> plain_sig (ctor_poly k).
  Hypothesis Hsolver : forall cs f, fo_pairs cs -> solver cs = Some f -> answers f cs.
  Notation ctors := (ctor_table cs).
  Notation K := (ctor_types cs).
  Definition fn_types (f : nat) (t : styp) : Prop := exists sc, fns f = Some sc /\ instance sc t.
  Notation G := fn_types.
  Notation inf := (infer fns ctors solver pure).
  Let Hctors := ctors_plain cs Hcs.

  Lemma incl_flat {A B} (f : A -> list B) a l : In a l -> incl (f a) (flat_map f l).
  Proof. intros H x Hx. apply in_flat_map. eauto. Qed.

  Lemma rframe_infer e : forall D, rframe (ref_ids e) (inf D e).
  Proof.
    induction e as [l|i x|f|c args IHc IHa|c args IHa|i ps b IH|es IH|es IH|k a b IHa IHb|ss v IHs IHv|s arms IHs IHa] using expr_ind';
      intros D; cbn [infer ref_ids].
    all: assert (AL : forall es ids, Forall (fun e => forall D, rframe (ref_ids e) (inf D e)) es -> incl (flat_map ref_ids es) ids ->
      Forall (fun e => rframe ids (inf D e)) es)
      by (intros es0 ids F I; rewrite Forall_forall in *; intros q Hq; eapply rframe_incl; [|apply F, Hq]; intros j Hj; apply I, in_flat_map; eauto).
    - apply rframe_ret.
    - unfold local_ref. destruct (look x D) as [[[|n] body]|]; [apply rframe_ret | |].
      + intros st t st' E j Hj. destruct (look i (i_refs st)) as [u|] eqn:El; [injection E as _ <-; reflexivity|].
        destruct (instantiate_poly (S n, body) st) as [u st1] eqn:Ei. injection E as _ <-. cbn [i_refs].
        rewrite <- (rframe_instantiate [] _ _ _ _ Ei j (fun X => X)). unfold look. cbn. destruct (Nat.eqb_spec i j); [exfalso; apply Hj; left; assumption | reflexivity].
      + apply rframe_bnd; [apply rframe_guessed | intros; apply rframe_fresh].
    - apply rframe_known.
    - apply rframe_bnd; [eapply rframe_incl; [|apply IHc]; apply incl_appl, incl_refl|]. intros t.
      apply rframe_bnd; [apply rframe_mmap, AL; [exact IHa | apply incl_appr, incl_refl]|]. intros. apply rframe_call.
    - apply rframe_bnd; [apply rframe_known|]. intros t. destruct args as [|x args]; [apply rframe_ret|].
      apply rframe_bnd; [apply rframe_mmap, AL; [exact IHa | apply incl_refl]|]. intros. apply rframe_call.
    - apply rframe_bnd.
      + unfold param_types. apply rframe_mmap, Forall_forall. intros [y [u|]] _; [apply rframe_ret | apply rframe_fresh].
      + intros ts. apply rframe_bnd; [apply IH|]. intros r. apply rframe_bnd; [apply rframe_record_lam | intros; apply rframe_ret].
    - apply rframe_bnd; [apply rframe_mmap, AL; [exact IH | apply incl_refl]|]. intros. apply rframe_ret.
    - apply rframe_bnd; [apply rframe_fresh|]. intros t. apply rframe_bnd; [|intros; apply rframe_ret]. apply rframe_mmap.
      pose proof (AL es _ IH (incl_refl _)) as X. revert X. apply Forall_impl. intros e He. apply rframe_bnd; [exact He | intros; apply rframe_eqn].
    - apply rframe_bnd; [apply rframe_guessed | intros; apply rframe_fresh].
    - clear AL. revert D. induction IHs as [|[k e] ss H F IH]; intros D; cbn [flat_map app]; [apply IHv|]. cbn [snd] in H.
      set (ids := (ref_ids e ++ flat_map (fun s : option (pat * option ty) * expr => let (_, e) := s in ref_ids e) ss) ++ ref_ids v).
      assert (HE : forall D, rframe ids (inf D e)) by (intros D'; eapply rframe_incl; [|apply H]; unfold ids; intros j Hj; rewrite !in_app_iff; auto).
      assert (HR : incl (flat_map (fun s : option (pat * option ty) * expr => let (_, e) := s in ref_ids e) ss ++ ref_ids v) ids).
      { unfold ids. intros j. rewrite !in_app_iff. tauto. }
      destruct k as [[p ann]|].
      + apply rframe_bnd; [apply HE|]. intros t. apply rframe_bnd.
        * destruct ann; [apply rframe_bnd; [apply rframe_eqn | intros; apply rframe_ret] | apply rframe_ret].
        * intros t'. apply rframe_bnd; [apply rframe_pat|]. intros u. apply rframe_bnd; [apply rframe_eqn|]. intros _.
          apply rframe_bnd; [apply rframe_bind_let|]. intros D'. eapply rframe_incl; [exact HR | apply IH].
      + apply rframe_bnd; [apply HE|]. intros _. eapply rframe_incl; [exact HR | apply IH].
    - apply rframe_bnd; [eapply rframe_incl; [|apply IHs]; apply incl_appl, incl_refl|]. intros t.
      apply rframe_bnd; [apply rframe_fresh|]. intros r. apply rframe_bnd; [|intros; apply rframe_ret].
      apply rframe_mmap, Forall_forall. intros [[p g] b] Hin. pose proof (proj1 (Forall_forall _ _) IHa _ Hin) as [_ Hb]. cbn [snd] in Hb.
      apply rframe_bnd; [apply rframe_pat|]. intros u. apply rframe_bnd; [apply rframe_eqn|]. intros _.
      apply rframe_bnd; [apply rframe_keeps, keeps_bind|]. intros bs. apply rframe_bnd; [destruct g; [apply rframe_guessed | apply rframe_ret]|]. intros _.
      apply rframe_bnd; [|intros; apply rframe_eqn]. eapply rframe_incl; [|apply Hb]. intros j Hj. apply in_or_app. right. apply in_flat_map.
      exists (p, g, b). split; [exact Hin|]. apply in_or_app. auto.
  Qed.

  (** * Calls *)
  Lemma call_type th t ts st r st' : infer_call t ts st = (r, st') -> sat th (i_cs st') ->
    mean th none t = SFun (List.map (mean th none) ts) (mean th none r).
  Proof.
    intros E S. unfold infer_call in E. apply bnd_inv in E as [ps [st1 [E1 E]]]. apply bnd_inv in E as [r' [st2 [E2 E]]].
    apply bnd_inv in E as [u [st3 [E3 E]]]. apply bnd_inv in E as [u4 [st4 [E4 E]]]. apply bnd_inv in E as [u5 [st5 [E5 E]]]. injection E as <- <-.
    apply mmap_length in E1. destruct (step_eqn _ _ _ _ _ E4) as [C4 _].
    assert (Z : forall ps ts st us st', mzip eqn ps ts st = (us, st') -> List.length ps = List.length ts -> sat th (i_cs st') ->
      List.map (mean th none) ps = List.map (mean th none) ts /\ sat th (i_cs st)).
    { clear. induction ps as [|p ps IH]; intros [|t ts] st us st' E L S; try discriminate; [injection E as <- <-; auto|].
      apply mzip_inv in E as [u [st1 [us' [-> [E1 E2]]]]]. destruct (IH ts st1 us' st' E2 ltac:(cbn in L; lia) S) as [X Y].
      destruct (step_eqn _ _ _ _ _ E1) as [C _]. cbn. split.
      - f_equal; [apply Y; rewrite C; left; reflexivity | exact X].
      - intros a b H. apply Y. rewrite C. right. exact H. }
    destruct (Z _ _ _ _ _ E5 E1 S) as [X Y]. rewrite <- X. change (SFun (List.map (mean th none) ps) (mean th none r')) with (mean th none (func_ty ps r')).
    apply Y. rewrite C4. left. reflexivity.
  Qed.

  (** * Generalizing *)
  Lemma close_mean th be vs t : first_order t -> mean th be (close_over vs t) = mean (fun v => match position vs v with Some i => be i | None => th v end) none t.
  Proof.
    intros F. unfold close_over. rewrite mean_fill. rewrite (mean_bound_free _ be none t F). apply mean_ext; [|reflexivity].
    intros v _. destruct (position vs v); reflexivity.
  Qed.

  (** * Expressions *)
  Definition unseen (ids : list nat) (st : ist) : Prop := NoDup ids /\ forall i, In i ids -> look i (i_refs st) = None.
  Definition sound (e : expr) : Prop := forall D st t st' th, env_fo D -> st_fo st -> wf e -> unseen (ref_ids e) st ->
    inf D e st = (t, st') -> i_log st' = [] -> sat th (i_cs st') -> typed G K (den th D) e (mean th none t).

  Lemma unseen_split a b st : unseen (a ++ b) st -> unseen a st /\ (forall st', (forall i, ~ In i a -> look i (i_refs st') = look i (i_refs st)) -> unseen b st').
  Proof.
    intros [N U]. apply NoDup_app2 in N as [N1 [N2 N3]]. split.
    - split; [exact N1|]. intros i Hi. apply U, in_or_app. auto.
    - intros st' R. split; [exact N2|]. intros i Hi. rewrite R; [apply U, in_or_app; auto|]. intros X. apply (N3 i X Hi).
  Qed.
  Lemma fo_e e D : wf e -> env_fo D -> fom first_order (inf D e).
  Proof. intros W F. apply (fom_infer fns ctors solver pure Hfns Hctors Hsolver e W D F). Qed.
  Lemma fo_es es D : Forall wf es -> env_fo D -> fom (Forall first_order) (mmap (inf D) es).
  Proof. intros W F. apply fom_mmap. revert W. apply Forall_impl. intros e We. apply fo_e; assumption. Qed.
  Lemma rframe_es es D : rframe (flat_map ref_ids es) (mmap (inf D) es).
  Proof.
    apply rframe_mmap, Forall_forall. intros e He. eapply rframe_incl; [|apply rframe_infer]. apply incl_flat, He.
  Qed.

  Lemma sound_all es : Forall sound es -> forall D st ts st' th, env_fo D -> st_fo st -> Forall wf es -> unseen (flat_map ref_ids es) st ->
    mmap (inf D) es st = (ts, st') -> i_log st' = [] -> sat th (i_cs st') -> typed_all G K (den th D) es (List.map (mean th none) ts).
  Proof.
    induction 1 as [|e es H F IH]; intros D st ts st' th FD Fs W U E L S; [injection E as <- <-; exact I|].
    inversion W as [|? ? We Wes]; subst. apply mmap_inv in E as [t [st1 [ts' [-> [E1 E2]]]]]. cbn [flat_map] in U. apply unseen_split in U as [U1 U2].
    destruct (fo_e e D We FD _ _ _ Fs E1) as [F1 [_ G1]]. destruct (fo_es es D Wes FD _ _ _ F1 E2) as [_ [_ G2]].
    cbn [typed_all List.map]. split.
    - apply (H D st t st1 th FD Fs We U1 E1 (grows_log _ _ G2 L) (grows_sat _ _ _ G2 S)).
    - apply (IH D st1 ts' st' th FD F1 Wes (U2 _ (rframe_infer e D _ _ _ E1)) E2 L S).
  Qed.
  Lemma sound_list es a : first_order a -> Forall sound es -> forall D st us st' th, env_fo D -> st_fo st -> Forall wf es -> unseen (flat_map ref_ids es) st ->
    mmap (fun e => t <~ inf D e ;; eqn t a) es st = (us, st') -> i_log st' = [] -> sat th (i_cs st') ->
    typed_all G K (den th D) es (repeat (mean th none a) (List.length es)).
  Proof.
    intros Fa. induction 1 as [|e es H F IH]; intros D st us st' th FD Fs W U E L S; [exact I|].
    inversion W as [|? ? We Wes]; subst. apply mmap_inv in E as [u [st2 [us' [-> [E1 E2]]]]]. apply bnd_inv in E1 as [t [st1 [E1 E1']]].
    cbn [flat_map] in U. apply unseen_split in U as [U1 U2].
    destruct (fo_e e D We FD _ _ _ Fs E1) as [F1 [Ft G1]]. destruct (fom_eqn t a Ft Fa _ _ _ F1 E1') as [F2 [_ G1']].
    assert (X : fom (Forall top) (mmap (fun e => t <~ inf D e ;; eqn t a) es)).
    { apply fom_mmap. revert Wes. apply Forall_impl. intros q Wq. eapply fom_bnd; [apply fo_e; assumption|]. intros b Hb. apply fom_eqn; assumption. }
    destruct (X _ _ _ F2 E2) as [_ [_ G2]]. pose proof (grows_trans _ _ _ G1' G2) as G3.
    cbn [typed_all List.length repeat]. split.
    - pose proof (H D st t st1 th FD Fs We U1 E1 (grows_log _ _ G3 L) (grows_sat _ _ _ G3 S)) as T.
      destruct (step_eqn _ _ _ _ _ E1') as [C _]. rewrite <- (grows_sat _ _ _ G2 S t a); [exact T|]. rewrite C. left. reflexivity.
    - apply (IH D st2 us' st' th FD F2 Wes); try assumption. apply U2. intros i Hi.
      destruct (step_eqn _ _ _ _ _ E1') as [_ [_ [_ R]]]. rewrite R. apply (rframe_infer e D _ _ _ E1 i Hi).
  Qed.

  (** A [let]: the types at which its variables may be used. *)
  Lemma sat_rev th l : sat th (rev l) <-> sat th l.
  Proof. split; intros H a b X; apply H; [apply in_rev; rewrite rev_involutive | apply in_rev]; assumption. Qed.

  Lemma let_binds D p t st D' st' th T0 :
    env_fo D -> st_fo st -> first_order t -> NoDup (pvars p) ->
    bind_let solver pure D p t st = (D', st') -> i_log st' = [] -> sat th (i_cs st) ->
    (forall th', sat th' (i_cs st) -> pfacts cs (i_nodes st) th' p (mean th' none t)) ->
    (forall th', sat th' (i_cs st) -> (forall x w, den th' D x w -> den th D x w) -> exists T, T0 T /\ T = mean th' none t) ->
    (exists T bs, T0 T /\ ptyped K p T bs) /\
    (forall x w, den th D' x w -> if existsb (Nat.eqb x) (pvars p) then exists T bs, T0 T /\ ptyped K p T bs /\ In (x, w) bs else den th D x w).
  Proof.
    intros FD Fs Ft ND E L S P HT. destruct (HT th S (fun x w H => H)) as [T [HT1 HT2]]. unfold bind_let in E.
    destruct (solver (rev (i_cs st))) as [f|] eqn:Es.
    - assert (An : answers f (rev (i_cs st))).
      { apply Hsolver; [|exact Es]. intros a b X. apply in_rev in X. apply (sf_cs _ Fs _ _ X). }
      assert (HH : forall th', sat th' (i_cs st) -> forall v, th' v = mean th' none (f v)) by (intros th' S' v; apply (an_general _ _ An), sat_rev, S').
      set (bs := collect_pat (i_nodes st) f p (fill f t)) in *.
      assert (Fb : all_fo bs).
      { apply collect_fo; [apply Fs | apply (an_first _ _ An) | apply fill_first_order; [apply (an_first _ _ An) | exact Ft]]. }
      assert (Typ : forall th1 th2, (forall v, th2 v = mean th1 none (f v)) -> sat th2 (i_cs st) -> ptyped K p (mean th2 none t) (means th1 bs)).
      { intros th1 th2 H12 S2. apply (collect_ok cs (i_nodes st) f th1 th2 H12 (HH th2 S2)); [apply P, S2|]. intros _.
        apply (mean_twice f th1 th2 H12 (HH th2 S2)). }
      assert (Names : List.map fst bs = pvars p).
      { pose proof (ptyped_vars _ _ _ _ (Typ th th (HH th S) S)) as X. unfold means in X. rewrite map_map in X. exact X. }
      injection E as <- <-. split; [exists T, (means th bs); split; [exact HT1 | subst T; apply Typ; [apply HH, S | exact S]]|].
      set (D1 := if pure (i_next st) then List.map (fun b => (fst b, generalize_over (flat_map (fun e : nat * poly => univars (fill f (snd (snd e)))) D) (snd b))) bs
                 else mono bs).
      assert (N1 : List.map fst D1 = pvars p).
      { rewrite <- Names. unfold D1. destruct (pure _); unfold mono; rewrite map_map; reflexivity. }
      intros x w [sc [Hl [be ->]]]. rewrite look_app in Hl. destruct (existsb (Nat.eqb x) (pvars p)) eqn:Ex.
      + destruct (look x D1) as [sc'|] eqn:L1.
        * injection Hl as ->. apply look_in in L1.
          assert (X : exists b, In (x, b) bs /\ (sc = (0, b) \/ sc = generalize_over (flat_map (fun e : nat * poly => univars (fill f (snd (snd e)))) D) b)).
          { unfold D1 in L1. destruct (pure _); [|unfold mono in L1]; apply in_map_iff in L1 as [[y b] [[= -> <-] Hb]]; exists b; auto. }
          destruct X as [b [Hb [-> | ->]]].
          -- exists T, (means th bs). split; [exact HT1|]. split; [subst T; apply Typ; [apply HH, S | exact S]|].
             apply in_map_iff. exists (x, b). split; [|exact Hb]. cbn. f_equal. apply mean_bound_free, (proj1 (Forall_forall _ _) Fb _ Hb).
          -- unfold generalize_over. set (vs := filter _ _). cbn [snd]. rewrite close_mean by apply (proj1 (Forall_forall _ _) Fb _ Hb).
             set (th1 := fun v => match position vs v with Some i => be i | None => th v end).
             set (th2 := fun v => mean th1 none (f v)).
             assert (S2 : sat th2 (i_cs st)) by (apply sat_rev, (an_solves _ _ An)).
             assert (Sub : forall y u, den th2 D y u -> den th D y u).
             { intros y u Hy. unfold den in Hy. destruct Hy as [sc [Hy [be' ->]]]. exists sc. split; [exact Hy|]. exists be'. apply look_in in Hy.
               assert (A1 : forall th0, mean th0 be' (fill f (snd sc)) = mean (fun v => mean th0 none (f v)) be' (snd sc)).
               { intros th0. rewrite mean_fill. apply mean_ext; [|reflexivity]. intros v _. apply mean_bound_free, (an_first _ _ An). }
               change (mean th2 be' (snd sc)) with (mean (fun v => mean th1 none (f v)) be' (snd sc)). rewrite <- A1.
               transitivity (mean th be' (fill f (snd sc))).
               - apply mean_ext; [|reflexivity]. intros v Hv. unfold th1. destruct (position vs v) as [i|] eqn:Ep; [|reflexivity]. exfalso.
                 assert (Iv : In v vs) by (apply position_nth in Ep as [<- Ep]; apply nth_In, Ep).
                 unfold vs in Iv. apply filter_In in Iv as [_ Iv]. apply Bool.negb_true_iff in Iv.
                 rewrite (proj2 (existsb_eqb v _)) in Iv; [discriminate|]. apply in_flat_map. exists (y, sc). auto.
               - rewrite A1. apply mean_ext; [|reflexivity]. intros v _. symmetry. apply (HH th S). }
             destruct (HT th2 S2 Sub) as [T2 [HT3 HT4]]. exists T2, (means th1 bs). split; [exact HT3|]. split; [subst T2; apply Typ; [reflexivity | exact S2]|].
             apply in_map_iff. exists (x, b). split; [reflexivity | exact Hb].
        * exfalso. apply look_none in L1. apply L1. rewrite N1. apply existsb_eqb, Ex.
      + destruct (look x D1) as [sc'|] eqn:L1.
        * exfalso. apply look_in, (in_map fst) in L1. rewrite N1 in L1. cbn in L1. rewrite (proj2 (existsb_eqb x _) L1) in Ex. discriminate.
        * exists sc. eauto.
    - apply bnd_inv in E as [bs [st1 [E1 E2]]]. injection E2 as <- <-.
      destruct (keeps_bind p t _ _ _ E1) as [_ [N1 [_ [l1 L1]]]].
      pose proof (bind_ok cs th p t (mean th none t) st bs st1 E1 L (P th S) (fun _ => eq_refl)) as Typ.
      destruct (fom_bind p t Ft _ _ _ Fs E1) as [_ [Fb _]].
      split; [exists T, (means th bs); split; [exact HT1 | subst T; exact Typ]|].
      intros x w Hx. apply den_extend in Hx; [|exact Fb]. unfold extend in Hx. rewrite (ptyped_vars _ _ _ _ Typ) in Hx.
      destruct (existsb _ _); [|exact Hx]. exists T, (means th bs). subst T. auto.
  Qed.

  Lemma infer_sound : forall e, sound e.
  Proof.
    induction e as [l|i x|f|c args IHc IHa|c args IHa|i ps b IH|es IH|es IH|k a b IHa IHb|ss v IHs IHv|s arms IHs IHa] using expr_ind';
      intros D st t st' th FD Fs W U E L S; rewrite typed_eq; cbn [infer ref_ids wf] in *.
    - injection E as <- <-. destruct l; reflexivity.
    - unfold local_ref in E. destruct (look x D) as [[[|n] body]|] eqn:El.
      + injection E as <- <-. exists (0, body). split; [exact El|]. exists none. reflexivity.
      + rewrite (proj2 U i) in E by (left; reflexivity). destruct (instantiate_poly (Datatypes.S n, body) st) as [u st1] eqn:Ei. injection E as <- <-.
        unfold instantiate_poly in Ei. apply bnd_inv in Ei as [ts [st2 [_ Ei]]]. injection Ei as <- <-.
        exists (Datatypes.S n, body). split; [exact El|]. eexists. cbn [snd]. apply mean_plug.
      + apply bnd_inv in E as [u [st1 [E1 E2]]]. injection E1 as <- <-. injection E2 as <- <-. discriminate.
    - destruct (known_instance th _ _ _ _ (fun s Hs => proj1 (Hfns f s Hs)) E L) as [s [Es In]]. exists s. auto.
    - destruct W as [W1 W2]. change (wf_all args) in W2. rewrite wf_all_forall in W2. apply unseen_split in U as [U1 U2].
      apply bnd_inv in E as [tc [st1 [E1 E]]]. apply bnd_inv in E as [ts [st2 [E2 E]]].
      destruct (fo_e c D W1 FD _ _ _ Fs E1) as [F1 [Ft G1]]. destruct (fo_es args D W2 FD _ _ _ F1 E2) as [F2 [Fts G2]].
      destruct (fom_call tc ts Ft Fts _ _ _ F2 E) as [F3 [_ G3]]. pose proof (grows_trans _ _ _ G2 G3) as G4.
      exists (List.map (mean th none) ts). split.
      + rewrite <- (call_type th _ _ _ _ _ E S). apply (IHc D st tc st1 th FD Fs W1 U1 E1 (grows_log _ _ G4 L) (grows_sat _ _ _ G4 S)).
      + apply (sound_all args IHa D st1 ts st2 th FD F1 W2 (U2 _ (rframe_infer c D _ _ _ E1)) E2 (grows_log _ _ G3 L) (grows_sat _ _ _ G3 S)).
    - change (wf_all args) in W. rewrite wf_all_forall in W. apply bnd_inv in E as [tc [st1 [E1 E]]].
      assert (R1 : forall i, look i (i_refs st1) = look i (i_refs st)) by (intros j; apply (rframe_known [] _ _ _ _ E1 j (fun X => X))).
      destruct (known_ctor ctors Hctors c _ _ _ Fs E1) as [F1 [Ft G1]]. destruct args as [|q args].
      + injection E as <- <-. apply (known_ctor_type cs Hcs th c _ _ _ E1 L).
      + remember (q :: args) as args'. apply bnd_inv in E as [ts [st2 [E2 E]]]. destruct (fo_es args' D W FD _ _ _ F1 E2) as [F2 [Fts G2]].
        destruct (fom_call tc ts Ft Fts _ _ _ F2 E) as [F3 [_ G3]]. pose proof (grows_trans _ _ _ G2 G3) as G4.
        exists (List.map (mean th none) ts). split.
        * rewrite <- (call_type th _ _ _ _ _ E S). apply (known_ctor_type cs Hcs th c _ _ _ E1 (grows_log _ _ G4 L)).
        * apply (sound_all args' IHa D st1 ts st2 th FD F1 W); [|exact E2 | exact (grows_log _ _ G3 L) | exact (grows_sat _ _ _ G3 S)].
          destruct U as [U1 U2]. split; [exact U1|]. intros j Hj. rewrite R1. apply U2, Hj.
    - destruct W as [W1 [W2 W3]]. apply bnd_inv in E as [ts [st1 [E1 E]]]. apply bnd_inv in E as [r [st2 [E2 E]]]. apply bnd_inv in E as [u [st3 [E3 E]]].
      injection E as <- <-. destruct (fom_params ps W2 _ _ _ Fs E1) as [F1 [Fts G1]].
      assert (R1 : rframe [] (param_types ps)).
      { unfold param_types. apply rframe_mmap, Forall_forall. intros [y [z|]] _; [apply rframe_ret | apply rframe_fresh]. }
      assert (FE : env_fo (mono (combine (List.map fst ps) ts) ++ D)) by (apply Forall_app; split; [apply mono_fo, params_fo; assumption | exact FD]).
      destruct (fo_e b _ W3 FE _ _ _ F1 E2) as [F2 [Fr G2]].
      destruct (fom_record_lam i (func_ty ts r) (fo_fn _ _ Fts Fr) _ _ _ F2 E3) as [_ [_ G3]].
      exists (List.map (mean th none) ts), (mean th none r). split; [reflexivity|]. split; [rewrite map_length; apply (mmap_length _ _ _ _ _ E1)|].
      split; [exact W1|].
      eapply typed_mono; [intros f t _ H; exact H | |apply (IH _ st1 r st2 th FE F1 W3); [|exact E2 | exact (grows_log _ _ G3 L) | exact (grows_sat _ _ _ G3 S)]].
      + intros x w Hx. apply den_extend in Hx; [|apply params_fo, Fts]. revert Hx.
        replace (means th (combine (List.map fst ps) ts)) with (combine (List.map fst ps) (List.map (mean th none) ts)); [intros Hx; exact Hx|].
        unfold means. generalize (List.map fst ps). clear. intros xs. revert ts. induction xs as [|y xs IH]; intros [|t ts]; cbn; try reflexivity. f_equal. apply IH.
      + destruct U as [U1 U2]. split; [exact U1|]. intros j Hj. rewrite (R1 _ _ _ E1 j (fun X => X)). apply U2, Hj.
    - change (wf_all es) in W. rewrite wf_all_forall in W. apply bnd_inv in E as [ts [st1 [E1 E]]]. injection E as <- <-.
      exists (List.map (mean th none) ts). split; [reflexivity|]. apply (sound_all es IH D st ts st1 th FD Fs W U E1 L S).
    - change (wf_all es) in W. rewrite wf_all_forall in W. apply bnd_inv in E as [a [st1 [E1 E]]]. apply bnd_inv in E as [us [st2 [E2 E]]]. injection E as <- <-.
      destruct (fom_fresh _ _ _ Fs E1) as [F1 [Fa G1]].
      exists (mean th none a). split; [reflexivity|]. apply (sound_list es a Fa IH D st1 us st2 th FD F1 W); [|exact E2 | exact L | exact S].
      injection E1 as <- <-. exact U.
    - apply bnd_inv in E as [u [st1 [E1 E2]]]. injection E1 as <- <-. injection E2 as <- <-. discriminate.
    - revert D st FD Fs W U E. induction IHs as [|[k e] ss H F IH]; intros D st FD Fs W U E; cbn [typed_block flat_map app wf] in *.
      { apply (IHv D st t st' th FD Fs W U E L S). }
      destruct W as [W1 [W2 W3]]. cbn [snd] in H. rewrite <- app_assoc in U. apply unseen_split in U as [U1 U2].
      assert (FB : forall D, env_fo D -> fom first_order ((fix go (D : env) (ss : list (option (pat * option ty) * expr)) : M ty :=
           match ss with
           | [] => inf D v
           | (None, e) :: ss => inf D e ;~ go D ss
           | (Some (p, ann), e) :: ss =>
               t <~ inf D e ;;
               t <~ match ann with Some a => eqn t a ;~ ret a | None => ret t end ;;
               u <~ infer_pat ctors p ;;
               eqn u t ;~
               D' <~ bind_let solver pure D p t ;;
               go D' ss
           end) D ss)).
      { intros D0 FD0. apply (fo_e (EBlock ss v) D0 W3 FD0). }
      destruct k as [[p ann]|].
      + destruct W1 as [[Wp1 Wp2] Wa]. split; [exact Wp1|].
        apply bnd_inv in E as [te [st1 [E1 E]]]. apply bnd_inv in E as [tl [st2 [E2 E]]]. apply bnd_inv in E as [u [st3 [E3 E]]].
        apply bnd_inv in E as [u4 [st4 [E4 E]]]. apply bnd_inv in E as [D' [st5 [E5 E]]].
        destruct (fo_e e D W2 FD _ _ _ Fs E1) as [F1 [Fte G1]].
        assert (X2 : st_fo st2 /\ first_order tl /\ grows st1 st2 /\ i_refs st2 = i_refs st1 /\ forall th', sat th' (i_cs st2) -> mean th' none te = mean th' none tl).
        { destruct ann as [a|].
          - apply bnd_inv in E2 as [z [st2' [E2 E2']]]. injection E2' as <- <-. destruct (fom_eqn te a Fte Wa _ _ _ F1 E2) as [F2 [_ G2]].
            destruct (step_eqn _ _ _ _ _ E2) as [C2 [_ [_ R2]]].
            split; [exact F2|]. split; [exact Wa|]. split; [exact G2|]. split; [exact R2|]. intros th' S'. apply S'. rewrite C2. left. reflexivity.
          - injection E2 as <- <-. split; [exact F1|]. split; [exact Fte|]. split; [apply grows_refl|]. split; reflexivity. }
        destruct X2 as [F2 [Ftl [G2 [R2 M2]]]].
        destruct (fom_pat ctors Hctors p _ _ _ F2 E3) as [F3 [Fu G3]].
        destruct (fom_eqn u tl Fu Ftl _ _ _ F3 E4) as [F4 [_ G4]]. destruct (step_eqn _ _ _ _ _ E4) as [C4 [N4 [L4 R4]]].
        destruct (fom_bind_let solver pure Hsolver D p tl FD Ftl _ _ _ F4 E5) as [F5 [FD' G5]].
        destruct (FB D' FD' _ _ _ F5 E) as [_ [_ G6]].
        pose proof (grows_log _ _ G6 L) as L5. pose proof (grows_log _ _ G5 L5) as L4'. pose proof (grows_log _ _ G4 L4') as L3.
        pose proof (grows_log _ _ G3 L3) as L2. pose proof (grows_log _ _ G2 L2) as L1.
        pose proof (grows_sat _ _ _ G5 (grows_sat _ _ _ G6 S)) as S4.
        assert (ST : forall th', sat th' (i_cs st4) -> sat th' (i_cs st3) /\ sat th' (i_cs st2) /\ sat th' (i_cs st1)).
        { intros th' X. pose proof (grows_sat _ _ _ G4 X) as X3. pose proof (grows_sat _ _ _ G3 X3) as X2. split; [exact X3|]. split; [exact X2 | exact (grows_sat _ _ _ G2 X2)]. }
        destruct (let_binds D p tl st4 D' st5 th (fun T => typed G K (den th D) e T) FD F4 Ftl Wp1 E5 L5 S4) as [B1 B2].
        { intros th' S'. destruct (ST th' S') as [S3 _]. rewrite <- (S' u tl) by (rewrite C4; left; reflexivity).
          apply (pat_found_all cs Hcs p st2 u st3 th' (i_nodes st4) F2 E3 Wp2 L3 S3). intros j _. rewrite N4. reflexivity. }
        { intros th' S' Sub. destruct (ST th' S') as [_ [S2 S1]]. eexists. split; [|reflexivity]. rewrite <- (M2 th' S2).
          eapply typed_mono; [intros f t0 _ X; exact X | exact Sub |]. apply (H D st te st1 th' FD Fs W2 U1 E1 L1 S1). }
          exists (den th D'). split; [exact B1|]. split; [exact B2|].
          apply (IH D' st5 FD' F5 W3); [|exact E]. apply U2. intros j Hj. rewrite <- (rframe_infer e D _ _ _ E1 j Hj), <- R2.
          rewrite (rframe_bind_let [] solver pure D p tl _ _ _ E5 j (fun X => X)), R4. apply (rframe_pat [] ctors p _ _ _ E3 j (fun X => X)).
      + apply bnd_inv in E as [te [st1 [E1 E]]]. destruct (fo_e e D W2 FD _ _ _ Fs E1) as [F1 [Fte G1]].
        destruct (FB D FD _ _ _ F1 E) as [_ [_ G6]]. split.
        * eexists. apply (H D st te st1 th FD Fs W2 U1 E1 (grows_log _ _ G6 L) (grows_sat _ _ _ G6 S)).
        * apply (IH D st1 FD F1 W3); [|exact E]. apply U2, (rframe_infer e D _ _ _ E1).
    - destruct W as [W1 W2]. apply unseen_split in U as [U1 U2]. apply bnd_inv in E as [ts [st1 [E1 E]]]. apply bnd_inv in E as [r [st2 [E2 E]]].
      apply bnd_inv in E as [us [st3 [E3 E]]]. injection E as <- <-.
      destruct (fo_e s D W1 FD _ _ _ Fs E1) as [F1 [Fts G1]]. destruct (fom_fresh _ _ _ F1 E2) as [F2 [Fr G2]].
      assert (FA : forall arms, (fix go (arms : list (pat * option expr * expr)) : Prop :=
         match arms with
         | [] => True
         | (p, g, b) :: arms => (wf_pat p /\ match g with Some g => wf g | None => True end /\ wf b) /\ go arms
         end) arms -> fom (Forall top) (mmap (fun arm : pat * option expr * expr =>
                match arm with
                | (p, g, body) =>
                    u <~ infer_pat ctors p ;;
                    eqn u ts ;~
                    bs <~ bind_pat p ts ;;
                    match g with Some _ => guessed Guarded | None => ret tt end ;~
                    b <~ inf (mono bs ++ D) body ;;
                    eqn b r
                end) arms)).
      { clear -Fts Fr FD Hfns Hctors Hsolver. intros arms W. apply fom_mmap. induction arms as [|[[p g] b] arms IH]; [constructor|]. destruct W as [[Wp [_ Wb]] W]. constructor; [|apply IH, W].
        eapply fom_bnd; [apply (fom_pat ctors Hctors)|]. intros u Fu. eapply fom_bnd; [apply fom_eqn; assumption|]. intros _ _.
        eapply fom_bnd; [apply fom_bind, Fts|]. intros bs Fb. eapply fom_bnd; [instantiate (1 := top); destruct g; [apply fom_guessed | apply fom_ret; exact I]|]. intros _ _.
        eapply fom_bnd; [apply fo_e; [exact Wb | apply Forall_app; split; [apply mono_fo, Fb | exact FD]]|]. intros z Fz. apply fom_eqn; assumption. }
      destruct (FA arms W2 _ _ _ F2 E3) as [_ [_ G3]]. pose proof (grows_trans _ _ _ G2 G3) as G4.
      exists (mean th none ts). split; [apply (IHs D st ts st1 th FD Fs W1 U1 E1 (grows_log _ _ G4 L) (grows_sat _ _ _ G4 S))|].
      assert (U3 : unseen (flat_map (fun a : pat * option expr * expr => match a with (_, g, b) => match g with Some g => ref_ids g | None => [] end ++ ref_ids b end) arms) st2).
      { apply U2. intros j Hj. rewrite <- (rframe_infer s D _ _ _ E1 j Hj). injection E2 as <- <-. reflexivity. }
      clear U1 U2 E1 E2 G1 G2 G4 F1 Fs IHs. revert st2 us W2 U3 E3 F2 G3.
      induction IHa as [|[[p g] b] arms [_ Hb] F IH]; intros st2 us W2 U3 E3 F2 G3; cbn [typed_arms]; [exact I|]. cbn [snd] in Hb.
      destruct W2 as [[[Wp1 Wp2] [_ Wb]] W2]. apply mmap_inv in E3 as [z [st9 [us' [-> [E3 E4]]]]].
      cbn [flat_map] in U3. apply unseen_split in U3 as [U3 U4].
      apply bnd_inv in E3 as [u [st4 [X1 E3]]]. apply bnd_inv in E3 as [z5 [st5 [X2 E3]]]. apply bnd_inv in E3 as [bs [st6 [X3 E3]]].
      apply bnd_inv in E3 as [z7 [st7 [X4 E3]]]. apply bnd_inv in E3 as [tb [st8 [X5 X6]]].
      destruct (fom_pat ctors Hctors p _ _ _ F2 X1) as [F4 [Fu Y1]].
      destruct (fom_eqn u ts Fu Fts _ _ _ F4 X2) as [F5 [_ Y2]]. destruct (step_eqn _ _ _ _ _ X2) as [C5 [N5 [L5 R5]]].
      destruct (fom_bind p ts Fts _ _ _ F5 X3) as [F6 [Fb Y3]]. destruct (keeps_bind p ts _ _ _ X3) as [C6 [N6 [R6 _]]].
      assert (F7' : fom top (match g with Some _ => guessed Guarded | None => ret tt end)) by (destruct g; [apply fom_guessed | apply fom_ret; exact I]).
      destruct (F7' _ _ _ F6 X4) as [F7 [_ Y4]].
      assert (FE : env_fo (mono bs ++ D)) by (apply Forall_app; split; [apply mono_fo, Fb | exact FD]).
      destruct (fo_e b _ Wb FE _ _ _ F7 X5) as [F8 [Ftb Y5]]. destruct (fom_eqn tb r Ftb Fr _ _ _ F8 X6) as [F9 [_ Y6]].
      destruct (step_eqn _ _ _ _ _ X6) as [C9 [_ [_ R9]]].
      destruct (FA arms W2 _ _ _ F9 E4) as [_ [_ Y7]].
      pose proof (grows_log _ _ Y7 L) as L9. pose proof (grows_log _ _ Y6 L9) as L8. pose proof (grows_log _ _ Y5 L8) as L7. pose proof (grows_log _ _ Y4 L7) as L6.
      pose proof (grows_log _ _ Y3 L6) as L5'. pose proof (grows_log _ _ Y2 L5') as L4.
      pose proof (grows_sat _ _ _ Y7 S) as S9. pose proof (grows_sat _ _ _ Y6 S9) as S8. pose proof (grows_sat _ _ _ Y5 S8) as S7. pose proof (grows_sat _ _ _ Y4 S7) as S6.
      pose proof (grows_sat _ _ _ Y3 S6) as S5. pose proof (grows_sat _ _ _ Y2 S5) as S4.
      destruct g as [g|]; [injection X4 as <- <-; discriminate|]. injection X4 as <- <-. split.
      + split; [exact Wp1|]. exists (means th bs). split; [|split; [exact I|]].
        * apply (bind_ok cs th p ts (mean th none ts) st5 bs st6 X3 L6); [|reflexivity].
          rewrite <- (S5 u ts) by (rewrite C5; left; reflexivity).
          apply (pat_found_all cs Hcs p st2 u st4 th (i_nodes st5) F2 X1 Wp2 L4 S4). intros j _. rewrite N5. reflexivity.
        * eapply typed_mono; [intros f t0 _ X; exact X | intros x w Hx; apply den_extend; [exact Fb | exact Hx]|].
          rewrite <- (S9 tb r) by (rewrite C9; left; reflexivity).
          apply (Hb _ st6 tb st8 th FE F6 Wb); [|exact X5 | exact L8 | exact S8].
          destruct U3 as [U3 U3']. split; [exact U3|]. intros j Hj. rewrite R6, R5, (rframe_pat [] ctors p _ _ _ X1 j (fun X => X)). apply U3', Hj.
      + apply (IH st9 us' W2); [|exact E4 | exact F9 | exact Y7]. apply U4. intros j Hj. rewrite R9, (rframe_infer b _ _ _ _ X5 j Hj), R6, R5.
        apply (rframe_pat [] ctors p _ _ _ X1 j (fun X => X)).
  Qed.
End Typed.
