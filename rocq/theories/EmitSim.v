(** Compiled code does what the structured operations do (C72). *)
From Verif Require Export EmitProofs.

Section Sim.
  Context {V W : Type}.
  Variable nilv : V.
  Variable truth : V -> bool.
  Variable sem : nat -> list V -> W -> eff V W.
  Variables indirect ends : nat -> bool.
  Variable params : nat -> list vt.
  Variable pushes : nat -> option vt.
  Variable Law : lawful sem pushes ends.
  Definition takes_of k := List.length (params k).
  Variable all : list (nat * vt).
  Variable Uniq : NoDup (List.map fst all).
  Variable n : nat.
  Notation slot := (fun v => position_of v all).
  Notation emits := (emits slot indirect).
  Notation run := (run nilv truth sem indirect n).
  Notation execs := (execs truth sem takes_of n).
  Notation exec := (exec truth sem takes_of n).
  Notation fine := (fine params pushes ends indirect).
  Notation bind := (bind nilv).
  Notation binds := (binds nilv).

  Lemma slot_inj u v i : position_of u all = Some i -> position_of v all = Some i -> u = v.
  Proof. intros H1 H2. apply position_fst in H1, H2. congruence. Qed.
  Lemma slot_of v t : In (v, t) all -> exists i, position_of v all = Some i.
  Proof. intros H. destruct (position_in v t all Uniq H) as [i [E _]]. eauto. Qed.
  Lemma same_type v t t' : In (v, t) all -> In (v, t') all -> t = t'.
  Proof. intros H H'. destruct (position_in v t all Uniq H) as [i [E E1]]. destruct (position_in v t' all Uniq H') as [j [E' E2]]. congruence. Qed.

  Record agree (G : scope) (e : env) (L : locals) : Prop := {
    ag_locals : forall v t i, In (v, t) G -> position_of v all = Some i -> L i = e v;
    ag_nil : forall v, In (v, nil_t) G -> e v = nilv;
    ag_nils : forall v i, In (v, nil_t) all -> position_of v all = Some i -> L i = nilv
  }.

  Lemma put_same {A} (e : nat -> A) v x : put e v x v = x.
  Proof. unfold put. rewrite Nat.eqb_refl. reflexivity. Qed.
  Lemma put_other {A} (e : nat -> A) v u x : u <> v -> put e v x u = e u.
  Proof. intros H. unfold put. destruct (Nat.eqb_spec u v); congruence. Qed.

  (** A parameter or a result that is not nil is stored. *)
  Lemma agree_put G e L r t i x : agree G e L -> In (r, t) all -> position_of r all = Some i -> ~ In r (List.map fst G) ->
    (t = nil_t -> x = nilv) -> agree ((r, t) :: G) (bind e (r, t) x) (put L i x).
  Proof.
    intros [A B C] Hr Hi N X.
    assert (Y : (if is_nil t then nilv else x) = x).
    { unfold is_nil. destruct (Nat.eqb_spec t nil_t) as [E|E]; [symmetry; auto|reflexivity]. }
    unfold EmitSpec.bind; cbn [fst snd]; rewrite Y. split.
    - intros v u j [H|H] Hj.
      + injection H as <- <-. rewrite Hi in Hj. injection Hj as <-. rewrite !put_same. reflexivity.
      + assert (v <> r) by (intros ->; apply N; exact (in_map fst G (r, u) H)).
        rewrite !put_other; [eauto|exact H0|]. intros ->. apply H0. eapply slot_inj; eauto.
    - intros v [H|H].
      + injection H as <- ->. rewrite put_same. auto.
      + rewrite put_other; [auto|]. intros ->. apply N. exact (in_map fst G (r, nil_t) H).
    - intros v j H Hj. destruct (Nat.eq_dec j i) as [->|E].
      + rewrite put_same. apply X. assert (v = r) by (eapply slot_inj; eauto). subst v. eapply same_type; eauto.
      + rewrite put_other by exact E. eauto.
  Qed.
  Lemma agree_nil G e L r x : agree G e L -> In (r, nil_t) all -> ~ In r (List.map fst G) -> agree ((r, nil_t) :: G) (bind e (r, nil_t) x) L.
  Proof.
    intros [A B C] Hr N. unfold EmitSpec.bind; cbn [fst snd]. replace (is_nil nil_t) with true by reflexivity. split; [| |exact C].
    - intros v u j [H|H] Hj.
      + injection H as <- <-. rewrite put_same. eauto.
      + rewrite put_other; [eauto|]. intros ->. apply N. exact (in_map fst G (r, u) H).
    - intros v [H|H].
      + injection H as <-. apply put_same.
      + rewrite put_other; [auto|]. intros ->. apply N. exact (in_map fst G (r, nil_t) H).
  Qed.
  Lemma agree_drop G e L b x : agree (b :: G) (bind e b x) L -> ~ In (fst b) (List.map fst G) -> agree G e L.
  Proof.
    intros [A B C] N. unfold EmitSpec.bind in *. split; [| |exact C].
    - intros v t i H Hi. rewrite (A v t i (or_intror H) Hi). apply put_other. intros ->. apply N. exact (in_map fst G (fst b, t) H).
    - intros v H. rewrite <- (B v (or_intror H)). symmetry. apply put_other. intros ->. apply N. exact (in_map fst G (fst b, nil_t) H).
  Qed.
  Lemma agree_get G e L v t i : agree G e L -> In (v, t) G -> position_of v all = Some i -> L i = e v.
  Proof. intros A. apply (ag_locals _ _ _ A). Qed.

  (** Loop parameters. *)
  Fixpoint puts (L : @locals V) (is : list nat) (xs : list V) : locals :=
    match is, xs with
    | i :: is, x :: xs => puts (put L i x) is xs
    | _, _ => L
    end.
  Lemma agree_puts : forall ps G e L ls xs, agree G e L -> slots slot (List.map fst ps) = Some ls ->
    incl ps all -> NoDup (List.map fst (ps ++ G)) -> Forall2 (fun x (b : nat * vt) => snd b = nil_t -> x = nilv) xs ps ->
    agree (rev ps ++ G) (binds e ps xs) (puts L ls xs).
  Proof.
    induction ps as [|[r t] ps IH]; intros G e L ls xs A E I N F; inv F; cbn in *.
    - injection E as <-. exact A.
    - apply obind_some in E. destruct E as [i [Ei E]]. apply obind_some in E. destruct E as [js [Ej E]]. injection E as <-. cbn.
      rewrite <- app_assoc. cbn. inversion N as [|? ? N1 N2]; subst. apply IH; auto.
      + apply agree_put; auto; [apply I; left; reflexivity|]. intros X. apply N1. rewrite map_app. apply in_or_app. right. exact X.
      + intros y Hy. apply I. right. exact Hy.
      + rewrite map_app in N2 |- *. cbn. clear - N1 N2. rewrite map_app in N1. apply NoDup_cons with (x := r) in N2; [|exact N1].
        revert N2. apply Permutation.Permutation_NoDup. apply Permutation.Permutation_middle.
  Qed.
  Lemma agree_perm G G' e L : (forall x, In x G' -> In x G) -> agree G e L -> agree G' e L.
  Proof. intros H [A B C]. split; eauto. Qed.
  Lemma agree_drops : forall ps G e L xs, agree (rev ps ++ G) (binds e ps xs) L -> List.length xs = List.length ps ->
    NoDup (List.map fst (ps ++ G)) -> agree G e L.
  Proof.
    induction ps as [|b ps IH]; intros G e L [|x xs] A E N; cbn in *; try discriminate; [exact A|]. inversion N as [|? ? N1 N2]; subst.
    rewrite <- app_assoc in A. cbn in A. apply IH in A.
    - apply agree_drop in A; [exact A|]. intros X. apply N1. rewrite map_app. apply in_or_app. right. exact X.
    - lia.
    - rewrite map_app in N2 |- *. cbn. rewrite map_app in N1. apply NoDup_cons with (x := fst b) in N2; [|exact N1].
      revert N2. apply Permutation.Permutation_NoDup. apply Permutation.Permutation_middle.
  Qed.

  (** ** Instructions in sequence *)
  Lemma execs_app : forall a b L s w, execs (a ++ b) L s w = match execs a L s w with Norm L' s' w' => execs b L' s' w' | r => r end.
  Proof.
    induction a as [|i a IH]; intros b L s w; [reflexivity|]. unfold EmitSpec.execs in *. cbn [app exec_list]. fold exec.
    destruct (exec i L s w); try reflexivity. apply IH.
  Qed.
  Lemma execs_cons i l L s w : execs (i :: l) L s w = match exec i L s w with Norm L' s' w' => execs l L' s' w' | r => r end.
  Proof. reflexivity. Qed.
  Lemma exec_gets : forall is L s w, execs (List.map IGet is) L s w = Norm L (rev (List.map L is) ++ s) w.
  Proof.
    induction is as [|i is IH]; intros L s w; [reflexivity|]. cbn [List.map]. rewrite execs_cons. cbn [EmitSpec.exec]. rewrite IH.
    cbn. rewrite <- app_assoc. reflexivity.
  Qed.
  Lemma values_ordered k e args : operand_values indirect k (List.map e args) = List.map e (ordered indirect k args) :> list V.
  Proof. unfold operand_values, ordered. destruct (indirect k); [|reflexivity]. destruct args; [reflexivity|]. cbn. rewrite map_app. reflexivity. Qed.
  Lemma got G e L : agree G e L -> forall vs ts is, Forall2 (fun v t => In (v, t) G) vs ts -> slots slot vs = Some is ->
    List.map L is = List.map e vs.
  Proof.
    intros A. induction vs as [|v vs IH]; intros ts is F E; inv F; cbn in E.
    - injection E as <-. reflexivity.
    - apply obind_some in E. destruct E as [i [Ei E]]. apply obind_some in E. destruct E as [js [Ej E]]. injection E as <-. cbn.
      f_equal; [eapply agree_get; eauto|eauto].
  Qed.
  Lemma exec_plain G e L k args is st s w : agree G e L -> typed_args params indirect G k args ->
    slots slot (ordered indirect k args) = Some is ->
    execs (List.map IGet is ++ IOp k :: st) L s w =
    match sem k (operand_values indirect k (List.map e args)) w with
    | EVal (Some x) w' => execs st L (x :: s) w'
    | EVal None w' => execs st L s w'
    | ETrap w' => Dead w'
    | EReturn xs w' => Leave xs w'
    end.
  Proof.
    intros A T E. rewrite execs_app, exec_gets, execs_cons. cbn [EmitSpec.exec]. unfold typed_args in T. fold (ordered indirect k args) in T.
    rewrite (got G e L A _ _ _ T E), <- values_ordered. set (ys := operand_values indirect k (List.map e args)).
    assert (Ly : List.length ys = takes_of k).
    { unfold ys. rewrite values_ordered, map_length. exact (Forall2_len _ _ _ T). }
    rewrite app_length, rev_length, Ly. replace (takes_of k <=? takes_of k + List.length s) with true by (symmetry; apply Nat.leb_le; lia).
    replace (takes_of k) with (List.length (rev ys)) by (rewrite rev_length; exact Ly).
    rewrite firstn_app, firstn_all, Nat.sub_diag, skipn_app, skipn_all, Nat.sub_diag. cbn [firstn skipn app]. rewrite app_nil_r, rev_involutive.
    destruct (sem k ys w) as [[x|] w'|w'|xs w']; reflexivity.
  Qed.
  (** Storing a result. *)
  Lemma exec_result G e L r t st s w x : agree G e L -> In (r, t) all -> ~ In r (List.map fst G) -> set_result slot r t = Some st ->
    exists L', execs st L (if is_nil t then s else x :: s) w = Norm L' s w /\ agree ((r, t) :: G) (bind e (r, t) x) L'.
  Proof.
    intros A Hr N E. unfold set_result in E. unfold is_nil in *. destruct (Nat.eqb_spec t nil_t) as [->|D].
    - injection E as <-. exists L. split; [reflexivity|]. apply agree_nil; auto.
    - apply obind_some in E. destruct E as [i [Ei E]]. injection E as <-. exists (put L i x). split; [reflexivity|].
      apply agree_put; auto. contradiction.
  Qed.
  Lemma exec_inits G e : forall init ls is L s w, agree G e L -> slots slot init = Some is ->
    (forall v, In v init -> exists t, In (v, t) G) ->
    (forall v i, In v init -> position_of v all = Some i -> ~ In i ls) -> List.length is = List.length ls ->
    execs (flat_map (fun x : nat * nat => [IGet (fst x); ISet (snd x)]) (combine is ls)) L s w = Norm (puts L ls (List.map e init)) s w.
  Proof.
    intros init ls is L s w A E T D Len.
    assert (X : forall init ls is L, slots slot init = Some is -> (forall v i, In v init -> position_of v all = Some i -> L i = e v) ->
      (forall v i, In v init -> position_of v all = Some i -> ~ In i ls) -> List.length is = List.length ls ->
      execs (flat_map (fun x : nat * nat => [IGet (fst x); ISet (snd x)]) (combine is ls)) L s w = Norm (puts L ls (List.map e init)) s w).
    { clear. induction init as [|v init IH]; intros ls is L E R D Len; cbn in E.
      - injection E as <-. destruct ls; [reflexivity|discriminate].
      - apply obind_some in E. destruct E as [i [Ei E]]. apply obind_some in E. destruct E as [js [Ej E]]. injection E as <-.
        destruct ls as [|a ls]; [discriminate|]. cbn [combine flat_map fst snd app]. rewrite execs_cons. cbn [EmitSpec.exec].
        rewrite execs_cons. cbn [EmitSpec.exec]. rewrite IH; auto.
        + cbn. f_equal. f_equal. rewrite (R v i); auto. left; reflexivity.
        + intros u j Hu Hj. rewrite put_other; [apply R; auto; right; exact Hu|]. intros ->. apply (D u a (or_intror Hu) Hj). left. reflexivity.
        + intros u j Hu Hj X. apply (D u j (or_intror Hu) Hj). right. exact X. }
    apply X; auto. intros v i Hv Hi. destruct (T v Hv) as [t Ht]. eapply agree_get; eauto.
  Qed.

  (** ** Regions *)
  Definition nest_ok (p : place) (nest : list nesting) (ls : list nat) : Prop :=
    match p with
    | Top | Arm _ => True
    | LoopArm _ ps _ => List.length ls = List.length ps /\ exists rest, nest = NIf :: NLoop ls :: NBlock :: rest
    | Body ps _ => List.length ls = List.length ps /\ exists rest, nest = NLoop ls :: NBlock :: rest
    end.
  (** How many labels away the loop is. *)
  Definition depth (p : place) : option nat := match p with LoopArm _ _ _ => Some 1 | Body _ _ => Some 0 | _ => None end.
  Definition carried (p : place) : list vt := match p with LoopArm _ ps _ | Body ps _ => ps | _ => [] end.

  Definition fits (G : scope) (p : place) (e : env) (ls : list nat) (region : option nat) (x : out V W) (s : list V) (r : res V W) : Prop :=
    match x with
    | Fall _ | Wrong => False
    | Yielded xs w' =>
        exists L', r = Norm L' s w' /\ agree G e L' /\
          exists t, result_type p = Some t /\
            (t <> nil_t -> exists v i, region = Some v /\ position_of v all = Some i /\ L' i = first nilv xs)
    | Continued xs w' =>
        exists d L s', depth p = Some d /\ r = Jump d (puts L ls xs) s' w' /\ agree G e L /\
          Forall2 (fun x t => t = nil_t -> x = nilv) xs (carried p)
    | Broke x w' =>
        exists d L' s', depth p = Some d /\ r = Jump (S d) L' (x :: s') w' /\ agree G e L'
    | Returned xs w' => r = Leave xs w'
    | Trapped w' => r = Dead w'
    | Unfinished => r = Over
    end.

  Lemma NoDup_app_two {A} (a b : list A) : NoDup (a ++ b) -> NoDup a /\ NoDup b /\ forall x, In x a -> ~ In x b.
  Proof.
    induction a as [|x a IH]; cbn; intros H; [repeat split; [constructor|exact H|intros _ []]|]. inversion H as [|? ? H1 H2]; subst.
    destruct (IH H2) as [X [Y Z]]. repeat split; [constructor; [intros U; apply H1; apply in_or_app; left; exact U|exact X]|exact Y|].
    intros y [<-|Hy]; [intros U; apply H1; apply in_or_app; right; exact U|auto].
  Qed.

  Lemma fits_tail G p e ls b x region region' X s r : fits (b :: G) p (bind e b x) ls region X s r -> ~ In (fst b) (List.map fst G) ->
    (forall v, region = Some v -> region' = Some v) -> fits G p e ls region' X s r.
  Proof.
    intros F N R. destruct X; cbn in *; auto.
    - destruct F as [L' [E [A [t [T F]]]]]. exists L'. split; [exact E|]. split; [eapply agree_drop; eauto|]. exists t. split; [exact T|].
      intros D. destruct (F D) as [v [i [E1 E2]]]. exists v, i. auto.
    - destruct F as [d [L [s' [E [E1 [A F]]]]]]. exists d, L, s'. repeat (split; [assumption|]). split; [eapply agree_drop; eauto|exact F].
    - destruct F as [d [L [s' [E [E1 A]]]]]. exists d, L, s'. repeat (split; [assumption|]). eapply agree_drop; eauto.
  Qed.
  Lemma fits_region G p e ls region region' X s r : fits G p e ls region X s r ->
    (forall v, region = Some v -> region' = Some v) -> fits G p e ls region' X s r.
  Proof.
    intros F R. destruct X; cbn in *; auto.
    destruct F as [L' [E [A [t [T F]]]]]. exists L'. split; [exact E|]. split; [exact A|]. exists t. split; [exact T|].
    intros D. destruct (F D) as [v [i [E1 E2]]]. exists v, i. auto.
  Qed.

  Lemma run_cons o l e w : run (o :: l) e w = match run_op nilv truth sem indirect n o e w with (e', Fall w') => run l e' w' | (_, x) => x end.
  Proof. reflexivity. Qed.
  Lemma leaves_run G p l : fine G p l -> leaves ends l -> forall e w xs w', run l e w <> Yielded xs w'.
  Proof.
    induction 1 as [G p k args l E E1 T F IH|G p k args r t l E E1 T F IH|G p k args E T|G p c r t th el l Ic Y F1 IH1 F2 IH2 F IH
                   |G ps lt c r t th el Ic Y1 Y2 Q F1 IH1 F2 IH2|G p init ps r r' t body l FA F1 IH1 F IH|G p t v T I|G p T
                   |G t ps lt vs FA LE|G t ps lt v I]; intros LV e w xs w'.
    - rewrite run_cons. cbn. destruct (sem _ _ _); try discriminate. apply IH. eapply leaves_tail; [eapply fine_nonempty; eauto|exact LV].
    - rewrite run_cons. cbn. destruct (sem _ _ _); try discriminate. apply IH. eapply leaves_tail; [eapply fine_nonempty; eauto|exact LV].
    - rewrite run_cons. cbn. destruct (sem _ _ _); discriminate.
    - rewrite run_cons. cbn. assert (LV' : leaves ends l) by (eapply leaves_tail; [eapply fine_nonempty; eauto|exact LV]).
      destruct (if truth (e c) then _ else _); try discriminate. apply IH; auto.
    - rewrite run_cons. cbn. destruct (if truth (e c) then _ else _); discriminate.
    - rewrite run_cons. cbn. assert (LV' : leaves ends l) by (eapply leaves_tail; [eapply fine_nonempty; eauto|exact LV]).
      destruct (rounds _ _ _ _); try discriminate. apply IH; auto.
      apply IH. auto.
    - destruct LV as [l' [o [E H]]]. destruct l' as [|? [|]]; [|discriminate|discriminate]. injection E as <-. destruct H.
    - destruct LV as [l' [o [E H]]]. destruct l' as [|? [|]]; [|discriminate|discriminate]. injection E as <-. destruct H.
    - discriminate.
    - discriminate.
  Qed.

  (** After a region, the value that it ends with. *)
  Lemma exec_get region wanted av L s w x : get_result slot wanted region = Some av ->
    (wanted = true -> exists v i, region_result region = Some v /\ position_of v all = Some i /\ L i = x) ->
    execs av L s w = Norm L (if wanted then x :: s else s) w.
  Proof.
    unfold get_result. destruct wanted; intros E H.
    - destruct (H eq_refl) as [v [i [E1 [E2 <-]]]]. rewrite E1, E2 in E. injection E as <-. reflexivity.
    - injection E as <-. reflexivity.
  Qed.
  Lemma parts G a b : NoDup (List.map fst (G ++ a ++ b)) -> incl (a ++ b) all ->
    NoDup (List.map fst (G ++ a)) /\ incl a all /\ NoDup (List.map fst (G ++ b)) /\ incl b all.
  Proof.
    intros N I. split; [|split; [|split]].
    - rewrite app_assoc, map_app in N. apply NoDup_app_two in N. tauto.
    - intros x Hx. apply I. apply in_or_app. left. exact Hx.
    - assert (P : Permutation.Permutation (G ++ a ++ b) (a ++ G ++ b)) by (rewrite !app_assoc; apply Permutation.Permutation_app_tail, Permutation.Permutation_app_comm).
      apply (Permutation.Permutation_map fst) in P. apply (Permutation.Permutation_NoDup P) in N. rewrite map_app in N. apply NoDup_app_two in N. tauto.
    - intros x Hx. apply I. apply in_or_app. right. exact Hx.
  Qed.
  Lemma next G (b : nat * vt) l : NoDup (List.map fst (G ++ [b] ++ l)) -> incl G all -> incl ([b] ++ l) all ->
    ~ In (fst b) (List.map fst G) /\ In b all /\ incl (b :: G) all /\ incl l all /\ NoDup (List.map fst ((b :: G) ++ l)).
  Proof.
    intros N I1 I2.
    assert (P : Permutation.Permutation (G ++ [b] ++ l) ((b :: G) ++ l)) by (cbn; symmetry; apply Permutation.Permutation_middle).
    apply (Permutation.Permutation_map fst) in P. apply (Permutation.Permutation_NoDup P) in N. split; [|split; [|split; [|split]]].
    - cbn in N. inversion N as [|? ? N1 N2]; subst. intros X. apply N1. rewrite map_app. apply in_or_app. left. exact X.
    - apply I2. left. reflexivity.
    - intros x [<-|Hx]; [apply I2; left; reflexivity|auto].
    - intros x Hx. apply I2. right. exact Hx.
    - exact N.
  Qed.

  Lemma is_nil_spec t : is_nil t = true <-> t = nil_t.
  Proof. apply Nat.eqb_eq. Qed.
  Lemma wanted_spec t : negb (is_nil t) = true -> t <> nil_t.
  Proof. unfold is_nil. destruct (Nat.eqb_spec t nil_t); [discriminate|auto]. Qed.

  (** ** One branch *)
  Definition after (av : list instr) (r : res V W) : res V W := match r with Norm L s w => execs av L s w | r => r end.
  Lemma execs_after a b L s w : execs (a ++ b) L s w = after b (execs a L s w).
  Proof. rewrite execs_app. unfold after. destruct (execs a L s w); reflexivity. Qed.
  Definition arm_fits G p t e ls s (X : out V W) (r : res V W) : Prop :=
    match X with
    | Yielded xs w' => exists L', r = Norm L' (if is_nil t then s else first nilv xs :: s) w' /\ agree G e L'
    | x => fits G p e ls None x s r
    end.
  Lemma arm_end G p t e ls region X r av wanted s : fits G (arm p t) e ls (region_result region) X [] r ->
    get_result slot wanted region = Some av -> wanted = negb (is_nil t) ->
    arm_fits G p t e ls s X (close (block_type wanted t) s (after av r)).
  Proof.
    intros F E ->. unfold arm_fits. destruct X; cbn in F |- *; auto.
    - destruct F as [L' [-> [A [t' [T F]]]]]. exists L'. split; [|exact A].
      cbn [after]. rewrite (exec_get region (negb (is_nil t)) av L' [] w (first nilv xs) E).
      + destruct (is_nil t); reflexivity.
      + intros D. apply wanted_spec in D. apply F. destruct p; cbn in T; injection T as <-; exact D.
    - destruct F as [d [L [s' [D [-> [A F]]]]]]. destruct p as [| | |ps lt]; try discriminate. injection D as <-.
      exists 0, L, s'. cbn. auto.
    - destruct F as [d [L [s' [D [-> A]]]]]. destruct p as [| | |ps lt]; try discriminate. injection D as <-.
      exists 0, L, s'. cbn. auto.
    - subst r. reflexivity.
    - subst r. reflexivity.
    - subst r. reflexivity.
  Qed.

  (** ** The rounds of a loop *)
  Lemma loop_rounds G e ps ls bt body is : 
    (forall L xs w, agree (rev ps ++ G) (binds e ps xs) L ->
      fits (ps ++ G) (Body (List.map snd ps) bt) (binds e ps xs) ls None (run body (binds e ps xs) w) [] (execs is L [] w)) ->
    slots slot (List.map fst ps) = Some ls -> incl ps all -> NoDup (List.map fst (ps ++ G)) ->
    forall t m L xs w, agree G e L -> Forall2 (fun x (b : nat * vt) => snd b = nil_t -> x = nilv) xs ps ->
    match rounds (fun xs w => run body (binds e ps xs) w) m xs w with
    | Yielded ys w' => exists L' s', turns t [] (fun L w => execs is L [] w) m (puts L ls xs) w = Jump 0 L' (first nilv ys :: s') w' /\ agree G e L'
    | Returned ys w' => turns t [] (fun L w => execs is L [] w) m (puts L ls xs) w = Leave ys w'
    | Trapped w' => turns t [] (fun L w => execs is L [] w) m (puts L ls xs) w = Dead w'
    | Unfinished => turns t [] (fun L w => execs is L [] w) m (puts L ls xs) w = Over
    | _ => False
    end.
  Proof.
    intros B Els I N t. induction m as [|m IH]; intros L xs w A F; [reflexivity|]. cbn [rounds turns].
    pose proof (B (puts L ls xs) xs w (agree_puts ps G e L ls xs A Els I N F)) as H.
    destruct (run body (binds e ps xs) w) as [w1|ys w1|ys w1|y w1|ys w1|w1| |]; cbn [fits] in H.
    - destruct H.
    - destruct H as [L' [_ [_ [t' [T _]]]]]. discriminate.
    - destruct H as [d [Lm [s' [D [-> [A' F']]]]]]. injection D as <-. cbn [carried] in F'. apply IH.
      + apply (agree_drops ps G e Lm xs); [|exact (Forall2_len _ _ _ F)|exact N].
        revert A'. apply agree_perm. intros x Hx. apply in_app_or in Hx. apply in_or_app. destruct Hx as [Hx|Hx]; [left; apply in_rev; exact Hx|right; exact Hx].
      + clear - F'. revert ys F'. induction ps as [|b ps IH]; intros ys F'; inv F'; constructor; auto.
    - destruct H as [d [Lm [s' [D [-> A']]]]]. injection D as <-. cbn [close]. exists Lm, s'. split; [reflexivity|].
      apply (agree_drops ps G e Lm xs); [|exact (Forall2_len _ _ _ F)|exact N].
      revert A'. apply agree_perm. intros x Hx. apply in_app_or in Hx. apply in_or_app. destruct Hx as [Hx|Hx]; [left; apply in_rev; exact Hx|right; exact Hx].
    - rewrite H. reflexivity.
    - rewrite H. reflexivity.
    - rewrite H. reflexivity.
    - destruct H.
  Qed.

  Lemma sim G p l : fine G p l -> forall nest ls is e L s w, incl G all -> incl (own l) all -> NoDup (List.map fst (G ++ own l)) ->
    nest_ok p nest ls -> emits nest (flat_map lower l) = Some is -> agree G e L ->
    fits G p e ls (region_result (flat_map lower l)) (run l e w) s (execs is L s w).
  Proof.
    induction 1 as [G p k args l E E1 T F IH|G p k args r t l E E1 T F IH|G p k args E T|G p c r t th el l Ic Y F1 IH1 F2 IH2 F IH
                   |G ps lt c r t th el Ic Y1 Y2 Q F1 IH1 F2 IH2|G p init ps r r' t body l FA F1 IH1 F IH|G p t v T I|G p T
                   |G t ps lt vs FA LE|G t ps lt v I]; intros nest ls is e L s w IG IO N NO EM A.
    - cbn [flat_map lower app] in EM |- *. rewrite own_cons in IO, N. cbn [flat_map lower locals_of app] in IO, N.
      apply emits_cons_inv in EM; [|exact Logic.I]. destruct EM as [a [b [Ea [Eb ->]]]]. cbn [EmitModel.emit] in Ea.
      apply obind_some in Ea. destruct Ea as [gs [Eg Ea]]. injection Ea as <-. rewrite <- app_assoc. cbn [app].
      rewrite (exec_plain G e L k args gs b s w A T Eg), run_cons. cbn [run_op].
      destruct (sem _ _ _) as [o w1|w1|xs w1] eqn:Es; [|reflexivity|reflexivity].
      pose proof (law_value _ _ _ Law _ _ _ _ _ Es) as LW. rewrite E1 in LW. subst o.
      eapply fits_region; [eapply IH; eauto|]. intros v Hv. exact (result_right [WPlain k args None] _ v Hv).
    - cbn [flat_map lower app] in EM |- *. rewrite own_cons in IO, N. cbn [flat_map lower locals_of] in IO, N. rewrite app_nil_r in IO, N.
      destruct (next G (r, t) (own l) N IG IO) as [N1 [I1 [I2 [I3 N2]]]].
      apply emits_cons_inv in EM; [|exact Logic.I]. destruct EM as [a [b [Ea [Eb ->]]]]. cbn [EmitModel.emit] in Ea.
      apply obind_some in Ea. destruct Ea as [gs [Eg Ea]]. apply obind_some in Ea. destruct Ea as [st [Est Ea]]. injection Ea as <-.
      rewrite <- app_assoc. cbn [app]. rewrite (exec_plain G e L k args gs (st ++ b) s w A T Eg), run_cons. cbn [run_op].
      destruct (sem _ _ _) as [o w1|w1|xs w1] eqn:Es; [|reflexivity|reflexivity].
      pose proof (law_value _ _ _ Law _ _ _ _ _ Es) as LW. rewrite E1 in LW.
      destruct (exec_result G e L r t st s w1 (match o with Some x => x | None => nilv end) A I1 N1 Est) as [L' [X A']].
      assert (Y : match o with Some x => execs (st ++ b) L (x :: s) w1 | None => execs (st ++ b) L s w1 end = execs b L' s w1).
      { destruct (is_nil t); [subst o|destruct LW as [x ->]]; rewrite execs_app, X; reflexivity. }
      replace (match o with Some x => execs (st ++ b) L (x :: s) w1 | None => execs (st ++ b) L s w1 end) with (execs b L' s w1).
      eapply fits_tail; [eapply IH; eauto|exact N1|]. intros v Hv. exact (result_right [WPlain k args (Some (r, t))] _ v Hv).
    - cbn [flat_map lower app] in EM |- *. apply emits_cons_inv in EM; [|exact Logic.I]. destruct EM as [a [b [Ea [Eb ->]]]]. cbn [EmitModel.emit] in Ea.
      apply obind_some in Ea. destruct Ea as [gs [Eg Ea]]. injection Ea as <-. rewrite <- app_assoc. cbn [app].
      rewrite (exec_plain G e L k args gs b s w A T Eg), run_cons. cbn [run_op].
      destruct (sem _ _ _) as [o w1|w1|xs w1] eqn:Es; [|reflexivity|reflexivity].
      pose proof (law_end _ _ _ Law _ _ _ _ _ Es). congruence.
    - (* if *)
      cbn [flat_map lower app] in EM |- *. rewrite own_cons in IO, N. cbn [flat_map lower locals_of] in IO, N. rewrite app_nil_r, <- !app_assoc in IO, N.
      fold (own th) in IO, N. fold (own el) in IO, N.
      destruct (parts G (own th) _ N IO) as [Na [Ia [N' I']]]. destruct (parts G (own el) _ N' I') as [Nb [Ib [N'' I'']]].
      destruct (next G (r, t) (own l) N'' IG I'') as [N1 [I1 [I2 [I3 N2]]]].
      apply emits_cons_inv in EM; [|exact Logic.I]. destruct EM as [a [b [Ea [Eb ->]]]]. cbn [EmitModel.emit] in Ea.
      set (wanted := match region_result (flat_map lower th) with Some _ => negb (is_nil t) | None => false end) in Ea.
      assert (Wt : wanted = negb (is_nil t)).
      { unfold wanted. destruct Y as [->|Y]; [destruct (region_result (flat_map lower th)); reflexivity|]. destruct (yields_result th Y) as [v ->]. reflexivity. }
      apply obind_some in Ea. destruct Ea as [i [Ei Ea]]. apply obind_some in Ea. destruct Ea as [ta [Eta Ea]].
      apply obind_some in Ea. destruct Ea as [tv [Etv Ea]]. apply obind_some in Ea. destruct Ea as [ea [Eea Ea]].
      apply obind_some in Ea. destruct Ea as [ev [Eev Ea]]. apply obind_some in Ea. destruct Ea as [st [Est Ea]]. injection Ea as <-.
      cbn [app]. rewrite execs_cons. cbn [EmitSpec.exec]. rewrite execs_cons. cbn [EmitSpec.exec].
      fold exec. fold (execs (ta ++ tv) L [] w). fold (execs (ea ++ ev) L [] w).
      rewrite (agree_get G e L c bool_t i A Ic Ei), run_cons. cbn [run_op]. fold (run th e w). fold (run el e w).
      assert (NO' : nest_ok (arm p t) (NIf :: nest) ls).
      { destruct p; cbn in NO |- *; auto. destruct NO as [X [rest ->]]. split; [exact X|]. exists rest. reflexivity. }
      assert (Est' : set_result slot r t = Some st).
      { rewrite Wt in Est. unfold set_result in *. destruct (is_nil t); exact Est. }
      assert (H : arm_fits G p t e ls s (if truth (e c) then run th e w else run el e w)
                    (close (block_type wanted t) s (if truth (e c) then execs (ta ++ tv) L [] w else execs (ea ++ ev) L [] w))).
      { destruct (truth (e c)); rewrite execs_after.
        - apply (arm_end G p t e ls (flat_map lower th) (run th e w) (execs ta L [] w) tv wanted s); [eapply IH1; eauto|exact Etv|exact Wt].
        - apply (arm_end G p t e ls (flat_map lower el) (run el e w) (execs ea L [] w) ev wanted s); [eapply IH2; eauto|exact Eev|exact Wt]. }
      unfold arm_fits in H. destruct (if truth (e c) then run th e w else run el e w) as [w1|xs w1|xs w1|x w1|xs w1|w1| |].
      + destruct H.
      + destruct H as [L1 [-> A1]]. rewrite execs_app.
        destruct (exec_result G e L1 r t st s w1 (first nilv xs) A1 I1 N1 Est') as [L2 [-> A2]].
        eapply fits_tail; [eapply IH; eauto|exact N1|]. intros v Hv. exact (result_right [WIf c r t (flat_map lower th) (flat_map lower el)] _ v Hv).
      + destruct H as [d [L1 [s1 [D [-> [A1 F']]]]]]. exists d, L1, s1. auto.
      + destruct H as [d [L1 [s1 [D [-> A1]]]]]. exists d, L1, s1. auto.
      + cbn in H. rewrite H. reflexivity.
      + cbn in H. rewrite H. reflexivity.
      + cbn in H. rewrite H. reflexivity.
      + destruct H.
    - (* last if *)
      cbn [flat_map lower app] in EM |- *. rewrite own_cons in IO, N. cbn [flat_map lower locals_of] in IO, N. rewrite app_nil_r, <- !app_assoc in IO, N.
      fold (own th) in IO, N. fold (own el) in IO, N.
      destruct (parts G (own th) _ N IO) as [Na [Ia [N' I']]]. destruct (parts G (own el) _ N' I') as [Nb [Ib [N'' I'']]].
      apply emits_cons_inv in EM; [|exact Logic.I]. destruct EM as [a [b [Ea [Eb ->]]]]. injection Eb as <-. rewrite app_nil_r. cbn [EmitModel.emit] in Ea.
      rewrite (leaves_result ends th Y1) in Ea.
      apply obind_some in Ea. destruct Ea as [i [Ei Ea]]. apply obind_some in Ea. destruct Ea as [ta [Eta Ea]].
      apply obind_some in Ea. destruct Ea as [tv [Etv Ea]]. injection Etv as <-. apply obind_some in Ea. destruct Ea as [ea [Eea Ea]].
      apply obind_some in Ea. destruct Ea as [ev [Eev Ea]]. injection Eev as <-. injection Ea as <-. rewrite !app_nil_r.
      rewrite execs_cons. cbn [EmitSpec.exec]. rewrite execs_cons. cbn [EmitSpec.exec].
      fold exec. fold (execs ta L [] w). fold (execs ea L [] w).
      rewrite (agree_get G e L c bool_t i A Ic Ei), run_cons. cbn [run_op]. fold (run th e w). fold (run el e w).
      assert (NO' : nest_ok (LoopArm t ps lt) (NIf :: nest) ls).
      { cbn in NO |- *. destruct NO as [X [rest ->]]. split; [exact X|]. exists rest. reflexivity. }
      assert (H : exists region, fits G (LoopArm t ps lt) e ls region (if truth (e c) then run th e w else run el e w) []
                    (if truth (e c) then execs ta L [] w else execs ea L [] w)).
      { destruct (truth (e c)); eexists; [eapply IH1|eapply IH2]; eauto. }
      destruct H as [region H].
      assert (Z : forall xs w', (if truth (e c) then run th e w else run el e w) <> Yielded xs w').
      { destruct (truth (e c)); intros xs w'; [eapply leaves_run; [exact F1|exact Y1]|eapply leaves_run; [exact F2|exact Y2]]. }
      destruct (if truth (e c) then run th e w else run el e w) as [w1|xs w1|xs w1|x w1|xs w1|w1| |]; cbn [fits] in H |- *.
      + destruct H.
      + destruct (Z xs w1). reflexivity.
      + destruct H as [d [L1 [s1 [D [-> [A1 F']]]]]]. injection D as <-. exists 0, L1, s1. auto.
      + destruct H as [d [L1 [s1 [D [-> A1]]]]]. injection D as <-. exists 0, L1, s1. auto.
      + rewrite H. reflexivity.
      + rewrite H. reflexivity.
      + rewrite H. reflexivity.
      + destruct H.
    - (* loop *)
      cbn [flat_map lower app] in EM |- *. rewrite own_cons in IO, N. cbn [flat_map lower locals_of] in IO, N. rewrite !app_nil_r, <- !app_assoc in IO, N.
      fold (own body) in IO, N.
      destruct (parts G ps _ N IO) as [Np [Ip [N0 I0]]].
      assert (Nb : NoDup (List.map fst ((ps ++ G) ++ own body))).
      { rewrite !app_assoc, map_app in N. apply NoDup_app_two in N. destruct N as [N _]. rewrite <- !app_assoc in N.
        revert N. rewrite !app_assoc, map_app. intros N. apply NoDup_app_two in N. destruct N as [N _].
        revert N. rewrite map_app. intros N. apply NoDup_app_two in N. destruct N as [N _]. revert N. apply Permutation.Permutation_NoDup. apply Permutation.Permutation_map.
        apply Permutation.Permutation_app_tail, Permutation.Permutation_app_comm. }
      destruct (parts G (own body) _ N0 I0) as [_ [Ib [N' I']]].
      destruct (parts G [(r', t)] _ N' I') as [_ [_ [N'' I'']]].
      destruct (next G (r, t) (own l) N'' IG I'') as [N1 [I1 [I2 [I3 N2]]]].
      apply emits_cons_inv in EM; [|exact Logic.I]. destruct EM as [a [b [Ea [Eb ->]]]]. cbn [EmitModel.emit] in Ea.
      apply obind_some in Ea. destruct Ea as [wl [Ewl Ea]].
      apply obind_some in Ea. destruct Ea as [av [Eav Ea]]. apply obind_some in Ea. destruct Ea as [st [Est Ea]]. injection Ea as <-.
      change (emits (NBlock :: nest) [WLoop init ps r' t (flat_map lower body)] = Some wl) in Ewl.
      apply emits_cons_inv in Ewl; [|exact Logic.I]. destruct Ewl as [wa [wb [Ewa [Ewb ->]]]]. injection Ewb as <-. rewrite app_nil_r. cbn [EmitModel.emit] in Ewa.
      apply obind_some in Ewa. destruct Ewa as [ls' [Els Ewa]]. apply obind_some in Ewa. destruct Ewa as [is [Eis Ewa]].
      destruct (Nat.eqb_spec (List.length init) (List.length ps)) as [Len|]; [|discriminate].
      apply obind_some in Ewa. destruct Ewa as [ba [Eba Ewa]]. apply obind_some in Ewa. destruct Ewa as [bv [Ebv Ewa]].
      apply obind_some in Ewa. destruct Ewa as [st1 [Est1 Ewa]]. injection Ewa as <-.
      assert (Est' : set_result slot r t = Some st).
      { unfold set_result in *. destruct (is_nil t); exact Est. }
      assert (NG : NoDup (List.map fst (ps ++ G))).
      { rewrite map_app in Nb. apply NoDup_app_two in Nb. tauto. }
      assert (NO' : nest_ok (Body (List.map snd ps) t) (NLoop ls' :: NBlock :: nest) ls').
      { split; [|exists nest; reflexivity]. rewrite (slots_length _ _ _ Els), !map_length. reflexivity. }
      cbn [app]. rewrite execs_cons. cbn [EmitSpec.exec]. fold exec.
      change (exec_list exec) with execs. rewrite <- app_assoc, execs_app.
      rewrite (exec_inits G e init ls' is L [] w A Eis).
      + cbn [app]. rewrite execs_cons. cbn [EmitSpec.exec]. fold exec. change (exec_list exec) with execs.
        rewrite run_cons. cbn [run_op]. change (run_list (run_op nilv truth sem indirect n)) with run.
        assert (H : forall L xs w, agree (rev ps ++ G) (binds e ps xs) L ->
          fits (ps ++ G) (Body (List.map snd ps) t) (binds e ps xs) ls' None (run body (binds e ps xs) w) [] (execs (ba ++ bv) L [] w)).
        { intros L1 xs w1 A1. rewrite execs_app.
          assert (A2 : agree (ps ++ G) (binds e ps xs) L1).
          { revert A1. apply agree_perm. intros x Hx. apply in_app_or in Hx. apply in_or_app. destruct Hx as [Hx|Hx]; [left; rewrite <- in_rev; exact Hx|right; exact Hx]. }
          assert (IPG : incl (ps ++ G) all) by (apply incl_app; assumption).
          pose proof (IH1 _ _ _ _ L1 [] w1 IPG Ib Nb NO' Eba A2) as H.
          destruct (run body (binds e ps xs) w1) as [w2|ys w2|ys w2|y w2|ys w2|w2| |]; cbn [fits] in H |- *; auto.
          - destruct H as [L' [_ [_ [t' [X _]]]]]. discriminate.
          - destruct H as [d [L' [s' [D [-> R]]]]]. exists d, L', s'. split; [exact D|]. split; [reflexivity|exact R].
          - destruct H as [d [L' [s' [D [-> R]]]]]. exists d, L', s'. split; [exact D|]. split; [reflexivity|exact R].
          - rewrite H. reflexivity.
          - rewrite H. reflexivity.
          - rewrite H. reflexivity. }
        assert (FN : Forall2 (fun x (b : nat * vt) => snd b = nil_t -> x = nilv) (List.map e init) ps).
        { clear - FA A. induction FA as [|v b init ps Hv _ IHf]; constructor; auto. intros X. apply (ag_nil _ _ _ A). rewrite <- X. exact Hv. }
        pose proof (loop_rounds G e ps ls' t body (ba ++ bv) H Els Ip NG (block_type (negb (is_nil t)) t) n L (List.map e init) w A FN) as R.
        change (fun (xs : list V) (w0 : W) => run body (binds e ps xs) w0) with (fun xs => run body (binds e ps xs)) in R |- *.
        destruct (rounds (fun xs => run body (binds e ps xs)) n (List.map e init) w) as [w1|ys w1|ys w1|y w1|ys w1|w1| |].
        * destruct R.
        * destruct R as [L' [s' [-> A']]]. cbn [close].
          assert (Z : (if arity (block_type (negb (is_nil t)) t) <=? List.length (first nilv ys :: s')
            then Norm L' (firstn (arity (block_type (negb (is_nil t)) t)) (first nilv ys :: s') ++ s) w1 else Stuck)
            = Norm L' (if is_nil t then s else first nilv ys :: s) w1) by (destruct (is_nil t); reflexivity).
          rewrite Z, execs_app. destruct (exec_result G e L' r t st s w1 (first nilv ys) A' I1 N1 Est') as [L2 [-> A2]].
          eapply fits_tail; [eapply IH; eauto|exact N1|]. intros v Hv. exact (result_right [WBlock r t [WLoop init ps r' t (flat_map lower body)]] _ v Hv).
        * destruct R.
        * destruct R.
        * rewrite R. reflexivity.
        * rewrite R. reflexivity.
        * rewrite R. reflexivity.
        * destruct R.
      + intros v Hv. clear - FA Hv. induction FA as [|u b init ps Hu _ IHf]; [destruct Hv|]. destruct Hv as [<-|Hv]; eauto.
      + intros v j Hv Hj Hin. pose proof (slots_nth _ _ _ Els) as SN. clear - FA Hv Hj Hin SN NG.
        assert (X : In v (List.map fst G)).
        { clear - FA Hv. induction FA as [|u b init ps Hu _ IHf]; [destruct Hv|]. destruct Hv as [<-|Hv]; [exact (in_map fst G _ Hu)|auto]. }
        assert (Y : exists u, In u (List.map fst ps) /\ position_of u all = Some j).
        { clear - SN Hin. induction SN as [|u i us is Hu _ IHs]; [destruct Hin|]. destruct Hin as [<-|Hin]; [exists u; split; [left; reflexivity|exact Hu]|].
          destruct (IHs Hin) as [x [X1 X2]]. exists x. split; [right; exact X1|exact X2]. }
        destruct Y as [u [Hu Hj']]. rewrite (slot_inj _ _ _ Hj Hj') in X. rewrite map_app in NG. apply NoDup_app_two in NG.
        destruct NG as [_ [_ D]]. exact (D u Hu X).
      + rewrite (slots_length _ _ _ Els), (slots_length _ _ _ Eis), map_length. exact Len.
    - cbn in EM. injection EM as <-. cbn. exists L. split; [reflexivity|]. split; [exact A|]. exists t. split; [exact T|]. intros _.
      destruct (slot_of v t (IG _ I)) as [i Ei]. exists v, i. split; [reflexivity|]. split; [exact Ei|]. eapply agree_get; eauto.
    - cbn in EM. injection EM as <-. cbn. exists L. split; [reflexivity|]. split; [exact A|]. exists nil_t. split; [exact T|]. intros X. destruct (X eq_refl).
    - cbn [nest_ok] in NO. destruct NO as [Ln [rest ->]]. destruct vs as [|v [|]]; [| |cbn in LE; lia].
      + inv FA. destruct ls; [|discriminate]. cbn in EM. injection EM as <-. cbn. exists 1, L, s. repeat (split; [reflexivity|]). split; [exact A|]. constructor.
      + inversion FA as [|? t1 ? ps' Hv FA']; subst. inversion FA'; subst. destruct ls as [|x [|]]; try discriminate. cbn in EM. apply obind_some in EM. destruct EM as [i [Ei EM]].
        injection EM as <-. cbn. exists 1, L, s. split; [reflexivity|]. split; [rewrite (agree_get G e L v t1 i A Hv Ei); reflexivity|]. split; [exact A|].
        constructor; [|constructor]. intros ->. apply (ag_nil _ _ _ A). exact Hv.
    - cbn [nest_ok] in NO. destruct NO as [Ln [rest ->]]. cbn in EM. apply obind_some in EM. destruct EM as [i [Ei EM]]. injection EM as <-. cbn.
      exists 1, L, s. split; [reflexivity|]. split; [rewrite (agree_get G e L v lt i A I Ei); reflexivity|exact A].
  Qed.
End Sim.
