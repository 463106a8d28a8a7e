(** Well-typed expressions do not go wrong. *)
From Verif Require Import TyProofs.
From Verif Require Export InferSpec.

Section PatInd.
  Variable P : pat -> Prop.
  Hypothesis HWild : forall i, P (PWild i).
  Hypothesis HBind : forall i x, P (PBind i x).
  Hypothesis HLit : forall i l, P (PLit i l).
  Hypothesis HVariant : forall i c ps, Forall P ps -> P (PVariant i c ps).
  Hypothesis HTuple : forall i ps, Forall P ps -> P (PTuple i ps).
  Hypothesis HList : forall i ps, Forall P ps -> P (PList i ps).
  Hypothesis HRest : forall i ps r, Forall P ps -> P (PRest i ps r).
  Hypothesis HAs : forall i p x, P p -> P (PAs i p x).
  Fixpoint pat_ind' (p : pat) : P p :=
    let all := fix all (ps : list pat) : Forall P ps :=
      match ps with [] => Forall_nil _ | p :: ps => Forall_cons p (pat_ind' p) (all ps) end in
    match p with
    | PWild i => HWild i
    | PBind i x => HBind i x
    | PLit i l => HLit i l
    | PVariant i c ps => HVariant i c ps (all ps)
    | PTuple i ps => HTuple i ps (all ps)
    | PList i ps => HList i ps (all ps)
    | PRest i ps r => HRest i ps r (all ps)
    | PAs i p x => HAs i p x (pat_ind' p)
    end.
End PatInd.

Section ExprInd.
  Variable P : expr -> Prop.
  Definition Pguard (g : option expr) : Prop := match g with Some g => P g | None => True end.
  Hypothesis HLit : forall l, P (ELit l).
  Hypothesis HVar : forall i x, P (EVar i x).
  Hypothesis HFn : forall f, P (EFn f).
  Hypothesis HCall : forall c args, P c -> Forall P args -> P (ECall c args).
  Hypothesis HCons : forall c args, Forall P args -> P (ECons c args).
  Hypothesis HLam : forall i ps b, P b -> P (ELam i ps b).
  Hypothesis HTuple : forall es, Forall P es -> P (ETuple es).
  Hypothesis HList : forall es, Forall P es -> P (EList es).
  Hypothesis HLogic : forall k a b, P a -> P b -> P (ELogic k a b).
  Hypothesis HBlock : forall ss v, Forall (fun s => P (snd s)) ss -> P v -> P (EBlock ss v).
  Hypothesis HCase : forall s arms, P s -> Forall (fun a : pat * option expr * expr => Pguard (snd (fst a)) /\ P (snd a)) arms -> P (ECase s arms).
  Fixpoint expr_ind' (e : expr) : P e :=
    let all := fix all (es : list expr) : Forall P es :=
      match es with [] => Forall_nil _ | e :: es => Forall_cons e (expr_ind' e) (all es) end in
    match e with
    | ELit l => HLit l
    | EVar i x => HVar i x
    | EFn f => HFn f
    | ECall c args => HCall c args (expr_ind' c) (all args)
    | ECons c args => HCons c args (all args)
    | ELam i ps b => HLam i ps b (expr_ind' b)
    | ETuple es => HTuple es (all es)
    | EList es => HList es (all es)
    | ELogic k a b => HLogic k a b (expr_ind' a) (expr_ind' b)
    | EBlock ss v =>
        HBlock ss v ((fix go (ss : list (option (pat * option ty) * expr)) : Forall (fun s => P (snd s)) ss :=
          match ss with
          | [] => Forall_nil _
          | (k, e) :: ss => Forall_cons (k, e) (expr_ind' e) (go ss)
          end) ss) (expr_ind' v)
    | ECase s arms =>
        HCase s arms (expr_ind' s)
          ((fix go (l : list (pat * option expr * expr)) : Forall (fun a : pat * option expr * expr => Pguard (snd (fst a)) /\ P (snd a)) l :=
            match l with
            | [] => Forall_nil _
            | (p, g, b) :: l =>
                Forall_cons (p, g, b)
                  (conj (match g return Pguard g with Some g => expr_ind' g | None => I end) (expr_ind' b)) (go l)
            end) arms)
    end.
End ExprInd.

Lemma existsb_eqb x l : existsb (Nat.eqb x) l = true <-> In x l.
Proof.
  rewrite existsb_exists. split.
  - intros [y [Hy E]]. apply Nat.eqb_eq in E. congruence.
  - intros H. exists x. rewrite Nat.eqb_refl. auto.
Qed.

(** Lists of typed patterns and of typed expressions as relations. *)
Section Lists.
  Variable G K : nat -> styp -> Prop.
  Fixpoint ptyped_all (ps : list pat) (ts : list styp) (bs : list (nat * styp)) : Prop :=
    match ps, ts with
    | [], [] => bs = []
    | p :: ps, t :: ts => exists b1 b2, bs = b1 ++ b2 /\ ptyped K p t b1 /\ ptyped_all ps ts b2
    | _, _ => False
    end.
  Definition typed_all (g : nat -> styp -> Prop) :=
    fix typed_all (es : list expr) (ts : list styp) : Prop :=
    match es, ts with
    | [], [] => True
    | e :: es, t :: ts => typed G K g e t /\ typed_all es ts
    | _, _ => False
    end.
  Definition typed_block (t : styp) (v : expr) :=
    fix typed_block (g : nat -> styp -> Prop) (ss : list (option (pat * option ty) * expr)) : Prop :=
    match ss with
    | [] => typed G K g v t
    | (k, e) :: ss =>
        match k with
        | None => (exists u, typed G K g e u) /\ typed_block g ss
        | Some (p, _) =>
            NoDup (pvars p) /\
            exists g' : nat -> styp -> Prop,
              (exists u bs, typed G K g e u /\ ptyped K p u bs) /\
              (forall x w, g' x w ->
                 if existsb (Nat.eqb x) (pvars p)
                 then exists u bs, typed G K g e u /\ ptyped K p u bs /\ In (x, w) bs
                 else g x w) /\
              typed_block g' ss
        end
    end.
  Definition typed_arms (g : nat -> styp -> Prop) (u t : styp) :=
    fix typed_arms (arms : list (pat * option expr * expr)) : Prop :=
    match arms with
    | [] => True
    | (p, h, body) :: arms =>
        (NoDup (pvars p) /\ exists bs, ptyped K p u bs /\
          match h with Some h => typed G K (extend g bs) h SBool | None => True end /\
          typed G K (extend g bs) body t) /\
        typed_arms arms
    end.

  Lemma ptyped_eq p t bs : ptyped K p t bs =
    match p with
    | PWild _ => bs = []
    | PBind _ x => bs = [(x, t)]
    | PLit _ l => t = lit_styp l /\ bs = []
    | PVariant _ c ps =>
        match ps with
        | [] => K c t /\ (forall ps r, t <> SFun ps r) /\ bs = []
        | _ => exists ts, K c (SFun ts t) /\ ptyped_all ps ts bs
        end
    | PTuple _ ps => exists ts, t = STuple ts /\ ptyped_all ps ts bs
    | PList _ ps => exists u, t = SList u /\ ptyped_all ps (repeat u (List.length ps)) bs
    | PRest _ ps rest =>
        exists u b, t = SList u /\ ptyped_all ps (repeat u (List.length ps)) b /\
                    bs = b ++ match rest with Some x => [(x, t)] | None => [] end
    | PAs _ p x => exists b, bs = (x, t) :: b /\ ptyped K p t b
    end.
  Proof. destruct p; try reflexivity. Qed.

  Lemma typed_eq g e t : typed G K g e t =
    match e with
    | ELit l => t = lit_styp l
    | EVar _ x => g x t
    | EFn f => G f t
    | ECall c args => exists ts, typed G K g c (SFun ts t) /\ typed_all g args ts
    | ECons c args =>
        match args with
        | [] => K c t
        | _ => exists ts, K c (SFun ts t) /\ typed_all g args ts
        end
    | ELam _ params body =>
        exists ts r, t = SFun ts r /\ List.length ts = List.length params /\ NoDup (List.map fst params) /\
          typed G K (extend g (combine (List.map fst params) ts)) body r
    | ETuple es => exists ts, t = STuple ts /\ typed_all g es ts
    | EList es => exists u, t = SList u /\ typed_all g es (repeat u (List.length es))
    | ELogic _ a b => t = SBool /\ typed G K g a SBool /\ typed G K g b SBool
    | EBlock ss v => typed_block t v g ss
    | ECase s arms => exists u, typed G K g s u /\ typed_arms g u t arms
    end.
  Proof. destruct e; try reflexivity. Qed.

  Lemma ptyped_vars : forall p t bs, ptyped K p t bs -> List.map fst bs = pvars p.
  Proof.
    assert (A : forall ps, Forall (fun p => forall t bs, ptyped K p t bs -> List.map fst bs = pvars p) ps ->
      forall ts bs, ptyped_all ps ts bs -> List.map fst bs = flat_map pvars ps).
    { induction 1 as [|p ps H F IH]; intros [|t ts] bs E; cbn in E; try contradiction.
      - subst. reflexivity.
      - destruct E as [b1 [b2 [-> [E1 E2]]]]. rewrite map_app. cbn. f_equal; [eapply H | eapply IH]; eassumption. }
    induction p as [i|i x|i l|i c ps F|i ps F|i ps F|i ps r F|i p x IH] using pat_ind'; intros t bs E;
      rewrite ptyped_eq in E.
    - subst. reflexivity.
    - subst. reflexivity.
    - destruct E as [_ ->]. reflexivity.
    - destruct ps as [|p ps]; [destruct E as [_ [_ ->]]; reflexivity|]. destruct E as [ts [_ E]]. exact (A _ F _ _ E).
    - destruct E as [ts [_ E]]. exact (A _ F _ _ E).
    - destruct E as [ts [_ E]]. exact (A _ F _ _ E).
    - destruct E as [u [b [_ [E ->]]]]. rewrite map_app, (A _ F _ _ E). destruct r; reflexivity.
    - destruct E as [b [-> E]]. cbn. f_equal. exact (IH _ _ E).
  Qed.
End Lists.

(** More types for the variables, more typings. *)
Section Mono.
  Variable G G' K : nat -> styp -> Prop.

  Lemma extend_mono (g g' : nat -> styp -> Prop) bs : (forall x w, g x w -> g' x w) ->
    forall x w, extend g bs x w -> extend g' bs x w.
  Proof. intros H x w. unfold extend. destruct (existsb _ _); auto. Qed.

  Lemma typed_mono : forall e, (forall f t, mentions f e -> G f t -> G' f t) ->
    forall (g g' : nat -> styp -> Prop) t, (forall x w, g x w -> g' x w) -> typed G K g e t -> typed G' K g' e t.
  Proof.
    assert (A : forall es, Forall (fun e => (forall f t, mentions f e -> G f t -> G' f t) -> forall (g g' : nat -> styp -> Prop) t, (forall x w, g x w -> g' x w) -> typed G K g e t -> typed G' K g' e t) es ->
      (forall f t, (fix any (es : list expr) : Prop := match es with [] => False | e :: es => mentions f e \/ any es end) es -> G f t -> G' f t) ->
      forall (g g' : nat -> styp -> Prop) ts, (forall x w, g x w -> g' x w) -> typed_all G K g es ts -> typed_all G' K g' es ts).
    { induction 1 as [|e es H F IH]; intros M g g' [|t ts] L E; cbn [typed_all] in *; auto. destruct E as [E1 E2]. split.
      - eapply H; eauto.
      - eapply IH; eauto. }
    induction e as [l|i x|f|c args IHc IHa|c args IHa|i ps b IH|es IH|es IH|k a b IHa IHb|ss v IHs IHv|s arms IHs IHa] using expr_ind';
      intros M g g' t L E; rewrite typed_eq in *.
    - exact E.
    - apply L, E.
    - apply M; [reflexivity | exact E].
    - destruct E as [ts [E1 E2]]. exists ts. split.
      + eapply IHc; eauto. intros; eapply M; eauto. left. assumption.
      + eapply A; eauto. intros; eapply M; eauto. right. assumption.
    - destruct args as [|a args]; [exact E|]. destruct E as [ts [E1 E2]]. exists ts. split; [exact E1|].
      eapply A; eauto.
    - destruct E as [ts [r [-> [Ln [N E]]]]]. exists ts, r. repeat (split; [auto|]).
      eapply IH; [exact M | | exact E]. apply extend_mono, L.
    - destruct E as [ts [-> E]]. exists ts. split; [reflexivity|]. eapply A; eauto.
    - destruct E as [u [-> E]]. exists u. split; [reflexivity|]. eapply A; eauto.
    - destruct E as [-> [E1 E2]]. split; [reflexivity|]. split; [eapply IHa | eapply IHb]; eauto; intros; eapply M; eauto; [left | right]; assumption.
    - revert g g' L M E. induction IHs as [|[k e] ss H F IH]; intros g g' L M E; cbn [typed_block] in *.
      + eapply IHv; eauto. intros f w Hf. apply M. right. exact Hf.
      + assert (M' : forall f w, mentions f e -> G f w -> G' f w) by (intros f w Hf; apply M; left; left; exact Hf).
        assert (M2 : forall f w, mentions f (EBlock ss v) -> G f w -> G' f w).
        { intros f w [Hf|Hf]; apply M; [left; right; exact Hf | right; exact Hf]. }
        destruct k as [[p ann]|].
        * destruct E as [N [gn [[u [bs [E1 E2]]] [E3 E4]]]]. split; [exact N|]. exists gn.
          split; [exists u, bs; split; [exact (H M' g g' u L E1) | exact E2]|]. split; [|eapply IH; eauto].
          intros x w X. specialize (E3 x w X). destruct (existsb _ _); [|apply L, E3].
          destruct E3 as [u' [bs' [E5 E6]]]. exists u', bs'. split; [exact (H M' g g' u' L E5) | exact E6].
        * destruct E as [[u E1] E2]. split; [exists u; exact (H M' g g' u L E1) | eapply IH; eauto].
    - destruct E as [u [E1 E2]]. exists u. split; [eapply IHs; eauto; intros; eapply M; eauto; left; assumption|].
      assert (M2 : forall f w, (fix go (l : list (pat * option expr * expr)) : Prop :=
           match l with
           | [] => False
           | (_, g, b) :: l => match g with Some g => mentions f g | None => False end \/ mentions f b \/ go l
           end) arms -> G f w -> G' f w) by (intros f w Hf; apply M; right; exact Hf).
      clear M IHs E1. induction IHa as [|[[p h] b] arms [H1 H2] F IH]; [exact I|]. cbn [typed_arms snd fst] in *.
      destruct E2 as [[N [bs [E2 [E3 E4]]]] E5]. split.
      + split; [exact N|]. exists bs. split; [exact E2|]. split.
        * destruct h as [h|]; [|exact I]. cbn in H1. eapply H1; [intros; eapply M2; eauto; left; assumption | | exact E3].
          apply extend_mono, L.
        * eapply H2; [intros; eapply M2; eauto; right; left; assumption | | exact E4]. apply extend_mono, L.
      + apply IH; [exact E5|]. intros f w Hf. apply M2. right. right. exact Hf.
  Qed.
End Mono.

Lemma mean_ext th th' be be' t : (forall v, In v (univars t) -> th v = th' v) -> (forall i, In i (bounds t) -> be i = be' i) ->
  mean th be t = mean th' be' t.
Proof.
  assert (A : forall ts, Forall (fun t => (forall v, In v (univars t) -> th v = th' v) -> (forall i, In i (bounds t) -> be i = be' i) -> mean th be t = mean th' be' t) ts ->
    (forall v, In v (flat_map univars ts) -> th v = th' v) -> (forall i, In i (flat_map bounds ts) -> be i = be' i) ->
    List.map (mean th be) ts = List.map (mean th' be') ts).
  { induction 1 as [|x ts H F IH]; intros U B; cbn in *; [reflexivity|]. f_equal.
    - apply H; intros; [apply U | apply B]; apply in_or_app; auto.
    - apply IH; intros; [apply U | apply B]; apply in_or_app; auto. }
  induction t as [p|i|s i|v|d n args IH|ps r e c IHps IHr IHe|xs IH|c xs IHc IH|a r e IHa IHr IHe|] using ty_induct;
    intros U B; cbn in *; auto.
  - f_equal. apply A; auto.
  - f_equal; [apply A | apply IHr]; auto; intros; first [apply U | apply B]; rewrite !in_app_iff; auto.
  - f_equal. apply A; auto.
  - f_equal; [apply IHc | apply A]; auto; intros; first [apply U | apply B]; rewrite !in_app_iff; auto.
  - f_equal; [apply IHa | apply IHr]; auto; intros; first [apply U | apply B]; rewrite !in_app_iff; auto.
Qed.

(** * Evaluation *)
Section Safe.
  Variable cs : list cdecl.
  Variable ds : list fdecl.
  Variable G : nat -> styp -> Prop.
  Notation K := (ctor_types cs).
  (** Declared types are not the built-in ones. *)
  Hypothesis sources : forall k, In k cs -> exists n, td_origin (cd_type k) = Source n.
  (** Fields only use the parameters of their type. *)
  Hypothesis fields : forall k t i, In k cs -> In t (cd_fields k) -> In i (bounds t) -> i < cd_arity k.
  Hypothesis bodies : forall f t, G f t -> exists d ts r, nth_error ds f = Some d /\ t = SFun ts r /\
    List.length ts = List.length (fd_params d) /\ NoDup (fd_params d) /\
    typed G K (extend (fun _ _ => False) (combine (fd_params d) ts)) (fd_body d) r.

  Notation ht := (has_type G K).

  Lemma ctor_shape c t : K c t -> exists k be, nth_error cs c = Some k /\
    t = match cd_fields k with
        | [] => SData (cd_type k) (List.map be (seq 0 (cd_arity k)))
        | fs => SFun (List.map (mean none be) fs) (SData (cd_type k) (List.map be (seq 0 (cd_arity k))))
        end.
  Proof.
    intros [k [E [be ->]]]. exists k, be. split; [exact E|]. unfold ctor_poly. cbn [snd].
    destruct (cd_fields k); cbn; rewrite map_map; reflexivity.
  Qed.

  Lemma source_not_list k d : nth_error cs k = Some d ->
    cd_type d <> mkTyDef BuiltinList "List" /\ cd_type d <> mkTyDef Synthetic "String".
  Proof.
    intros E. destruct (sources d (nth_error_In _ _ E)) as [n S].
    split; intros H; rewrite H in S; discriminate.
  Qed.

  Lemma fn_type f t : G f t -> exists ts r, t = SFun ts r.
  Proof. intros H. destruct (bodies f t H) as [d [ts [r [_ [E _]]]]]. eauto. Qed.

  (** Canonical forms. *)
  Lemma of_tuple v ts : ht v (STuple ts) -> exists vs, v = VTuple vs /\ Forall2 ht vs ts.
  Proof.
    intros H. inversion H; subst.
    - destruct l; discriminate.
    - eauto.
    - destruct (ctor_shape _ _ H0) as [k [be [_ E]]]. destruct (cd_fields k); discriminate.
    - destruct (ctor_shape _ _ H1) as [k [be [_ E]]]. destruct (cd_fields k); discriminate.
    - destruct (fn_type _ _ H0) as [? [? E]]. discriminate.
  Qed.
  Lemma of_list v u : ht v (SList u) -> exists vs, v = VList vs /\ Forall (fun v => ht v u) vs.
  Proof.
    intros H. inversion H; subst.
    - destruct l; discriminate.
    - eauto.
    - exfalso. destruct (ctor_shape _ _ H0) as [k [be [N E]]]. destruct (cd_fields k); [|discriminate].
      destruct (source_not_list _ k N) as [X _]. injection E as E _. congruence.
    - exfalso. destruct (ctor_shape _ _ H1) as [k [be [N E]]]. destruct (cd_fields k); [discriminate|].
      destruct (source_not_list _ k N) as [X _]. injection E as _ E _. congruence.
    - destruct (fn_type _ _ H0) as [? [? E]]. discriminate.
  Qed.
  Lemma of_lit v l : ht v (lit_styp l) -> exists l', v = VLit l' /\ lit_styp l' = lit_styp l.
  Proof.
    intros H. inversion H; subst.
    - eauto.
    - destruct l; discriminate.
    - destruct l; discriminate.
    - exfalso. destruct (ctor_shape _ _ H0) as [k [be [N E]]]. destruct (cd_fields k); [|destruct l; discriminate].
      destruct (source_not_list _ k N) as [_ X]. destruct l; try discriminate. injection E as E _. congruence.
    - exfalso. destruct (ctor_shape _ _ H1) as [k [be [N E]]]. destruct (cd_fields k); [discriminate|].
      destruct (source_not_list _ k N) as [_ X]. destruct l; try discriminate. injection E as _ E _. congruence.
    - destruct l; discriminate.
    - destruct (fn_type _ _ H0) as [? [? E]]. destruct l; discriminate.
    - destruct l; discriminate.
  Qed.
  Lemma of_bool v : ht v SBool -> exists b, v = VLit (LBool b).
  Proof.
    intros H. destruct (of_lit v (LBool true) H) as [l [-> E]]. destruct l; try discriminate. eauto.
  Qed.

  Lemma lit_same l l' : lit_styp l' = lit_styp l -> lit_eq l l' <> None.
  Proof. destruct l, l'; cbn; intros; discriminate. Qed.

  Definition bound_ok (b : list (nat * value)) (bs : list (nat * styp)) : Prop :=
    Forall2 (fun a c => fst a = fst c /\ ht (snd a) (snd c)) b bs.
  Definition mok (r : mres) (bs : list (nat * styp)) : Prop :=
    match r with Yes b => bound_ok b bs | No => True | Bad => False end.

  Fixpoint matches_all (ps : list pat) (vs : list value) : mres :=
    match ps, vs with
    | [], [] => Yes []
    | p :: ps, v :: vs =>
        match matches cs p v with
        | Yes bs => match matches_all ps vs with Yes c => Yes (bs ++ c) | r => r end
        | r => r
        end
    | _, _ => Bad
    end.
  Lemma matches_eq p v : matches cs p v =
    match p with
    | PWild _ => Yes []
    | PBind _ x => Yes [(x, v)]
    | PLit _ l => match v with
                  | VLit l' => match lit_eq l l' with Some true => Yes [] | Some false => No | None => Bad end
                  | _ => Bad
                  end
    | PTuple _ ps => match v with VTuple vs => matches_all ps vs | _ => Bad end
    | PVariant _ c ps =>
        match v with
        | VData c' vs =>
            match nth_error cs c, nth_error cs c' with
            | Some k, Some k' =>
                if tydef_eqb (cd_type k) (cd_type k') then if Nat.eqb c c' then matches_all ps vs else No else Bad
            | _, _ => Bad
            end
        | _ => Bad
        end
    | PList _ ps =>
        match v with
        | VList vs => if Nat.eqb (List.length ps) (List.length vs) then matches_all ps vs else No
        | _ => Bad
        end
    | PRest _ ps rest =>
        match v with
        | VList vs =>
            if Nat.leb (List.length ps) (List.length vs) then
              match matches_all ps (firstn (List.length ps) vs) with
              | Yes bs => Yes (bs ++ match rest with
                                     | Some x => [(x, VList (skipn (List.length ps) vs))]
                                     | None => []
                                     end)
              | r => r
              end
            else No
        | _ => Bad
        end
    | PAs _ p x => match matches cs p v with Yes bs => Yes ((x, v) :: bs) | r => r end
    end.
  Proof. destruct p; try reflexivity. Qed.

  Lemma forall2_repeat (vs : list value) u : Forall (fun v => ht v u) vs -> Forall2 ht vs (repeat u (List.length vs)).
  Proof. induction 1; cbn; constructor; auto. Qed.

  Lemma field_types k be be' : In k cs ->
    List.map be (seq 0 (cd_arity k)) = List.map be' (seq 0 (cd_arity k)) ->
    List.map (mean none be) (cd_fields k) = List.map (mean none be') (cd_fields k).
  Proof.
    intros HK E. apply map_ext_in. intros t Ht. apply mean_ext; [reflexivity|]. intros i Hi.
    pose proof (fields k t i HK Ht Hi) as L.
    assert (X : nth_error (List.map be (seq 0 (cd_arity k))) i = nth_error (List.map be' (seq 0 (cd_arity k))) i) by (rewrite E; reflexivity).
    rewrite !nth_error_map in X. rewrite (nth_error_nth' _ 0) in X by (rewrite seq_length; exact L).
    rewrite seq_nth in X by exact L. cbn in X. congruence.
  Qed.

  (** A value of a constructor's type, against that constructor. *)
  Lemma data_of c k be v : nth_error cs c = Some k -> ht v (SData (cd_type k) (List.map be (seq 0 (cd_arity k)))) ->
    exists c' k' vs, v = VData c' vs /\ nth_error cs c' = Some k' /\ cd_type k = cd_type k' /\
      (c = c' -> Forall2 ht vs (List.map (mean none be) (cd_fields k))).
  Proof.
    intros E V. destruct (source_not_list _ _ E) as [NL NS].
    inversion V; subst v.
    - exfalso. destruct l; try discriminate. cbn in *. congruence.
    - exfalso. congruence.
    - destruct (ctor_shape _ _ H) as [k' [be' [E' Ht']]].
      exists c0, k', []. split; [reflexivity|]. split; [exact E'|].
      destruct (cd_fields k') eqn:F'; [|discriminate]. injection Ht' as T1 T2. split; [exact T1|].
      intros ->. rewrite E in E'. injection E' as <-. rewrite F'. constructor.
    - destruct (ctor_shape _ _ H0) as [k' [be' [E' Ht']]].
      exists c0, k', vs. split; [reflexivity|]. split; [exact E'|].
      destruct (cd_fields k') eqn:F'; [discriminate|]. rewrite <- F' in Ht'. injection Ht' as T0 T1 T2. split; [exact T1|].
      intros ->. rewrite E in E'. injection E' as <-. subst ts.
      rewrite (field_types k be be'); [assumption | eapply nth_error_In; exact E | exact T2].
    - destruct (fn_type _ _ H) as [? [? X]]. discriminate.
  Qed.

  Lemma bound_ok_app b1 s1 b2 s2 : bound_ok b1 s1 -> bound_ok b2 s2 -> bound_ok (b1 ++ b2) (s1 ++ s2).
  Proof. apply Forall2_app. Qed.

  Definition pat_ok (p : pat) : Prop := forall v t bs, ht v t -> ptyped K p t bs -> mok (matches cs p v) bs.

  Lemma match_all_ok ps : Forall pat_ok ps -> forall vs ts bs, Forall2 ht vs ts -> ptyped_all K ps ts bs ->
    mok (matches_all ps vs) bs.
  Proof.
    induction 1 as [|p ps H F IH]; intros vs ts bs V E; cbn in E.
    - destruct ts; [|contradiction]. inversion V. subst. constructor.
    - destruct ts as [|t ts]; [contradiction|]. inversion V as [|v ? vs' ? V1 V2]. subst.
      destruct E as [b1 [b2 [-> [E1 E2]]]]. cbn.
      pose proof (H v t b1 V1 E1) as M1. destruct (matches cs p v) as [c1| |]; cbn in M1; [|exact I|contradiction].
      pose proof (IH vs' ts b2 V2 E2) as M2. destruct (matches_all ps vs') as [c2| |]; cbn in M2; [|exact I|contradiction].
      cbn. apply bound_ok_app; assumption.
  Qed.

  Lemma Forall_firstn' {A} (P : A -> Prop) n l : Forall P l -> Forall P (firstn n l).
  Proof. rewrite !Forall_forall. intros H x Hx. apply H. rewrite <- (firstn_skipn n l). apply in_or_app. auto. Qed.
  Lemma Forall_skipn' {A} (P : A -> Prop) n l : Forall P l -> Forall P (skipn n l).
  Proof. rewrite !Forall_forall. intros H x Hx. apply H. rewrite <- (firstn_skipn n l). apply in_or_app. auto. Qed.

  Lemma match_ok : forall p, pat_ok p.
  Proof.
    induction p as [i|i x|i l|i c ps F|i ps F|i ps F|i ps r F|i p x IH] using pat_ind'; intros v t bs V E;
      rewrite ptyped_eq in E; rewrite matches_eq.
    - subst. constructor.
    - subst. constructor; [auto | constructor].
    - destruct E as [-> ->]. destruct (of_lit _ _ V) as [l' [-> L]].
      pose proof (lit_same l l' L). destruct (lit_eq l l') as [[|]|]; [constructor | exact I | congruence].
    - assert (X : exists k be, nth_error cs c = Some k /\ t = SData (cd_type k) (List.map be (seq 0 (cd_arity k))) /\
                ptyped_all K ps (List.map (mean none be) (cd_fields k)) bs).
      { destruct ps as [|p ps].
        - destruct E as [E [NF ->]]. destruct (ctor_shape _ _ E) as [k [be [N T]]]. exists k, be. split; [exact N|].
          destruct (cd_fields k) as [|f fs] eqn:Ef; [split; [exact T | reflexivity]|].
          exfalso. eapply NF, T.
        - destruct E as [ts [E1 E2]]. destruct (ctor_shape _ _ E1) as [k [be [N T]]]. exists k, be. split; [exact N|].
          destruct (cd_fields k) eqn:Ef; [discriminate|]. injection T as -> ->. split; [reflexivity | exact E2]. }
      destruct X as [k [be [N [-> E']]]].
      destruct (data_of c k be v N V) as [c' [k' [vs [-> [N' [T W]]]]]]. rewrite N, N'.
      rewrite (proj2 (tydef_eqb_eq _ _) T). destruct (Nat.eqb_spec c c') as [<-|]; [|exact I].
      eapply match_all_ok; eauto.
    - destruct E as [ts [-> E]]. destruct (of_tuple _ _ V) as [vs [-> W]]. eapply match_all_ok; eauto.
    - destruct E as [u [-> E]]. destruct (of_list _ _ V) as [vs [-> W]].
      destruct (Nat.eqb_spec (List.length ps) (List.length vs)) as [L|]; [|exact I].
      eapply match_all_ok; eauto. rewrite L. apply forall2_repeat, W.
    - destruct E as [u [b [-> [E ->]]]]. destruct (of_list _ _ V) as [vs [-> W]].
      destruct (Nat.leb_spec (List.length ps) (List.length vs)) as [L|]; [|exact I].
      assert (M : mok (matches_all ps (firstn (List.length ps) vs)) b).
      { eapply match_all_ok; eauto. pose proof (forall2_repeat (firstn (List.length ps) vs) u (Forall_firstn' _ _ _ W)) as X.
        rewrite firstn_length_le in X by exact L. exact X. }
      destruct (matches_all ps (firstn (List.length ps) vs)); cbn in M; [|exact I|contradiction].
      cbn. apply bound_ok_app; [exact M|]. destruct r; constructor; [|constructor]. split; [reflexivity|].
      cbn. constructor. apply Forall_skipn', W.
    - destruct E as [b [-> E]]. pose proof (IH v t b V E) as M. destruct (matches cs p v); cbn in M; [|exact I|contradiction].
      cbn. constructor; [split; [reflexivity | exact V] | exact M].
  Qed.

  Definition env_ok (rho : list (nat * value)) (g : nat -> styp -> Prop) : Prop :=
    forall x t, g x t -> exists v, find_value rho x = Some v /\ ht v t.

  Lemma find_bound b bs x : bound_ok b bs -> NoDup (List.map fst bs) -> forall t, In (x, t) bs ->
    forall rho, exists v, find_value (b ++ rho) x = Some v /\ ht v t.
  Proof.
    induction 1 as [|[y v] [y' u] b bs [E V] F IH]; intros N t Hin rho; [destruct Hin|]. cbn in E, V. subst y'.
    inversion N as [|? ? N1 N2]; subst. unfold find_value. cbn. destruct (Nat.eqb_spec y x) as [<-|D].
    - exists v. split; [reflexivity|]. destruct Hin as [X|X]; [congruence|].
      exfalso. apply N1. apply (in_map fst) in X. exact X.
    - destruct Hin as [X|X]; [congruence|]. exact (IH N2 t X rho).
  Qed.
  Lemma find_skip b bs x : bound_ok b bs -> ~ In x (List.map fst bs) -> forall rho, find_value (b ++ rho) x = find_value rho x.
  Proof.
    induction 1 as [|[y v] [y' u] b bs [E V] F IH]; intros N rho; [reflexivity|]. cbn in *. subst y'.
    unfold find_value. cbn. destruct (Nat.eqb_spec y x) as [<-|D]; [exfalso; apply N; auto|]. apply IH. auto.
  Qed.

  Lemma env_extend rho g b bs : env_ok rho g -> bound_ok b bs -> NoDup (List.map fst bs) -> env_ok (b ++ rho) (extend g bs).
  Proof.
    intros O B N x t H. unfold extend in H. destruct (existsb _ _) eqn:E.
    - eapply find_bound; eauto.
    - rewrite (find_skip b bs); [apply O, H | exact B |]. intros X. apply existsb_eqb in X. congruence.
  Qed.

  Lemma combine_ok vs ts : Forall2 ht vs ts -> forall xs : list nat, bound_ok (combine xs vs) (combine xs ts).
  Proof. induction 1; intros [|z xs]; cbn; constructor; auto. apply IHForall2. Qed.
  Lemma fst_combine {A} (xs : list nat) : forall ts : list A, List.length ts = List.length xs -> List.map fst (combine xs ts) = xs.
  Proof. induction xs; intros [|t ts] L; cbn in *; try discriminate; [reflexivity|]. f_equal. apply IHxs. lia. Qed.

  Definition good (r : res) (t : styp) : Prop := match r with Val v => ht v t | Wrong => False | _ => True end.

  Section Step.
    Variable call : list (nat * value) -> expr -> res.
    Hypothesis call_ok : forall rho g e t, env_ok rho g -> typed G K g e t -> good (call rho e) t.

    Definition go_all (rho : list (nat * value)) :=
      fix all (es : list expr) (k : list value -> res) : res :=
        match es with
        | [] => k []
        | e :: es => match go cs ds call rho e with Val v => all es (fun vs => k (v :: vs)) | r => r end
        end.
    Definition go_block (v : expr) :=
      fix block (rho : list (nat * value)) (ss : list (option (pat * option ty) * expr)) : res :=
             match ss with
             | [] => go cs ds call rho v
             | (k, e) :: ss =>
                 match go cs ds call rho e with
                 | Val v => match k with
                            | None => block rho ss
                            | Some (p, _) => match matches cs p v with
                                             | Yes bs => block (bs ++ rho) ss
                                             | No => NoMatch
                                             | Bad => Wrong
                                             end
                            end
                 | r => r
                 end
             end.
    Definition go_choose (rho : list (nat * value)) (v : value) :=
      fix choose (arms : list (pat * option expr * expr)) : res :=
                 match arms with
                 | [] => NoMatch
                 | (p, g, body) :: arms =>
                     match matches cs p v with
                     | Yes bs => match g with
                                 | None => go cs ds call (bs ++ rho) body
                                 | Some g => condition (go cs ds call (bs ++ rho) g)
                                               (fun b => if b : bool then go cs ds call (bs ++ rho) body else choose arms)
                                 end
                     | No => choose arms
                     | Bad => Wrong
                     end
                 end.
    Lemma go_eq rho e : go cs ds call rho e =
      match e with
      | ELit l => Val (VLit l)
      | EVar _ x => match find_value rho x with Some v => Val v | None => Wrong end
      | EFn f => match nth_error ds f with Some _ => Val (VFn f) | None => Wrong end
      | ECall c args => match go cs ds call rho c with Val f => go_all rho args (apply cs ds call f) | r => r end
      | ECons c args =>
          match nth_error cs c with
          | None => Wrong
          | Some k =>
              match args with
              | [] => Val (match cd_fields k with [] => VData c [] | _ => VCtor c end)
              | _ => go_all rho args (apply cs ds call (VCtor c))
              end
          end
      | ELam _ params body => Val (VClos rho (List.map fst params) body)
      | ETuple es => go_all rho es (fun vs => Val (VTuple vs))
      | EList es => go_all rho es (fun vs => Val (VList vs))
      | ELogic both a b =>
          condition (go cs ds call rho a) (fun x =>
            if Bool.eqb x both then condition (go cs ds call rho b) (fun y => Val (VLit (LBool y)))
            else Val (VLit (LBool x)))
      | EBlock ss v => go_block v rho ss
      | ECase s arms => match go cs ds call rho s with Val v => go_choose rho v arms | r => r end
      end.
    Proof. destruct e; reflexivity. Qed.

    Lemma apply_ok f ts t vs : ht f (SFun ts t) -> Forall2 ht vs ts -> good (apply cs ds call f vs) t.
    Proof.
      intros F V. pose proof (Forall2_len _ _ _ V) as L. inversion F as [l|? ? ?|? ? ?|c u KC NF|c us vs' u NE KC FV|c ts' u KC|f' u GF|rho xs body g ts' r LN ND TB FN FT]; subst.
      - destruct l; discriminate.
      - exfalso. eapply NF. reflexivity.
      - exfalso. destruct (ctor_shape _ _ KC) as [k [be [_ E]]]. destruct (cd_fields k); discriminate.
      - destruct (ctor_shape _ _ KC) as [k [be [N E]]]. cbn. rewrite N.
        destruct (cd_fields k) as [|f0 fs] eqn:Ef; [discriminate|]. injection E as -> ->. rewrite <- Ef in *.
        cbn [List.length] in L. rewrite map_length in L. rewrite L, Ef. cbn [List.length]. rewrite Nat.eqb_refl.
        eapply H_data; [|exact KC|exact V]. intros ->. inversion V.
      - destruct (bodies _ _ GF) as [d [ts0 [r [N [E [Ln [ND T]]]]]]]. injection E as <- <-. cbn. rewrite N.
        rewrite L, Ln, Nat.eqb_refl. eapply call_ok; [|exact T].
        rewrite <- (app_nil_r (combine (fd_params d) vs)). apply env_extend.
        + intros x u [].
        + apply combine_ok, V.
        + rewrite fst_combine; [exact ND | exact Ln].
      - cbn. rewrite L. replace (List.length xs) with (List.length ts) by assumption. rewrite Nat.eqb_refl.
        eapply call_ok; [|exact TB]. apply env_extend.
        + intros x u X. destruct (find_value rho x) as [v|] eqn:Ev; [|exfalso; eapply FN; eauto].
          exists v. split; [reflexivity|]. eapply FT; eauto.
        + apply combine_ok, V.
        + rewrite fst_combine; assumption.
    Qed.

    Definition expr_ok (e : expr) : Prop := forall rho g t, env_ok rho g -> typed G K g e t -> good (go cs ds call rho e) t.

    Lemma all_ok es : Forall expr_ok es -> forall rho g ts k t, env_ok rho g -> typed_all G K g es ts ->
      (forall vs, Forall2 ht vs ts -> good (k vs) t) -> good (go_all rho es k) t.
    Proof.
      induction 1 as [|e es H F IH]; intros rho g ts k t O E Hk; destruct ts as [|u ts]; cbn [typed_all] in E; try contradiction.
      - cbn. apply Hk. constructor.
      - destruct E as [E1 E2]. cbn [go_all]. pose proof (H rho g u O E1) as V. destruct (go cs ds call rho e); cbn in V; try exact I; try contradiction.
        eapply IH; eauto.
    Qed.

    Lemma condition_ok r k t : good r SBool -> (forall b, good (k b) t) -> good (condition r k) t.
    Proof.
      intros R Hk. destruct r as [v| | |]; cbn in R; try exact I; try contradiction.
      destruct (of_bool _ R) as [b ->]. apply Hk.
    Qed.

    Lemma go_ok : forall e, expr_ok e.
    Proof.
      induction e as [l|i x|f|c args IHc IHa|c args IHa|i ps b IH|es IH|es IH|k a b IHa IHb|ss v IHs IHv|s arms IHs IHa] using expr_ind';
        intros rho g t O E; rewrite typed_eq in E; rewrite go_eq.
      - subst. constructor.
      - destruct (O _ _ E) as [v [-> V]]. exact V.
      - destruct (bodies _ _ E) as [d [ts [r [N _]]]]. rewrite N. constructor. exact E.
      - destruct E as [ts [E1 E2]]. pose proof (IHc _ _ _ O E1) as V. destruct (go cs ds call rho c); cbn in V; try exact I; try contradiction.
        eapply all_ok; eauto. intros vs W. eapply apply_ok; eauto.
      - destruct args as [|a args].
        + destruct (ctor_shape _ _ E) as [k [be [N T]]]. rewrite N. cbn. destruct (cd_fields k) eqn:Ef; subst t.
          * apply H_unit; [exact E | intros; discriminate].
          * apply H_ctor. exact E.
        + destruct E as [ts [E1 E2]]. destruct (ctor_shape _ _ E1) as [k [be [N T]]]. rewrite N.
          eapply all_ok; eauto. intros vs W. eapply apply_ok; eauto. apply H_ctor. exact E1.
      - destruct E as [ts [r [-> [Ln [N E]]]]]. cbn. eapply H_clos; eauto.
        + rewrite map_length. exact Ln.
        + intros x u X. destruct (O _ _ X) as [v [-> _]]. discriminate.
        + intros x u v X Ev. destruct (O _ _ X) as [v' [Ev' V]]. congruence.
      - destruct E as [ts [-> E]]. eapply all_ok; eauto. intros vs V. constructor. exact V.
      - destruct E as [u [-> E]]. eapply all_ok; eauto. intros vs V. constructor.
        clear -V. remember (repeat u (List.length es)) as l. assert (A : forall x, In x l -> x = u) by (subst; apply repeat_spec).
        clear Heql. induction V; constructor.
        + rewrite <- (A y); [assumption | left; reflexivity].
        + apply IHV. intros z Hz. apply A. right. exact Hz.
      - destruct E as [-> [E1 E2]]. apply condition_ok; [eapply IHa; eauto|]. intros x. destruct (Bool.eqb x k).
        + apply condition_ok; [eapply IHb; eauto|]. intros y. apply (H_lit _ _ (LBool y)).
        + apply (H_lit _ _ (LBool x)).
      - revert rho g O E. induction IHs as [|[k e] ss H F IH]; intros rho g O E; cbn [typed_block go_block] in *.
        + eapply IHv; eauto.
        + destruct k as [[p ann]|].
          * destruct E as [N [g' [[u [bs [E1 E2]]] [E3 E4]]]].
            pose proof (H rho g u O E1) as V. cbn [snd] in V. destruct (go cs ds call rho e) as [w| | |] eqn:Ew; cbn in V; try exact I; try contradiction.
            pose proof (match_ok p w u bs V E2) as Mt.
            destruct (matches cs p w) as [bv| |] eqn:Em; cbn in Mt; [|exact I|contradiction].
            eapply IH; eauto. intros x wt X. specialize (E3 x wt X). destruct (existsb (Nat.eqb x) (pvars p)) eqn:Ex.
            -- destruct E3 as [u' [bs' [E5 [E6 E7]]]]. pose proof (H rho g u' O E5) as V'. cbn [snd] in V'. rewrite Ew in V'.
               pose proof (match_ok p w u' bs' V' E6) as Mt'. rewrite Em in Mt'.
               eapply find_bound; eauto. rewrite (ptyped_vars _ _ _ _ E6). exact N.
            -- rewrite (find_skip bv bs); [apply O, E3 | exact Mt |]. rewrite (ptyped_vars _ _ _ _ E2).
               intros X'. apply existsb_eqb in X'. congruence.
          * destruct E as [[u E1] E2]. pose proof (H rho g u O E1) as V. cbn [snd] in V. destruct (go cs ds call rho e); cbn in V; try exact I; try contradiction.
            eapply IH; eauto.
      - destruct E as [u [E1 E2]]. pose proof (IHs _ _ _ O E1) as V. destruct (go cs ds call rho s) as [w| | |]; cbn in V; try exact I; try contradiction.
        clear IHs E1. induction IHa as [|[[p h] b] arms [H1 H2] F IH]; [exact I|]. cbn [typed_arms go_choose snd fst] in *.
        destruct E2 as [[N [bs [E2 [E3 E4]]]] E5]. pose proof (match_ok p w u bs V E2) as Mt.
        destruct (matches cs p w) as [bv| |]; cbn in Mt; [|apply IH; exact E5|contradiction].
        assert (O' : env_ok (bv ++ rho) (extend g bs)).
        { apply env_extend; auto. rewrite (ptyped_vars _ _ _ _ E2). exact N. }
        destruct h as [h|]; [|eapply H2; eauto].
        apply condition_ok; [eapply H1; eauto|]. intros []; [eapply H2; eauto | apply IH; exact E5].
    Qed.
  End Step.

  Theorem typed_is_safe : forall fuel rho g e t, env_ok rho g -> typed G K g e t -> good (eval cs ds fuel rho e) t.
  Proof.
    induction fuel as [|fuel IH]; intros rho g e t O E; cbn [eval].
    - eapply go_ok; eauto. intros. exact I.
    - eapply go_ok; eauto.
  Qed.
End Safe.
