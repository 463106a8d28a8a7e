From Verif Require Import ListLowSpec ListLowProofs.
Open Scope nat_scope.

Section OpInd.
  Variable P : op -> Prop.
  Hypothesis Simple : forall o, match o with OIf _ _ _ _ => False | _ => True end -> P o.
  Hypothesis If : forall r c yes no, Forall (fun b : block => Forall P (b_ops b)) yes -> Forall (fun b : block => Forall P (b_ops b)) no -> P (OIf r c yes no).
  Fixpoint op_ind' (o : op) : P o :=
    let fix os (l : list op) : Forall P l := match l with [] => Forall_nil _ | o :: l' => Forall_cons _ (op_ind' o) (os l') end in
    let fix bs (l : list block) : Forall (fun b : block => Forall P (b_ops b)) l :=
      match l with
      | [] => Forall_nil _
      | b :: l' => Forall_cons _ (match b as b return Forall P (b_ops b) with Block _ _ ops _ => os ops end) (bs l')
      end in
    match o with
    | OIf r c yes no => If r c yes no (bs yes) (bs no)
    | o' => Simple o' I
    end.
End OpInd.

(** Arguments of blocks, at any depth. *)
Fixpoint op_bargs (o : op) : list nat :=
  match o with
  | OIf _ _ yes no =>
      flat_map (fun b => b_args b ++ flat_map op_bargs (b_ops b)) yes ++ flat_map (fun b => b_args b ++ flat_map op_bargs (b_ops b)) no
  | _ => []
  end.
Definition block_bargs (b : block) : list nat := b_args b ++ flat_map op_bargs (b_ops b).
Definition block_walk (b : block) : list op := flat_map walk (b_ops b).

Definition count (x : nat) (ws : list op) : nat := count_occ Nat.eq_dec (List.map result ws) x.
Lemma count_app x a b : count x (a ++ b) = count x a + count x b.
Proof. unfold count. rewrite map_app. apply count_occ_app. Qed.
Lemma count_cons x o a : count x (o :: a) = (if Nat.eq_dec (result o) x then 1 else 0) + count x a.
Proof. unfold count. cbn. destruct (Nat.eq_dec (result o) x); reflexivity. Qed.
Lemma count_in x ws o : In o ws -> result o = x -> 1 <= count x ws.
Proof. intros I E. unfold count. apply count_occ_In. rewrite <- E. apply in_map, I. Qed.
Lemma count_flat {A} x (f : A -> list op) l a : In a l -> count x (f a) <= count x (flat_map f l).
Proof.
  induction l as [|b l IH]; [intros []|]. cbn [flat_map In]. rewrite count_app. intros [->|I]; [lia|]. specialize (IH I). lia.
Qed.
Lemma incl_flat {A B} (f : A -> list B) l a : In a l -> incl (f a) (flat_map f l).
Proof. intros I x J. apply in_flat_map. eauto. Qed.

Section Two.
  Variable prim : nat -> list Z -> Z.
  Variable ob : obs.
  Variable n : nat.
  Let r := ob_op ob.
  Let l := ob_list ob.
  Let ty := ob_ty ob.

  Definition is_obs (o : op) : Prop := (o = OHead r l ty /\ ob_field ob = 0) \/ (o = OTail r l ty /\ ob_field ob = 1).

  Record Good (names bargs : list nat) (ws : list op) : Prop := {
    g_names : forall x, In x names -> x < n;
    g_bargs : ~ In r bargs;
    g_walk : forall o, In o ws -> result o = r -> is_obs o;
    g_count : count r ws <= 1
  }.
  Lemma Good_sub names bargs ws names' bargs' ws' : Good names bargs ws ->
    incl names' names -> incl bargs' bargs -> incl ws' ws -> count r ws' <= count r ws -> Good names' bargs' ws'.
  Proof. intros [A B C D] a b c d. constructor; auto. lia. Qed.

  Definition good_ops (ops : list op) : Prop := Good (flat_map op_names ops) (flat_map op_bargs ops) (flat_map walk ops).
  Definition good_blocks (bs : list block) : Prop := Good (flat_map block_names bs) (flat_map block_bargs bs) (flat_map block_walk bs).
  Definition good_block (b : block) : Prop := Good (block_names b) (block_bargs b) (block_walk b).
  Definition good_op (o : op) : Prop := Good (op_names o) (op_bargs o) (walk o).
  Definition good_term (t : term) : Prop := forall x, In x (term_names t) -> x < n.

  Lemma good_cons o ops : good_ops (o :: ops) -> good_op o /\ good_ops ops.
  Proof.
    intros G. split; eapply Good_sub; try exact G; cbn [flat_map]; try (intros x I; apply in_app_iff; auto); rewrite count_app; lia.
  Qed.
  Lemma good_in bs b : good_blocks bs -> In b bs -> good_block b.
  Proof.
    intros G I. eapply Good_sub; [exact G| | | |].
    - apply (incl_flat block_names), I.
    - apply (incl_flat block_bargs), I.
    - apply (incl_flat block_walk), I.
    - apply (count_flat r block_walk), I.
  Qed.
  Lemma good_parts b : good_block b ->
    good_ops (b_ops b) /\ good_term (b_term b) /\ b_id b < n /\ (forall x, In x (b_args b) -> x < n /\ x <> r).
  Proof.
    intros G. split; [|split; [|split]].
    - eapply Good_sub; [exact G| | | |]; unfold block_names, block_bargs, block_walk.
      + intros x I. right. rewrite !in_app_iff. auto.
      + intros x I. rewrite in_app_iff. auto.
      + apply incl_refl.
      + lia.
    - intros x I. apply (g_names _ _ _ G). unfold block_names. right. rewrite !in_app_iff. auto.
    - apply (g_names _ _ _ G). left. reflexivity.
    - intros x I. split.
      + apply (g_names _ _ _ G). unfold block_names. right. rewrite !in_app_iff. auto.
      + intros ->. apply (g_bargs _ _ _ G). unfold block_bargs. rewrite in_app_iff. auto.
  Qed.
  Lemma good_if r0 c yes no : good_op (OIf r0 c yes no) -> good_blocks yes /\ good_blocks no /\ r0 < n /\ c < n.
  Proof.
    intros G. split; [|split; [|split]].
    - eapply Good_sub; [exact G| | | |]; cbn [op_names op_bargs walk].
      + intros x I. right. right. apply in_app_iff. left. exact I.
      + intros x I. apply in_app_iff. left. exact I.
      + intros x I. right. apply in_app_iff. left. exact I.
      + change (count r (flat_map block_walk yes) <= count r (OIf r0 c yes no :: flat_map block_walk yes ++ flat_map block_walk no)).
        rewrite count_cons, count_app. lia.
    - eapply Good_sub; [exact G| | | |]; cbn [op_names op_bargs walk].
      + intros x I. right. right. apply in_app_iff. right. exact I.
      + intros x I. apply in_app_iff. right. exact I.
      + intros x I. right. apply in_app_iff. right. exact I.
      + change (count r (flat_map block_walk no) <= count r (OIf r0 c yes no :: flat_map block_walk yes ++ flat_map block_walk no)).
        rewrite count_cons, count_app. lia.
    - apply (g_names _ _ _ G). cbn. auto.
    - apply (g_names _ _ _ G). cbn. auto.
  Qed.

  (** ** Environments *)
  Definition em (e e' : env) : Prop := (forall x, x < n -> x <> r -> e' x = e x) /\ e' (arg n) = e r.
  Notation rn := (rn ob n).

  Lemma em_rn e e' x : em e e' -> x < n -> e' (rn x) = e x.
  Proof. intros [A B] L. unfold ListLowModel.rn. fold r. destruct (Nat.eqb_spec x r) as [->|N]; auto. Qed.
  Lemma em_vals e e' xs : em e e' -> (forall x, In x xs -> x < n) -> vals e' (List.map rn xs) = vals e xs.
  Proof.
    intros H. induction xs as [|x xs IH]; intros L; cbn; [reflexivity|]. rewrite (em_rn e e' x H) by (apply L; cbn; auto).
    rewrite IH by (intros y I; apply L; cbn; auto). reflexivity.
  Qed.
  Lemma em_upd e e' x v : em e e' -> x < n -> x <> r -> em (upd e x v) (upd e' x v).
  Proof.
    intros [A B] L N. split; unfold upd.
    - intros y Ly Ny. destruct (y =? x); auto.
    - unfold arg in *. destruct (Nat.eqb_spec (n + 1) x); [lia|]. destruct (Nat.eqb_spec r x); [congruence|]. exact B.
  Qed.
  Lemma em_new e e' y v : em e e' -> n <= y -> y <> arg n -> em e (upd e' y v).
  Proof.
    intros [A B] L N. split; unfold upd.
    - intros x Lx Nx. destruct (Nat.eqb_spec x y); [lia|]. auto.
    - destruct (Nat.eqb_spec (arg n) y); [congruence|]. exact B.
  Qed.
  Lemma em_obs e e' v : em e e' -> em (upd e r v) (upd e' (arg n) v).
  Proof.
    intros [A B]. split; unfold upd.
    - intros x Lx Nx. unfold arg. destruct (Nat.eqb_spec x (n + 1)); [lia|]. destruct (Nat.eqb_spec x r); [congruence|]. auto.
    - rewrite !Nat.eqb_refl. reflexivity.
  Qed.
  Lemma em_bind xs : forall e e' vs, em e e' -> (forall x, In x xs -> x < n /\ x <> r) ->
    match bind e xs vs with Some e1 => exists e1', bind e' xs vs = Some e1' /\ em e1 e1' | None => True end.
  Proof.
    induction xs as [|x xs IH]; intros e e' [|v vs] H L; cbn; eauto.
    specialize (IH e e' vs H ltac:(intros y I; apply L; cbn; auto)). destruct (bind e xs vs) as [e1|]; [|exact I].
    destruct IH as (e1' & -> & H1). eexists. split; [reflexivity|]. destruct (L x ltac:(cbn; auto)). apply em_upd; auto.
  Qed.

  Definition simple (o : op) : Prop := match o with OCall _ _ _ | OIf _ _ _ _ => False | _ => True end.
  Lemma tr_result o : result (tr_op ob n o) = result o.
  Proof. destruct o; reflexivity. Qed.
  Lemma tr_simple o : simple o -> simple (tr_op ob n o).
  Proof. destruct o; cbn; auto. Qed.

  Lemma mid_tr o e e' : simple o -> em e e' -> (forall x, In x (op_names o) -> x < n) -> mid prim (tr_op ob n o) e' = mid prim o e.
  Proof.
    intros S H L. destruct o; try contradiction; cbn [tr_op mid native_eval op_names] in *; try reflexivity.
    - cbn [vals]. rewrite !(em_rn e e') by (auto; apply L; cbn; auto). reflexivity.
    - rewrite !(em_rn e e') by (auto; apply L; cbn; auto). reflexivity.
    - rewrite !(em_rn e e') by (auto; apply L; cbn; auto). reflexivity.
    - rewrite !(em_rn e e') by (auto; apply L; cbn; auto). reflexivity.
    - rewrite (em_vals e e') by (auto; intros; apply L; cbn; auto). reflexivity.
    - rewrite !(em_rn e e') by (auto; apply L; cbn; auto). reflexivity.
    - rewrite !(em_rn e e') by (auto; apply L; cbn; auto). reflexivity.
    - unfold num_op. rewrite (em_vals e e') by (auto; intros; apply L; cbn; auto). reflexivity.
  Qed.

  (** ** Code *)
  Notation trap := (trap n). Notation proj := (proj n). Notation cont := (cont n). Notation empty := (empty n). Notation projected := (projected n).
  Definition not_r (o : op) : Prop := result o <> r.

  Inductive code (bs' : list block) : list op -> term -> list op -> term -> Prop :=
  | CPlain ops t : Forall not_r ops -> code bs' ops t (List.map (tr_op ob n) ops) (tr_term ob n t)
  | CSplit before o rest t :
      Forall not_r before -> result o = r -> Forall not_r rest ->
      find_block bs' trap = Some (Block trap [] [] TUnreachable) ->
      find_block bs' proj = Some (Block proj [] [OStructGet projected l ty (ob_field ob)] (TBr cont [projected])) ->
      find_block bs' cont = Some (Block cont [arg n] (List.map (tr_op ob n) rest) (tr_term ob n t)) ->
      code bs' (before ++ o :: rest) t (List.map (tr_op ob n) before ++ [OIsNull empty l]) (TCondBr empty trap proj).

  Lemma split_none ops : split_at ob (List.map (tr_op ob n) ops) = None -> Forall not_r ops.
  Proof.
    induction ops as [|o ops IH]; cbn; [constructor|]. rewrite tr_result. fold r. destruct (Nat.eqb_spec (result o) r) as [|N]; [discriminate|].
    destruct (split_at ob _) as [[]|]; [discriminate|]. intros _. constructor; auto.
  Qed.
  Lemma split_some ops : forall bf af, split_at ob (List.map (tr_op ob n) ops) = Some (bf, af) ->
    exists before o rest, ops = before ++ o :: rest /\ bf = List.map (tr_op ob n) before /\ af = List.map (tr_op ob n) rest /\ result o = r /\ Forall not_r before.
  Proof.
    induction ops as [|o ops IH]; intros bf af; cbn; [discriminate|]. rewrite tr_result. fold r. destruct (Nat.eqb_spec (result o) r) as [E|N].
    - intros X. injection X as <- <-. exists [], o, ops. auto.
    - destruct (split_at ob _) as [[bf0 af0]|]; [|discriminate]. intros X. injection X as <- <-.
      destruct (IH _ _ eq_refl) as (before & o1 & rest & -> & -> & -> & R & F). exists (o :: before), o1, rest.
      repeat split; auto.
  Qed.

  Definition trh (b : block) : block :=
    match split_at ob (List.map (tr_op ob n) (b_ops b)) with
    | Some (bf, _) => Block (b_id b) (b_args b) (bf ++ [OIsNull empty l]) (TCondBr empty trap proj)
    | None => Block (b_id b) (b_args b) (List.map (tr_op ob n) (b_ops b)) (tr_term ob n (b_term b))
    end.
  Definition trt (b : block) : list block :=
    match split_at ob (List.map (tr_op ob n) (b_ops b)) with
    | Some (_, af) =>
        [ Block trap [] [] TUnreachable;
          Block proj [] [OStructGet projected l ty (ob_field ob)] (TBr cont [projected]);
          Block cont [arg n] af (tr_term ob n (b_term b)) ]
    | None => []
    end.
  Lemma tr_block_eq b : tr_block ob n b = trh b :: trt b.
  Proof. unfold tr_block, split_block, trh, trt. cbn [b_ops b_id b_args b_term]. destruct (split_at ob _) as [[bf af]|]; reflexivity. Qed.
  Lemma trh_id b : b_id (trh b) = b_id b.
  Proof. unfold trh. destruct (split_at ob _) as [[bf af]|]; reflexivity. Qed.
  Lemma trh_args b : b_args (trh b) = b_args b.
  Proof. unfold trh. destruct (split_at ob _) as [[bf af]|]; reflexivity. Qed.

  Lemma find_app a b i : find_block (a ++ b) i = match find_block a i with Some x => Some x | None => find_block b i end.
  Proof. induction a as [|x a IH]; cbn; [reflexivity|]. destruct (b_id x =? i); auto. Qed.

  Lemma find_tr bs i : i < n -> find_block (tr_blocks ob n bs) i = option_map trh (find_block bs i).
  Proof.
    intros L. induction bs as [|b bs IH]; [reflexivity|]. unfold tr_blocks in *. cbn [flat_map]. rewrite tr_block_eq. cbn [app find_block].
    rewrite trh_id. destruct (b_id b =? i); [reflexivity|]. rewrite find_app.
    replace (find_block (trt b) i) with (@None block); [exact IH|]. unfold trt. destruct (split_at ob _) as [[bf af]|]; [|reflexivity].
    cbn [find_block b_id]. unfold ListLowModel.trap, ListLowModel.proj, ListLowModel.cont.
    destruct (Nat.eqb_spec (n + 2) i); [lia|]. destruct (Nat.eqb_spec (n + 3) i); [lia|]. destruct (Nat.eqb_spec n i); [lia|]. reflexivity.
  Qed.
  Lemma hd_tr bs : hd_error (tr_blocks ob n bs) = option_map trh (hd_error bs).
  Proof. destruct bs as [|b bs]; [reflexivity|]. unfold tr_blocks. cbn [flat_map]. rewrite tr_block_eq. reflexivity. Qed.

  Lemma split_count b bf af : split_at ob (List.map (tr_op ob n) (b_ops b)) = Some (bf, af) -> 1 <= count r (block_walk b).
  Proof.
    intros S. apply split_some in S as (before & o & rest & E & _ & _ & R & _). apply (count_in _ _ o); [|exact R].
    unfold block_walk. rewrite E. apply in_flat_map. exists o. split; [apply in_app_iff; cbn; auto|]. destruct o; cbn; auto.
  Qed.

  Lemma find_new bs b bf af : good_blocks bs -> In b bs -> split_at ob (List.map (tr_op ob n) (b_ops b)) = Some (bf, af) ->
    find_block (tr_blocks ob n bs) trap = Some (Block trap [] [] TUnreachable) /\
    find_block (tr_blocks ob n bs) proj = Some (Block proj [] [OStructGet projected l ty (ob_field ob)] (TBr cont [projected])) /\
    find_block (tr_blocks ob n bs) cont = Some (Block cont [arg n] af (tr_term ob n (b_term b))).
  Proof.
    intros G I S. induction bs as [|b0 bs IH]; [destruct I|].
    assert (Id : b_id b0 < n) by (apply good_parts, (good_in (b0 :: bs)); cbn; auto).
    unfold tr_blocks in *. cbn [flat_map]. rewrite tr_block_eq. cbn [app find_block]. rewrite trh_id.
    unfold ListLowModel.trap, ListLowModel.proj, ListLowModel.cont in *.
    destruct (Nat.eqb_spec (b_id b0) (n + 2)); [lia|]. destruct (Nat.eqb_spec (b_id b0) (n + 3)); [lia|].
    destruct (Nat.eqb_spec (b_id b0) n); [lia|]. rewrite !find_app.
    destruct I as [->|I].
    - unfold trt. rewrite S. cbn [find_block b_id]. unfold ListLowModel.trap, ListLowModel.proj, ListLowModel.cont.
      rewrite !Nat.eqb_refl. destruct (Nat.eqb_spec (n + 2) (n + 3)); [lia|]. destruct (Nat.eqb_spec (n + 2) n); [lia|].
      destruct (Nat.eqb_spec (n + 3) n); [lia|]. auto.
    - assert (N : trt b0 = []).
      { unfold trt. destruct (split_at ob (List.map (tr_op ob n) (b_ops b0))) as [[bf0 af0]|] eqn:S0; [|reflexivity]. exfalso.
        pose proof (g_count _ _ _ G) as C. cbn [flat_map] in C. rewrite count_app in C. apply split_count in S0. apply split_count in S.
        pose proof (count_flat r block_walk bs b I). lia. }
      rewrite N. cbn [find_block]. apply IH; [|exact I]. eapply Good_sub; [exact G| | | |]; cbn [flat_map].
      + intros x J. apply in_app_iff. auto.
      + intros x J. apply in_app_iff. auto.
      + intros x J. apply in_app_iff. auto.
      + rewrite count_app. lia.
  Qed.

  Lemma walk_self o : In o (walk o).
  Proof. destruct o; cbn; auto. Qed.

  Lemma code_of bs b : good_blocks bs -> In b bs -> code (tr_blocks ob n bs) (b_ops b) (b_term b) (b_ops (trh b)) (b_term (trh b)).
  Proof.
    intros G I. unfold trh. destruct (split_at ob (List.map (tr_op ob n) (b_ops b))) as [[bf af]|] eqn:S; cbn [b_ops b_term].
    - destruct (find_new _ _ _ _ G I S) as (A & B & C). destruct (split_some _ _ _ S) as (before & o & rest & E & -> & -> & R & F).
      rewrite E. apply CSplit; auto. apply Forall_forall. intros o' I' R'.
      pose proof (g_count _ _ _ (good_in _ _ G I)) as Ct. unfold block_walk in Ct. rewrite E, flat_map_app in Ct. cbn [flat_map] in Ct.
      rewrite !count_app in Ct. pose proof (count_in r (walk o) o (walk_self o) R).
      pose proof (count_in r (flat_map walk rest) o' ltac:(apply in_flat_map; exists o'; split; [exact I'|apply walk_self]) R'). lia.
    - apply CPlain. apply split_none. exact S.
  Qed.

  Lemma code_cons bs' o ops t ops' t' : code bs' (o :: ops) t ops' t' ->
    (not_r o /\ exists ops1, ops' = tr_op ob n o :: ops1 /\ code bs' ops t ops1 t') \/
    (result o = r /\ Forall not_r ops /\ ops' = [OIsNull empty l] /\ t' = TCondBr empty trap proj /\
     find_block bs' trap = Some (Block trap [] [] TUnreachable) /\
     find_block bs' proj = Some (Block proj [] [OStructGet projected l ty (ob_field ob)] (TBr cont [projected])) /\
     find_block bs' cont = Some (Block cont [arg n] (List.map (tr_op ob n) ops) (tr_term ob n t))).
  Proof.
    intros C. remember (o :: ops) as all eqn:Ea. destruct C as [ops0 t F|before o1 rest t F R Fr A B C]; subst.
    - left. inversion F; subst. split; [auto|]. eexists. split; [reflexivity|]. constructor; auto.
    - destruct before as [|o0 before]; cbn in Ea; injection Ea as <- <-.
      + right. auto 10.
      + left. inversion F; subst. split; [auto|]. eexists. split; [reflexivity|]. apply CSplit; auto.
  Qed.

  (** ** States *)
  Inductive fm : frame -> frame -> Prop :=
  | FmCall r0 bs ops t ops' t' e e' : good_blocks bs -> good_ops ops -> good_term t -> r0 < n -> r0 <> r -> em e e' ->
      code (tr_blocks ob n bs) ops t ops' t' -> fm (FCall r0 bs ops t e) (FCall r0 (tr_blocks ob n bs) ops' t' e')
  | FmIf r0 bs ops t ops' t' : good_blocks bs -> good_ops ops -> good_term t -> r0 < n -> r0 <> r ->
      code (tr_blocks ob n bs) ops t ops' t' -> fm (FIf r0 bs ops t) (FIf r0 (tr_blocks ob n bs) ops' t').
  Inductive sm : state -> state -> Prop :=
  | Sm bs ops t ops' t' e e' k k' : good_blocks bs -> good_ops ops -> good_term t -> em e e' -> Forall2 fm k k' ->
      code (tr_blocks ob n bs) ops t ops' t' -> sm (St bs ops t e k) (St (tr_blocks ob n bs) ops' t' e' k').

  Lemma enter_tr bs b vs e e' k k' : good_blocks bs -> (forall x, b = Some x -> In x bs) -> em e e' -> Forall2 fm k k' ->
    match enter bs b vs e k with
    | Next s => exists s', enter (tr_blocks ob n bs) (option_map trh b) vs e' k' = Next s' /\ sm s s'
    | Wrong => True
    | _ => False
    end.
  Proof.
    intros G J H K. unfold enter. destruct b as [b|]; [|exact I]. cbn [option_map]. rewrite trh_args.
    specialize (J b eq_refl). destruct (good_parts b (good_in bs b G J)) as (Go & Gt & Gi & Ga).
    pose proof (em_bind (b_args b) e e' vs H Ga) as B. destruct (bind e (b_args b) vs) as [e1|]; [|exact I].
    destruct B as (e1' & -> & H1). eexists. split; [reflexivity|]. constructor; auto. apply code_of; auto.
  Qed.

  Hypothesis Lless : l < n.
  Hypothesis Lne : l <> r.
  Variable m : module.
  Hypothesis Gm : forall g, In g m -> good_blocks g.
  Let m' := lower_observation ob n m.

  Lemma nth_tr f : @nth_error func m' f = option_map (fun g : func => tr_blocks ob n g : func) (@nth_error func m f).
  Proof. apply nth_error_map. Qed.

  Lemma step_simple ev mm bs o ops t e k : simple o -> step ev mm (St bs (o :: ops) t e k) =
    match ev o e with Val v => Next (St bs ops t (upd e (result o) v) k) | Trap => Stopped | Stuck => Wrong end.
  Proof. destruct o; intros S; try contradiction; reflexivity. Qed.

  Ltac from_enter L :=
    match goal with
    | |- match enter ?bs ?b ?vs ?e ?k with _ => _ end => destruct (enter bs b vs e k) as [?s1|?v1| |]
    end; try contradiction; auto; destruct L as (?s1' & L & ?); eapply once; [|eassumption].

  Lemma stage_two : one_step (mid prim) (mid prim) m m' eq sm.
  Proof.
    intros s s' [bs ops t ops' t' e e' k k' Gb Go Gt H K C].
    destruct ops as [|o ops].
    - assert (X : ops' = [] /\ t' = tr_term ob n t).
      { remember [] as nl eqn:En. destruct C as [ops t F|before o rest t F R Fr A B C]; subst; [auto|]. destruct before; discriminate. }
      destruct X as [-> ->]. clear C. cbn [step]. destruct t as [b args|c y no|v|v|]; cbn [tr_term].
      + destruct (vals e args) as [vs|] eqn:E; [|exact I].
        assert (Lb : b < n) by (apply Gt; cbn; auto).
        pose proof (enter_tr bs (find_block bs b) vs e e' k k' Gb (find_in bs b) H K) as L. from_enter L.
        cbn [step]. rewrite (em_vals e e'), E, find_tr by (auto; intros; apply Gt; cbn; auto). exact L.
      + assert (Lc : c < n) by (apply Gt; cbn; auto). assert (Ly : y < n) by (apply Gt; cbn; auto). assert (Ln : no < n) by (apply Gt; cbn; auto).
        destruct (truth (e c)) as [[]|] eqn:E; [| |exact I].
        * pose proof (enter_tr bs (find_block bs y) [] e e' k k' Gb (find_in bs y) H K) as L. from_enter L.
          cbn [step]. rewrite (em_rn e e'), E, find_tr by auto. exact L.
        * pose proof (enter_tr bs (find_block bs no) [] e e' k k' Gb (find_in bs no) H K) as L. from_enter L.
          cbn [step]. rewrite (em_rn e e'), E, find_tr by auto. exact L.
      + assert (Lv : v < n) by (apply Gt; cbn; auto).
        destruct (e v) as [w|] eqn:E; [|exact I]. destruct K as [|f f' k k' Fs K].
        * exists 1, w. split; [|reflexivity]. cbn [after step]. rewrite (em_rn e e'), E by auto. reflexivity.
        * destruct Fs as [r0 bs1 ops1 t1 ops1' t1' e1 e1' G1 G2 G3 L1 N1 H1 C1|]; [|exact I].
          eapply once; [cbn [step]; rewrite (em_rn e e'), E by auto; reflexivity|]. constructor; auto. apply em_upd; auto.
      + assert (Lv : v < n) by (apply Gt; cbn; auto).
        destruct (e v) as [w|] eqn:E; [|exact I]. destruct K as [|f f' k k' Fs K]; [exact I|].
        destruct Fs as [|r0 bs1 ops1 t1 ops1' t1' G1 G2 G3 L1 N1 C1]; [exact I|].
        eapply once; [cbn [step]; rewrite (em_rn e e'), E by auto; reflexivity|]. constructor; auto. apply em_upd; auto.
      + exists 1. reflexivity.
    - destruct (good_cons _ _ Go) as [G1 G2].
      assert (Lr : result o < n) by (apply (g_names _ _ _ G1); destruct o; cbn; auto).
      destruct (code_cons _ _ _ _ _ _ C) as [(N & ops1 & -> & C1)|(R & Fr & -> & -> & Ft & Fp & Fc)].
      + assert (D : simple o \/ ~ simple o) by (destruct o; cbn; auto). destruct D as [D|D].
        * rewrite step_simple by exact D. pose proof (mid_tr o e e' D H (g_names _ _ _ G1)) as L.
          destruct (mid prim o e) as [v| |] eqn:Ev; [| |exact I].
          -- eapply once; [rewrite step_simple, L, tr_result by (apply tr_simple, D); reflexivity|].
             constructor; auto. apply em_upd; auto.
          -- exists 1. cbn [after]. rewrite step_simple, L by (apply tr_simple, D). reflexivity.
        * destruct o; try (cbn in D; tauto).
          -- cbn [step tr_op]. destruct (nth_error m f) as [g|] eqn:Eg; [|exact I]. destruct (vals e args) as [vs|] eqn:E; [|exact I].
             pose proof (enter_tr g (hd_error g) vs (fun _ => None) (fun _ => None) (FCall r0 bs ops t e :: k) (FCall r0 (tr_blocks ob n bs) ops1 t' e' :: k')
               ltac:(apply Gm; eapply nth_error_In, Eg) (hd_in g) ltac:(split; reflexivity) ltac:(constructor; [constructor; auto|exact K])) as L.
             from_enter L. cbn [step]. rewrite nth_tr, Eg, (em_vals e e'), E by (auto; intros x Ix; apply (g_names _ _ _ G1); cbn; auto).
             cbn [option_map]. rewrite hd_tr. exact L.
          -- destruct (good_if _ _ _ _ G1) as (Gy & Gn & _ & Lc). cbn [step tr_op]. fold (tr_block ob n). change (flat_map (tr_block ob n)) with (tr_blocks ob n).
             destruct (truth (e c)) as [[]|] eqn:E; [| |exact I].
             ++ pose proof (enter_tr yes (hd_error yes) [] e e' (FIf r0 bs ops t :: k) (FIf r0 (tr_blocks ob n bs) ops1 t' :: k') Gy (hd_in yes) H
                  ltac:(constructor; [constructor; auto|exact K])) as L. from_enter L.
                cbn [step]. rewrite (em_rn e e'), E by auto. rewrite <- hd_tr in L. exact L.
             ++ pose proof (enter_tr no (hd_error no) [] e e' (FIf r0 bs ops t :: k) (FIf r0 (tr_blocks ob n bs) ops1 t' :: k') Gn (hd_in no) H
                  ltac:(constructor; [constructor; auto|exact K])) as L. from_enter L.
                cbn [step]. rewrite (em_rn e e'), E by auto. rewrite <- hd_tr in L. exact L.
      + pose proof (g_walk _ _ _ G1 o (walk_self o) R) as Ob.
        assert (El : e' l = e l) by (apply H; auto).
        assert (Trp : e l = Some Null -> exists j, after (mid prim) m' j (St (tr_blocks ob n bs) [OIsNull empty l] (TCondBr empty trap proj) e' k') = Stopped).
        { intros E. exists 3. cbn [after]. rewrite step_simple by exact I. cbn [mid native_eval]. rewrite El, E. cbn [step result].
          unfold upd at 1. rewrite Nat.eqb_refl. cbn [truth bool_val]. change (negb (1 =? 0)%Z) with true. cbn match.
          rewrite Ft. cbn [enter b_args bind b_ops b_term step]. reflexivity. }
        assert (Go_on : forall c x tl v, e l = Some (Cell c x tl) -> native_eval prim (OStructGet r l ty (ob_field ob)) e = Val v ->
           exists j s1', after (mid prim) m' (S j) (St (tr_blocks ob n bs) [OIsNull empty l] (TCondBr empty trap proj) e' k') = Next s1' /\
             sm (St bs ops t (upd e r v) k) s1').
        { intros c x tl v E Ev. exists 3. cbn [after]. rewrite step_simple by exact I. cbn [mid native_eval]. rewrite El, E. cbn [step result].
          unfold upd at 1. rewrite Nat.eqb_refl. cbn [truth bool_val]. change (negb (0 =? 0)%Z) with false. cbn match.
          rewrite Fp. cbn [enter b_args bind b_ops b_term]. rewrite step_simple by exact I. cbn [mid native_eval result].
          assert (Eu : forall w, upd e' empty w l = e l).
          { intros w. unfold upd. destruct (Nat.eqb_spec l empty) as [Z|_]; [unfold ListLowModel.empty in Z; lia|exact El]. }
          cbn [native_eval] in Ev. rewrite Eu. rewrite Ev. cbn [step vals]. unfold upd at 1. rewrite Nat.eqb_refl. rewrite Fc.
          cbn [enter b_args bind b_ops b_term]. eexists. split; [reflexivity|]. constructor; auto.
          - apply em_obs. apply em_new; [apply em_new; [exact H|unfold ListLowModel.empty; lia|unfold ListLowModel.empty, arg; lia]|
              unfold ListLowModel.projected; lia|unfold ListLowModel.projected, arg; lia].
          - constructor; auto. }
        destruct Ob as [[-> F]|[-> F]]; rewrite step_simple by exact I; cbn [mid]; rewrite F in Go_on; cbn [result].
        * destruct (e l) as [w|] eqn:E; [|cbn [native_eval]; rewrite E; exact I]. destruct w as [z|ty' l'| |c x tl]; try (cbn [native_eval]; rewrite E; exact I).
          -- apply Trp. reflexivity.
          -- specialize (Go_on c x tl). destruct (native_eval prim (OStructGet r l ty 0) e) as [v| |] eqn:Ev; [|cbn [native_eval] in Ev; rewrite E in Ev; destruct (ty =? c); discriminate|exact I].
             apply Go_on; reflexivity.
        * destruct (e l) as [w|] eqn:E; [|cbn [native_eval]; rewrite E; exact I]. destruct w as [z|ty' l'| |c x tl]; try (cbn [native_eval]; rewrite E; exact I).
          -- apply Trp. reflexivity.
          -- specialize (Go_on c x tl). destruct (native_eval prim (OStructGet r l ty 1) e) as [v| |] eqn:Ev; [|cbn [native_eval] in Ev; rewrite E in Ev; destruct (ty =? c); discriminate|exact I].
             apply Go_on; reflexivity.
  Qed.

  Lemma refines_two : refines (mid prim) (mid prim) m m' eq.
  Proof.
    apply (refine _ _ _ _ _ sm stage_two). intros f vs vs' F. apply Forall2_eq in F as <-. unfold start.
    rewrite nth_tr. destruct (nth_error m f) as [g|] eqn:Eg; [|exact I]. cbn [option_map]. rewrite hd_tr. apply enter_tr; auto.
    - apply Gm. eapply nth_error_In, Eg.
    - apply hd_in.
    - split; reflexivity.
  Qed.
End Two.
