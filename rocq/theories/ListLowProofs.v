From Verif Require Import ListLowSpec.
Open Scope nat_scope.

(** ** Simulation *)

Section Sim.
  Variables (evA evB : op -> env -> res) (mA mB : module).
  Variable V : value -> value -> Prop.
  Variable R : state -> state -> Prop.

  Definition one_step : Prop := forall s s', R s s' ->
    match step evA mA s with
    | Next s1 => exists k s1', after evB mB (S k) s' = Next s1' /\ R s1 s1'
    | Done v => exists k v', after evB mB k s' = Done v' /\ V v v'
    | Stopped => exists k, after evB mB k s' = Stopped
    | Wrong => True
    end.
  Definition many_steps (n : nat) (s s' : state) : Prop :=
    match after evA mA n s with
    | Next s1 => exists k s1', n <= k /\ after evB mB k s' = Next s1' /\ R s1 s1'
    | Done v => exists k v', after evB mB k s' = Done v' /\ V v v'
    | Stopped => exists k, after evB mB k s' = Stopped
    | Wrong => True
    end.

  Lemma after_add ev m j : forall k s, after ev m (j + k) s = match after ev m j s with Next s1 => after ev m k s1 | o => o end.
  Proof.
    induction j as [|j IH]; intros k s; cbn; [reflexivity|]. destruct (step ev m s); auto.
  Qed.

  Lemma sim (One : one_step) : forall n s s', R s s' -> many_steps n s s'.
  Proof.
    unfold many_steps. induction n as [|n IH]; intros s s' H; cbn [after].
    - exists 0, s'. auto.
    - specialize (One s s' H). destruct (step evA mA s) as [s1|v| |]; auto.
      destruct One as (k & s1' & A & H1). specialize (IH s1 s1' H1). destruct (after evA mA n s1) as [s2|v| |].
      + destruct IH as (k2 & s2' & L & A2 & H2). exists (S k + k2), s2'. split; [lia|]. split; [|exact H2].
        rewrite after_add, A. exact A2.
      + destruct IH as (k2 & v' & A2 & H2). exists (S k + k2), v'. split; [|exact H2]. rewrite after_add, A. exact A2.
      + destruct IH as (k2 & A2). exists (S k + k2). rewrite after_add, A. exact A2.
      + exact I.
  Qed.
End Sim.

(** The second program does what the first does. *)
Definition refines (evA evB : op -> env -> res) (mA mB : module) (V : value -> value -> Prop) : Prop :=
  forall f vs vs', Forall2 V vs vs' ->
    (forall v, returns evA mA f vs v -> exists v', returns evB mB f vs' v' /\ V v v') /\
    (stops evA mA f vs -> stops evB mB f vs') /\
    (goes_on evA mA f vs -> goes_on evB mB f vs').

Lemma after_le ev m k : forall n s s1, n <= k -> after ev m k s = Next s1 -> exists s2, after ev m n s = Next s2.
Proof.
  intros n s s1 L A. replace k with (n + (k - n)) in A by lia. rewrite after_add in A.
  destruct (after ev m n s); try discriminate. eauto.
Qed.

Lemma refine evA evB mA mB V R :
  one_step evA evB mA mB V R ->
  (forall f vs vs', Forall2 V vs vs' ->
     match start mA f vs with Next s => exists s', start mB f vs' = Next s' /\ R s s' | Wrong => True | _ => False end) ->
  refines evA evB mA mB V.
Proof.
  intros One Start f vs vs' H. specialize (Start f vs vs' H). unfold returns, stops, goes_on, run.
  destruct (start mA f vs) as [s|v| |]; try contradiction.
  - destruct Start as (s' & E & H1). rewrite E. split; [|split].
    + intros v (n & A). pose proof (sim evA evB mA mB V R One n s s' H1) as M. unfold many_steps in M. rewrite A in M.
      destruct M as (k & v' & B & W). exists v'. split; [exists k; exact B|exact W].
    + intros (n & A). pose proof (sim evA evB mA mB V R One n s s' H1) as M. unfold many_steps in M. rewrite A in M. exact M.
    + intros G n. destruct (G n) as (s1 & A). pose proof (sim evA evB mA mB V R One n s s' H1) as M. unfold many_steps in M.
      rewrite A in M. destruct M as (k & s1' & L & B & _). eapply after_le; eassumption.
  - split; [|split].
    + intros v (n & A). discriminate.
    + intros (n & A). discriminate.
    + intros G. destruct (G 0) as (s & A). discriminate.
Qed.

Lemma Forall2_eq {A} (l l' : list A) : Forall2 eq l l' -> l = l'.
Proof. induction 1; congruence. Qed.
Lemma Forall2_eq_refl {A} (l : list A) : Forall2 eq l l.
Proof. induction l; constructor; auto. Qed.

Lemma refines_trans evA evB evC mA mB mC V : refines evA evB mA mB V -> refines evB evC mB mC eq -> refines evA evC mA mC V.
Proof.
  intros P Q f vs vs' H. destruct (P f vs vs' H) as (P1 & P2 & P3). destruct (Q f vs' vs' (Forall2_eq_refl _)) as (Q1 & Q2 & Q3).
  split; [|split]; auto. intros v A. destruct (P1 v A) as (v' & B & W). destruct (Q1 v' B) as (v2 & C & <-). eauto.
Qed.

(** ** The meaning in between: operations on lists, over nodes *)

Section Mid.
  Variable prim : nat -> list Z -> Z.

  Definition mid (o : op) (e : env) : res :=
    match o with
    | OEmpty r ty => native_eval prim (ONull r ty) e
    | OPrepend r x t ty => native_eval prim (OStructNew r [x; t] ty) e
    | OIsEmpty r l ty => native_eval prim (OIsNull r l) e
    | OHead r l ty =>
        match e l with Some Null => Trap | _ => native_eval prim (OStructGet r l ty 0) e end
    | OTail r l ty =>
        match e l with Some Null => Trap | _ => native_eval prim (OStructGet r l ty 1) e end
    | _ => native_eval prim o e
    end.

  Inductive ostands : option value -> option value -> Prop :=
  | OsNone : ostands None None
  | OsSome v v' : stands v v' -> ostands (Some v) (Some v').
  Definition estands (e e' : env) : Prop := forall x, ostands (e x) (e' x).

  Lemma estands_upd e e' x v v' : estands e e' -> stands v v' -> estands (upd e x v) (upd e' x v').
  Proof. intros H S y. unfold upd. destruct (y =? x); [constructor; exact S|apply H]. Qed.

  Lemma estands_some e e' x v : estands e e' -> e x = Some v -> exists v', e' x = Some v' /\ stands v v'.
  Proof. intros H E. specialize (H x). rewrite E in H. inversion H; subst. eauto. Qed.

  Lemma estands_vals e e' xs vs : estands e e' -> vals e xs = Some vs -> exists vs', vals e' xs = Some vs' /\ Forall2 stands vs vs'.
  Proof.
    intros H. revert vs. induction xs as [|x xs IH]; intros vs E; cbn in *.
    - injection E as <-. eauto.
    - destruct (e x) as [v|] eqn:Ex; [|discriminate]. destruct (vals e xs) as [vs0|]; [|discriminate]. injection E as <-.
      destruct (estands_some _ _ _ _ H Ex) as (v' & -> & S). destruct (IH _ eq_refl) as (vs' & -> & F). eauto.
  Qed.

  Lemma nums_stands vs vs' : Forall2 stands vs vs' -> forall zs, nums vs = Some zs -> nums vs' = Some zs.
  Proof.
    induction 1 as [|v v' vs vs' S F IH]; intros zs E; cbn in *; [exact E|].
    destruct v; try discriminate. destruct (nums vs); [|discriminate]. inversion S; subst. rewrite (IH _ eq_refl). exact E.
  Qed.

  Lemma eval_stands o e e' : estands e e' ->
    match list_eval prim o e with
    | Val v => exists v', mid o e' = Val v' /\ stands v v'
    | Trap => mid o e' = Trap
    | Stuck => True
    end.
  Proof.
    intros H. destruct o; cbn [list_eval mid native_eval]; auto.
    - exists Null. split; [reflexivity|constructor].
    - destruct (e e0) as [v|] eqn:E1; [|exact I]. destruct (e t) as [w|] eqn:E2; [|exact I].
      destruct w as [|ty' l| |]; auto. destruct (Nat.eqb_spec ty ty') as [<-|]; auto.
      destruct (estands_some _ _ _ _ H E1) as (v' & F1 & S1). destruct (estands_some _ _ _ _ H E2) as (w' & F2 & S2).
      cbn [vals]. rewrite F1, F2. inversion S2; subst; (eexists; split; [reflexivity|]); constructor; auto.
    - destruct (e l) as [w|] eqn:E; [|exact I]. destruct w as [|ty' l'| |]; auto.
      destruct (estands_some _ _ _ _ H E) as (w' & F & S). rewrite F. inversion S; subst; (eexists; split; [reflexivity|]); constructor.
    - destruct (e l) as [w|] eqn:E; [|exact I]. destruct w as [|ty' l'| |]; auto.
      destruct (Nat.eqb_spec ty ty') as [<-|]; auto.
      destruct (estands_some _ _ _ _ H E) as (w' & F & S). rewrite F.
      inversion S; subst; [reflexivity|]. rewrite Nat.eqb_refl. eauto.
    - destruct (e l) as [w|] eqn:E; [|exact I]. destruct w as [|ty' l'| |]; auto.
      destruct (Nat.eqb_spec ty ty') as [<-|]; auto.
      destruct (estands_some _ _ _ _ H E) as (w' & F & S). rewrite F.
      inversion S; subst; [reflexivity|]. rewrite Nat.eqb_refl. eauto.
    - unfold num_op. destruct (vals e args) as [vs|] eqn:E; [|exact I]. destruct (nums vs) as [zs|] eqn:N; [|exact I].
      destruct (estands_vals _ _ _ _ H E) as (vs' & -> & F). rewrite (nums_stands _ _ F _ N). eexists. split; [reflexivity|constructor].
  Qed.

  Inductive fstands : frame -> frame -> Prop :=
  | FsCall r bs ops t e e' : estands e e' -> fstands (FCall r bs ops t e) (FCall r bs ops t e')
  | FsIf r bs ops t : fstands (FIf r bs ops t) (FIf r bs ops t).
  Inductive sstands : state -> state -> Prop :=
  | Ss bs ops t e e' k k' : estands e e' -> Forall2 fstands k k' -> sstands (St bs ops t e k) (St bs ops t e' k').

  Lemma bind_stands xs : forall e e' vs vs', estands e e' -> Forall2 stands vs vs' ->
    match bind e xs vs with
    | Some e1 => exists e1', bind e' xs vs' = Some e1' /\ estands e1 e1'
    | None => bind e' xs vs' = None
    end.
  Proof.
    induction xs as [|x xs IH]; intros e e' vs vs' H F; inversion F as [|v v' vs0 vs0' S F']; subst; cbn; eauto.
    specialize (IH e e' vs0 vs0' H F'). destruct (bind e xs vs0) as [e1|].
    - destruct IH as (e1' & -> & H1). eexists. split; [reflexivity|]. apply estands_upd; auto.
    - rewrite IH. reflexivity.
  Qed.

  Lemma enter_stands bs b vs vs' e e' k k' : estands e e' -> Forall2 stands vs vs' -> Forall2 fstands k k' ->
    match enter bs b vs e k with
    | Next s => exists s', enter bs b vs' e' k' = Next s' /\ sstands s s'
    | Wrong => True
    | _ => False
    end.
  Proof.
    intros H F K. unfold enter. destruct b as [b|]; [|exact I]. pose proof (bind_stands (b_args b) e e' vs vs' H F) as B.
    destruct (bind e (b_args b) vs) as [e1|]; [|exact I]. destruct B as (e1' & -> & H1). eexists. split; [reflexivity|]. constructor; auto.
  Qed.

  Lemma truth_stands v v' : ostands v v' -> forall b, truth v = Some b -> truth v' = Some b.
  Proof. intros S b E. destruct S as [|v v' S]; [discriminate|]. destruct S; try discriminate. exact E. Qed.

  Lemma once ev m s s1 (P : state -> Prop) : step ev m s = Next s1 -> P s1 -> exists k s2, after ev m (S k) s = Next s2 /\ P s2.
  Proof. intros E H. exists 0, s1. cbn. rewrite E. auto. Qed.

  Ltac from_enter L :=
    match goal with
    | |- match enter ?bs ?b ?vs ?e ?k with _ => _ end => destruct (enter bs b vs e k) as [?s1|?v1| |]
    end; try contradiction; auto; destruct L as (?s1' & L & ?); eapply once; [|eassumption].

  Lemma stage_one m : one_step (list_eval prim) mid m m stands sstands.
  Proof.
    intros s s' [bs ops t e e' k k' H K].
    assert (Tr : forall c b, truth (e c) = Some b -> truth (e' c) = Some b) by (intros c; apply truth_stands, H).
    destruct ops as [|o ops].
    - cbn [step]. destruct t as [b args|c y no|v|v|].
      + destruct (vals e args) as [vs|] eqn:E; [|exact I]. destruct (estands_vals _ _ _ _ H E) as (vs' & E' & F).
        pose proof (enter_stands bs (find_block bs b) vs vs' e e' k k' H F K) as L. from_enter L. cbn [step]. rewrite E'. exact L.
      + destruct (truth (e c)) as [[]|] eqn:E; [| |exact I].
        * pose proof (enter_stands bs (find_block bs y) [] [] e e' k k' H ltac:(constructor) K) as L. from_enter L.
          cbn [step]. rewrite (Tr _ _ E). exact L.
        * pose proof (enter_stands bs (find_block bs no) [] [] e e' k k' H ltac:(constructor) K) as L. from_enter L.
          cbn [step]. rewrite (Tr _ _ E). exact L.
      + destruct (e v) as [w|] eqn:E; [|exact I]. destruct (estands_some _ _ _ _ H E) as (w' & E' & S).
        destruct K as [|f f' k k' Fs K].
        * exists 1, w'. split; [|exact S]. cbn [after step]. rewrite E'. reflexivity.
        * destruct Fs as [r bs1 ops1 t1 e1 e1' H1|]; [|exact I]. eapply once; [cbn [step]; rewrite E'; reflexivity|].
          constructor; [apply estands_upd; auto|auto].
      + destruct (e v) as [w|] eqn:E; [|exact I]. destruct (estands_some _ _ _ _ H E) as (w' & E' & S).
        destruct K as [|f f' k k' Fs K]; [exact I|]. destruct Fs as [|r bs1 ops1 t1]; [exact I|].
        eapply once; [cbn [step]; rewrite E'; reflexivity|]. constructor; [apply estands_upd; auto|auto].
      + exists 1. reflexivity.
    - assert (D : match o with OCall _ _ _ | OIf _ _ _ _ => False | _ => True end \/ match o with OCall _ _ _ | OIf _ _ _ _ => True | _ => False end)
        by (destruct o; auto).
      destruct D as [D|D].
      + assert (Q : forall ev e k, step ev m (St bs (o :: ops) t e k) =
           match ev o e with Val v => Next (St bs ops t (upd e (result o) v) k) | Trap => Stopped | Stuck => Wrong end)
          by (intros; destruct o; try contradiction; reflexivity).
        rewrite Q. pose proof (eval_stands o e e' H) as L. destruct (list_eval prim o e) as [v| |]; [| |exact I].
        * destruct L as (v' & L & S). eapply once; [rewrite Q, L; reflexivity|]. constructor; [apply estands_upd; auto|auto].
        * exists 1. cbn [after]. rewrite Q, L. reflexivity.
      + destruct o; try contradiction.
        * cbn [step]. destruct (nth_error m f) as [g|] eqn:Eg; [|exact I]. destruct (vals e args) as [vs|] eqn:E; [|exact I].
          destruct (estands_vals _ _ _ _ H E) as (vs' & E' & F).
          pose proof (enter_stands g (hd_error g) vs vs' (fun _ => None) (fun _ => None) (FCall r bs ops t e :: k) (FCall r bs ops t e' :: k')
             ltac:(intros x; constructor) F ltac:(constructor; [constructor; exact H|exact K])) as L.
          from_enter L. cbn [step]. rewrite Eg, E'. exact L.
        * cbn [step]. destruct (truth (e c)) as [[]|] eqn:E; [| |exact I].
          -- pose proof (enter_stands yes (hd_error yes) [] [] e e' (FIf r bs ops t :: k) (FIf r bs ops t :: k') H ltac:(constructor)
               ltac:(constructor; [constructor|exact K])) as L. from_enter L. cbn [step]. rewrite (Tr _ _ E). exact L.
          -- pose proof (enter_stands no (hd_error no) [] [] e e' (FIf r bs ops t :: k) (FIf r bs ops t :: k') H ltac:(constructor)
               ltac:(constructor; [constructor|exact K])) as L. from_enter L. cbn [step]. rewrite (Tr _ _ E). exact L.
  Qed.

  Lemma refines_one m : refines (list_eval prim) mid m m stands.
  Proof.
    apply (refine _ _ _ _ _ sstands (stage_one m)). intros f vs vs' F. unfold start. destruct (nth_error m f) as [g|]; [|exact I].
    apply enter_stands; auto. intros x; constructor.
  Qed.

  (** ** The patterns *)

  Definition clean (o : op) : Prop := forall o', In o' (walk (rewrite_op o)) -> is_list_op o' = false.
  Definition clean_block (b : block) : Prop := forall o, In o (b_ops b) -> clean o.
  Definition clean_blocks (bs : list block) : Prop := forall b, In b bs -> clean_block b.

  Lemma clean_eval o e : clean o -> match o with OCall _ _ _ | OIf _ _ _ _ => False | _ => True end -> native_eval prim (rewrite_op o) e = mid o e.
  Proof.
    intros C D. destruct o; try contradiction; try reflexivity.
    - specialize (C _ (or_introl eq_refl)). discriminate.
    - specialize (C _ (or_introl eq_refl)). discriminate.
  Qed.

  Lemma clean_if r c yes no : clean (OIf r c yes no) -> clean_blocks yes /\ clean_blocks no.
  Proof.
    intros C. split; intros b Ib o Io o' I'; apply C; cbn [rewrite_op walk]; right; apply in_app_iff; [left|right];
      apply in_flat_map; exists (rewrite_block b); (split; [apply in_map_iff; exists b; auto|]); apply in_flat_map; exists (rewrite_op o);
      (split; [apply in_map_iff; exists o; auto|exact I']).
  Qed.

  Inductive fclean : frame -> frame -> Prop :=
  | FcCall r bs ops t e : clean_blocks bs -> Forall clean ops -> fclean (FCall r bs ops t e) (FCall r (List.map rewrite_block bs) (List.map rewrite_op ops) t e)
  | FcIf r bs ops t : clean_blocks bs -> Forall clean ops -> fclean (FIf r bs ops t) (FIf r (List.map rewrite_block bs) (List.map rewrite_op ops) t).
  Inductive sclean : state -> state -> Prop :=
  | Sc bs ops t e k k' : clean_blocks bs -> Forall clean ops -> Forall2 fclean k k' ->
      sclean (St bs ops t e k) (St (List.map rewrite_block bs) (List.map rewrite_op ops) t e k').

  Lemma find_rewrite bs i : find_block (List.map rewrite_block bs) i = option_map rewrite_block (find_block bs i).
  Proof. induction bs as [|b bs IH]; cbn; [reflexivity|]. destruct (b_id b =? i); auto. Qed.
  Lemma hd_rewrite bs : hd_error (List.map rewrite_block bs) = option_map rewrite_block (hd_error bs).
  Proof. destruct bs; reflexivity. Qed.
  Lemma nth_rewrite (m : module) f : @nth_error func (rewrite_module m) f = option_map (fun g : func => List.map rewrite_block g : func) (@nth_error func m f).
  Proof. apply nth_error_map. Qed.
  Lemma find_in bs i b : find_block bs i = Some b -> In b bs.
  Proof. induction bs as [|b0 bs IH]; cbn; [discriminate|]. destruct (b_id b0 =? i); [intros E; injection E as ->; auto|auto]. Qed.
  Lemma hd_in {A} (l : list A) x : hd_error l = Some x -> In x l.
  Proof. destruct l; cbn; [discriminate|]. intros E. injection E as ->. auto. Qed.

  Lemma enter_clean bs b vs e k k' : clean_blocks bs -> (forall x, b = Some x -> In x bs) -> Forall2 fclean k k' ->
    match enter bs b vs e k with
    | Next s => exists s', enter (List.map rewrite_block bs) (option_map rewrite_block b) vs e k' = Next s' /\ sclean s s'
    | Wrong => True
    | _ => False
    end.
  Proof.
    intros C J K. unfold enter. destruct b as [b|]; [|exact I]. cbn [option_map rewrite_block b_args b_ops b_term].
    destruct (bind e (b_args b) vs) as [e1|]; [|exact I]. eexists. split; [reflexivity|]. constructor; auto.
    apply Forall_forall. apply C. auto.
  Qed.

  Lemma stage_three (m : module) : (forall g, In g m -> clean_blocks g) -> one_step mid (native_eval prim) m (rewrite_module m) eq sclean.
  Proof.
    intros Cm s s' [bs ops t e k k' Cb Co K].
    destruct ops as [|o ops].
    - cbn [step List.map]. destruct t as [b args|c y no|v|v|].
      + destruct (vals e args) as [vs|] eqn:E; [|exact I].
        pose proof (enter_clean bs (find_block bs b) vs e k k' Cb (find_in bs b) K) as L. from_enter L. cbn [step]. rewrite E, find_rewrite. exact L.
      + destruct (truth (e c)) as [[]|] eqn:E; [| |exact I].
        * pose proof (enter_clean bs (find_block bs y) [] e k k' Cb (find_in bs y) K) as L. from_enter L. cbn [step]. rewrite E, find_rewrite. exact L.
        * pose proof (enter_clean bs (find_block bs no) [] e k k' Cb (find_in bs no) K) as L. from_enter L. cbn [step]. rewrite E, find_rewrite. exact L.
      + destruct (e v) as [w|] eqn:E; [|exact I]. destruct K as [|f f' k k' Fs K].
        * exists 1, w. split; [|reflexivity]. cbn [after step]. rewrite E. reflexivity.
        * destruct Fs as [r bs1 ops1 t1 e1 C1 C2|]; [|exact I]. eapply once; [cbn [step]; rewrite E; reflexivity|]. constructor; auto.
      + destruct (e v) as [w|] eqn:E; [|exact I]. destruct K as [|f f' k k' Fs K]; [exact I|].
        destruct Fs as [|r bs1 ops1 t1 C1 C2]; [exact I|]. eapply once; [cbn [step]; rewrite E; reflexivity|]. constructor; auto.
      + exists 1. reflexivity.
    - inversion Co as [|? ? C1 C2]; subst.
      assert (D : match o with OCall _ _ _ | OIf _ _ _ _ => False | _ => True end \/ match o with OCall _ _ _ | OIf _ _ _ _ => True | _ => False end)
        by (destruct o; auto).
      destruct D as [D|D].
      + assert (Q : forall ev m bs o ops e k, match o with OCall _ _ _ | OIf _ _ _ _ => False | _ => True end -> step ev m (St bs (o :: ops) t e k) =
           match ev o e with Val v => Next (St bs ops t (upd e (result o) v) k) | Trap => Stopped | Stuck => Wrong end)
          by (intros ev0 m0 bs0 o0; intros; destruct o0; try contradiction; reflexivity).
        assert (D' : match rewrite_op o with OCall _ _ _ | OIf _ _ _ _ => False | _ => True end) by (destruct o; try contradiction; exact I).
        assert (Rs : result (rewrite_op o) = result o) by (destruct o; reflexivity).
        cbn [List.map]. rewrite Q by exact D. pose proof (clean_eval o e C1 D) as L. rewrite <- L. destruct (native_eval prim (rewrite_op o) e) as [v| |] eqn:Ev; [| |exact I].
        * eapply once; [rewrite Q, Ev by exact D'; reflexivity|]. rewrite Rs. constructor; auto.
        * exists 1. cbn [after]. rewrite Q by exact D'. rewrite Ev. reflexivity.
      + destruct o; try contradiction.
        * cbn [step List.map rewrite_op]. destruct (nth_error m f) as [g|] eqn:Eg; [|exact I]. destruct (vals e args) as [vs|] eqn:E; [|exact I].
          pose proof (enter_clean g (hd_error g) vs (fun _ => None) (FCall r bs ops t e :: k) (FCall r (List.map rewrite_block bs) (List.map rewrite_op ops) t e :: k')
             ltac:(apply Cm; eapply nth_error_In, Eg) (hd_in g) ltac:(constructor; [constructor; auto|exact K])) as L.
          from_enter L. cbn [step]. rewrite nth_rewrite, Eg, E. cbn [option_map]. rewrite hd_rewrite. exact L.
        * destruct (clean_if _ _ _ _ C1) as [Cy Cn]. cbn [step List.map rewrite_op]. destruct (truth (e c)) as [[]|] eqn:E; [| |exact I].
          -- pose proof (enter_clean yes (hd_error yes) [] e (FIf r bs ops t :: k) (FIf r (List.map rewrite_block bs) (List.map rewrite_op ops) t :: k') Cy (hd_in yes)
               ltac:(constructor; [constructor; auto|exact K])) as L. from_enter L. cbn [step]. rewrite E. rewrite <- hd_rewrite in L. exact L.
          -- pose proof (enter_clean no (hd_error no) [] e (FIf r bs ops t :: k) (FIf r (List.map rewrite_block bs) (List.map rewrite_op ops) t :: k') Cn (hd_in no)
               ltac:(constructor; [constructor; auto|exact K])) as L. from_enter L. cbn [step]. rewrite E. rewrite <- hd_rewrite in L. exact L.
  Qed.

  Lemma refines_three (m : module) : (forall g, In g m -> clean_blocks g) -> refines mid (native_eval prim) m (rewrite_module m) eq.
  Proof.
    intros C. apply (refine _ _ _ _ _ sclean (stage_three m C)). intros f vs vs' F. apply Forall2_eq in F as <-. unfold start.
    rewrite nth_rewrite. destruct (nth_error m f) as [g|] eqn:Eg; [|exact I]. cbn [option_map]. rewrite hd_rewrite. apply enter_clean; auto.
    - apply C. eapply nth_error_In, Eg.
    - apply hd_in.
  Qed.

  Lemma lower_clean (m : module) : existsb is_list_op (walk_module (rewrite_module m)) = false -> forall g, In g m -> clean_blocks g.
  Proof.
    intros E g Ig b Ib o Io o' I'. destruct (is_list_op o') eqn:L; [|reflexivity]. exfalso.
    enough (X : existsb is_list_op (walk_module (rewrite_module m)) = true) by congruence.
    apply existsb_exists. exists o'. split; [|exact L]. unfold walk_module, rewrite_module, walk_blocks.
    apply in_flat_map. exists (List.map rewrite_block g). split; [apply in_map_iff; exists g; auto|].
    apply in_flat_map. exists (rewrite_block b). split; [apply in_map_iff; exists b; auto|].
    apply in_flat_map. exists (rewrite_op o). split; [|exact I']. cbn. apply in_map_iff. exists o. auto.
  Qed.
End Mid.
