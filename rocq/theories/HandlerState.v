(** [run_state] on the native target: lemmas. *)
From Verif Require Import Base HandlerModel HandlerSpec HandlerProofs.
Import ListNotations.

Section State.
Variables (l0 : list cmd) (d0 : dexp) (z0 : Z).
Let P := state_program l0 d0 z0.
Notation go := (star P false).

Definition the_handler : handler := match f_body run_state with EHandle _ h => h | _ => Handler None [] end.

Definition zrel : list (nat * Z) -> list (nat * tval) -> Prop := Forall2 (fun p q => fst p = fst q /\ snd q = TInt (snd p)).

Lemma z_get_rel vars tv x z : zrel vars tv -> z_get vars x = Some z -> t_get tv x = Some (TInt z).
Proof.
  induction 1 as [|[y a] [y' b] vars tv [A B] _ IH]; cbn in *; intros H; [discriminate|]. subst.
  destruct (Nat.eq_dec x y'); [subst; rewrite Nat.eqb_refl; now inv H|]. apply Nat.eqb_neq in n. rewrite n. auto.
Qed.

Lemma z_eval_rel vars env d : zrel vars (t_vars env) -> forall z, z_eval vars d = Some z -> t_eval env d = Some (TInt z).
Proof.
  intros R. induction d; cbn; intros w H; try discriminate.
  - now inv H.
  - eapply z_get_rel; eauto.
  - destruct (z_eval vars d1); [|discriminate]. destruct (z_eval vars d2); [|discriminate]. inv H.
    now rewrite (IHd1 _ eq_refl), (IHd2 _ eq_refl).
  - destruct (z_eval vars d1); [|discriminate]. destruct (z_eval vars d2); [|discriminate]. inv H.
    now rewrite (IHd1 _ eq_refl), (IHd2 _ eq_refl).
Qed.

(** The native stack returns the value of the computation, however it ends. *)
Definition returns (N : list nframe) (o : nat) : Prop :=
  forall c v, go (c, TAnswer (ANormal v) N) (c, TAnswer (AVal v) []) /\ go (c, TAnswer (AEscape o v) N) (c, TAnswer (AVal v) []).

Lemma returns_first n env evp evx dom : returns [NHandle n the_handler env evp evx dom KIdent] n.
Proof.
  intros c v. split.
  - exists 5. reflexivity.
  - exists 2. cbn. rewrite Nat.eqb_refl. reflexivity.
Qed.

Lemma returns_next n o env evp evx dom ev N : returns N o ->
  returns (NResume o ev KNormal :: NHandle n the_handler env evp evx dom (KEscape o) :: N) n.
Proof.
  intros H c v. destruct (H c v) as [_ A]. split.
  - eapply star_trans; [|exact A]. exists 8. reflexivity.
  - eapply star_trans; [|exact A]. exists 3. cbn. rewrite Nat.eqb_refl. reflexivity.
Qed.

(** Where the computation runs: the evidence gives the current handler, whose environment has the current state. *)
Definition holds (ev : evidence) (o : nat) (s : Z) : Prop :=
  exists r, ev_lookup ev 0 = Some r /\ m_owner r = o /\ m_handler r = the_handler /\ t_get (t_vars (m_env r)) 1 = Some (TInt s).

(** Entering [run_state] within an arm and resuming. *)
Lemma resumed n s w kc o ev N d vars :
  t_eval (TEnv vars (Some kc) (Some o)) d = Some w ->
  exists ev' env', holds ev' n s /\ (forall k,
    go (n, TComp Ambient (f_body run_state) (TEnv [(1, TInt s); (0, TLam [] (EResume d) (TEnv vars (Some kc) (Some o)))] None None) ev ev k N)
       (S n, TInvoke kc w ev' (NResume o ev' KNormal :: NHandle n the_handler env' ev ev' Ambient k :: N))).
Proof.
  intros E. set (env' := TEnv [(1, TInt s); (0, TLam [] (EResume d) (TEnv vars (Some kc) (Some o)))] None None).
  exists (ev_extend (h_arms the_handler) (MkMarker n the_handler env') ev), env'. split.
  - exists (MkMarker n the_handler env'). repeat split.
  - intros k. exists 3. cbn -[t_eval]. rewrite E. reflexivity.
Qed.

Lemma commands_run l : forall vars tv s d z n o r ow ev N,
  zrel vars tv -> holds ev o s -> returns N o -> state_run vars s l d = Some z ->
  exists c, go (n, TComp Ambient (commands l d) (TEnv tv r ow) ev ev KNormal N) (c, TAnswer (AVal (TInt z)) []).
Proof.
  induction l as [|[x|x e] l IH]; intros vars tv s d z n o r ow ev N ZR HO RE H; cbn in H.
  - exists n. eapply star_trans; [|apply (proj1 (RE n (TInt z)))].
    pose proof (z_eval_rel vars (TEnv tv r ow) d ZR z H) as E. exists 4. cbn -[t_eval]. rewrite E. reflexivity.
  - destruct HO as (m & L & <- & HM & HS).
    set (kc := KBind x (commands l d) (TEnv tv r ow) Ambient KNormal).
    destruct (resumed n s (TInt s) kc (m_owner m) ev N (DVar 1) ((2, TInt 0) :: t_vars (m_env m))) as (ev' & env' & HO' & G).
    { exact HS. }
    destruct (IH ((x, s) :: vars) ((x, TInt s) :: tv) s d z (S n) n r ow ev'
                (NResume (m_owner m) ev' KNormal :: NHandle n the_handler env' ev ev' Ambient (KEscape (m_owner m)) :: N)) as (c & C); auto.
    { constructor; [split; reflexivity|exact ZR]. } { now apply returns_next. }
    exists c. eapply star_trans; [|eapply star_trans; [exact (G (KEscape (m_owner m)))|eapply star_trans; [|exact C]]].
    + exists 3. cbn. rewrite L, HM. cbn. rewrite HS. reflexivity.
    + exists 1. reflexivity.
  - destruct (z_eval vars e) as [w|] eqn:E; [|discriminate].
    pose proof (z_eval_rel vars (TEnv tv r ow) e ZR w E) as EV.
    destruct HO as (m & L & <- & HM & HS).
    set (kc := KBind x (commands l d) (TEnv tv r ow) Ambient KNormal).
    destruct (resumed n w (TInt 0) kc (m_owner m) ev N (DInt 0) ((2, TInt w) :: t_vars (m_env m))) as (ev' & env' & HO' & G).
    { reflexivity. }
    destruct (IH ((x, 0%Z) :: vars) ((x, TInt 0) :: tv) w d z (S n) n r ow ev'
                (NResume (m_owner m) ev' KNormal :: NHandle n the_handler env' ev ev' Ambient (KEscape (m_owner m)) :: N)) as (c & C); auto.
    { constructor; [split; reflexivity|exact ZR]. } { now apply returns_next. }
    exists c. eapply star_trans; [|eapply star_trans; [exact (G (KEscape (m_owner m)))|eapply star_trans; [|exact C]]].
    + exists 3. cbn -[t_eval]. rewrite EV, L, HM. reflexivity.
    + exists 1. reflexivity.
Qed.

Lemma state_program_runs z : state_run [] z0 l0 d0 = Some z ->
  exists n c, trun P false n (tstart P) = Some (c, TAnswer (AVal (TInt z)) []).
Proof.
  intros H.
  set (env := TEnv [(1, TInt z0); (0, TLam [] (commands l0 d0) (TEnv [] None None))] None None).
  set (ev := ev_extend (h_arms the_handler) (MkMarker 0 the_handler env) []).
  destruct (commands_run l0 [] [] z0 d0 z 1 0 None None ev [NHandle 0 the_handler env [] ev Ambient KIdent]) as (c & m & A); auto.
  - constructor.
  - exists (MkMarker 0 the_handler env). repeat split.
  - apply returns_first.
  - exists (3 + m), c. erewrite (trun_app P false 3 m); [exact A|reflexivity].
Qed.

End State.
