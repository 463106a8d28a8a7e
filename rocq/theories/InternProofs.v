From Verif Require Import Base InternModel InternSpec.

Section MapLaws.
Context {K V : Type} (eqb : K -> K -> bool) (Heq : decides_eq eqb).

Lemma eqb_refl' k : eqb k k = true.
Proof. apply Heq. reflexivity. Qed.
Lemma eqb_neq k k' : k <> k' -> eqb k k' = false.
Proof. intros H. destruct (eqb k k') eqn:E; [apply Heq in E; contradiction | reflexivity]. Qed.

Lemma mget_remove_same (m : list (K * V)) k : mget eqb (mremove eqb m k) k = None.
Proof.
  induction m as [|[k' v] m IH]; [reflexivity|]. cbn [mremove filter fst]. destruct (eqb k k') eqn:E; cbn [negb]; [exact IH|].
  cbn [mget]. rewrite E. exact IH.
Qed.
Lemma mget_remove_other (m : list (K * V)) k k' : k <> k' -> mget eqb (mremove eqb m k) k' = mget eqb m k'.
Proof.
  intros Hne. induction m as [|[q v] m IH]; [reflexivity|]. cbn [mremove filter fst].
  destruct (eqb k q) eqn:E; cbn [negb].
  - apply Heq in E. subst q. cbn [mget]. rewrite (eqb_neq k' k) by congruence. exact IH.
  - cbn [mget]. destruct (eqb k' q); [reflexivity | exact IH].
Qed.
Lemma mget_insert_same (m : list (K * V)) k v : mget eqb (minsert eqb m k v) k = Some v.
Proof. cbn [minsert mget]. rewrite eqb_refl'. reflexivity. Qed.
Lemma mget_insert_other (m : list (K * V)) k v k' : k <> k' -> mget eqb (minsert eqb m k v) k' = mget eqb m k'.
Proof. intros H. cbn [minsert mget]. rewrite (eqb_neq k' k) by congruence. apply mget_remove_other, H. Qed.
End MapLaws.

Section Intern.
Context {K : Type} (eqb : K -> K -> bool) (Heq : decides_eq eqb).

(** dedup is exactly the inverse of items *)
Definition ok (s : interner K) : Prop := forall k r, mget eqb (dedup s) k = Some r <-> nth_error (items s) r = Some k.

Lemma ok_new : ok (new_interner K).
Proof. intros k r. cbn. destruct r; split; discriminate. Qed.

Lemma ok_push s k : ok s -> mget eqb (dedup s) k = None ->
  ok {| items := items s ++ [k]; dedup := minsert eqb (dedup s) k (length (items s)) |}.
Proof.
  intros Hs Hm k' r. cbn [items dedup]. destruct (eqb k k') eqn:E.
  - apply Heq in E. subst k'. rewrite mget_insert_same by assumption. split.
    + intros H. injection H as <-. rewrite nth_error_app2, Nat.sub_diag by lia. reflexivity.
    + intros H. destruct (Nat.lt_ge_cases r (length (items s))) as [Hl|Hl].
      * rewrite nth_error_app1 in H by exact Hl. apply Hs in H. congruence.
      * rewrite nth_error_app2 in H by exact Hl. destruct (r - length (items s)) as [|q] eqn:Er; [f_equal; lia|].
        destruct q; discriminate.
  - assert (Hne : k <> k') by (intros ->; rewrite (proj2 (Heq k' k') eq_refl) in E; discriminate).
    rewrite mget_insert_other by assumption. rewrite (Hs k' r). split; intros H.
    + rewrite nth_error_app1; [exact H|]. apply nth_error_Some. congruence.
    + destruct (Nat.lt_ge_cases r (length (items s))) as [Hl|Hl].
      * rewrite nth_error_app1 in H by exact Hl. exact H.
      * rewrite nth_error_app2 in H by exact Hl. destruct (r - length (items s)) as [|q]; [cbn in H; congruence|]. destruct q; discriminate.
Qed.

Definition extends (s s' : interner K) := exists l, items s' = items s ++ l.
Lemma extends_refl s : extends s s. Proof. exists []. symmetry; apply app_nil_r. Qed.
Lemma extends_trans a b c : extends a b -> extends b c -> extends a c.
Proof. intros [l Hl] [m Hm]. exists (l ++ m). rewrite Hm, Hl, app_assoc. reflexivity. Qed.
Lemma extends_get s s' r k : extends s s' -> get s r = Some k -> get s' r = Some k.
Proof. intros [l Hl] H. unfold get in *. rewrite Hl, nth_error_app1; [exact H|]. apply nth_error_Some. congruence. Qed.

Lemma intern_ok s k s' r : ok s -> intern eqb s k = (s', r) -> ok s' /\ get s' r = Some k /\ extends s s'.
Proof.
  intros Hs. unfold intern. destruct (mget eqb (dedup s) k) as [q|] eqn:E; intros H; injection H as <- <-.
  - split; [exact Hs|]. split; [apply Hs; exact E | apply extends_refl].
  - split; [apply ok_push; assumption|]. split.
    + unfold get. cbn [items]. rewrite nth_error_app2, Nat.sub_diag by lia. reflexivity.
    + exists [k]. reflexivity.
Qed.

Lemma intern_all_ok ks : forall s s' hs, ok s -> intern_all eqb s ks = (s', hs) ->
  ok s' /\ extends s s' /\ Forall2 (fun k h => get s' h = Some k) ks hs.
Proof.
  induction ks as [|k ks IH]; intros s s' hs Hs H; cbn [intern_all] in H.
  - injection H as <- <-. split; [exact Hs|]. split; [apply extends_refl | constructor].
  - destruct (intern eqb s k) as [s1 h] eqn:E1. destruct (intern_all eqb s1 ks) as [s2 hs2] eqn:E2. injection H as <- <-.
    destruct (intern_ok _ _ _ _ Hs E1) as (A & B & C). destruct (IH _ _ _ A E2) as (D & E & F).
    split; [exact D|]. split; [eapply extends_trans; eassumption|]. constructor; [eapply extends_get; eassumption | exact F].
Qed.

Lemma intern_history_lemma ks s hs : intern_all eqb (new_interner K) ks = (s, hs) ->
  Forall2 (fun k h => get s h = Some k) ks hs /\
  (forall i j ki kj hi hj, nth_error ks i = Some ki -> nth_error ks j = Some kj ->
     nth_error hs i = Some hi -> nth_error hs j = Some hj -> (hi = hj <-> ki = kj)) /\
  (forall k h, lookup eqb s k = Some h <-> exists i, nth_error ks i = Some k /\ nth_error hs i = Some h) /\
  (forall more s' hs', intern_all eqb s more = (s', hs') -> forall r k, get s r = Some k -> get s' r = Some k).
Proof.
  intros H. destruct (intern_all_ok _ _ _ _ ok_new H) as (A & _ & F).
  assert (P : forall i k h, nth_error ks i = Some k -> nth_error hs i = Some h -> get s h = Some k).
  { clear -F. induction F as [|k h ks hs H F IH]; intros [|i] k' h' Hk Hh; try discriminate; cbn in *.
    - congruence.
    - eapply IH; eassumption. }
  split; [exact F|]. split; [|split].
  - intros i j ki kj hi hj Hi Hj Hhi Hhj. pose proof (P _ _ _ Hi Hhi) as Pi. pose proof (P _ _ _ Hj Hhj) as Pj. split.
    + intros ->. congruence.
    + intros ->. apply A in Pi, Pj. congruence.
  - intros k h. unfold lookup. split.
    + intros Hl. apply A in Hl.
      assert (G : forall ks0 s0 s1 hs0, ok s0 -> intern_all eqb s0 ks0 = (s1, hs0) ->
         nth_error (items s1) h = Some k -> nth_error (items s0) h = Some k \/ exists i, nth_error ks0 i = Some k /\ nth_error hs0 i = Some h).
      { clear -Heq. induction ks0 as [|q ks0 IH]; intros s0 s1 hs0 Hok Hi Hn; cbn [intern_all] in Hi.
        - injection Hi as <- <-. left; exact Hn.
        - destruct (intern eqb s0 q) as [s2 g] eqn:E1. destruct (intern_all eqb s2 ks0) as [s3 hs3] eqn:E2. injection Hi as <- <-.
          destruct (intern_ok _ _ _ _ Hok E1) as (A & B & C). destruct (IH _ _ _ A E2 Hn) as [Hl|[i Hi]].
          + unfold intern in E1. destruct (mget eqb (dedup s0) q) as [x|] eqn:Eq; injection E1 as <- <-; [left; exact Hl|].
            cbn [items] in Hl. destruct (Nat.lt_ge_cases h (length (items s0))) as [Hlt|Hge].
            * rewrite nth_error_app1 in Hl by exact Hlt. left; exact Hl.
            * right. exists 0. rewrite nth_error_app2 in Hl by exact Hge.
              destruct (h - length (items s0)) as [|d] eqn:Ed; [|destruct d; discriminate]. cbn in Hl. injection Hl as ->.
              cbn. split; [reflexivity|]. f_equal. lia.
          + right. exists (S i). exact Hi. }
      destruct (G ks (new_interner K) s hs ok_new H Hl) as [Hn|Hex]; [destruct h; discriminate | exact Hex].
    + intros [i [Hk Hh]]. apply A. eapply P; eassumption.
  - intros more s' hs' Hm r k Hg. destruct (intern_all_ok _ _ _ _ A Hm) as (_ & E & _). eapply extends_get; eassumption.
Qed.

(** ** Threads *)
Lemma set_nth_In {A} i (x y : A) l : In y (set_nth i x l) -> y = x \/ In y l.
Proof.
  unfold set_nth. intros H. apply in_app_or in H. destruct H as [H|[H|H]].
  - right. rewrite <- (firstn_skipn i l). apply in_or_app; left; exact H.
  - left; congruence.
  - right. rewrite <- (firstn_skipn (S i) l). apply in_or_app; right; exact H.
Qed.
Lemma nth_set_nth {A} i (x : A) l j : i < length l -> nth_error (set_nth i x l) j = if Nat.eqb j i then Some x else nth_error l j.
Proof.
  intros Hi. unfold set_nth. destruct (Nat.eqb_spec j i) as [E|Hne].
  - subst j. rewrite nth_error_app2; rewrite firstn_length; [|lia]. replace (i - Nat.min i (length l)) with 0 by lia. reflexivity.
  - destruct (Nat.lt_ge_cases j i) as [Hl|Hg].
    + rewrite nth_error_app1 by (rewrite firstn_length; lia). apply nth_error_firstn; exact Hl.
    + rewrite nth_error_app2 by (rewrite firstn_length; lia). rewrite firstn_length.
      replace (j - Nat.min i (length l)) with (S (j - S i)) by lia. cbn [nth_error].
      rewrite nth_error_skipn. f_equal. lia.
Qed.

Definition wok (w : world K) : Prop :=
  ok (table w) /\
  (forall k h, handed_out w k h -> get (table w) h = Some k) /\
  (forall i t, nth_error (threads w) i = Some t ->
     match ph t with
     | Idle => holder w <> Some i
     | Locked => holder w = Some i
     | Missed => holder w = Some i /\ match todo t with k :: _ => lookup eqb (table w) k = None | [] => True end
     | Found h => holder w = Some i /\ match todo t with k :: _ => get (table w) h = Some k | [] => True end
     end).

Lemma start_wok ps : wok (start ps).
Proof.
  split; [apply ok_new|]. split.
  - intros k h [t [Ht Hr]]. cbn [start threads] in Ht. apply in_map_iff in Ht. destruct Ht as [p [<- _]]. contradiction.
  - intros i t Ht. cbn [start threads] in Ht. apply nth_error_In, in_map_iff in Ht. destruct Ht as [p [<- _]].
    cbn. discriminate.
Qed.

Lemma step_wok w i : wok w -> wok (step eqb w i).
Proof.
  intros Hw. pose proof Hw as (A & B & C). unfold step. destruct (nth_error (threads w) i) as [t|] eqn:Et; [|exact Hw].
  assert (Hi : i < length (threads w)) by (apply nth_error_Some; congruence).
  pose proof (C i t Et) as Ci. pose proof (nth_error_In _ _ Et) as Hin.
  destruct (todo t) as [|k rest] eqn:Eto; [exact Hw|].
  assert (Others : forall j u, j <> i -> nth_error (threads w) j = Some u -> holder w = Some i -> ph u = Idle).
  { intros j u Hj Hu Hh. pose proof (C j u Hu) as Cj. destruct (ph u); [reflexivity|..]; exfalso; apply Hj;
      [|destruct Cj as [Cj _]|destruct Cj as [Cj _]]; congruence. }
  assert (HO : forall tb' h' t' k0 h0, results t' = results t -> handed_out {| table := tb'; holder := h'; threads := set_nth i t' (threads w) |} k0 h0 -> handed_out w k0 h0).
  { intros tb' h' t' k0 h0 Hr [u [Hu Hk]]. cbn [threads] in Hu. apply set_nth_In in Hu. destruct Hu as [->|Hu].
    - exists t. rewrite Hr in Hk. auto.
    - exists u. auto. }
  destruct (ph t) as [| | |h0] eqn:Eph.
  - destruct (holder w) as [hh|] eqn:Eh; [exact Hw|].
    split; [exact A|]. split; [intros k0 h0 H; apply B; eapply HO; [|exact H]; reflexivity|].
    cbn [threads holder table]. intros j u Hu. rewrite nth_set_nth in Hu by exact Hi.
    destruct (Nat.eqb_spec j i) as [->|Hj].
    + injection Hu as <-. reflexivity.
    + pose proof (C j u Hu) as Cj. destruct (ph u); [congruence|discriminate|destruct Cj; discriminate|destruct Cj; discriminate].
  - split; [exact A|]. split; [intros k0 h0 H; apply B; eapply HO; [|exact H]; reflexivity|].
    cbn [threads holder table]. intros j u Hu. rewrite nth_set_nth in Hu by exact Hi.
    destruct (Nat.eqb_spec j i) as [->|Hj].
    + injection Hu as <-. cbn [ph todo]. destruct (lookup eqb (table w) k) as [h|] eqn:El.
      * split; [exact Ci|]. apply A. exact El.
      * split; [exact Ci|]. reflexivity.
    + rewrite (Others j u Hj Hu Ci). congruence.
  - destruct Ci as [Ch Cl].
    assert (A' : ok {| items := items (table w) ++ [k]; dedup := minsert eqb (dedup (table w)) k (length (items (table w))) |}) by (apply ok_push; assumption).
    split; [exact A'|]. cbn [table holder threads]. split.
    + intros k0 h0 H. apply HO in H; [|reflexivity]. apply B in H. eapply extends_get; [|exact H]. exists [k]. reflexivity.
    + intros j u Hu. rewrite nth_set_nth in Hu by exact Hi. destruct (Nat.eqb_spec j i) as [->|Hj].
      * injection Hu as <-. cbn [ph todo]. split; [exact Ch|]. unfold get. cbn [items].
        rewrite nth_error_app2, Nat.sub_diag by lia. reflexivity.
      * rewrite (Others j u Hj Hu Ch). congruence.
  - destruct Ci as [Ch Cl]. split; [exact A|]. cbn [table holder threads]. split.
    + intros k1 h1 [u [Hu Hk]]. cbn [threads] in Hu. apply set_nth_In in Hu. destruct Hu as [->|Hu].
      * cbn [results] in Hk. destruct Hk as [Hk|Hk]; [injection Hk as <- <-; exact Cl|]. apply B. exists t. auto.
      * apply B. exists u. auto.
    + intros j u Hu. rewrite nth_set_nth in Hu by exact Hi. destruct (Nat.eqb_spec j i) as [->|Hj].
      * injection Hu as <-. cbn [ph]. discriminate.
      * rewrite (Others j u Hj Hu Ch). discriminate.
Qed.

Lemma run_wok sched : forall w, wok w -> wok (run_schedule eqb w sched).
Proof. induction sched as [|i s IH]; intros w H; cbn; [exact H|]. apply IH, step_wok, H. Qed.

Lemma symbol_threads_lemma programs sched k1 h1 k2 h2 :
  let w := run_schedule eqb (start programs) sched in
  handed_out w k1 h1 -> handed_out w k2 h2 -> (h1 = h2 <-> k1 = k2) /\ get (table w) h1 = Some k1.
Proof.
  cbn zeta. intros H1 H2. destruct (run_wok sched _ (start_wok programs)) as (A & B & _).
  pose proof (B _ _ H1) as P1. pose proof (B _ _ H2) as P2. split; [|exact P1]. split.
  - intros ->. congruence.
  - intros ->. apply A in P1, P2. congruence.
Qed.

(** A running thread is never stuck for good: whoever holds the lock can move,
    and if nobody does anyone can. *)
Lemma symbol_progress_lemma programs sched :
  let w := run_schedule eqb (start programs) sched in
  (exists t, In t (threads w) /\ todo t <> []) -> exists i, step eqb w i <> w.
Proof.
  cbn zeta. set (w := run_schedule eqb (start programs) sched). intros [t [Ht Hto]].
  assert (W : wok w) by (apply run_wok, start_wok). 
  assert (Hol : forall i, holder w = Some i -> exists u, nth_error (threads w) i = Some u /\ ph u <> Idle /\ todo u <> []).
  { subst w. clear Ht Hto W t.
    assert (G : forall sched0 w0, wok w0 -> (forall i, holder w0 = Some i -> exists u, nth_error (threads w0) i = Some u /\ ph u <> Idle /\ todo u <> []) ->
       forall i, holder (run_schedule eqb w0 sched0) = Some i -> exists u, nth_error (threads (run_schedule eqb w0 sched0)) i = Some u /\ ph u <> Idle /\ todo u <> []).
    { induction sched0 as [|j s IH]; intros w0 Hw H; cbn; [exact H|]. apply IH; [apply step_wok; exact Hw|]. clear IH.
      intros i Hi. unfold step in *. destruct (nth_error (threads w0) j) as [u|] eqn:Eu; [|exact (H i Hi)].
      assert (Hj : j < length (threads w0)) by (apply nth_error_Some; congruence).
      destruct (todo u) as [|k rest] eqn:Et; [exact (H i Hi)|]. destruct Hw as (_ & _ & C). pose proof (C j u Eu) as Cu.
      destruct (ph u) as [| | |h] eqn:Ep.
      - destruct (holder w0) eqn:Eh; [rewrite <- Eh in *; exact (H i Hi)|]. cbn [holder threads] in *. injection Hi as <-.
        eexists. rewrite nth_set_nth, Nat.eqb_refl by exact Hj. split; [reflexivity|]. cbn. rewrite ?Et. split; discriminate.
      - cbn [holder threads] in *. rewrite Hi in Cu. injection Cu as ->. eexists. rewrite nth_set_nth, Nat.eqb_refl by exact Hj.
        split; [reflexivity|]. cbn. rewrite ?Et. destruct (lookup _ _ _); split; discriminate.
      - destruct Cu as [Cu _]. cbn [holder threads] in *. rewrite Hi in Cu. injection Cu as ->. eexists. rewrite nth_set_nth, Nat.eqb_refl by exact Hj.
        split; [reflexivity|]. cbn. rewrite ?Et. split; discriminate.
      - cbn [holder] in Hi. discriminate. }
    apply G; [apply start_wok | intros i Hi; discriminate]. }
  assert (Ph : forall i u p r tb h', nth_error (threads w) i = Some u -> p <> ph u ->
     {| table := tb; holder := h'; threads := set_nth i {| todo := r; ph := p; results := results u |} (threads w) |} <> w).
  { intros i u p r tb h' Hu Hp E. apply (f_equal threads) in E. cbn [threads] in E.
    assert (Hi : i < length (threads w)) by (apply nth_error_Some; congruence).
    rewrite <- E in Hu. rewrite nth_set_nth, Nat.eqb_refl in Hu by exact Hi. injection Hu as Hu. apply Hp. rewrite <- Hu. reflexivity. }
  destruct (holder w) as [i|] eqn:Eh.
  - destruct (Hol i eq_refl) as (u & Hu & Hp & Ht'). exists i. unfold step. rewrite Hu. destruct (todo u) as [|k rest] eqn:Et; [congruence|].
    destruct (ph u) as [| | |h] eqn:Ep; [congruence|..].
    + apply Ph; [exact Hu|]. rewrite Ep. destruct (lookup _ _ _); discriminate.
    + apply Ph; [exact Hu|]. rewrite Ep. discriminate.
    + intros E. apply (f_equal holder) in E. cbn [holder] in E. congruence.
  - apply In_nth_error in Ht. destruct Ht as [i Hi]. exists i. unfold step. rewrite Hi. destruct (todo t) as [|k rest]; [congruence|].
    destruct W as (_ & _ & C). pose proof (C i t Hi) as Ci. rewrite Eh in *.
    destruct (ph t) as [| | |h] eqn:Ep; [|congruence|destruct Ci; congruence|destruct Ci; congruence].
    apply Ph; [exact Hi|]. congruence.
Qed.

End Intern.

(** ** Aliases *)
Lemma nat_decides : decides_eq Nat.eqb.
Proof. intros a b. apply Nat.eqb_eq. Qed.

Definition sound (s : aliases) := forall n t, type_alias_by_type s t = Some n -> type_alias_by_name s n = Some t.

Lemma register_by_name s n t m : type_alias_by_name (register_type_alias s n t) m = if Nat.eqb n m then Some t else type_alias_by_name s m.
Proof.
  unfold type_alias_by_name, register_type_alias.
  assert (E : mget Nat.eqb (minsert Nat.eqb (by_name s) n t) m = if Nat.eqb n m then Some t else mget Nat.eqb (by_name s) m).
  { destruct (Nat.eqb_spec n m) as [->|H]; [apply mget_insert_same, nat_decides | apply mget_insert_other; [apply nat_decides | exact H]]. }
  destruct (mget Nat.eqb (by_name s) n); exact E.
Qed.

Lemma register_sound s n t : sound s -> sound (register_type_alias s n t).
Proof.
  intros Hs m u Hu. rewrite register_by_name.
  unfold type_alias_by_type, register_type_alias in Hu.
  destruct (mget Nat.eqb (by_name s) n) as [old|] eqn:E; cbn [by_type] in Hu.
  - destruct (Nat.eq_dec t u) as [->|Hne].
    + rewrite mget_insert_same in Hu by apply nat_decides. injection Hu as <-. rewrite Nat.eqb_refl. reflexivity.
    + rewrite mget_insert_other in Hu by (apply nat_decides || exact Hne).
      destruct (Nat.eq_dec old u) as [->|Ho]; [rewrite mget_remove_same in Hu; discriminate|].
      rewrite mget_remove_other in Hu by (apply nat_decides || exact Ho).
      apply Hs in Hu. destruct (Nat.eqb_spec n m) as [->|_]; [|exact Hu].
      unfold type_alias_by_name in Hu. congruence.
  - destruct (Nat.eq_dec t u) as [->|Hne].
    + rewrite mget_insert_same in Hu by apply nat_decides. injection Hu as <-. rewrite Nat.eqb_refl. reflexivity.
    + rewrite mget_insert_other in Hu by (apply nat_decides || exact Hne). apply Hs in Hu.
      destruct (Nat.eqb_spec n m) as [->|_]; [|exact Hu]. unfold type_alias_by_name in Hu. congruence.
Qed.

Lemma register_all_snoc regs r : register_all (regs ++ [r]) = register_type_alias (register_all regs) (fst r) (snd r).
Proof. unfold register_all. rewrite fold_left_app. reflexivity. Qed.

Lemma register_all_ind (P : list (nat * nat) -> aliases -> Prop) :
  P [] no_aliases -> (forall regs n t, P regs (register_all regs) -> P (regs ++ [(n, t)]) (register_type_alias (register_all regs) n t)) ->
  forall regs, P regs (register_all regs).
Proof.
  intros H0 Hs regs. induction regs as [|[n t] regs IH] using rev_ind; [exact H0|].
  rewrite register_all_snoc. cbn [fst snd]. apply Hs, IH.
Qed.

Lemma alias_by_name_lemma regs n : type_alias_by_name (register_all regs) n = last_registration regs n.
Proof.
  revert n. apply (register_all_ind (fun regs s => forall n, type_alias_by_name s n = last_registration regs n)).
  - reflexivity.
  - intros rs n t IH m. rewrite register_by_name. unfold last_registration. rewrite fold_left_app. cbn [fold_left fst snd].
    fold (last_registration rs m). rewrite IH. reflexivity.
Qed.

Lemma alias_sound_lemma regs n t : type_alias_by_type (register_all regs) t = Some n ->
  type_alias_by_name (register_all regs) n = Some t.
Proof.
  revert n t. apply (register_all_ind (fun _ s => sound s)).
  - intros n t H. discriminate.
  - intros rs n t IH. apply register_sound, IH.
Qed.

Lemma last_registration_In regs n t : last_registration regs n = Some t -> In (n, t) regs.
Proof.
  induction regs as [|[m u] regs IH] using rev_ind; [discriminate|]. unfold last_registration. rewrite fold_left_app. cbn [fold_left fst snd].
  fold (last_registration regs n). destruct (Nat.eqb_spec m n) as [->|_]; intros H; apply in_or_app.
  - injection H as ->. right; left; reflexivity.
  - left; apply IH, H.
Qed.

Lemma alias_complete_lemma regs n t : one_name_per_type regs -> type_alias_by_name (register_all regs) n = Some t ->
  type_alias_by_type (register_all regs) t = Some n.
Proof.
  revert n t.
  apply (register_all_ind (fun regs s => forall n t, one_name_per_type regs -> type_alias_by_name s n = Some t -> type_alias_by_type s t = Some n)).
  - intros n t _ H. discriminate.
  - intros rs n t IH m u Ho Hm. rewrite register_by_name in Hm.
    assert (Ho' : one_name_per_type rs) by (intros a b c Ha Hb; apply (Ho a b c); apply in_or_app; left; assumption).
    unfold type_alias_by_type, register_type_alias.
    destruct (Nat.eqb_spec n m) as [->|Hne].
    + injection Hm as ->. destruct (mget Nat.eqb (by_name (register_all rs)) m); apply mget_insert_same, nat_decides.
    + pose proof Hm as Hm'. rewrite alias_by_name_lemma in Hm'. apply last_registration_In in Hm'.
      assert (Hu : u <> t).
      { intros ->. apply Hne. apply (Ho n m t); apply in_or_app; [right; left; reflexivity | left; exact Hm']. }
      specialize (IH m u Ho' Hm). unfold type_alias_by_type in IH.
      destruct (mget Nat.eqb (by_name (register_all rs)) n) as [old|] eqn:E; cbn [by_type].
      * assert (Hold : old <> u).
        { intros ->. apply Hne. pose proof (alias_by_name_lemma rs n) as L. unfold type_alias_by_name in L. rewrite E in L. symmetry in L.
          apply last_registration_In in L. apply (Ho n m u); apply in_or_app; left; assumption. }
        rewrite mget_insert_other by (apply nat_decides || congruence). rewrite mget_remove_other by (apply nat_decides || exact Hold). exact IH.
      * rewrite mget_insert_other by (apply nat_decides || congruence). exact IH.
Qed.

Lemma first_occ_snoc names n : forall seen, first_occurrences seen (names ++ [n]) =
  first_occurrences seen names ++ (if existsb (Nat.eqb n) (seen ++ names) then [] else [n]).
Proof.
  induction names as [|m names IH]; intros seen; cbn [first_occurrences app].
  - rewrite app_nil_r. destruct (existsb (Nat.eqb n) seen); reflexivity.
  - destruct (existsb (Nat.eqb m) seen) eqn:E; rewrite IH.
    + f_equal. destruct (existsb (Nat.eqb n) (seen ++ names)) eqn:E1, (existsb (Nat.eqb n) (seen ++ m :: names)) eqn:E2; try reflexivity; exfalso.
      * rewrite existsb_app in *. cbn [existsb] in E2. destruct (existsb (Nat.eqb n) seen); cbn in *; [discriminate|].
        rewrite E1 in E2. rewrite orb_true_r in E2. discriminate.
      * rewrite existsb_app in *. cbn [existsb] in E2. destruct (existsb (Nat.eqb n) seen) eqn:E3; cbn in *; [discriminate|].
        rewrite E1, orb_false_r in E2. apply Nat.eqb_eq in E2. subst m. congruence.
    + cbn [app]. f_equal. f_equal. rewrite !existsb_app. cbn [existsb]. rewrite !existsb_app. cbn [existsb].
      destruct (Nat.eqb n m), (existsb (Nat.eqb n) seen), (existsb (Nat.eqb n) names); reflexivity.
Qed.

Lemma alias_ordered_lemma regs :
  map fst (ordered (register_all regs)) = first_occurrences [] (map fst regs) /\
  forall n t, In (n, t) (ordered (register_all regs)) <-> type_alias_by_name (register_all regs) n = Some t.
Proof.
  apply (register_all_ind (fun regs s => map fst (ordered s) = first_occurrences [] (map fst regs) /\
    forall n t, In (n, t) (ordered s) <-> type_alias_by_name s n = Some t)).
  - split; [reflexivity|]. intros n t. split; [intros [] | discriminate].
  - intros rs n t [Hf Hin]. rewrite map_app. cbn [map fst]. rewrite first_occ_snoc. cbn [app].
    assert (Kn : existsb (Nat.eqb n) (map fst rs) = match type_alias_by_name (register_all rs) n with Some _ => true | None => false end).
    { rewrite alias_by_name_lemma. clear. induction rs as [|[m u] rs IH] using rev_ind; [reflexivity|].
      rewrite map_app, existsb_app. cbn [map existsb fst]. unfold last_registration. rewrite fold_left_app. cbn [fold_left fst snd].
      fold (last_registration rs n). rewrite (Nat.eqb_sym m n). destruct (Nat.eqb n m); [rewrite orb_true_r; reflexivity|].
      rewrite !orb_false_r. exact IH. }
    rewrite Kn. assert (ND : NoDup (map fst (ordered (register_all rs)))).
    { rewrite Hf. clear. assert (G : forall names seen, NoDup (first_occurrences seen names) /\ forall x, In x (first_occurrences seen names) -> existsb (Nat.eqb x) seen = false).
      { induction names as [|m names IH]; intros seen; cbn [first_occurrences]; [split; [constructor | intros x []]|].
        destruct (existsb (Nat.eqb m) seen) eqn:E; [apply IH|]. destruct (IH (m :: seen)) as [A B]. split.
        - constructor; [|exact A]. intros Hm. apply B in Hm. cbn [existsb] in Hm. rewrite Nat.eqb_refl in Hm. discriminate.
        - intros x [<-|Hx]; [exact E|]. apply B in Hx. cbn [existsb] in Hx. apply orb_false_iff in Hx. apply Hx. }
      apply G. }
    unfold type_alias_by_name at 1 in Kn. unfold type_alias_by_name at 1. unfold register_type_alias at 1.
    assert (U1 : forall l, map fst (update_first n t l) = map fst l).
    { induction l as [|[a b] l IH]; [reflexivity|]. cbn [update_first]. destruct (Nat.eqb a n); cbn [map fst]; [reflexivity|]. rewrite IH. reflexivity. }
    assert (U2 : forall l m u, NoDup (map fst l) -> In n (map fst l) -> In (m, u) (update_first n t l) <-> (m = n /\ u = t) \/ (m <> n /\ In (m, u) l)).
    { induction l as [|[a b] l IH]; intros m u Hnd Hn; [contradiction|]. cbn [map fst] in Hnd. inv Hnd. cbn [update_first].
      destruct (Nat.eqb_spec a n) as [->|Ha]; cbn [In].
      - split.
        + intros [H|H]; [injection H as <- <-; auto|]. right. split; [|right; exact H].
          intros ->. apply H1. change n with (fst (n, u)). apply in_map, H.
        + intros [[-> ->]|[Hm [H|H]]]; [left; reflexivity | injection H as -> ->; congruence | right; exact H].
      - cbn [map fst In] in Hn. destruct Hn as [Hn|Hn]; [congruence|]. rewrite (IH m u H2 Hn). split.
        + intros [H|[H|[Hm H]]]; [injection H as <- <-; right; auto | left; exact H | right; auto].
        + intros [H|[Hm [H|H]]]; [right; left; exact H | left; exact H | right; right; auto]. }
    destruct (mget Nat.eqb (by_name (register_all rs)) n) as [old|] eqn:E; cbn [ordered].
    + rewrite U1, app_nil_r. split; [exact Hf|]. intros m u. rewrite register_by_name.
      unfold register_type_alias. rewrite E. cbn [ordered].
      assert (Hn : In n (map fst (ordered (register_all rs)))).
      { change n with (fst (n, old)). apply in_map, Hin. exact E. }
      rewrite (U2 _ m u ND Hn). destruct (Nat.eqb_spec n m) as [->|Hne].
      * split; [intros [[_ ->]|[H _]]; [reflexivity|congruence] | intros H; injection H as ->; left; auto].
      * split; [intros [[H _]|[_ H]]; [congruence | apply Hin; exact H] | intros H; right; split; [congruence | apply Hin; exact H]].
    + rewrite map_app. cbn [map fst]. rewrite Hf. split; [reflexivity|]. intros m u. rewrite register_by_name.
      unfold register_type_alias. rewrite E. cbn [ordered]. rewrite in_app_iff. cbn [In].
      destruct (Nat.eqb_spec n m) as [->|Hne].
      * split; [intros [H|[H|[]]]; [apply Hin in H; unfold type_alias_by_name in H; congruence | injection H as ->; reflexivity] | intros H; injection H as ->; right; left; reflexivity].
      * split; [intros [H|[H|[]]]; [apply Hin; exact H | congruence] | intros H; left; apply Hin; exact H].
Qed.

Lemma alias_incomplete_lemma : exists regs n t,
  type_alias_by_name (register_all regs) n = Some t /\ type_alias_by_type (register_all regs) t = None.
Proof. exists [(1, 10); (2, 10); (1, 11)], 2, 10. split; reflexivity. Qed.
