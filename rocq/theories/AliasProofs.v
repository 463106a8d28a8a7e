(** Proofs about type aliases. *)
From Coq Require Import Lia Permutation Sorted.
From Verif Require Import AliasSpec TextProofs.
Local Open Scope nat_scope.

(** ** Induction over types *)
Section Ind.
  Variables (P : ty -> Prop) (Q : attr -> Prop).
  Hypothesis Hty : forall d n ps ats, Forall P ps -> Forall (fun kv => Q (snd kv)) ats -> P (Ty d n ps ats).
  Hypothesis Hal : forall a, P (Alias a).
  Hypothesis Htype : forall t, P t -> Q (Type_ t).
  Hypothesis Hlist : forall l, Forall Q l -> Q (List l).
  Hypothesis Hleaf : forall a, (forall t, a <> Type_ t) -> (forall l, a <> List l) -> Q a.
  Fixpoint ty_ind2 (t : ty) : P t :=
    match t with
    | Ty d n ps ats => Hty d n ps ats
        ((fix go (l : list ty) : Forall P l := match l with [] => Forall_nil _ | x :: l => Forall_cons _ (ty_ind2 x) (go l) end) ps)
        ((fix go (l : list (text * attr)) : Forall (fun kv => Q (snd kv)) l := match l with [] => Forall_nil _ | kv :: l => Forall_cons kv (match kv return Q (snd kv) with (k, v) => attr_ind2 v end) (go l) end) ats)
    | Alias a => Hal a
    end
  with attr_ind2 (a : attr) : Q a.
  Proof.
    destruct a; try (apply Hleaf; intros; discriminate).
    - apply Htype, ty_ind2.
    - apply Hlist. exact ((fix go (l : list attr) : Forall Q l := match l with [] => Forall_nil _ | x :: l => Forall_cons _ (attr_ind2 x) (go l) end) l).
  Defined.
  Lemma ty_both : (forall t, P t) /\ (forall a, Q a).
  Proof. split; [exact ty_ind2|exact attr_ind2]. Qed.
End Ind.

Lemma text_eqb_spec a b : text_eqb a b = true <-> a = b.
Proof. unfold text_eqb. destruct (list_eq_dec N.eq_dec a b); split; congruence. Qed.
Lemma text_eqb_refl a : text_eqb a a = true.
Proof. apply text_eqb_spec. reflexivity. Qed.

Lemma same_both : (forall a b, same a b = true <-> a = b) /\ (forall a b, same_attr a b = true <-> a = b).
Proof.
  apply ty_both.
  - intros d n ps ats Hp Ha [d' n' ps' ats'|x]; cbn [same]; [|split; discriminate]. rewrite !andb_true_iff, !text_eqb_spec.
    set (gp := fix go (l l' : list ty) : bool := match l, l' with [], [] => true | x :: l, y :: l' => same x y && go l l' | _, _ => false end).
    set (ga := fix go (l l' : list (text * attr)) : bool := match l, l' with [], [] => true | (k, x) :: l, (k', y) :: l' => text_eqb k k' && same_attr x y && go l l' | _, _ => false end).
    assert (Ep : gp ps ps' = true <-> ps = ps').
    { clear -Hp. revert ps'. induction Hp as [|x l Hx Hl IH]; intros [|y l']; try (split; cbn; congruence). cbn [gp]. fold gp. rewrite andb_true_iff, Hx, IH. split; [intros [-> ->]; reflexivity|intros E; inversion E; auto]. }
    assert (Ea : ga ats ats' = true <-> ats = ats').
    { clear -Ha. revert ats'. induction Ha as [|[k x] l Hx Hl IH]; intros [|[k' y] l']; try (split; cbn; congruence). cbn [ga]. fold ga. rewrite !andb_true_iff, text_eqb_spec, (Hx y), IH. split; [intros [[-> E] ->]; cbn in E; subst; reflexivity|intros E; inversion E; auto]. }
    rewrite Ep, Ea. split; [intros [[[-> ->] ->] ->]; reflexivity|intros E; inversion E; auto].
  - intros a [d' n' ps' ats'|x]; cbn [same]; [split; discriminate|]. rewrite text_eqb_spec. split; congruence.
  - intros t H b. destruct b; cbn [same_attr]; try (split; congruence). rewrite H. split; congruence.
  - intros l Hl b. destruct b as [| | | | | | | |l'|]; cbn [same_attr]; try (split; congruence).
    set (g := fix go (l l' : list attr) : bool := match l, l' with [], [] => true | x :: l, y :: l' => same_attr x y && go l l' | _, _ => false end).
    assert (E : g l l' = true <-> l = l').
    { revert l'. induction Hl as [|x l Hx Hl IH]; intros [|y l']; try (split; cbn; congruence). cbn [g]. fold g. rewrite andb_true_iff, Hx, IH. split; [intros [-> ->]; reflexivity|intros E; inversion E; auto]. }
    rewrite E. split; congruence.
  - intros a N1 N2 b. destruct a; try (exfalso; eapply N1; reflexivity); try (exfalso; eapply N2; reflexivity);
      destruct b; cbn [same_attr]; try (split; congruence); try (rewrite ?text_eqb_spec, ?Bool.eqb_true_iff, ?Z.eqb_eq, ?N.eqb_eq; split; congruence).
    rewrite !andb_true_iff, text_eqb_spec, !N.eqb_eq. split; [intros [[-> ->] ->]; reflexivity|intros E; inversion E; auto].
Qed.
Lemma same_spec a b : same a b = true <-> a = b. Proof. apply same_both. Qed.
Lemma same_refl a : same a a = true. Proof. apply same_spec. reflexivity. Qed.
Lemma ty_dec (a b : ty) : {a = b} + {a <> b}.
Proof. destruct (same a b) eqn:E; [left; apply same_spec; exact E|right; intros X; apply same_spec in X; congruence]. Qed.
Lemma same_false a b : same a b = false <-> a <> b.
Proof. split; intros H. - intros E. apply same_spec in E. congruence. - destruct (same a b) eqn:E; auto. apply same_spec in E. contradiction. Qed.
Lemma member_spec t l : member t l = true <-> In t l.
Proof. unfold member. rewrite existsb_exists. split; [intros (x & I & E); apply same_spec in E; subst; exact I|intros I; exists t; split; auto using same_refl]. Qed.

(** ** The maps *)
Lemma look_unset_same m t : look (unset m t) t = None.
Proof.
  unfold look, unset. destruct (find _ _) as [[t' n]|] eqn:F; auto. apply find_some in F as [I E]. apply filter_In in I as [_ N]. cbn in *. rewrite E in N. discriminate.
Qed.
Lemma look_unset_other m t u : u <> t -> look (unset m t) u = look m u.
Proof.
  intros N. unfold look, unset. f_equal. induction m as [|[t' n] m IH]; auto. cbn [filter fst negb]. destruct (same t' t) eqn:E; cbn [negb find fst].
  - apply same_spec in E. subst. destruct (same t u) eqn:E2; auto. apply same_spec in E2. congruence.
  - destruct (same t' u); auto.
Qed.
Lemma look_set m t n u : look (set m t n) u = if same t u then Some n else look m u.
Proof.
  unfold set, look at 1. cbn [find fst]. destruct (same t u) eqn:E; auto. fold (look (unset m t) u). apply look_unset_other. intros ->. rewrite same_refl in E. discriminate.
Qed.
Lemma look_in m t n : look m t = Some n -> In (t, n) m.
Proof. unfold look. destruct (find _ _) as [[t' n']|] eqn:F; cbn; [|discriminate]. intros E. injection E as <-. apply find_some in F as [I E]. cbn in E. apply same_spec in E. subst. exact I. Qed.
Lemma look_value m t n : look m t = Some n -> In n (map snd m).
Proof. intros H. apply look_in in H. apply (in_map snd) in H. exact H. Qed.
Lemma env_get_cons n t e x : env_get ((n, t) :: e) x = if text_eqb n x then Some t else env_get e x.
Proof. unfold env_get. cbn [find fst]. destruct (text_eqb n x); reflexivity. Qed.

(** ** Sorting *)
Lemma insert_perm {A} (le : A -> A -> bool) x l : Permutation (x :: l) (insert le x l).
Proof. induction l as [|y l IH]; cbn; auto. destruct (le x y); auto. etransitivity; [apply perm_swap|]. constructor. exact IH. Qed.
Lemma sort_perm {A} (le : A -> A -> bool) l : Permutation l (sort le l).
Proof. induction l as [|x l IH]; cbn; auto. etransitivity; [constructor; exact IH|apply insert_perm]. Qed.

(** ** Dependencies *)
Lemma deps_both among : (forall t s, In s (deps among t) <-> among s = true /\ inside s t) /\ (forall a s, In s (attr_deps among a) <-> among s = true /\ inside_value s a).
Proof.
  apply ty_both.
  - intros d n ps ats Hp Ha s. cbn [deps]. rewrite in_app_iff, !in_flat_map. rewrite Forall_forall in Hp, Ha. split.
    + intros [(p & I & K)|([k v] & I & K)].
      * apply in_app_iff in K as [K|K].
        -- destruct (among p) eqn:E; [|destruct K]. destruct K as [<-|[]]. split; auto. eapply inside_param; eauto.
        -- apply (Hp p I) in K as [A K]. split; auto. eapply inside_param; eauto.
      * apply (Ha _ I) in K as [A K]. split; auto. eapply inside_attr; eauto.
    + intros [A K]. inversion K as [d0 n0 ps0 ats0 p Ip Ki|d0 n0 ps0 ats0 k v Ia Ki]; subst.
      * left. exists p. split; auto. apply in_app_iff. destruct Ki as [->|K2]; [left; rewrite A; left; reflexivity|right; apply Hp; auto].
      * right. exists (k, v). split; auto. apply (Ha (k, v)); auto.
  - intros a s. cbn. split; [tauto|]. intros [_ K]. inversion K.
  - intros t H s. cbn [attr_deps]. rewrite in_app_iff, H. split.
    + intros [K|[A K]]; [destruct (among t) eqn:E; [destruct K as [<-|[]]|destruct K]|]; split; auto; constructor; auto.
    + intros [A K]. inversion K as [t0 Ki|]; subst. destruct Ki as [->|K2]; [left; rewrite A; left; reflexivity|right; auto].
  - intros l H s. cbn [attr_deps]. rewrite in_flat_map. rewrite Forall_forall in H. split.
    + intros (a & I & K). apply (H a I) in K as [A K]. split; auto. econstructor; eauto.
    + intros [A K]. inversion K as [|l0 a Ia Ki]; subst. exists a. split; auto. apply H; auto.
  - intros a N1 N2 s. split; [destruct a; cbn; try tauto; [exfalso; eapply N1; reflexivity|exfalso; eapply N2; reflexivity]|]. intros [_ K]. inversion K; subst; [exfalso; eapply N1; reflexivity|exfalso; eapply N2; reflexivity].
Qed.
Lemma deps_spec among t s : In s (deps among t) <-> among s = true /\ inside s t. Proof. apply deps_both. Qed.
Lemma ready_spec all placed t : ready all placed t = true <-> forall s, In s all -> inside s t -> In s placed.
Proof.
  unfold ready. rewrite forallb_forall. split.
  - intros H s I K. apply member_spec, H, deps_spec. split; auto. apply member_spec. exact I.
  - intros H s I. apply deps_spec in I as [M K]. apply member_spec. apply H; auto. apply member_spec. exact M.
Qed.

(** ** The topological sort *)
Fixpoint size (t : ty) : nat :=
  match t with
  | Alias _ => 1
  | Ty _ _ ps ats => S (list_sum (map size ps) + list_sum (map (fun kv => match kv with (_, v) => attr_size v end) ats))
  end
with attr_size (a : attr) : nat :=
  match a with
  | Type_ t => S (size t)
  | List l => S (list_sum (map attr_size l))
  | _ => 1
  end.
Lemma sum_mem (l : list nat) x : In x l -> x <= list_sum l.
Proof. induction l as [|y l IH]; [intros []|]. unfold list_sum in *. cbn [fold_right]. intros [->|I]; [|specialize (IH I)]; lia. Qed.
Lemma inside_both : (forall t s, inside s t -> size s < size t) /\ (forall a s, inside_value s a -> size s < attr_size a).
Proof.
  apply ty_both.
  - intros d n ps ats Hp Ha s K. rewrite Forall_forall in Hp, Ha. cbn [size]. inversion K as [d0 n0 ps0 ats0 p Ip Ki|d0 n0 ps0 ats0 k v Ia Ki]; subst.
    + pose proof (sum_mem (map size ps) (size p) (in_map _ _ _ Ip)). destruct Ki as [->|K2]; [|specialize (Hp p Ip s K2)]; lia.
    + pose proof (sum_mem _ _ (in_map (fun kv : text * attr => match kv with (_, v) => attr_size v end) _ _ Ia)) as L. cbn in L. specialize (Ha _ Ia s Ki). cbn in Ha. lia.
  - intros a s K. inversion K.
  - intros t H s K. cbn [attr_size]. inversion K as [t0 Ki|]; subst. destruct Ki as [->|K2]; [|specialize (H s K2)]; lia.
  - intros l H s K. cbn [attr_size]. rewrite Forall_forall in H. inversion K as [|l0 a Ia Ki]; subst. pose proof (sum_mem _ _ (in_map attr_size _ _ Ia)). specialize (H a Ia s Ki). lia.
  - intros a N1 N2 s K. inversion K; subst; [exfalso; eapply N1; reflexivity|exfalso; eapply N2; reflexivity].
Qed.
Lemma inside_size s t : inside s t -> size s < size t. Proof. apply inside_both. Qed.
Lemma inside_irrefl t : ~ inside t t. Proof. intros H. apply inside_size in H. lia. Qed.

Lemma take_ready_some all placed l a r : take_ready all placed l = Some (a, r) -> Permutation l (a :: r) /\ ready all placed (snd a) = true.
Proof.
  revert r. induction l as [|x l IH]; cbn; intros r H; [discriminate|]. destruct (ready all placed (snd x)) eqn:E.
  - inversion H; subst. auto.
  - destruct (take_ready all placed l) as [[y q]|]; [|discriminate]. inversion H; subst. destruct (IH q eq_refl) as [P R]. split; auto. etransitivity; [constructor; exact P|apply perm_swap].
Qed.
Lemma take_ready_none all placed l : take_ready all placed l = None -> forall a, In a l -> ready all placed (snd a) = false.
Proof.
  induction l as [|x l IH]; cbn; intros H a; [intros []|]. destruct (ready all placed (snd x)) eqn:E; [discriminate|]. destruct (take_ready all placed l) as [[y q]|]; [discriminate|]. intros [<-|I]; auto.
Qed.
(** Something is ready: the smallest of the remaining types. *)
Lemma some_ready all placed l : l <> [] -> (forall t, In t all -> In t placed \/ In t (map snd l)) -> exists a r, take_ready all placed l = Some (a, r).
Proof.
  intros N C. destruct (take_ready all placed l) as [[a r]|] eqn:E; [eauto|]. exfalso. pose proof (take_ready_none _ _ _ E) as F.
  assert (M : exists a, In a l /\ forall b, In b l -> size (snd a) <= size (snd b)).
  { clear -N. induction l as [|x l IH]; [congruence|]. destruct l as [|y l]; [exists x; cbn; intuition (subst; auto)|]. destruct IH as (a & I & M); [discriminate|].
    destruct (le_lt_dec (size (snd x)) (size (snd a))).
    - exists x. split; [left; reflexivity|]. intros b [<-|K]; auto. specialize (M b K). lia.
    - exists a. split; [right; exact I|]. intros b [<-|K]; auto. lia. }
  destruct M as (a & I & M). specialize (F a I). enough (ready all placed (snd a) = true) by congruence. apply ready_spec. intros s Is K. destruct (C s Is) as [P|P]; auto.
  exfalso. apply in_map_iff in P as (b & <- & Ib). specialize (M b Ib). apply inside_size in K. lia.
Qed.
(** The aliases come after those they depend on. *)
Definition ordered (all placed : list ty) (l : list (text * ty)) : Prop := forall pre a post, l = pre ++ a :: post -> forall s, In s all -> inside s (snd a) -> In s placed \/ In s (map snd pre).
Lemma rounds_ok all : forall n rest placed sorted, List.length rest = n -> (forall t, In t all -> In t placed \/ In t (map snd rest)) ->
  exists l, rounds n all placed rest sorted = sorted ++ l /\ Permutation rest l /\ ordered all placed l.
Proof.
  induction n as [|n IH]; intros rest placed sorted L C.
  - destruct rest; [|discriminate]. exists []. cbn. rewrite app_nil_r. repeat split; auto. intros pre a post E. destruct pre; discriminate.
  - destruct (some_ready all placed rest) as (a & r & E); auto. { destruct rest; discriminate. }
    cbn [rounds]. rewrite E. destruct (take_ready_some _ _ _ _ _ E) as [P R]. pose proof (proj1 (ready_spec _ _ _) R) as Rd.
    destruct (IH r (snd a :: placed) (sorted ++ [a])) as (l & E2 & P2 & O2).
    + apply Permutation_length in P. cbn in P. lia.
    + intros t I. destruct (C t I) as [K|K]; [left; right; exact K|]. apply (Permutation_in _ (Permutation_map snd P)) in K. destruct K as [<-|K]; [left; left; reflexivity|right; exact K].
    + exists (a :: l). rewrite E2, <- app_assoc. split; [reflexivity|]. split; [etransitivity; [exact P|constructor; exact P2]|].
      intros pre b post E3 s I K. destruct pre as [|x pre]; cbn in E3; inversion E3; subst.
      * left. apply Rd; auto.
      * destruct (O2 pre b post eq_refl s I K) as [[E4|Q]|Q]; cbn; auto.
Qed.
Lemma topological_ok l : Permutation l (topological_sort l) /\ ordered (map snd l) [] (topological_sort l).
Proof.
  unfold topological_sort. destruct (rounds_ok (map snd l) (List.length l) l [] []) as (q & E & P & O); auto. rewrite E. cbn [app]. rewrite <- (Permutation_length P), Nat.eqb_refl. auto.
Qed.
