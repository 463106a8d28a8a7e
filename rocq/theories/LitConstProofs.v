From Verif Require Import MangleProofs LitConstSpec.
From Coq Require Import Lia FinFun.
Open Scope Z_scope.

(** ** Trees *)

Section TreeInd.
  Context {K : Type} (P : tree K -> Prop).
  Hypothesis Step : forall k rs, Forall (Forall (Forall P)) rs -> P (Node k rs).
  Fixpoint tree_ind' (t : tree K) : P t :=
    match t with
    | Node k rs =>
        Step k rs
          ((fix r3 (l : list (list (list (tree K)))) : Forall (Forall (Forall P)) l :=
              match l with
              | [] => Forall_nil _
              | x :: l' => Forall_cons _ ((fix r2 (l : list (list (tree K))) : Forall (Forall P) l :=
                    match l with
                    | [] => Forall_nil _
                    | y :: l' => Forall_cons _ ((fix r1 (l : list (tree K)) : Forall P l :=
                          match l with
                          | [] => Forall_nil _
                          | z :: l' => Forall_cons _ (tree_ind' z) (r1 l')
                          end) y) (r2 l')
                    end) x) (r3 l')
              end) rs)
    end.
End TreeInd.

Lemma flat_map_Forall {A B} (f g : A -> list B) l : Forall (fun x => f x = g x) l -> flat_map f l = flat_map g l.
Proof. induction 1 as [|x l E _ IH]; cbn; congruence. Qed.
Lemma map_Forall {A B} (f g : A -> B) l : Forall (fun x => f x = g x) l -> List.map f l = List.map g l.
Proof. induction 1 as [|x l E _ IH]; cbn; congruence. Qed.

Lemma walk_op_ops {K} (t : tree K) : walk_op t = op_ops t.
Proof.
  reflexivity.
Qed.
Lemma walk_ops {K} (m : list (list (tree K))) : walk_region m = ops m.
Proof.
  unfold walk_region, ops. apply flat_map_Forall. apply Forall_forall. intros b _.
  apply flat_map_Forall. apply Forall_forall. intros t _. apply walk_op_ops.
Qed.

Lemma map_flat_map {A B C} (f : B -> C) (g : A -> list B) l : List.map f (flat_map g l) = flat_map (fun x => List.map f (g x)) l.
Proof. induction l; cbn; [reflexivity|]. rewrite map_app. congruence. Qed.
Lemma flat_map_map {A B C} (f : B -> list C) (g : A -> B) l : flat_map f (List.map g l) = flat_map (fun x => f (g x)) l.
Proof. induction l; cbn; congruence. Qed.

Lemma ops_map_op {A B} (f : A -> B) t : op_ops (map_tree f t) = List.map f (op_ops t).
Proof.
  induction t as [k rs IH] using tree_ind'. cbn [map_tree op_ops app List.map]. f_equal.
  rewrite map_flat_map, flat_map_map. apply flat_map_Forall. eapply Forall_impl; [|exact IH]. intros bs Hb. cbn beta.
  rewrite map_flat_map, flat_map_map. apply flat_map_Forall. eapply Forall_impl; [|exact Hb]. intros os Ho. cbn beta.
  rewrite map_flat_map, flat_map_map. apply flat_map_Forall. exact Ho.
Qed.
Lemma ops_map {A B} (f : A -> B) m : ops (map_region f m) = List.map f (ops m).
Proof.
  unfold ops, map_region. rewrite map_flat_map, flat_map_map. apply flat_map_Forall, Forall_forall. intros b _.
  rewrite map_flat_map, flat_map_map. apply flat_map_Forall, Forall_forall. intros t _. apply ops_map_op.
Qed.
Lemma shape_map_op {A B} (f : A -> B) t : op_shape (map_tree f t) = op_shape t.
Proof.
  induction t as [k rs IH] using tree_ind'. cbn [map_tree op_shape]. f_equal.
  rewrite map_map. apply map_Forall. eapply Forall_impl; [|exact IH]. intros bs Hb. cbn beta.
  rewrite map_map. apply map_Forall. eapply Forall_impl; [|exact Hb]. intros os Ho. cbn beta.
  rewrite map_map. apply map_Forall. exact Ho.
Qed.
Lemma shape_map {A B} (f : A -> B) m : shape (map_region f m) = shape m.
Proof.
  unfold shape, map_region. rewrite map_map. apply map_Forall, Forall_forall. intros b _.
  rewrite map_map. apply map_Forall, Forall_forall. intros t _. apply shape_map_op.
Qed.

(** ** Contents *)

Lemma bytes_eqb_spec a : forall b, reflect (a = b) (bytes_eqb a b).
Proof.
  induction a as [|x a IH]; intros [|y b]; cbn; try (constructor; congruence).
  destruct (Z.eqb_spec x y) as [E|N]; cbn [andb]; [|constructor; congruence].
  destruct (IH b); constructor; congruence.
Qed.

Lemma find_content_some {V} (l : list (list Z * V)) c v : find_content l c = Some v -> In (c, v) l.
Proof.
  induction l as [|[c' v'] l IH]; cbn; [discriminate|]. destruct (bytes_eqb_spec c' c) as [->|N].
  - intros E. injection E as ->. left. reflexivity.
  - auto.
Qed.
Lemma find_content_none {V} (l : list (list Z * V)) c : find_content l c = None -> ~ In c (List.map fst l).
Proof.
  induction l as [|[c' v'] l IH]; cbn; [tauto|]. destruct (bytes_eqb_spec c' c) as [->|N]; [discriminate|].
  intros E [X|X]; [auto|]. apply (IH E X).
Qed.
Lemma find_content_in {V} (l : list (list Z * V)) c : In c (List.map fst l) -> exists v, find_content l c = Some v.
Proof. intros I. destruct (find_content l c) eqn:E; [eauto|]. destruct (find_content_none _ _ E I). Qed.

Definition lit_of (k : kind) : list (list Z) := match k with KString c => [c] | KBytes c => [c] | KOther _ => [] end.
Definition is_str (k : kind) : bool := match k with KString _ => true | _ => false end.

Lemma literal_iff m c : literal m c <-> exists k, In k (ops m) /\ In c (lit_of k).
Proof.
  unfold literal. split.
  - intros [I|I]; eexists; (split; [exact I|]); cbn; auto.
  - intros (k & I & L). destruct k; cbn in L; intuition; subst; auto.
Qed.

(** ** The native collector *)

Record ninv (ks : list kind) (s : ncoll) : Prop := {
  ni_next : n_next s = List.length (n_rodata s);
  ni_names : List.map fst (n_rodata s) = List.map rodata_name (seq 0 (n_next s));
  ni_seen : n_seen s = List.map (fun p => (snd p, fst p)) (n_rodata s);
  ni_nodup : NoDup (List.map snd (n_rodata s));
  ni_in : forall c, In c (List.map snd (n_rodata s)) <-> exists k, In k ks /\ In c (lit_of k);
  ni_str : n_strings s = existsb is_str ks
}.

Lemma seen_fst l : List.map fst (List.map (fun p : string * list Z => (snd p, fst p)) l) = List.map snd l.
Proof. rewrite map_map. reflexivity. Qed.

Lemma NoDup_snoc {A} (l : list A) x : NoDup l -> ~ In x l -> NoDup (l ++ [x]).
Proof.
  intros N I. induction N as [|y l Y _ IH]; cbn.
  - constructor; [intros []|constructor].
  - constructor; [|apply IH; cbn in I; tauto]. rewrite in_app_iff. cbn in *. intuition.
Qed.

Lemma n_intern_inv ks s c k : ninv ks s -> lit_of k = [c] -> is_str k = false -> ninv (ks ++ [k]) (n_intern s c).
Proof.
  intros [A B C D E F] L S. unfold n_intern. destruct (find_content (n_seen s) c) as [v|] eqn:Fd.
  - constructor; auto.
    + intros x. rewrite E. split.
      * intros (k' & I & J). exists k'. rewrite in_app_iff. auto.
      * intros (k' & I & J). apply in_app_iff in I as [I|[<-|[]]]; [eauto|]. rewrite L in J. destruct J as [<-|[]].
        apply E. apply find_content_some in Fd. rewrite C in Fd. apply in_map_iff in Fd as ([s1 c1] & X & I).
        cbn in X. injection X as -> ->. apply in_map_iff. exists (v, c). auto.
    + rewrite existsb_app, F. cbn. rewrite S. destruct (existsb is_str ks); reflexivity.
  - assert (N : ~ In c (List.map snd (n_rodata s))).
    { apply find_content_none in Fd. rewrite C, seen_fst in Fd. exact Fd. }
    constructor; cbn [n_rodata n_seen n_next n_strings].
    + rewrite app_length. cbn. lia.
    + rewrite map_app, B. rewrite seq_S, map_app. cbn. reflexivity.
    + rewrite map_app, C. reflexivity.
    + rewrite map_app. apply NoDup_snoc; auto.
    + intros x. rewrite map_app, in_app_iff, E. cbn [List.map snd In]. split.
      * intros [(k' & I & J)|[<-|[]]]; [exists k'|exists k]; rewrite in_app_iff; cbn; [auto|]. rewrite L. cbn. auto.
      * intros (k' & I & J). apply in_app_iff in I as [I|[<-|[]]]; [left; eauto|]. rewrite L in J. auto.
    + rewrite existsb_app, F. cbn. rewrite S. destruct (existsb is_str ks); reflexivity.
Qed.

Lemma n_visit_inv ks s k : ninv ks s -> ninv (ks ++ [k]) (n_visit s k).
Proof.
  intros I. destruct k as [c|c|n].
  - assert (J : ninv (ks ++ [KBytes c]) (n_intern s c)) by (apply n_intern_inv; auto).
    destruct J as [A B C D E F]. constructor; cbn [n_visit n_rodata n_seen n_next n_strings]; auto.
    + intros x. rewrite E. split; intros (k & X & Y); apply in_app_iff in X as [X|[<-|[]]].
      * exists k. rewrite in_app_iff. auto.
      * exists (KString c). rewrite in_app_iff. cbn in *. auto.
      * exists k. rewrite in_app_iff. auto.
      * exists (KBytes c). rewrite in_app_iff. cbn in *. auto.
    + rewrite existsb_app. cbn. symmetry. apply Bool.orb_true_r.
  - apply n_intern_inv; auto.
  - destruct I as [A B C D E F]. constructor; auto.
    + intros x. rewrite E. split; intros (k & X & Y); exists k; rewrite ?in_app_iff in *; [auto|].
      destruct X as [X|[<-|[]]]; [auto|]. destruct Y.
    + cbn [n_visit]. rewrite existsb_app, F. cbn. rewrite Bool.orb_false_r. reflexivity.
Qed.

Lemma n_fold ks : forall pre s, ninv pre s -> ninv (pre ++ ks) (fold_left n_visit ks s).
Proof.
  induction ks as [|k ks IH]; intros pre s I; cbn.
  - rewrite app_nil_r. exact I.
  - replace (pre ++ k :: ks) with ((pre ++ [k]) ++ ks) by (rewrite <- app_assoc; reflexivity).
    apply IH, n_visit_inv, I.
Qed.

Lemma n_analyze_inv m : ninv (ops m) (n_analyze m).
Proof.
  unfold n_analyze. change (walk_region m) with (ops m). apply (n_fold (ops m) []).
  constructor; cbn; auto using NoDup_nil. intros c. split; [intros []|intros (k & [] & _)].
Qed.

(** ** Memory *)

Lemma store_out w : forall mem a v b, b < a \/ a + Z.of_nat w <= b -> store mem a w v b = mem b.
Proof.
  induction w as [|w IH]; intros mem a v b H; cbn [store]; [reflexivity|].
  rewrite IH by lia. destruct (Z.eqb_spec b a); [lia|reflexivity].
Qed.
Lemma word_ext w : forall mem mem' a, (forall b, a <= b < a + Z.of_nat w -> mem b = mem' b) -> word mem a w = word mem' a w.
Proof.
  induction w as [|w IH]; intros mem mem' a H; cbn [word]; [reflexivity|].
  rewrite (H a) by lia. rewrite (IH mem mem' (a + 1)); [reflexivity|]. intros b Hb. apply H. lia.
Qed.
Lemma word_store w : forall mem a v, word (store mem a w v) a w = v mod 256 ^ Z.of_nat w.
Proof.
  induction w as [|w IH]; intros mem a v.
  - cbn. rewrite Z.mod_1_r. reflexivity.
  - cbn [store word]. rewrite IH. rewrite store_out by lia. rewrite Z.eqb_refl.
    replace (Z.of_nat (S w)) with (1 + Z.of_nat w) by lia. rewrite Z.pow_add_r by lia. rewrite Z.pow_1_r.
    rewrite Z.rem_mul_r by (try lia; apply Z.pow_nonzero; lia). lia.
Qed.
Lemma word_store_out w w' mem a v b : b + Z.of_nat w' <= a \/ a + Z.of_nat w <= b -> word (store mem a w v) b w' = word mem b w'.
Proof. intros H. apply word_ext. intros x Hx. apply store_out. lia. Qed.

(** ** The code of a literal on the native target *)

Lemma run_literal fun_at data_at alloc fs rodata mem s n :
  is_fun fs s = false -> is_data rodata s = true ->
  0 <= alloc 24 -> alloc 24 + 24 < 2 ^ 64 ->
  run_code fun_at data_at alloc fs rodata mem (emit_bytes_alloc s n) =
  Some (store (store (store (store mem (alloc 24) 4 1) (alloc 24 + 4) 4 0) (alloc 24 + 8) 8 (data_at s)) (alloc 24 + 16) 8 n,
        alloc 24 + 8).
Proof.
  intros F D A0 A1. unfold run_code, emit_bytes_alloc.
  cbn [steps step symbol_addr nth_error app width RC_HEADER_SIZE REFCOUNT_OFFSET RTTI_IDX_OFFSET].
  unfold symbol_addr. rewrite F, D.
  cbn [steps step nth_error app width String.eqb Ascii.eqb Bool.eqb last].
  unfold RC_HEADER_SIZE, REFCOUNT_OFFSET, RTTI_IDX_OFFSET.
  change (8 + 16) with 24.
  rewrite (Z.mod_small (alloc 24 + 8)) by lia.
  rewrite (Z.mod_small (alloc 24 + 8 + 0)) by lia.
  rewrite !Z.add_0_r. replace (alloc 24 + 8 + 8) with (alloc 24 + 16) by lia. reflexivity.
Qed.

Lemma existsb_false {A} (f : A -> bool) l : (forall x, In x l -> f x = false) -> existsb f l = false.
Proof. induction l; cbn; intros H; [reflexivity|]. rewrite H by auto. cbn. auto. Qed.

Lemma literal_makes fs rodata s c :
  is_fun fs s = false -> In (s, c) rodata -> size c < 2 ^ 63 -> makes fs rodata (emit_bytes_alloc s (zlen c)) c.
Proof.
  intros F I Sz mem fun_at data_at alloc [Ld La Lp].
  assert (D : is_data rodata s = true).
  { unfold is_data. apply existsb_exists. exists (s, c). split; [exact I|]. apply String.eqb_refl. }
  destruct La as [A0 A1]. destruct (Ld s c I) as [Bs Rg].
  set (mem' := store (store (store (store mem (alloc 24) 4 1) (alloc 24 + 4) 4 0) (alloc 24 + 8) 8 (data_at s)) (alloc 24 + 16) 8 (zlen c)).
  assert (Fr : forall b, b < alloc 24 \/ alloc 24 + 24 <= b -> mem' b = mem b).
  { intros b Hb. unfold mem'. rewrite !store_out by lia. reflexivity. }
  assert (Sv : forall s' c', In (s', c') rodata -> bytes_at mem' (data_at s') c').
  { intros s' c' I' i b N. destruct (Ld s' c' I') as [B' _]. destruct (Lp s' c' I') as [X|X].
    - rewrite Fr by lia. apply B'. exact N.
    - assert (L : (i < List.length c')%nat) by (apply nth_error_Some; congruence). unfold size in X.
      rewrite Fr by lia. apply B'. exact N. }
  exists mem', (alloc 24 + 8). split; [apply run_literal; auto|]. split; [|split].
  - assert (P : word mem' (alloc 24 + 8) 8 = data_at s).
    { unfold mem'. rewrite word_store_out by lia. rewrite word_store. change (256 ^ Z.of_nat 8) with (2 ^ 64). apply Z.mod_small. lia. }
    unfold holds. rewrite P. split; [apply Sv; exact I|]. unfold mem'. split; [|split].
    + replace (alloc 24 + 8 + 8) with (alloc 24 + 16) by lia. rewrite word_store. change (256 ^ Z.of_nat 8) with (2 ^ 64).
      apply Z.mod_small. unfold zlen, size in *. lia.
    + replace (alloc 24 + 8 - 8) with (alloc 24) by lia. rewrite !word_store_out by lia. rewrite word_store. reflexivity.
    + replace (alloc 24 + 8 - 4) with (alloc 24 + 4) by lia. rewrite !word_store_out by lia. rewrite word_store. reflexivity.
  - intros b Hb. apply Fr. lia.
  - constructor; auto. intros s' c' I'. split; [auto|]. apply (Ld s' c' I').
Qed.

(** ** The native theorem *)

Lemma rodata_name_inj i j : rodata_name i = rodata_name j -> i = j.
Proof. unfold rodata_name. intros E. cbn [append] in E. injection E as E. apply decimal_inj, E. Qed.

Lemma names_nodup n : NoDup (List.map rodata_name (seq 0 n)).
Proof.
  apply FinFun.Injective_map_NoDup; [|apply seq_NoDup]. intros i j. apply rodata_name_inj.
Qed.

Lemma declare_data_ok rodata : forall taken,
  NoDup (List.map fst rodata) -> (forall s, In s (List.map fst rodata) -> ~ In s taken) -> declare_data taken rodata = true.
Proof.
  induction rodata as [|[s c] r IH]; intros taken N D; cbn; [reflexivity|]. inversion N as [|? ? X Y]; subst.
  replace (existsb (String.eqb s) taken) with false.
  - apply IH; [exact Y|]. intros s' I [->|J]; [apply X, I|]. apply (D s'); cbn; auto.
  - symmetry. apply existsb_false. intros t I. apply String.eqb_neq. intros ->. apply (D t); cbn; auto.
Qed.

Lemma rodata_reserved m s : In s (List.map fst (n_rodata (n_analyze m))) -> reserved s.
Proof.
  intros I. destruct (n_analyze_inv m) as [_ B _ _ _ _]. rewrite B in I. apply in_map_iff in I as (i & <- & _).
  exists (decimal i). reflexivity.
Qed.

Lemma not_fun fs s : (forall f, In f fs -> ~ reserved (f_name f)) -> reserved s -> is_fun fs s = false.
Proof. intros H R. apply existsb_false. intros f I. apply String.eqb_neq. intros E. apply (H f I). rewrite E. exact R. Qed.

Lemma native_kind m known fs k :
  (forall f, In f fs -> ~ reserved (f_name f)) ->
  (forall c, literal m c -> size c < 2 ^ 63) ->
  known = true \/ no_strings m ->
  In k (ops m) -> native_means fs (n_rodata (n_analyze m)) k (n_rewrite (n_analyze m) known k).
Proof.
  intros Hf Hs Hk I. pose proof (n_analyze_inv m) as V. destruct V as [A B C D E F].
  assert (Fd : forall c, In c (lit_of k) -> exists s, find_content (n_seen (n_analyze m)) c = Some s /\ makes fs (n_rodata (n_analyze m)) (emit_bytes_alloc s (zlen c)) c).
  { intros c L. destruct (find_content_in (n_seen (n_analyze m)) c) as (s & X).
    { rewrite C, seen_fst. apply E. eauto. }
    exists s. split; [exact X|]. apply find_content_some in X. rewrite C in X. apply in_map_iff in X as ([s1 c1] & Y & J).
    cbn in Y. injection Y as -> ->. apply literal_makes; [|exact J|].
    - apply not_fun; [exact Hf|]. apply (rodata_reserved m). apply in_map_iff. exists (s, c). auto.
    - apply Hs, literal_iff. eauto. }
  destruct k as [c|c|n]; cbn [n_rewrite].
  - destruct (Fd c) as (s & X & M); [cbn; auto|]. rewrite X.
    assert (N : n_strings (n_analyze m) = true) by (rewrite F; apply existsb_exists; exists (KString c); auto).
    rewrite N. destruct Hk as [->|Hk]; [|destruct (Hk c I)]. constructor. exact M.
  - destruct (Fd c) as (s & X & M); [cbn; auto|]. rewrite X. constructor. exact M.
  - constructor.
Qed.

Lemma Forall2_map_r {A B} (R : A -> B -> Prop) f l : (forall x, In x l -> R x (f x)) -> Forall2 R l (List.map f l).
Proof. induction l; cbn; intros H; constructor; auto. Qed.

Lemma native_literals_lemma m known fs :
  (forall f, In f fs -> ~ reserved (f_name f)) ->
  (forall c, literal m c -> size c < 2 ^ 63) ->
  known = true \/ no_strings m ->
  exists m' rodata,
    native m known fs = Some (m', rodata) /\ shape m' = shape m /\
    Forall2 (native_means fs rodata) (ops m) (ops m') /\
    stored_once m (List.map snd rodata).
Proof.
  intros Hf Hs Hk. pose proof (n_analyze_inv m) as V. destruct V as [A B C D E F].
  assert (Dc : declare fs (n_rodata (n_analyze m)) = true).
  { apply declare_data_ok.
    - rewrite B. apply names_nodup.
    - intros s I J. apply rodata_reserved in I. apply in_map_iff in J as (f & <- & J). apply filter_In in J as [J _].
      apply (Hf f J I). }
  assert (So : stored_once m (List.map snd (n_rodata (n_analyze m)))).
  { split; [exact D|]. intros c. rewrite E. symmetry. apply literal_iff. }
  unfold native, n_lower. destruct (n_rodata (n_analyze m)) as [|p r] eqn:Rd.
  - rewrite Dc. eexists _, []. split; [reflexivity|]. split; [apply shape_map|]. split; [|exact So].
    rewrite ops_map. apply Forall2_map_r. intros k I. destruct k as [c|c|n]; [| |constructor].
    + destruct So as [_ So]. destruct (proj2 (So c)). left. exact I.
    + destruct So as [_ So]. destruct (proj2 (So c)). right. exact I.
  - assert (M : Forall2 (native_means fs (p :: r)) (ops m) (List.map (n_rewrite (n_analyze m) known) (ops m))).
    { apply Forall2_map_r. intros k I. rewrite <- Rd. apply native_kind; auto. }
    replace (existsb n_illegal _) with false.
    + rewrite Dc. eexists _, (p :: r). split; [reflexivity|]. split; [apply shape_map|]. split; [|exact So].
      rewrite ops_map. exact M.
    + symmetry. rewrite walk_ops, ops_map. apply existsb_false. intros x I. clear - M I.
      induction M as [|a b l l' R M IH]; [destruct I|]. destruct I as [->|I]; [|apply IH, I].
      destruct R; reflexivity.
Qed.

(** A string literal without the String type is reported. *)
Lemma native_reported m fs c : In (KString c) (ops m) -> native m false fs = None.
Proof.
  intros I. pose proof (n_analyze_inv m) as V. destruct V as [A B C D E F]. unfold native, n_lower.
  destruct (n_rodata (n_analyze m)) as [|p r] eqn:Rd.
  - exfalso. apply (proj2 (E c)). exists (KString c). cbn. auto.
  - replace (existsb n_illegal _) with true; [reflexivity|]. symmetry. rewrite walk_ops, ops_map.
    apply existsb_exists. exists (n_rewrite (n_analyze m) false (KString c)). split; [apply in_map, I|].
    cbn. destruct (n_strings _); [|reflexivity]. destruct (find_content _ c); reflexivity.
Qed.

(** ** WebAssembly *)

Record winv (ks : list kind) (s : wcoll) : Prop := {
  wi_seen : List.map fst (w_seen s) = List.map (fun p => fst (fst p)) (w_alloc s);
  wi_alloc : forall i c idx len, nth_error (w_alloc s) i = Some (c, idx, len) -> idx = u32 (Z.of_nat i) /\ len = u32 (size c);
  wi_nodup : NoDup (List.map (fun p => fst (fst p)) (w_alloc s));
  wi_in : forall c, In c (List.map (fun p => fst (fst p)) (w_alloc s)) <-> exists k, In k ks /\ In c (lit_of k)
}.

Lemma w_collect_inv ks s c k : winv ks s -> lit_of k = [c] -> winv (ks ++ [k]) (w_collect s c).
Proof.
  intros [A B C D] L. unfold w_collect. destruct (find_content (w_seen s) c) as [v|] eqn:Fd.
  - constructor; auto. intros x. rewrite D. split.
    + intros (k' & I & J). exists k'. rewrite in_app_iff. auto.
    + intros (k' & I & J). apply in_app_iff in I as [I|[<-|[]]]; [eauto|]. rewrite L in J. destruct J as [<-|[]].
      apply D. rewrite <- A. apply find_content_some in Fd. apply in_map_iff. exists (c, v). auto.
  - assert (N : ~ In c (List.map (fun p => fst (fst p)) (w_alloc s))).
    { apply find_content_none in Fd. rewrite A in Fd. exact Fd. }
    constructor; cbn [w_alloc w_seen].
    + rewrite !map_app, A. reflexivity.
    + intros i c' idx len H. destruct (Nat.lt_ge_cases i (List.length (w_alloc s))) as [X|X].
      * rewrite nth_error_app1 in H by exact X. eauto.
      * rewrite nth_error_app2 in H by exact X. destruct (i - List.length (w_alloc s))%nat as [|j] eqn:Ej; cbn in H.
        -- injection H as <- <- <-. replace i with (List.length (w_alloc s)) by lia. split; reflexivity.
        -- destruct j; discriminate.
    + rewrite map_app. apply NoDup_snoc; auto.
    + intros x. rewrite map_app, in_app_iff, D. cbn [List.map fst In]. split.
      * intros [(k' & I & J)|[<-|[]]]; [exists k'|exists k]; rewrite in_app_iff; cbn; [auto|]. rewrite L. cbn. auto.
      * intros (k' & I & J). apply in_app_iff in I as [I|[<-|[]]]; [left; eauto|]. rewrite L in J. auto.
Qed.

Lemma w_visit_inv ks s k : winv ks s -> winv (ks ++ [k]) (w_visit s k).
Proof.
  intros I. destruct k as [c|c|n].
  - apply w_collect_inv; [|reflexivity]. destruct I as [A B C D]. constructor; auto.
  - apply w_collect_inv; auto.
  - destruct I as [A B C D]. constructor; auto.
    intros x. rewrite D. split; intros (k & X & Y); exists k; rewrite ?in_app_iff in *; [auto|].
    destruct X as [X|[<-|[]]]; [auto|]. destruct Y.
Qed.

Lemma w_fold ks : forall pre s, winv pre s -> winv (pre ++ ks) (fold_left w_visit ks s).
Proof.
  induction ks as [|k ks IH]; intros pre s I; cbn.
  - rewrite app_nil_r. exact I.
  - replace (pre ++ k :: ks) with ((pre ++ [k]) ++ ks) by (rewrite <- app_assoc; reflexivity).
    apply IH, w_visit_inv, I.
Qed.

Lemma w_analyze_inv m : winv (ops m) (w_analyze m).
Proof.
  unfold w_analyze. change (walk_region m) with (ops m). apply (w_fold (ops m) []).
  constructor; cbn; auto using NoDup_nil.
  - intros [|i]; discriminate.
  - intros c. split; [intros []|intros (k & [] & _)].
Qed.

Lemma w_lookup_in l c : In c (List.map (fun p : list Z * Z * Z => fst (fst p)) l) ->
  exists i idx len, w_lookup l c = Some (idx, len) /\ nth_error l i = Some (c, idx, len).
Proof.
  induction l as [|[[c' idx] len] l IH]; cbn; [intros []|]. intros I.
  destruct (bytes_eqb_spec c' c) as [->|N].
  - exists 0%nat, idx, len. auto.
  - destruct I as [->|I]; [congruence|]. destruct (IH I) as (i & x & y & P & Q). exists (S i), x, y. auto.
Qed.

Lemma count_le (m : list (list (tree kind))) : (List.length (w_alloc (w_analyze m)) <= List.length (ops m))%nat.
Proof.
  unfold w_analyze. change (walk_region m) with (ops m).
  enough (G : forall ks s, (List.length (w_alloc (fold_left w_visit ks s)) <= List.length (w_alloc s) + List.length ks)%nat).
  { specialize (G (ops m) w_new). cbn in G. exact G. }
  induction ks as [|k ks IH]; intros s; cbn; [lia|]. etransitivity; [apply IH|].
  enough (List.length (w_alloc (w_visit s k)) <= S (List.length (w_alloc s)))%nat by lia.
  destruct k; cbn; [| |lia]; unfold w_collect; cbn [w_seen w_alloc w_strings]; destruct (find_content _ _);
    cbn [w_alloc]; rewrite ?app_length; cbn; lia.
Qed.

Lemma emit_bytes_makes segs i c :
  nth_error segs i = Some c -> Z.of_nat i < 2 ^ 32 -> size c < 2 ^ 32 ->
  match emit_bytes (u32 (Z.of_nat i)) 0 (u32 (size c)) with
  | Some code => wmakes segs code c
  | None => 2 ^ 31 <= size c
  end.
Proof.
  intros N I S. unfold u32. rewrite !Z.mod_small by (unfold size in *; lia). unfold emit_bytes.
  change (0 <? 2 ^ 31) with true. cbn [andb]. destruct (Z.ltb_spec (size c) (2 ^ 31)) as [L|L]; [|exact L].
  intros st. exists (VBytes c 0 (size c)), c, 0.
  assert (Fn : firstn (Z.to_nat (size c)) c = c) by (unfold size; rewrite Nat2Z.id; apply firstn_all).
  split; [|split; [reflexivity|split; [lia|split; [lia|]]]].
  - cbn [wrun wstep]. rewrite Nat2Z.id, N. change (zlen c) with (size c).
    replace (0 + size c <=? size c) with true by (symmetry; apply Z.leb_le; lia).
    cbn [Z.to_nat skipn]. rewrite Fn. reflexivity.
  - cbn [text_of Z.to_nat skipn]. rewrite Fn. reflexivity.
Qed.

Lemma all_some_spec {A} (l : list (option A)) :
  match all_some l with
  | Some r => Forall2 (fun o x => o = Some x) l r
  | None => In None l
  end.
Proof.
  induction l as [|[x|] l IH]; cbn; [constructor| |auto]. destruct (all_some l); [constructor; auto|auto].
Qed.

Lemma wasm_kind m known k :
  Z.of_nat (List.length (ops m)) < 2 ^ 32 -> (forall c, literal m c -> size c < 2 ^ 32) -> known = true \/ no_strings m ->
  In k (ops m) ->
  match w_emit (w_rewrite (w_analyze m) known k) with
  | Some code => wasm_means (List.map (fun p => fst (fst p)) (w_alloc (w_analyze m))) k code
  | None => exists c, literal m c /\ 2 ^ 31 <= size c
  end.
Proof.
  intros Hn Hs Hk I. pose proof (w_analyze_inv m) as V. destruct V as [A B C D].
  assert (Fd : forall c, In c (lit_of k) -> exists idx len,
    w_lookup (w_alloc (w_analyze m)) c = Some (idx, len) /\
    match emit_bytes idx 0 len with
    | Some code => wmakes (List.map (fun p => fst (fst p)) (w_alloc (w_analyze m))) code c
    | None => 2 ^ 31 <= size c
    end).
  { intros c L. destruct (w_lookup_in (w_alloc (w_analyze m)) c) as (i & idx & len & P & Q); [apply D; eauto|].
    exists idx, len. split; [exact P|]. destruct (B i c idx len Q) as [-> ->]. apply emit_bytes_makes.
    - rewrite nth_error_map, Q. reflexivity.
    - assert (i < List.length (w_alloc (w_analyze m)))%nat by (apply nth_error_Some; congruence).
      pose proof (count_le m). lia.
    - apply Hs, literal_iff. eauto. }
  destruct k as [c|c|n]; cbn [w_rewrite].
  - destruct (Fd c) as (idx & len & P & Q); [cbn; auto|]. rewrite P.
    destruct Hk as [->|Hk]; [|destruct (Hk c I)]. cbn [w_emit]. destruct (emit_bytes idx 0 len).
    + constructor. exact Q.
    + exists c. split; [left; exact I|exact Q].
  - destruct (Fd c) as (idx & len & P & Q); [cbn; auto|]. rewrite P. cbn [w_emit]. destruct (emit_bytes idx 0 len).
    + constructor. exact Q.
    + exists c. split; [right; exact I|exact Q].
  - cbn. constructor.
Qed.

Lemma wasm_literals_lemma m known :
  Z.of_nat (List.length (ops m)) < 2 ^ 32 -> (forall c, literal m c -> size c < 2 ^ 32) -> known = true \/ no_strings m ->
  match wasm m known with
  | Some (cs, segs) => Forall2 (wasm_means segs) (ops m) cs /\ stored_once m segs
  | None => exists c, literal m c /\ 2 ^ 31 <= size c
  end.
Proof.
  intros Hn Hs Hk. unfold wasm.
  assert (Vd : w_validate m known = true).
  { unfold w_validate. destruct Hk as [->|Hk]; [reflexivity|]. rewrite walk_ops.
    replace (existsb is_string (ops m)) with false; [apply Bool.orb_true_r|].
    symmetry. apply existsb_false. intros k I. destruct k; [|reflexivity..]. destruct (Hk text I). }
  rewrite Vd, walk_ops, ops_map, map_map.
  pose proof (fun k => wasm_kind m known k Hn Hs Hk) as Kd.
  pose proof (all_some_spec (List.map (fun x => w_emit (w_rewrite (w_analyze m) known x)) (ops m))) as S.
  destruct (all_some _) as [cs|].
  - split.
    + assert (G : forall ks cs, (forall k, In k ks -> In k (ops m)) ->
        Forall2 (fun o x => o = Some x) (List.map (fun x => w_emit (w_rewrite (w_analyze m) known x)) ks) cs ->
        Forall2 (wasm_means (List.map (fun p => fst (fst p)) (w_alloc (w_analyze m)))) ks cs).
      { clear S cs. induction ks as [|k ks IH]; intros cs Sub S; cbn in S; inversion S as [|? ? ? ? E S']; subst; constructor.
        - specialize (Kd k (Sub k (or_introl eq_refl))). rewrite E in Kd. exact Kd.
        - apply IH; [|exact S']. intros k' I. apply Sub. right. exact I. }
      apply G; [auto|exact S].
    + pose proof (w_analyze_inv m) as [A B C D]. split; [exact C|]. intros c. rewrite D. symmetry. apply literal_iff.
  - apply in_map_iff in S as (k & E & I). specialize (Kd k I). rewrite E in Kd. exact Kd.
Qed.

Lemma wasm_reported m c : In (KString c) (ops m) -> wasm m false = None.
Proof.
  intros I. unfold wasm, w_validate. rewrite walk_ops.
  replace (existsb is_string (ops m)) with true; [reflexivity|]. symmetry. apply existsb_exists. exists (KString c). auto.
Qed.

(** ** Where the text is lost *)

(** A module with one literal, and a function with the name of its data. *)
Definition one (c : list Z) : list (list (tree kind)) := [[Node (KBytes c) []]].
Definition clash : list fdecl := [{| f_name := "__tribute_rodata_0"; f_abi := false |}].

Lemma clash_native c : native (one c) true clash =
  Some ([[Node (NBytes (emit_bytes_alloc "__tribute_rodata_0" (zlen c))) []]], [("__tribute_rodata_0"%string, c)]).
Proof.
  unfold native, n_lower, n_analyze, one. cbn -[bytes_eqb emit_bytes_alloc].
  destruct (bytes_eqb_spec c c) as [_|N]; [|congruence]. cbn -[emit_bytes_alloc]. reflexivity.
Qed.

Lemma clash_run c mem fun_at data_at alloc :
  loader mem data_at alloc [("__tribute_rodata_0"%string, c)] ->
  0 <= fun_at "__tribute_rodata_0"%string < 2 ^ 64 ->
  exists mem' p,
    run_code fun_at data_at alloc clash [("__tribute_rodata_0"%string, c)] mem (emit_bytes_alloc "__tribute_rodata_0" (zlen c)) = Some (mem', p) /\
    word mem' p 8 = fun_at "__tribute_rodata_0"%string.
Proof.
  intros [_ La _] R. destruct La as [A0 A1].
  exists (store (store (store (store mem (alloc 24) 4 1) (alloc 24 + 4) 4 0) (alloc 24 + 8) 8 (fun_at "__tribute_rodata_0"%string)) (alloc 24 + 16) 8 (zlen c)), (alloc 24 + 8).
  split.
  - unfold run_code, emit_bytes_alloc.
    cbn [steps step symbol_addr nth_error app width].
    change (symbol_addr fun_at data_at clash [("__tribute_rodata_0"%string, c)] "__tribute_rodata_0") with (Some (fun_at "__tribute_rodata_0"%string)).
    cbn [steps step nth_error app width String.eqb Ascii.eqb Bool.eqb last].
    unfold RC_HEADER_SIZE, REFCOUNT_OFFSET, RTTI_IDX_OFFSET. change (8 + 16) with 24.
    rewrite (Z.mod_small (alloc 24 + 8)) by lia. rewrite (Z.mod_small (alloc 24 + 8 + 0)) by lia.
    rewrite !Z.add_0_r. replace (alloc 24 + 8 + 8) with (alloc 24 + 16) by lia. reflexivity.
  - rewrite word_store_out by lia. rewrite word_store. change (256 ^ Z.of_nat 8) with (2 ^ 64). apply Z.mod_small. lia.
Qed.

(** A literal of 2^32 bytes or a little more. *)
Lemma huge_wasm c : 2 ^ 32 <= size c < 2 ^ 32 + 2 ^ 31 ->
  exists code segs, wasm (one c) true = Some ([CBytes code], segs) /\
  forall st, exists v, wrun segs code st = Some (v :: st) /\ text_of v = Some (firstn (Z.to_nat (size c - 2 ^ 32)) c).
Proof.
  intros H. set (n := size c - 2 ^ 32).
  assert (U : u32 (zlen c) = n).
  { unfold u32. change (zlen c) with (size c). symmetry. apply (Z.mod_unique _ _ 1); unfold n; lia. }
  exists [WI32Const 0; WI32Const n; WArrayNewData 0; WI32Const 0; WI32Const n; WStructNew], [c]. split.
  - unfold wasm, one. cbn -[u32 bytes_eqb emit_bytes Z.pow]. rewrite U.
    destruct (bytes_eqb_spec c c) as [_|X]; [|congruence]. cbn [w_emit].
    replace (emit_bytes (u32 0) 0 n) with (Some [WI32Const 0; WI32Const n; WArrayNewData 0; WI32Const 0; WI32Const n; WStructNew]); [reflexivity|].
    unfold emit_bytes. change (0 <? 2 ^ 31) with true. cbn [andb].
    replace (n <? 2 ^ 31) with true by (symmetry; apply Z.ltb_lt; unfold n; lia). reflexivity.
  - intros st. exists (VBytes (firstn (Z.to_nat n) c) 0 n). split.
    + cbn [wrun wstep Z.to_nat nth_error]. change (zlen c) with (size c).
      replace (0 + n <=? size c) with true by (symmetry; apply Z.leb_le; unfold n; lia). reflexivity.
    + cbn [text_of Z.to_nat skipn]. rewrite firstn_firstn, Nat.min_id. reflexivity.
Qed.

(** A loader: the data at 0, the function at 1000, new blocks at 2000. *)
Definition hi : list Z := [104; 105].
Definition mem0 (b : Z) : Z := if b =? 0 then 104 else if b =? 1 then 105 else 0.
Lemma loader0 s : loader mem0 (fun _ => 0) (fun _ => 2000) [(s, hi)].
Proof.
  constructor.
  - intros s' c' [E|[]]. injection E as <- <-. split; [|lia]. intros i b N.
    destruct i as [|[|i]]; cbn in N; [injection N as <-; reflexivity|injection N as <-; reflexivity|destruct i; discriminate].
  - lia.
  - intros s' c' [E|[]]. injection E as <- <-. right. cbn. lia.
Qed.

Lemma native_refuted_lemma : exists m fs m' rodata,
  native m true fs = Some (m', rodata) /\ (forall c, literal m c -> size c = 2) /\ ~ Forall2 (native_means fs rodata) (ops m) (ops m').
Proof.
  exists (one hi), clash. eexists _, _. split; [apply clash_native|]. split.
  - intros c [[E|[]]|[E|[]]]; [discriminate|]. injection E as <-. reflexivity.
  - intros F. cbn [ops one flat_map op_ops app] in F. inversion F as [|? ? ? ? N _]; subst.
    inversion N as [|c code M|]; subst.
    destruct (M mem0 (fun _ => 1000) (fun _ => 0) (fun _ => 2000) (loader0 _)) as (mem' & p & R & (H & _) & Fr & _).
    destruct (clash_run hi mem0 (fun _ => 1000) (fun _ => 0) (fun _ => 2000) (loader0 _) ltac:(cbn; lia)) as (mem2 & p2 & R2 & W).
    rewrite R in R2. injection R2 as <- <-. rewrite W in H.
    specialize (H 0%nat 104 eq_refl). cbn in H.
    assert (P : p = 2008).
    { clear -R. assert (E : match run_code (fun _ => 1000) (fun _ => 0) (fun _ => 2000) clash [("__tribute_rodata_0"%string, hi)] mem0
          (emit_bytes_alloc "__tribute_rodata_0" (zlen hi)) with Some (_, q) => q | None => 0 end = 2008) by reflexivity.
      rewrite R in E. exact E. }
    rewrite Fr in H by lia. discriminate.
Qed.

Lemma wasm_refuted_lemma : exists m c, literal m c /\ exists cs segs, wasm m true = Some (cs, segs) /\ ~ Forall2 (wasm_means segs) (ops m) cs.
Proof.
  assert (L : exists c, size c = 2 ^ 32) by (exists (repeat 0 (Z.to_nat (2 ^ 32))); unfold size; rewrite repeat_length; apply Z2Nat.id; lia).
  destruct L as (c & L). exists (one c), c. split; [right; cbn; auto|].
  destruct (huge_wasm c) as (code & segs & E & R); [lia|]. exists [CBytes code], segs. split; [exact E|].
  intros F. cbn [ops one flat_map op_ops app] in F. inversion F as [|? ? ? ? N _]; subst. inversion N as [|? ? M|]; subst.
  destruct (M []) as (v & b & off & R1 & _ & _ & _ & T). destruct (R []) as (v' & R2 & T').
  rewrite R1 in R2. injection R2 as <-. rewrite T in T'. rewrite L in T'. change (2 ^ 32 - 2 ^ 32) with 0 in T'. cbn [Z.to_nat firstn] in T'.
  injection T' as ->. cbn in L. lia.
Qed.
