(** The invariant of the rounds. *)
From Verif Require Export MonoTables.
From Verif Require Import SubstProofs.
From Coq Require Import Lia.

Lemma Forall2_flat {A B C} (R : A -> B -> Prop) (f : A -> list C) (g : B -> list C) l l' : Forall2 R l l' -> (forall a b, In a l -> R a b -> g b = f a) -> flat_map g l' = flat_map f l.
Proof. induction 1; intros H1; cbn; auto. rewrite (H1 x y), IHForall2 by (cbn; auto; intros; apply H1; cbn; auto). auto. Qed.
Lemma Forall2_left {A B} (R : A -> B -> Prop) l l' a : Forall2 R l l' -> In a l -> exists b, In b l' /\ R a b.
Proof. induction 1; [intros []|]. intros [->|I]; [exists y; cbn; auto|]. destruct IHForall2 as [b [J Q]]; auto. exists b. cbn; auto. Qed.
Lemma NoDup_join {A} (a b : list A) : NoDup a -> NoDup b -> (forall i, In i a -> ~ In i b) -> NoDup (a ++ b).
Proof.
  intros N1 N2 D. induction a as [|x a IH]; cbn; auto. inversion N1; subst. constructor.
  - intros I. apply in_app_iff in I as [I|I]; auto. apply (D x); cbn; auto.
  - apply IH; auto. intros i I. apply D; cbn; auto.
Qed.
Lemma unseen_new K disc : NoDup (unseen K disc) /\ forall i, In i (unseen K disc) <-> In i disc /\ ~ In i K.
Proof.
  unfold unseen.
  enough (Q : forall acc, NoDup acc -> (forall i, In i acc -> ~ In i K) ->
    let out := fold_left (fun new i => if existsb (inst_eqb i) (K ++ new) then new else new ++ [i]) disc acc in
    NoDup out /\ forall i, In i out <-> In i acc \/ (In i disc /\ ~ In i K)).
  { destruct (Q []) as [N H]; [constructor|intros i []|]. split; auto. intros i. rewrite H. split; [intros [[]|X]; auto|auto]. }
  induction disc as [|d disc IH]; intros acc N D; cbn [fold_left].
  { split; auto. intros i. split; [auto|intros [X|[[] _]]; auto]. }
  assert (E : existsb (inst_eqb d) (K ++ acc) = true <-> In d (K ++ acc)) by apply knows_in.
  destruct (existsb (inst_eqb d) (K ++ acc)).
  - destruct (IH acc N D) as [N' H]. split; auto. intros i. rewrite H. cbn [In]. pose proof (proj1 E eq_refl) as I. apply in_app_iff in I. split.
    + intros [X|[X Y]]; auto.
    + intros [X|[[->|X] Y]]; auto. destruct I as [I|I]; [destruct (Y I)|auto].
  - assert (NI : ~ In d (K ++ acc)) by (intros X; apply E in X; discriminate).
    destruct (IH (acc ++ [d])) as [N' H].
    + apply NoDup_Add with (a := d) (l := acc); [|split; auto; intros X; apply NI, in_or_app; auto]. replace acc with (acc ++ []) at 1 by apply app_nil_r. apply Add_app.
    + intros i I. apply in_app_iff in I as [I|[<-|[]]]; auto. intros X. apply NI, in_or_app; auto.
    + split; auto. intros i. rewrite H, in_app_iff. cbn [In]. split.
      * intros [[X|[<-|[]]]|[X Y]]; auto. right. split; auto. intros X. apply NI, in_or_app; auto.
      * intros [X|[[<-|X] Y]]; auto.
Qed.

Section Run.
  Variables (types : list (string * scheme)) (ds : list decl) (m0 : meta) (variant : list ty -> N) (shuffle : nat -> list inst -> list inst).
  Hypothesis SO : source_ok types ds m0.
  Hypothesis OR : orders shuffle.
  Hypothesis SEP : separates variant types ds.
  Let keys := so_keys _ _ _ SO.
  Let dollars := so_types _ _ _ SO.
  Let forder := so_first_order _ _ _ SO.

  Definition item : Type := inst * func * string.
  Definition copy (K : list inst) (x : item) : func := copy_for variant (redir types K) (snd (fst (fst x))) (snd x) (snd (fst x)).
  Definition source_at (K : list inst) : list decl := List.map (map_decl (fun i => i) (redir types K) (fun r => r)) ds.

  (** ** Looking up functions *)
  Definition func_at (q : string) : option func := at_name_last (collect_func_decls ds) q.
  Lemma collect_source K : collect_func_decls (source_at K) = List.map (fun pf => (path_text (fst pf), map_func (fun i => i) (redir types K) (fun r => r) (snd pf))) (source_functions ds).
  Proof.
    unfold collect_func_decls, source_at, source_functions. rewrite flat_map_map, <- flat_map_flat. apply flat_eq, Forall_forall. intros d I.
    change "" with (path_text []). rewrite functions_paths, all_functions_map, map_map; auto.
    intros n J. rewrite names_map in J. apply (so_names _ _ _ SO). apply in_flat_map. eauto.
  Qed.
  Lemma collect_ds : collect_func_decls ds = List.map (fun pf => (path_text (fst pf), snd pf)) (source_functions ds).
  Proof.
    unfold collect_func_decls, source_functions. rewrite <- flat_map_flat. apply flat_eq, Forall_forall. intros d I.
    change "" with (path_text []). rewrite functions_paths; auto. intros n J. apply (so_names _ _ _ SO). apply in_flat_map. eauto.
  Qed.
  Lemma at_name_last_map {A B} (g : A -> B) (l : list (string * A)) q : at_name_last (List.map (fun p => (fst p, g (snd p))) l) q = option_map g (at_name_last l q).
  Proof. induction l as [|[p a] l IH]; cbn; auto. rewrite IH. destruct (at_name_last l q); cbn; auto. destruct (String.eqb p q); auto. Qed.
  Lemma func_at_iff q f : func_at q = Some f <-> function_named ds q f.
  Proof.
    unfold func_at, function_named. rewrite at_name_last_some, collect_ds. split.
    - intros [l1 [l2 [E N]]]. apply map_eq_app in E as [a [b [E [E1 E2]]]]. destruct b as [|[path g] b]; [discriminate|]. cbn in E2. injection E2 as <- -> E2.
      exists a, path, b. split; auto. split; auto. intros p g I. apply (N (path_text p) g). rewrite <- E2. apply in_map_iff. exists (p, g). auto.
    - intros [a [path [b [E [<- N]]]]]. rewrite E, map_app. cbn [List.map fst snd].
      exists (List.map (fun pf => (path_text (fst pf), snd pf)) a), (List.map (fun pf => (path_text (fst pf), snd pf)) b). split; auto.
      intros p y I. apply in_map_iff in I as [[p' g] [[= <- <-] I]]. eauto.
  Qed.
  Lemma named_source q f : function_named ds q f -> exists path, In (path, f) (source_functions ds).
  Proof. intros [a [path [b [-> _]]]]. exists path. apply in_or_app. right. cbn; auto. Qed.
  Lemma at_state K (l : list item) q : no_dollar q -> (forall x, In x l -> ~ no_dollar (snd x)) ->
    at_name_last (collect_func_decls (source_at K ++ List.map (fun x => DFunction (copy K x)) l)) q = option_map (map_func (fun i => i) (redir types K) (fun r => r)) (func_at q).
  Proof.
    intros D N. unfold collect_func_decls. rewrite flat_map_app, at_name_last_app. rewrite (at_name_last_none (flat_map _ (List.map _ l))).
    - change (at_name_last (collect_func_decls (source_at K)) q = option_map (map_func (fun i => i) (redir types K) (fun r => r)) (func_at q)).
      unfold func_at. rewrite collect_source, collect_ds, <- at_name_last_map, map_map. auto.
    - intros p y I. apply in_flat_map in I as [d [I J]]. apply in_map_iff in I as [x [<- I]]. cbn in J. destruct J as [[= <- _]|[]]. intros <-. destruct (N x I D).
  Qed.
  Lemma extern_state K l q : existsb (String.eqb q) (collect_extern_function_names (source_at K ++ List.map (fun x => DFunction (copy K x)) l)) = true <-> extern_named ds q.
  Proof.
    unfold collect_extern_function_names. rewrite flat_map_app.
    assert (E : flat_map (externs "") (List.map (fun x => DFunction (copy K x)) l) = []) by (induction l; auto). rewrite E, app_nil_r. clear E.
    assert (E : flat_map (externs "") (source_at K) = List.map path_text (flat_map (all_externs []) ds)).
    { unfold source_at. rewrite flat_map_map, <- flat_map_flat. apply flat_eq, Forall_forall. intros d I. change "" with (path_text []).
      rewrite externs_paths, all_externs_map; auto. intros n J. rewrite names_map in J. apply (so_names _ _ _ SO). apply in_flat_map. eauto. }
    rewrite E, existsb_exists. unfold extern_named. split.
    - intros [x [I Q]]. apply String.eqb_eq in Q. subst x. apply in_map_iff in I as [path [P I]]. eauto.
    - intros [path [I P]]. exists q. split; [|apply String.eqb_refl]. rewrite <- P. apply in_map; auto.
  Qed.

  (** ** What the next round finds *)
  Lemma wanted_redir K r : (forall i, In i K -> mangle_name (fst i) (snd i) <> None) ->
    wanted types (redir types K r) = match wanted types r with Some i => if knows K i then None else Some i | None => None end.
  Proof.
    intros M. unfold redir. destruct (wanted types r) as [i|] eqn:W; auto. destruct (knows K i) eqn:N; auto. apply knows_in in N. specialize (M i N).
    destruct (mangle_name (fst i) (snd i)) as [m|] eqn:E; [|congruence]. apply wanted_copy; auto. eapply mangled_dollar; eauto. eapply asks_args; eauto.
    apply wanted_asks; eauto.
  Qed.
  Definition known_ok (K : list inst) : Prop := forall i, In i K -> needed types ds i /\ mangle_name (fst i) (snd i) <> None.
  Definition finds (K : list inst) (l : list item) (i : inst) : Prop :=
    ~ In i K /\ ((exists path f n r, In (path, f) (source_functions ds) /\ uses (f_body f) n r /\ asks types r i) \/
                 (exists q args f m n r, In (q, args, f, m) l /\ uses (f_body f) n r /\ asks types (at_args args r) i)).
  Record inv (s : state) (l : list item) : Prop := {
    in_decls : decls s = source_at (known s) ++ List.map (fun x => DFunction (copy (known s) x)) l;
    in_nodup : NoDup (known s);
    in_known : known_ok (known s);
    in_items : forall q args f m, In (q, args, f, m) l <-> In (q, args) (known s) /\ function_named ds q f /\ mangle_name q args = Some m;
    in_once : NoDup (List.map (fun x => fst (fst x)) l);
    in_ranges : forall q args f m, In (q, args, f, m) l -> forallb (in_range args) (expr_types (f_body f)) = true;
    in_meta : minv variant m0 (metadata s) (List.map (fun x => (snd (fst (fst x)), semantic_node_ids (snd (fst x)))) l);
    in_types : exists new, ftypes s = types ++ new /\ forall n sc, In (n, sc) new <-> exists q args sc0,
      In (q, args) (known s) /\ ((exists f, function_named ds q f) \/ extern_named ds q) /\ In (q, sc0) types /\ mangle_name q args = Some n /\
      sc = {| sc_params := 0; sc_rows := sc_rows sc0; sc_body := fill_in args (sc_body sc0) |} }.
  Lemma needed_asked i : needed types ds i -> exists r, asks types r i.
  Proof. intros [path f n r j _ _ A|q args f n r j _ _ _ A]; eauto. Qed.
  Lemma needed_plain q args : needed types ds (q, args) -> no_dollar q /\ args <> [].
  Proof. intros H. apply needed_asked in H as [r A]. split; [destruct A as [_ [sc [I _]]]; eapply dollars; eauto|apply (asks_args types r (q, args) A)]. Qed.
  Lemma in_flat_visit K n r : In (n, r) (flat_map visit_decl (source_at K)) <->
    exists path f r0, In (path, f) (source_functions ds) /\ uses (f_body f) n r0 /\ r = redir types K r0.
  Proof.
    unfold source_at, source_functions. rewrite in_flat_map. split.
    - intros [d' [I J]]. apply in_map_iff in I as [d [<- I]]. rewrite (visit_functions _ []), all_functions_map, flat_map_map in J. apply in_flat_map in J as [[path f] [Q J]].
      cbn [snd map_func f_body] in J. rewrite visit_map in J. apply in_map_iff in J as [[n0 r0] [[= <- <-] J]]. exists path, f, r0. rewrite <- visit_uses. split; auto. apply in_flat_map. eauto.
    - intros [path [f [r0 [I [J ->]]]]]. apply in_flat_map in I as [d [I Q]]. exists (map_decl (fun i => i) (redir types K) (fun r => r) d). split; [apply in_map; auto|].
      rewrite (visit_functions _ []), all_functions_map, flat_map_map. apply in_flat_map. exists (path, f). split; auto. cbn [snd map_func f_body]. rewrite visit_map.
      apply in_map_iff. exists (n, r0). split; auto. apply visit_uses; auto.
  Qed.
  Lemma collected s l i : inv s l -> In i (collect_instantiations types (callees (metadata s)) (decls s)) <-> finds (known s) l i.
  Proof.
    intros H. pose proof (in_meta _ _ H) as MI.
    assert (MK : forall i, In i (known s) -> mangle_name (fst i) (snd i) <> None) by (intros j J; apply (in_known _ _ H j J)).
    assert (AGS : forall path f n r t, In (path, f) (source_functions ds) -> uses (f_body f) n r -> lookup (callees (metadata s)) n = Some t -> t = rty r).
    { intros path f n r t I U L. assert (P : snd n = None). { eapply (so_source _ _ _ SO); eauto. right. eexists. split; [apply U|constructor; auto]. }
      destruct n as [b v]. cbn in P. subst v. rewrite (ti_source _ _ _ _ _ (mi_callees _ _ _ _ MI)) in L. eapply so_callees; eauto. }
    assert (AGC : forall q args f m n r t, In (q, args, f, m) l -> uses (f_body f) n r -> lookup (callees (metadata s)) (with_variant (variant args) n) = Some t -> t = fill_in args (rty r)).
    { intros q args f m n r t I U L. assert (F : function_named ds q f) by (apply (in_items _ _ H) in I; apply I). destruct (named_source _ _ F) as [path J].
      assert (FN : func_node n f) by (right; eexists; split; [apply U|constructor; auto]). assert (P : snd n = None) by (eapply (so_source _ _ _ SO); eauto).
      destruct n as [b v]. cbn in P. subst v. unfold with_variant in L. cbn [fst] in L.
      pose proof (copied_entries variant _ _ _ args (semantic_node_ids f) b MI) as C.
      destruct C as [_ [C _]]; [apply in_map_iff; exists (q, args, f, m); auto|apply ids_node; auto|]. rewrite C in L.
      destruct (lookup (callees m0) (b, None)) as [u|] eqn:E; cbn in L; [|discriminate]. injection L as <-. f_equal. eapply so_callees; eauto. }
    assert (RT : forall K r, rty (redir types K r) = rty r) by (intros; apply redir_rty).
    unfold collect_instantiations. rewrite (in_decls _ _ H), flat_map_app, in_app_iff.
    assert (FW : forall r, In i match wanted types (redir types (known s) r) with Some i => [i] | None => [] end <-> ~ In i (known s) /\ asks types r i).
    { intros r. rewrite wanted_redir by auto. rewrite <- (wanted_asks types keys). destruct (wanted types r) as [j|] eqn:W; [|split; [intros []|intros [_ Q]; discriminate]].
      destruct (knows (known s) j) eqn:N.
      - apply knows_in in N. split; [intros []|]. intros [X [= ->]]. destruct (X N).
      - assert (X : ~ In j (known s)) by (intros X; apply knows_in in X; congruence). cbn. split; [intros [->|[]]; auto|intros [_ [= ->]]; auto]. }
    unfold finds. split.
    - intros [I|I].
      + apply in_flat_map in I as [d [D I]]. apply in_flat_map in I as [[n r] [V I]].
        assert (Q : In (n, r) (flat_map visit_decl (source_at (known s)))) by (apply in_flat_map; eauto).
        apply in_flat_visit in Q as [path [f [r0 [P [U ->]]]]]. rewrite try_record_wanted in I; auto.
        * apply FW in I as [X A]. split; auto. left. exists path, f, n, r0. auto.
        * intros t L. rewrite RT. eapply AGS; eauto.
      + apply in_flat_map in I as [d [D I]]. apply in_map_iff in D as [x [<- D]]. apply in_flat_map in I as [[n r] [V I]]. cbn [visit_decl] in V.
        destruct x as [[[q args] f] m]. unfold copy, copy_for in V. cbn [f_body fst snd] in V. rewrite visit_map in V. apply in_map_iff in V as [[n0 r0] [[= <- <-] V]].
        apply visit_uses in V. cbn [fst snd] in I. rewrite try_record_wanted in I; auto.
        * apply FW in I as [X A]. split; auto. right. exists q, args, f, m, n0, r0. auto.
        * intros t L. rewrite RT. eapply AGC; eauto.
    - intros [X [[path [f [n [r [P [U A]]]]]]|[q [args [f [m [n [r [P [U A]]]]]]]]]].
      + left. assert (Q : In (n, redir types (known s) r) (flat_map visit_decl (source_at (known s)))) by (apply in_flat_visit; exists path, f, r; auto).
        apply in_flat_map in Q as [d [D V]]. apply in_flat_map. exists d. split; auto. apply in_flat_map. exists (n, redir types (known s) r). split; auto.
        rewrite try_record_wanted; auto; [apply FW; auto|]. intros t L. rewrite RT. eapply AGS; eauto.
      + right. apply in_flat_map. exists (DFunction (copy (known s) (q, args, f, m))). split; [apply in_map_iff; eauto|].
        apply in_flat_map. exists (with_variant (variant args) n, redir types (known s) (at_args args r)). split.
        * cbn [visit_decl]. unfold copy, copy_for. cbn [f_body fst snd]. rewrite visit_map. apply in_map_iff. exists (n, r). split; auto. apply visit_uses; auto.
        * rewrite try_record_wanted; auto; [apply FW; auto|]. intros t L. rewrite RT. eapply AGC; eauto.
  Qed.
  Lemma finds_needed s l i : inv s l -> finds (known s) l i -> needed types ds i.
  Proof.
    intros H [_ [[path [f [n [r [P [U A]]]]]]|[q [args [f [m [n [r [P [U A]]]]]]]]]]; [eapply needed_source; eauto|].
    apply (in_items _ _ H) in P as [K [F _]]. eapply needed_copy; eauto. apply (in_known _ _ H); auto.
  Qed.

  (** ** Generation *)
  Definition items_of (i : inst) : list item :=
    match func_at (fst i), mangle_name (fst i) (snd i) with Some f, Some m => [(i, f, m)] | _, _ => [] end.
  Definition scheme_at (args : list ty) (sc : scheme) : scheme := {| sc_params := 0; sc_rows := sc_rows sc; sc_body := fill_in args (sc_body sc) |}.
  Definition scheme_of (i : inst) : scheme := match at_name types (fst i) with Some sc => scheme_at (snd i) sc | None => scheme_at [] {| sc_params := 0; sc_rows := []; sc_body := TError |} end.
  Definition entry_of (K : list inst) (x : item) : entry :=
    {| e_name := snd x; e_func := specialize_func variant (map_func (fun i => i) (redir types K) (fun r => r) (snd (fst x))) (snd (fst (fst x))) (snd x);
       e_scheme := scheme_of (fst (fst x)); e_args := snd (fst (fst x)); e_origins := semantic_node_ids (snd (fst x)) |}.
  Lemma ids_kept K f : semantic_node_ids (map_func (fun i => i) (redir types K) (fun r => r) f) = semantic_node_ids f.
  Proof. unfold semantic_node_ids. cbn. rewrite expr_ids_map, map_id. auto. Qed.
  Lemma types_kept K e : expr_types (map_expr (fun i => i) (redir types K) (fun r => r) e) = expr_types e.
  Proof. apply expr_types_kept_by; auto. apply redir_rty. Qed.
  Lemma needed_scheme q args : needed types ds (q, args) -> exists sc, at_name types q = Some sc /\ In (q, sc) types /\ scheme_of (q, args) = scheme_at args sc.
  Proof.
    intros H. apply needed_asked in H as [r [_ [sc [I _]]]]. exists sc. cbn [fst] in I. pose proof (proj2 (at_name_iff types q sc keys) I) as E.
    unfold scheme_of. cbn [fst snd]. rewrite E. auto.
  Qed.
  Lemma gen_one K l i g : needed types ds i -> (forall x, In x l -> ~ no_dollar (snd x)) ->
    generate_one variant types (collect_func_decls (source_at K ++ List.map (fun x => DFunction (copy K x)) l))
      (collect_extern_function_names (source_at K ++ List.map (fun x => DFunction (copy K x)) l)) i = Some g ->
    copied g = List.map (entry_of K) (items_of i) /\
    (forall n sc, In (n, sc) (external g) <-> func_at (fst i) = None /\ extern_named ds (fst i) /\ mangle_name (fst i) (snd i) = Some n /\ sc = scheme_of i) /\
    (forall f, func_at (fst i) = Some f -> forallb (in_range (snd i)) (expr_types (f_body f)) = true).
  Proof.
    intros ND DL G. destruct i as [q args]. unfold generate_one in G. destruct (needed_plain _ _ ND) as [Dq _].
    rewrite (at_state K l q Dq DL) in G. cbn [fst snd]. unfold items_of. cbn [fst snd].
    destruct (needed_scheme _ _ ND) as [sc0 [ES [IS SC]]]. rewrite SC. rewrite ES in G. pose proof (extern_state K l q) as X.
    destruct (func_at q) as [f|] eqn:F; cbn [option_map] in G.
    - apply obind_some in G as [m [M G]]. rewrite M. destruct (in_range args (sc_body sc0)) eqn:R; [|discriminate].
      cbn [f_body map_func] in G. rewrite types_kept in G. destruct (forallb (in_range args) (expr_types (f_body f))) eqn:RF; [|discriminate]. injection G as <-.
      split; [|split].
      + cbn [copied List.map]. unfold entry_of. cbn [fst snd]. rewrite ids_kept, SC. unfold scheme_at. rewrite subst_in_range by auto. auto.
      + intros n sc. cbn. split; [intros []|intros [? _]; discriminate].
      + intros f0 [= <-]. auto.
    - destruct (existsb (String.eqb q) _) eqn:E in G; cbn [negb] in G.
      + pose proof (proj1 X E) as XN. apply obind_some in G as [m [M G]]. rewrite M. destruct (in_range args (sc_body sc0)) eqn:R; [|discriminate]. injection G as <-.
        rewrite subst_in_range by auto. split; [auto|]. split; [|discriminate]. intros n sc. cbn. unfold scheme_at. split.
        * intros [[= <- <-]|[]]. auto.
        * intros [_ [_ [[= <-] ->]]]. auto.
      + injection G as <-. split; [destruct (mangle_name q args); auto|]. split; [|discriminate]. intros n sc. cbn. split; [intros []|].
        intros [_ [Y _]]. apply X in Y. congruence.
  Qed.
  Lemma in_items_of q args f m i : In (q, args, f, m) (items_of i) <-> i = (q, args) /\ function_named ds q f /\ mangle_name q args = Some m.
  Proof.
    unfold items_of. destruct i as [p as_]. cbn [fst snd]. rewrite <- func_at_iff. split.
    - destruct (func_at p) as [g|] eqn:F; [|intros []]. destruct (mangle_name p as_) as [k|] eqn:M; [|intros []]. intros [[= -> -> -> ->]|[]]. auto.
    - intros [[= -> ->] [-> ->]]. cbn; auto.
  Qed.
  Lemma items_nodup order : NoDup order -> NoDup (List.map (fun x : item => fst (fst x)) (flat_map items_of order)).
  Proof.
    assert (SUB : forall order i, In i (List.map (fun x : item => fst (fst x)) (flat_map items_of order)) -> In i order).
    { clear order. intros order i I. apply in_map_iff in I as [[[[q args] f] m] [<- I]]. apply in_flat_map in I as [j [J I]]. apply in_items_of in I as [-> _]. auto. }
    induction 1 as [|i order N ND IH]; cbn [flat_map List.map]; [constructor|]. rewrite map_app.
    assert (C : List.map (fun x : item => fst (fst x)) (items_of i) = [] \/ List.map (fun x : item => fst (fst x)) (items_of i) = [i]).
    { unfold items_of. destruct (func_at (fst i)); auto. destruct (mangle_name (fst i) (snd i)); auto. }
    destruct C as [-> | ->]; cbn; auto. constructor; auto.
  Qed.

  (** ** Rewriting *)
  Section Rewriting.
    Variables (K new : list inst) (rm : rewrite_map).
    Hypothesis KO : known_ok K.
    Hypothesis KN : forall i, In i new -> needed types ds i.
    Hypothesis RM : build_rewrite_map types (K ++ new) = Some rm.
    Lemma asked_all i : In i (K ++ new) -> exists r, asks types r i.
    Proof. intros I. apply needed_asked. apply in_app_iff in I as [I|I]; auto. apply KO; auto. Qed.
    Lemma all_mangle i : In i (K ++ new) -> mangle_name (fst i) (snd i) <> None.
    Proof. apply (rewrite_known types keys _ _ {| target := RFunction ""; rty := TError |} RM asked_all). Qed.
    Lemma new_ref r : rewrite_ref types rm r = redir types (K ++ new) r.
    Proof. apply (rewrite_known types keys _ _ r RM asked_all). Qed.
    Lemma sub i : In i K -> In i (K ++ new) /\ mangle_name (fst i) (snd i) <> None.
    Proof. intros I. split; [apply in_or_app; auto|apply KO; auto]. Qed.
    Lemma rewrite_source : List.map (rewrite_decl types rm) (source_at K) = source_at (K ++ new).
    Proof.
      unfold source_at. rewrite map_map. apply map_ext. intros d. rewrite rewrite_map_decl. apply map_decl_comp; auto.
      intros r. rewrite new_ref. apply redir_again; auto. apply sub.
    Qed.
    Lemma rewrite_copies (l : list item) : List.map (rewrite_decl types rm) (List.map (fun x => DFunction (copy K x)) l) = List.map (fun x => DFunction (copy (K ++ new) x)) l.
    Proof.
      rewrite map_map. apply map_ext. intros x. cbn [rewrite_decl]. f_equal. unfold with_body, copy, copy_for. cbn. f_equal. rewrite rewrite_map_expr. apply map_expr_comp; auto.
      intros r. rewrite new_ref. apply redir_again; auto. apply sub.
    Qed.
    Lemma rewrite_new (x : item) : forallb (in_range (snd (fst (fst x)))) (expr_types (f_body (snd (fst x)))) = true ->
      rewrite_decl types rm (DFunction (e_func (entry_of K x))) = DFunction (copy (K ++ new) x).
    Proof.
      intros R. rewrite forallb_forall in R. cbn [rewrite_decl]. f_equal. unfold with_body, copy, copy_for, entry_of, specialize_func. cbn. f_equal.
      rewrite rewrite_map_expr, substitute_map.
      set (A := snd (fst (fst x))) in *. rewrite (map_expr_comp (fun i => i) (with_variant (variant A)) (with_variant (variant A)) (rewrite_ref types rm) (subst_ref A) (fun r => rewrite_ref types rm (subst_ref A r)) (fun r => r) (subst_ref A) (subst_ref A)) by auto.
      rewrite (map_expr_comp (with_variant (variant A)) (fun i => i) (with_variant (variant A)) (fun r => rewrite_ref types rm (subst_ref A r)) (redir types K) (fun r => rewrite_ref types rm (subst_ref A (redir types K r))) (subst_ref A) (fun r => r) (subst_ref A)) by auto.
      assert (Q : forall r, In (rty r) (expr_types (f_body (snd (fst x)))) -> subst_ref A r = at_args A r).
      { intros r I. unfold subst_ref, at_args. rewrite subst_in_range by auto. auto. }
      apply map_expr_ext; auto. intros i r I. apply visit_types in I. rewrite new_ref, Q by (rewrite redir_rty; auto). apply redir_subst; auto. apply sub.
    Qed.
  End Rewriting.

  (** ** Tables *)
  Lemma apart_functions q f p g i : function_named ds q f -> function_named ds p g -> q <> p -> func_node i f -> ~ func_node i g.
  Proof.
    intros [a [pa [b [E [P1 N1]]]]] [c [pc [d [E2 [P2 N2]]]]] D F G.
    assert (Q : exists l, (a = c ++ (pc, g) :: l) \/ (c = a ++ (pa, f) :: l)).
    { rewrite E in E2. clear - E2 D P1 P2. revert c E2. induction a as [|x a IH]; intros [|y c] E2; cbn in E2.
      - injection E2 as -> -> ->. congruence.
      - injection E2 as <- E2. exists c. auto.
      - injection E2 as -> E2. exists a. auto.
      - injection E2 as -> E2. destruct (IH c E2) as [l [-> | ->]]; exists l; auto. }
    destruct Q as [l [-> | ->]].
    - apply (so_apart _ _ _ SO c pc g l pa f b i) in G; auto. rewrite E, <- app_assoc. auto.
    - apply (so_apart _ _ _ SO a pa f l pc g d i) in F; auto. rewrite E2, <- app_assoc. auto.
  Qed.
  Definition item_ok (x : item) : Prop := needed types ds (fst (fst x)) /\ function_named ds (fst (fst (fst x))) (snd (fst x)).
  Lemma named_once q f g : function_named ds q f -> function_named ds q g -> f = g.
  Proof. intros A B. apply func_at_iff in A, B. congruence. Qed.
  Lemma meta_steps K (it l : list item) m m' :
    minv variant m0 m (List.map (fun x => (snd (fst (fst x)), semantic_node_ids (snd (fst x)))) l) ->
    NoDup (List.map (fun x => fst (fst x)) (l ++ it)) -> (forall x, In x (l ++ it) -> item_ok x) ->
    ofold (fun m e => specialize_metadata variant m (e_args e) (e_origins e)) (List.map (entry_of K) it) m = Some m' ->
    minv variant m0 m' (List.map (fun x => (snd (fst (fst x)), semantic_node_ids (snd (fst x)))) (l ++ it)).
  Proof.
    revert l m. induction it as [|x it IH]; intros l m M ND OK S; cbn in S.
    { injection S as <-. rewrite app_nil_r. auto. }
    apply obind_some in S as [m1 [S1 S]]. replace (l ++ x :: it) with ((l ++ [x]) ++ it) in * by (rewrite <- app_assoc; auto). apply (IH (l ++ [x]) m1); auto.
    rewrite map_app. cbn [List.map]. assert (OX : item_ok x) by (apply OK, in_or_app; left; apply in_or_app; cbn; auto). destruct x as [[[q args] f] k]. cbn [fst snd] in *.
    destruct OX as [NX FX]. cbn [fst snd] in NX, FX. eapply minv_step; eauto.
    - intros i I. apply ids_node in I. destruct (named_source _ _ FX) as [path P]. eapply (so_source _ _ _ SO); eauto.
    - intros a o I V i J1 J2. apply in_map_iff in I as [[[[p a'] g] k'] [[= -> <-] I]]. apply ids_node in J1, J2.
      assert (OY : item_ok (p, a, g, k')) by (apply OK, in_or_app; left; apply in_or_app; auto). destruct OY as [NY FY]. cbn [fst snd] in NY, FY.
      destruct (string_dec p q) as [->|Dq]; [|exact (apart_functions p g q f i FY FX Dq J1 J2)].
      pose proof (SEP q a args NY NX V) as ->.
      rewrite !map_app in ND. cbn [List.map fst snd] in ND. apply (NoDup_remove_2 (List.map (fun x : item => fst (fst x)) l ++ []) (List.map (fun x : item => fst (fst x)) it) (q, args)).
      + rewrite <- app_assoc in ND. cbn in ND |- *. rewrite app_nil_r. exact ND.
      + rewrite app_nil_r. apply in_or_app. left. apply in_map_iff. exists (q, args, g, k'). auto.
  Qed.
  Lemma mangled_items s l x : inv s l -> In x l -> ~ no_dollar (snd x).
  Proof.
    intros H I. destruct x as [[[q args] f] m]. apply (in_items _ _ H) in I as [I [_ M]]. cbn [snd]. eapply mangled_dollar; eauto.
    apply (in_known _ _ H) in I as [I _]. apply needed_plain in I. apply I.
  Qed.
  Lemma round_step n s l s' : inv s l -> round variant shuffle types n s = Some (Some s') -> exists it, inv s' (l ++ it).
  Proof.
    intros H R. unfold round in R. set (new := unseen (known s) (collect_instantiations types (callees (metadata s)) (decls s))) in *.
    destruct (unseen_new (known s) (collect_instantiations types (callees (metadata s)) (decls s))) as [NDn INn]. fold new in NDn, INn.
    assert (R' : obind (generate_specializations variant types (decls s) (shuffle n new)) (fun g =>
        obind (ofold (fun m e => specialize_metadata variant m (e_args e) (e_origins e)) (fst g) (metadata s)) (fun m =>
        obind (build_rewrite_map types (known s ++ new)) (fun rm =>
        Some (Some {| decls := List.map (rewrite_decl types rm) (decls s) ++ List.map (fun e => rewrite_decl types rm (DFunction (e_func e))) (fst g);
                      known := known s ++ new; ftypes := ftypes s ++ snd g; metadata := m |})))) = Some (Some s')).
    { destruct new; [discriminate|exact R]. }
    clear R. rename R' into R. clearbody new.
    assert (NN : forall i, In i new -> needed types ds i). { intros i I. apply INn in I as [I _]. apply (collected s l i H) in I. eapply finds_needed; eauto. }
    apply obind_some in R as [[es ts] [G R]]. apply obind_some in R as [m' [M R]]. apply obind_some in R as [rm [RM R]]. injection R as <-. cbn [fst snd] in *.
    unfold generate_specializations in G. apply obind_some in G as [gs [G E]]. injection E as <- <-. apply otraverse_some in G.
    rewrite (in_decls _ _ H) in G. pose proof (OR n new) as PN.
    assert (ON : forall i, In i (shuffle n new) -> needed types ds i) by (intros i I; apply NN; eapply Permutation_in; [symmetry; apply PN|auto]).
    pose proof (fun i g I E => gen_one (known s) l i g (ON i I) (fun x => mangled_items s l x H) E) as GO.
    assert (CP : flat_map copied gs = List.map (entry_of (known s)) (flat_map items_of (shuffle n new))).
    { rewrite <- flat_map_flat. eapply Forall2_flat; [exact G|]. intros i g I E. apply (GO i g I E). }
    pose proof (sort_perm e_name (flat_map copied gs)) as PS. rewrite CP in PS. symmetry in PS. apply Permutation_map_inv in PS as [it [EI PI]]. rewrite CP in *. rewrite EI in *.
    exists it. assert (KO := in_known _ _ H).
    assert (IT : forall q args f m, In (q, args, f, m) it <-> In (q, args) new /\ function_named ds q f /\ mangle_name q args = Some m).
    { intros q args f m. split.
      - intros I. apply (Permutation_in _ (Permutation_sym PI)) in I. apply in_flat_map in I as [i [I J]]. apply in_items_of in J as [-> J]. split; auto.
        eapply Permutation_in; [symmetry; apply PN|auto].
      - intros [I J]. eapply Permutation_in; [apply PI|]. apply in_flat_map. exists (q, args). split; [eapply Permutation_in; eauto|]. apply in_items_of; auto. }
    assert (RG : forall q args f m, In (q, args, f, m) it -> forallb (in_range args) (expr_types (f_body f)) = true).
    { intros q args f m I. apply IT in I as [I [F _]]. assert (I' : In (q, args) (shuffle n new)) by (eapply Permutation_in; eauto).
      destruct (Forall2_left _ _ _ _ G I') as [g [_ E]]. apply (GO _ _ I' E). apply func_at_iff; auto. }
    assert (ITEMS : forall q args f m, In (q, args, f, m) (l ++ it) <-> In (q, args) (known s ++ new) /\ function_named ds q f /\ mangle_name q args = Some m).
    { intros q args f m. rewrite !in_app_iff, (in_items _ _ H), IT. split; [intros [[A B]|[A B]]|intros [[A|A] B]]; auto. }
    assert (KO' : known_ok (known s ++ new)).
    { intros i I. split; [apply in_app_iff in I as [I|I]; auto; apply KO; auto|]. apply (all_mangle (known s) new rm KO NN RM i I). }
    assert (ONCE : NoDup (List.map (fun x : item => fst (fst x)) (l ++ it))).
    { rewrite map_app. assert (N2 : NoDup (List.map (fun x : item => fst (fst x)) it)).
      { eapply Permutation_NoDup; [apply Permutation_map, PI|]. apply items_nodup. eapply Permutation_NoDup; eauto. }
      assert (DJ : forall i, In i (List.map (fun x : item => fst (fst x)) l) -> ~ In i (List.map (fun x : item => fst (fst x)) it)).
      { intros i I J. apply in_map_iff in I as [[[[q args] f] m] [<- I]]. apply in_map_iff in J as [[[[q' args'] f'] m''] [E J]]. cbn [fst] in E. injection E as -> ->.
        apply (in_items _ _ H) in I as [I _]. apply IT in J as [J _]. apply INn in J as [_ J]. auto. }
      apply NoDup_join; auto. exact (in_once _ _ H). }
    split; cbn [decls known ftypes metadata].
    - rewrite (in_decls _ _ H), map_app, (rewrite_source _ _ _ KO NN RM), (rewrite_copies _ _ _ KO NN RM), <- app_assoc. f_equal.
      rewrite map_app. f_equal. rewrite map_map. apply map_ext_in. intros [[[q args] f] m] I. apply (rewrite_new _ _ _ KO NN RM). apply (RG q args f m I).
    - pose proof (in_nodup _ _ H) as N1. assert (DJ : forall i, In i (known s) -> ~ In i new) by (intros i I J; apply INn in J as [_ J]; auto).
      apply NoDup_join; auto.
    - exact KO'.
    - exact ITEMS.
    - exact ONCE.
    - intros q args f m I. apply in_app_iff in I as [I|I]; [eapply in_ranges; eauto|eauto].
    - eapply meta_steps; [apply (in_meta _ _ H)|auto| |exact M].
      intros [[[q args] f] m] I. apply ITEMS in I as [I [F _]]. split; auto. apply KO'; auto.
    - destruct (in_types _ _ H) as [old [-> OT]]. eexists. rewrite <- app_assoc. split; [reflexivity|]. intros nm sc. rewrite in_app_iff, OT.
      assert (NT : In (nm, sc) (sort_by_key fst (List.map (fun e => (e_name e, e_scheme e)) (List.map (entry_of (known s)) it) ++ flat_map external gs)) <->
        exists q args sc0, In (q, args) new /\ ((exists f, function_named ds q f) \/ extern_named ds q) /\ In (q, sc0) types /\ mangle_name q args = Some nm /\ sc = scheme_at args sc0).
      { pose proof (sort_perm fst (List.map (fun e => (e_name e, e_scheme e)) (List.map (entry_of (known s)) it) ++ flat_map external gs)) as PT.
        assert (PE : forall x, In x (sort_by_key fst (List.map (fun e => (e_name e, e_scheme e)) (List.map (entry_of (known s)) it) ++ flat_map external gs)) <->
          In x (List.map (fun e => (e_name e, e_scheme e)) (List.map (entry_of (known s)) it) ++ flat_map external gs))
          by (intros x; split; apply Permutation_in; [symmetry|]; exact PT).
        rewrite PE, in_app_iff, map_map. split.
        - intros [I|I].
          + apply in_map_iff in I as [[[[q args] f] m] [E I]]. cbn in E. injection E as <- <-. apply IT in I as [I [F MG]]. destruct (needed_scheme _ _ (NN _ I)) as [sc0 [_ [IS SC]]].
            exists q, args, sc0. repeat split; auto. left; eauto.
          + apply in_flat_map in I as [g [I J]]. assert (Q : exists i, In i (shuffle n new) /\ generate_one variant types (collect_func_decls (source_at (known s) ++ List.map (fun x => DFunction (copy (known s) x)) l))
              (collect_extern_function_names (source_at (known s) ++ List.map (fun x => DFunction (copy (known s) x)) l)) i = Some g).
            { clear - G I. induction G; [destruct I|]. destruct I as [->|I]; [exists x; cbn; auto|]. destruct IHG as [i [A B]]; auto. exists i. cbn; auto. }
            destruct Q as [[q args] [I' E]]. destruct (GO _ _ I' E) as [_ [GX _]]. apply GX in J. destruct J as [_ [X [MG SE]]]. cbn [fst snd] in *. destruct (needed_scheme _ _ (ON _ I')) as [sc0 [_ [IS SC]]].
            exists q, args, sc0. split; [eapply Permutation_in; [symmetry; apply PN|auto]|]. repeat split; auto. congruence.
        - intros [q [args [sc0 [I [D [IS [MG ->]]]]]]]. destruct (needed_scheme _ _ (NN _ I)) as [sc1 [E1 [_ SC]]].
          assert (sc1 = sc0) by (apply (at_name_iff types q sc0 keys) in IS; congruence). subst sc1. rewrite <- SC.
          destruct (func_at q) as [f|] eqn:F.
          + left. apply in_map_iff. exists (q, args, f, nm). split; auto. apply IT. split; auto. split; auto. apply func_at_iff; auto.
          + right. destruct D as [[f D]|D]; [apply func_at_iff in D; congruence|]. assert (I' : In (q, args) (shuffle n new)) by (eapply Permutation_in; eauto).
            destruct (Forall2_left _ _ _ _ G I') as [g [J E]]. apply in_flat_map. exists g. split; auto. apply (GO _ _ I' E). auto. }
      rewrite NT. unfold scheme_at. split.
      + intros [[q [args [sc0 [A B]]]]|[q [args [sc0 [A B]]]]]; exists q, args, sc0; (split; [apply in_or_app; auto|exact B]).
      + intros [q [args [sc0 [A B]]]]. apply in_app_iff in A as [A|A]; [left|right]; exists q, args, sc0; auto.
  Qed.
End Run.
