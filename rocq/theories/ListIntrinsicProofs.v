From Verif Require Import ListIntrinsicSpec.

Section InstrInd.
  Variable P : instr -> Prop.
  Hypothesis HC : forall c a r, P (Call c a r).
  Hypothesis HR : forall c r, P (Ref c r).
  Hypothesis HI : forall c a r, P (Indirect c a r).
  Hypothesis HO : forall k a r, P (Other k a r).
  Hypothesis HF : forall v i r, P (Field v i r).
  Hypothesis HP : forall e t r, P (Prepend e t r).
  Hypothesis HIf : forall c a b, Forall P a -> Forall P b -> P (If c a b).
  Fixpoint instr_ind' (i : instr) : P i :=
    let fix is (l : list instr) : Forall P l := match l with [] => Forall_nil _ | x :: l' => Forall_cons _ (instr_ind' x) (is l') end in
    match i with
    | Call c a r => HC c a r | Ref c r => HR c r | Indirect c a r => HI c a r | Other k a r => HO k a r
    | Field v i r => HF v i r | Prepend e t r => HP e t r | If c a b => HIf c a b (is a) (is b)
    end.
End InstrInd.

(** ** Names *)
Lemma text_eqb_spec a b : reflect (a = b) (text_eqb a b).
Proof. unfold text_eqb. destruct (list_eq_dec ascii_dec a b); constructor; assumption. Qed.
Lemma text_eqb_eq a b : text_eqb a b = true <-> a = b.
Proof. destruct (text_eqb_spec a b); split; congruence. Qed.
Lemma strip_spec pre : forall t r, strip_prefix pre t = Some r <-> t = pre ++ r.
Proof.
  induction pre as [|c pre IH]; intros t r; cbn [strip_prefix app]; [split; congruence|].
  destruct t as [|d t]; [split; discriminate|]. destruct (ascii_dec c d) as [->|N].
  - rewrite IH. split; congruence.
  - split; [discriminate|]. congruence.
Qed.
Definition special (n : text) : bool := text_eqb (firstn (S (List.length public_name)) n) (public_name ++ txt "$").
Lemma special_spec n : special n = true <-> exists s, n = public_name ++ txt "$" ++ s.
Proof.
  unfold special. rewrite text_eqb_eq. split.
  - intros E. exists (skipn (S (List.length public_name)) n). rewrite app_assoc, <- E. symmetry. apply firstn_skipn.
  - intros [s ->]. rewrite app_assoc. replace (S (List.length public_name)) with (List.length (public_name ++ txt "$")) by reflexivity.
    rewrite firstn_app, Nat.sub_diag, firstn_all, firstn_O, app_nil_r. reflexivity.
Qed.
Lemma is_prepend_spec n : is_prepend_intrinsic n = text_eqb n public_name || special n.
Proof.
  unfold is_prepend_intrinsic. change base with public_name. f_equal. apply eq_true_iff_eq. rewrite special_spec.
  destruct (strip_prefix public_name n) as [r|] eqn:E.
  - apply strip_spec in E. subst n. destruct r as [|c r].
    + split; [discriminate|]. intros [s E]. apply app_inv_head in E. discriminate.
    + rewrite Ascii.eqb_eq. split; [intros ->; exists r; reflexivity|]. intros [s E]. apply app_inv_head in E. cbn in E. congruence.
  - split; [discriminate|]. intros [s ->]. assert (K : strip_prefix public_name (public_name ++ txt "$" ++ s) = Some (txt "$" ++ s)) by (apply strip_spec; reflexivity). congruence.
Qed.
Lemma prepends_spec d : prepends_b d = true <-> prepends d.
Proof. unfold prepends_b, prepends. fold (special (name d)). rewrite andb_true_iff, orb_true_iff, text_eqb_eq, special_spec. reflexivity. Qed.
Lemma prepends_model d : is_prepend_intrinsic (name d) && intrinsic d = prepends_b d.
Proof. rewrite is_prepend_spec. unfold prepends_b, special. apply andb_comm. Qed.
Lemma not_special_base : special public_name = false.
Proof. reflexivity. Qed.

Lemma mem_spec n l : mem n l = true <-> In n l.
Proof.
  unfold mem. rewrite existsb_exists. split; [intros (x & I & E); apply text_eqb_eq in E; congruence|]. intros I. exists n. split; [exact I|]. apply text_eqb_eq. reflexivity.
Qed.
Lemma find_name p n d : find_decl p n = Some d -> In d p /\ name d = n.
Proof. intros E. apply find_some in E as [I E]. apply text_eqb_eq in E. auto. Qed.
Lemma find_unique p d : NoDup (List.map name p) -> In d p -> find_decl p (name d) = Some d.
Proof.
  induction p as [|x p IH]; intros N I; [destruct I|]. cbn [find_decl find]. inversion N as [|? ? Nx N']; subst.
  unfold find_decl. cbn [find]. destruct (text_eqb_spec (name x) (name d)) as [E|E].
  - destruct I as [<-|I]; [reflexivity|]. destruct Nx. rewrite E. apply in_map, I.
  - destruct I as [<-|I]; [congruence|]. apply IH; assumption.
Qed.
Lemma find_none p n : find_decl p n = None <-> ~ In n (all_names p).
Proof.
  unfold find_decl, all_names. split.
  - intros E I. apply in_map_iff in I as (d & <- & I). pose proof (find_none _ _ E d I) as K. cbn in K. destruct (text_eqb_spec (name d) (name d)); congruence.
  - intros N. destruct (find _ p) as [d|] eqn:E; [|reflexivity]. destruct N. apply find_name in E as [I <-]. apply in_map, I.
Qed.

Section Program.
  Variable p : program.
  Hypothesis Unique : NoDup (List.map name p).
  Notation all := (all_names p).
  Notation el := (eligible_names p).
  Notation low := (lower all el).
  Definition bad (n : text) : Prop := stands_for_it p n.
  Definition bad_b (n : text) : bool := match resolve p n with Some d => prepends_b d | None => false end.
  Lemma bad_spec n : bad_b n = true <-> bad n.
  Proof.
    unfold bad_b, bad, stands_for_it. destruct (resolve p n) as [d|].
    - rewrite prepends_spec. split; [intros H; exists d; auto|]. intros (d' & E & H). injection E as <-. exact H.
    - split; [discriminate|]. intros (d & E & _). discriminate.
  Qed.
  Lemma el_spec n : mem n el = match find_decl p n with Some d => prepends_b d | None => false end.
  Proof.
    apply eq_true_iff_eq. rewrite mem_spec. unfold eligible_names. split.
    - intros I. apply in_map_iff in I as (d & <- & I). apply filter_In in I as [I K]. rewrite prepends_model in K. rewrite (find_unique p d Unique I). exact K.
    - destruct (find_decl p n) as [d|] eqn:E; [|discriminate]. intros K. apply find_name in E as [I <-]. apply in_map, filter_In. split; [exact I|]. rewrite prepends_model. exact K.
  Qed.
  Lemma prepends_name d n : prepends_b d = true -> name d = n -> is_prepend_intrinsic n = true.
  Proof. intros K <-. rewrite <- prepends_model in K. apply andb_true_iff in K. apply K. Qed.
  Lemma eligible_spec n : eligible_call all el n = bad_b n.
  Proof.
    unfold eligible_call, intrinsic_declaration, bad_b, resolve. rewrite !el_spec. change base with public_name.
    destruct (find_decl p n) as [d|] eqn:E.
    - assert (M : mem n all = true). { apply mem_spec. destruct (find_name _ _ _ E) as [I <-]. apply in_map, I. }
      rewrite M. destruct (is_prepend_intrinsic n) eqn:K; [reflexivity|]. destruct (prepends_b d) eqn:B; [|reflexivity].
      rewrite (prepends_name d n B) in K; [discriminate|]. apply (find_name _ _ _ E).
    - assert (M : mem n all = false). { destruct (mem n all) eqn:M; [|reflexivity]. apply mem_spec in M. apply find_none in E. contradiction. }
      rewrite M, is_prepend_spec. fold (special n). destruct (text_eqb_spec n public_name) as [->|N]; cbn [orb].
      + rewrite el_spec, E, not_special_base. reflexivity.
      + destruct (special n); [|reflexivity]. rewrite el_spec. destruct (find_decl p public_name) as [b|]; [|reflexivity]. destruct (prepends_b b) eqn:B; [symmetry; exact B|reflexivity].
  Qed.

  Lemma find_run n : find_decl (run p) n = match find_decl p n with Some d => if prepends_b d then None else Some (lower_decl all el d) | None => None end.
  Proof.
    assert (G : forall q, (forall d, In d q -> mem (name d) el = prepends_b d) -> NoDup (List.map name q) ->
      find_decl (List.map (lower_decl all el) (filter (fun d => negb (mem (name d) el)) q)) n =
      match find_decl q n with Some d => if prepends_b d then None else Some (lower_decl all el d) | None => None end).
    { induction q as [|d q IH]; intros H N; [reflexivity|]. inversion N as [|? ? Nd N']; subst. cbn [filter]. rewrite (H d) by (cbn; auto).
      assert (IH' := IH (fun d I => H d (or_intror I)) N'). unfold find_decl in *. cbn [find].
      destruct (text_eqb_spec (name d) n) as [E|E].
      - destruct (prepends_b d) eqn:B; cbn [negb].
        + rewrite IH'. destruct (find _ q) as [d'|] eqn:F; [|reflexivity]. exfalso. apply find_some in F as [I F]. apply text_eqb_eq in F. apply Nd. rewrite E, <- F. apply in_map, I.
        + cbn [List.map find lower_decl name]. destruct (text_eqb_spec (name d) n); [reflexivity|congruence].
      - destruct (prepends_b d) eqn:B; cbn [negb]; [exact IH'|]. cbn [List.map find lower_decl name]. destruct (text_eqb_spec (name d) n); [congruence|exact IH']. }
    apply G; [|exact Unique]. intros d I. rewrite el_spec, (find_unique p d Unique I). reflexivity.
  Qed.
  Lemma prepends_lower d : prepends_b (lower_decl all el d) = prepends_b d.
  Proof. reflexivity. Qed.
  Lemma resolve_run n : resolve (run p) n = match resolve p n with Some d => if prepends_b d then None else Some (lower_decl all el d) | None => None end.
  Proof.
    unfold resolve. rewrite !find_run. fold (special n).
    destruct (find_decl p n) as [d|] eqn:E; [destruct (prepends_b d) eqn:B|].
    - destruct (special n); [|reflexivity]. destruct (find_decl p public_name) as [b|]; [|reflexivity]. destruct (prepends_b b) eqn:Bb; [reflexivity|]. rewrite prepends_lower, Bb. reflexivity.
    - reflexivity.
    - destruct (special n); [|reflexivity]. destruct (find_decl p public_name) as [b|]; [|reflexivity]. destruct (prepends_b b) eqn:Bb; [rewrite Bb; reflexivity|]. rewrite prepends_lower, Bb. reflexivity.
  Qed.

  (** ** Execution *)
  Notation clean := (no_fun bad).
  Lemma clean_list l : fold_right (fun v P => clean v /\ P) True l <-> Forall clean l.
  Proof. induction l as [|v l IH]; cbn [fold_right]; [split; auto|]. rewrite IH. split; [intros [A B]; constructor; assumption|]. intros F. inversion F; auto. Qed.
  Lemma no_ref_list l : fold_right (fun i P => no_ref bad i /\ P) True l <-> Forall (no_ref bad) l.
  Proof. induction l as [|v l IH]; cbn [fold_right]; [split; auto|]. rewrite IH. split; [intros [A B]; constructor; assumption|]. intros F. inversion F; auto. Qed.
  Definition clean_env (e : env) : Prop := Forall (fun kv => clean (snd kv)) e.
  Definition ok {A} (P : A -> Prop) (o : outcome A) : Prop := match o with Done a => P a | _ => True end.
  Lemma get_clean e x : clean_env e -> ok clean (get e x).
  Proof. intros C. unfold get. destruct (find _ e) as [kv|] eqn:E; cbn; auto. apply find_some in E as [I _]. unfold clean_env in C. rewrite Forall_forall in C. apply (C _ I). Qed.
  Lemma gets_clean e xs : clean_env e -> ok (Forall clean) (gets e xs).
  Proof.
    intros C. induction xs as [|x xs IH]; cbn [gets]; [constructor|]. pose proof (get_clean e x C) as G. destruct (get e x) as [v| |]; cbn; auto.
    destruct (gets e xs) as [vs| |]; cbn in *; auto.
  Qed.
  Lemma prepend_clean vs : Forall clean vs -> ok clean (prepend vs).
  Proof.
    intros F. destruct vs as [|v [|w [|]]]; cbn; auto; destruct w; cbn; auto. inversion F as [|? ? A B]; subst. inversion B as [|? ? A' B']; subst. cbn in A'. auto.
  Qed.

  Section Same.
    Variable known known' : text -> bool.
    Variable call call' : text -> list value -> outcome value.
    Hypothesis Known : forall c, ~ bad c -> known' c = known c.
    Hypothesis Same : forall c vs, ~ bad c -> Forall clean vs -> call' c vs = call c vs /\ ok clean (call c vs).
    Hypothesis It : forall c vs, bad c -> call c vs = prepend vs.
    Hypothesis Gone : forall c vs, bad c -> call' c vs = Stuck.

    Lemma exec_if k cl c a b e : exec k cl (If c a b) e = bind (get e c) (fun w => match w with Atom 0 => execs k cl b e | _ => execs k cl a e end).
    Proof. reflexivity. Qed.
    Lemma execs_same l : Forall (fun i => no_ref bad i -> forall e, clean_env e -> exec known' call' (low i) e = exec known call i e /\ ok clean_env (exec known call i e)) l ->
      Forall (no_ref bad) l -> forall e, clean_env e -> execs known' call' (List.map low l) e = execs known call l e /\ ok clean_env (execs known call l e).
    Proof.
      induction l as [|i l IH]; intros H N e C; cbn [List.map execs]; [cbn; auto|].
      inversion H as [|? ? Hi Hl]; subst. inversion N as [|? ? Ni Nl]; subst. destruct (Hi Ni e C) as [-> K].
      destruct (exec known call i e) as [e'| |]; cbn [bind ok] in *; auto.
    Qed.
    Lemma exec_same i : no_ref bad i -> forall e, clean_env e -> exec known' call' (low i) e = exec known call i e /\ ok clean_env (exec known call i e).
    Proof.
      induction i as [c args rs|c r|f args r|k args r|v j r|x t r|c a b Ha Hb] using instr_ind'; intros N e C.
      - cbn [lower]. rewrite eligible_spec. destruct (bad_b c) eqn:B.
        + apply bad_spec in B. destruct rs as [|r [|r' rs]]; [destruct args as [|x [|t [|]]]; cbn; auto| |destruct args as [|x [|t [|]]]; cbn; auto].
          assert (O : ok clean_env (exec known call (Call c args [r]) e)).
          { cbn [exec]. pose proof (gets_clean e args C) as G. destruct (gets e args) as [vs| |]; cbn [bind ok] in *; auto. rewrite (It c vs B).
            pose proof (prepend_clean vs G) as Q. destruct (prepend vs); cbn [bind ok] in *; auto. constructor; assumption. }
          split; [|exact O].
          assert (L : forall l e', gets e l = Done e' -> List.length e' = List.length l).
          { induction l as [|y l IH]; intros e' E; cbn [gets] in E; [injection E as <-; reflexivity|]. destruct (get e y); try discriminate. cbn [bind] in E.
            destruct (gets e l) as [w| |]; try discriminate. cbn [bind] in E. injection E as <-. cbn. f_equal. apply IH. reflexivity. }
          assert (W : List.length args <> 2 -> exec known' call' (Call c args [r]) e = exec known call (Call c args [r]) e).
          { intros Len. cbn [exec]. destruct (gets e args) as [vs| |] eqn:G; cbn [bind]; auto. rewrite (It c vs B), (Gone c vs B). cbn [bind].
            apply L in G. destruct vs as [|v [|w [|]]]; cbn in G; cbn; try reflexivity; [congruence|]. destruct w; reflexivity. }
          destruct args as [|x [|t [|]]]; try (apply W; cbn; discriminate).
          cbn [exec]. destruct (gets e [x; t]) as [vs| |]; cbn [bind]; auto. rewrite (It c vs B). reflexivity.
        + assert (Nb : ~ bad c) by (rewrite <- bad_spec; congruence).
          destruct rs as [|r [|r' rs]]; cbn [exec]; auto. pose proof (gets_clean e args C) as G. destruct (gets e args) as [vs| |]; cbn [bind ok] in *; auto.
          destruct (Same c vs Nb G) as [-> O]. split; [reflexivity|]. destruct (call c vs); cbn [bind ok] in *; auto. constructor; assumption.
      - cbn [lower exec]. cbn [no_ref] in N. rewrite (Known c N). split; [reflexivity|]. destruct (known c); cbn; auto. constructor; assumption.
      - cbn [lower exec]. pose proof (get_clean e f C) as G1. destruct (get e f) as [w| |]; cbn [bind ok] in *; auto.
        pose proof (gets_clean e args C) as G. destruct (gets e args) as [vs| |]; cbn [bind ok] in *; auto. destruct w as [|n| |]; cbn; auto.
        cbn [no_fun] in G1. destruct (Same n vs G1 G) as [-> O]. split; [reflexivity|]. destruct (call n vs); cbn [bind ok] in *; auto. constructor; assumption.
      - cbn [lower exec]. split; [reflexivity|]. pose proof (gets_clean e args C) as G. destruct (gets e args) as [vs| |]; cbn [bind ok] in *; auto.
        constructor; [|assumption]. cbn [snd no_fun]. apply clean_list, G.
      - cbn [lower exec]. split; [reflexivity|]. pose proof (get_clean e v C) as G. destruct (get e v) as [w| |]; cbn [bind ok] in *; auto.
        destruct w as [| |l|k l]; cbn [ok]; auto; cbn [no_fun] in G; apply clean_list in G; destruct (nth_error l j) as [y|] eqn:E; cbn; auto;
          apply nth_error_In in E; constructor; auto; rewrite Forall_forall in G; cbn; auto.
      - cbn [lower]. split; [reflexivity|]. cbn [exec]. pose proof (gets_clean e [x; t] C) as G. destruct (gets e [x; t]) as [vs| |]; cbn [bind ok] in *; auto.
        pose proof (prepend_clean vs G) as Q. destruct (prepend vs); cbn [bind ok] in *; auto. constructor; assumption.
      - cbn [lower]. rewrite !exec_if. cbn [no_ref] in N. destruct N as [Na Nb]. apply no_ref_list in Na, Nb.
        destruct (get e c) as [w| |]; cbn [bind ok]; auto.
        destruct w as [[|w]| | |]; apply execs_same; assumption.
    Qed.
  End Same.

  Hypothesis NoRefs : forall d, In d p -> Forall (no_ref bad) (body d).
  Lemma combine_clean xs : forall vs, Forall clean vs -> clean_env (combine xs vs).
  Proof. induction xs as [|x xs IH]; intros [|v vs] F; cbn; try constructor; inversion F; subst; auto. apply IH. assumption. Qed.
  Lemma resolve_in n d : resolve p n = Some d -> In d p.
  Proof.
    unfold resolve. destruct (find_decl p n) as [d'|] eqn:E; [intros K; injection K as <-; apply (find_name _ _ _ E)|].
    destruct (text_eqb _ _); [|discriminate]. destruct (find_decl p public_name) as [b|] eqn:F; [|discriminate]. destruct (prepends_b b); [|discriminate].
    intros K. injection K as <-. apply (find_name _ _ _ F).
  Qed.
  Lemma invoke_bad fuel n vs : bad n -> invoke fuel p n vs = prepend vs /\ invoke fuel (run p) n vs = Stuck.
  Proof.
    intros (d & E & B). apply prepends_spec in B.
    destruct fuel; cbn [invoke]; rewrite resolve_run, E, B; auto.
  Qed.
  Lemma invoke_same fuel : forall n vs, ~ bad n -> Forall clean vs -> invoke fuel (run p) n vs = invoke fuel p n vs /\ ok clean (invoke fuel p n vs).
  Proof.
    induction fuel as [|fuel IH]; intros n vs Nb F.
    - cbn [invoke]. rewrite resolve_run. destruct (resolve p n) as [d|] eqn:E; [|cbn; auto]. destruct (prepends_b d) eqn:B; [|rewrite prepends_lower, B; cbn; auto].
      destruct Nb. exists d. split; [exact E|apply prepends_spec, B].
    - cbn [invoke]. rewrite resolve_run. destruct (resolve p n) as [d|] eqn:E; [|cbn; auto]. destruct (prepends_b d) eqn:B.
      { destruct Nb. exists d. split; [exact E|apply prepends_spec, B]. }
      rewrite prepends_lower, B. cbn [lower_decl params body ret]. destruct (List.length (params d) =? List.length vs); [|cbn; auto].
      set (k := fun c => match resolve p c with Some _ => true | None => false end).
      set (k' := fun c => match resolve (run p) c with Some _ => true | None => false end).
      destruct (execs_same k k' (invoke fuel p) (invoke fuel (run p)) (body d)) with (e := combine (params d) vs) as [-> O].
      + apply Forall_forall. intros i _ Ni. apply exec_same; auto.
        * intros c Nc. unfold k, k'. rewrite resolve_run. destruct (resolve p c) as [dc|] eqn:Ec; [|reflexivity].
          destruct (prepends_b dc) eqn:Bc; [|reflexivity]. destruct Nc. exists dc. split; [exact Ec|apply prepends_spec, Bc].
        * intros c ws Bc. apply invoke_bad, Bc.
        * intros c ws Bc. apply invoke_bad, Bc.
      + apply NoRefs, (resolve_in n), E.
      + apply combine_clean, F.
      + split; [reflexivity|]. destruct (execs _ _ (body d) _) as [e'| |]; cbn [bind ok] in *; auto. apply get_clean, O.
  Qed.
End Program.

(** ** What is left *)
Lemma lower_calls p c args rs i : NoDup (List.map name p) -> calls c args rs (lower (all_names p) (eligible_names p) i) ->
  calls c args rs i /\ (stands_for_it p c -> List.length args <> 2 \/ List.length rs <> 1).
Proof.
  intros U. induction i as [c' a r|c' r|f a r|k a r|v j r|x t r|c' a b Ha Hb] using instr_ind'; cbn [lower]; intros H; try (inversion H; fail).
  - rewrite (eligible_spec p U) in H. destruct (bad_b p c') eqn:B.
    + destruct a as [|x [|t [|]]]; try (inversion H; subst; split; [constructor|cbn; intros _; left; discriminate]; fail).
      destruct r as [|r [|]]; try (inversion H; subst; split; [constructor|cbn; intros _; right; discriminate]; fail). inversion H.
    + inversion H; subst. split; [constructor|]. intros S. apply bad_spec in S. congruence.
  - inversion H as [|y a' b' i Ii Ci E|y a' b' i Ii Ci E]; subst; apply in_map_iff in Ii as (j & <- & Ij); rewrite Forall_forall in Ha, Hb.
    + destruct (Ha j Ij Ci) as [K L]. split; [eapply CYes; eauto|exact L].
    + destruct (Hb j Ij Ci) as [K L]. split; [eapply CNo; eauto|exact L].
Qed.
Lemma run_left p d : NoDup (List.map name p) -> In d (run p) -> ~ prepends d /\
  forall i c args rs, In i (body d) -> calls c args rs i -> stands_for_it p c -> List.length args <> 2 \/ List.length rs <> 1.
Proof.
  intros U I. unfold run in I. apply in_map_iff in I as (d0 & <- & I). apply filter_In in I as [I M]. split.
  - intros B. apply prepends_spec in B. rewrite prepends_lower in B. rewrite (el_spec p U), (find_unique p d0 U I), B in M. discriminate.
  - intros i c args rs Ii Ci S. cbn [lower_decl body] in Ii. apply in_map_iff in Ii as (j & <- & Ij). apply (lower_calls p c args rs j U Ci), S.
Qed.
Lemma run_none p : (forall d, In d p -> ~ prepends d) -> run p = p.
Proof.
  intros H. assert (E : eligible_names p = []).
  { unfold eligible_names. assert (F : filter (fun d => is_prepend_intrinsic (name d) && intrinsic d) p = []); [|rewrite F; reflexivity].
    induction p as [|d p IH]; [reflexivity|]. cbn [filter]. rewrite prepends_model. destruct (prepends_b d) eqn:B; [apply prepends_spec in B; destruct (H d); cbn; auto|]. apply IH. intros; apply H; cbn; auto. }
  unfold run. rewrite E. set (al := all_names p). clearbody al.
  assert (L : forall i, lower al [] i = i).
  { induction i as [c' a r|c' r|f a r|k a r|v j r|x t r|c' a b Ha Hb] using instr_ind'; cbn [lower]; try reflexivity.
    - unfold eligible_call. destruct (intrinsic_declaration c'); [|reflexivity]. cbn [mem existsb]. destruct (mem c' al); reflexivity.
    - f_equal; [rewrite <- (map_id a) at 2|rewrite <- (map_id b) at 2]; apply map_ext_in; intros i Ii; rewrite Forall_forall in Ha, Hb; auto. }
  clear E H. induction p as [|d p IH]; [reflexivity|]. cbn [filter mem existsb negb List.map]. cbn [mem existsb] in IH. f_equal; [|exact IH].
  destruct d as [n ii ps b r]. unfold lower_decl. cbn. f_equal. rewrite <- (map_id b) at 2. apply map_ext. exact L.
Qed.
