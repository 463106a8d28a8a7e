(** Functions and modules. *)
From Coq Require Import Lia.
From Verif Require Export BuildMain OpTextModule.
Local Open Scope nat_scope.

(** ** Attributes that are printed as part of a signature *)
Definition drop (k : text) (l : list (text * attr)) : list (text * attr) := filter (fun kv => negb (text_eqb (fst kv) k)) l.
Lemma others_drop l : other_attrs l = drop (lit "sym_name") (drop (lit "type") l).
Proof.
  unfold other_attrs, drop. induction l as [|[k v] l IH]; cbn [filter fst]; auto. destruct (text_eqb k (lit "type")) eqn:E1, (text_eqb k (lit "sym_name")) eqn:E2; cbn [negb andb filter fst]; rewrite ?E1, ?E2; cbn [negb]; rewrite IH; reflexivity.
Qed.
Lemma drop_none k l : attr_at k l = None -> drop k l = l.
Proof. unfold drop. induction l as [|[k' v] l IH]; cbn [filter fst attr_at]; auto. destruct (text_eqb k' k); [discriminate|]. cbn. intros H. rewrite IH; auto. Qed.
Lemma drop_at k k' l : k <> k' -> attr_at k (drop k' l) = attr_at k l.
Proof.
  intros N. unfold drop. induction l as [|[j v] l IH]; cbn [filter fst attr_at]; auto. destruct (text_eqb j k') eqn:E; cbn [negb].
  - apply text_eqb_spec in E as ->. destruct (text_eqb k' k) eqn:F; [apply text_eqb_spec in F; congruence|exact IH].
  - cbn [attr_at]. rewrite IH. reflexivity.
Qed.
Lemma drop_sorted k l : StronglySorted below (map fst l) -> StronglySorted below (map fst (drop k l)).
Proof.
  unfold drop. induction l as [|[j v] l IH]; cbn [filter fst map]; auto. intros S. inversion S as [|? ? S' F]; subst. destruct (text_eqb j k); cbn [negb map fst]; auto. constructor; auto.
  rewrite Forall_forall in *. intros x X. apply F. apply in_map_iff in X as (y & <- & Y). apply filter_In in Y as [Y _]. apply in_map. exact Y.
Qed.
Lemma attr_in k l v : attr_at k l = Some v -> In (k, v) l.
Proof. induction l as [|[j w] l IH]; cbn [attr_at]; [discriminate|]. destruct (text_eqb j k) eqn:E; intros H; [|right; auto]. injection H as ->. apply text_eqb_spec in E as ->. left. reflexivity. Qed.
Lemma put_back k v l : StronglySorted below (map fst l) -> attr_at k l = Some v -> put k v (drop k l) = l.
Proof.
  unfold drop. induction l as [|[j w] l IH]; cbn [filter fst attr_at map]; [discriminate|]. intros S. inversion S as [|? ? S' F]; subst. destruct (text_eqb j k) eqn:E; cbn [negb]; intros H.
  - injection H as ->. apply text_eqb_spec in E as ->. assert (Dn : filter (fun kv : text * attr => negb (text_eqb (fst kv) k)) l = l).
    { apply drop_none. destruct (attr_at k l) eqn:A; auto. apply attr_in in A. apply (in_map fst) in A. rewrite Forall_forall in F. apply F in A. unfold below in A. cbn in A. rewrite (c_refl _ _ text_comparator) in A. discriminate. }
    rewrite Dn. destruct l as [|[j w] l]; [reflexivity|]. cbn [put]. inversion F as [|? ? Q _]; subst. cbn in Q. unfold below in Q. rewrite Q. reflexivity.
  - cbn [put]. pose proof (attr_in _ _ _ H) as A. apply (in_map fst) in A. rewrite Forall_forall in F. apply F in A. cbn [fst] in A. unfold below in A. rewrite (c_opp _ text_comparator j k), A. cbn [CompOpp]. rewrite IH; auto.
Qed.
Lemma add_back k l v : StronglySorted below (map fst l) -> (forall x, v = Some x -> attr_at k l = Some x) -> (v = None -> attr_at k l = None) -> add_opt k v (drop k l) = l.
Proof. intros S A B. destruct v as [x|]; cbn [add_opt]; [apply put_back; auto|apply drop_none; auto]. Qed.

Section Top.
  Variable al : ty -> option text.
  Variable e : env.
  Hypothesis resolves : forall t, plain t -> build_type e (abbreviated al t) = Some t.

  Lemma attrs_back attrs sg : Forall (fun kv => plain_attr (snd kv)) attrs -> StronglySorted below (map fst attrs) ->
    (attr_at (lit "sym_name") attrs = None \/ exists s, attr_at (lit "sym_name") attrs = Some (Symbol s)) ->
    (forall t, sg = Some t -> attr_at (lit "type") attrs = Some (Type_ t)) -> (sg = None -> attr_at (lit "type") attrs = None) ->
    exists base, build_entries e (entries_read al (other_attrs attrs)) = Some base
      /\ add_opt (lit "type") (option_map Type_ sg) (add_opt (lit "sym_name") (option_map Symbol (sym_read attrs)) base) = attrs.
  Proof.
    intros P S Sy T1 T2. exists (other_attrs attrs). split.
    - apply entries_resolve; auto; [|rewrite others_drop; auto using drop_sorted]. unfold other_attrs. rewrite Forall_forall in *. intros kv I. apply filter_In in I as [I _]. auto.
    - rewrite others_drop. rewrite (add_back (lit "sym_name") (drop (lit "type") attrs)).
      + apply add_back; auto; destruct sg; cbn; try discriminate; auto. intros x H. injection H as <-. auto.
      + auto using drop_sorted.
      + intros x H. rewrite drop_at by discriminate. unfold sym_read in H. destruct Sy as [Sy|(s & Sy)]; rewrite Sy in *; cbn in H; [discriminate|]. injection H as <-. reflexivity.
      + intros H. rewrite drop_at by discriminate. unfold sym_read in H. destruct Sy as [Sy|(s & Sy)]; rewrite Sy in *; [reflexivity|discriminate].
  Qed.

  Lemma plain_func_type attrs r ps : Forall (fun kv => plain_attr (snd kv)) attrs -> attr_at (lit "type") attrs = Some (Type_ (Ty (lit "core") (lit "func") (r :: ps) [])) -> plain r /\ Forall plain ps.
  Proof.
    intros P A. apply attr_in in A. rewrite Forall_forall in P. apply P in A. cbn [snd] in A. inversion A as [? Pt| |? H _]; subst; [|edestruct H; reflexivity]. inversion Pt as [? ? ? ? Pp _ _]; subst. inversion Pp; auto.
  Qed.
  Lemma signature_at attrs r ps : attr_at (lit "type") attrs = Some (Type_ (Ty (lit "core") (lit "func") (r :: ps) [])) -> signature attrs = Some (r, ps).
  Proof. intros A. unfold signature. rewrite A. reflexivity. Qed.
  Lemma signature_none attrs : attr_at (lit "type") attrs = None -> signature attrs = None.
  Proof. intros A. unfold signature. rewrite A. reflexivity. Qed.
  Lemma signature_build r ps (params : list (text * ty)) : plain r -> Forall plain ps -> map snd params = map (abbreviated al) ps -> build_signature e params (Some (abbreviated al r)) = Some (Some (core_func r ps)).
  Proof.
    intros P1 P2 E. unfold build_signature. replace (match params with [] => _ | _ => _ end) with (match build_type e (abbreviated al r), all_some (map (fun a : text * ty => build_type e (snd a)) params) with Some r, Some ps => Some (Some (core_func r ps)) | _, _ => None end) by (destruct params; reflexivity).
    rewrite resolves by exact P1. rewrite <- map_map with (f := snd) (g := build_type e). rewrite E, (types_resolve al e resolves) by exact P2. reflexivity.
  Qed.
  Lemma combine_snd {A B} : forall (l : list A) (l' : list B), List.length l = List.length l' -> map snd (combine l l') = l'.
  Proof. induction l as [|a l IH]; intros [|b l'] H; cbn in *; try discriminate; auto. rewrite IH; auto. Qed.

  Definition idle (st : bstate) : Prop := values (sc st) = [] /\ types (sc st) = e.
  Lemma idle_visible st : idle st -> visible e st [] [] (fun x => x) (fun x => x) [].
  Proof. intros [V T]. constructor; try (intros n []); auto. rewrite V. intros k []. Qed.

  Lemma extra_entry (extra : list (text * ty)) lab rest st : create_blocks extra st ((lab, []) :: rest) = create_blocks [] st ((lab, extra) :: rest).
  Proof. destruct extra; reflexivity. Qed.
  Lemma region_scope im extra st r st' r' : build_region im extra st r = Some (st', r') -> sc st' = sc st.
  Proof.
    destruct r as [defs blocks]. cbn [build_region]. destruct (match defs with [] => false | _ => negb im end); [discriminate|]. destruct (build_defs _ defs); [|discriminate].
    destruct (create_blocks _ _ _) as [[st1 c]|]; [|discriminate]. destruct (fill _ _ _ _) as [[st2 bs]|]; [|discriminate]. intros H. injection H as <- <-. reflexivity.
  Qed.
  Lemma regions_scope im : forall l extra st st' l', build_regions (build_region im) extra st l = Some (st', l') -> sc st' = sc st.
  Proof.
    induction l as [|r l IH]; intros extra st st' l'; cbn [build_regions]; [intros H; injection H as <- <-; reflexivity|]. destruct (build_region im extra st r) as [[st1 r']|] eqn:E; [|discriminate].
    destruct (build_regions _ [] st1 l) as [[st2 l2]|] eqn:E2; [|discriminate]. intros H. injection H as <- <-. apply region_scope in E. apply IH in E2. congruence.
  Qed.
  Lemma op_scope st o st' o' : build_op st o = Some (st', o') -> match o with RawOp results _ _ _ _ _ _ _ _ _ _ => results = [] end -> sc st' = sc st.
  Proof.
    destruct o as [results d n sym params ret operands attrs rtypes regions succs]. cbn [build_op]. intros H ->. repeat (match type of H with context [match ?x with Some _ => _ | None => _ end] => let Q := fresh "Q" in destruct x as [?|] eqn:Q; [|discriminate] end).
    destruct p as [st1 rs]. apply regions_scope in Q4. injection H as <- _. exact Q4.
  Qed.
  Lemma reread_func attrs regions : reread al (Op [] (lit "func") (lit "func") [] [] attrs [] regions) =
    RawOp [] (lit "func") (lit "func") (sym_read attrs) (params_read al attrs regions) (ret_read al attrs) [] (entries_read al (other_attrs attrs)) []
            match regions with
            | [] => []
            | Region blocks :: _ =>
                [RawRegion []
                   match blocks with
                   | [] => []
                   | [Block _ _ []] => []
                   | [Block _ _ ops] => [RawBlock (lit "bb0") [] (map (reread al) ops)]
                   | Block b _ ops :: l => RawBlock (bb b) [] (map (reread al) ops) :: map (raw_of al) l
                   end]
            end [].
  Proof. reflexivity. Qed.
  Lemma build_func st st' attrs params ret sym others base sg raws regions :
    build_entries (types (sc st)) others = Some base -> build_signature (types (sc st)) params ret = Some sg ->
    add_opt (lit "type") (option_map Type_ sg) (add_opt (lit "sym_name") (option_map Symbol sym) base) = attrs ->
    build_regions (build_region false) params st raws = Some (st', regions) ->
    build_op st (RawOp [] (lit "func") (lit "func") sym params ret [] others [] raws []) = Some (st', Op [] (lit "func") (lit "func") [] [] attrs [] regions).
  Proof.
    intros E1 E2 E3 E4. cbn [build_op map all_some]. rewrite E1, E2. change (is_op (lit "func") (lit "func") "core" "module") with false. rewrite E4, E3. cbn [List.length seq map N.of_nat]. rewrite N.add_0_r. destruct st'. reflexivity.
  Qed.
  Lemma top_build o : top_level o -> (match o with Op _ d n _ _ _ _ _ => is_op d n "func" "func" = true end -> entry_zero (fun x => x) o) -> NoDup (op_values o) -> NoDup (op_blocks o) -> forall st, idle st ->
    exists st' f' g', build_op st (reread al o) = Some (st', rename f' g' o) /\ fresh_on f' (op_values o) (fresh_v st) (fresh_v st') /\ fresh_on g' (op_blocks o) (fresh_b st) (fresh_b st') /\ sc st' = sc st.
  Proof.
    intros T Z DV DB st Id. pose proof (idle_visible st Id) as V. inversion T as [d n operands succs attrs rtypes regions G S|attrs r ps P So Sy Ty_|attrs blocks P So Sy Ty_ En G S]; subst.
    - destruct (proj1 (building_ok al e resolves) _ G st (fun x => x) (fun x => x) [] [] [] S V) as (st' & f' & g' & E & [_ _ B1 B2] & K); auto; try (intros x _ []).
      exists st', f', g'. split; auto. split; auto. split; auto. eapply op_scope; [exact E|]. inversion G as [? ? ? ? ? ? ? ? NF _ _ _ _ _ _]; subst. rewrite reread_generic by exact NF. reflexivity.
    - assert (Sg : signature attrs = Some (r, ps)) by (apply signature_at; exact Ty_). destruct (plain_func_type _ _ _ P Ty_) as [Pr Pp]. rewrite reread_func.
      destruct (attrs_back attrs (Some (core_func r ps)) P So Sy) as (base & E1 & E2); [intros t H; injection H as <-; exact Ty_|discriminate|].
      exists st, (fun x => x), (fun x => x). split; [|split; [|split]]; [|cbn; apply fresh_nil|cbn; apply fresh_nil|reflexivity].
      assert (Pb : build_signature e (params_read al attrs []) (ret_read al attrs) = Some (Some (core_func r ps))).
      { unfold params_read, ret_read. rewrite Sg. cbn [option_map fst]. apply signature_build; auto. rewrite map_map. cbn [snd]. rewrite <- map_map with (f := snd) (g := abbreviated al). rewrite combine_snd by (rewrite map_length, seq_length; reflexivity). reflexivity. }
      destruct Id as [_ Te]. rewrite <- Te in *. eapply build_func; eauto.
    - assert (DV' : NoDup (flat_map block_values blocks)) by (rewrite op_values_eq in DV; cbn [flat_map app] in DV; rewrite app_nil_r in DV; exact DV).
      assert (DB' : NoDup (flat_map block_blocks blocks)) by (rewrite op_blocks_eq in DB; cbn [flat_map app] in DB; rewrite app_nil_r in DB; exact DB).
      set (params := params_read al attrs [Region blocks]).
      assert (Sg : exists sg, build_signature e params (ret_read al attrs) = Some sg /\ (forall t, sg = Some t -> attr_at (lit "type") attrs = Some (Type_ t)) /\ (sg = None -> attr_at (lit "type") attrs = None)).
      { unfold params, params_read, ret_read. destruct Ty_ as [(r & Ty_)|(Ty_ & Bt)].
        - rewrite (signature_at _ _ _ Ty_). destruct (plain_func_type _ _ _ P Ty_) as [Pr Pp]. exists (Some (core_func r (body_types blocks))). split; [|split; [intros t H; injection H as <-; exact Ty_|discriminate]].
          cbn [option_map fst]. apply signature_build; auto. destruct blocks as [|[b args ops] l]; cbn [body_types]; auto. rewrite !map_map. reflexivity.
        - rewrite (signature_none _ Ty_). exists None. split; [|split; [discriminate|auto]]. destruct blocks as [|[b [|a args] ops] l]; cbn in Bt; try discriminate; reflexivity. }
      destruct Sg as (sg & Sg & St & Sn). destruct (attrs_back attrs sg P So Sy St Sn) as (base & E1 & E2).
      assert (R : exists st' f' g', build_region false params st (match reread al (Op [] (lit "func") (lit "func") [] [] attrs [] [Region blocks]) with RawOp _ _ _ _ _ _ _ _ _ [r] _ => r | _ => RawRegion [] [] end)
                    = Some (st', Region (map (rename_block f' g') blocks)) /\ built st st' (fun x => x) f' (fun x => x) g' (flat_map block_values blocks) (flat_map block_blocks blocks) /\ sc st' = sc st).
      { rewrite reread_func. cbv iota. destruct (blocks_NoDup _ DB') as (DB1 & _ & _). pose proof (fun b => proj2 (proj2 (building_ok al e resolves)) b) as HB.
        destruct blocks as [|[b args ops] l].
        - exists st, (fun x => x), (fun x => x). split; [|split; [apply built_refl|reflexivity]]. destruct Id as [Iv Te]. destruct st as [[v lb ty_] fv fb]. reflexivity.
        - destruct l as [|b2 l].
          + destruct ops as [|o ops]; [destruct En|]. cbn [body_types] in *. assert (Zb : b = 0%N) by (apply Z; reflexivity). subst b. 
            pose proof (region_core al e resolves [(lit "bb0", Block 0 args (o :: ops))] [RawBlock (lit "bb0") [] (map (reread al) (o :: ops))] params false st (fun x => x) (fun x => x) [] [0%N] [] []) as K. cbn [map snd fst] in K.
            apply K; auto. * intros st0. apply extra_entry.
            * constructor; [intros []|constructor]. * intros x [<-|[]]. exists (Block 0 args (o :: ops)). split; [left; reflexivity|reflexivity]. * intros x _ [].
          + assert (K0 : (match ops with [] => RawBlock (bb b) [] (map (reread al) ops) :: map (raw_of al) (b2 :: l) | _ => RawBlock (bb b) [] (map (reread al) ops) :: map (raw_of al) (b2 :: l) end) = RawBlock (bb b) [] (map (reread al) ops) :: map (raw_of al) (b2 :: l)) by (destruct ops; reflexivity).
            rewrite K0. pose proof (region_core al e resolves (map labelled (Block b args ops :: b2 :: l)) (RawBlock (bb b) [] (map (reread al) ops) :: map (raw_of al) (b2 :: l)) params false st (fun x => x) (fun x => x) [] (map block_name (Block b args ops :: b2 :: l)) [] []) as K.
            rewrite labelled_snd in K. apply K; auto.
            * intros st0. transitivity (create_blocks [] st0 ((bb b, params) :: map raw_head (map (raw_of al) (b2 :: l)))); [apply (extra_entry params (bb b))|]. rewrite raw_heads. reflexivity.
            * constructor; [reflexivity|apply raw_bodies]. * apply Forall_forall. intros b' _. apply HB. * apply labelled_NoDup. exact DB1. * intros b' B'. apply labelled_in. exact B'. * intros x _ []. }
      destruct R as (st' & f' & g' & R & [_ _ B1 B2] & K). exists st', f', g'. rewrite op_values_eq, op_blocks_eq. cbn [flat_map app]. rewrite !app_nil_r. split; [|auto].
      rewrite rename_op_eq. cbn [map]. rewrite rename_region_eq. rewrite reread_func in *. cbv iota in R. destruct Id as [_ Te]. rewrite <- Te in *.
      eapply build_func; eauto. cbn [build_regions]. fold params. rewrite R. reflexivity.
  Qed.
End Top.

(** ** Renaming what stands in a module *)
Lemma body_rename f g blocks : body_types (map (rename_block f g) blocks) = body_types blocks.
Proof. destruct blocks as [|[b args ops] l]; cbn; auto. rewrite map_map. reflexivity. Qed.
Lemma top_rename f g o : top_level o -> top_level (rename f g o).
Proof.
  intros T. inversion T as [d n operands succs attrs rtypes regions G S|attrs r ps P So Sy Ty_|attrs blocks P So Sy Ty_ En G S]; subst.
  - rewrite rename_op_eq. cbn [map]. apply (proj1 (rename_generic f g)) in G. apply (proj1 (rename_scoped f g)) in S. constructor; [exact G|exact S].
  - rewrite rename_op_eq. cbn [map]. eapply top_declared; eauto.
  - rewrite rename_op_eq. cbn [map]. rewrite rename_region_eq. apply top_function; auto.
    + rewrite body_rename. exact Ty_.
    + destruct blocks as [|[b args [|o ops]] [|b2 l]]; cbn in *; auto.
    + rewrite Forall_map. rewrite Forall_forall in *. intros b B. apply (proj2 (proj2 (rename_generic f g))). auto.
    + apply (blocks_rename f g) in S. cbn [map] in S. rewrite map_map in S. rewrite map_map. erewrite map_ext; [exact S|]. intros []. reflexivity.
Qed.
Lemma top_ext f f' g g' o : top_level o -> agree f f' (op_values o) -> agree g g' (op_blocks o) -> rename f g o = rename f' g' o.
Proof.
  intros T A B. inversion T as [d n operands succs attrs rtypes regions G S|attrs r ps P So Sy Ty_|attrs blocks P So Sy Ty_ En G S]; subst.
  - apply (proj1 (rename_ext f f' g g') _ [] [] S); assumption.
  - reflexivity.
  - rewrite !rename_op_eq. cbn [map]. rewrite !rename_region_eq. f_equal. f_equal. f_equal. rewrite op_values_eq in A. rewrite op_blocks_eq in B. cbn [flat_map app] in A, B. rewrite app_nil_r in A, B. rewrite region_values_eq in A. rewrite region_blocks_eq in B.
    apply (rename_blocks_ext f f' g g' _ _ [] S); [exact A|]. apply agree_app; [eapply agree_incl; [exact B|apply names_incl]|exact B].
Qed.
Lemma zero_rename f g o : (match o with Op _ d n _ _ _ _ _ => is_op d n "func" "func" = true end -> entry_zero g o) ->
  match rename f g o with Op _ d n _ _ _ _ _ => is_op d n "func" "func" = true end -> entry_zero (fun x => x) (rename f g o).
Proof. destruct o as [results d n operands succs attrs rtypes [|[[|[b args ops] l]] [|]]]; cbn; auto. Qed.

Definition numbered_as (o on : op) : Prop := exists f g, on = rename f g o /\ one_to_one f (op_values o) /\ one_to_one g (op_blocks o) /\ (match o with Op _ d n _ _ _ _ _ => is_op d n "func" "func" = true end -> entry_zero g o).
Lemma module_named ops : Forall top_level ops -> NoDup (flat_map op_values ops) -> NoDup (flat_map op_blocks ops) -> exists nops, name_module ops = Some nops /\ Forall2 numbered_as ops nops.
Proof.
  unfold name_module. induction 1 as [|o l T F IH]; cbn [flat_map]; intros DV DB; [exists []; split; auto|]. destruct (NoDup_cut _ _ DV) as (DV1 & DV2 & _). destruct (NoDup_cut _ _ DB) as (DB1 & DB2 & _).
  destruct (top_named o T DV1 DB1) as (f & g & E & A & B & C). destruct (IH DV2 DB2) as (nops & E2 & F2). exists (rename f g o :: nops). cbn [map all_some]. rewrite E, E2. split; auto. constructor; auto. exists f, g. auto.
Qed.
Lemma NoDup_map_on (f : N -> N) l : one_to_one f l -> NoDup l -> NoDup (map f l).
Proof.
  intros I D. induction D as [|x l Nx D IH]; cbn; constructor.
  - intros J. apply in_map_iff in J as (y & E & J). assert (y = x) by (apply I; [right; exact J|left; reflexivity|exact E]). subst. auto.
  - apply IH. intros a b A B. apply I; right; assumption.
Qed.
Lemma fresh_compose f h l lo hi : one_to_one f l -> fresh_on h (map f l) lo hi -> fresh_on (fun x => h (f x)) l lo hi.
Proof. intros I (L & A & B). split; auto. split; [intros x X; apply A, in_map, X|]. intros x y X Y E. apply I; auto. apply B; auto using in_map. Qed.

Lemma tops_build al e : (forall t, plain t -> build_type e (abbreviated al t) = Some t) -> forall ops nops, Forall2 numbered_as ops nops -> Forall top_level ops -> NoDup (flat_map op_values ops) -> NoDup (flat_map op_blocks ops) ->
  forall st, idle e st -> exists st' F G, thread build_op st (map (reread al) nops) = Some (st', map (rename F G) ops) /\ fresh_on F (flat_map op_values ops) (fresh_v st) (fresh_v st')
    /\ fresh_on G (flat_map op_blocks ops) (fresh_b st) (fresh_b st') /\ sc st' = sc st.
Proof.
  intros R. induction 1 as [|o on ops nops N F2 IH]; intros T DV DB st Id.
  - exists st, (fun x => x), (fun x => x). split; [reflexivity|]. auto using fresh_nil.
  - cbn [flat_map] in *. inversion T as [|? ? T1 T2]; subst. destruct (NoDup_cut _ _ DV) as (DV1 & DV2 & DV3). destruct (NoDup_cut _ _ DB) as (DB1 & DB2 & DB3). destruct N as (f & g & -> & If & Ig & Z).
    destruct (top_build al e R (rename f g o) (top_rename f g o T1) (zero_rename f g o Z)) with (st := st) as (st1 & f1 & g1 & E1 & B1 & B2 & K1); auto.
    { rewrite (proj1 (rename_values f g)). apply NoDup_map_on; assumption. } { rewrite (proj1 (rename_blocks f g)). apply NoDup_map_on; assumption. }
    rewrite (proj1 (rename_values f g)) in B1. rewrite (proj1 (rename_blocks f g)) in B2. apply fresh_compose in B1; [|exact If]. apply fresh_compose in B2; [|exact Ig]. rewrite (proj1 (rename_rename f1 g1 f g)) in E1.
    destruct (IH T2 DV2 DB2 st1) as (st2 & F' & G' & E2 & C1 & C2 & K2); [unfold idle; rewrite K1; exact Id|].
    set (h := fun x => f1 (f x)) in *. set (k := fun x => g1 (g x)) in *.
    set (F := fun x => if in_dec N.eq_dec x (flat_map op_values ops) then F' x else h x). set (G := fun x => if in_dec N.eq_dec x (flat_map op_blocks ops) then G' x else k x).
    assert (OF : off h F (flat_map op_values ops)) by (intros x X; unfold F; destruct (in_dec _ _ _); [contradiction|reflexivity]).
    assert (OG : off k G (flat_map op_blocks ops)) by (intros x X; unfold G; destruct (in_dec _ _ _); [contradiction|reflexivity]).
    assert (AF : agree F' F (flat_map op_values ops)) by (intros x X; unfold F; destruct (in_dec _ _ _); [reflexivity|contradiction]).
    assert (AG : agree G' G (flat_map op_blocks ops)) by (intros x X; unfold G; destruct (in_dec _ _ _); [reflexivity|contradiction]).
    assert (Fx : forall (a b : N -> N) l lo hi, agree a b l -> fresh_on a l lo hi -> fresh_on b l lo hi).
    { intros a b l lo hi A (L & P & Q). split; auto. split; [intros x X; rewrite <- (A x X); auto|]. intros x y X Y. rewrite <- (A x X), <- (A y Y). auto. }
    exists st2, F, G. cbn [map thread]. rewrite E1, E2. split; [|split; [|split]].
    + f_equal. f_equal. f_equal.
      * apply top_ext; auto; eapply agree_off; eauto; apply apart_sym; assumption.
      * apply map_ext_in. intros o' I. rewrite Forall_forall in T2. apply top_ext; auto; eapply agree_incl; eauto; intros x X; apply in_flat_map; eauto.
    + eapply fresh_app; eauto.
    + eapply fresh_app; eauto.
    + congruence.
Qed.

Lemma def_read_known ds : map def_read (map as_known ds) = map read_def ds.
Proof. rewrite map_map. apply map_ext. intros [[name m] t]. reflexivity. Qed.
Definition name_attrs (name : option text) : list (text * attr) := match name with Some s => [(lit "sym_name", Symbol s)] | None => [] end.

Lemma module_built al e defs ops nops name st : (forall t, plain t -> build_type e (abbreviated al t) = Some t) -> build_defs (types (sc st)) defs = Some e -> values (sc st) = [] ->
  Forall2 numbered_as ops nops -> Forall top_level ops -> NoDup (flat_map op_values ops) -> NoDup (flat_map op_blocks ops) ->
  exists st' b ops', build_op st (RawOp [] (lit "core") (lit "module") name [] None [] [] [] [RawRegion defs [RawBlock (lit "bb0") [] (map (reread al) nops)]] []) =
    Some (st', Op [] (lit "core") (lit "module") [] [] (name_attrs name) [] [Region [Block b [] ops']]) /\ isomorphic ops ops'.
Proof.
  intros R D V F2 T DV DB. cbn [build_op map all_some build_entries build_signature option_map]. change (is_op (lit "core") (lit "module") "core" "module") with true. cbn [build_regions build_region negb].
  replace (match defs with [] => false | _ => false end) with false by (destruct defs; reflexivity). rewrite D. cbn [map create_blocks with_scope sc labels types values has block_args all_some fresh_v fresh_b register fst combine fill].
  unfold has. cbn [fetch find option_map]. cbn [fill].
  match goal with |- context [thread build_op ?s _] => set (s0 := s) end.
  destruct (tops_build al e R ops nops F2 T DV DB s0) as (st' & F & G & E & B1 & B2 & K). { split; [exact V|reflexivity]. }
  rewrite E. cbn [List.length seq map N.of_nat]. do 3 eexists. split; [|exists F, G; split; [exact (proj2 (proj2 B1))|split; [exact (proj2 (proj2 B2))|reflexivity]]].
  f_equal. f_equal. destruct name; reflexivity.
Qed.
