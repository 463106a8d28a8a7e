From Verif Require Import CastModel CastSpec ValidModel ValidSpec IrProofs IrInvProofs IrMainProofs IrWalkProofs ValidProofs.
From Coq Require Import Lia.

Lemma follow_snoc log e w : follow (log ++ [e]) w = if Nat.eqb (follow log w) (r_old e) then r_new e else follow log w.
Proof. unfold follow. rewrite fold_left_app. reflexivity. Qed.
Lemma follow_app a b w : follow (a ++ b) w = follow b (follow a w).
Proof. unfold follow. apply fold_left_app. Qed.

(** ** Effects of the mutators *)
Lemma create_plain c k vs ts c' o : create_op c k vs ts [] [] = Some (c', o) ->
  o = length (ops c) /\ ops c' = ops c ++ [{| o_kind := k; o_operands := vs; o_result_types := ts; o_regions := []; o_succs := []; o_parent := None |}] /\
  vals c' = vals c ++ map (OpResult o) (seq 0 (length ts)) /\ blocks c' = blocks c /\ regions c' = regions c /\ block_args c' = block_args c /\
  op_results c' = fupd (op_results c) o (seq (length (vals c)) (length ts)).
Proof. intros H. unfold create_op in H. cbn in H. injection H as <- <-. repeat split. Qed.

Definition mk (base input : nat) (p : item) : op :=
  {| o_kind := i_kind p; o_operands := map (value_of base input) (i_operands p); o_result_types := i_types p; o_regions := []; o_succs := []; o_parent := None |}.
Lemma create_all_ok base input dead plan : forall c c' os, create_all c base input plan = Some (c', os) -> inv c dead ->
  inv c' dead /\ ops c' = ops c ++ map (mk base input) plan /\ os = seq (length (ops c)) (length plan) /\ blocks c' = blocks c /\ regions c' = regions c /\ block_args c' = block_args c /\
  (exists more, vals c' = vals c ++ more) /\
  (forall x, x < length (ops c) -> op_results c' x = op_results c x) /\
  (forall k p, nth_error plan k = Some p -> op_results c' (length (ops c) + k) = seq (length (vals c) + list_sum (map (fun q => length (i_types q)) (firstn k plan))) (length (i_types p))).
Proof.
  induction plan as [|p plan IH]; intros c c' os H I; cbn [create_all] in H.
  - injection H as <- <-. split; [exact I|]. rewrite app_nil_r. repeat split; [exists []; symmetry; apply app_nil_r | intros [|k] p E; discriminate].
  - destruct (create_op c (i_kind p) _ (i_types p) [] []) as [[c1 o]|] eqn:E1; [|discriminate]. destruct (create_all c1 base input plan) as [[c2 os2]|] eqn:E2; [|discriminate].
    injection H as <- <-. pose proof (create_op_inv _ _ _ _ _ _ _ _ _ E1 I) as I1. destruct (create_plain _ _ _ _ _ _ E1) as (-> & O & V & B & R & A & Rs).
    destruct (IH _ _ _ E2 I1) as (I2 & O2 & Os2 & B2 & R2 & A2 & (more & V2) & Rs2 & Rn2). assert (L1 : length (ops c1) = S (length (ops c))) by (rewrite O, app_length; cbn; lia).
    split; [exact I2|]. split; [rewrite O2, O, <- app_assoc; reflexivity|]. split; [cbn [length seq]; rewrite Os2, L1; reflexivity|].
    split; [congruence|]. split; [congruence|]. split; [congruence|]. split; [exists (map (OpResult (length (ops c))) (seq 0 (length (i_types p))) ++ more); rewrite V2, V, app_assoc; reflexivity|].
    split.
    + intros x Lx. rewrite Rs2 by lia. rewrite Rs. unfold fupd. destruct (Nat.eqb_spec x (length (ops c))); [lia | reflexivity].
    + intros [|k] q E.
      * injection E as <-. rewrite Rs2 by lia. rewrite Rs, Nat.add_0_r. cbn [firstn map list_sum fold_right]. rewrite fupd_same. f_equal. cbn. lia.
      * cbn [nth_error] in E. replace (length (ops c) + S k) with (length (ops c1) + k) by lia. rewrite (Rn2 k q E). f_equal. rewrite V, app_length, map_length, seq_length. cbn [firstn map list_sum fold_right]. fold (list_sum (map (fun q0 => length (i_types q0)) (firstn k plan))). lia.
Qed.

Lemma position_first A B o : ~ In o A -> position o (A ++ o :: B) = Some (length A).
Proof.
  induction A as [|a A IH]; intros N; cbn; [rewrite Nat.eqb_refl; reflexivity|]. destruct (Nat.eqb_spec a o) as [->|]; [exfalso; apply N; left; reflexivity|].
  rewrite IH; [reflexivity|]. intros I. apply N. right. exact I.
Qed.
Lemma insert_all_ok b o dead os : forall c c' A B bd, insert_all c b o os = Some c' -> inv c dead -> nth_error (blocks c) b = Some bd -> b_ops bd = A ++ o :: B -> ~ In o A -> ~ In o os -> NoDup os ->
  inv c' dead /\ (forall x, nth_error (blocks c') x = if Nat.eqb x b then Some (set_bops bd (A ++ os ++ o :: B)) else nth_error (blocks c) x) /\
  (forall x, nth_error (ops c') x = if vmem x os then option_map (fun d => set_parent d (Some b)) (nth_error (ops c) x) else nth_error (ops c) x) /\
  vals c' = vals c /\ regions c' = regions c /\ op_results c' = op_results c /\ block_args c' = block_args c.
Proof.
  induction os as [|n os IH]; intros c c' A B bd H I Eb E Na No Nd; cbn [insert_all] in H.
  - injection H as <-. split; [exact I|]. split; [|repeat split]. intros x. destruct (Nat.eqb_spec x b) as [->|]; [|reflexivity]. rewrite Eb. cbn [app]. rewrite <- E. destruct bd; reflexivity.
  - destruct (insert_op_before c b o n) as [c1|] eqn:E1; [|discriminate]. assert (I1 : inv c1 dead) by (apply (exec_inv c dead (InsertBefore b o n)); [cbn; rewrite E1; reflexivity | exact I]).
    unfold insert_op_before in E1. destruct (nth_error (ops c) n) as [d|] eqn:Ed; [|discriminate]. rewrite Eb in E1. destruct (o_parent d); [discriminate|]. rewrite E, (position_first A B o Na) in E1.
    injection E1 as <-. set (c1 := set_ops _ _) in *. assert (Eb1 : nth_error (blocks c1) b = Some (set_bops bd ((A ++ [n]) ++ o :: B))).
    { subst c1. cbn [blocks set_ops set_blocks]. rewrite nth_upd, Nat.eqb_refl, Eb. cbn. rewrite E, firstn_app_len, skipn_app_len, <- app_assoc. reflexivity. }
    destruct (IH _ _ (A ++ [n]) B _ H I1 Eb1 eq_refl) as (I2 & B2 & O2 & V2 & R2 & Rs2 & A2).
    + rewrite in_app_iff. intros [Q|[->|[]]]; [tauto|]. apply No. left. reflexivity.
    + intros Q. apply No. right. exact Q.
    + inversion Nd; assumption.
    + split; [exact I2|]. split; [|split; [|repeat split; assumption]].
      * intros x. rewrite B2. destruct (Nat.eqb_spec x b) as [->|Hx]; [replace (A ++ (n :: os) ++ o :: B) with ((A ++ [n]) ++ os ++ o :: B) by (rewrite <- app_assoc; reflexivity); reflexivity|]. subst c1. cbn [blocks set_ops set_blocks]. rewrite nth_upd.
        destruct (Nat.eqb_spec x b); [contradiction | reflexivity].
      * intros x. rewrite O2. subst c1. cbn [ops set_ops set_blocks vmem existsb]. rewrite nth_upd. fold (vmem x os). destruct (Nat.eqb_spec x n) as [->|Hx]; cbn [orb]; [|reflexivity].
        destruct (vmem n os) eqn:M; [|reflexivity]. apply vmem_In in M. inversion Nd. contradiction.
Qed.

(** RAUW, operand list by operand list. *)
Lemma replace_operands c dead old new x d : inv c dead -> nth_error (ops c) x = Some d ->
  exists d', nth_error (ops (replace_all_uses c old new)) x = Some d' /\ shell d' = shell d /\
    (~ In x dead -> o_operands d' = map (fun w => if Nat.eqb w old then new else w) (o_operands d)).
Proof.
  intros (U & _ & _) Ed. destruct (replace_all_frame c old new) as (_ & _ & _ & _ & _ & Sh).
  assert (E : option_map shell (nth_error (ops (replace_all_uses c old new)) x) = Some (shell d)) by (rewrite <- nth_error_map, Sh, nth_error_map, Ed; reflexivity).
  destruct (nth_error (ops (replace_all_uses c old new)) x) as [d'|] eqn:Ed'; [|discriminate]. exists d'. split; [reflexivity|]. split; [cbn in E; congruence|]. intros Nx.
  destruct (Nat.eq_dec old new) as [->|Ne].
  - unfold replace_all_uses in Ed'. rewrite Nat.eqb_refl in Ed'. assert (d' = d) as -> by congruence.
    transitivity (map (fun w => w) (o_operands d)); [symmetry; apply map_id|]. apply map_ext. intros w. destruct (Nat.eqb_spec w new); congruence.
  - destruct (replace_all_char c dead old new Ne U) as (H1 & _ & _). destruct U as (_ & UE & _). apply list_eq_nth_error. intros i. rewrite nth_error_map.
    specialize (H1 x i). unfold rd in H1. rewrite Ed', Ed in H1. rewrite H1. destruct (has_spec x i (uses c old)) as [Hin|Hin].
    + apply UE in Hin. destruct Hin as [_ Hr]. unfold rd in Hr. rewrite Ed in Hr. rewrite Hr. cbn. rewrite Nat.eqb_refl. reflexivity.
    + destruct (nth_error (o_operands d) i) as [w|] eqn:Ew; [|reflexivity]. cbn. destruct (Nat.eqb_spec w old) as [->|]; [|reflexivity]. exfalso. apply Hin, UE. split; [exact Nx|].
      unfold rd. rewrite Ed. exact Ew.
Qed.
Lemma replace_inv c dead old new : inv c dead -> inv (replace_all_uses c old new) dead.
Proof. apply (exec_inv c dead (ReplaceAll old new)). reflexivity. Qed.

Lemma erase_ok depth c dead o c' d b bd : erase_op depth c o = Some c' -> inv c dead -> nth_error (ops c) o = Some d -> o_parent d = Some b -> o_regions d = [] -> nth_error (blocks c) b = Some bd ->
  inv c' (dead ++ [o]) /\ (forall x, nth_error (blocks c') x = if Nat.eqb x b then Some (set_bops bd (filter (fun y => negb (Nat.eqb y o)) (b_ops bd))) else nth_error (blocks c) x) /\
  (forall x, nth_error (ops c') x = if Nat.eqb x o then Some (set_parent d None) else nth_error (ops c) x) /\
  vals c' = vals c /\ regions c' = regions c /\ op_results c' = op_results c /\ block_args c' = block_args c /\ (forall v, In v (op_results c o) -> uses c v = []).
Proof.
  intros H I Ed Ep Er Eb. unfold erase_op in H. destruct (detach_op c o) as [c1|] eqn:E1; [|discriminate].
  assert (I1 : inv c1 dead) by (apply (exec_inv c dead (Detach o)); [cbn; rewrite E1; reflexivity | exact I]).
  unfold detach_op in E1. rewrite Ed, Ep in E1. unfold remove_op_from_block in E1. rewrite Ed, Eb, Ep, Nat.eqb_refl in E1. injection E1 as <-. set (c1 := set_ops _ _) in *.
  destruct (remove_op depth c1 o) as [[c2 sub]|] eqn:E2; [|discriminate]. injection H as <-.
  assert (I2 : inv c2 (dead ++ sub)) by (apply (exec_inv c1 dead (Dispose depth o)); [cbn; rewrite E2; reflexivity | exact I1]).
  assert (Ed1 : nth_error (ops c1) o = Some (set_parent d None)) by (subst c1; cbn [ops set_ops set_blocks]; rewrite nth_upd, Nat.eqb_refl, Ed; reflexivity).
  unfold remove_op in E2. rewrite Ed1 in E2. cbn [o_parent set_parent] in E2. destruct (forallb _ (op_results c1 o)) eqn:F; [|discriminate].
  destruct depth as [|depth]; [discriminate|]. cbn [walk_op] in E2. rewrite Ed1 in E2. cbn [o_regions set_parent] in E2. rewrite Er in E2. cbn [each] in E2. injection E2 as <- <-.
  cbn [app] in I2. split; [exact I2|]. cbn [blocks ops vals regions op_results block_args set_uses]. split; [|split; [|split; [reflexivity|split; [reflexivity|split; [reflexivity|split; [reflexivity|]]]]]].
  - intros x. subst c1. cbn [blocks set_ops set_blocks]. rewrite nth_upd. destruct (Nat.eqb_spec x b) as [->|]; [rewrite Eb; reflexivity | reflexivity].
  - intros x. subst c1. cbn [ops set_ops set_blocks]. rewrite nth_upd. destruct (Nat.eqb_spec x o) as [->|]; [rewrite Ed; reflexivity | reflexivity].
  - intros v Iv. rewrite forallb_forall in F. subst c1. cbn in F. specialize (F v Iv). destruct (uses c v); [reflexivity | discriminate].
Qed.

(** ** One replacement *)
Lemma value_ty_kept c c' v t : value_ty c v = Some t -> (exists more, vals c' = vals c ++ more) ->
  (forall x d, nth_error (ops c) x = Some d -> exists d', nth_error (ops c') x = Some d' /\ o_result_types d' = o_result_types d) ->
  (forall b bd, nth_error (blocks c) b = Some bd -> exists bd', nth_error (blocks c') b = Some bd' /\ b_arg_types bd' = b_arg_types bd) ->
  value_ty c' v = Some t.
Proof.
  intros H (more & V) O B. unfold value_ty in *. destruct (nth_error (vals c) v) as [[o i|b i]|] eqn:E; [| |discriminate].
  - rewrite V, nth_error_app1 by (apply nth_error_Some; congruence). rewrite E. destruct (nth_error (ops c) o) as [d|] eqn:Ed; [|discriminate]. destruct (O o d Ed) as (d' & -> & ->). exact H.
  - rewrite V, nth_error_app1 by (apply nth_error_Some; congruence). rewrite E. destruct (nth_error (blocks c) b) as [d|] eqn:Ed; [|discriminate]. destruct (B b d Ed) as (d' & -> & ->). exact H.
Qed.
Definition same_but_operands (d d' : op) : Prop := o_kind d' = o_kind d /\ o_result_types d' = o_result_types d /\ o_regions d' = o_regions d /\ o_succs d' = o_succs d.
Definition turn (e : replacement) (w : nat) : nat := if Nat.eqb w (r_old e) then r_new e else w.
Record effect (c : ctx) (dead : list nat) (b : nat) (c' : ctx) (e : replacement) : Prop := {
  ef_inv : inv c' (dead ++ [r_cast e]);
  ef_regions : regions c' = regions c;
  ef_args : block_args c' = block_args c;
  ef_vals : exists more, vals c' = vals c ++ more;
  ef_len : length (ops c) <= length (ops c');
  ef_blocks : exists bd A B, nth_error (blocks c) b = Some bd /\ b_ops bd = A ++ r_cast e :: B /\ ~ In (r_cast e) A /\ ~ In (r_cast e) B /\
    forall x, nth_error (blocks c') x = if Nat.eqb x b then Some (set_bops bd (A ++ r_ops e ++ B)) else nth_error (blocks c) x;
  ef_ops : forall x d, nth_error (ops c) x = Some d -> exists d', nth_error (ops c') x = Some d' /\ same_but_operands d d' /\
    (x <> r_cast e -> o_parent d' = o_parent d) /\ (~ In x dead -> o_operands d' = map (turn e) (o_operands d));
  ef_results : forall x, x < length (ops c) -> op_results c' x = op_results c x;
  ef_made : length (r_ops e) = length (r_plan e) /\ forall k p o, nth_error (r_plan e) k = Some p -> nth_error (r_ops e) k = Some o ->
      length (ops c) <= o /\
      exists d, nth_error (ops c') o = Some d /\ o_kind d = i_kind p /\ o_result_types d = i_types p /\ o_regions d = [] /\ o_succs d = [] /\
        o_operands d = map (fun x => turn e (value_of (r_base e) (r_input e) x)) (i_operands p) /\
        op_results c' o = seq (r_base e + list_sum (map (fun q => length (i_types q)) (firstn k (r_plan e)))) (length (i_types p));
  ef_new : forall o, In o (r_ops e) -> length (ops c) <= o;
  ef_base : r_base e = length (vals c);
  ef_gone : uses c' (r_old e) = [];
  ef_keep : forall v, uses c v = [] -> v < length (vals c) -> uses c' v = [];
}.

Lemma only_reader_gone c dead v : uses_exact c dead -> (forall o i, ~ In o dead -> ~ reads c o i v) -> uses c v = [].
Proof. intros U H. destruct (uses c v) as [|[o i] l] eqn:E; [reflexivity|]. exfalso. assert (K : In (o, i) (uses c v)) by (rewrite E; left; reflexivity). apply (proj2 (U v)) in K. destruct K as [K1 K2]. exact (H o i K1 K2). Qed.
Lemma nth_seq_some s n k o : nth_error (seq s n) k = Some o -> o = s + k.
Proof.
  intros H. assert (L : k < n) by (rewrite <- (seq_length n s); apply nth_error_Some; congruence). rewrite (nth_error_nth' _ 0) in H by (rewrite seq_length; exact L).
  rewrite seq_nth in H by exact L. congruence.
Qed.
Lemma filter_split o A B : ~ In o A -> ~ In o B -> filter (fun y => negb (Nat.eqb y o)) (A ++ o :: B) = A ++ B.
Proof.
  intros Na Nb. assert (K : forall l, ~ In o l -> filter (fun y => negb (Nat.eqb y o)) l = l).
  { induction l as [|y l IH]; intros N; [reflexivity|]. cbn. destruct (Nat.eqb_spec y o) as [->|]; [exfalso; apply N; left; reflexivity|]. cbn. f_equal. apply IH. intros I. apply N. right. exact I. }
  rewrite filter_app. cbn. rewrite Nat.eqb_refl. cbn. rewrite !K by assumption. reflexivity.
Qed.
(** Plan (possibly empty), insert, replace, erase: covers both ways of resolving. *)
Lemma replace_step depth c dead b o d bd result input plan v c1 os c2 c3 : inv c dead -> nth_error (ops c) o = Some d -> ~ In o dead -> o_parent d = Some b -> o_regions d = [] ->
  nth_error (blocks c) b = Some bd -> hd_error (o_operands d) = Some input -> nth_error (op_results c o) 0 = Some result ->
  create_all c (length (vals c)) input plan = Some (c1, os) -> insert_all c1 b o os = Some c2 ->
  erase_op depth (replace_all_uses c2 result (value_of (length (vals c)) input v)) o = Some c3 ->
  forall from to, effect c dead b c3 {| r_cast := o; r_old := result; r_input := input; r_from := from; r_to := to; r_new := value_of (length (vals c)) input v; r_plan := plan; r_base := length (vals c); r_ops := os |}.
Proof.
  intros I Ed Nd Ep Er Eb Hin Hres H1 H2 H3 from to.
  destruct (create_all_ok _ _ dead _ _ _ _ H1 I) as (I1 & O1 & -> & B1 & R1 & A1 & (more & V1) & Rs1 & Rn1).
  assert (Lo : o < length (ops c)) by (apply nth_error_Some; congruence).
  assert (P : placed c) by (apply pok_placed, I). assert (Iob : In o (b_ops bd)) by (assert (X : op_in c o b) by (apply (pl_op c P); exists d; auto); destruct X as (bd' & E & K); congruence).
  apply in_split in Iob. destruct Iob as (A & B & EAB). pose proof (pl_op_once c P b bd Eb) as Nodup. rewrite EAB in Nodup. apply NoDup_remove_2 in Nodup.
  assert (Na : ~ In o A) by (intros K; apply Nodup; apply in_or_app; auto). assert (Nb : ~ In o B) by (intros K; apply Nodup; apply in_or_app; auto).
  set (new := seq (length (ops c)) (length plan)) in *. assert (Fresh : forall x, In x new -> length (ops c) <= x) by (intros x Ix; apply in_seq in Ix; lia).
  assert (No : ~ In o new) by (intros K; apply Fresh in K; lia). assert (Eb1 : nth_error (blocks c1) b = Some bd) by congruence.
  destruct (insert_all_ok b o dead new c1 c2 A B bd H2 I1 Eb1 EAB Na No (seq_NoDup _ _)) as (I2 & B2 & O2 & V2 & R2 & Rs2 & A2).
  assert (Ed2 : nth_error (ops c2) o = Some d).
  { rewrite O2. destruct (vmem o new) eqn:M; [apply vmem_In in M; contradiction|]. rewrite O1, nth_error_app1 by exact Lo. exact Ed. }
  set (fin := value_of (length (vals c)) input v) in *.
  pose proof (replace_inv c2 dead result fin I2) as I2'. destruct (replace_all_frame c2 result fin) as (FV & FB & FR & FRs & FA & _). set (c2' := replace_all_uses c2 result fin) in *.
  destruct (replace_operands c2 dead result fin o d I2 Ed2) as (d2 & Ed2' & Sh & Ops2). fold c2' in Ed2'.
  assert (Ep2 : o_parent d2 = Some b) by (transitivity (o_parent (shell d2)); [reflexivity | rewrite Sh; exact Ep]).
  assert (Er2 : o_regions d2 = []) by (transitivity (o_regions (shell d2)); [reflexivity | rewrite Sh; exact Er]).
  assert (Eb2 : nth_error (blocks c2') b = Some (set_bops bd (A ++ new ++ o :: B))) by (rewrite FB, B2, Nat.eqb_refl; reflexivity).
  destruct (erase_ok depth c2' dead o c3 d2 b _ H3 I2' Ed2' Ep2 Er2 Eb2) as (I3 & B3 & O3 & V3 & R3 & Rs3 & A3 & G3).
  assert (Old : forall x dx, nth_error (ops c) x = Some dx -> exists dx', nth_error (ops c3) x = Some dx' /\ same_but_operands dx dx' /\ (x <> o -> o_parent dx' = o_parent dx) /\
            (~ In x dead -> o_operands dx' = map (fun w => if Nat.eqb w result then fin else w) (o_operands dx))).
  { intros x dx Ex. assert (Lx : x < length (ops c)) by (apply nth_error_Some; congruence).
    assert (Ex2 : nth_error (ops c2) x = Some dx).
    { rewrite O2. destruct (vmem x new) eqn:M; [apply vmem_In, Fresh in M; lia|]. rewrite O1, nth_error_app1 by exact Lx. exact Ex. }
    destruct (replace_operands c2 dead result fin x dx I2 Ex2) as (dx' & Ex' & Shx & Opx). fold c2' in Ex'. rewrite O3.
    assert (Same : same_but_operands dx dx') by (split; [|split; [|split]]; [transitivity (o_kind (shell dx')) | transitivity (o_result_types (shell dx')) | transitivity (o_regions (shell dx')) | transitivity (o_succs (shell dx'))]; try reflexivity; rewrite Shx; reflexivity).
    destruct (Nat.eqb_spec x o) as [->|Hx].
    - assert (dx' = d2) as -> by congruence. exists (set_parent d2 None). split; [reflexivity|]. split; [exact Same|]. split; [congruence | exact Opx].
    - exists dx'. split; [exact Ex'|]. split; [exact Same|]. split; [|exact Opx]. intros _. transitivity (o_parent (shell dx')); [reflexivity | rewrite Shx; reflexivity]. }
  assert (New : forall k p x, nth_error plan k = Some p -> nth_error new k = Some x -> length (ops c) <= x /\
            exists dx, nth_error (ops c3) x = Some dx /\ o_kind dx = i_kind p /\ o_result_types dx = i_types p /\ o_regions dx = [] /\ o_succs dx = [] /\
              o_operands dx = map (fun y => if Nat.eqb (value_of (length (vals c)) input y) result then fin else value_of (length (vals c)) input y) (i_operands p)).
  { intros k p x Ek Ex. pose proof (nth_error_In _ _ Ex) as Ix. split; [apply Fresh, Ix|]. pose proof (nth_seq_some _ _ _ _ Ex) as ->.
    assert (Ex2 : nth_error (ops c2) (length (ops c) + k) = Some (set_parent (mk (length (vals c)) input p) (Some b))).
    { rewrite O2, (proj2 (vmem_In _ _) Ix), O1, nth_error_app2 by lia. replace (length (ops c) + k - length (ops c)) with k by lia. rewrite nth_error_map, Ek. reflexivity. }
    destruct (replace_operands c2 dead result fin _ _ I2 Ex2) as (dx' & Ex' & Shx & Opx). fold c2' in Ex'. exists dx'. rewrite O3. destruct (Nat.eqb_spec (length (ops c) + k) o); [lia|].
    split; [exact Ex'|]. split; [transitivity (o_kind (shell dx')); [reflexivity | rewrite Shx; reflexivity]|]. split; [transitivity (o_result_types (shell dx')); [reflexivity | rewrite Shx; reflexivity]|].
    split; [transitivity (o_regions (shell dx')); [reflexivity | rewrite Shx; reflexivity]|]. split; [transitivity (o_succs (shell dx')); [reflexivity | rewrite Shx; reflexivity]|].
    rewrite Opx; [cbn [o_operands set_parent mk]; apply map_map|]. intros K. destruct I as ((_ & _ & Dl) & _). apply Dl in K. lia. }
  assert (Res : forall x, op_results c3 x = op_results c1 x) by (intros x; congruence).
  assert (Len : length (ops c3) = length (ops c) + length plan).
  { assert (L : forall x, nth_error (ops c3) x = None <-> nth_error (ops c1) x = None).
    { intros x. rewrite O3. destruct (Nat.eqb_spec x o) as [->|].
      - split; [discriminate|]. rewrite O1, nth_error_app1 by exact Lo. congruence.
      - destruct (replace_all_frame c2 result fin) as (_ & _ & _ & _ & _ & ShAll). fold c2' in ShAll. assert (Q : option_map shell (nth_error (ops c2') x) = option_map shell (nth_error (ops c2) x)) by (rewrite <- !nth_error_map, ShAll; reflexivity).
        rewrite O2 in Q. destruct (nth_error (ops c2') x), (nth_error (ops c1) x), (vmem x new); cbn in Q; split; congruence. }
    rewrite <- (map_length (mk (length (vals c)) input) plan), <- app_length, <- O1. assert (X : forall l, nth_error (ops c3) l = None <-> nth_error (ops c1) l = None) by exact L.
    apply Nat.le_antisymm; [apply nth_error_None, L, nth_error_None; lia | apply nth_error_None, X, nth_error_None; lia]. }
  constructor; cbn [r_cast r_old r_input r_from r_to r_new r_plan r_base r_ops turn].
  - exact I3.
  - congruence.
  - congruence.
  - exists more. congruence.
  - lia.
  - exists bd, A, B. split; [exact Eb|]. split; [exact EAB|]. split; [exact Na|]. split; [exact Nb|]. intros x. rewrite B3, FB, B2, B1.
    destruct (Nat.eqb_spec x b) as [->|]; [|reflexivity]. cbn [b_ops set_bops b_arg_types b_parent]. replace (A ++ new ++ o :: B) with ((A ++ new) ++ o :: B) by (rewrite <- app_assoc; reflexivity).
    rewrite filter_split by (try exact Nb; rewrite in_app_iff; tauto). rewrite <- (app_assoc A new B). reflexivity.
  - exact Old.
  - intros x Lx. rewrite Res. apply Rs1, Lx.
  - split; [apply seq_length|]. intros k p x Ek Ex. destruct (New k p x Ek Ex) as (L & dx & Q1 & Q2 & Q3 & Q4 & Q5 & Q6). split; [exact L|]. exists dx. repeat (split; [assumption|]).
    rewrite Res. rewrite (nth_seq_some _ _ _ _ Ex). apply Rn1, Ek.
  - exact Fresh.
  - reflexivity.
  - assert (Ir : In result (op_results c o)) by (eapply nth_error_In; exact Hres). assert (U0 : uses c2' result = []) by (apply G3; rewrite FRs, Rs2, Rs1 by exact Lo; exact Ir).
    apply (only_reader_gone c3 (dead ++ [o])); [apply uok_exact, I3|]. intros x i Nx (dx & Ex & Ei). rewrite O3 in Ex. destruct (Nat.eqb_spec x o) as [->|]; [apply Nx, in_or_app; right; left; reflexivity|].
    assert (K : In (x, i) (uses c2' result)) by (apply (uok_exact c2' dead (proj1 I2')); split; [intros K; apply Nx, in_or_app; auto | exists dx; auto]). rewrite U0 in K. destruct K.
  - intros w Uw Lw. apply (only_reader_gone c3 (dead ++ [o])); [apply uok_exact, I3|]. intros x i Nx (dx & Ex & Ei).
    assert (Ninput : w <> input).
    { intros ->. destruct (o_operands d) as [|y ys] eqn:Eo; [discriminate|]. cbn in Hin. injection Hin as ->. assert (K : In (o, 0) (uses c input)) by (apply (uok_exact c dead (proj1 I)); split; [exact Nd | exists d; rewrite Eo; auto]).
      rewrite Uw in K. destruct K. }
    assert (Nvo : forall y, value_of (length (vals c)) input y <> w) by (intros [|k]; cbn; [congruence | lia]).
    assert (Nxd : ~ In x dead) by (intros K; apply Nx, in_or_app; auto).
    destruct (Nat.lt_ge_cases x (length (ops c))) as [Lx|Lx].
    + destruct (nth_error (ops c) x) as [dx0|] eqn:Ex0; [|apply nth_error_None in Ex0; lia]. destruct (Old x dx0 Ex0) as (dx' & Ex' & _ & _ & Ops'). assert (dx' = dx) as -> by congruence.
      rewrite (Ops' Nxd), nth_error_map in Ei. destruct (nth_error (o_operands dx0) i) as [w0|] eqn:Ew0; [|discriminate]. cbn in Ei. injection Ei as Ei.
      destruct (Nat.eqb_spec w0 result); [apply (Nvo v Ei)|]. subst w0. assert (K : In (x, i) (uses c w)) by (apply (uok_exact c dead (proj1 I)); split; [exact Nxd | exists dx0; auto]). rewrite Uw in K. destruct K.
    + assert (Lx2 : x < length (ops c3)) by (apply nth_error_Some; congruence). rewrite Len in Lx2. set (k := x - length (ops c)).
      destruct (nth_error plan k) as [p|] eqn:Ek; [|apply nth_error_None in Ek; unfold k in Ek; lia].
      destruct (New k p x Ek) as (_ & dx' & Ex' & _ & _ & _ & _ & Ops'); [unfold new; rewrite (nth_error_nth' _ 0) by (rewrite seq_length; unfold k; lia); rewrite seq_nth by (unfold k; lia); f_equal; unfold k; lia|].
      assert (dx' = dx) as -> by congruence. rewrite Ops', nth_error_map in Ei. destruct (nth_error (i_operands p) i) as [y|]; [|discriminate]. cbn in Ei. injection Ei as Ei.
      destruct (Nat.eqb_spec (value_of (length (vals c)) input y) result); [apply (Nvo v Ei) | apply (Nvo y Ei)].
Qed.
