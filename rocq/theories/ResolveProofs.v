(** Proofs for C56: scopes. *)
From Verif Require Export ResolveSpec PathProofs.
From Coq Require Import Lia.
Local Open Scope N_scope.
Open Scope list_scope.

(** ** Induction over syntax *)
Section Induction.
  Context {R : Type} (P : pat R -> Prop) (Q : field R -> Prop).
  Hypothesis (H1 : P PWild) (H2 : forall x i, P (PBind x i)) (H3 : forall l, P (PLit l)) (H4 : forall c ps, Forall P ps -> P (PVariant c ps))
    (H5 : forall t fs b, Forall Q fs -> P (PRecord t fs b)) (H6 : forall ps, Forall P ps -> P (PTuple ps)) (H7 : forall ps, Forall P ps -> P (PList ps))
    (H8 : forall ps r i, Forall P ps -> P (PListRest ps r i)) (H9 : forall p x i, P p -> P (PAs p x i)) (H10 : P PError)
    (K1 : forall x, Q (Short x)) (K2 : forall x p, P p -> Q (Full x p)).
  Fixpoint pat_all (p : pat R) : P p :=
    let go := fix go (l : list (pat R)) : Forall P l := match l with [] => Forall_nil _ | p :: l => Forall_cons _ (pat_all p) (go l) end in
    match p with
    | PWild => H1 | PBind x i => H2 x i | PLit l => H3 l | PVariant c ps => H4 c ps (go ps)
    | PRecord t fs b =>
        H5 t fs b ((fix gof (l : list (field R)) : Forall Q l := match l with [] => Forall_nil _ | f :: l => Forall_cons _ (field_all f) (gof l) end) fs)
    | PTuple ps => H6 ps (go ps) | PList ps => H7 ps (go ps) | PListRest ps r i => H8 ps r i (go ps) | PAs p x i => H9 p x i (pat_all p) | PError => H10
    end
  with field_all (f : field R) : Q f := match f with Short x => K1 x | Full x p => K2 x p (pat_all p) end.
End Induction.
Definition opt_all {A} (P : A -> Prop) (o : option A) : Prop := match o with Some x => P x | None => True end.
Section Induction2.
  Context {R : Type} (P : expr R -> Prop) (S : stmt R -> Prop) (A : arm R -> Prop) (H : harm R -> Prop).
  Hypothesis (E1 : forall r, P (Var r)) (E2 : forall l, P (Lit l)) (E3 : forall f es, P f -> Forall P es -> P (Call f es)) (E4 : forall c es, Forall P es -> P (Cons c es))
    (E5 : forall t fs sp, Forall (fun f => P (snd f)) fs -> opt_all P sp -> P (Record_ t fs sp)) (E6 : forall o m es, P o -> Forall P es -> P (MethodCall o m es))
    (E7 : forall ss v, Forall S ss -> P v -> P (Block ss v)) (E8 : forall x l, P x -> Forall A l -> P (Case x l)) (E9 : forall ps b, P b -> P (Lambda ps b))
    (E10 : forall x l, P x -> Forall H l -> P (Handle x l)) (E11 : forall x i, P x -> P (Resume x i)) (E12 : forall es, Forall P es -> P (Tuple es))
    (E13 : forall es, Forall P es -> P (List_ es)) (E14 : forall o x y, P x -> P y -> P (BinOp o x y)) (E15 : P Error)
    (S1 : forall p v, P v -> S (Let p v)) (S2 : forall x, P x -> S (Do_ x)) (A1 : forall p g b, opt_all P g -> P b -> A (Arm p g b)) (H1 : forall k b, P b -> H (HArm k b)).
  Fixpoint expr_all (x : expr R) : P x :=
    let go := fix go (l : list (expr R)) : Forall P l := match l with [] => Forall_nil _ | p :: l => Forall_cons _ (expr_all p) (go l) end in
    let opt := fun (o : option (expr R)) => match o return opt_all P o with Some x => expr_all x | None => I end in
    match x with
    | Var r => E1 r | Lit l => E2 l | Call f es => E3 f es (expr_all f) (go es) | Cons c es => E4 c es (go es)
    | Record_ t fs sp =>
        E5 t fs sp ((fix gof (l : list (string * expr R)) : Forall (fun f => P (snd f)) l :=
                       match l with [] => Forall_nil _ | f :: l => Forall_cons _ (expr_all (snd f)) (gof l) end) fs) (opt sp)
    | MethodCall o m es => E6 o m es (expr_all o) (go es)
    | Block ss v => E7 ss v ((fix gos (l : list (stmt R)) : Forall S l := match l with [] => Forall_nil _ | f :: l => Forall_cons _ (stmt_all f) (gos l) end) ss) (expr_all v)
    | Case x l => E8 x l (expr_all x) ((fix goa (l : list (arm R)) : Forall A l := match l with [] => Forall_nil _ | f :: l => Forall_cons _ (arm_all f) (goa l) end) l)
    | Lambda ps b => E9 ps b (expr_all b)
    | Handle x l => E10 x l (expr_all x) ((fix goh (l : list (harm R)) : Forall H l := match l with [] => Forall_nil _ | f :: l => Forall_cons _ (harm_all f) (goh l) end) l)
    | Resume x i => E11 x i (expr_all x) | Tuple es => E12 es (go es) | List_ es => E13 es (go es)
    | BinOp o x y => E14 o x y (expr_all x) (expr_all y) | Error => E15
    end
  with stmt_all (x : stmt R) : S x := match x with Let p v => S1 p v (expr_all v) | Do_ x => S2 x (expr_all x) end
  with arm_all (x : arm R) : A x := match x with Arm p g b => A1 p g b (match g return opt_all P g with Some x => expr_all x | None => I end) (expr_all b) end
  with harm_all (x : harm R) : H x := match x with HArm k b => H1 k b (expr_all b) end.
End Induction2.
Section Induction3.
  Context {R : Type} (P : decl R -> Prop).
  Hypothesis (D1 : forall n ps ef b, P (DFunction n ps ef b)) (D2 : forall n, P (DExtern n)) (D3 : forall n i fs, P (DStruct n i fs)) (D4 : forall n i vs, P (DEnum n i vs))
    (D5 : forall n os, P (DAbility n os)) (D6 : forall p a, P (DUse p a)) (D7 : forall n b, opt_all (Forall P) b -> P (DModule n b)).
  Fixpoint decl_all (d : decl R) : P d :=
    match d with
    | DFunction n ps ef b => D1 n ps ef b | DExtern n => D2 n | DStruct n i fs => D3 n i fs | DEnum n i vs => D4 n i vs | DAbility n os => D5 n os | DUse p a => D6 p a
    | DModule n b =>
        D7 n b (match b return opt_all (Forall P) b with
                | Some l => (fix go (l : list (decl R)) : Forall P l := match l with [] => Forall_nil _ | d :: l => Forall_cons _ (decl_all d) (go l) end) l
                | None => I
                end)
    end.
End Induction3.

(** ** Maps *)
Lemma at_insert {A} (m : map_of A) k v j : at_key (insert m k v) j = if String.eqb k j then Some v else at_key m j.
Proof.
  induction m as [|[i w] m IH]; cbn; [reflexivity|]. destruct (String.eqb_spec i k) as [->|N]; cbn.
  - destruct (String.eqb k j); reflexivity.
  - destruct (String.eqb_spec i j) as [->|N']; [|exact IH]. destruct (String.eqb_spec k j); congruence.
Qed.
Lemma at_visible (sc : scope) x id : at_key sc x = Some id <-> visible x id sc.
Proof.
  unfold visible. induction sc as [|[y j] sc IH]; cbn.
  - split; [discriminate|]. intros (a & b & H & _). destruct a; discriminate.
  - destruct (String.eqb_spec y x) as [->|N].
    + split.
      * intros [= ->]. exists [], sc. split; [reflexivity|]. intros [].
      * intros (a & b & H & K). destruct a as [|[z w] a]; cbn in H; injection H; [congruence|].
        intros _ -> ->. destruct K. left. reflexivity.
    + rewrite IH. split; intros (a & b & H & K).
      * exists ((y, j) :: a), b. subst sc. split; [reflexivity|]. cbn. intros [E|E]; [congruence|exact (K E)].
      * destruct a as [|[z w] a]; cbn in H; injection H; [congruence|]. intros H' -> ->. exists a, b. split; [exact H'|]. intros E. apply K. right. exact E.
Qed.

(** ** Ranges *)
Definition range (a b : N) : list N := map (fun i => a + N.of_nat i) (seq 0 (N.to_nat (b - a))).
Lemma range_nil a : range a a = [].
Proof. unfold range. rewrite N.sub_diag. reflexivity. Qed.
Lemma range_one a : range a (a + 1) = [a].
Proof. unfold range. replace (a + 1 - a) with 1 by lia. cbn [N.to_nat]. change (Pos.to_nat 1) with 1%nat. cbn [seq map]. rewrite N.add_0_r. reflexivity. Qed.
Lemma range_app a b c : a <= b -> b <= c -> range a b ++ range b c = range a c.
Proof.
  intros L L'. unfold range. replace (N.to_nat (c - a)) with (N.to_nat (b - a) + N.to_nat (c - b))%nat by lia.
  rewrite seq_app, map_app. f_equal. rewrite Nat.add_0_l.
  assert (E : forall n k, map (fun i => b + N.of_nat i) (seq k n) = map (fun i => a + N.of_nat i) (seq (N.to_nat (b - a) + k) n)).
  { intros n. induction n as [|n IH]; intros k; [reflexivity|]. cbn. f_equal; [lia|]. rewrite IH. do 2 f_equal. lia. }
  rewrite E, Nat.add_0_r. reflexivity.
Qed.
Lemma range_in a b x : In x (range a b) <-> a <= x < b.
Proof.
  unfold range. rewrite in_map_iff. split.
  - intros (i & <- & H). apply in_seq in H. lia.
  - intros H. exists (N.to_nat (x - a)). rewrite in_seq. split; lia.
Qed.
Lemma range_nodup a b : NoDup (range a b).
Proof.
  unfold range. generalize (seq_NoDup (N.to_nat (b - a)) 0). generalize (seq 0 (N.to_nat (b - a))). intros l H.
  induction H as [|i l N H IH]; cbn; constructor; [|exact IH]. rewrite in_map_iff. intros (j & E & J). apply N. replace i with j by lia. exact J.
Qed.

(** ** Resolving in a fixed function *)
Definition agree (l : list (map_of N)) (sc : scope) : Prop := forall x, lookup_scopes l x = at_key sc x.
Lemma agree_push l sc : agree l sc -> agree ([] :: l) sc.
Proof. intros H x. exact (H x). Qed.
Lemma agree_bind top l sc x id : agree (top :: l) sc -> agree (insert top x id :: l) ((x, id) :: sc).
Proof.
  intros H y. cbn. rewrite at_insert. specialize (H y). cbn in H. destruct (String.eqb x y); [reflexivity|exact H].
Qed.
(** What resolution leaves alone. *)
Definition same (s s' : st) : Prop :=
  resumes s' = resumes s /\ ops s' = ops s /\ mpath s' = mpath s /\ gen s <= gen s' /\ exists d, diags s' = diags s ++ d.
Lemma same_refl s : same s s.
Proof. repeat split; try lia. exists []. symmetry. apply app_nil_r. Qed.
Lemma same_trans a b c : same a b -> same b c -> same a c.
Proof.
  intros (A & B & C & D & d & E) (A' & B' & C' & D' & d' & E'). repeat split; try congruence; try lia.
  exists (d ++ d'). rewrite E', E. symmetry. apply app_assoc.
Qed.
Lemma same_incl s s' rep : same s s' -> incl (diags s') rep -> incl (diags s) rep.
Proof. intros (_ & _ & _ & _ & d & E) H x X. apply H. rewrite E. apply in_or_app. left. exact X. Qed.

Definition meaning (e : env) (path : list string) (inj : map_of binding) (x : string) : option ref :=
  if is_simple x then match global_binding e path inj x with Some b => Some (binding_to_ref b x) | None => None end
  else match parent_path x with
       | Some ns => match lookup_qualified e ns (last_segment_of x) with Some b => Some (binding_to_ref b (last_segment_of x)) | None => None end
       | None => None
       end.
Section Lex.
  Variables (e : env) (path : list string) (inj : map_of binding).
  Notation g := (meaning e path inj).
  Definition here (s : st) : Prop := mpath s = path /\ ops s = inj.
  Lemma same_here s s' : same s s' -> here s -> here s'.
  Proof. intros (_ & O & M & _) [A B]. split; congruence. Qed.
  (** Something that binds names in the current scope. *)
  Definition binds {A B} (f : st -> A -> st * B) (P : list string -> scope -> A -> B -> scope -> Prop) (bs : B -> list N) (x : A) : Prop :=
    forall s s' y top rest sc, f s x = (s', y) -> here s -> scopes s = top :: rest -> agree (scopes s) sc ->
    exists top' sc', scopes s' = top' :: rest /\ agree (scopes s') sc' /\ same s s' /\ bs y = range (gen s) (gen s') /\
      (forall rep, incl (diags s') rep -> P rep sc x y sc').
  Definition uses {A B} (f : st -> A -> st * B) (P : list string -> option N -> scope -> A -> B -> Prop) (bs : B -> list N) (x : A) : Prop :=
    forall s s' y sc, f s x = (s', y) -> here s -> agree (scopes s) sc ->
    scopes s' = scopes s /\ same s s' /\ bs y = range (gen s) (gen s') /\ (forall rep, incl (diags s') rep -> P rep (hd_error (resumes s)) sc x y).

  Lemma each_binds {A B} (f : st -> A -> st * B) P bs l : Forall (binds f P bs) l -> binds (each f) (fun rep => thread (P rep)) (flat_map bs) l.
  Proof.
    induction 1 as [|x l X L IH]; intros s s' y top rest sc E HE T G; cbn in E.
    - injection E; intros; subst. exists top, sc. split; [exact T|]. split; [exact G|]. split; [apply same_refl|].
      split; [symmetry; apply range_nil|]. intros. constructor.
    - destruct (f s x) as [s1 x1] eqn:E1. destruct (each f s1 l) as [s2 l1] eqn:E2. injection E; intros; subst s' y; clear E.
      destruct (X _ _ _ _ _ _ E1 HE T G) as (top1 & sc1 & T1 & G1 & F1 & B1 & K1).
      destruct (IH _ _ _ _ _ _ E2 (same_here _ _ F1 HE) T1 G1) as (top2 & sc2 & T2 & G2 & F2 & B2 & K2).
      exists top2, sc2. split; [exact T2|]. split; [exact G2|]. split; [exact (same_trans _ _ _ F1 F2)|]. split.
      + cbn. rewrite B1, B2. apply range_app; [apply F1|apply F2].
      + intros rep I. econstructor; [exact (K1 rep (same_incl _ _ _ F2 I))|exact (K2 rep I)].
  Qed.
  Lemma each_uses {A B} (f : st -> A -> st * B) P bs l : Forall (uses f P bs) l -> uses (each f) (fun rep r sc => Forall2 (P rep r sc)) (flat_map bs) l.
  Proof.
    induction 1 as [|x l X L IH]; intros s s' y sc E HE G; cbn in E.
    - injection E; intros; subst. split; [reflexivity|]. split; [apply same_refl|]. split; [symmetry; apply range_nil|]. intros. constructor.
    - destruct (f s x) as [s1 x1] eqn:E1. destruct (each f s1 l) as [s2 l1] eqn:E2. injection E; intros; subst s' y; clear E.
      destruct (X _ _ _ _ E1 HE G) as (T1 & F1 & B1 & K1). rewrite <- T1 in G.
      destruct (IH _ _ _ _ E2 (same_here _ _ F1 HE) G) as (T2 & F2 & B2 & K2).
      split; [congruence|]. split; [exact (same_trans _ _ _ F1 F2)|]. split.
      + cbn. rewrite B1, B2. apply range_app; [apply F1|apply F2].
      + intros rep I. constructor; [exact (K1 rep (same_incl _ _ _ F2 I))|]. rewrite <- (proj1 F1). exact (K2 rep I).
  Qed.
  Lemma maybe_uses {A B} (f : st -> A -> st * B) P bs o : opt_all (uses f P bs) o -> uses (maybe f) (fun rep r sc => option_ok (P rep r sc)) (of_option bs) o.
  Proof.
    destruct o as [x|]; cbn; intros X s s' y sc E HE G; cbn in E.
    - destruct (f s x) as [s1 x1] eqn:E1. injection E; intros; subst s' y; clear E.
      destruct (X _ _ _ _ E1 HE G) as (T1 & F1 & B1 & K1). split; [exact T1|]. split; [exact F1|]. split; [exact B1|].
      intros rep I. constructor. exact (K1 rep I).
    - injection E; intros; subst. split; [reflexivity|]. split; [apply same_refl|]. split; [symmetry; apply range_nil|]. intros. constructor.
  Qed.

  (** *** Names *)
  Lemma name_uses x : uses (resolve_name e) (fun rep _ sc => refers g rep sc) (fun _ => []) x.
  Proof.
    intros s s' y sc E [M O] G. unfold resolve_name in E.
    assert (R : forall rep, incl (diags (report s x)) rep -> In x rep).
    { intros rep I. apply I. cbn. apply in_or_app. right. left. reflexivity. }
    assert (NS : same s (report s x)). { repeat split; cbn; try lia. exists [x]. reflexivity. }
    assert (Hs : is_simple x = true -> last_segment_of x = x).
    { intros S. exact (proj2 (proj1 (split_join x) S)). }
    assert (V : simple_text x -> is_simple x = true). { intros S. apply is_simple_ok. exact S. }
    destruct (is_simple x) eqn:S.
    - rewrite (Hs eq_refl) in E. destruct (lookup_scopes (scopes s) x) as [id|] eqn:L.
      + injection E; intros; subst s' y. split; [reflexivity|]. split; [apply same_refl|]. split; [symmetry; apply range_nil|]. intros rep I.
        apply to_local; [apply is_simple_ok; exact S|]. apply at_visible. rewrite <- G. exact L.
      + assert (N : simple_text x -> ~ exists id, visible x id sc).
        { intros _ [id H]. apply at_visible in H. rewrite <- G in H. congruence. }
        destruct (global_binding e (mpath s) (ops s) x) as [b|] eqn:B; injection E; intros; subst s' y.
        * split; [reflexivity|]. split; [apply same_refl|]. split; [symmetry; apply range_nil|]. intros rep I. apply to_global; [exact N|].
          unfold meaning. rewrite S, <- M, <- O, B. reflexivity.
        * split; [reflexivity|]. split; [exact NS|]. split; [symmetry; apply range_nil|]. intros rep I. pose proof (Hs eq_refl) as Hx. rewrite <- Hx at 2.
          apply to_nothing; [exact N| |exact (R rep I)]. unfold meaning. rewrite S, <- M, <- O, B. reflexivity.
    - assert (N : simple_text x -> ~ exists id, visible x id sc). { intros H. apply V in H. discriminate. }
      destruct (parent_path x) as [ns|] eqn:P; [destruct (lookup_qualified e ns (last_segment_of x)) as [b|] eqn:B|]; injection E; intros; subst s' y.
      + split; [reflexivity|]. split; [apply same_refl|]. split; [symmetry; apply range_nil|]. intros rep I. apply to_global; [exact N|].
        unfold meaning. rewrite S, P, B. reflexivity.
      + split; [reflexivity|]. split; [exact NS|]. split; [symmetry; apply range_nil|]. intros rep I. apply to_nothing; [exact N| |exact (R rep I)].
        unfold meaning. rewrite S, P, B. reflexivity.
      + split; [reflexivity|]. split; [exact NS|]. split; [symmetry; apply range_nil|]. intros rep I. apply to_nothing; [exact N| |exact (R rep I)].
        unfold meaning. rewrite S, P. reflexivity.
  Qed.
  Lemma ability_uses x : uses (resolve_handler_ability e) (fun rep _ sc => ability_ok g rep sc) (fun _ => []) x.
  Proof.
    intros s s' y sc E HE G. unfold resolve_handler_ability in E. destruct (String.eqb_spec x "_") as [->|N].
    - injection E; intros; subst. split; [reflexivity|]. split; [apply same_refl|]. split; [symmetry; apply range_nil|]. intros. constructor.
    - destruct (name_uses x _ _ _ _ E HE G) as (A & B & C & D). split; [exact A|]. split; [exact B|]. split; [exact C|]. intros rep I. constructor; [exact N|exact (D rep I)].
  Qed.
  Lemma bind_step s s' x id top rest sc : bind_local s x = (s', id) -> scopes s = top :: rest -> agree (scopes s) sc ->
    exists top', scopes s' = top' :: rest /\ agree (scopes s') ((x, id) :: sc) /\ same s s' /\ [id] = range (gen s) (gen s').
  Proof.
    unfold bind_local, fresh. cbn. intros E T G. injection E; intros <- <-; clear E. cbn. rewrite T. exists (insert top x (gen s)).
    split; [reflexivity|]. split; [apply agree_bind; rewrite <- T; exact G|]. split.
    - repeat split; cbn; try lia. exists []. symmetry. apply app_nil_r.
    - symmetry. apply range_one.
  Qed.
  Lemma param_binds p : binds bind_param (fun _ => param_ok) param_binders p.
  Proof.
    intros s s' y top rest sc E HE T G. unfold bind_param in E. destruct (bind_local s (fst p)) as [s1 id] eqn:B. injection E; intros; subst s' y.
    destruct (bind_step _ _ _ _ _ _ _ B T G) as (top' & T' & G' & F & R). exists top', ((fst p, id) :: sc).
    split; [exact T'|]. split; [exact G'|]. split; [exact F|]. split; [exact R|]. intros _ _. destruct p as [x i]. constructor.
  Qed.

  (** *** Patterns *)
  Lemma pattern_eq s p : resolve_pattern e s p =
    match p with
    | PWild => (s, PWild)
    | PBind name _ => let '(s, id) := bind_local s name in (s, PBind name (Some id))
    | PLit l => (s, PLit l)
    | PVariant ctor fields => let '(s, ctor) := resolve_name e s ctor in let '(s, fields) := each (resolve_pattern e) s fields in (s, PVariant ctor fields)
    | PRecord t fields rest =>
        let '(s, t) := maybe (resolve_name e) s t in let '(s, fields) := each (resolve_field e) s fields in (s, PRecord t fields rest)
    | PTuple ps => let '(s, ps) := each (resolve_pattern e) s ps in (s, PTuple ps)
    | PList ps => let '(s, ps) := each (resolve_pattern e) s ps in (s, PList ps)
    | PListRest head rest _ =>
        let '(s, head) := each (resolve_pattern e) s head in
        match rest with
        | Some name => if String.eqb name "_" then (s, PListRest head rest None) else let '(s, id) := bind_local s name in (s, PListRest head rest (Some id))
        | None => (s, PListRest head rest None)
        end
    | PAs p name _ => let '(s, p) := resolve_pattern e s p in let '(s, id) := bind_local s name in (s, PAs p name (Some id))
    | PError => (s, PError)
    end.
  Proof. destruct p; reflexivity. Qed.
  Lemma field_eq s f : resolve_field e s f =
    match f with
    | Full name p => let '(s, p) := resolve_pattern e s p in (s, Full name p)
    | Short name => let '(s, id) := bind_local s name in (s, Full name (PBind name (Some id)))
    end.
  Proof. destruct f; reflexivity. Qed.
  Definition pats_ok (p : pat string) : Prop := binds (resolve_pattern e) (pat_ok g) pat_binders p.
  Definition fields_ok (f : field string) : Prop := binds (resolve_field e) (field_ok g) field_binders f.
  Ltac gone F B := split; [exact F|]; split; [exact B|].
  Lemma patterns p : pats_ok p.
  Proof.
    assert (Z : forall (p : pat string) (q : pat ref), (forall s, resolve_pattern e s p = (s, q)) -> pat_binders q = [] ->
      (forall rep sc, pat_ok g rep sc p q sc) -> pats_ok p).
    { intros q q' E B K s s' y top rest sc E' HE T G. rewrite E in E'. injection E'; intros; subst. exists top, sc.
      split; [exact T|]. split; [exact G|]. split; [apply same_refl|]. split; [rewrite B; symmetry; apply range_nil|]. intros. apply K. }
    assert (ZB : forall s s' x id top rest sc, bind_local s x = (s', id) -> scopes s = top :: rest -> agree (scopes s) sc ->
      exists top', scopes s' = top' :: rest /\ agree (scopes s') ((x, id) :: sc) /\ same s s' /\ [id] = range (gen s) (gen s')) by exact bind_step.
    revert p. apply (pat_all pats_ok fields_ok).
    - apply (Z _ PWild); [reflexivity..|]. constructor.
    - intros x i s s' y top rest sc E HE T G. rewrite pattern_eq in E. destruct (bind_local s x) as [s1 id] eqn:B. injection E; intros; subst s' y.
      destruct (ZB _ _ _ _ _ _ _ B T G) as (top' & T' & G' & F & R). exists top', ((x, id) :: sc). split; [exact T'|]. split; [exact G'|]. split; [exact F|].
      split; [exact R|]. constructor.
    - intros l. apply (Z _ (PLit l)); [reflexivity..|]. constructor.
    - intros c ps H s s' y top rest sc E HE T G. rewrite pattern_eq in E. destruct (resolve_name e s c) as [s1 c1] eqn:E1. destruct (each (resolve_pattern e) s1 ps) as [s2 ps1] eqn:E2.
      injection E; intros; subst s' y. destruct (name_uses c _ _ _ _ E1 HE G) as (T1 & F1 & B1 & K1). rewrite <- T1 in G. rewrite T in T1.
      destruct (each_binds _ _ _ _ H _ _ _ _ _ _ E2 (same_here _ _ F1 HE) T1 G) as (top2 & sc2 & T2 & G2 & F2 & B2 & K2).
      exists top2, sc2. split; [exact T2|]. split; [exact G2|]. split; [exact (same_trans _ _ _ F1 F2)|]. split.
      + cbn. rewrite B2. rewrite <- (app_nil_l (range _ _)), B1. apply range_app; [apply F1|apply F2].
      + intros rep I. constructor; [exact (K1 rep (same_incl _ _ _ F2 I))|exact (K2 rep I)].
    - intros t fs b H s s' y top rest sc E HE T G. rewrite pattern_eq in E. destruct (maybe (resolve_name e) s t) as [s1 t1] eqn:E1. destruct (each (resolve_field e) s1 fs) as [s2 fs1] eqn:E2.
      injection E; intros; subst s' y. destruct (maybe_uses _ _ _ t ltac:(destruct t; cbn; [apply name_uses|exact I]) _ _ _ _ E1 HE G) as (T1 & F1 & B1 & K1).
      rewrite <- T1 in G. rewrite T in T1.
      destruct (each_binds _ _ _ _ H _ _ _ _ _ _ E2 (same_here _ _ F1 HE) T1 G) as (top2 & sc2 & T2 & G2 & F2 & B2 & K2).
      exists top2, sc2. split; [exact T2|]. split; [exact G2|]. split; [exact (same_trans _ _ _ F1 F2)|]. split.
      + cbn. rewrite B2. rewrite <- (app_nil_l (range _ _)). replace [] with (of_option (fun _ : ref => @nil N) t1) by (destruct t1; reflexivity). rewrite B1.
        apply range_app; [apply F1|apply F2].
      + intros rep I. constructor; [exact (K1 rep (same_incl _ _ _ F2 I))|exact (K2 rep I)].
    - intros ps H s s' y top rest sc E HE T G. rewrite pattern_eq in E. destruct (each (resolve_pattern e) s ps) as [s2 ps1] eqn:E2. injection E; intros; subst s' y.
      destruct (each_binds _ _ _ _ H _ _ _ _ _ _ E2 HE T G) as (top2 & sc2 & T2 & G2 & F2 & B2 & K2).
      exists top2, sc2. split; [exact T2|]. split; [exact G2|]. gone F2 B2. intros rep I. constructor. exact (K2 rep I).
    - intros ps H s s' y top rest sc E HE T G. rewrite pattern_eq in E. destruct (each (resolve_pattern e) s ps) as [s2 ps1] eqn:E2. injection E; intros; subst s' y.
      destruct (each_binds _ _ _ _ H _ _ _ _ _ _ E2 HE T G) as (top2 & sc2 & T2 & G2 & F2 & B2 & K2).
      exists top2, sc2. split; [exact T2|]. split; [exact G2|]. gone F2 B2. intros rep I. constructor. exact (K2 rep I).
    - intros ps r i H s s' y top rest sc E HE T G. rewrite pattern_eq in E. destruct (each (resolve_pattern e) s ps) as [s2 ps1] eqn:E2.
      destruct (each_binds _ _ _ _ H _ _ _ _ _ _ E2 HE T G) as (top2 & sc2 & T2 & G2 & F2 & B2 & K2).
      assert (none : (s2, PListRest ps1 r None) = (s', y) -> r = None \/ r = Some "_"%string ->
        exists top' sc', scopes s' = top' :: rest /\ agree (scopes s') sc' /\ same s s' /\ pat_binders y = range (gen s) (gen s') /\
        (forall rep, incl (diags s') rep -> pat_ok g rep sc (PListRest ps r i) y sc')).
      { intros E' C. injection E'; intros; subst s' y. exists top2, sc2. split; [exact T2|]. split; [exact G2|]. split; [exact F2|].
        split; [cbn; rewrite app_nil_r; exact B2|]. intros rep I. constructor; [exact (K2 rep I)|exact C]. }
      destruct r as [x|]; [destruct (String.eqb_spec x "_") as [->|N]|]; [apply none; auto| |apply none; auto].
      destruct (bind_local s2 x) as [s3 id] eqn:B. injection E; intros; subst s' y.
      destruct (ZB _ _ _ _ _ _ _ B T2 G2) as (top' & T' & G' & F & R). exists top', ((x, id) :: sc2). split; [exact T'|]. split; [exact G'|].
      split; [exact (same_trans _ _ _ F2 F)|]. split.
      + cbn. rewrite B2, R. apply range_app; [apply F2|apply F].
      + intros rep I. constructor; [exact (K2 rep (same_incl _ _ _ F I))|exact N].
    - intros p x i H s s' y top rest sc E HE T G. rewrite pattern_eq in E. destruct (resolve_pattern e s p) as [s2 ps1] eqn:E2.
      destruct (H _ _ _ _ _ _ E2 HE T G) as (top2 & sc2 & T2 & G2 & F2 & B2 & K2).
      destruct (bind_local s2 x) as [s3 id] eqn:B. injection E; intros; subst s' y.
      destruct (ZB _ _ _ _ _ _ _ B T2 G2) as (top' & T' & G' & F & R). exists top', ((x, id) :: sc2). split; [exact T'|]. split; [exact G'|].
      split; [exact (same_trans _ _ _ F2 F)|]. split.
      + cbn. rewrite B2, R. apply range_app; [apply F2|apply F].
      + intros rep I. constructor. exact (K2 rep (same_incl _ _ _ F I)).
    - apply (Z _ PError); [reflexivity..|]. constructor.
    - intros x s s' y top rest sc E HE T G. rewrite field_eq in E. destruct (bind_local s x) as [s1 id] eqn:B. injection E; intros; subst s' y.
      destruct (ZB _ _ _ _ _ _ _ B T G) as (top' & T' & G' & F & R). exists top', ((x, id) :: sc). split; [exact T'|]. split; [exact G'|]. split; [exact F|].
      split; [exact R|]. constructor.
    - intros x p H s s' y top rest sc E HE T G. rewrite field_eq in E. destruct (resolve_pattern e s p) as [s2 p1] eqn:E2. injection E; intros; subst s' y.
      destruct (H _ _ _ _ _ _ E2 HE T G) as (top2 & sc2 & T2 & G2 & F2 & B2 & K2). exists top2, sc2. split; [exact T2|]. split; [exact G2|]. gone F2 B2.
      intros rep I. constructor. exact (K2 rep I).
  Qed.
  Lemma all_patterns ps : binds (each (resolve_pattern e)) (fun rep => thread (pat_ok g rep)) (flat_map pat_binders) ps.
  Proof. apply each_binds. apply Forall_forall. intros p _. apply patterns. Qed.
  Lemma all_params ps : binds (each bind_param) (fun _ => thread param_ok) (flat_map param_binders) ps.
  Proof. apply (each_binds bind_param (fun _ => param_ok)). apply Forall_forall. intros p _. apply param_binds. Qed.
End Lex.
