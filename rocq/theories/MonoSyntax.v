(** Traversals of expressions are maps. *)
From Verif Require Export MonoSpec.
From Verif Require Import TyProofs SubstProofs.

Definition opt_all {A} (P : A -> Prop) (o : option A) : Prop := match o with Some a => P a | None => True end.
Section PatInd.
  Variable P : pat -> Prop.
  Definition field_all (f : fpat) : Prop := match f with Field _ _ p => opt_all P p end.
  Hypothesis Hw : forall i, P (PWild i).
  Hypothesis Hb : forall i n l, P (PBind i n l).
  Hypothesis Hl : forall i l, P (PLit i l).
  Hypothesis He : forall i, P (PError i).
  Hypothesis Hv : forall i c ps, Forall P ps -> P (PVariant i c ps).
  Hypothesis Hr : forall i t fs b, Forall field_all fs -> P (PRecord i t fs b).
  Hypothesis Ht : forall i ps, Forall P ps -> P (PTuple i ps).
  Hypothesis Hli : forall i ps, Forall P ps -> P (PList i ps).
  Hypothesis Hlr : forall i ps r l, Forall P ps -> P (PListRest i ps r l).
  Hypothesis Ha : forall i p n l, P p -> P (PAs i p n l).
  Fixpoint pat_all (p : pat) : P p :=
    let pats := fix pats (ps : list pat) : Forall P ps := match ps with [] => Forall_nil _ | p :: ps => Forall_cons _ (pat_all p) (pats ps) end in
    let fields := fix fields (fs : list fpat) : Forall field_all fs :=
      match fs with [] => Forall_nil _ | f :: fs => Forall_cons _ (field_ind f) (fields fs) end in
    match p with
    | PWild i => Hw i | PBind i n l => Hb i n l | PLit i l => Hl i l | PError i => He i | PVariant i c ps => Hv i c ps (pats ps)
    | PRecord i t fs b => Hr i t fs b (fields fs) | PTuple i ps => Ht i ps (pats ps) | PList i ps => Hli i ps (pats ps) | PListRest i ps r l => Hlr i ps r l (pats ps)
    | PAs i p n l => Ha i p n l (pat_all p)
    end
  with field_ind (f : fpat) : field_all f :=
    match f return field_all f with Field i n p => match p return opt_all P p with Some p => pat_all p | None => I end end.
End PatInd.
Section ExprInd.
  Variable P : expr -> Prop.
  Definition stmt_all (s : stmt) : Prop := match s with Let _ _ _ x => P x | Do_ _ x => P x end.
  Definition arm_all (a : arm) : Prop := match a with Arm _ _ g b => opt_all P g /\ P b end.
  Definition harm_all (h : harm) : Prop := match h with HArm _ _ b => P b end.
  Hypothesis Hvar : forall i r, P (Var i r).
  Hypothesis Hlit : forall i l, P (Lit i l).
  Hypothesis Hcall : forall i f es, P f -> Forall P es -> P (Call i f es).
  Hypothesis Hcons : forall i c es, Forall P es -> P (Cons i c es).
  Hypothesis Hrec : forall i t fs sp, Forall (fun f => P (snd f)) fs -> opt_all P sp -> P (Record_ i t fs sp).
  Hypothesis Hmeth : forall i o n es, P o -> Forall P es -> P (MethodCall i o n es).
  Hypothesis Hblock : forall i ss x, Forall stmt_all ss -> P x -> P (Block i ss x).
  Hypothesis Hcase : forall i x l, P x -> Forall arm_all l -> P (Case i x l).
  Hypothesis Hlam : forall i ps b, P b -> P (Lambda i ps b).
  Hypothesis Hhandle : forall i b l, P b -> Forall harm_all l -> P (Handle i b l).
  Hypothesis Hresume : forall i x l, P x -> P (Resume i x l).
  Hypothesis Htuple : forall i es, Forall P es -> P (Tuple i es).
  Hypothesis Hlist : forall i es, Forall P es -> P (List_ i es).
  Hypothesis Hbin : forall i op x y, P x -> P y -> P (BinOp i op x y).
  Fixpoint expr_all (e : expr) : P e :=
    let exprs := fix exprs (l : list expr) : Forall P l := match l with [] => Forall_nil _ | e :: l => Forall_cons _ (expr_all e) (exprs l) end in
    let opt := fun o : option expr => match o return opt_all P o with Some e => expr_all e | None => I end in
    match e with
    | Var i r => Hvar i r | Lit i l => Hlit i l | Call i f es => Hcall i f es (expr_all f) (exprs es) | Cons i c es => Hcons i c es (exprs es)
    | Record_ i t fs sp => Hrec i t fs sp
        ((fix fields (l : list (string * expr)) : Forall (fun f => P (snd f)) l :=
            match l with [] => Forall_nil _ | f :: l => Forall_cons f (match f return P (snd f) with (_, e) => expr_all e end) (fields l) end) fs) (opt sp)
    | MethodCall i o n es => Hmeth i o n es (expr_all o) (exprs es)
    | Block i ss x => Hblock i ss x
        ((fix go (l : list stmt) : Forall stmt_all l := match l with [] => Forall_nil _ | s :: l => Forall_cons _ (stmt_ind s) (go l) end) ss) (expr_all x)
    | Case i x l => Hcase i x l (expr_all x)
        ((fix go (l : list arm) : Forall arm_all l := match l with [] => Forall_nil _ | s :: l => Forall_cons _ (arm_ind s) (go l) end) l)
    | Lambda i ps b => Hlam i ps b (expr_all b)
    | Handle i b l => Hhandle i b l (expr_all b)
        ((fix go (l : list harm) : Forall harm_all l := match l with [] => Forall_nil _ | s :: l => Forall_cons _ (harm_ind s) (go l) end) l)
    | Resume i x l => Hresume i x l (expr_all x) | Tuple i es => Htuple i es (exprs es) | List_ i es => Hlist i es (exprs es)
    | BinOp i op x y => Hbin i op x y (expr_all x) (expr_all y)
    end
  with stmt_ind (s : stmt) : stmt_all s := match s return stmt_all s with Let _ _ _ x => expr_all x | Do_ _ x => expr_all x end
  with arm_ind (a : arm) : arm_all a :=
    match a return arm_all a with Arm _ _ g b => conj (match g return opt_all P g with Some g => expr_all g | None => I end) (expr_all b) end
  with harm_ind (h : harm) : harm_all h := match h return harm_all h with HArm _ _ b => expr_all b end.
End ExprInd.
Section DeclInd.
  Variable P : decl -> Prop.
  Hypothesis Hf : forall f, P (DFunction f).
  Hypothesis He : forall n, P (DExtern n).
  Hypothesis Hm : forall n b, opt_all (Forall P) b -> P (DModule n b).
  Hypothesis Ho : forall n, P (DOther n).
  Fixpoint decl_all (d : decl) : P d :=
    match d with
    | DFunction f => Hf f | DExtern n => He n | DOther n => Ho n
    | DModule n b => Hm n b
        (match b return opt_all (Forall P) b with
         | None => I
         | Some l => (fix go (l : list decl) : Forall P l := match l with [] => Forall_nil _ | d :: l => Forall_cons _ (decl_all d) (go l) end) l
         end)
    end.
End DeclInd.

Lemma map_eq {A B} (f g : A -> B) l : Forall (fun a => f a = g a) l -> List.map f l = List.map g l.
Proof. induction 1; cbn; congruence. Qed.
Lemma map_same {A} (f : A -> A) l : Forall (fun a => f a = a) l -> List.map f l = l.
Proof. induction 1; cbn; congruence. Qed.
Lemma flat_eq {A B} (f g : A -> list B) l : Forall (fun a => f a = g a) l -> flat_map f l = flat_map g l.
Proof. induction 1; cbn; congruence. Qed.
Lemma opt_eq {A B} (f g : A -> B) o : opt_all (fun a => f a = g a) o -> option_map f o = option_map g o.
Proof. destruct o; cbn; congruence. Qed.
Lemma flat_map_flat {A B C} (f : B -> C) (g : A -> list B) l : flat_map (fun a => List.map f (g a)) l = List.map f (flat_map g l).
Proof. induction l; cbn; rewrite ?map_app; congruence. Qed.
Lemma Forall_imp {A} (P Q : A -> Prop) l : (forall a, In a l -> P a -> Q a) -> Forall P l -> Forall Q l.
Proof. rewrite !Forall_forall; auto. Qed.

Ltac each H := eapply Forall_imp; [|exact H]; cbn beta; intros.

(** ** Equations *)
Lemma map_record_eq fi fr i t fs b : map_pat fi fr (PRecord i t fs b) = PRecord (fi i) (option_map fr t) (List.map (map_field fi fr) fs) b.
Proof. reflexivity. Qed.
Lemma map_field_eq fi fr i n p : map_field fi fr (Field i n p) = Field (fi i) n (option_map (map_pat fi fr) p).
Proof. reflexivity. Qed.
Lemma map_block_eq fi fv fr i ss x : map_expr fi fv fr (Block i ss x) = Block (fi i) (List.map (map_stmt fi fv fr) ss) (map_expr fi fv fr x).
Proof. reflexivity. Qed.
Lemma map_case_eq fi fv fr i x l : map_expr fi fv fr (Case i x l) = Case (fi i) (map_expr fi fv fr x) (List.map (map_arm fi fv fr) l).
Proof. reflexivity. Qed.
Lemma map_handle_eq fi fv fr i x l : map_expr fi fv fr (Handle i x l) = Handle (fi i) (map_expr fi fv fr x) (List.map (map_harm fi fv fr) l).
Proof. reflexivity. Qed.
Lemma map_let_eq fi fv fr i p a x : map_stmt fi fv fr (Let i p a x) = Let (fi i) (map_pat fi fr p) a (map_expr fi fv fr x).
Proof. reflexivity. Qed.
Lemma map_do_eq fi fv fr i x : map_stmt fi fv fr (Do_ i x) = Do_ (fi i) (map_expr fi fv fr x).
Proof. reflexivity. Qed.
Lemma map_arm_eq fi fv fr i p g x : map_arm fi fv fr (Arm i p g x) = Arm (fi i) (map_pat fi fr p) (option_map (map_expr fi fv fr) g) (map_expr fi fv fr x).
Proof. reflexivity. Qed.
Lemma map_harm_eq fi fv fr i k x : map_harm fi fv fr (HArm i k x) = HArm (fi i) (map_kind fi fr k) (map_expr fi fv fr x).
Proof. reflexivity. Qed.
Lemma rw_block_eq ts m i ss x : rewrite_expr ts m (Block i ss x) = Block i (List.map (rewrite_stmt ts m) ss) (rewrite_expr ts m x).
Proof. reflexivity. Qed.
Lemma rw_case_eq ts m i x l : rewrite_expr ts m (Case i x l) = Case i (rewrite_expr ts m x) (List.map (rewrite_arm ts m) l).
Proof. reflexivity. Qed.
Lemma rw_handle_eq ts m i x l : rewrite_expr ts m (Handle i x l) = Handle i (rewrite_expr ts m x) (List.map (rewrite_handler ts m) l).
Proof. reflexivity. Qed.
Lemma rw_let_eq ts m i p a x : rewrite_stmt ts m (Let i p a x) = Let i p a (rewrite_expr ts m x).
Proof. reflexivity. Qed.
Lemma rw_do_eq ts m i x : rewrite_stmt ts m (Do_ i x) = Do_ i (rewrite_expr ts m x).
Proof. reflexivity. Qed.
Lemma rw_arm_eq ts m i p g x : rewrite_arm ts m (Arm i p g x) = Arm i p (option_map (rewrite_expr ts m) g) (rewrite_expr ts m x).
Proof. reflexivity. Qed.
Lemma rw_harm_eq ts m i k x : rewrite_handler ts m (HArm i k x) = HArm i k (rewrite_expr ts m x).
Proof. reflexivity. Qed.
Lemma pat_ids_record i t fs b : pat_ids (PRecord i t fs b) = i :: flat_map field_ids fs.
Proof. reflexivity. Qed.
Lemma field_ids_eq i n p : field_ids (Field i n p) = i :: match p with Some p => pat_ids p | None => [] end.
Proof. reflexivity. Qed.
Lemma pat_types_record i t fs b : pat_types (PRecord i t fs b) = match t with Some t => [rty t] | None => [] end ++ flat_map field_types fs.
Proof. reflexivity. Qed.
Lemma field_types_eq i n p : field_types (Field i n p) = match p with Some p => pat_types p | None => [] end.
Proof. reflexivity. Qed.
Lemma expr_ids_block i ss x : expr_ids (Block i ss x) = i :: flat_map stmt_ids ss ++ expr_ids x.
Proof. reflexivity. Qed.
Lemma expr_ids_case i x l : expr_ids (Case i x l) = i :: expr_ids x ++ flat_map arm_ids l.
Proof. reflexivity. Qed.
Lemma expr_ids_handle i x l : expr_ids (Handle i x l) = i :: expr_ids x ++ flat_map handler_ids l.
Proof. reflexivity. Qed.
Lemma stmt_ids_let i p a x : stmt_ids (Let i p a x) = i :: pat_ids p ++ expr_ids x.
Proof. reflexivity. Qed.
Lemma stmt_ids_do i x : stmt_ids (Do_ i x) = i :: expr_ids x.
Proof. reflexivity. Qed.
Lemma arm_ids_eq i p g x : arm_ids (Arm i p g x) = i :: pat_ids p ++ match g with Some g => expr_ids g | None => [] end ++ expr_ids x.
Proof. reflexivity. Qed.
Lemma handler_ids_eq i k x : handler_ids (HArm i k x) = i :: kind_ids k ++ expr_ids x.
Proof. reflexivity. Qed.
Lemma expr_types_block i ss x : expr_types (Block i ss x) = flat_map stmt_types ss ++ expr_types x.
Proof. reflexivity. Qed.
Lemma expr_types_case i x l : expr_types (Case i x l) = expr_types x ++ flat_map arm_types l.
Proof. reflexivity. Qed.
Lemma expr_types_handle i x l : expr_types (Handle i x l) = expr_types x ++ flat_map handler_types l.
Proof. reflexivity. Qed.
Lemma stmt_types_let i p a x : stmt_types (Let i p a x) = pat_types p ++ expr_types x.
Proof. reflexivity. Qed.
Lemma stmt_types_do i x : stmt_types (Do_ i x) = expr_types x.
Proof. reflexivity. Qed.
Lemma arm_types_eq i p g x : arm_types (Arm i p g x) = pat_types p ++ match g with Some g => expr_types g | None => [] end ++ expr_types x.
Proof. reflexivity. Qed.
Lemma handler_types_eq i k x : handler_types (HArm i k x) = kind_types k ++ expr_types x.
Proof. reflexivity. Qed.
Lemma visit_expr_block i ss x : visit_expr (Block i ss x) = flat_map visit_stmt ss ++ visit_expr x.
Proof. reflexivity. Qed.
Lemma visit_expr_case i x l : visit_expr (Case i x l) = visit_expr x ++ flat_map visit_arm l.
Proof. reflexivity. Qed.
Lemma visit_expr_handle i x l : visit_expr (Handle i x l) = visit_expr x ++ flat_map visit_handler l.
Proof. reflexivity. Qed.
Lemma visit_stmt_let i p a x : visit_stmt (Let i p a x) = visit_expr x.
Proof. reflexivity. Qed.
Lemma visit_stmt_do i x : visit_stmt (Do_ i x) = visit_expr x.
Proof. reflexivity. Qed.
Lemma visit_arm_eq i p g x : visit_arm (Arm i p g x) = match g with Some g => visit_expr g | None => [] end ++ visit_expr x.
Proof. reflexivity. Qed.
Lemma visit_handler_eq i k x : visit_handler (HArm i k x) = visit_expr x.
Proof. reflexivity. Qed.
#[export] Hint Rewrite map_record_eq map_field_eq map_block_eq map_case_eq map_handle_eq map_let_eq map_do_eq map_arm_eq map_harm_eq rw_block_eq rw_case_eq rw_handle_eq rw_let_eq rw_do_eq rw_arm_eq rw_harm_eq pat_ids_record field_ids_eq pat_types_record field_types_eq expr_ids_block expr_ids_case expr_ids_handle stmt_ids_let stmt_ids_do arm_ids_eq handler_ids_eq expr_types_block expr_types_case expr_types_handle stmt_types_let stmt_types_do arm_types_eq handler_types_eq visit_expr_block visit_expr_case visit_expr_handle visit_stmt_let visit_stmt_do visit_arm_eq visit_handler_eq : mono.
Ltac eqs := autorewrite with mono in *; cbn [stmt_all arm_all harm_all field_all opt_all option_map List.map fst snd] in *.

(** ** Substitution *)
Lemma substitute_pat_map args v p : substitute_pat args v p = map_pat (with_variant v) (subst_ref args) p.
Proof.
  induction p using pat_all; cbn [substitute_pat substitute_field map_pat map_field]; auto; try (f_equal; apply map_eq; auto; fail).
Qed.
Lemma substitute_kind_map args v k : substitute_kind args v k = map_kind (with_variant v) (subst_ref args) k.
Proof. destruct k; cbn; f_equal; try apply map_eq; try (apply Forall_forall; intros); apply substitute_pat_map. Qed.
Lemma substitute_map args v e : substitute_expr args v e = map_expr (with_variant v) (subst_ref args) (subst_ref args) e.
Proof.
  induction e using expr_all; cbn [substitute_expr substitute_stmt substitute_arm substitute_handler map_expr map_stmt map_arm map_harm]; rewrite ?IHe, ?IHe1, ?IHe2; auto; try (f_equal; apply map_eq; auto; fail).
Qed.

(** ** Composition *)
Section Compose.
  Variables (fi gi hi : nid -> nid) (fv gv hv fr gr hr : tref -> tref).
  Hypotheses (HI : forall i, fi (gi i) = hi i) (HV : forall r, fv (gv r) = hv r) (HR : forall r, fr (gr r) = hr r).
  Lemma map_pat_comp p : map_pat fi fr (map_pat gi gr p) = map_pat hi hr p.
  Proof.
    induction p using pat_all; eqs; cbn [map_pat map_field]; rewrite ?HI, ?HR, ?IHp; auto; try (f_equal; rewrite map_map; apply map_eq; auto; fail).
    - f_equal; [destruct t; cbn; rewrite ?HR; auto|]. rewrite map_map. apply map_eq. each H. destruct a as [j n [p|]]; eqs; rewrite HI; auto. rewrite H1. auto.
  Qed.
  Lemma map_kind_comp k : map_kind fi fr (map_kind gi gr k) = map_kind hi hr k.
  Proof. destruct k; cbn; rewrite ?HR; f_equal; rewrite ?map_map; try apply map_eq; try (apply Forall_forall; intros); apply map_pat_comp. Qed.
  Lemma map_expr_comp e : map_expr fi fv fr (map_expr gi gv gr e) = map_expr hi hv hr e.
  Proof.
    induction e using expr_all; eqs; cbn [map_expr map_stmt map_arm map_harm]; rewrite ?HI, ?HR, ?HV, ?IHe, ?IHe1, ?IHe2; auto; try (f_equal; rewrite map_map; apply map_eq; auto; fail).
    - f_equal; [|destruct sp; eqs; congruence]. rewrite map_map. apply map_eq. each H. cbn. rewrite H2. auto.
    - f_equal. rewrite map_map. apply map_eq. each H. destruct a; eqs; rewrite ?map_pat_comp, HI, H1; auto.
    - f_equal. rewrite map_map. apply map_eq. each H. destruct a as [j p g b]; eqs. destruct H1 as [G B].
      rewrite map_pat_comp, HI, B. destruct g; eqs; congruence.
    - f_equal. rewrite map_map. apply map_eq. each H. destruct a as [j k b]; eqs. rewrite map_kind_comp, HI, H1. auto.
  Qed.
  Lemma map_decl_comp d : map_decl fi fv fr (map_decl gi gv gr d) = map_decl hi hv hr d.
  Proof.
    induction d using decl_all; cbn [map_decl]; auto.
    - unfold map_func. cbn. rewrite map_expr_comp, HI. auto.
    - destruct b; eqs; auto. rewrite map_map. f_equal. f_equal. apply map_eq; auto.
  Qed.
End Compose.

(** ** Rewriting *)
Section Same.
  Variables (fi : nid -> nid) (fr : tref -> tref).
  Hypotheses (HI : forall i, fi i = i) (HR : forall r, fr r = r).
  Lemma map_pat_id p : map_pat fi fr p = p.
  Proof.
    induction p using pat_all; eqs; cbn [map_pat map_field]; rewrite ?HI, ?HR, ?IHp; auto; try (f_equal; apply map_same; auto; fail).
    - f_equal; [destruct t; cbn; rewrite ?HR; auto|]. apply map_same. each H. destruct a as [j n [p|]]; eqs; rewrite HI; auto. rewrite H1. auto.
  Qed.
  Lemma map_pats_id ps : List.map (map_pat fi fr) ps = ps.
  Proof. apply map_same, Forall_forall. intros. apply map_pat_id. Qed.
  Lemma map_kind_id k : map_kind fi fr k = k.
  Proof. destruct k; cbn; rewrite ?HR, ?map_pats_id, ?map_pat_id; auto. Qed.
  Variables (types : list (string * scheme)) (m : rewrite_map).
  Lemma rewrite_map_same e : rewrite_expr types m e = map_expr fi (rewrite_ref types m) fr e.
  Proof.
    induction e using expr_all; eqs; cbn [rewrite_expr rewrite_stmt rewrite_arm rewrite_handler map_expr map_stmt map_arm map_harm];
      rewrite ?HI, ?HR, ?IHe, ?IHe1, ?IHe2; auto; try (f_equal; apply map_eq; auto; fail).
    - f_equal; [|apply opt_eq; auto]. apply map_eq. each H. rewrite H2. auto.
    - f_equal. apply map_eq. each H. destruct a; eqs; rewrite ?map_pat_id, HI, H1; auto.
    - f_equal. apply map_eq. each H. destruct a as [j p g b]; eqs. destruct H1 as [G B]. rewrite map_pat_id, HI, B, (opt_eq _ _ g G). auto.
    - f_equal. apply map_eq. each H. destruct a as [j k b]; eqs. rewrite map_kind_id, HI, H1. auto.
  Qed.
  Lemma rewrite_same_decl d : rewrite_decl types m d = map_decl fi (rewrite_ref types m) fr d.
  Proof.
    induction d using decl_all; cbn [rewrite_decl map_decl]; auto.
    - unfold map_func, with_body. rewrite rewrite_map_same, HI. auto.
    - destruct b; eqs; auto. f_equal. f_equal. apply map_eq; auto.
  Qed.
End Same.
Lemma rewrite_map_expr types m e : rewrite_expr types m e = map_expr (fun i => i) (rewrite_ref types m) (fun r => r) e.
Proof. apply rewrite_map_same; auto. Qed.
Lemma rewrite_map_decl types m d : rewrite_decl types m d = map_decl (fun i => i) (rewrite_ref types m) (fun r => r) d.
Proof. apply rewrite_same_decl; auto. Qed.

(** ** Extensionality *)
Section Ext.
  Variables (fi : nid -> nid) (fv gv fr gr : tref -> tref).
  Definition on_types (ts : list ty) : Prop := forall r, In (rty r) ts -> fr r = gr r.
  Lemma on_app a b : on_types (a ++ b) -> on_types a /\ on_types b.
  Proof. unfold on_types. intros H; split; intros; apply H, in_or_app; auto. Qed.
  Lemma on_flat {A} (f : A -> list ty) l a : on_types (flat_map f l) -> In a l -> on_types (f a).
  Proof. unfold on_types. intros H I r R. apply H, in_flat_map. eauto. Qed.
  Lemma on_cons t ts : on_types (t :: ts) -> (forall r, rty r = t -> fr r = gr r) /\ on_types ts.
  Proof. unfold on_types. intros H; split; intros; apply H; cbn; auto. Qed.
  Lemma map_pat_ext p : on_types (pat_types p) -> map_pat fi fr p = map_pat fi gr p.
  Proof.
    induction p using pat_all; eqs; cbn [map_pat map_field pat_types field_types]; intros O; auto;
      try (f_equal; apply map_eq; each H; apply H1; eapply on_flat; eauto; fail).
    - apply on_cons in O as [A O]. f_equal; [apply A; cbn; auto|]. apply map_eq; each H; apply H1; eapply on_flat; eauto.
    - apply on_app in O as [A O]. f_equal; [destruct t; cbn; auto; f_equal; apply A; cbn; auto|]. apply map_eq. each H.
      pose proof (on_flat _ _ _ O H0) as X. destruct a as [j n [p|]]; eqs; auto. rewrite H1; auto.
    - rewrite IHp; auto.
  Qed.
  Lemma map_pats_ext ps : on_types (flat_map pat_types ps) -> List.map (map_pat fi fr) ps = List.map (map_pat fi gr) ps.
  Proof. intros O. apply map_eq, Forall_forall. intros p I. apply map_pat_ext. eapply on_flat; eauto. Qed.
  Lemma map_kind_ext k : on_types (kind_types k) -> map_kind fi fr k = map_kind fi gr k.
  Proof.
    destruct k; cbn [map_kind kind_types]; intros O.
    - rewrite map_pat_ext; auto.
    - apply on_cons in O as [A O]. rewrite map_pats_ext, (A ability) by (cbn; auto). auto.
    - apply on_cons in O as [A O]. rewrite map_pats_ext, (A ability) by (cbn; auto). auto.
  Qed.
  Definition on_vars (vs : list (nid * tref)) : Prop := forall i r, In (i, r) vs -> fv r = gv r.
  Lemma ov_app a b : on_vars (a ++ b) -> on_vars a /\ on_vars b.
  Proof. unfold on_vars. intros H; split; intros; eapply H, in_or_app; eauto. Qed.
  Lemma ov_flat {A} (f : A -> list (nid * tref)) l a : on_vars (flat_map f l) -> In a l -> on_vars (f a).
  Proof. unfold on_vars. intros H I i r R. eapply H, in_flat_map. eauto. Qed.
  Ltac ons := repeat match goal with
    | H : on_types (_ ++ _) |- _ => apply on_app in H as [? ?] | H : on_vars (_ ++ _) |- _ => apply ov_app in H as [? ?]
    | H : on_types (_ :: _) |- _ => apply on_cons in H as [? ?] end.
  Ltac child := match goal with Q : on_vars (_ ?a) -> on_types _ -> _, I : In ?a _ |- _ => apply Q; [eapply ov_flat; [|exact I]; assumption|eapply on_flat; [|exact I]; assumption] end.
  Ltac here := match goal with V : on_vars (flat_map ?f ?l), T : on_types (flat_map ?g ?l), I : In ?a ?l |- _ =>
    pose proof (ov_flat _ _ _ V I) as X; pose proof (on_flat _ _ _ T I) as Y end.
  Lemma map_expr_ext e : on_vars (visit_expr e) -> on_types (expr_types e) -> map_expr fi fv fr e = map_expr fi gv gr e.
  Proof.
    induction e using expr_all; eqs; cbn [map_expr map_stmt map_arm map_harm visit_expr visit_stmt visit_arm visit_handler expr_types stmt_types arm_types handler_types]; intros V O; ons;
      try (f_equal; auto; fail).
    - rewrite (V i r); cbn; auto.
    - f_equal; auto. apply map_eq. each H. child.
    - f_equal; [apply H0; cbn; auto|]. apply map_eq. each H. child.
    - f_equal.
      + apply H3; auto.
      + apply map_eq. each H. f_equal. apply H7; [eapply (ov_flat (fun f => visit_expr (snd f))); eauto|eapply (on_flat (fun f => expr_types (snd f))); eauto].
      + destruct sp; eqs; auto. f_equal; auto.
    - f_equal; auto. apply map_eq. each H. child.
    - f_equal; auto. apply map_eq. each H. here.
      destruct a; eqs; ons; rewrite ?map_pat_ext, H5; auto.
    - f_equal; auto. apply map_eq. each H. here.
      destruct a as [j p g b]; eqs. destruct H5 as [G B]. ons. rewrite map_pat_ext, B by auto. destruct g; eqs; auto. rewrite G; auto.
    - f_equal; auto. apply map_eq. each H. here.
      destruct a as [j k b]; eqs. ons. rewrite map_kind_ext, H5; auto.
    - f_equal. apply map_eq. each H. child.
    - f_equal. apply map_eq. each H. child.
  Qed.
End Ext.

(** ** What maps do to ids, variables and types *)
Lemma flat_mapped {A B C D} (g : B -> list C) (h : A -> B) (f : D -> C) (g' : A -> list D) l :
  Forall (fun a => g (h a) = List.map f (g' a)) l -> flat_map g (List.map h l) = List.map f (flat_map g' l).
Proof. induction 1; cbn; rewrite ?map_app; congruence. Qed.

Section Parts.
  Variables (fi : nid -> nid) (fv fr : tref -> tref).
  Lemma pat_ids_map p : pat_ids (map_pat fi fr p) = List.map fi (pat_ids p).
  Proof.
    induction p using pat_all; eqs; cbn [map_pat map_field pat_ids field_ids List.map]; auto; try (solve [repeat first [apply flat_mapped; assumption|f_equal]]).
    - f_equal. apply flat_mapped. each H. destruct a as [j n [p|]]; eqs; auto. congruence.
    - congruence.
  Qed.
  Lemma pats_ids_map ps : flat_map pat_ids (List.map (map_pat fi fr) ps) = List.map fi (flat_map pat_ids ps).
  Proof. apply flat_mapped, Forall_forall. intros. apply pat_ids_map. Qed.
  Lemma kind_ids_map k : kind_ids (map_kind fi fr k) = List.map fi (kind_ids k).
  Proof. destruct k; cbn; auto using pat_ids_map, pats_ids_map. Qed.
  Lemma expr_ids_map e : expr_ids (map_expr fi fv fr e) = List.map fi (expr_ids e).
  Proof.
    induction e using expr_all; eqs; cbn [map_expr map_stmt map_arm map_harm expr_ids stmt_ids arm_ids handler_ids List.map]; rewrite ?map_app, ?IHe, ?IHe1, ?IHe2; auto;
      try (solve [repeat first [apply flat_mapped; assumption|f_equal]]).
    - f_equal. f_equal; [|destruct sp; auto]. apply flat_mapped. each H. cbn. auto.
    - f_equal. f_equal. apply flat_mapped. each H.
      destruct a; eqs; rewrite ?map_app, ?pat_ids_map, H1; auto.
    - f_equal. f_equal. apply flat_mapped. each H.
      destruct a as [j p g b]; eqs. destruct H1 as [G B]. rewrite !map_app, pat_ids_map, B. destruct g; eqs; congruence.
    - f_equal. f_equal. apply flat_mapped. each H. destruct a as [j k b]; eqs. rewrite map_app, kind_ids_map, H1. auto.
  Qed.
  Definition on_var (v : nid * tref) : nid * tref := (fi (fst v), fv (snd v)).
  Lemma visit_map e : visit_expr (map_expr fi fv fr e) = List.map on_var (visit_expr e).
  Proof.
    induction e using expr_all; eqs; cbn [map_expr map_stmt map_arm map_harm visit_expr visit_stmt visit_arm visit_handler List.map]; rewrite ?map_app, ?IHe, ?IHe1, ?IHe2; auto;
      try (solve [repeat first [apply flat_mapped; assumption|f_equal]]).
    - f_equal; [|destruct sp; auto]. apply flat_mapped. each H. cbn. auto.
    - f_equal. apply flat_mapped. each H. destruct a; eqs; auto.
    - f_equal. apply flat_mapped. each H.
      destruct a as [j p g b]; eqs. destruct H1 as [G B]. rewrite !map_app, B. destruct g; eqs; congruence.
    - f_equal. apply flat_mapped. each H. destruct a as [j k b]; eqs. auto.
  Qed.
End Parts.
Lemma expr_types_kept_by fi fv fr e : (forall r, rty (fv r) = rty r) -> (forall r, rty (fr r) = rty r) -> expr_types (map_expr fi fv fr e) = expr_types e.
Proof.
  intros K KR.
  assert (KP : forall p, pat_types (map_pat fi fr p) = pat_types p).
  { induction p using pat_all; eqs; cbn [map_pat map_field pat_types field_types]; rewrite ?KR; auto; try (rewrite flat_map_map; f_equal; apply flat_eq; auto; fail); try (rewrite flat_map_map; apply flat_eq; auto; fail).
    rewrite flat_map_map. f_equal; [destruct t; cbn; rewrite ?KR; auto|]. apply flat_eq. each H. destruct a as [j n [p|]]; eqs; auto. }
  assert (KPS : forall ps, flat_map pat_types (List.map (map_pat fi fr) ps) = flat_map pat_types ps).
  { intros. rewrite flat_map_map. apply flat_eq, Forall_forall. auto. }
  induction e using expr_all; eqs; cbn [map_expr map_stmt map_arm map_harm expr_types stmt_types arm_types handler_types]; rewrite ?KR, ?K, ?IHe, ?IHe1, ?IHe2; auto;
    try (rewrite flat_map_map; try f_equal; apply flat_eq; auto; fail).
  - f_equal. rewrite flat_map_map. f_equal; [|destruct sp; auto]. apply flat_eq. each H. cbn. auto.
  - f_equal. rewrite flat_map_map. apply flat_eq. each H. destruct a; eqs; rewrite ?KP, H1; auto.
  - f_equal. rewrite flat_map_map. apply flat_eq. each H. destruct a as [j p g b]; eqs. destruct H1 as [G B]. rewrite KP, B. destruct g; eqs; congruence.
  - f_equal. rewrite flat_map_map. apply flat_eq. each H. destruct a as [j k b]; eqs. rewrite H1. f_equal. destruct k; cbn; rewrite ?KP, ?KPS, ?KR; auto.
  - rewrite flat_map_map; apply flat_eq; auto.
  - rewrite flat_map_map; apply flat_eq; auto.
Qed.
Lemma visit_types i r e : In (i, r) (visit_expr e) -> In (rty r) (expr_types e).
Proof.
  assert (FL : forall A (l : list A) (f : A -> list (nid * tref)) (g : A -> list ty),
    Forall (fun a => In (i, r) (f a) -> In (rty r) (g a)) l -> In (i, r) (flat_map f l) -> In (rty r) (flat_map g l)).
  { intros A l f g F I. apply in_flat_map in I as [a [I J]]. apply in_flat_map. exists a. split; auto. rewrite Forall_forall in F. auto. }
  induction e using expr_all; eqs; cbn [visit_expr visit_stmt visit_arm visit_handler expr_types stmt_types arm_types handler_types]; intros I; rewrite ?in_app_iff in *; auto;
    try (destruct I as [I|I]; [|try (right; eapply FL; eauto; fail)]; auto; fail); try (eapply FL; eauto; fail).
  - destruct I as [[= <- <-]|[]]; cbn; auto.
  - right. eapply FL; eauto.
  - right. apply in_or_app. destruct I as [I|I]; [left; eapply FL; [|exact I]; exact H|]. destruct sp; eqs; auto.
  - destruct I as [I|I]; [left|auto]. eapply FL; [|exact I]. each H. destruct a; eqs; auto. apply in_or_app; auto.
  - destruct I as [I|I]; [auto|right]. eapply FL; [|exact I]. each H. destruct a as [j p g b]; eqs. destruct H1 as [G B]. rewrite !in_app_iff in *. destruct g; eqs; intuition.
  - destruct I as [I|I]; [auto|right]. eapply FL; [|exact I]. each H. destruct a as [j k b]; eqs. apply in_or_app; auto.
Qed.
