(** Proofs for C56: expressions and declarations. *)
From Verif Require Export ResolveProofs.
From Coq Require Import Lia.
Local Open Scope N_scope.
Open Scope list_scope.

Section Exprs.
  Variables (e : env) (path : list string) (inj : map_of binding).
  Notation g := (meaning e path inj).
  Notation here := (here path inj).
  Lemma expr_eq s x : resolve_expr e s x =
    match x with
    | Var name => let '(s, r) := resolve_name e s name in (s, Var r)
    | Lit l => (s, Lit l)
    | Call callee args => let '(s, callee) := resolve_expr e s callee in let '(s, args) := each (resolve_expr e) s args in (s, Call callee args)
    | Cons ctor args => let '(s, ctor) := resolve_name e s ctor in let '(s, args) := each (resolve_expr e) s args in (s, Cons ctor args)
    | Record_ t fields spread =>
        let '(s, t) := resolve_name e s t in
        let '(s, fields) := each (fun s f => let '(s, x) := resolve_expr e s (snd f) in (s, (fst f, x))) s fields in
        let '(s, spread) := maybe (resolve_expr e) s spread in (s, Record_ t fields spread)
    | MethodCall receiver method args =>
        let '(s, receiver) := resolve_expr e s receiver in let '(s, args) := each (resolve_expr e) s args in (s, MethodCall receiver method args)
    | Block stmts value =>
        let s := push_scope s in
        let '(s, stmts) := each (resolve_stmt e) s stmts in let '(s, value) := resolve_expr e s value in (pop_scope s, Block stmts value)
    | Case scrutinee arms => let '(s, scrutinee) := resolve_expr e s scrutinee in let '(s, arms) := each (resolve_arm e) s arms in (s, Case scrutinee arms)
    | Lambda params body =>
        let s := push_scope s in
        let '(s, params) := each bind_param s params in let '(s, body) := resolve_expr e s body in (pop_scope s, Lambda params body)
    | Handle body handlers => let '(s, body) := resolve_expr e s body in let '(s, handlers) := each (resolve_handler e) s handlers in (s, Handle body handlers)
    | Resume arg _ => let '(s, arg) := resolve_expr e s arg in (s, Resume arg (hd_error (resumes s)))
    | Tuple es => let '(s, es) := each (resolve_expr e) s es in (s, Tuple es)
    | List_ es => let '(s, es) := each (resolve_expr e) s es in (s, List_ es)
    | BinOp op lhs rhs => let '(s, lhs) := resolve_expr e s lhs in let '(s, rhs) := resolve_expr e s rhs in (s, BinOp op lhs rhs)
    | Error => (s, Error)
    end.
  Proof. destruct x; reflexivity. Qed.
  Lemma stmt_eq s x : resolve_stmt e s x =
    match x with
    | Let p value => let '(s, value) := resolve_expr e s value in let '(s, p) := resolve_pattern e s p in (s, Let p value)
    | Do_ x => let '(s, x) := resolve_expr e s x in (s, Do_ x)
    end.
  Proof. destruct x; reflexivity. Qed.
  Lemma arm_eq s x : resolve_arm e s x =
    match x with
    | Arm p guard body =>
        let s := push_scope s in
        let '(s, p) := resolve_pattern e s p in let '(s, guard) := maybe (resolve_expr e) s guard in let '(s, body) := resolve_expr e s body in
        (pop_scope s, Arm p guard body)
    end.
  Proof. destruct x; reflexivity. Qed.
  Lemma handler_eq s x : resolve_handler e s x =
    match x with
    | HArm k body =>
        let s := push_scope s in
        let '(s, k) := resolve_kind e s k in let '(s, body) := resolve_expr e s body in
        let s := match k with HOp _ _ _ _ => pop_resume s | _ => s end in (pop_scope s, HArm k body)
    end.
  Proof. destruct x; reflexivity. Qed.
  Definition expr_good (x : expr string) : Prop := uses path inj (resolve_expr e) (expr_ok g) expr_binders x.
  Definition stmt_good (x : stmt string) : Prop :=
    forall s s' y top rest sc, resolve_stmt e s x = (s', y) -> here s -> scopes s = top :: rest -> agree (scopes s) sc ->
    exists top' sc', scopes s' = top' :: rest /\ agree (scopes s') sc' /\ same s s' /\ stmt_binders y = range (gen s) (gen s') /\
      (forall rep, incl (diags s') rep -> stmt_ok g rep (hd_error (resumes s)) sc x y sc').
  Definition arm_good (x : arm string) : Prop := uses path inj (resolve_arm e) (arm_ok g) arm_binders x.
  Definition handler_good (x : harm string) : Prop := uses path inj (resolve_handler e) (handler_ok g) handler_binders x.
  Lemma stmts_good l : Forall stmt_good l ->
    forall s s' y top rest sc, each (resolve_stmt e) s l = (s', y) -> here s -> scopes s = top :: rest -> agree (scopes s) sc ->
    exists top' sc', scopes s' = top' :: rest /\ agree (scopes s') sc' /\ same s s' /\ flat_map stmt_binders y = range (gen s) (gen s') /\
      (forall rep, incl (diags s') rep -> thread (stmt_ok g rep (hd_error (resumes s))) sc l y sc').
  Proof.
    induction 1 as [|x l X L IH]; intros s s' y top rest sc E HE T G; cbn in E.
    - injection E; intros; subst. exists top, sc. split; [exact T|]. split; [exact G|]. split; [apply same_refl|].
      split; [symmetry; apply range_nil|]. intros. constructor.
    - destruct (resolve_stmt e s x) as [s1 x1] eqn:E1. destruct (each (resolve_stmt e) s1 l) as [s2 l1] eqn:E2. injection E; intros; subst s' y; clear E.
      destruct (X _ _ _ _ _ _ E1 HE T G) as (top1 & sc1 & T1 & G1 & F1 & B1 & K1).
      destruct (IH _ _ _ _ _ _ E2 (same_here _ _ _ _ F1 HE) T1 G1) as (top2 & sc2 & T2 & G2 & F2 & B2 & K2).
      exists top2, sc2. split; [exact T2|]. split; [exact G2|]. split; [exact (same_trans _ _ _ F1 F2)|]. split.
      + cbn. rewrite B1, B2. apply range_app; [apply F1|apply F2].
      + intros rep I. econstructor; [exact (K1 rep (same_incl _ _ _ F2 I))|]. rewrite <- (proj1 F1). exact (K2 rep I).
  Qed.
  Lemma same_push s : same s (push_scope s).
  Proof. repeat split; cbn; try lia. exists []. symmetry. apply app_nil_r. Qed.
  Lemma same_pop s : same s (pop_scope s).
  Proof. repeat split; cbn; try lia. exists []. symmetry. apply app_nil_r. Qed.
  Lemma fields_each l : Forall (fun f => expr_good (snd f)) l ->
    uses path inj (each (fun s (f : string * expr string) => let '(s, x) := resolve_expr e s (snd f) in (s, (fst f, x))))
      (fun rep r sc => Forall2 (fun f f' => fst f = fst f' /\ expr_ok g rep r sc (snd f) (snd f'))) (flat_map (fun f => expr_binders (snd f))) l.
  Proof.
    intros H. apply (each_uses path inj _ (fun rep r sc f f' => fst f = fst f' /\ expr_ok g rep r sc (snd f) (snd f')) (fun f => expr_binders (snd f))).
    induction H as [|f l X L IH]; constructor; [|exact IH]. intros s s' y sc E HE G.
    destruct (resolve_expr e s (snd f)) as [s1 x1] eqn:E1. injection E; intros; subst s' y. destruct (X _ _ _ _ E1 HE G) as (T & F & B & K).
    split; [exact T|]. split; [exact F|]. split; [exact B|]. intros rep I. split; [reflexivity|exact (K rep I)].
  Qed.
  Lemma kind_good k : forall s s' y top rest sc, resolve_kind e s k = (s', y) -> here s -> scopes s = top :: rest -> agree (scopes s) sc ->
    exists top' sc' r', scopes s' = top' :: rest /\ agree (scopes s') sc' /\ here s' /\ gen s <= gen s' /\ (exists d, diags s' = diags s ++ d) /\
      hd_error (resumes s') = r' /\ (match y with HOp _ _ _ _ => tl (resumes s') | _ => resumes s' end) = resumes s /\
      kind_binders y = range (gen s) (gen s') /\ (forall rep, incl (diags s') rep -> kind_ok g rep (hd_error (resumes s)) sc k y sc' r').
  Proof.
    intros s s' y top rest sc E HE T G. destruct k as [p|a op ps|a op ps i]; cbn [resolve_kind] in E.
    - destruct (resolve_pattern e s p) as [s1 p1] eqn:E1. injection E; intros; subst s' y.
      destruct (patterns e path inj p _ _ _ _ _ _ E1 HE T G) as (top1 & sc1 & T1 & G1 & F1 & B1 & K1).
      exists top1, sc1, (hd_error (resumes s)). split; [exact T1|]. split; [exact G1|]. split; [exact (same_here _ _ _ _ F1 HE)|]. split; [apply F1|].
      split; [apply F1|]. split; [f_equal; apply F1|]. split; [apply F1|]. split; [exact B1|]. intros rep I. constructor. exact (K1 rep I).
    - destruct (resolve_handler_ability e s a) as [s1 a1] eqn:E1. destruct (each (resolve_pattern e) s1 ps) as [s2 ps1] eqn:E2. injection E; intros; subst s' y.
      destruct (ability_uses e path inj a _ _ _ _ E1 HE G) as (T1 & F1 & B1 & K1). rewrite <- T1 in G. rewrite T in T1.
      destruct (all_patterns e path inj ps _ _ _ _ _ _ E2 (same_here _ _ _ _ F1 HE) T1 G) as (top2 & sc2 & T2 & G2 & F2 & B2 & K2).
      pose proof (same_trans _ _ _ F1 F2) as F.
      exists top2, sc2, (hd_error (resumes s)). split; [exact T2|]. split; [exact G2|]. split; [exact (same_here _ _ _ _ F HE)|]. split; [apply F|].
      split; [apply F|]. split; [f_equal; apply F|]. split; [apply F|]. split.
      + cbn. rewrite B2. rewrite <- (app_nil_l (range _ _)), B1. apply range_app; [apply F1|apply F2].
      + intros rep I. constructor; [exact (K1 rep (same_incl _ _ _ F2 I))|exact (K2 rep I)].
    - destruct (resolve_handler_ability e s a) as [s1 a1] eqn:E1. destruct (each (resolve_pattern e) s1 ps) as [s2 ps1] eqn:E2.
      unfold fresh in E. injection E; intros; subst s' y.
      destruct (ability_uses e path inj a _ _ _ _ E1 HE G) as (T1 & F1 & B1 & K1). rewrite <- T1 in G. rewrite T in T1.
      destruct (all_patterns e path inj ps _ _ _ _ _ _ E2 (same_here _ _ _ _ F1 HE) T1 G) as (top2 & sc2 & T2 & G2 & F2 & B2 & K2).
      pose proof (same_trans _ _ _ F1 F2) as F. pose proof (same_here _ _ _ _ F HE) as HE2.
      destruct F as (A & B & C & D & d & Ed).
      exists top2, sc2, (Some (gen s2)). split; [exact T2|]. split; [exact G2|]. split; [exact HE2|]. cbn. split; [lia|]. split; [exists d; exact Ed|].
      split; [reflexivity|]. split; [exact A|]. split.
      + rewrite B2. rewrite <- (range_one (gen s2)). rewrite <- (app_nil_l (range (gen s1) _)), B1. rewrite range_app; [|apply F1|apply F2].
        apply range_app; lia.
      + intros rep I. constructor; [exact (K1 rep (same_incl _ _ _ F2 I))|exact (K2 rep I)].
  Qed.
  Theorem expressions x : expr_good x.
  Proof.
    assert (Z : forall (x : expr string) (y : expr ref), (forall s, resolve_expr e s x = (s, y)) -> expr_binders y = [] ->
      (forall rep r sc, expr_ok g rep r sc x y) -> expr_good x).
    { intros q q' E B K s s' y sc E' HE G. rewrite E in E'. injection E'; intros; subst.
      split; [reflexivity|]. split; [apply same_refl|]. split; [rewrite B; symmetry; apply range_nil|]. intros. apply K. }
    assert (L : forall l, Forall expr_good l -> uses path inj (each (resolve_expr e)) (fun rep r sc => Forall2 (expr_ok g rep r sc)) (flat_map expr_binders) l).
    { intros l. apply each_uses. }
    revert x. apply (expr_all expr_good stmt_good arm_good handler_good).
    - intros n s s' y sc E HE G. rewrite expr_eq in E. destruct (resolve_name e s n) as [s1 r] eqn:E1. injection E; intros; subst s' y.
      destruct (name_uses e path inj n _ _ _ _ E1 HE G) as (T & F & B & K). split; [exact T|]. split; [exact F|]. split; [exact B|].
      intros rep I. constructor. exact (K rep I).
    - intros l. apply (Z _ (Lit l)); [reflexivity..|]. constructor.
    - intros f es Hf Hes s s' y sc E HE G. rewrite expr_eq in E. destruct (resolve_expr e s f) as [s1 f1] eqn:E1. destruct (each (resolve_expr e) s1 es) as [s2 es1] eqn:E2.
      injection E; intros; subst s' y. destruct (Hf _ _ _ _ E1 HE G) as (T1 & F1 & B1 & K1). rewrite <- T1 in G.
      destruct (L _ Hes _ _ _ _ E2 (same_here _ _ _ _ F1 HE) G) as (T2 & F2 & B2 & K2).
      split; [congruence|]. split; [exact (same_trans _ _ _ F1 F2)|]. split.
      + cbn. rewrite B1, B2. apply range_app; [apply F1|apply F2].
      + intros rep I. constructor; [exact (K1 rep (same_incl _ _ _ F2 I))|]. rewrite <- (proj1 F1). exact (K2 rep I).
    - intros c es Hes s s' y sc E HE G. rewrite expr_eq in E. destruct (resolve_name e s c) as [s1 c1] eqn:E1. destruct (each (resolve_expr e) s1 es) as [s2 es1] eqn:E2.
      injection E; intros; subst s' y. destruct (name_uses e path inj c _ _ _ _ E1 HE G) as (T1 & F1 & B1 & K1). rewrite <- T1 in G.
      destruct (L _ Hes _ _ _ _ E2 (same_here _ _ _ _ F1 HE) G) as (T2 & F2 & B2 & K2).
      split; [congruence|]. split; [exact (same_trans _ _ _ F1 F2)|]. split.
      + cbn. rewrite B2. rewrite <- (app_nil_l (range _ _)), B1. apply range_app; [apply F1|apply F2].
      + intros rep I. constructor; [exact (K1 rep (same_incl _ _ _ F2 I))|]. rewrite <- (proj1 F1). exact (K2 rep I).
    - intros t fs sp Hfs Hsp s s' y sc E HE G. rewrite expr_eq in E. destruct (resolve_name e s t) as [s1 t1] eqn:E1.
      destruct (each (fun s f => let '(s, x) := resolve_expr e s (snd f) in (s, (fst f, x))) s1 fs) as [s2 fs1] eqn:E2.
      destruct (maybe (resolve_expr e) s2 sp) as [s3 sp1] eqn:E3. injection E; intros; subst s' y.
      destruct (name_uses e path inj t _ _ _ _ E1 HE G) as (T1 & F1 & B1 & K1). rewrite <- T1 in G.
      destruct (fields_each _ Hfs _ _ _ _ E2 (same_here _ _ _ _ F1 HE) G) as (T2 & F2 & B2 & K2). rewrite <- T2 in G.
      pose proof (same_trans _ _ _ F1 F2) as F12.
      destruct (maybe_uses path inj _ _ expr_binders sp Hsp _ _ _ _ E3 (same_here _ _ _ _ F12 HE) G) as (T3 & F3 & B3 & K3).
      split; [congruence|]. split; [exact (same_trans _ _ _ F12 F3)|]. split.
      + cbn. rewrite B3, B2. rewrite <- (app_nil_l (range (gen s1) _)), B1. rewrite (range_app (gen s)); [|apply F1|apply F2]. apply range_app; [apply F12|apply F3].
      + intros rep I. pose proof (same_incl _ _ _ F3 I) as I2. constructor; [exact (K1 rep (same_incl _ _ _ F2 I2))| |].
        * rewrite <- (proj1 F1). exact (K2 rep I2).
        * rewrite <- (proj1 F12). exact (K3 rep I).
    - intros o m es Hf Hes s s' y sc E HE G. rewrite expr_eq in E. destruct (resolve_expr e s o) as [s1 f1] eqn:E1. destruct (each (resolve_expr e) s1 es) as [s2 es1] eqn:E2.
      injection E; intros; subst s' y. destruct (Hf _ _ _ _ E1 HE G) as (T1 & F1 & B1 & K1). rewrite <- T1 in G.
      destruct (L _ Hes _ _ _ _ E2 (same_here _ _ _ _ F1 HE) G) as (T2 & F2 & B2 & K2).
      split; [congruence|]. split; [exact (same_trans _ _ _ F1 F2)|]. split.
      + cbn. rewrite B1, B2. apply range_app; [apply F1|apply F2].
      + intros rep I. constructor; [exact (K1 rep (same_incl _ _ _ F2 I))|]. rewrite <- (proj1 F1). exact (K2 rep I).
    - intros ss v Hss Hv s s' y sc E HE G. rewrite expr_eq in E. cbv zeta in E. destruct (each (resolve_stmt e) (push_scope s) ss) as [s1 ss1] eqn:E1.
      destruct (resolve_expr e s1 v) as [s2 v1] eqn:E2. injection E; intros; subst s' y.
      destruct (stmts_good _ Hss _ _ _ [] (scopes s) sc E1 HE eq_refl (agree_push _ _ G)) as (top1 & sc1 & T1 & G1 & F1 & B1 & K1).
      pose proof (same_trans _ _ _ (same_push s) F1) as F1'.
      destruct (Hv _ _ _ _ E2 (same_here _ _ _ _ F1' HE) G1) as (T2 & F2 & B2 & K2). pose proof (same_trans _ _ _ F1' F2) as F12.
      split; [cbn; rewrite T2, T1; reflexivity|]. split; [exact (same_trans _ _ _ F12 (same_pop s2))|]. split.
      + cbn. rewrite B1, B2. apply range_app; [apply F1|apply F2].
      + intros rep I. apply (block_ok g rep _ _ _ _ sc1); [exact (K1 rep (same_incl _ _ _ F2 I))|]. rewrite <- (proj1 F1'). exact (K2 rep I).
    - intros x l Hf Hes s s' y sc E HE G. rewrite expr_eq in E. destruct (resolve_expr e s x) as [s1 f1] eqn:E1. destruct (each (resolve_arm e) s1 l) as [s2 es1] eqn:E2.
      injection E; intros; subst s' y. destruct (Hf _ _ _ _ E1 HE G) as (T1 & F1 & B1 & K1). rewrite <- T1 in G.
      destruct (each_uses path inj _ _ _ _ Hes _ _ _ _ E2 (same_here _ _ _ _ F1 HE) G) as (T2 & F2 & B2 & K2).
      split; [congruence|]. split; [exact (same_trans _ _ _ F1 F2)|]. split.
      + cbn. rewrite B1, B2. apply range_app; [apply F1|apply F2].
      + intros rep I. constructor; [exact (K1 rep (same_incl _ _ _ F2 I))|]. rewrite <- (proj1 F1). exact (K2 rep I).
    - intros ps b Hb s s' y sc E HE G. rewrite expr_eq in E. cbv zeta in E. destruct (each bind_param (push_scope s) ps) as [s1 ps1] eqn:E1.
      destruct (resolve_expr e s1 b) as [s2 b1] eqn:E2. injection E; intros; subst s' y.
      destruct (all_params path inj ps _ _ _ [] (scopes s) sc E1 HE eq_refl (agree_push _ _ G)) as (top1 & sc1 & T1 & G1 & F1 & B1 & K1).
      pose proof (same_trans _ _ _ (same_push s) F1) as F1'.
      destruct (Hb _ _ _ _ E2 (same_here _ _ _ _ F1' HE) G1) as (T2 & F2 & B2 & K2). pose proof (same_trans _ _ _ F1' F2) as F12.
      split; [cbn; rewrite T2, T1; reflexivity|]. split; [exact (same_trans _ _ _ F12 (same_pop s2))|]. split.
      + cbn. rewrite B1, B2. apply range_app; [apply F1|apply F2].
      + intros rep I. apply (lambda_ok g rep _ _ _ _ sc1); [exact (K1 rep (same_incl _ _ _ F2 I))|]. rewrite <- (proj1 F1'). exact (K2 rep I).
    - intros x l Hf Hes s s' y sc E HE G. rewrite expr_eq in E. destruct (resolve_expr e s x) as [s1 f1] eqn:E1. destruct (each (resolve_handler e) s1 l) as [s2 es1] eqn:E2.
      injection E; intros; subst s' y. destruct (Hf _ _ _ _ E1 HE G) as (T1 & F1 & B1 & K1). rewrite <- T1 in G.
      destruct (each_uses path inj _ _ _ _ Hes _ _ _ _ E2 (same_here _ _ _ _ F1 HE) G) as (T2 & F2 & B2 & K2).
      split; [congruence|]. split; [exact (same_trans _ _ _ F1 F2)|]. split.
      + cbn. rewrite B1, B2. apply range_app; [apply F1|apply F2].
      + intros rep I. constructor; [exact (K1 rep (same_incl _ _ _ F2 I))|]. rewrite <- (proj1 F1). exact (K2 rep I).
    - intros x i Hx s s' y sc E HE G. rewrite expr_eq in E. destruct (resolve_expr e s x) as [s1 x1] eqn:E1. injection E; intros; subst s' y.
      destruct (Hx _ _ _ _ E1 HE G) as (T & F & B & K). split; [exact T|]. split; [exact F|]. split; [exact B|]. intros rep I.
      rewrite (proj1 F). constructor. exact (K rep I).
    - intros es Hes s s' y sc E HE G. rewrite expr_eq in E. destruct (each (resolve_expr e) s es) as [s2 es1] eqn:E2. injection E; intros; subst s' y.
      destruct (L _ Hes _ _ _ _ E2 HE G) as (T & F & B & K). split; [exact T|]. split; [exact F|]. split; [exact B|]. intros rep I. constructor. exact (K rep I).
    - intros es Hes s s' y sc E HE G. rewrite expr_eq in E. destruct (each (resolve_expr e) s es) as [s2 es1] eqn:E2. injection E; intros; subst s' y.
      destruct (L _ Hes _ _ _ _ E2 HE G) as (T & F & B & K). split; [exact T|]. split; [exact F|]. split; [exact B|]. intros rep I. constructor. exact (K rep I).
    - intros o a b Ha Hb s s' y sc E HE G. rewrite expr_eq in E. destruct (resolve_expr e s a) as [s1 a1] eqn:E1. destruct (resolve_expr e s1 b) as [s2 b1] eqn:E2.
      injection E; intros; subst s' y. destruct (Ha _ _ _ _ E1 HE G) as (T1 & F1 & B1 & K1). rewrite <- T1 in G.
      destruct (Hb _ _ _ _ E2 (same_here _ _ _ _ F1 HE) G) as (T2 & F2 & B2 & K2).
      split; [congruence|]. split; [exact (same_trans _ _ _ F1 F2)|]. split.
      + cbn. rewrite B1, B2. apply range_app; [apply F1|apply F2].
      + intros rep I. constructor; [exact (K1 rep (same_incl _ _ _ F2 I))|]. rewrite <- (proj1 F1). exact (K2 rep I).
    - apply (Z _ Error); [reflexivity..|]. constructor.
    - intros p v Hv s s' y top rest sc E HE T G. rewrite stmt_eq in E. destruct (resolve_expr e s v) as [s1 v1] eqn:E1.
      destruct (resolve_pattern e s1 p) as [s2 p1] eqn:E2. injection E; intros; subst s' y.
      destruct (Hv _ _ _ _ E1 HE G) as (T1 & F1 & B1 & K1). rewrite <- T1 in G. rewrite T in T1.
      destruct (patterns e path inj p _ _ _ _ _ _ E2 (same_here _ _ _ _ F1 HE) T1 G) as (top2 & sc2 & T2 & G2 & F2 & B2 & K2).
      exists top2, sc2. split; [exact T2|]. split; [exact G2|]. split; [exact (same_trans _ _ _ F1 F2)|]. split.
      + cbn. rewrite B1, B2. apply range_app; [apply F1|apply F2].
      + intros rep I. constructor; [exact (K1 rep (same_incl _ _ _ F2 I))|exact (K2 rep I)].
    - intros x Hx s s' y top rest sc E HE T G. rewrite stmt_eq in E. destruct (resolve_expr e s x) as [s1 x1] eqn:E1. injection E; intros; subst s' y.
      destruct (Hx _ _ _ _ E1 HE G) as (T1 & F & B & K). exists top, sc. rewrite T1. split; [exact T|]. split; [exact G|]. split; [exact F|]. split; [exact B|].
      intros rep I. constructor. exact (K rep I).
    - intros p gd b Hg Hb s s' y sc E HE G. rewrite arm_eq in E. cbv zeta in E. destruct (resolve_pattern e (push_scope s) p) as [s1 p1] eqn:E1.
      destruct (maybe (resolve_expr e) s1 gd) as [s2 g1] eqn:E2. destruct (resolve_expr e s2 b) as [s3 b1] eqn:E3. injection E; intros; subst s' y.
      destruct (patterns e path inj p _ _ _ [] (scopes s) sc E1 HE eq_refl (agree_push _ _ G)) as (top1 & sc1 & T1 & G1 & F1 & B1 & K1).
      pose proof (same_trans _ _ _ (same_push s) F1) as F1'.
      destruct (maybe_uses path inj _ _ expr_binders gd Hg _ _ _ _ E2 (same_here _ _ _ _ F1' HE) G1) as (T2 & F2 & B2 & K2). rewrite <- T2 in G1.
      pose proof (same_trans _ _ _ F1' F2) as F12.
      destruct (Hb _ _ _ _ E3 (same_here _ _ _ _ F12 HE) G1) as (T3 & F3 & B3 & K3). pose proof (same_trans _ _ _ F12 F3) as F123.
      split; [cbn; rewrite T3, T2, T1; reflexivity|]. split; [exact (same_trans _ _ _ F123 (same_pop s3))|]. split.
      + cbn. rewrite B1, B2, B3. rewrite (range_app (gen s1)); [|apply F2|apply F3]. apply range_app; [apply F1|]. pose proof (same_trans _ _ _ F2 F3) as F23. apply F23.
      + intros rep I. pose proof (same_incl _ _ _ F3 I) as I2. apply (an_arm g rep _ _ _ _ sc1); [exact (K1 rep (same_incl _ _ _ F2 I2))| |].
        * rewrite <- (proj1 F1'). exact (K2 rep I2).
        * rewrite <- (proj1 F12). exact (K3 rep I).
    - intros k b Hb s s' y sc E HE G. rewrite handler_eq in E. cbv zeta in E. destruct (resolve_kind e (push_scope s) k) as [s1 k1] eqn:E1.
      destruct (resolve_expr e s1 b) as [s2 b1] eqn:E2. injection E; intros; subst s' y.
      destruct (kind_good k _ _ _ [] (scopes s) sc E1 HE eq_refl (agree_push _ _ G)) as (top1 & sc1 & r' & T1 & G1 & HE1 & L1 & [d D] & R1 & P1 & B1 & K1).
      destruct (Hb _ _ _ _ E2 HE1 G1) as (T2 & F2 & B2 & K2).
      assert (EQ : forall (C : forall s', scopes s' = scopes s2 /\ gen s' = gen s2 /\ diags s' = diags s2 /\ ops s' = ops s2 /\ mpath s' = mpath s2 /\ resumes s' = resumes s ->
        scopes (pop_scope s') = scopes s /\ same s (pop_scope s') /\ handler_binders (HArm k1 b1) = range (gen s) (gen (pop_scope s')) /\
        (forall rep, incl (diags (pop_scope s')) rep -> handler_ok g rep (hd_error (resumes s)) sc (HArm k b) (HArm k1 b1))),
        let s3 := match k1 with HOp _ _ _ _ => pop_resume s2 | _ => s2 end in
        scopes (pop_scope s3) = scopes s /\ same s (pop_scope s3) /\ handler_binders (HArm k1 b1) = range (gen s) (gen (pop_scope s3)) /\
        (forall rep, incl (diags (pop_scope s3)) rep -> handler_ok g rep (hd_error (resumes s)) sc (HArm k b) (HArm k1 b1))).
      { intros C. apply C. destruct F2 as (RS & _). destruct k1; cbn in *; repeat split; congruence. }
      apply EQ. clear EQ. intros s' (S1 & S2 & S3 & S4 & S5 & S6). split; [cbn; rewrite S1, T2, T1; reflexivity|]. destruct F2 as (RS & O2 & M2 & N2 & d2 & D2).
      destruct HE as [M0 O0]. destruct HE1 as [M1 O1]. split.
      + unfold same. cbn. split; [exact S6|]. split; [congruence|]. split; [congruence|]. split; [rewrite S2; cbn in L1; lia|].
        exists (d ++ d2). rewrite S3, D2, D. cbn. symmetry. apply app_assoc.
      + split.
        * cbn. rewrite S2, B1, B2. apply range_app; assumption.
        * intros rep I. cbn in I. rewrite S3 in I. apply (a_handler g rep _ _ _ _ sc1 r').
          -- apply (K1 rep). intros z Z'. apply I. rewrite D2. apply in_or_app. left. exact Z'.
          -- rewrite <- R1. exact (K2 rep I).
  Qed.
End Exprs.
