(** A concrete language of effects: programs as trees of operations.

    Calling a global is an observable operation; a handler interprets the
    operations of its body, deeply, and can capture the continuation.  This
    is one lawful instance of [sem], used in the examples and as the witness
    of the refutations.  Functions exchange plain numbers. *)
From Coq Require Import List NArith Bool Lia.
From Verif Require Import Base NormModel NormSpec.
Import ListNotations.
Open Scope N_scope.

Inductive tree (X : Type) :=
| TRet (x : X)
| TFail
| TOp (o : N) (args : list N) (k : N -> tree X).
Arguments TRet {X}. Arguments TFail {X}. Arguments TOp {X}.

Fixpoint tbind {X Y : Type} (t : tree X) (f : X -> tree Y) : tree Y :=
  match t with
  | TRet x => f x
  | TFail => TFail
  | TOp o args k => TOp o args (fun d => tbind (k d) f)
  end.

Inductive val := VNum (n : N) | VFun (f : list N -> tree N).

Definition ground (v : val) : N := match v with VNum n => n | VFun _ => 0 end.
Definition emb (t : tree N) : tree val := tbind t (fun n => TRet (VNum n)).
Definition down (t : tree val) : tree N := tbind t (fun v => TRet (ground v)).

Fixpoint teq {X : Type} (R : X -> X -> Prop) (t u : tree X) : Prop :=
  match t, u with
  | TRet x, TRet y => R x y
  | TFail, TFail => True
  | TOp o a k, TOp o' a' k' => o = o' /\ a = a' /\ forall d, teq R (k d) (k' d)
  | _, _ => False
  end.

Definition valeq (v w : val) : Prop :=
  match v, w with
  | VNum n, VNum m => n = m
  | VFun f, VFun g => forall ds, teq eq (f ds) (g ds)
  | _, _ => False
  end.

Fixpoint do_arm (hs : list (hlabel * (list val -> tree val)))
  : option (list val -> tree val) :=
  match hs with
  | [] => None
  | (LDo, f) :: _ => Some f
  | _ :: hs => do_arm hs
  end.

Fixpoint op_arm (o : N) (hs : list (hlabel * (list val -> tree val)))
  : option (bool * (list val -> tree val)) :=
  match hs with
  | [] => None
  | (LFn _ o', f) :: hs => if o =? o' then Some (false, f) else op_arm o hs
  | (LOp _ o', f) :: hs => if o =? o' then Some (true, f) else op_arm o hs
  | _ :: hs => op_arm o hs
  end.

Fixpoint thandle (m : tree val) (hs : list (hlabel * (list val -> tree val)))
  : tree val :=
  match m with
  | TRet v => match do_arm hs with Some f => f [v] | None => TRet v end
  | TFail => TFail
  | TOp o args k =>
      match op_arm o hs with
      | Some (false, f) =>
          tbind (f (map VNum args)) (fun v => thandle (k (ground v)) hs)
      | Some (true, f) =>
          f (map VNum args
             ++ [VFun (fun ds => down (thandle (k (hd 0 ds)) hs))])
      | None => TOp o args (fun d => thandle (k d) hs)
      end
  end.

Definition digits (c : N) (vs : list val) : val :=
  VNum (fold_left (fun a v => a * 10 + ground v) vs c).

Definition trees : sem := {|
  V := val; M := tree val; veq := valeq; ceq := teq valeq;
  ret := TRet; bind := tbind; undef := VNum 0;
  literal := fun l => match l with
    | LNum n => VNum n | LBool b => VNum (if b then 1 else 0)
    | LText s => VNum s | LNil => VNum 0 end;
  global := fun g => VFun (fun args => TOp g args TRet);
  truth := fun v => ground v =? 1;
  test := fun s v => if s =? 0 then Some [v]
                     else if ground v =? s then Some [] else None;
  lam := fun _ f => VFun (fun ds => down (f (map VNum ds)));
  call := fun v vs => match v with
    | VFun f => emb (f (map ground vs)) | VNum _ => TFail end;
  construct := fun c vs => TRet (digits c vs);
  tuple := fun vs => TRet (digits 1 vs);
  mklist := fun vs => TRet (digits 2 vs);
  record := fun t s fs =>
    TRet (digits t (match s with Some v => [v] | None => [] end
                    ++ map (fun f => VNum (fst f + ground (snd f))) fs));
  method := fun v m vs =>
    TOp m (ground v :: map ground vs) (fun d => TRet (VNum d));
  resume := fun k v => match k with
    | Some (VFun f) => emb (f [ground v]) | _ => TFail end;
  handle := thandle;
  failure := TFail
|}.

(** ** It is lawful *)

Lemma teq_refl {X} (R : X -> X -> Prop) t : (forall x, R x x) -> teq R t t.
Proof. intros H. induction t; cbn; auto. Qed.

Lemma teq_sym {X} (R : X -> X -> Prop) (H : forall x y, R x y -> R y x) t :
  forall u, teq R t u -> teq R u t.
Proof.
  induction t as [x| |o a k IH]; destruct u; cbn; auto.
  intros (-> & -> & E). repeat split; auto.
Qed.

Lemma teq_trans {X} (R : X -> X -> Prop)
  (H : forall x y z, R x y -> R y z -> R x z) t :
  forall u w, teq R t u -> teq R u w -> teq R t w.
Proof.
  induction t as [x| |o a k IH]; destruct u, w; cbn; try tauto; eauto.
  intros (-> & -> & E) (-> & -> & F). repeat split; auto. intros d. eapply IH; eauto.
Qed.

Lemma teq_bind {X Y} (R : X -> X -> Prop) (Q : Y -> Y -> Prop) t :
  forall u f g, teq R t u -> (forall x y, R x y -> teq Q (f x) (g y)) ->
  teq Q (tbind t f) (tbind u g).
Proof.
  induction t as [x| |o a k IH]; destruct u; cbn; try tauto; auto.
  intros f g (-> & -> & E) F. repeat split; auto.
Qed.

Lemma valeq_sym v w : valeq v w -> valeq w v.
Proof.
  destruct v, w; cbn; auto. intros E ds. apply teq_sym; auto.
Qed.

Lemma valeq_trans u v w : valeq u v -> valeq v w -> valeq u w.
Proof.
  destruct u, v, w; cbn; try tauto; try congruence.
  intros E F ds. eapply teq_trans; eauto. congruence.
Qed.

Lemma ground_eq v w : valeq v w -> ground v = ground w.
Proof. destruct v, w; cbn; tauto. Qed.

Lemma grounds_eq vs ws : Forall2 valeq vs ws -> map ground vs = map ground ws.
Proof. induction 1; cbn; auto. f_equal; auto. apply ground_eq; auto. Qed.

Lemma nums_eq ds : Forall2 valeq (map VNum ds) (map VNum ds).
Proof. induction ds; cbn; constructor; auto. reflexivity. Qed.

Lemma emb_eq t u : teq eq t u -> teq valeq (emb t) (emb u).
Proof. intros E. eapply teq_bind; [exact E|]. intros x y ->. reflexivity. Qed.

Lemma down_eq t u : teq valeq t u -> teq eq (down t) (down u).
Proof. intros E. eapply teq_bind; [exact E|]. intros x y H. apply ground_eq. auto. Qed.

Lemma digits_eq vs ws : Forall2 valeq vs ws -> forall c, digits c vs = digits c ws.
Proof.
  intros H c. unfold digits. f_equal. revert c.
  induction H; cbn; intros c; auto. rewrite IHForall2. rewrite (ground_eq _ _ H). auto.
Qed.

Definition arms_eq := Forall2 (fun h g : hlabel * (list val -> tree val) =>
  fst h = fst g /\ respl trees (snd h) (snd g)).

Lemma do_arm_eq hs hs' : arms_eq hs hs' ->
  match do_arm hs, do_arm hs' with
  | Some f, Some g => respl trees f g
  | None, None => True
  | _, _ => False
  end.
Proof.
  induction 1 as [|[l f] [l' f'] hs hs' [E R] H IH]; cbn; auto.
  cbn in E, R. subst l'. destruct l; auto.
Qed.

Lemma op_arm_eq o hs hs' : arms_eq hs hs' ->
  match op_arm o hs, op_arm o hs' with
  | Some (b, f), Some (c, g) => b = c /\ respl trees f g
  | None, None => True
  | _, _ => False
  end.
Proof.
  induction 1 as [|[l f] [l' f'] hs hs' [E R] H IH]; cbn; auto.
  cbn in E, R. subst l'. destruct l; auto; destruct (o =? op); auto.
Qed.

Lemma Forall2_snoc {A} (R : A -> A -> Prop) l l' a b :
  Forall2 R l l' -> R a b -> Forall2 R (l ++ [a]) (l' ++ [b]).
Proof. induction 1; cbn; auto. Qed.

Lemma handle_eq hs hs' : arms_eq hs hs' -> forall m m', teq valeq m m' ->
  teq valeq (thandle m hs) (thandle m' hs').
Proof.
  intros A. induction m as [v| |o args k IH]; intros [v'| |o' args' k']; cbn; try tauto.
  - intros E. pose proof (do_arm_eq hs hs' A) as D.
    destruct (do_arm hs), (do_arm hs'); try tauto; cbn; auto.
    apply D. constructor; auto.
  - intros (<- & <- & E). pose proof (op_arm_eq o hs hs' A) as D.
    destruct (op_arm o hs) as [[[] f]|], (op_arm o hs') as [[[] f']|];
      try tauto; try (destruct D; discriminate).
    + apply D. apply Forall2_snoc; [apply nums_eq|].
      cbn. intros ds. apply down_eq. auto.
    + eapply teq_bind; [apply D, nums_eq|].
      intros x y Exy. rewrite (ground_eq _ _ Exy). auto.
    + cbn. repeat split; auto.
Qed.

Lemma trees_lawful : lawful trees.
Proof.
  split; cbn.
  - apply valeq_sym.
  - apply valeq_trans.
  - apply teq_sym. apply valeq_sym.
  - apply teq_trans. apply valeq_trans.
  - auto.
  - intros. eapply teq_bind; eauto.
  - intros v w f f' E R. apply R. auto.
  - intros m m' f f' g g' E R Q. revert m' E.
    induction m as [x| |o a k IH]; intros [y| |o' a' k']; cbn; try tauto.
    + intros E. eapply teq_bind; [apply R; exact E|]. exact Q.
    + intros (<- & <- & E). repeat split; auto.
  - reflexivity.
  - intros []; reflexivity.
  - intros g ds. cbn. repeat split; auto.
  - intros v w E. rewrite (ground_eq _ _ E). reflexivity.
  - intros s v w E. rewrite (ground_eq _ _ E).
    destruct (s =? 0); [constructor; constructor; auto|].
    destruct (ground w =? s); constructor. constructor.
  - intros n f f' R ds. apply down_eq. apply R. apply nums_eq.
  - intros v w vs ws E Es. rewrite (grounds_eq _ _ Es).
    destruct v, w; cbn in E; try tauto; cbn; auto. apply emb_eq. auto.
  - intros c vs ws E. change (teq valeq (TRet (digits c vs)) (TRet (digits c ws))).
    rewrite (digits_eq vs ws E c). reflexivity.
  - intros vs ws E. change (teq valeq (TRet (digits 1 vs)) (TRet (digits 1 ws))).
    rewrite (digits_eq vs ws E 1). reflexivity.
  - intros vs ws E. change (teq valeq (TRet (digits 2 vs)) (TRet (digits 2 ws))).
    rewrite (digits_eq vs ws E 2). reflexivity.
  - intros t s s' fs fs' E F.
    assert (X : map (fun f => VNum (fst f + ground (snd f))) fs
                = map (fun f => VNum (fst f + ground (snd f))) fs').
    { induction F as [|f g fs fs' [H1 H2] F IH]; cbn; auto.
      rewrite H1, (ground_eq _ _ H2), IH. auto. }
    rewrite X. destruct E as [|a b Eab].
    + reflexivity.
    + cbn. unfold digits. cbn. rewrite (ground_eq _ _ Eab). reflexivity.
  - intros v w m vs ws E Es. rewrite (ground_eq _ _ E), (grounds_eq _ _ Es).
    cbn. repeat split; auto.
  - intros k k' v w E Ev. rewrite (ground_eq _ _ Ev).
    destruct E as [|a b Eab]; [exact I|].
    destruct a, b; cbn in Eab; try contradiction; cbn; [exact I|]. apply emb_eq. auto.
  - intros m m' hs hs' E F. apply handle_eq; auto.
  - auto.
  - auto.
Qed.
