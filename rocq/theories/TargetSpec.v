(** Legality as a function of the registrations. *)
From Verif Require Import Base IrModel IrTreeSpec TargetModel.

Section spec.
  Variables dialect name : nat -> nat.
  Notation K := (key_of dialect name).
  (** [h] rules [o] to be [r] at precedence tier [n]; lower tiers come first. *)
  Inductive rules (h : list reg) (c : ctx) (o : nat) : nat -> legality -> Prop :=
  | r_dyn_op : forall f, In (DynamicOp (K c o) f) h -> f c o = DLegal -> rules h c o 1 Legal
  | r_dyn_op' : forall f, In (DynamicOp (K c o) f) h -> f c o = DIllegal -> rules h c o 1 Illegal
  | r_op : In (LegalOp (K c o)) h -> rules h c o 2 Legal
  | r_op' : In (IllegalOp (K c o)) h -> rules h c o 2 Illegal
  | r_dyn_dialect : forall f, In (DynamicDialect (fst (K c o)) f) h -> f c o = DLegal -> rules h c o 3 Legal
  | r_dyn_dialect' : forall f, In (DynamicDialect (fst (K c o)) f) h -> f c o = DIllegal -> rules h c o 3 Illegal
  | r_dialect : In (LegalDialect (fst (K c o))) h -> rules h c o 4 Legal
  | r_dialect' : In (IllegalDialect (fst (K c o))) h -> rules h c o 4 Illegal
  | r_unknown : forall f, In (DynamicUnknown f) h -> f c o = DLegal -> rules h c o 5 Legal
  | r_unknown' : forall f, In (DynamicUnknown f) h -> f c o = DIllegal -> rules h c o 5 Illegal.

  (** The first tier with a ruling decides; no ruling means unknown. *)
  Definition has_legality (h : list reg) (c : ctx) (o : nat) (l : legality) : Prop :=
    (exists n, rules h c o n l /\ forall m l', m < n -> ~ rules h c o m l') \/
    (l = Unknown /\ forall n l', ~ rules h c o n l').

  Definition recursively_legal (h : list reg) (c : ctx) (o : nat) : Prop :=
    (In (RecursiveDynamicOp (K c o)) h /\ rules h c o 1 Legal) \/
    (In (RecursiveLegalOp (K c o)) h /\ has_legality h c o Legal).

  Definition fails (m : mode) (l : legality) : Prop :=
    match m with Partial => l = Illegal | Full => l <> Legal end.

  (** Operations verification looks at: everything below the region's top-level
      operations, except what is nested in a recursively legal operation. *)
  Inductive looked_at (h : list reg) (c : ctx) (tops : list nat) : nat -> Prop :=
  | la_top : forall o, In o tops -> looked_at h c tops o
  | la_nested : forall x o, looked_at h c tops o -> ~ recursively_legal h c o -> nested_in c x o -> looked_at h c tops x.
  Definition tops_of (c : ctx) (rb : nat * list (nat * list tree)) : list nat := map root (region_trees rb).
End spec.

(** A registration is refused when it repeats an earlier one, contradicts it, or asks
    for recursion without the rule it extends. *)
Definition acceptable (h : list reg) (r : reg) : Prop :=
  match r with
  | LegalDialect d | IllegalDialect d => ~ In (LegalDialect d) h /\ ~ In (IllegalDialect d) h
  | LegalOp k | IllegalOp k => ~ In (LegalOp k) h /\ ~ In (IllegalOp k) h
  | RecursiveLegalOp k => In (LegalOp k) h /\ ~ In (RecursiveLegalOp k) h
  | RecursiveDynamicOp k => (exists f, In (DynamicOp k f) h) /\ ~ In (RecursiveDynamicOp k) h
  | DynamicOp k _ => forall f, ~ In (DynamicOp k f) h
  | DynamicDialect d _ => forall f, ~ In (DynamicDialect d f) h
  | DynamicUnknown _ => forall f, ~ In (DynamicUnknown f) h
  end.

(** [a] is [b] with some elements left out. *)
Inductive subseq {A} : list A -> list A -> Prop :=
| ss_nil : subseq [] []
| ss_keep : forall x a b, subseq a b -> subseq (x :: a) (x :: b)
| ss_drop : forall x a b, subseq a b -> subseq a (x :: b).
