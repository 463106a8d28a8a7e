(** The order users expect: by phase, then by place, then by text. *)
From Verif Require Export DiagOrderModel.

Definition phases : list phase := [Parsing; AstGeneration; TirGeneration; NameResolution; TypeChecking; Lowering; Optimization].
Definition earlier_phase (p q : phase) : Prop := exists i j, i < j /\ nth_error phases i = Some p /\ nth_error phases j = Some q.
(** Alphabetical order. *)
Definition text_before (a b : list nat) : Prop :=
  (exists x c, b = a ++ c :: x) \/ (exists w c d x y, a = w ++ c :: x /\ b = w ++ d :: y /\ c < d).
Definition before (a b : diagnostic) : Prop :=
  earlier_phase (in_phase a) (in_phase b) \/ in_phase a = in_phase b /\
  (start a < start b \/ start a = start b /\ (stop a < stop b \/ stop a = stop b /\ text_before (message a) (message b))).
Definition same_key (a b : diagnostic) : Prop := in_phase a = in_phase b /\ start a = start b /\ stop a = stop b /\ message a = message b.
