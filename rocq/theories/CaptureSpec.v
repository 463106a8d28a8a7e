(** Free variables, independently of how captures are computed. *)
From Coq Require Export List NArith Bool Permutation Sorted.
From Verif Require Export Base NormModel NormSpec.
Import ListNotations.
Local Open Scope N_scope.

(** [free x e]: [e] uses the variable [x] of its surroundings. *)
Inductive free (x : N) : expr -> Prop :=
| free_var : free x (EVar (RLocal x))
| free_callee c args : free x c -> free x (ECall c args)
| free_arg c args a : In a args -> free x a -> free x (ECall c args)
| free_cons c args a : In a args -> free x a -> free x (ECons c args)
| free_tuple args a : In a args -> free x a -> free x (ETuple args)
| free_list args a : In a args -> free x a -> free x (EList args)
| free_spread t s fs : free x s -> free x (ERecord t (Some s) fs)
| free_field t s fs f a : In (f, a) fs -> free x a -> free x (ERecord t s fs)
| free_receiver r m args : free x r -> free x (EMethod r m args)
| free_method_arg r m args a : In a args -> free x a -> free x (EMethod r m args)
| free_value v : free x v -> free x (EBlock [] v)
| free_let p w ss v : free x w -> free x (EBlock (SLet p w :: ss) v)
| free_after_let p w ss v : ~ In x (pbinders p) -> free x (EBlock ss v) -> free x (EBlock (SLet p w :: ss) v)
| free_stmt w ss v : free x w -> free x (EBlock (SExpr w :: ss) v)
| free_after_stmt w ss v : free x (EBlock ss v) -> free x (EBlock (SExpr w :: ss) v)
| free_scrutinee s arms : free x s -> free x (ECase s arms)
| free_guard s arms p g b : In (mkArm p (Some g) b) arms -> ~ In x (pbinders p) -> free x g -> free x (ECase s arms)
| free_arm s arms p g b : In (mkArm p g b) arms -> ~ In x (pbinders p) -> free x b -> free x (ECase s arms)
| free_lambda ps b : ~ In x ps -> free x b -> free x (ELambda ps b)
| free_handled b hs : free x b -> free x (EHandle b hs)
| free_handler b hs h : In h hs -> free_in_arm x h -> free x (EHandle b hs)
| free_resumed a k : free x a -> free x (EResume a k)
| free_resume a : free x (EResume a (Some x))
| free_left op l r : free x l -> free x (EBinOp op l r)
| free_right op l r : free x r -> free x (EBinOp op l r)
with free_in_arm (x : N) : harm expr -> Prop :=
| free_arm_body k b : ~ In x (kbinders k) -> free x b -> free_in_arm x (mkHarm k b).

Definition handles_operation (h : harm expr) : Prop := forall p b, h <> mkHarm (HDo p) b.
Definition handles_fn (h : harm expr) : Prop := exists a o ps b, h = mkHarm (HFn a o ps) b.

Section Scopes.
  Variable W : Type.

  (** The variables of a list of nested scopes. *)
  Definition ids (ss : list (list (N * W))) : list N := map fst (concat ss).

  (** What a variable means: the entry of the innermost scope that has one. *)
  Inductive means : list (list (N * W)) -> N -> W -> Prop :=
  | means_here sc ss x v : In (x, v) sc -> means (sc :: ss) x v
  | means_outer sc ss x v : ~ In x (map fst sc) -> means ss x v -> means (sc :: ss) x v.
End Scopes.

(** A list of captures is right if it has the variables that are used, each with the value it has in every scope that
    has it, and the values in [extra], and nothing else. *)
Definition exactly {W : Type} (ss : list (list (N * W))) (uses : N -> Prop) (extra : list W) (caps : list (N * W)) : Prop :=
  (forall x v, In (x, v) caps -> (In (x, v) (concat ss) /\ uses x) \/ In v extra) /\
  (forall x v, In (x, v) (concat ss) -> uses x -> In (x, v) caps) /\
  (forall v, In v extra -> In v (map snd caps)).
Definition optional {W : Type} (v : option W) : list W := match v with Some v => [v] | None => [] end.
