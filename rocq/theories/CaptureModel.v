(** Which variables a lambda, a continuation or a handler takes along.

    Models crates/tribute-front/src/ast_to_ir/lower/lambda.rs:27-190 (collect_free_vars, analyze_captures,
    analyze_continuation_captures), 207-222 (the owner tag), crates/tribute-front/src/ast_to_ir/context.rs:249-309, 398-406,
    608-617 (scopes), lower/expr.rs:1497-1565 (continuations), lower/handle.rs:242-265, 600-622, 717-746 (the body of a
    handler and its dispatch functions) and lower/case.rs:303-325 (guards).

    Expressions are those of [NormModel].  Compiled values are of any type [W] with an equality test.  The names and types
    that go with a capture are left out.  A scope is the list of the entries of a hash map, in the order in which it is
    walked; the theorems are about every order.  Sorting is by insertion; the sort of the code is not stable. *)
From Coq Require Export List NArith Bool.
From Verif Require Export Base NormModel.
Import ListNotations.
Local Open Scope N_scope.

(** ** Variables mentioned in an expression *)

Definition mem (x : N) (l : list N) : bool := existsb (N.eqb x) l.

(** lambda.rs:28-115.  The set is the list of its insertions. *)
Fixpoint collect_free_vars (e : expr) : list N :=
  match e with
  | EVar (RLocal x) => [x]
  | EVar (RGlobal _) | ELit _ | EError => []
  | EBinOp _ l r => collect_free_vars l ++ collect_free_vars r
  | ECall c args => collect_free_vars c ++ flat_map collect_free_vars args
  | ECons _ args => flat_map collect_free_vars args
  | EMethod r _ args => collect_free_vars r ++ flat_map collect_free_vars args
  | EBlock ss v =>
      flat_map (fun s => match s with SLet _ v => collect_free_vars v | SExpr v => collect_free_vars v end) ss
      ++ collect_free_vars v
  | ERecord _ s fs =>
      match s with Some s => collect_free_vars s | None => [] end
      ++ flat_map (fun f => collect_free_vars (snd f)) fs
  | ETuple args => flat_map collect_free_vars args
  | ECase s arms =>
      collect_free_vars s
      ++ flat_map (fun a => match a with
                            | mkArm _ g b =>
                                match g with Some g => collect_free_vars g | None => [] end ++ collect_free_vars b
                            end) arms
  | ELambda _ b => collect_free_vars b
  | EHandle b hs =>
      collect_free_vars b ++ flat_map (fun h => match h with mkHarm _ b => collect_free_vars b end) hs
  | EList args => flat_map collect_free_vars args
  | EResume a k => collect_free_vars a ++ match k with Some x => [x] | None => [] end
  end.

(** lambda.rs:118-130 *)
Definition collect_free_vars_in_block (ss : list (stmt expr)) (v : expr) : list N :=
  flat_map (fun s => match s with SLet _ v => collect_free_vars v | SExpr v => collect_free_vars v end) ss
  ++ collect_free_vars v.

Section Values.
  Variable W : Type.
  Variable same : W -> W -> bool.

  (** ** Scopes: the innermost is first *)

  Definition scope := list (N * W).

  (** context.rs:263-277 *)
  Definition enter_scope (ss : list scope) : list scope := [] :: ss.
  Definition exit_scope (ss : list scope) : list scope := tl ss.

  (** context.rs:279-283; the entry of a hash map is replaced. *)
  Definition insert (sc : scope) (x : N) (v : W) : scope := (x, v) :: filter (fun e => negb (fst e =? x)) sc.
  Definition bind_local (ss : list scope) (x : N) (v : W) : list scope :=
    match ss with [] => [] | sc :: ss => insert sc x v :: ss end.

  (** context.rs:398-406 *)
  Definition entry (sc : scope) (x : N) : option W :=
    match find (fun e => fst e =? x) sc with Some e => Some (snd e) | None => None end.
  Fixpoint lookup (ss : list scope) (x : N) : option W :=
    match ss with
    | [] => None
    | sc :: ss => match entry sc x with Some v => Some v | None => lookup ss x end
    end.

  (** context.rs:608-617 *)
  Fixpoint put (e : N * W) (l : list (N * W)) : list (N * W) :=
    match l with
    | [] => [e]
    | d :: l => if fst e <=? fst d then e :: d :: l else d :: put e l
    end.
  Definition sort_by_id (l : list (N * W)) : list (N * W) := fold_right put [] l.
  Definition all_bindings (ss : list scope) : list (N * W) := sort_by_id (concat ss).

  (** ** Captures *)

  (** lambda.rs:138-160 *)
  Definition analyze_continuation_captures (ss : list scope) (rest : list (stmt expr)) (v : expr) (excluded : list N) : list (N * W) :=
    filter (fun e => mem (fst e) (collect_free_vars_in_block rest v) && negb (mem (fst e) excluded)) (all_bindings ss).

  (** lambda.rs:163-190; parameters without an id are left out. *)
  Definition analyze_captures (ss : list scope) (ps : list N) (b : expr) : list (N * W) :=
    filter (fun e => mem (fst e) (collect_free_vars b) && negb (mem (fst e) ps)) (all_bindings ss).

  (** The entry for a value that is not a variable of the program has the id of unresolved names.
      expr.rs:1497-1512, lambda.rs:212-222, handle.rs:254-265 *)
  Definition capture_ctx_value (caps : list (N * W)) (v : option W) : list (N * W) :=
    match v with
    | Some v => if existsb (fun c => same (snd c) v) caps then caps else caps ++ [(unresolved_id, v)]
    | None => caps
    end.

  (** lambda.rs:207-222 *)
  Definition lambda_captures (ss : list scope) (owner : option W) (ps : list N) (b : expr) : list (N * W) :=
    capture_ctx_value (analyze_captures ss ps b) owner.

  (** expr.rs:1542-1565 *)
  Definition continuation_captures (ss : list scope) (outer_k : W) (owner : option W) (rest : list (stmt expr)) (v : expr) : list (N * W) :=
    capture_ctx_value (capture_ctx_value (analyze_continuation_captures ss rest v []) (Some outer_k)) owner.

  (** handle.rs:242-265 *)
  Definition handle_body_captures (ss : list scope) (owner : option W) (b : expr) : list (N * W) :=
    capture_ctx_value (filter (fun e => mem (fst e) (collect_free_vars b)) (all_bindings ss)) owner.

  Definition is_effect_arm (h : harm expr) : bool := match h with mkHarm (HDo _) _ => false | _ => true end.
  Definition is_fn_arm (h : harm expr) : bool := match h with mkHarm (HFn _ _ _) _ => true | _ => false end.
  Definition arm_vars (hs : list (harm expr)) : list N :=
    flat_map (fun h => match h with mkHarm _ b => collect_free_vars b end) hs.

  (** handle.rs:600-622 (the dispatch function) and 717-746 (the one for fn operations). *)
  Definition dispatch_captures (ss : list scope) (hs : list (harm expr)) : list (N * W) :=
    filter (fun e => mem (fst e) (arm_vars (filter is_effect_arm hs))) (all_bindings ss).
  Definition fn_dispatch_captures (ss : list scope) (hs : list (harm expr)) : list (N * W) :=
    filter (fun e => mem (fst e) (arm_vars (filter is_fn_arm hs))) (all_bindings ss).

  (** case.rs:303-325 *)
  Fixpoint add_new (caps : list W) (vs : list W) : list W :=
    match vs with
    | [] => caps
    | v :: vs => if existsb (same v) caps then add_new caps vs else add_new (caps ++ [v]) vs
    end.
  Definition guard_captures (ss : list scope) (scrutinee k : W) (owner : option W) : list W :=
    let caps := add_new [] (map snd (all_bindings ss) ++ [scrutinee; k]) in
    match owner with
    | Some o => if existsb (same o) caps then caps else caps ++ [o]
    | None => caps
    end.
End Values.
