(** Closure conversion: lambdas become functions of the module with an environment, and closures become pairs.
    Models crates/tribute-passes/src/lower_closure_lambda.rs:47-513 and crates/tribute-passes/src/closure_lower.rs:44-330,
    620-676, and the conventions of crates/tribute-core/src/calling_convention.rs:17-62 and callable_abi.rs:60-77.

    Values are numbers, unique in the module as in the arena of the code; [n] is always the next unused number.  Code is
    a tree: an operation and what follows it.  Regions have one block; scf.if stands for all operations with regions
    other than lambdas.  Types, locations and attributes are left out, except for the convention of a lambda, a
    closure.new or an indirect call, and whether the first parameter of a function has the evidence type. *)
From Coq Require Export String List.
From Verif Require Export Base.
From Verif Require MangleModel.
Export ListNotations.
Local Open Scope list_scope.

(** calling_convention.rs:23-62 *)
Inductive conv : Type := Direct | EvidenceDirect | Cps.
Definition needs_evidence (c : conv) : bool := match c with Direct => false | _ => true end.
Definition needs_done_k (c : conv) : bool := match c with Cps => true | _ => false end.
Definition bool_index (b : bool) : nat := if b then 1 else 0.
Definition closure_environment_index (c : conv) : nat := bool_index (needs_evidence c).

(** Kinds of structures: a closure pair ([closure_struct_type_ref], closure_lower.rs:45-58), an environment, and those
    of the program. *)
Inductive kind : Type := KClosure | KEnv | KUser (t : nat).

(** Operations without regions, with one result.  [IPrim] computes on integers and may act on the world; [IData] is
    adt.struct_new, [IField] adt.struct_get, [ICast] adt.ref_cast, [INull] adt.ref_null; [ICall] is func.call;
    [IInd] is func.call_indirect of a closure, with its convention; [INew] is closure.new, [IFun] func.constant, and
    [ICallFn] func.call_indirect of a plain function. *)
Inductive inst : Type :=
| IPrim (k : nat) (args : list nat)
| IData (k : kind) (args : list nat)
| IField (i : nat) (x : nat)
| ICast (x : nat)
| INull
| ICall (f : string) (args : list nat)
| IInd (c : option conv) (x : nat) (args : list nat)
| INew (f : string) (c : option conv) (env : nat)
| IFun (f : string)
| ICallFn (x : nat) (args : list nat).

(** [Lam] is closure.lambda: convention, captures, parameters, body. *)
Inductive code : Type :=
| Ret (v : nat)
| Seq (i : inst) (r : nat) (k : code)
| If (x : nat) (t e : code) (r : nat) (k : code)
| Lam (c : option conv) (caps ps : list nat) (b : code) (r : nat) (k : code).

(** [f_ev]: the first parameter has the evidence type. *)
Record func : Type := mkFunc { f_name : string; f_ev : bool; f_params : list nat; f_body : code }.
Definition cmodule := list func.

(** ** Cloning (trunk-ir ir_mapping.rs:23-78, context.rs clone_op) *)

Definition vmap := list (nat * nat).
(** [lookup_value_or_default]; the entry made last is first. *)
Fixpoint lookup (m : vmap) (v : nat) : nat :=
  match m with
  | [] => v
  | (a, b) :: m => if a =? v then b else lookup m v
  end.
(** [map_value] for each pair in turn. *)
Definition map_values (pairs : list (nat * nat)) (m : vmap) : vmap := rev pairs ++ m.

Definition rename (m : vmap) (i : inst) : inst :=
  match i with
  | IPrim k args => IPrim k (map (lookup m) args)
  | IData k args => IData k (map (lookup m) args)
  | IField j x => IField j (lookup m x)
  | ICast x => ICast (lookup m x)
  | INull => INull
  | ICall f args => ICall f (map (lookup m) args)
  | IInd c x args => IInd c (lookup m x) (map (lookup m) args)
  | INew f c env => INew f c (lookup m env)
  | IFun f => IFun f
  | ICallFn x args => ICallFn (lookup m x) (map (lookup m) args)
  end.

Fixpoint clone (m : vmap) (n : nat) (c : code) : code * nat :=
  match c with
  | Ret v => (Ret (lookup m v), n)
  | Seq i r k =>
      let (k', n1) := clone ((r, n) :: m) (S n) k in
      (Seq (rename m i) n k', n1)
  | If x t e r k =>
      let (t', n1) := clone m n t in
      let (e', n2) := clone m n1 e in
      let (k', n3) := clone ((r, n2) :: m) (S n2) k in
      (If (lookup m x) t' e' n2 k', n3)
  | Lam cv caps ps b r k =>
      let ps' := seq n (List.length ps) in
      let (b', n1) := clone (map_values (combine ps ps') m) (n + List.length ps) b in
      let (k', n2) := clone ((r, n1) :: m) (S n1) k in
      (Lam cv (map (lookup m) caps) ps' b' n1 k', n2)
  end.

(** ** Lifting one lambda *)

Definition is_legacy (c : option conv) : bool := match c with None => true | Some _ => false end.
(** lower_closure_lambda.rs:156-172; types that carry a convention of their own do not occur in this pipeline. *)
Definition environment_index (c : option conv) : nat :=
  match c with Some c => closure_environment_index c | None => 1 end.
(** lower_closure_lambda.rs:182-184 *)
Definition lowerable (c : option conv) (ps : list nat) : bool :=
  is_legacy c || (environment_index c <=? List.length ps).

Definition mem (x : nat) (l : list nat) : bool := existsb (Nat.eqb x) l.
(** lower_closure_lambda.rs:185-188 *)
Definition implicit_evidence (c : option conv) (caps : list nat) (ev : option nat) : option nat :=
  if is_legacy c then match ev with Some e => if mem e caps then None else Some e | None => None end else None.

(** The struct_gets of lower_closure_lambda.rs:371-382. *)
Fixpoint extract (env : nat) (i : nat) (gets : list nat) (k : code) : code :=
  match gets with
  | [] => k
  | g :: gets => Seq (IField i env) g (extract env (S i) gets k)
  end.

(** [build_lifted_body] and the signature, lower_closure_lambda.rs:200-240, 293-425. *)
Definition build_lifted (name : string) (c : option conv) (ev : option nat) (caps ps : list nat) (b : code) (n : nat) : func * nat :=
  let lg := bool_index (is_legacy c) in
  let logical := environment_index c - lg in
  let args := seq n (List.length ps + 1 + lg) in
  let m1 := map_values
              (combine ps (map (fun i => nth (lg + i + bool_index (logical <=? i)) args 0) (seq 0 (List.length ps)))) [] in
  let m2 := map_values (match implicit_evidence c caps ev with Some e => [(e, nth 0 args 0)] | None => [] end) m1 in
  let raw_env := nth (environment_index c) args 0 in
  let n1 := n + List.length args in
  let evidence_first := match c with None => true | Some c => needs_evidence c end in
  match caps with
  | [] => let (b', n2) := clone m2 n1 b in (mkFunc name evidence_first args b', n2)
  | _ =>
      let gets := seq (S n1) (List.length caps) in
      let (b', n2) := clone (map_values (combine caps gets) m2) (S n1 + List.length caps) b in
      (mkFunc name evidence_first args (Seq (ICast raw_env) n1 (extract n1 0 gets b')), n2)
  end.

(** [LambdaNamer], lower_closure_lambda.rs:468-489: a counter for each parent. *)
Definition lifted_name (parent : string) (count : nat) : string := (parent ++ "::__clam_" ++ MangleModel.decimal count)%string.
Definition counters := list (string * nat).
Fixpoint counter (t : counters) (p : string) : nat :=
  match t with
  | [] => 0
  | (q, c) :: t => if String.eqb q p then c else counter t p
  end.

Record state : Type := mkState { s_counters : counters; s_next : nat; s_new : list func }.

(** [lower_single_lambda], lower_closure_lambda.rs:118-270, on all outermost lambdas of one function, in the order of
    [collect_closure_lambdas] (93-112).  The result of closure.new takes the number of the lambda's result, whose uses
    the code replaces. *)
Fixpoint lift (parent : string) (ev : option nat) (c : code) (st : state) : code * state :=
  match c with
  | Ret v => (Ret v, st)
  | Seq i r k => let (k', st) := lift parent ev k st in (Seq i r k', st)
  | If x t e r k =>
      let (t', st) := lift parent ev t st in
      let (e', st) := lift parent ev e st in
      let (k', st) := lift parent ev k st in
      (If x t' e' r k', st)
  | Lam cv caps ps b r k =>
      if lowerable cv ps then
        let count := counter (s_counters st) parent in
        let name := lifted_name parent count in
        let (f, n1) := build_lifted name cv ev caps ps b (s_next st) in
        let st := mkState ((parent, S count) :: s_counters st) (S n1) (s_new st ++ [f]) in
        let (k', st) := lift parent ev k st in
        (Seq (match caps with [] => INull | _ => IData KEnv caps end) n1 (Seq (INew name cv n1) r k'), st)
      else
        let (k', st) := lift parent ev k st in (Lam cv caps ps b r k', st)
  end.

(** [nearest_physical_evidence_arg], lower_closure_lambda.rs:446-466. *)
Definition func_evidence (f : func) : option nat :=
  if f_ev f then match f_params f with e :: _ => Some e | [] => None end else None.

Definition lift_func (f : func) (st : state) : func * state :=
  let (b', st) := lift (f_name f) (func_evidence f) (f_body f) st in
  (mkFunc (f_name f) (f_ev f) (f_params f) b', st).
Fixpoint lift_funcs (P : cmodule) (st : state) : cmodule * state :=
  match P with
  | [] => ([], st)
  | f :: P => let (f', st) := lift_func f st in let (P', st) := lift_funcs P st in (f' :: P', st)
  end.

(** One turn of the loop at lower_closure_lambda.rs:59-72; new functions go to the end of the module. *)
Definition round (P : cmodule) (t : counters) (n : nat) : cmodule * counters * nat :=
  let (P', st) := lift_funcs P (mkState t n []) in
  (P' ++ s_new st, s_counters st, s_next st).

Fixpoint lambda_free (c : code) : bool :=
  match c with
  | Ret _ => true
  | Seq _ _ k => lambda_free k
  | If _ t e _ k => lambda_free t && lambda_free e && lambda_free k
  | Lam _ _ _ _ _ _ => false
  end.
(** Whether a turn lowered at least one lambda: some outermost lambda is not refused. *)
Fixpoint progress (c : code) : bool :=
  match c with
  | Ret _ => false
  | Seq _ _ k => progress k
  | If _ t e _ k => progress t || progress e || progress k
  | Lam cv _ ps _ _ k => lowerable cv ps || progress k
  end.
(** [lower_closure_lambda], lower_closure_lambda.rs:47-73; [None] if the fuel ends before the loop. *)
Fixpoint lower_lambdas (fuel : nat) (P : cmodule) (t : counters) (n : nat) : option (cmodule * nat) :=
  match fuel with
  | O => None
  | S fuel =>
      if forallb (fun f => lambda_free (f_body f)) P then Some (P, n)
      else
        let '(P', t', n') := round P t n in
        if existsb (fun f => progress (f_body f)) P then lower_lambdas fuel P' t' n' else Some (P', n')
  end.

(** ** Closures become pairs (closure_lower.rs) *)

Fixpoint insert_at {A : Type} (i : nat) (x : A) (l : list A) : list A :=
  match i, l with
  | O, _ => x :: l
  | S i, y :: l => y :: insert_at i x l
  | S _, [] => [x]
  end.

Definition hidden (c : conv) : nat := bool_index (needs_evidence c) + bool_index (needs_done_k c).

(** [LowerClosureCallArena] (186-330), [LowerClosureNewArena] (144-184), and [closure.func], [closure.env] as fields 0
    and 1 (501-560), applied to each operation of a function; [ev] is [evidence_param_for_func] (579-588). *)
Fixpoint pair_up (ev : option nat) (n : nat) (c : code) : code * nat :=
  match c with
  | Ret v => (Ret v, n)
  | Seq (INew f _ env) r k =>
      let (k', n1) := pair_up ev (S n) k in
      (Seq (IFun f) n (Seq (IData KClosure [n; env]) r k'), n1)
  | Seq (IInd (Some cv) x args) r k =>
      if hidden cv <=? List.length args then
        let (k', n1) := pair_up ev (n + 2) k in
        (Seq (IField 0 x) n
          (Seq (IField 1 x) (n + 1)
            (Seq (ICallFn n (insert_at (closure_environment_index cv) (n + 1) args)) r k')), n1)
      else let (k', n1) := pair_up ev n k in (Seq (IInd (Some cv) x args) r k', n1)
  | Seq (IInd None x args) r k =>
      match ev with
      | Some e =>
          let (k', n1) := pair_up ev (n + 2) k in
          (Seq (IField 0 x) n (Seq (IField 1 x) (n + 1) (Seq (ICallFn n (e :: n + 1 :: args)) r k')), n1)
      | None =>
          let (k', n1) := pair_up ev (n + 3) k in
          (Seq INull (n + 2)
            (Seq (IField 0 x) n (Seq (IField 1 x) (n + 1) (Seq (ICallFn n (n + 2 :: n + 1 :: args)) r k'))), n1)
      end
  | Seq i r k => let (k', n1) := pair_up ev n k in (Seq i r k', n1)
  | If x t e r k =>
      let (t', n1) := pair_up ev n t in
      let (e', n2) := pair_up ev n1 e in
      let (k', n3) := pair_up ev n2 k in
      (If x t' e' r k', n3)
  | Lam cv caps ps b r k => let (k', n1) := pair_up ev n k in (Lam cv caps ps b r k', n1)
  end.
Fixpoint lower_closures (P : cmodule) (n : nat) : cmodule * nat :=
  match P with
  | [] => ([], n)
  | f :: P =>
      let (b', n1) := pair_up (func_evidence f) n (f_body f) in
      let (P', n2) := lower_closures P n1 in
      (mkFunc (f_name f) (f_ev f) (f_params f) b' :: P', n2)
  end.

(** src/pipeline.rs:686-700: the first pass, then the second. *)
Definition convert_closures (fuel : nat) (P : cmodule) (n : nat) : option cmodule :=
  match lower_lambdas fuel P [] n with
  | Some (P1, n1) => Some (fst (lower_closures P1 n1))
  | None => None
  end.
