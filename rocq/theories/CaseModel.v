(** Lowering of case expressions and the check that they are exhaustive.
    Models crates/tribute-front/src/ast_to_ir/lower/case.rs (both the checks and bindings of the compatibility route, which the driver uses
    (src/pipeline.rs:365), and those of the logical route), the case chain of ast_to_ir/lower/logical.rs:1365-1597,
    typeck/checker/expr.rs:2549-2770 (check_exhaustiveness) and astgen/patterns.rs:146-177 (constructor patterns with named fields).
    Types, casts between representations of one value and locations are not modelled.  The code of a sub-expression is one operation that names the
    expression and the scope in which it has been lowered; lowering a sub-expression is taken to succeed. *)
From Coq Require Export NArith ZArith.
From Verif Require Export Base.
Local Open Scope N_scope.

(** ** Patterns, ast/pattern.rs:40-142.  Constructors and local variables are numbers.  Variables without [local_id] are [None]. *)
Inductive literal := Nat_ (n : N) | Int_ (z : Z) | Float_ (bits : N) | String_ (s : list N) | Bool_ (b : bool) | Unit_.
Inductive pattern :=
| Wildcard
| Bind (local : option N)
| Literal (l : literal)
| Variant (ctor : N) (fields : list pattern)
| Record_ (fields : list (N * pattern))
| Tuple (l : list pattern)
| List_ (l : list pattern)
| ListRest (head : list pattern) (rest : option N)
| As (p : pattern) (local : option N)
| Error_.
Record arm := { pat : pattern; guard : option N; body : N }.

(** ** Generated operations *)
Definition scope := list (N * N).     (* local variable, value; the latest first *)
Inductive op :=
| ConstBool (r : N) (b : bool) | ConstInt (r : N) (z : Z) | ConstNil (r : N)
| CmpEq (r a b : N) | And (r a b : N) | Xor (r a b : N)
| VariantIs (r a tag : N) | VariantCast (r a tag : N) | VariantGet (r a tag i : N) | StructGet (r a i : N)
| IsEmpty (r a : N) | Head (r a : N) | Tail (r a : N)
| If (r c : N) (then_ : list op) (then_yield : N) (else_ : list op) (else_yield : N)
| Unreachable
| Expr (r e : N) (s : scope)                                   (* lower_expr, lower_value *)
| Comp (r e : N) (s : scope) (k : N)                           (* lower_comp_normalized: the value of [e] is passed to the continuation [k] *)
| Guarded (r e : N) (s : scope) (captures : list N) (param : N) (ops : list op) (ret : N)
                                                               (* closure.lambda, and the code of [e] with that closure as its continuation *)
| Invoke (r k a : N).
(** [Rejected]: an error is reported; [Panics]: an unreachable! or a panic! is reached. *)
Inductive res A := Done (a : A) | Rejected | Panics.
Arguments Done {A}. Arguments Rejected {A}. Arguments Panics {A}.
Definition bind {A B} (x : res A) (f : A -> res B) : res B := match x with Done a => f a | Rejected => Rejected | Panics => Panics end.
Local Notation "'do' p <- x ; y" := (bind x (fun p => y)) (at level 200, p pattern, x at level 100, y at level 200, right associativity).

(** ** Checks *)
(** [validate_nat_i31] and [validate_int_i31], lower/mod.rs:345-392. *)
Definition validate_nat (n : N) : res Z := if n <=? 1073741823 then Done (Z.of_N n) else Rejected.
Definition validate_int (z : Z) : res Z := if ((-1073741824 <=? z) && (z <=? 1073741823))%Z then Done z else Rejected.
(** [emit_literal_check], case.rs:1084-1149. *)
Definition literal_check (next s : N) (l : literal) : res (N * list op * N) :=
  match l with
  | Nat_ n => do z <- validate_nat n; Done (next + 2, [ConstInt next z; CmpEq (next + 1) s next], next + 1)
  | Int_ z => do z <- validate_int z; Done (next + 2, [ConstInt next z; CmpEq (next + 1) s next], next + 1)
  | Bool_ b => Done (next + 2, [ConstBool next b; CmpEq (next + 1) s next], next + 1)
  | _ => Panics
  end.
(** The conjunction of conditions: the first one, then an [arith.and] for each of the others. *)
Fixpoint and_all (next acc : N) (l : list N) : N * list op * N :=
  match l with
  | [] => (next, [], acc)
  | c :: l => let '(next', ops, r) := and_all (next + 1) next l in (next', And next acc c :: ops, r)
  end.
Definition conjunction (next : N) (l : list N) : N * list op * N :=
  match l with
  | [] => (next + 1, [ConstBool next true], next)
  | c :: l => and_all next c l
  end.
Section Fields.
  Variable check : N -> N -> pattern -> res (N * list op * N).       (* next value, scrutinee, pattern: next value, operations, condition *)
  Variable get : N -> N -> op.                                       (* result, index *)
  (** The conditions of fields, each got from the whole. *)
  Fixpoint fields_check (next i : N) (l : list pattern) : res (N * list op * list N) :=
    match l with
    | [] => Done (next, [], [])
    | p :: l =>
        do (next', ops, c) <- check (next + 1) next p;
        do (next', ops', cs) <- fields_check next' (i + 1) l;
        Done (next', get next i :: ops ++ ops', c :: cs)
    end.
End Fields.
Section Suffix.
  Variable check : N -> N -> pattern -> res (N * list op * N).
  (** [emit_list_pattern_suffix] and [emit_logical_list_pattern_suffix]. *)
  Fixpoint suffix_check (exact : bool) (next cur : N) (l : list pattern) : res (N * list op * N) :=
    match l with
    | [] => Done (next + 1, [if exact then IsEmpty next cur else ConstBool next true], next)
    | p :: l =>
        let empty := next in let true_ := next + 1 in let non_empty := next + 2 in let head := next + 3 in
        do (next, ops, c) <- check (next + 4) head p;
        let tail := next in
        do (next, ops', c') <- suffix_check exact (next + 1) tail l;
        let false1 := next in let inner := next + 1 in let false2 := next + 2 in let outer := next + 3 in
        Done (next + 4,
              [IsEmpty empty cur; ConstBool true_ true; Xor non_empty empty true_;
               If outer non_empty
                 (Head head cur :: ops ++ [If inner c (Tail tail cur :: ops') c' [ConstBool false1 false] false1]) inner
                 [ConstBool false2 false] false2],
              outer)
    end.
End Suffix.
(** [emit_pattern_check], case.rs:466-558, if not [logical]; [emit_logical_pattern_check], case.rs:566-630 and 646-751, if [logical]. *)
Fixpoint pattern_check (logical : bool) (next s : N) (p : pattern) {struct p} : res (N * list op * N) :=
  match p with
  | Wildcard | Bind _ | Error_ => Done (next + 1, [ConstBool next true], next)
  | Literal l => literal_check next s l
  | Variant tag fields =>
      if logical then
        match fields with
        | [] => Done (next + 1, [VariantIs next s tag], next)
        | _ =>
            let is := next in let cast := next + 1 in
            do (next, ops, cs) <- fields_check (pattern_check logical) (fun r i => VariantGet r cast tag i) (next + 2) 0 fields;
            let '(next, ops', c) := conjunction next cs in
            Done (next + 2, [VariantIs is s tag; If (next + 1) is (VariantCast cast s tag :: ops ++ ops') c [ConstBool next false] next], next + 1)
        end
      else Done (next + 1, [VariantIs next s tag], next)
  | Tuple l =>
      do (next, ops, cs) <- fields_check (pattern_check logical) (fun r i => StructGet r s i) next 0 l;
      let '(next, ops', c) := conjunction next cs in Done (next, ops ++ ops', c)
  | List_ l => suffix_check (pattern_check logical) true next s l
  | ListRest head _ => suffix_check (pattern_check logical) false next s head
  | As p _ => pattern_check logical next s p
  | Record_ _ => Panics
  end.

(** ** Bindings: [bind_pattern_fields], case.rs:1392-1494 and 1617-1659, and [bind_logical_pattern_fields], case.rs:1500-1614. *)
Definition bind_local (local : option N) (v : N) (s : scope) : scope := match local with Some x => (x, v) :: s | None => s end.
Section BindFields.
  Variable binds : N -> N -> pattern -> scope -> res (N * list op * scope).
  Variable get : N -> N -> op.
  Fixpoint fields_bind (next i : N) (l : list pattern) (sc : scope) : res (N * list op * scope) :=
    match l with
    | [] => Done (next, [], sc)
    | p :: l =>
        do (next', ops, sc) <- binds (next + 1) next p sc;
        do (next', ops', sc) <- fields_bind next' (i + 1) l sc;
        Done (next', get next i :: ops ++ ops', sc)
    end.
  Fixpoint list_bind (next cur : N) (l : list pattern) (rest : option N) (sc : scope) : res (N * list op * scope) :=
    match l with
    | [] => Done (next, [], bind_local rest cur sc)
    | p :: l =>
        do (next', ops, sc) <- binds (next + 1) next p sc;
        do (next'', ops', sc) <- list_bind (next' + 1) next' l rest sc;
        Done (next'', Head next cur :: ops ++ Tail next' cur :: ops', sc)
    end.
End BindFields.
Fixpoint pattern_bind (next s : N) (p : pattern) (sc : scope) {struct p} : res (N * list op * scope) :=
  match p with
  | Bind local => Done (next, [], bind_local local s sc)
  | Wildcard | Literal _ | Error_ => Done (next, [], sc)
  | Variant tag fields =>
      do (next', ops, sc) <- fields_bind pattern_bind (fun r i => VariantGet r next tag i) (next + 1) 0 fields sc;
      Done (next', VariantCast next s tag :: ops, sc)
  | Tuple l => fields_bind pattern_bind (fun r i => StructGet r s i) next 0 l sc
  | List_ l => list_bind pattern_bind next s l None sc
  | ListRest head rest => list_bind pattern_bind next s head rest sc
  | As p local => pattern_bind next s p (bind_local local s sc)
  | Record_ _ => Panics
  end.

(** ** Chains of arms.  The results are the next value, the operations and the value of the whole. *)
Definition is_irrefutable (p : pattern) : bool := match p with Wildcard | Bind _ => true | _ => false end.
(** [lower_case_chain] of logical.rs:1365-1597.  [exhaustive]: the checker has recorded the case expression as such. *)
Fixpoint logical_chain (exhaustive : bool) (next s : N) (sc : scope) (arms : list arm) : res (N * list op * N) :=
  match arms with
  | [] => Done (next + 1, [ConstNil next], next)
  | a :: rest =>
      let unconditional := match rest, guard a with [], None => exhaustive | _, _ => false end in
      if unconditional then
        do (next, ops, sc) <- pattern_bind next s (pat a) sc;
        Done (next + 1, ops ++ [Expr next (body a) sc], next)
      else
        do (next, ops, c) <- pattern_check true next s (pat a);
        do (next, bops, sc') <- pattern_bind next s (pat a) sc;
        do (next, tops, ty) <-
          match guard a with
          | Some g =>
              let gv := next in let bv := next + 1 in
              do (next, eops, ev) <- logical_chain exhaustive (next + 2) s sc' rest;
              Done (next + 1, Expr gv g sc' :: [If next gv [Expr bv (body a) sc'] bv eops ev], next)
          | None => Done (next + 1, [Expr next (body a) sc'], next)
          end;
        do (next, eops, ev) <- logical_chain exhaustive next s sc rest;
        Done (next + 1, ops ++ [If next c (bops ++ tops) ty eops ev], next)
  end.
(** [lower_case_chain] of case.rs:361-463, with build_guarded_arm_region, build_arm_region and build_else_chain_region. *)
Fixpoint legacy_chain (is_else_chain : bool) (next s : N) (sc : scope) (arms : list arm) : res (N * list op * N) :=
  match arms with
  | [] => Done (next + 1, [Unreachable; ConstNil next], next)
  | a :: rest =>
      let unconditional := match rest, guard a with [], None => is_else_chain || is_irrefutable (pat a) | _, _ => false end in
      if unconditional then
        do (next, ops, sc) <- pattern_bind next s (pat a) sc;
        Done (next + 1, ops ++ [Expr next (body a) sc], next)
      else
        do (next, ops, c) <- pattern_check false next s (pat a);
        do (next, bops, sc') <- pattern_bind next s (pat a) sc;
        do (next, tops, ty) <-
          match guard a with
          | Some g =>
              let gv := next in let bv := next + 1 in
              do (next, eops, ev) <- legacy_chain true (next + 2) s sc rest;
              Done (next + 1, Expr gv g sc' :: [If next gv [Expr bv (body a) sc'] bv eops ev], next)
          | None => Done (next + 1, [Expr next (body a) sc'], next)
          end;
        do (next, eops, ev) <- legacy_chain true next s sc rest;
        Done (next + 1, ops ++ [If next c (bops ++ tops) ty eops ev], next)
  end.
(** [lower_case_comp_chain] and what it uses, case.rs:76-343: the value of the chosen arm goes to the continuation [k].  [direct]: the guards that
    need no continuation of their own.  The captures of a guard's continuation are the bindings in scope, the scrutinee and [k]. *)
Fixpoint comp_chain (direct : N -> bool) (is_else_chain : bool) (next s k : N) (sc : scope) (arms : list arm) : res (N * list op * N) :=
  match arms with
  | [] => Done (next + 2, [Unreachable; ConstNil next; Invoke (next + 1) k next], next + 1)
  | a :: rest =>
      let unconditional := match rest, guard a with [], None => is_else_chain || is_irrefutable (pat a) | _, _ => false end in
      if unconditional then
        do (next, ops, sc) <- pattern_bind next s (pat a) sc;
        Done (next + 1, ops ++ [Comp next (body a) sc k], next)
      else
        do (next, ops, c) <- pattern_check false next s (pat a);
        do (next, bops, sc') <- pattern_bind next s (pat a) sc;
        do (next, tops, ty) <-
          match guard a with
          | Some g =>
              let gv := next in let bv := next + 1 in
              do (next, eops, ev) <- comp_chain direct true (next + 2) s k sc' rest;
              let select := If next gv [Comp bv (body a) sc' k] bv eops ev in
              if direct g then Done (next + 1, Expr gv g sc' :: [select], next)
              else Done (next + 2, [Guarded (next + 1) g sc' (map snd sc' ++ [s; k]) gv [select] next], next + 1)
          | None => Done (next + 1, [Comp next (body a) sc' k], next)
          end;
        do (next, eops, ev) <- comp_chain direct true next s k sc rest;
        Done (next + 1, ops ++ [If next c (bops ++ tops) ty eops ev], next)
  end.

(** ** Exhaustiveness *)
(** What [check_exhaustiveness] sees of the type of the scrutinee. *)
Inductive head := HList | HNamed (name : N) | HBool | HNumber | HUniVar | HOther.
Inductive verdict := Exhaustive | NotCovered | Warned | Silent.      (* proved; an error; a warning; no diagnostic at all *)
Definition unguarded (a : arm) : bool := match guard a with None => true | Some _ => false end.
Fixpoint is_catch_all (p : pattern) : bool :=
  match p with
  | Wildcard | Bind _ => true
  | As p _ => is_catch_all p
  | _ => false
  end.
Definition list_lengths (p : pattern) : list N * list N :=           (* exact lengths, prefix lengths *)
  match p with
  | List_ l => if forallb is_catch_all l then ([N.of_nat (List.length l)], []) else ([], [])
  | ListRest l _ => if forallb is_catch_all l then ([], [N.of_nat (List.length l)]) else ([], [])
  | _ => ([], [])
  end.
Definition arm_lengths (a : arm) : list N * list N := match pat a with As p _ => list_lengths p | p => list_lengths p end.
(** [list_patterns_are_exhaustive], expr.rs:2703-2750. *)
Definition list_exhaustive (arms : list arm) : bool :=
  let l := map arm_lengths (filter unguarded arms) in
  let exact := flat_map fst l in
  existsb (fun minimum => forallb (fun n => existsb (N.eqb (N.of_nat n)) exact) (seq 0 (N.to_nat minimum))) (flat_map snd l).
(** [collect_covered_variants], expr.rs:2753-2771. *)
Fixpoint covered_variants (p : pattern) : list N := match p with Variant c _ => [c] | As p _ => covered_variants p | _ => [] end.
(** [collect_bool_coverage], expr.rs:2774-2789. *)
Fixpoint covered_bools (p : pattern) : list bool := match p with Literal (Bool_ b) => [b] | As p _ => covered_bools p | _ => [] end.
(** [check_exhaustiveness], expr.rs:2555-2690.  [variants]: the names of the variants of an enum. *)
Definition check_exhaustiveness (variants : N -> option (list N)) (h : head) (arms : list arm) : verdict :=
  match rev arms with
  | [] => NotCovered
  | last :: _ =>
      if unguarded last && is_catch_all (pat last) then Exhaustive
      else
        match h with
        | HList => if list_exhaustive arms then Exhaustive else NotCovered
        | HUniVar => Silent
        | HBool =>
            let l := flat_map (fun a => covered_bools (pat a)) (filter unguarded arms) in
            if existsb (Bool.eqb true) l && existsb (Bool.eqb false) l then Exhaustive else NotCovered
        | HNumber => NotCovered
        | HOther => Warned
        | HNamed name =>
            match variants name with
            | None => Warned
            | Some all =>
                let l := flat_map (fun a => covered_variants (pat a)) (filter unguarded arms) in
                if forallb (fun v => existsb (N.eqb v) l) all then Exhaustive else NotCovered
            end
        end
  end.

(** ** Named fields of constructor patterns: [lower_constructor_fields], astgen/patterns.rs:146-177.  The patterns are kept in the order in which
    they are written, the names are not used. *)
Definition constructor_fields (l : list (N * pattern)) : list pattern := map snd l.
