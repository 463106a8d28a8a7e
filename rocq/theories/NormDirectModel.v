(** The order in which the direct lowering evaluates children.

    Models crates/tribute-front/src/ast_to_ir/lower/expr.rs:91-880
    (lower_value_impl) as an evaluator: emitting the code of a child before
    that of another is running it before.  Everything else is as in [den]. *)
From Coq Require Import List NArith Bool.
From Verif Require Import Base NormModel NormSpec.
Import ListNotations.
Open Scope N_scope.

Section Direct.
Variable S : sem.

(** lower/expr.rs:313-560.  The arguments come first (314-316); a callee that
    is not a name is lowered after them (535-538), a name costs nothing. *)
Fixpoint direct (e : expr) (rho : env S) {struct e} : M S :=
  match e with
  | EVar (RLocal x) => ret S (rho x)
  | EVar (RGlobal g) => ret S (global S g)
  | ELit l => ret S (literal S l)
  | ECall c args =>
      den_list S (map direct args) rho
        (fun vs => bind S (direct c rho) (fun f => call S f vs))
  | ECons c args => den_list S (map direct args) rho (fun vs => construct S c vs)
  | ETuple args => den_list S (map direct args) rho (fun vs => tuple S vs)
  | EList args => den_list S (map direct args) rho (fun vs => mklist S vs)
  (* lower/expr.rs:637-720: spread, then fields in the order written *)
  | ERecord ty spread fields =>
      let rest sp :=
        den_list S (map (fun f => direct (snd f)) fields) rho
          (fun vs => record S ty sp (combine (map fst fields) vs)) in
      match spread with
      | Some s => bind S (direct s rho) (fun v => rest (Some v))
      | None => rest None
      end
  | EMethod r m args =>
      bind S (direct r rho)
        (fun v => den_list S (map direct args) rho (fun vs => method S v m vs))
  | EBlock ss v => den_stmts S (map (map_stmt direct) ss) rho (direct v)
  | ECase s arms =>
      bind S (direct s rho) (fun v => den_arms S (map (map_arm direct) arms) v rho)
  | ELambda ps b =>
      ret S (lam S (length ps) (fun vs => direct b (upds S rho ps vs)))
  | EHandle b hs =>
      handle S (direct b rho)
        (map (fun h => den_harm S (map_harm direct h) rho) hs)
  | EResume a k =>
      bind S (direct a rho) (fun v => resume S (option_map rho k) v)
  (* lower/expr.rs:261-307 *)
  | EBinOp BAnd l r =>
      bind S (direct l rho)
        (fun v => if truth S v then direct r rho
                  else ret S (literal S (LBool false)))
  | EBinOp BOr l r =>
      bind S (direct l rho)
        (fun v => if truth S v then ret S (literal S (LBool true))
                  else direct r rho)
  | EError => failure S
  end.
End Direct.
