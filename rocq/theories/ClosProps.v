(** Closure conversion: theorems. *)
From Coq Require Import String List Lia.
From Verif Require Import ClosDone.
Open Scope string_scope.
Open Scope list_scope.
Import ListNotations.

(** Compiling lambdas away does not change what a program does: whenever a run of the source, where a lambda sees the
    variables of the place where it was made, does not go wrong, the converted program ends at the same depth of calls
    with the same result and the same effects, or both need more depth. *)
Theorem closures_keep_their_variables : forall n P fuel P2, program_ok n P -> convert_closures fuel P n = Some P2 ->
  forall (W : Type) (prim : nat -> list Z -> W -> option (Z * W)) (depth : nat) (f : string) (zs : list Z) (w : W),
    observe (run W prim P depth f zs w) <> RWrong ->
    observe (run W prim P2 depth f zs w) = observe (run W prim P depth f zs w).
Proof. intros n P fuel P2 H1 H2. exact (proj2 (proj2 (proj2 (convert_any n P fuel P2 H1 H2)))). Qed.
Print Assumptions closures_keep_their_variables.

(** Nothing of closures is left but data and plain functions. *)
Theorem no_closure_operation_is_left : forall n P fuel P2, program_ok n P -> convert_closures fuel P n = Some P2 ->
  Forall (fun f => first_order (f_body f)) P2.
Proof. intros n P fuel P2 H1 H2. exact (proj1 (convert_any n P fuel P2 H1 H2)). Qed.
Print Assumptions no_closure_operation_is_left.

(** The functions made for lambdas get names of their own; no function of the program is lost. *)
Theorem lifted_functions_have_their_own_names : forall n P fuel P2, program_ok n P -> convert_closures fuel P n = Some P2 ->
  NoDup (map f_name P2) /\ incl (map f_name P) (map f_name P2).
Proof.
  intros n P fuel P2 H1 H2. exact (conj (proj1 (proj2 (convert_any n P fuel P2 H1 H2))) (proj1 (proj2 (proj2 (convert_any n P fuel P2 H1 H2))))).
Qed.
Print Assumptions lifted_functions_have_their_own_names.

(** The pass ends: one turn for each level of nesting is enough. *)
Theorem closure_conversion_ends : forall n P fuel, program_ok n P -> (forall f, In f P -> nesting (f_body f) < fuel) -> 0 < fuel ->
  exists P2, convert_closures fuel P n = Some P2.
Proof. exact convert_ends. Qed.
Print Assumptions closure_conversion_ends.

(** ** A program: nested lambdas of several conventions *)

Section Example.
  (** Operation 0 adds, operation 1 prints. *)
  Definition ex_prim (k : nat) (zs : list Z) (w : list Z) : option (Z * list Z) :=
    match k, zs with
    | 0, [a; b] => Some ((a + b)%Z, w)
    | 1, [a] => Some (0%Z, w ++ [a])
    | _, _ => None
    end.

  (** add(x) makes a lambda of y, which prints x and returns a lambda of z for (x + y) + z.  The evidence of
      [run_all] goes through a lambda without convention, and through one of convention Cps with a continuation. *)
  Definition ex_program : cmodule :=
    [ mkFunc "add" false [0]
        (Lam (Some Direct) [0] [1]
           (Seq (IPrim 1 [0]) 2
             (Lam (Some Direct) [1; 0] [3]
               (Seq (IPrim 0 [0; 1]) 4 (Seq (IPrim 0 [4; 3]) 5 (Ret 5))) 6 (Ret 6))) 7 (Ret 7));
      mkFunc "main" false [8]
        (Seq (ICall "add" [8]) 9 (Seq (IInd (Some Direct) 9 [8]) 10 (Seq (ICall "add" [10]) 11
          (Seq (IInd (Some Direct) 10 [8]) 12 (Ret 12)))));
      mkFunc "run_all" true [20; 21]
        (Lam None [21] [22]
           (Lam (Some Cps) [21; 22; 20] [23; 24; 25]
              (Seq (IPrim 0 [25; 21]) 26 (Seq (IPrim 0 [26; 20]) 27 (Seq (IPrim 0 [27; 23]) 28
                (Seq (IInd (Some Direct) 24 [28]) 29 (Ret 29))))) 30 (Ret 30)) 31
           (Seq (IInd None 31 [21]) 32
             (Lam (Some Direct) [] [33] (Seq (IPrim 1 [33]) 34 (Ret 33)) 35
               (Seq (IInd (Some Cps) 32 [20; 35; 21]) 36 (Ret 36))))) ].

  Example ex_ok : program_ok 40 ex_program.
  Proof.
    split; [|split].
    - repeat (apply Forall_cons || apply Forall_nil).
      all: unfold func_ok; cbn; repeat split; try lia; try discriminate;
        repeat (match goal with
          | |- NoDup _ => constructor
          | |- Forall _ _ => constructor
          | |- ~ _ => intros ?
          | |- incl _ _ => intros ? ?
          | |- forall _, _ => intros ?
          | H : In _ _ |- _ => cbn in H
          | H : _ \/ _ |- _ => destruct H
          | H : False |- _ => destruct H
          | |- In _ _ => cbn
          end; subst; try lia).
    - cbn. repeat constructor; cbn; intuition discriminate.
    - intros p c f [<-|[<-|[<-|[]]]]; cbn; intros E; apply (f_equal String.length) in E;
        rewrite append_length in E; cbn in E; lia.
  Qed.

  Definition ex_result (P : option cmodule) (f : string) (zs : list Z) :=
    match P with Some P => Some (observe (run (list Z) ex_prim P 10 f zs [])) | None => None end.

  Example ex_source : ex_result (Some ex_program) "main" [5%Z] = Some (RDone (SInt 15) [5%Z]).
  Proof. vm_compute. reflexivity. Qed.
  Example ex_converted : ex_result (convert_closures 3 ex_program 40) "main" [5%Z] = Some (RDone (SInt 15) [5%Z]).
  Proof. vm_compute. reflexivity. Qed.
  (** 3 + 3 + 100 + 100: the evidence the caller has, at the call and as a captured variable. *)
  Example ex_conventions : ex_result (Some ex_program) "run_all" [100%Z; 3%Z] = Some (RDone (SInt 206) [206%Z])
    /\ ex_result (convert_closures 3 ex_program 40) "run_all" [100%Z; 3%Z] = Some (RDone (SInt 206) [206%Z]).
  Proof. vm_compute. split; reflexivity. Qed.
  Example ex_names : option_map (map f_name) (convert_closures 3 ex_program 40)
    = Some ["add"; "main"; "run_all"; "add::__clam_0"; "run_all::__clam_0"; "run_all::__clam_1";
            "add::__clam_0::__clam_0"; "run_all::__clam_0::__clam_0"].
  Proof. vm_compute. reflexivity. Qed.
  (** One turn is not enough for two levels. *)
  Example ex_fuel : convert_closures 2 ex_program 40 = None.
  Proof. vm_compute. reflexivity. Qed.
End Example.
