(** C36: the liveness that reference counting insertion works with is liveness along paths. *)
From Verif Require Import RcLiveModel RcLiveSpec RcLiveProofs RcLiveExact.

(** C36.  With enough rounds the analysis ends, and a reference is reported live at the start (end) of a block
    exactly when some path from there reaches a use of it (through casts, or through a value it keeps
    alive) before a new definition. *)
Theorem liveness_is_path_liveness f deps U fuel rounds l : one_definition f -> casts_in_order f ->
  (forall x y, deps x = Some y -> In y U) -> List.length U < fuel ->
  compute_liveness rounds f (analyse f deps fuel) = Some l ->
  forall b, b < List.length (f_blocks f) -> forall v,
    (In v (l_in l b) <-> needed_at_start f deps v b) /\ (In v (l_out l b) <-> needed_at_end f deps v b).
Proof. exact (fun O C R E => liveness_spec f deps U fuel O C R E rounds l). Qed.
Print Assumptions liveness_is_path_liveness.
Theorem liveness_terminates f deps fuel : exists rounds l, compute_liveness rounds f (analyse f deps fuel) = Some l.
Proof. exact (liveness_ends f deps fuel). Qed.
Print Assumptions liveness_terminates.

(** The references counted are those that the function has, without static data, one for each chain of casts. *)
Theorem counted_references_are_the_roots f deps fuel v : one_definition f -> casts_in_order f ->
  (In v (i_ptrs (analyse f deps fuel)) <-> root f v).
Proof. exact (fun O C => roots_ok f deps fuel O C v). Qed.
Print Assumptions counted_references_are_the_roots.

(** C36: a value stands for another managed value exactly when it is that value seen through casts; the
    values left to manage are the managed values that are not casts of other managed values. *)
Theorem aliases_are_the_casts f ptrs : casts_in_order f ->
  let (al, ps) := build_alias_map f ptrs in
  (forall y r, aget al y = Some r <-> (In r ps /\ cast_of f r y /\ y <> r)) /\
  (forall v, In v ps <-> (In v ptrs /\ forall r, In r ps -> cast_of f r v -> r = v)).
Proof. exact (fun O => alias_exact f O ptrs). Qed.
Print Assumptions aliases_are_the_casts.

(** C36: a use of a borrowed temporary is a use of everything that keeps it alive, however long the chain
    and even around a cycle. *)
Theorem owners_are_everything_that_keeps_alive deps U fuel v w :
  (forall x y, deps x = Some y -> In y U) -> List.length U < fuel ->
  (In w (owners fuel deps [] v) <-> keeps deps v w).
Proof. exact (owners_exact deps U fuel v w). Qed.
Print Assumptions owners_are_everything_that_keeps_alive.

(** A loop: block 0 defines 1 (a call) and 2 (a cast of it); block 1 loads from 2 and loops; block 2 uses 0.
    Value 4, loaded from 1 in block 1, is a borrowed temporary of 1 used in block 2. *)
Definition plain (k : kind) (args results succs : list nat) : nop := mkNop k args results succs None.
Definition loop_fn : nfunc := mkNfunc
  [ mkNblock [0] [plain KCall [] [1] []; plain KCast [1] [2] []; plain KJump [] [] [1]];
    mkNblock [] [plain KLoad [2] [4] []; plain KBrif [3] [] [1; 2]];
    mkNblock [] [plain KCall [4] [] []; plain KReturn [0] [] []] ]
  (fun v => has v [0; 1; 2; 4]) (fun v => has v [3]).
Definition loop_deps (v : nat) : option nat := if v =? 4 then Some 1 else None.
Definition loop_info : info := analyse loop_fn loop_deps 5.
Example loop_once : one_definition loop_fn /\ (forall x y, loop_deps x = Some y -> In y [1]).
Proof.
  split; [repeat constructor; cbn; intuition lia|]. intros x y. unfold loop_deps. destruct (x =? 4); [|discriminate].
  intros E. injection E as <-. left. reflexivity.
Qed.
Example loop_aliases : casts_in_order loop_fn /\ i_alias loop_info = [(2, 1)] /\ has 2 (i_ptrs loop_info) = false.
Proof.
  split; [|split; reflexivity]. split; [repeat constructor; cbn; intuition lia|].
  intros pre o post x rest E K A.
  assert (D : o = plain KCast [1] [2] []).
  { assert (I : In o (f_ops loop_fn)) by (rewrite E; apply in_app_iff; right; left; reflexivity).
    cbn in I. repeat (destruct I as [<-|I]; [try discriminate K; reflexivity|]). destruct I. }
  subst o. cbn in A. inversion A; subst.
  assert (Q : post = [plain KJump [] [] [1]; plain KLoad [2] [4] []; plain KBrif [3] [] [1; 2]; plain KCall [4] [] []; plain KReturn [0] [] []]).
  { cbn in E. destruct pre as [|a [|b pre]]; cbn in E; inversion E; subst; try reflexivity.
    exfalso. assert (I : In (plain KCast [1] [2] []) (pre ++ plain KCast [1] [2] [] :: post)) by (apply in_app_iff; right; left; reflexivity).
    rewrite <- H2 in I. cbn in I. intuition discriminate. }
  subst post. cbn. intuition lia.
Qed.
Example loop_live : option_map (fun l => map (fun b => (nodup Nat.eq_dec (l_in l b), nodup Nat.eq_dec (l_out l b))) [0; 1; 2])
  (compute_liveness 10 loop_fn loop_info) = Some [([], [1; 0]); ([1; 0], [4; 1; 0]); ([4; 1; 0], [])].
Proof. vm_compute. reflexivity. Qed.
Example loop_path : needed_at_end loop_fn loop_deps 1 0.
Proof.
  exists 1. split; [exists [plain KCall [] [1] []; plain KCast [1] [2] []], (plain KJump [] [] [1]); split; [reflexivity | left; reflexivity]|].
  split; [intros [[] _]|]. apply (needed_here _ _ _ 1 0 (plain KLoad [2] [4] []) 2); [reflexivity | left; reflexivity|].
  left. split.
  - apply (counted_references_are_the_roots loop_fn loop_deps 5); [apply loop_once | apply loop_aliases | vm_compute; auto].
  - apply (cast_step loop_fn 1 (plain KCast [1] [2] []) 1 2 [] []); try reflexivity; [right; left; reflexivity | constructor].
Qed.
