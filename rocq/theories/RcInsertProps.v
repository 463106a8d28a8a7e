(** C37: inserted reference counting is balanced. *)
From Coq Require Import Permutation Lia.
From Verif Require Import RcLiveModel RcLiveSpec RcInsertModel RcInsertSpec RcInsertProofs.

(** C37 (part).  On the functions described by [insertable], and whichever way the branches go: no reference is used
    after the function gave up its last count, no count is given up that is not there, and when the function returns
    or tail calls it holds nothing.  Missing: the functions excluded by [insertable], on some of which the claim is
    false (below), and the analyses of calls and borrowed temporaries that supply contracts and [w]. *)
Theorem inserted_counting_is_balanced_partial f deps fuel rounds lv w order :
  one_definition f -> casts_in_order f -> f_blocks f <> [] ->
  compute_liveness rounds f (analyse f deps fuel) = Some lv -> (forall l, Permutation (order l) l) ->
  insertable f (analyse f deps fuel) w lv ->
  forall n, balanced f (analyse f deps fuel) (callers f w) (insert_block f (analyse f deps fuel) w lv order) n 0 (at_entry f w).
Proof. exact (insert_balanced f deps fuel rounds lv w order). Qed.
Print Assumptions inserted_counting_is_balanced_partial.

(** Two functions that meet the conditions.  The first has a loop: block 0 stores a loaded reference and jumps with a
    new one, block 1 loads from it and goes round through block 2 or returns it in block 3. *)
Definition op0 (k : kind) (args results succs : list nat) : nop := mkNop k args results succs None.
Definition nothing : borrows := mkBorrows [] [] [].
Definition no_deps (_ : nat) : option nat := None.
Definition ring : nfunc := mkNfunc
  [ mkNblock [0] [op0 KCall [0] [1] []; op0 KLoad [1] [2] []; op0 KCast [2] [6] []; op0 KStore [2; 1] [] []; op0 KLoad [6] [7] []; op0 KJump [1] [] [1]];
    mkNblock [3] [op0 KLoad [3] [4] []; op0 KBrif [5] [] [2; 3]];
    mkNblock [] [op0 KJump [3] [] [1]];
    mkNblock [] [op0 KReturn [3] [] []] ]
  (fun v => has v [0; 1; 2; 3; 4]) (fun v => has v [5; 7]).
Definition ring_info : info := analyse ring no_deps 1.
Definition ring_live : live := match compute_liveness 20 ring ring_info with Some l => l | None => mkLive (fun _ => []) (fun _ => []) end.
(** The second borrows its parameter 0 and the temporary 1 loaded from it, and hands both over in a tail call. *)
Definition pass : nfunc := mkNfunc
  [ mkNblock [0] [op0 KLoad [0] [1] []; op0 KIcmp [1; 1] [2] [];
                  mkNop KReturnCall [1; 0; 1] [] [] (Some (mkContract true false [Transfer; Transfer; Transfer]))] ]
  (fun v => has v [0; 1]) (fun v => has v [2]).
Definition pass_deps (v : nat) : option nat := if v =? 1 then Some 0 else None.
Definition pass_info : info := analyse pass pass_deps 2.
Definition pass_live : live := match compute_liveness 20 pass pass_info with Some l => l | None => mkLive (fun _ => []) (fun _ => []) end.
Definition pass_borrows : borrows := mkBorrows [0] [1] [].

Lemma has_yes v s : has v s = true -> In v s.
Proof. apply RcLiveProofs.has_In. Qed.
Lemma has_no v s : has v s = false -> ~ In v s.
Proof. apply RcLiveProofs.has_false. Qed.
Ltac values := repeat match goal with
  | H : False |- _ => destruct H
  | H : _ \/ _ |- _ => destruct H as [H|H]
  | H : In _ _ |- _ => progress (vm_compute in H)
  | H : _ = ?x |- _ => is_var x; subst x
  | H : ?x = _ |- _ => is_var x; subst x
  end.
Lemma ordered_by_split f : NoDup (flat_map o_results (f_ops f)) ->
  (forall k o x rest, nth_error (f_ops f) k = Some o -> o_kind o = KCast -> o_args o = x :: rest -> has x (flat_map o_results (skipn k (f_ops f))) = false) -> casts_in_order f.
Proof.
  intros N H. split; [exact N|]. intros pre o post x rest E K A. rewrite <- RcLiveProofs.has_false.
  specialize (H (List.length pre) o x rest). rewrite E in H. rewrite nth_error_app2, Nat.sub_diag in H by lia. specialize (H eq_refl K A).
  rewrite skipn_app, skipn_all, Nat.sub_diag in H. exact H.
Qed.
Example ring_meets : one_definition ring /\ casts_in_order ring /\ f_blocks ring <> [] /\
  compute_liveness 20 ring ring_info = Some ring_live /\ insertable ring ring_info nothing ring_live.
Proof.
  split; [repeat constructor; cbn; intuition lia|].
  split. { apply ordered_by_split; [repeat constructor; cbn; intuition lia|]. intros k o x rest E K A.
    do 10 (destruct k as [|k]; [injection E as <-; try discriminate; injection A as <- <-; reflexivity|]). destruct k; discriminate. }
  split; [discriminate|]. split; [reflexivity|]. constructor.
  - intros b L. cbn in L. destruct b as [|[|[|[|b]]]]; [| | | |lia].
    1: exists [op0 KCall [0] [1] []; op0 KLoad [1] [2] []; op0 KCast [2] [6] []; op0 KStore [2; 1] [] []; op0 KLoad [6] [7] []], (op0 KJump [1] [] [1]).
    2: exists [op0 KLoad [3] [4] []], (op0 KBrif [5] [] [2; 3]).
    3: exists [], (op0 KJump [3] [] [1]).
    4: exists [], (op0 KReturn [3] [] []).
    all: split; [reflexivity|]; split;
      [ repeat constructor; try discriminate; intros; cbn in *; try discriminate; try lia; values; discriminate |].
    all: constructor; [reflexivity|].
    + cbn [o_kind op0 o_contract o_succs o_args]. split; [reflexivity|]. split; [|split; [|split; [reflexivity|]]].
      * split; [repeat constructor; cbn; intuition lia|]. intros x [<-|[]]. split; [reflexivity|]. intros v H. values. repeat split; [apply has_yes; vm_compute; reflexivity | intros [] | intros []].
      * intros v H. values. apply has_no; vm_compute; reflexivity.
      * intros s [<-|[]]. reflexivity.
    + cbn [o_kind op0 o_contract o_succs o_args]. split; [reflexivity|]. split; [reflexivity|]. intros s [<-|[<-|[]]]; reflexivity.
    + cbn [o_kind op0 o_contract o_succs o_args]. split; [reflexivity|]. split; [|split; [|split; [reflexivity|]]].
      * split; [repeat constructor; cbn; intuition lia|]. intros x [<-|[]]. split; [reflexivity|]. intros v H. values. repeat split; [apply has_yes; vm_compute; reflexivity | intros [] | intros []].
      * intros v H. values. apply has_no; vm_compute; reflexivity.
      * intros s [<-|[]]. reflexivity.
    + cbn [o_kind op0 o_contract o_succs o_args]. split; [reflexivity|]. split; [reflexivity|].
      split; [repeat constructor; cbn; intuition lia|]. intros x [<-|[]]. split; [reflexivity|]. intros v H. values. repeat split; [apply has_yes; vm_compute; reflexivity | intros [] | intros []].
  - intros b s L H. cbn in L. do 4 (destruct b as [|b]; [values; cbn; lia|]). lia.
  - intros v H. values.
  - intros b v o L I D H. cbn in L. do 4 (destruct b as [|b]; [revert D H; cbn in I; values; intros D H; values; discriminate|]). lia.
  - intros b s v L I _ H. cbn in L. do 4 (destruct b as [|b]; [values; apply has_yes; vm_compute; reflexivity|]). lia.
  - intros v H. values; reflexivity.
  - intros x u H. discriminate.
  - intros v [].
  - intros v [].
Qed.
Example ring_code : map (fun o => (o_kind o, o_args o)) (insert_block ring ring_info nothing ring_live (fun l => l) 0) =
  [(KRetain, [0]); (KCall, [0]); (KRelease, [0]); (KLoad, [1]); (KRetain, [2]); (KCast, [2]); (KRetain, [2]); (KStore, [2; 1]); (KLoad, [6]); (KRelease, [2]); (KJump, [1])].
Proof. reflexivity. Qed.

Example pass_meets : one_definition pass /\ casts_in_order pass /\ f_blocks pass <> [] /\
  compute_liveness 20 pass pass_info = Some pass_live /\ insertable pass pass_info pass_borrows pass_live.
Proof.
  split; [repeat constructor; cbn; intuition lia|].
  split. { apply ordered_by_split; [repeat constructor; cbn; intuition lia|]. intros k o x rest E K A.
    do 3 (destruct k as [|k]; [injection E as <-; try discriminate|]). destruct k; discriminate. }
  split; [discriminate|]. split; [reflexivity|]. constructor.
  - intros b L. cbn in L. destruct b as [|b]; [|lia].
    exists [op0 KLoad [0] [1] []; op0 KIcmp [1; 1] [2] []], (mkNop KReturnCall [1; 0; 1] [] [] (Some (mkContract true false [Transfer; Transfer; Transfer]))).
    split; [reflexivity|]. split.
    { repeat constructor; try discriminate; intros; cbn in *; try discriminate; try lia; values; discriminate. }
    constructor; [reflexivity|]. cbn [o_kind op0 o_contract o_succs o_args]. split; [reflexivity|]. split; [reflexivity|]. split; [|split].
    + intros p H. values; discriminate.
    + intros x H. values; discriminate.
    + intros x H _. values; cbn; auto.
  - intros b s L H. cbn in L. destruct b as [|b]; [values | lia].
  - intros v H. values.
  - intros b v o L I D H. cbn in L. destruct b as [|b]; [revert D H; cbn in I; values; intros D H; values | lia].
  - intros b s v L I _ H. cbn in L. destruct b as [|b]; [values | lia].
  - intros v H. values; reflexivity.
  - intros x u H. replace (i_deps pass_info x) with (pass_deps x) in H by reflexivity. unfold pass_deps in H. destruct (x =? 1); [|discriminate].
    injection H as <-. apply has_yes; vm_compute; reflexivity.
  - intros v [<-|[]]. apply has_yes; vm_compute; reflexivity.
  - intros v [<-|[]]. split; [apply has_yes; vm_compute; reflexivity|]. split; [|split].
    + intros [|b] H; [values; discriminate|]. destruct b; destruct H.
    + exists 0. split; [left; reflexivity|]. split; [apply has_yes; vm_compute; reflexivity|]. intros [H|[]]. discriminate.
    + intros x H. unfold named in H. apply in_app_iff in H as [H|H]; [|destruct H]. destruct (has x (i_ptrs pass_info)); [|destruct H]. destruct H as [->|[]]. reflexivity.
Qed.
Example pass_code : map (fun o => (o_kind o, o_args o)) (insert_block pass pass_info pass_borrows pass_live (fun l => l) 0) =
  [(KLoad, [0]); (KIcmp, [1; 1]); (KRetain, [1]); (KRetain, [1]); (KRetain, [0]); (KReturnCall, [1; 0; 1])].
Proof. reflexivity. Qed.

(** ** Where the claim is false *)
Definition goes_wrong (f : nfunc) : Prop := one_definition f /\ casts_in_order f /\ f_blocks f <> [] /\
  exists lv n, compute_liveness 20 f (analyse f no_deps 1) = Some lv /\
    ~ balanced f (analyse f no_deps 1) (callers f nothing) (insert_block f (analyse f no_deps 1) nothing lv (fun l => l)) n 0 (at_entry f nothing).
Definition live_of (f : nfunc) : live := match compute_liveness 20 f (analyse f no_deps 1) with Some l => l | None => mkLive (fun _ => []) (fun _ => []) end.
Lemma no_casts f : one_definition f -> forallb (fun o => match o_kind o with KCast => false | _ => true end) (f_ops f) = true -> casts_in_order f.
Proof.
  intros N H. split; [exact (RcLiveProofs.NoDup_app_r _ _ N)|]. intros pre o post x rest E K A. rewrite E, forallb_app in H. apply andb_prop in H as [_ H].
  cbn in H. rewrite K in H. discriminate.
Qed.

(** One path through the blocks, observed at value [v]. *)
Fixpoint path_fine (f : nfunc) (i : info) (always : list nat) (code : nat -> list nop) (v : nat) (path : list nat) (st : counts) : bool :=
  match path with
  | [] => true
  | b :: rest =>
      match run f i always (code b) st with
      | None => false
      | Some st' =>
          match nth_error (rev (code b)) 0 with
          | None => true
          | Some o => (if leaves o then hold st' v =? 0 else true) &&
                      match rest with
                      | [] => true
                      | s :: _ => if has s (o_succs o) then path_fine f i always code v rest (enter f i o st') else true
                      end
          end
      end
  end.
Lemma balanced_path f i always code v path : forall b st, balanced f i always code (List.length (b :: path)) b st ->
  path_fine f i always code v (b :: path) st = true.
Proof.
  induction path as [|s path IH]; intros b st (st' & R & H); cbn [path_fine]; rewrite R; destruct (nth_error (rev (code b)) 0) as [o|] eqn:E; auto;
    destruct (H o eq_refl) as [H1 H2]; (apply andb_true_intro; split; [destruct (leaves o); [apply Nat.eqb_eq, H1; reflexivity | reflexivity]|]); auto.
  destruct (has s (o_succs o)) eqn:S; [|reflexivity]. apply IH, H2, has_yes, S.
Qed.

(** A reference needed on one branch only is never released on the other: [x = call; if c then call x; return]. *)
Definition one_branch : nfunc := mkNfunc
  [ mkNblock [] [op0 KCall [] [1] []; op0 KBrif [5] [] [1; 2]];
    mkNblock [] [op0 KCall [1] [] []; op0 KReturn [] [] []];
    mkNblock [] [op0 KReturn [] [] []] ]
  (fun v => has v [1]) (fun v => has v [5]).
Theorem released_on_every_path_refuted : exists f, goes_wrong f /\
  (* the reference 1 is created and never released *)
  forall lv, compute_liveness 20 f (analyse f no_deps 1) = Some lv ->
  map (fun o => (o_kind o, o_args o, o_results o)) (flat_map (insert_block f (analyse f no_deps 1) nothing lv (fun l => l)) [0; 2]) =
  [(KCall, [], [1]); (KBrif, [5], []); (KReturn, [], [])].
Proof.
  exists one_branch. split.
  - assert (O : one_definition one_branch) by (repeat constructor; cbn; intuition lia).
    split; [exact O|]. split; [apply no_casts; [exact O | reflexivity]|]. split; [discriminate|].
    exists (live_of one_branch), 2. split; [reflexivity|]. intros B.
    apply (balanced_path _ _ _ _ 1 [2]) in B. vm_compute in B. discriminate.
  - intros lv E. assert (lv = live_of one_branch) as -> by (unfold live_of; rewrite E; reflexivity). clear E. reflexivity.
Qed.
Print Assumptions released_on_every_path_refuted.

(** A reference passed to a block while it is still needed there shares one count between two names:
    [a = call; x = if c then a else call; call x; call a] uses [a] after it was freed. *)
Definition passed_and_needed : nfunc := mkNfunc
  [ mkNblock [] [op0 KCall [] [1] []; op0 KBrif [5] [] [1; 2]];
    mkNblock [] [op0 KJump [1] [] [3]];
    mkNblock [] [op0 KCall [] [2] []; op0 KJump [2] [] [3]];
    mkNblock [3] [op0 KCall [3] [] []; op0 KCall [1] [] []; op0 KReturn [] [] []] ]
  (fun v => has v [1; 2; 3]) (fun v => has v [5]).
Theorem no_use_after_release_refuted : exists f, goes_wrong f /\
  forall lv, compute_liveness 20 f (analyse f no_deps 1) = Some lv ->
  (* no retain on the path, and the count that 3 received from 1 is released before 1 is used *)
  map (fun o => (o_kind o, o_args o)) (flat_map (insert_block f (analyse f no_deps 1) nothing lv (fun l => l)) [0; 1; 3]) =
  [(KCall, []); (KBrif, [5]); (KJump, [1]); (KCall, [3]); (KRelease, [3]); (KCall, [1]); (KRelease, [1]); (KReturn, [])].
Proof.
  exists passed_and_needed. split.
  - assert (O : one_definition passed_and_needed) by (repeat constructor; cbn; intuition lia).
    split; [exact O|]. split; [apply no_casts; [exact O | reflexivity]|]. split; [discriminate|].
    exists (live_of passed_and_needed), 3. split; [reflexivity|]. intros B.
    apply (balanced_path _ _ _ _ 0 [1; 3]) in B. vm_compute in B. discriminate.
  - intros lv E. assert (lv = live_of passed_and_needed) as -> by (unfold live_of; rewrite E; reflexivity). clear E. reflexivity.
Qed.
Print Assumptions no_use_after_release_refuted.

(** A tail call without a contract gets its argument after its release: [x = call; return_call x]. *)
Definition tail_released : nfunc := mkNfunc
  [ mkNblock [] [op0 KCall [] [1] []; op0 KReturnCall [1] [] []] ] (fun v => has v [1]) (fun _ => false).
Theorem tail_call_arguments_alive_refuted : exists f, goes_wrong f /\
  forall lv, compute_liveness 20 f (analyse f no_deps 1) = Some lv ->
  map (fun o => (o_kind o, o_args o)) (insert_block f (analyse f no_deps 1) nothing lv (fun l => l) 0) =
  [(KCall, []); (KRelease, [1]); (KReturnCall, [1])].
Proof.
  exists tail_released. split.
  - assert (O : one_definition tail_released) by (repeat constructor; cbn; intuition lia).
    split; [exact O|]. split; [apply no_casts; [exact O | reflexivity]|]. split; [discriminate|].
    exists (live_of tail_released), 1. split; [reflexivity|]. intros B.
    apply (balanced_path _ _ _ _ 0 []) in B. vm_compute in B. discriminate.
  - intros lv E. assert (lv = live_of tail_released) as -> by (unfold live_of; rewrite E; reflexivity). clear E. reflexivity.
Qed.
Print Assumptions tail_call_arguments_alive_refuted.
