(** Theorems about removal of retain/release pairs (property C38). *)
From Verif Require Import RcPairModel RcPairSpec RcPairProofs RcInsertModel.
From Coq Require Import Lia.
Import ListNotations.

(** The pass removes a retain and a release of one reference; other operations stay.  Every run of the code that succeeds
    (never touches a freed object) succeeds with the same effect afterwards, if someone else owns the object all the time
    between the two. *)
Theorem pair_removal_keeps_behaviour_partial : forall behave fuel os os', in_order os -> eliminate_one os = Some os' ->
  exists ptr retained pre mid post, pair ptr retained pre mid post os /\ others os' = others os /\
    forall e h e1 h1, execs behave fuel os e h = Some (e1, h1) ->
      (forall r e0 h0, p_kind r = PRetain -> p_args r = [ptr] -> p_results r = [retained] -> execs behave fuel (pre ++ [r]) e h = Some (e0, h0) ->
         owned_elsewhere behave fuel ptr mid e0 h0) ->
      exists e2, execs behave fuel os' e h = Some (e2, h1) /\ (forall x, x <> retained -> e2 x = e1 x).
Proof. exact eliminate_one_keeps. Qed.
Print Assumptions pair_removal_keeps_behaviour_partial.

(** In particular if nothing between the two takes counts. *)
Theorem quiet_pair_removal_keeps_behaviour_partial : forall behave fuel ptr retained pre mid post os e h e1 h1, in_order os ->
  pair ptr retained pre mid post os -> Forall (quiet behave) mid -> execs behave fuel os e h = Some (e1, h1) ->
  exists e2, execs behave fuel (pre ++ map (rename_op retained ptr) (mid ++ post)) e h = Some (e2, h1) /\ (forall x, x <> retained -> e2 x = e1 x).
Proof. exact quiet_keep. Qed.
Print Assumptions quiet_pair_removal_keeps_behaviour_partial.

(** The pass ends, in time linear in the block, when there is no pair left; it removes as many retains as releases and
    nothing else. *)
Theorem all_pairs_are_removed : forall os, in_order os ->
  exists os', eliminate_all (S (List.length os)) os = Some os' /\ in_order os' /\ (forall ptr retained pre mid post, ~ pair ptr retained pre mid post os') /\
    others os' = others os /\ retains os + RcPairSpec.releases os' = RcPairSpec.releases os + retains os'.
Proof. exact eliminate_all_end. Qed.
Print Assumptions all_pairs_are_removed.

(** ** Instances *)
Definition pl (p r : nat) := mkPop (PLoad 0) [p] [r] false [].
Definition pret (p r : nat) := mkPop PRetain [p] [r] false [].
Definition prel (p : nat) := mkPop PRelease [p] [] false [].
(** Operation 0 releases its operand, operation 1 allocates an object with its operand as field. *)
Definition sample_behave (id : nat) (vs : list val) : act :=
  match id with
  | 0 => Do (SRelease (hd (VInt 0) vs)) (fun _ => Done [])
  | _ => Do (SAlloc vs) (fun v => Done [v])
  end.
Definition sample_code : list pop :=
  [pret 0 1; mkPop (POther 1) [2] [3] false []; pl 1 4; mkPop (POther 0) [2] [] false []; mkPop (PStore 0) [3; 0] [] false []; prel 1].
Definition sample_env : env := fun x => match x with 0 => VPtr 0 | 2 => VPtr 1 | _ => VInt 0 end.
Definition sample_heap : heap := [Some (mkCell 2 [VInt 5%Z]); Some (mkCell 2 [VPtr 0])].
Example sample_result : eliminate_one sample_code =
  Some [mkPop (POther 1) [2] [3] false []; pl 0 4; mkPop (POther 0) [2] [] false []; mkPop (PStore 0) [3; 0] [] false []].
Proof. reflexivity. Qed.
Example sample_meets : in_order sample_code /\
  (exists e1 h1, execs sample_behave 9 sample_code sample_env sample_heap = Some (e1, h1) /\ h1 <> sample_heap) /\
  (forall r e0 h0, p_kind r = PRetain -> p_args r = [0] -> p_results r = [1] -> execs sample_behave 9 ([] ++ [r]) sample_env sample_heap = Some (e0, h0) ->
     owned_elsewhere sample_behave 9 0 (removelast (tl sample_code)) e0 h0).
Proof.
  split; [cbn; intuition (discriminate || lia || congruence)|]. split; [do 2 eexists; split; [reflexivity | discriminate]|].
  intros r e0 h0 K A R H. cbn in H. unfold exec in H. rewrite K, A, R in H. injection H as <- <-.
  intros m1 o m2 e1 h1 e2 h2 lost a E X Y V. injection V as <-.
  destruct m1 as [|o1 m1]; [injection E as <- <-; cbn in X; injection X as <- <-; cbn in Y; injection Y as <- <- <-; auto|].
  injection E as <- E.
  destruct m1 as [|o2 m1]; [injection E as <- <-; cbn in X; injection X as <- <-; cbn in Y; injection Y as <- <- <-; auto|].
  injection E as <- E.
  destruct m1 as [|o3 m1]; [injection E as <- <-; cbn in X; injection X as <- <-; cbn in Y; injection Y as <- <- <-; cbn; intuition lia|].
  injection E as <- E.
  destruct m1 as [|o4 m1]; [injection E as <- <-; cbn in X; injection X as <- <-; cbn in Y; injection Y as <- <- <-; auto|].
  injection E as <- E. destruct m1; discriminate.
Qed.
Example quiet_meets : in_order [pret 0 1; mkPop (POther 1) [2] [3] false []; pl 1 4; prel 0] /\
  pair 0 1 [] [mkPop (POther 1) [2] [3] false []; pl 1 4] [] [pret 0 1; mkPop (POther 1) [2] [3] false []; pl 1 4; prel 0] /\
  Forall (quiet sample_behave) [mkPop (POther 1) [2] [3] false []; pl 1 4] /\
  execs sample_behave 9 [pret 0 1; mkPop (POther 1) [2] [3] false []; pl 1 4; prel 0] sample_env sample_heap <> None.
Proof.
  split; [cbn; intuition (discriminate || lia || congruence)|]. split.
  - eapply is_pair with (p := pret 0 1) (r := prel 0) (x := 0); try reflexivity; auto. constructor; [|constructor; [|constructor]].
    + split; [reflexivity|]. intros [|[|k]] x E; try discriminate. cbn in E. injection E as <-. lia.
    + split; [reflexivity|]. intros [|[|k]] x E; try discriminate. left. exists 0. auto.
  - split; [|discriminate]. constructor; [|constructor; [|constructor]]; cbn; auto. intros vs. constructor; [discriminate|]. intros x. constructor.
Qed.

(** ** Where the claim is false *)
(** The code that insertion makes of a loop over linked objects: block 1 is given [1], loads [2] from it and then [3]
    from [2]. *)
Definition walker : nfunc := mkNfunc
  [mkNblock [0] [mkNop KJump [0] [] [1] None];
   mkNblock [1] [mkNop KLoad [1] [2] [] None; mkNop KLoad [2] [3] [] None; mkNop KReturn [3] [] [] None]] (fun v => v <=? 2) (fun v => v =? 3).
Definition walker_info := analyse walker (fun _ => None) 1.
(** Its operations as this pass sees them; retains get a result of their own. *)
Definition seen (o : nop) : list pop :=
  match o_kind o with
  | KLoad => [mkPop (PLoad 0) (o_args o) (o_results o) false []]
  | KRetain => [mkPop PRetain (o_args o) [100] false []]
  | KRelease => [mkPop PRelease (o_args o) [] false []]
  | _ => []
  end.
Definition walker_live := match compute_liveness 9 walker walker_info with Some l => l | None => mkLive (fun _ => []) (fun _ => []) end.
Definition walker_code : list pop := flat_map seen (insert_block walker walker_info (mkBorrows [] [] []) walker_live (fun l => l) 1).
Example walker_inserted : walker_code = [pl 1 2; pret 2 100; prel 1; pl 2 3; prel 2].
Proof. reflexivity. Qed.

Lemma walker_fails : exists behave fuel os os' e h, in_order os /\ os = walker_code /\ eliminate_one os = Some os' /\
  execs behave fuel os e h <> None /\ execs behave fuel os' e h = None /\ (forall more, execs behave (fuel + more) os' e h = None).
Proof.
  exists (fun _ _ => Done []), 9, walker_code. rewrite walker_inserted.
  exists [pl 1 2; prel 1; pl 2 3], (fun x => match x with 1 => VPtr 0 | _ => VInt 0 end), [Some (mkCell 1 [VPtr 1]); Some (mkCell 1 [VInt 7%Z])].
  split; [cbn; intuition (discriminate || lia || congruence)|]. split; [reflexivity|]. split; [reflexivity|]. split; [discriminate|]. split; [reflexivity|].
  intros more. reflexivity.
Qed.
(** Removing the pair makes the code touch an object that was freed: the release of [1] takes the only other count of
    [2]. *)
Theorem pair_removal_frees_too_early_refuted : exists behave fuel os os' e h, in_order os /\ os = walker_code /\ eliminate_one os = Some os' /\
  execs behave fuel os e h <> None /\ execs behave fuel os' e h = None /\ (forall more, execs behave (fuel + more) os' e h = None).
Proof. exact walker_fails. Qed.
Print Assumptions pair_removal_frees_too_early_refuted.
