(** C79: lists on the native target. *)
From Verif Require Import ListLowSpec ListLowProofs ListLowMain ListLowIter.
Open Scope nat_scope.

(** A module in which every value is defined once and no list is looked into
    before it is made, in the order of the text, is lowered, and the native
    program does what the source does: it returns the value that stands for the
    one returned, it stops where the head or the tail of an empty list is taken,
    and it goes on for ever if the source does.  Partial: nested regions are those
    of [scf.if] only, and the order is a condition (see the refutation). *)
Theorem native_lists_behave_like_lists_partial : forall prim n m, well_formed n m ->
  exists m', lower n m = Some m' /\
    forall f vs vs', Forall2 stands vs vs' ->
      (forall v, returns (list_eval prim) m f vs v -> exists v', returns (native_eval prim) m' f vs' v' /\ stands v v') /\
      (stops (list_eval prim) m f vs -> stops (native_eval prim) m' f vs') /\
      (goes_on (list_eval prim) m f vs -> goes_on (native_eval prim) m' f vs').
Proof. exact lower_works. Qed.
Print Assumptions native_lists_behave_like_lists_partial.

(** Whatever the pass is given, a module it returns has no operation on lists. *)
Theorem no_list_operation_is_left : forall n m m', lower n m = Some m' ->
  forall g b o, In g m' -> In b g -> In o (b_ops b) -> list_free o = true.
Proof. exact lower_none_left. Qed.
Print Assumptions no_list_operation_is_left.

(** ** A sum of a list, with [head] and [tail] in the branch of an [scf.if] and a
    call of itself, and a function that takes the head of the tail *)
Definition add (f : nat) (zs : list Z) : Z := fold_right Z.add (Z.of_nat f) zs.
Definition sum : func :=
  [Block 0 [1]
     [OIsEmpty 2 1 7;
      OIf 3 2
        [Block 4 [] [ONum 5 0 []] (TYield 5)]
        [Block 6 [] [OHead 7 1 7; OTail 8 1 7; OCall 9 0 [8]; ONum 10 0 [7; 9]] (TYield 10)]]
     (TReturn 3)].
Definition second : func := [Block 11 [12] [OTail 13 12 7; OHead 14 13 7] (TReturn 14)].
Definition made : func :=
  [Block 15 [] [OEmpty 16 7; ONum 17 4 []; OPrepend 18 17 16 7; ONum 19 5 []; OPrepend 20 19 18 7; OCall 21 0 [20]; OCall 22 1 [20]; ONum 23 0 [21; 22]] (TReturn 23)].
Definition sums : module := [sum; second; made].

Example sums_well_formed : well_formed 24 sums.
Proof.
  split; [|split].
  - apply Forall_forall. vm_compute. repeat constructor.
  - vm_compute. repeat (apply NoDup_cons; [cbn [In]; lia|]). apply NoDup_nil.
  - cbn. repeat split; intuition discriminate.
Qed.
Example sums_run : returns (list_eval add) sums 2 [] (Num 13).
Proof. exists 100. vm_compute. reflexivity. Qed.
Example sums_stop : stops (list_eval add) sums 1 [Seq 7 [Num 3]].
Proof. exists 100. vm_compute. reflexivity. Qed.
Definition sums' : module := match lower 24 sums with Some m => m | None => [] end.
Example sums_run_native : lower 24 sums = Some sums' /\ returns (native_eval add) sums' 2 [] (Num 13) /\ stops (native_eval add) sums' 1 [Cell 7 (Num 3) Null].
Proof.
  split; [vm_compute; reflexivity|]. split; exists 200; vm_compute; reflexivity.
Qed.

(** ** Blocks that are not in the order of the text
    The operand of an observation is noted before any is lowered.  If it is the
    result of one that stands later in the text, which is the case when a block is
    written before the one that dominates it, that result is gone when the earlier
    one is lowered. *)
Definition jumbled : module :=
  [[Block 0 [1] [] (TBr 2 []);
    Block 3 [] [OHead 4 5 7] (TReturn 4);
    Block 2 [] [OTail 5 1 7] (TBr 3 [])]].
Definition jumbled' : module := match lower 6 jumbled with Some m => m | None => [] end.
Definition two : value := Seq 7 [Num 1; Num 2].
Definition two' : value := Cell 7 (Num 1) (Cell 7 (Num 2) Null).

Lemma after_stays ev m k : forall n s, n <= k -> (forall s1, after ev m n s <> Next s1) -> after ev m k s = after ev m n s.
Proof.
  induction k as [|k IH]; intros n s L H.
  - replace n with 0 by lia. reflexivity.
  - destruct n as [|n]; [destruct (H s eq_refl)|]. cbn [after] in *. destruct (step ev m s); auto. apply IH; [lia|exact H].
Qed.
Lemma wrong_never ev m f vs n : run ev m f vs n = Wrong -> forall v, ~ returns ev m f vs v.
Proof.
  unfold returns, run. intros W v [j R]. destruct (start m f vs) as [s| | |]; try congruence.
  destruct (Nat.le_ge_cases n j) as [L|L].
  - rewrite (after_stays ev m j n s L) in R by congruence. congruence.
  - rewrite (after_stays ev m n j s L) in W by congruence. congruence.
Qed.

Lemma jumbled_breaks : forall prim, exists n m m' f vs vs' v,
  (forall x, In x (module_names m) -> x < n) /\ NoDup (module_defs m) /\
  returns (list_eval prim) m f vs v /\ Forall2 stands vs vs' /\
  lower n m = Some m' /\ forall v', ~ returns (native_eval prim) m' f vs' v'.
Proof.
  intros prim. exists 6, jumbled, jumbled', 0, [two], [two'], (Num 2).
  split; [apply Forall_forall; vm_compute; repeat constructor|].
  split; [vm_compute; repeat (apply NoDup_cons; [cbn [In]; lia|]); apply NoDup_nil|].
  split; [exists 20; vm_compute; reflexivity|].
  split; [repeat constructor|].
  split; [vm_compute; reflexivity|]. apply (wrong_never _ _ _ _ 20). vm_compute. reflexivity.
Qed.

(** There is a module with every value defined once that returns, whose lowering is
    accepted and does not return. *)
Theorem native_lists_behave_like_lists_refuted : forall prim, exists n m m' f vs vs' v,
  (forall x, In x (module_names m) -> x < n) /\ NoDup (module_defs m) /\
  returns (list_eval prim) m f vs v /\ Forall2 stands vs vs' /\
  lower n m = Some m' /\ forall v', ~ returns (native_eval prim) m' f vs' v'.
Proof. exact jumbled_breaks. Qed.
Print Assumptions native_lists_behave_like_lists_refuted.
