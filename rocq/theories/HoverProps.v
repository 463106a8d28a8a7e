(** Property C81: hovering shows the type of the expression under the cursor. *)
From Verif Require Import HoverSpec HoverProofs.

(** Over a variable, a literal, a record or a constructor without arguments the type
    of that expression is shown, with its range.  (Other expressions: below.) *)
Theorem hover_shows_the_type_partial : forall spans truth bodies offset x y,
  well_placed (span spans) bodies -> In x bodies -> all_typed truth x -> innermost (span spans) offset x y -> plain y ->
  shown (build spans bodies) offset = Some (truth (node_id y), span spans (node_id y)).
Proof. exact hover_plain. Qed.
Print Assumptions hover_shows_the_type_partial.

(** In general the innermost node that has an entry is the one that is shown; nothing
    is shown if there is none. *)
Theorem hover_shows_the_nearest_entry : forall spans bodies offset x y t,
  well_placed (span spans) bodies -> In x bodies -> under (span spans) offset x y -> entered (node_kind y) = Some t ->
  (forall z, under (span spans) offset y z -> z = y \/ entered (node_kind z) = None) ->
  type_at (build spans bodies) offset = Some (add_entry spans (node_id y) t).
Proof. exact nearest. Qed.
Print Assumptions hover_shows_the_nearest_entry.
Theorem hover_shows_nothing_without_an_entry : forall spans bodies offset,
  well_placed (span spans) bodies -> (forall x y, In x bodies -> under (span spans) offset x y -> entered (node_kind y) = None) ->
  type_at (build spans bodies) offset = None.
Proof. exact none_under. Qed.
Print Assumptions hover_shows_nothing_without_an_entry.

(** ** [Some(1 + 2)] *)
Definition option_of (t : ty) : ty := TNamed 0 [t].
Definition sum : node := Node 1 KBinOp [Node 2 KNatLit []; Node 3 KNatLit []].
Definition some : node := Node 0 (KCons (TFn [TNat] (option_of TNat))) [sum].
(** Columns: [Some] 0-4, the sum 5-10, its literals 5-6 and 9-10, the whole 0-11. *)
Definition columns (i : nat) : option (nat * nat) := match i with 0 => Some (0, 11) | 1 => Some (5, 10) | 2 => Some (5, 6) | 3 => Some (9, 10) | _ => None end.
Definition checked (i : nat) : ty := match i with 0 => option_of TNat | _ => TNat end.

Lemma literal_nested i : i = 2 \/ i = 3 -> well_nested (span columns) (Node i KNatLit []).
Proof. intros _. constructor; [intros c []|]. intros off [|i'] j a b E; discriminate. Qed.
Lemma some_placed : well_placed (span columns) [some].
Proof.
  split.
  - intros x [<-|[]]. constructor.
    + intros c [<-|[]]. split; [unfold within; cbn; repeat split; lia|]. constructor.
      * intros c [<-|[<-|[]]]; (split; [unfold within; cbn; repeat split; try lia; congruence|apply literal_nested; auto]).
      * intros off i j a b. unfold covers. destruct i as [|[|[|i]]]; cbn; try discriminate; intros E; injection E as <-; destruct j as [|[|[|j]]]; cbn; try discriminate; intros E'; injection E' as <-; cbn; lia.
    + intros off [|[|i]] [|[|j]] a b; cbn; try discriminate; auto.
  - intros off [|[|i]] [|[|j]] a b; cbn; try discriminate; auto.
Qed.
Lemma some_typed : all_typed checked some.
Proof. constructor; [reflexivity|]. intros c [<-|[]]. constructor; [exact I|]. intros c [<-|[<-|[]]]; (constructor; [reflexivity|intros c []]). Qed.

(** Over the operator the type and the range of the constructor around it are shown;
    and over the constructor its type as a function, with the range of the whole
    expression, which is no function. *)
Lemma other_types : well_placed (span columns) [some] /\ all_typed checked some /\
  (exists offset, innermost (span columns) offset some sum /\ shown (build columns [some]) offset = Some (TFn [TNat] (option_of TNat), (0, 11)) /\ checked (node_id sum) = TNat) /\
  (exists offset, innermost (span columns) offset some some /\ shown (build columns [some]) offset = Some (TFn [TNat] (option_of TNat), (0, 11)) /\ checked (node_id some) = option_of TNat).
Proof.
  split; [exact some_placed|]. split; [exact some_typed|]. split.
  - exists 7. split; [|vm_compute; auto]. split.
    + apply UBelow with sum; [unfold covers; cbn; lia|cbn; auto|]. apply UHere. unfold covers. cbn. lia.
    + intros c [<-|[<-|[]]]; unfold covers; cbn; lia.
  - exists 2. split; [|vm_compute; auto]. split.
    + apply UHere. unfold covers. cbn. lia.
    + intros c [<-|[]]; unfold covers; cbn; lia.
Qed.
Theorem hover_shows_the_type_refuted : well_placed (span columns) [some] /\ all_typed checked some /\
  (exists offset, innermost (span columns) offset some sum /\ shown (build columns [some]) offset = Some (TFn [TNat] (option_of TNat), (0, 11)) /\ checked (node_id sum) = TNat) /\
  (exists offset, innermost (span columns) offset some some /\ shown (build columns [some]) offset = Some (TFn [TNat] (option_of TNat), (0, 11)) /\ checked (node_id some) = option_of TNat).
Proof. exact other_types. Qed.
Print Assumptions hover_shows_the_type_refuted.

(** The hypotheses of the first theorem can be met: over the second literal. *)
Example over_a_literal : innermost (span columns) 9 some (Node 3 KNatLit []) /\ plain (Node 3 KNatLit []) /\ shown (build columns [some]) 9 = Some (TNat, (9, 10)).
Proof.
  split; [|vm_compute; auto]. split; [|intros c []]. apply UBelow with sum; [unfold covers; cbn; lia|cbn; auto|].
  apply UBelow with (Node 3 KNatLit []); [unfold covers; cbn; lia|cbn; auto|]. apply UHere. unfold covers. cbn. lia.
Qed.
Example outside : shown (build columns [some]) 11 = None.
Proof. reflexivity. Qed.
Example literals_shown : List.map (fun k => shown (build columns [Node 0 k []]) 3) [KVar TBool; KNatLit; KIntLit; KFloatLit; KStringLit; KBytesLit; KBoolLit; KNil; KRuneLit; KCons TNil; KRecord TNat; KRecordPattern None; KLambda] =
  List.map (fun t => Some (t, (0, 11))) [TBool; TNat; TInt; TFloat; TString; TBytes; TBool; TNil; TRune; TNil; TNat] ++ [None; None].
Proof. reflexivity. Qed.
