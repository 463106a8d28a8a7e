(** Property C84: signature help shows the call around the cursor and the parameter the
    cursor is at. *)
From Verif Require Import SigHelpSpec SigHelpProofs.

(** With a syntax tree that names the callee and the arguments of a call, signature help
    is about the innermost call around the cursor, and the parameter is the number of
    commas of its argument list before the cursor. *)
Theorem signature_help_finds_the_call_partial : forall root o n f args, formed root -> node_kind root <> CallExpression -> innermost_call root o n ->
  the_child n Function f -> the_child n Arguments args -> visible (children args) ->
  find_enclosing_call root o = Some (start_byte f, end_byte f, commas_until o (children args)).
Proof. exact shows_call. Qed.
Print Assumptions signature_help_finds_the_call_partial.

(** In or at the end of an argument it is the parameter of that argument. *)
Theorem signature_help_finds_the_parameter_partial : forall root o n f args pre g x post, formed root -> node_kind root <> CallExpression -> innermost_call root o n ->
  the_child n Function f -> the_child n Arguments args -> visible (children args) ->
  children args = pre ++ (g, x) :: post -> node_kind x <> Comma -> start_byte x <= o <= end_byte x ->
  find_enclosing_call root o = Some (start_byte f, end_byte f, commas pre).
Proof. exact shows_argument. Qed.
Print Assumptions signature_help_finds_the_parameter_partial.

(** Outside of calls there is none. *)
Theorem no_signature_help_outside_calls : forall root o, formed root -> node_kind root <> CallExpression -> (forall n, ~ innermost_call root o n) -> find_enclosing_call root o = None.
Proof. exact shows_nothing. Qed.
Print Assumptions no_signature_help_outside_calls.

(** The grammar does not name the arguments of a call (tribute-front's
    astgen/expressions.rs:220-224 says so and looks for them by kind).  Then signature
    help is never shown. *)
Theorem signature_help_never_shown : forall root, (forall n c, ~ (below root n /\ In (Some Arguments, c) (children n))) -> node_kind root <> CallExpression -> forall o, find_enclosing_call root o = None.
Proof. exact never_shown. Qed.
Print Assumptions signature_help_never_shown.

(** [fn main() { add(10, x.max(2)) }] cut down to the body: the call from 12 to 30. *)
Definition leaf (k : kind) (s e : nat) : option field * node := (None, Node k s e []).
Definition inner (fa : option field) : node :=
  Node MethodCall 20 28 [(Some (OtherField 0), Node (OtherKind 0) 20 21 []); leaf (OtherKind 1) 21 22; (Some (OtherField 1), Node (OtherKind 0) 22 25 []);
    (fa, Node ArgumentList 25 28 [leaf (OtherKind 2) 25 26; leaf (OtherKind 4) 26 27; leaf (OtherKind 3) 27 28])].
Definition arguments (fa : option field) : node :=
  Node ArgumentList 15 29 [leaf (OtherKind 2) 15 16; leaf (OtherKind 4) 16 18; leaf Comma 18 19; (None, inner fa); leaf (OtherKind 3) 28 29].
Definition callee : node := Node (OtherKind 0) 12 15 [].
Definition call (fa : option field) : node := Node CallExpression 12 29 [(Some Function, callee); (fa, arguments fa)].
Definition file (fa : option field) : node := Node (OtherKind 9) 0 31 [leaf (OtherKind 5) 0 11; (None, call fa); leaf (OtherKind 6) 30 31].

Lemma file_formed fa : formed (file fa).
Proof.
  assert (L : forall k s e, s <= e -> formed (Node k s e [])) by (intros k s e H; constructor; [exact H|intros f c []]).
  assert (A : formed (inner fa)).
  { constructor; [cbn; lia|]. intros f c I. cbn in I. repeat (destruct I as [I|I]; [injection I as <- <-; try (apply L; lia)|]); try contradiction.
    constructor; [cbn; lia|]. intros f c I. cbn in I. repeat (destruct I as [I|I]; [injection I as <- <-; apply L; lia|]); contradiction. }
  assert (B : formed (arguments fa)).
  { constructor; [cbn; lia|]. intros f c I. cbn in I. repeat (destruct I as [I|I]; [injection I as <- <-; try (apply L; lia); try exact A|]); contradiction. }
  assert (C : formed (call fa)).
  { constructor; [cbn; lia|]. intros f c I. cbn in I. repeat (destruct I as [I|I]; [injection I as <- <-; try (apply L; lia); try exact B|]); contradiction. }
  constructor; [cbn; lia|]. intros f c I. cbn in I. repeat (destruct I as [I|I]; [injection I as <- <-; try (apply L; lia); try exact C|]); contradiction.
Qed.
(** There are no calls below the one call. *)
Ltac children_of I := cbn in I; repeat (destruct I as [I|I]; [injection I as ? ?; subst|]); try contradiction.
Lemma call_only fa d : below (call fa) d -> node_kind d <> CallExpression.
Proof.
  assert (E : forall k s e x, ~ below (Node k s e []) x) by (intros k s e x B; inversion B as [? ? ? I|? ? ? ? I _]; subst; destruct I).
  assert (A : forall x, below (inner fa) x -> node_kind x <> CallExpression).
  { intros x B. inversion B as [? ? ? I|? ? ? ? I B']; subst; children_of I; try discriminate; try (apply E in B'; contradiction).
    inversion B' as [? ? ? I|? ? ? ? I B2]; subst; children_of I; try discriminate; apply E in B2; contradiction. }
  intros B. inversion B as [? ? ? I|? ? ? ? I B']; subst; children_of I; try discriminate; try (apply E in B'; contradiction).
  inversion B' as [? ? ? I|? ? ? ? I B2]; subst; children_of I; try discriminate; try (apply E in B2; contradiction). exact (A d B2).
Qed.
Lemma call_innermost fa o : 12 <= o < 29 -> innermost_call (file fa) o (call fa).
Proof.
  intros L. split; [eapply BChild; cbn; auto|]. split; [reflexivity|]. split; [exact L|]. intros d B K _. exact (call_only fa d B K).
Qed.
Example help_shown : List.map (find_enclosing_call (file (Some Arguments))) [11; 12; 16; 18; 19; 20; 28; 29] =
  [None; Some (12, 15, 0); Some (12, 15, 0); Some (12, 15, 0); Some (12, 15, 1); Some (12, 15, 1); Some (12, 15, 1); None].
Proof. reflexivity. Qed.
Example meets : formed (file (Some Arguments)) /\ innermost_call (file (Some Arguments)) 20 (call (Some Arguments)) /\
  the_child (call (Some Arguments)) Function callee /\ the_child (call (Some Arguments)) Arguments (arguments (Some Arguments)) /\ visible (children (arguments (Some Arguments))).
Proof.
  split; [apply file_formed|]. split; [apply call_innermost; lia|]. split; [|split].
  - split; [cbn; auto|]. intros c' I. cbn in I. destruct I as [I|[I|[]]]; congruence.
  - split; [cbn; auto|]. intros c' I. cbn in I. destruct I as [I|[I|[]]]; congruence.
  - intros f c I K. children_of I; try discriminate. cbn. lia.
Qed.

(** As the grammar has it, no help is shown anywhere in the call; and if the arguments
    were named, in the arguments of a method call the help would be about the call
    around it. *)
Lemma not_shown : (forall o, 12 <= o < 29 -> innermost_call (file None) o (call None) /\ find_enclosing_call (file None) o = None) /\
  covers 26 (inner (Some Arguments)) /\ node_kind (inner (Some Arguments)) = MethodCall /\ find_enclosing_call (file (Some Arguments)) 26 = Some (12, 15, 1).
Proof.
  split; [|split; [cbn; unfold covers; cbn; lia|split; reflexivity]].
  intros o L. split; [apply call_innermost, L|]. apply never_shown; [|discriminate].
  intros n c [B I]. assert (E : forall k s e x, ~ below (Node k s e []) x) by (intros k s e x Bx; inversion Bx as [? ? ? J|? ? ? ? J _]; subst; destruct J).
  inversion B as [? ? ? J|? ? ? ? J B1]; subst; children_of J; try (cbn in I; intuition discriminate); try (apply E in B1; contradiction).
  inversion B1 as [? ? ? J|? ? ? ? J B2]; subst; children_of J; try (cbn in I; intuition discriminate); try (apply E in B2; contradiction).
  inversion B2 as [? ? ? J|? ? ? ? J B3]; subst; children_of J; try (cbn in I; intuition discriminate); try (apply E in B3; contradiction).
  inversion B3 as [? ? ? J|? ? ? ? J B4]; subst; children_of J; try (cbn in I; intuition discriminate); try (apply E in B4; contradiction).
  inversion B4 as [? ? ? J|? ? ? ? J B5]; subst; children_of J; try (cbn in I; intuition discriminate); try (apply E in B5; contradiction).
Qed.
Theorem signature_help_finds_the_call_refuted : (forall o, 12 <= o < 29 -> innermost_call (file None) o (call None) /\ find_enclosing_call (file None) o = None) /\
  covers 26 (inner (Some Arguments)) /\ node_kind (inner (Some Arguments)) = MethodCall /\ find_enclosing_call (file (Some Arguments)) 26 = Some (12, 15, 1).
Proof. exact not_shown. Qed.
Print Assumptions signature_help_finds_the_call_refuted.
