(** What signature help should show. *)
From Verif Require Export SigHelpModel.

(** Parts of a node, and the node with its parts. *)
Inductive below : node -> node -> Prop :=
| BChild n f c : In (f, c) (children n) -> below n c
| BDeep n f c d : In (f, c) (children n) -> below c d -> below n d.
Definition covers (o : nat) (n : node) : Prop := start_byte n <= o < end_byte n.

(** Children lie in their node, one after the other. *)
Fixpoint in_order (from to : nat) (cs : list (option field * node)) : Prop :=
  match cs with [] => from <= to | (_, c) :: cs' => from <= start_byte c /\ start_byte c <= end_byte c /\ in_order (end_byte c) to cs' end.
Inductive formed : node -> Prop :=
| Formed k s e cs : in_order s e cs -> (forall f c, In (f, c) cs -> formed c) -> formed (Node k s e cs).

(** The innermost call around the cursor. *)
Definition innermost_call (root : node) (o : nat) (n : node) : Prop :=
  below root n /\ node_kind n = CallExpression /\ covers o n /\ forall d, below n d -> node_kind d = CallExpression -> ~ covers o d.
(** A child with a field name, the only one of that name. *)
Definition the_child (n : node) (f : field) (c : node) : Prop :=
  In (Some f, c) (children n) /\ forall c', In (Some f, c') (children n) -> c' = c.
(** Commas among some children that end at or before the cursor. *)
Definition commas_until (o : nat) (cs : list (option field * node)) : nat :=
  List.length (filter (fun c => match node_kind (snd c) with Comma => end_byte (snd c) <=? o | _ => false end) cs).
Definition commas (cs : list (option field * node)) : nat := List.length (filter (fun c => match node_kind (snd c) with Comma => true | _ => false end) cs).
(** No token is empty. *)
Definition visible (cs : list (option field * node)) : Prop := forall f c, In (f, c) cs -> node_kind c = Comma -> start_byte c < end_byte c.
