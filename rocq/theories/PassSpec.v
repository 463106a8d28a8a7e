(** What a pipeline run must look like, event by event. *)
From Verif Require Import Base IrModel IrTreeSpec PassModel.

Section spec.
  Variable St : Type.
  Variable tag : nat -> nat.
  Variable isolated : nat -> bool.
  Notation world := (world St).
  Notation event := (event St).
  Notation manager := (manager St).
  Notation verifier := (verifier St).

  (** The manager at a position. *)
  Fixpoint sub (m : manager) (p : list nat) : option manager :=
    match p with
    | [] => Some m
    | j :: r => match m with PassModel.Manager _ _ _ ns _ _ => match nth_error ns j with Some n => sub n r | None => None end end
    end.
  (** The hook in effect at a position: the one installed on the innermost enclosing
      manager that has one. *)
  Fixpoint nearest {A} (sel : manager -> option A) (m : manager) (p : list nat) (outer : option A) : option A :=
    let here := match sel m with Some x => Some x | None => outer end in
    match p with
    | [] => here
    | j :: r => match m with PassModel.Manager _ _ _ ns _ _ => match nth_error ns j with Some n => nearest sel n r here | None => None end end
    end.
  Definition own_verifier (m : manager) : option verifier := match m with PassModel.Manager _ _ _ _ v _ => v end.
  Definition own_observer (m : manager) : option nat := match m with PassModel.Manager _ _ _ _ _ o => o end.
  Definition verifier_at (m : manager) (p : list nat) : option verifier := nearest own_verifier m p None.
  Definition observer_at (m : manager) (p : list nat) : option nat := nearest own_observer m p None.
  Definition passes_of (m : manager) : list (passfn St) := match m with PassModel.Manager _ _ ps _ _ _ => ps end.
  Definition pass_at (m : manager) (p : list nat) (i : nat) : option (passfn St) :=
    match sub m p with Some n => nth_error (passes_of n) i | None => None end.

  (** The target is still the operation the manager was given: right class, and not
      detached if it was attached when the manager started on it. *)
  Definition survives (m : manager) (p : list nat) (w : world) (t : nat) (attached_before : bool) : Prop :=
    exists n d, sub m p = Some n /\ nth_error (ops (fst w)) t = Some d /\ tag (o_kind d) = cls_of St n /\
      (attached_before = true -> o_parent d <> None).
  Definition is_attached (w : world) (t : nat) : Prop := exists d, nth_error (ops (fst w)) t = Some d /\ o_parent d <> None.

  (** The manager at [p], done with pass [i] on [t] in world [w], goes on with: the
      next pass if there is one; otherwise nested managers (a [Visit] or a refusal),
      or the end. *)
  Definition goes_on (m : manager) (p : list nat) (next_i t : nat) (a : bool) (w : world) (next : option event) : Prop :=
    match pass_at m p next_i with
    | Some _ => next = Some (Ran St p next_i t a w)
    | None => match next with Some (Visit _ _ _ w') | Some (NotIsolated _ _ _ w') => w' = w | None => True | Some _ => False end
    end.
  (** Which event may follow which. *)
  Definition follows (m : manager) (e : event) (next : option event) : Prop :=
    match e with
    | Visit _ p t w => exists a, (a = true <-> is_attached w t) /\ goes_on m p 0 t a w next
    | Ran _ p i t a w =>
        exists f, pass_at m p i = Some f /\
        match f w t with
        | (w', Some err) => next = Some (Failed St p i t err w')
        | (w', None) =>
            (~ survives m p w' t a /\ next = Some (Vanished St p i t w')) \/
            (survives m p w' t a /\
             match observer_at m p, verifier_at m p with
             | Some o, _ => next = Some (Observed St p i t a o w')
             | None, Some v => next = Some (match v w' t with Some err => Rejected St p i t err w' | None => Verified St p i t a w' end)
             | None, None => goes_on m p (S i) t a w' next
             end)
        end
    | Observed _ p i t a o w =>
        match verifier_at m p with
        | Some v => next = Some (match v w t with Some err => Rejected St p i t err w | None => Verified St p i t a w end)
        | None => goes_on m p (S i) t a w next
        end
    | Verified _ p i t a w => goes_on m p (S i) t a w next
    | Vanished _ p i t w => match next with Some (Visit _ _ _ w') | Some (NotIsolated _ _ _ w') => w' = w | None => True | Some _ => False end
    | Failed _ _ _ _ _ _ | Rejected _ _ _ _ _ _ | NotIsolated _ _ _ _ => next = None
    end.
  Fixpoint well_sequenced (m : manager) (tr : list event) : Prop :=
    match tr with
    | [] => True
    | e :: rest => follows m e (match rest with [] => None | e' :: _ => Some e' end) /\ well_sequenced m rest
    end.

  (** The outcome reported is the trace's failure, which can only be its last event. *)
  Definition failure (e : event) : option (result) :=
    match e with
    | Failed _ p i _ x _ => Some (ExecutionError p i x)
    | Rejected _ p i _ x _ => Some (VerificationError p i x)
    | NotIsolated _ p _ _ => Some (AnchorError p)
    | _ => None
    end.
  Definition reports (tr : list event) (r : result) : Prop :=
    (exists pre e, tr = pre ++ [e] /\ failure e = Some r /\ forall x, In x pre -> failure x = None) \/
    ((r = Ok \/ r = Diverged) /\ forall x, In x tr -> failure x = None).

  (** The world after an event. *)
  Definition now (m : manager) (e : event) (w : world) : Prop :=
    match e with
    | Ran _ p i t _ w0 => exists f, pass_at m p i = Some f /\ fst (f w0 t) = w
    | Visit _ _ _ w0 | Failed _ _ _ _ _ w0 | Vanished _ _ _ _ w0 | Observed _ _ _ _ _ _ w0 | Verified _ _ _ _ _ w0 | Rejected _ _ _ _ _ w0 | NotIsolated _ _ _ w0 => w0 = w
    end.
  (** A nested manager only starts on isolated operations of its class. *)
  Definition proper_visit (m : manager) (e : event) : Prop :=
    match e with
    | Visit _ p t w => p = [] \/ exists n d, sub m p = Some n /\ nth_error (ops (fst w)) t = Some d /\ tag (o_kind d) = cls_of St n /\ isolated (tag (o_kind d)) = true
    | NotIsolated _ p t w => exists n d, sub m p = Some n /\ nth_error (ops (fst w)) t = Some d /\ tag (o_kind d) = cls_of St n /\ isolated (tag (o_kind d)) = false
    | _ => True
    end.
End spec.

(** How a nested manager works through the targets collected when it starts: one that
    no longer has the right class when its turn comes is passed over; every other one
    is dispatched once, in order, each in the world the previous one left. *)
Inductive takes_turns {St} (tag : nat -> nat) (cls : nat) (dispatch : world St -> nat -> world St * list (event St) * result) :
  world St -> list nat -> list (event St) -> world St -> Prop :=
| tt_done : forall w, takes_turns tag cls dispatch w [] [] w
| tt_skip : forall w t ts tr w', (forall d, nth_error (ops (fst w)) t = Some d -> tag (o_kind d) <> cls) ->
    takes_turns tag cls dispatch w ts tr w' -> takes_turns tag cls dispatch w (t :: ts) tr w'
| tt_visit : forall w t ts d tr1 w1 tr2 w', nth_error (ops (fst w)) t = Some d -> tag (o_kind d) = cls -> dispatch w t = (w1, tr1, Ok) ->
    takes_turns tag cls dispatch w1 ts tr2 w' -> takes_turns tag cls dispatch w (t :: ts) (tr1 ++ tr2) w'.
