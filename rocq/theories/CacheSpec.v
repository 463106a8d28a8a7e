(** What a cache of analyses owes its users, in terms of the request history. *)
From Verif Require Import Base CacheModel.

Section spec.
  Variable St : Type.
  (** [e] discards analysis [a] of [t]. *)
  Definition discards (a t : nat) (e : req St) : Prop :=
    match e with
    | Invalidate a' t' => a' = a /\ t' = t
    | InvalidateAll t' => t' = t
    | Clear => True
    | _ => False
    end.
  (** In history [h], the analysis in force for [a] of [t] was computed by the first
      request since the last discard, on IR state [s]. *)
  Definition in_force (h : list (req St)) (a t : nat) (s : St) : Prop :=
    exists before after, h = before ++ Get a t s :: after /\
      (forall e, In e after -> ~ discards a t e) /\
      (forall x s' y, before = x ++ Get a t s' :: y -> exists e, In e y /\ discards a t e).
End spec.
