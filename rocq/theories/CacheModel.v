(** The analysis cache.  crates/trunk-ir/src/analysis.rs:79-162

    An analysis is a number (its [TypeId]); computing it is an arbitrary function of the
    IR state and the target ([Analysis::compute]).  The hash map is an association list
    without duplicate keys.  Values of different analyses share one type here, so the
    downcast in [get] cannot fail; in the code the type id in the key guarantees it. *)
From Verif Require Export Base.

Section cache.
  Variables St V : Type.
  Variable compute : nat -> St -> nat -> V.

  Definition ckey := (nat * nat)%type.
  Definition ckey_eqb (a b : ckey) : bool := Nat.eqb (fst a) (fst b) && Nat.eqb (snd a) (snd b).
  Definition cache := list (ckey * V).
  Fixpoint clookup (c : cache) (k : ckey) : option V :=
    match c with
    | [] => None
    | (k', v) :: r => if ckey_eqb k k' then Some v else clookup r k
    end.

  Inductive req :=
  | Get (a t : nat) (s : St)
  | GetCached (a t : nat)
  | Invalidate (a t : nat)
  | InvalidateAll (t : nat)
  | Clear
  | Len.
  (** What a request returns; [Value v fresh]: [fresh] tells that [compute] ran. *)
  Inductive answer := Value (v : V) (fresh : bool) | Absent | Count (n : nat) | Nothing.

  Definition serve (c : cache) (r : req) : cache * answer :=
    match r with
    (** analysis.rs:116-126 *)
    | Get a t s =>
        match clookup c (a, t) with
        | Some v => (c, Value v false)
        | None => let v := compute a s t in (((a, t), v) :: c, Value v true)
        end
    (** analysis.rs:129-136 *)
    | GetCached a t => (c, match clookup c (a, t) with Some v => Value v false | None => Absent end)
    (** analysis.rs:139-141 *)
    | Invalidate a t => (filter (fun e => negb (ckey_eqb (a, t) (fst e))) c, Nothing)
    (** analysis.rs:144-146 *)
    | InvalidateAll t => (filter (fun e => negb (Nat.eqb (snd (fst e)) t)) c, Nothing)
    (** analysis.rs:149-151 *)
    | Clear => ([], Nothing)
    (** analysis.rs:154-156 *)
    | Len => (c, Count (length c))
    end.
  Fixpoint serve_all (c : cache) (rs : list req) : cache :=
    match rs with [] => c | r :: rest => serve_all (fst (serve c r)) rest end.
  (** The answer to [r] after the history [h] of a new cache (analysis.rs:88-90). *)
  Definition answer_after (h : list req) (r : req) : answer := snd (serve (serve_all [] h) r).
End cache.
Arguments Get {St}. Arguments GetCached {St}. Arguments Invalidate {St}. Arguments InvalidateAll {St}. Arguments Clear {St}. Arguments Len {St}.
Arguments Value {V}. Arguments Absent {V}. Arguments Count {V}. Arguments Nothing {V}.
