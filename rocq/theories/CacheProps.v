(** Theorems about the analysis cache (C27). *)
From Verif Require Import Base CacheModel CacheSpec CacheProofs.

(** C27: after any history, [get] returns the analysis in force without computing, and
    computes on the current IR exactly when none is in force. *)
Theorem get_returns_analysis_in_force : forall St V compute h a t s v fresh,
  answer_after St V compute h (Get a t s) = Value v fresh <->
  ((fresh = false /\ exists s', in_force St h a t s' /\ v = compute a s' t) \/
   (fresh = true /\ v = compute a s t /\ forall s', ~ in_force St h a t s')).
Proof. exact get_exact. Qed.
Print Assumptions get_returns_analysis_in_force.

(** C27: [get_cached] returns exactly the analysis in force. *)
Theorem get_cached_returns_analysis_in_force : forall St V compute h a t ans,
  answer_after St V compute h (GetCached a t) = ans <->
  ((exists s, in_force St h a t s /\ ans = Value (compute a s t) false) \/ (ans = Absent /\ forall s, ~ in_force St h a t s)).
Proof. exact get_cached_exact. Qed.
Print Assumptions get_cached_returns_analysis_in_force.

(** C27: at most one computation is in force per analysis and target. *)
Theorem analysis_in_force_unique : forall St h a t s s', in_force St h a t s -> in_force St h a t s' -> s = s'.
Proof. exact (fun St => in_force_unique St unit (fun _ _ _ => tt)). Qed.
Print Assumptions analysis_in_force_unique.

(** C27: a user who discards an analysis whenever its value may have changed never
    sees a stale one. *)
Theorem disciplined_get_is_current : forall St V compute h a t s v fresh,
  (forall b f s', h = b ++ Get a t s' :: f -> compute a s' t = compute a s t \/ exists e, In e f /\ discards St a t e) ->
  answer_after St V compute h (Get a t s) = Value v fresh -> v = compute a s t.
Proof. exact get_fresh. Qed.
Print Assumptions disciplined_get_is_current.

(** C27: the size is the number of analyses in force. *)
Theorem cache_size_exact : forall St V compute h n, answer_after St V compute h Len = Count n ->
  exists ks, NoDup ks /\ length ks = n /\ forall a t, In (a, t) ks <-> exists s, in_force St h a t s.
Proof. exact len_exact. Qed.
Print Assumptions cache_size_exact.

(** Demo: target 7 is invalidated, target 8 is not; the second get of 8 sees the old IR. *)
Definition demo_history : list (req nat) := [Get 1 7 10; Get 1 8 10; Get 2 7 10; Invalidate 1 7; Get 1 7 11].
Example demo_answers :
  map (answer_after nat nat (fun a s t => a * 1000 + s * 10 + t) demo_history) [Get 1 7 12; Get 1 8 12; GetCached 2 7; GetCached 2 8; Get 3 7 12; Len] =
  [Value 1117 false; Value 1108 false; Value 2107 false; Absent; Value 3127 true; Count 3].
Proof. reflexivity. Qed.
Example demo_in_force : in_force nat demo_history 1 7 11 /\ in_force nat demo_history 1 8 10.
Proof.
  split.
  - exists [Get 1 7 10; Get 1 8 10; Get 2 7 10; Invalidate 1 7], []. split; [reflexivity|]. split; [intros e []|].
    intros [|? [|? [|? [|? [|]]]]] s' y [= ]; subst; try discriminate. eexists. split; [right; right; left; reflexivity|]. split; reflexivity.
  - exists [Get 1 7 10], [Get 2 7 10; Invalidate 1 7; Get 1 7 11]. split; [reflexivity|]. split.
    + intros e [<-|[<-|[<-|[]]]]; cbn; try tauto. intros (_ & ?); discriminate.
    + intros [|? [|]] s' y [= ]; discriminate.
Qed.
