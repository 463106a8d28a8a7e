(** The pass manager.  crates/trunk-ir/src/pass.rs:216-471

    The world is the IR together with whatever else passes act on (captured state,
    the outside world).  A pass is an arbitrary function of world and target that may
    fail; a verifier an arbitrary predicate; instrumentation is an opaque observer,
    represented by a number.  Operation classes ([DialectOp::matches]) compare the
    dialect/name pair [tag] of an operation's kind.  Every dispatch, pass, hook call and
    failure is recorded in a trace together with the world it acted on. *)
From Verif Require Export Base IrModel.

Section pm.
  Variable St : Type.
  Variable tag : nat -> nat.
  (** op_interface.rs:201-205: the registry of isolated operations. *)
  Variable isolated : nat -> bool.
  Definition world := (ctx * St)%type.
  Definition err := nat.
  Definition passfn := world -> nat -> world * option err.
  Definition verifier := world -> nat -> option err.

  (** pass.rs:329-334; nested managers with the class of their targets (pass.rs:229-231) *)
  Inductive manager := Manager (cls : nat) (passes : list passfn) (nested : list manager) (ver : option verifier) (obs : option nat).
  Definition cls_of (m : manager) : nat := match m with Manager k _ _ _ _ => k end.
  Record hooks := { h_ver : option verifier; h_obs : option nat }.

  (** [at_] is the position of the manager in the tree. *)
  Inductive event :=
  | Visit (at_ : list nat) (t : nat) (w : world)
  | Ran (at_ : list nat) (i t : nat) (attached : bool) (w : world)
  | Failed (at_ : list nat) (i t : nat) (e : err) (w : world)
  | Vanished (at_ : list nat) (i t : nat) (w : world)
  | Observed (at_ : list nat) (i t : nat) (attached : bool) (o : nat) (w : world)
  | Verified (at_ : list nat) (i t : nat) (attached : bool) (w : world)
  | Rejected (at_ : list nat) (i t : nat) (e : err) (w : world)
  | NotIsolated (at_ : list nat) (t : nat) (w : world).
  (** pass.rs:115-160, plus running out of fuel (unbounded nesting) *)
  Inductive result := Ok | ExecutionError (at_ : list nat) (i : nat) (e : err) | VerificationError (at_ : list nat) (i : nat) (e : err)
                    | AnchorError (at_ : list nat) | Diverged.

  Definition matches (cls : nat) (w : world) (o : nat) : bool :=
    match nth_error (ops (fst w)) o with Some d => Nat.eqb (tag (o_kind d)) cls | None => false end.
  Definition attached (w : world) (o : nat) : bool :=
    match nth_error (ops (fst w)) o with Some d => match o_parent d with Some _ => true | None => false end | None => false end.
  (** pass.rs:265-270 *)
  Definition still_alive (cls : nat) (w : world) (o : nat) (pre : bool) : bool :=
    matches cls w o && (negb pre || attached w o).
  (** pass.rs:272-281 *)
  Definition collect_targets (fuel : nat) (cls : nat) (w : world) (root : nat) : option (list nat) :=
    match walk_op (B := unit) fuel (fst w) (fun l o => (if matches cls w o then l ++ [o] else l, Advance)) [] root with
    | Continued l => Some l
    | _ => None
    end.
  (** pass.rs:283-298 *)
  Definition anchor_isolated (w : world) (o : nat) : bool :=
    match nth_error (ops (fst w)) o with Some d => isolated (tag (o_kind d)) | None => false end.

  Inductive step_end := Finished | Stopped | Broken (r : result).
  (** pass.rs:426-462, the loop over a manager's own passes *)
  Fixpoint run_own (at_ : list nat) (cls : nat) (h : hooks) (t : nat) (pre : bool) (i : nat) (ps : list passfn) (w : world) : world * list event * step_end :=
    match ps with
    | [] => (w, [], Finished)
    | p :: rest =>
        let '(w1, res) := p w t in
        match res with
        | Some e => (w1, [Ran at_ i t pre w; Failed at_ i t e w1], Broken (ExecutionError at_ i e))
        | None =>
            if negb (still_alive cls w1 t pre) then (w1, [Ran at_ i t pre w; Vanished at_ i t w1], Stopped)
            else
              let obs := match h_obs h with Some n => [Observed at_ i t pre n w1] | None => [] end in
              match match h_ver h with Some v => v w1 t | None => None end with
              | Some e => (w1, Ran at_ i t pre w :: obs ++ [Rejected at_ i t e w1], Broken (VerificationError at_ i e))
              | None =>
                  let ver := match h_ver h with Some _ => [Verified at_ i t pre w1] | None => [] end in
                  let '(w2, tr, e) := run_own at_ cls h t pre (S i) rest w1 in
                  (w2, Ran at_ i t pre w :: obs ++ ver ++ tr, e)
              end
        end
    end.

  (** pass.rs:243-255, the loop over collected targets *)
  Fixpoint each_target (dispatch : world -> nat -> world * list event * result) (at_ : list nat) (cls : nat) (ts : list nat) (w : world) : world * list event * result :=
    match ts with
    | [] => (w, [], Ok)
    | t :: rest =>
        if negb (matches cls w t) then each_target dispatch at_ cls rest w
        else if negb (anchor_isolated w t) then (w, [NotIsolated at_ t w], AnchorError at_)
        else
          let '(w1, tr, r) := dispatch w t in
          match r with
          | Ok => let '(w2, tr2, r2) := each_target dispatch at_ cls rest w1 in (w2, tr ++ tr2, r2)
          | _ => (w1, tr, r)
          end
    end.
  Definition or_else {A} (a b : option A) : option A := match a with Some _ => a | None => b end.

  (** pass.rs:389-471 (run_on_target_with, run_passes) and 233-256 (TypedNested::run) *)
  Fixpoint run_on (fuel : nat) (at_ : list nat) (m : manager) (inherited : hooks) (w : world) (t : nat) : world * list event * result :=
    match m with
    | Manager cls passes nested ver obs =>
        let h := {| h_ver := or_else ver (h_ver inherited); h_obs := or_else obs (h_obs inherited) |} in
        let pre := attached w t in
        let '(w1, tr, e) := run_own at_ cls h t pre 0 passes w in
        match e with
        | Broken r => (w1, Visit at_ t w :: tr, r)
        | Stopped => (w1, Visit at_ t w :: tr, Ok)
        | Finished =>
            let '(w2, tr2, r) :=
              (fix go (j : nat) (ns : list manager) (w : world) : world * list event * result :=
                 match ns with
                 | [] => (w, [], Ok)
                 | n :: rest =>
                     let '(w1, tr, r) :=
                       match collect_targets fuel (cls_of n) w t with
                       | None => (w, [], Diverged)
                       | Some ts => each_target (fun w t => run_on fuel (at_ ++ [j]) n h w t) (at_ ++ [j]) (cls_of n) ts w
                       end in
                     match r with
                     | Ok => let '(w2, tr2, r2) := go (S j) rest w1 in (w2, tr ++ tr2, r2)
                     | _ => (w1, tr, r)
                     end
                 end) 0 nested w1 in
            (w2, Visit at_ t w :: tr ++ tr2, r)
        end
    end.
  (** pass.rs:233-256 *)
  Definition run_nested (fuel : nat) (at_ : list nat) (h : hooks) (parent : nat) (j : nat) (n : manager) (w : world) : world * list event * result :=
    match collect_targets fuel (cls_of n) w parent with
    | None => (w, [], Diverged)
    | Some ts => each_target (run_on fuel (at_ ++ [j]) n h) (at_ ++ [j]) (cls_of n) ts w
    end.
  (** pass.rs:372-387 *)
  Definition run (fuel : nat) (m : manager) (w : world) (t : nat) : world * list event * result :=
    run_on fuel [] m {| h_ver := None; h_obs := None |} w t.
End pm.
