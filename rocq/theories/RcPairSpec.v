(** A machine with reference counted objects, for straight-line code. *)
From Coq Require Export ZArith.
From Verif Require Export RcPairModel.

(** Objects have a count and fields; freed objects are [None].  A value is a number or a reference. *)
Inductive val := VInt (z : Z) | VPtr (a : nat).
Record cell := mkCell { cnt : nat; flds : list val }.
Definition heap := list (option cell).

Fixpoint put {A} (l : list A) (k : nat) (x : A) : list A :=
  match l, k with
  | [], _ => []
  | _ :: l, O => x :: l
  | y :: l, S k => y :: put l k x
  end.
Definition get (h : heap) (a : nat) : option cell := match nth_error h a with Some (Some c) => Some c | _ => None end.

(** Any access to an object that was freed fails.  Numbers (and the null reference) are not counted. *)
Definition do_load (h : heap) (v : val) (off : nat) : option val :=
  match v with
  | VPtr a => match get h a with Some c => Some (nth off (flds c) (VInt 0)) | None => None end
  | VInt _ => None
  end.
Definition do_store (h : heap) (v : val) (off : nat) (x : val) : option heap :=
  match v with
  | VPtr a => match get h a with Some c => Some (put h a (Some (mkCell (cnt c) (put (flds c) off x)))) | None => None end
  | VInt _ => None
  end.
Definition do_retain (h : heap) (v : val) : option heap :=
  match v with
  | VPtr a => match get h a with
              | Some c => if cnt c =? 0 then None else Some (put h a (Some (mkCell (S (cnt c)) (flds c))))
              | None => None
              end
  | VInt _ => Some h
  end.
(** Release of a list of values; an object whose last count goes is freed and its fields are released.  The result
    tells which objects were brought down to a count of one or none. *)
Fixpoint do_release (fuel : nat) (h : heap) (work : list val) : option (heap * list nat) :=
  match work with
  | [] => Some (h, [])
  | v :: work =>
      match fuel with
      | O => None
      | S fuel =>
          match v with
          | VInt _ => do_release fuel h work
          | VPtr a =>
              match get h a with
              | Some c => match cnt c with
                          | O => None
                          | S O => match do_release fuel (put h a None) (flds c ++ work) with Some (h', l) => Some (h', a :: l) | None => None end
                          | S (S O) => match do_release fuel (put h a (Some (mkCell 1 (flds c)))) work with Some (h', l) => Some (h', a :: l) | None => None end
                          | S n => do_release fuel (put h a (Some (mkCell n (flds c)))) work
                          end
              | None => None
              end
          end
      end
  end.

(** What other operations (calls, say) do: any program of these steps. *)
Inductive step := SLoad (v : val) (off : nat) | SStore (v : val) (off : nat) (x : val) | SRetain (v : val) | SRelease (v : val) | SAlloc (fields : list val).
Inductive act := Done (results : list val) | Do (s : step) (k : val -> act).
Fixpoint perform (fuel : nat) (t : act) (h : heap) : option (heap * list val * list nat) :=
  match t with
  | Done rs => Some (h, rs, [])
  | Do s k =>
      match s with
      | SLoad v off => match do_load h v off with Some x => perform fuel (k x) h | None => None end
      | SStore v off x => match do_store h v off x with Some h => perform fuel (k (VInt 0)) h | None => None end
      | SRetain v => match do_retain h v with Some h => perform fuel (k (VInt 0)) h | None => None end
      | SRelease v => match do_release fuel h [v] with
                      | Some (h, l) => match perform fuel (k (VInt 0)) h with Some (h, rs, l') => Some (h, rs, l ++ l') | None => None end
                      | None => None
                      end
      | SAlloc fs => perform fuel (k (VPtr (List.length h))) (h ++ [Some (mkCell 1 fs)])
      end
  end.

Section Machine.
  (** What the other operations do, given their operands and captured values. *)
  Variable behave : nat -> list val -> act.
  Variable fuel : nat.
  Definition env := nat -> val.
  Definition bind (e : env) (x : nat) (v : val) : env := fun y => if y =? x then v else e y.
  Fixpoint bind_all (e : env) (xs : list nat) (vs : list val) : env :=
    match xs, vs with
    | x :: xs, v :: vs => bind_all (bind e x v) xs vs
    | _, _ => e
    end.

  (** One operation: new values, new heap, the objects brought down to a count of one or none. *)
  Definition exec (o : pop) (e : env) (h : heap) : option (env * heap * list nat) :=
    match p_kind o, p_args o, p_results o with
    | PRetain, [p], [r] => match do_retain h (e p) with Some h => Some (bind e r (e p), h, []) | None => None end
    | PRelease, [p], [] => match do_release fuel h [e p] with Some (h, l) => Some (e, h, l) | None => None end
    | PLoad off, [p], [r] => match do_load h (e p) off with Some x => Some (bind e r x, h, []) | None => None end
    | PStore off, [x; p], [] => match do_store h (e p) off (e x) with Some h => Some (e, h, []) | None => None end
    | POther id, args, rs =>
        match perform fuel (behave id (map e (args ++ p_captures o))) h with
        | Some (h, vs, l) => Some (bind_all e rs vs, h, l)
        | None => None
        end
    | _, _, _ => None
    end.
  Fixpoint execs (os : list pop) (e : env) (h : heap) : option (env * heap) :=
    match os with
    | [] => Some (e, h)
    | o :: os => match exec o e h with Some (e, h, _) => execs os e h | None => None end
    end.

  (** Between retain and release, no operation brings the object down to the retained count: someone else goes on
      owning it. *)
  Definition owned_elsewhere (ptr : nat) (mid : list pop) (e : env) (h : heap) : Prop :=
    forall m1 o m2 e1 h1 e2 h2 lost a, mid = m1 ++ o :: m2 -> execs m1 e h = Some (e1, h1) -> exec o e1 h1 = Some (e2, h2, lost) ->
      e ptr = VPtr a -> ~ In a lost.
  (** Operations that never take a count. *)
  Inductive quiet_act : act -> Prop :=
  | quiet_done rs : quiet_act (Done rs)
  | quiet_do s k : (forall v, s <> SRelease v) -> (forall x, quiet_act (k x)) -> quiet_act (Do s k).
  Definition quiet (o : pop) : Prop :=
    match p_kind o with PRelease => False | POther id => forall vs, quiet_act (behave id vs) | _ => True end.
End Machine.

(** Every value is defined once, before its uses; operations without regions capture nothing; retains and releases have the
    operands and results they should have. *)
Fixpoint in_order (os : list pop) : Prop :=
  match os with
  | [] => True
  | o :: os => in_order os /\ (forall x, In x (p_results o) -> ~ In x (p_args o ++ p_captures o) /\ ~ In x (flat_map p_results os)) /\
               (forall x, In x (p_args o ++ p_captures o) -> ~ In x (flat_map p_results os)) /\
               (p_regions o = false -> p_captures o = []) /\
               (p_kind o = PRetain -> List.length (p_args o) = 1 /\ List.length (p_results o) = 1) /\
               (p_kind o = PRelease -> List.length (p_args o) = 1 /\ p_results o = [])
  end.

(** What the pass removes: a retain and a release of the same reference with only reads and writes through that
    reference and operations that are not given it in between. *)
Definition clear (ptr retained : nat) (o : pop) : Prop := p_regions o = false /\
  forall k x, nth_error (p_args o) k = Some x -> x = ptr \/ x = retained ->
    (exists off, p_kind o = PLoad off /\ k = 0) \/ (exists off, p_kind o = PStore off /\ k = 1).
Inductive pair (ptr retained : nat) (pre mid post os : list pop) : Prop :=
| is_pair p r x : p_kind p = PRetain -> p_args p = [ptr] -> p_results p = [retained] ->
    p_kind r = PRelease -> p_args r = [x] -> x = ptr \/ x = retained ->
    Forall (clear ptr retained) mid -> os = pre ++ p :: mid ++ r :: post -> pair ptr retained pre mid post os.

(** Numbers of retains and releases, and the other operations with their results. *)
Definition retains (os : list pop) : nat := List.length (filter (fun o => match p_kind o with PRetain => true | _ => false end) os).
Definition releases (os : list pop) : nat := List.length (filter (fun o => match p_kind o with PRelease => true | _ => false end) os).
Definition is_rc_op (o : pop) : bool := match p_kind o with PRetain | PRelease => true | _ => false end.
Definition others (os : list pop) : list (pkind * list nat * bool) :=
  map (fun o => (p_kind o, p_results o, p_regions o)) (filter (fun o => negb (is_rc_op o)) os).
