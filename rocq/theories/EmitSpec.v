(** What structured operations mean, what WebAssembly instructions mean, when instructions are valid, and which functions the
    backend is made for. *)
From Verif Require Export Base EmitModel.

Section Meaning.
  Context {V W : Type}.
  Variable nilv : V.                         (* the value of type nil *)
  Variable truth : V -> bool.
  (** What an operation does on values and the world, its operands in the order in which WebAssembly wants them: it gives a
      value or none, traps, or leaves the function. *)
  Inductive eff := EVal (o : option V) (w : W) | ETrap (w : W) | EReturn (xs : list V) (w : W).
  Variable sem : nat -> list V -> W -> eff.
  Variable indirect : nat -> bool.           (* takes its callee as first operand; WebAssembly wants it last *)

  Definition env := nat -> V.
  Definition put (e : env) (v : nat) (x : V) : env := fun u => if Nat.eqb u v then x else e u.
  (** A value of type nil is nil. *)
  Definition bind (e : env) (b : nat * vt) (x : V) : env := put e (fst b) (if is_nil (snd b) then nilv else x).
  Fixpoint binds (e : env) (bs : list (nat * vt)) (xs : list V) : env :=
    match bs, xs with
    | b :: bs, x :: xs => binds (bind e b x) bs xs
    | _, _ => e
    end.

  (** ** Structured operations.  A loop is given up after [n] rounds. *)
  Inductive out :=
  | Fall (w : W)
  | Yielded (xs : list V) (w : W)
  | Continued (xs : list V) (w : W)
  | Broke (x : V) (w : W)
  | Returned (xs : list V) (w : W)
  | Trapped (w : W)
  | Unfinished
  | Wrong.
  Definition first (xs : list V) : V := match xs with x :: _ => x | [] => nilv end.

  Definition run_list (f : sop -> env -> W -> env * out) :=
    fix go (l : list sop) (e : env) (w : W) : out :=
      match l with
      | [] => Fall w
      | o :: l => match f o e w with (e', Fall w') => go l e' w' | (_, x) => x end
      end.
  Definition rounds (body : list V -> W -> out) :=
    fix go (n : nat) (xs : list V) (w : W) : out :=
      match n with
      | O => Unfinished
      | S n =>
          match body xs w with
          | Continued ys w' => go n ys w'
          | Broke x w' => Yielded [x] w'
          | Fall _ | Yielded _ _ => Wrong
          | x => x
          end
      end.
  Definition operand_values (k : nat) (xs : list V) : list V :=
    if indirect k then match xs with x :: xs => xs ++ [x] | [] => [] end else xs.
  Fixpoint run_op (n : nat) (o : sop) (e : env) (w : W) {struct o} : env * out :=
    match o with
    | OPlain k args res =>
        match sem k (operand_values k (List.map e args)) w with
        | EVal x w' => (match res with Some b => bind e b (match x with Some x => x | None => nilv end) | None => e end, Fall w')
        | ETrap w' => (e, Trapped w')
        | EReturn xs w' => (e, Returned xs w')
        end
    | OIf c r t th el =>
        match (if truth (e c) then run_list (run_op n) th e w else run_list (run_op n) el e w) with
        | Yielded xs w' => (bind e (r, t) (first xs), Fall w')
        | Fall _ => (e, Wrong)
        | x => (e, x)
        end
    | OLoop init ps r _ t body =>
        match rounds (fun xs w => run_list (run_op n) body (binds e ps xs) w) n (List.map e init) w with
        | Yielded xs w' => (bind e (r, t) (first xs), Fall w')
        | x => (e, x)
        end
    | OYield vs => (e, Yielded (List.map e vs) w)
    | OContinue vs => (e, Continued (List.map e vs) w)
    | OBreak v => (e, Broke (e v) w)
    end.
  Definition run (n : nat) (l : list sop) (e : env) (w : W) : out := run_list (run_op n) l e w.
  Definition run_func (n : nat) (f : func) (args : list V) (w : W) : out :=
    run n (f_body f) (binds (fun _ => nilv) (f_params f) args) w.

  (** ** Instructions: locals, a stack with its top first, the world. *)
  Definition locals := nat -> V.
  Inductive res :=
  | Norm (L : locals) (s : list V) (w : W)
  | Jump (d : nat) (L : locals) (s : list V) (w : W)
  | Leave (xs : list V) (w : W)
  | Dead (w : W)
  | Over                                    (* a loop has had [n] rounds *)
  | Stuck.
  Variable takes : nat -> nat.               (* the number of operands of an instruction *)

  Definition arity (t : option vt) : nat := match t with Some _ => 1 | None => 0 end.
  (** The end of a block with label at its end. *)
  Definition close (t : option vt) (s : list V) (r : res) : res :=
    match r with
    | Norm L' s' w' => if Nat.eqb (List.length s') (arity t) then Norm L' (s' ++ s) w' else Stuck
    | Jump O L' s' w' => if Nat.leb (arity t) (List.length s') then Norm L' (firstn (arity t) s' ++ s) w' else Stuck
    | Jump (S d) L' s' w' => Jump d L' s' w'
    | r => r
    end.
  Definition exec_list (f : instr -> locals -> list V -> W -> res) :=
    fix go (l : list instr) (L : locals) (s : list V) (w : W) : res :=
      match l with
      | [] => Norm L s w
      | i :: l => match f i L s w with Norm L' s' w' => go l L' s' w' | r => r end
      end.
  Definition turns (t : option vt) (s : list V) (body : locals -> W -> res) :=
    fix go (n : nat) (L : locals) (w : W) : res :=
      match n with
      | O => Over
      | S n =>
          match body L w with
          | Jump O L' _ w' => go n L' w'
          | r => close t s r
          end
      end.
  Fixpoint exec (n : nat) (i : instr) (L : locals) (s : list V) (w : W) {struct i} : res :=
    match i with
    | IGet v => Norm L (L v :: s) w
    | ISet v => match s with x :: s => Norm (put L v x) s w | [] => Stuck end
    | IOp k =>
        if Nat.leb (takes k) (List.length s) then
          match sem k (rev (firstn (takes k) s)) w with
          | EVal (Some x) w' => Norm L (x :: skipn (takes k) s) w'
          | EVal None w' => Norm L (skipn (takes k) s) w'
          | ETrap w' => Dead w'
          | EReturn xs w' => Leave xs w'
          end
        else Stuck
    | IIf t th el =>
        match s with
        | x :: s => close t s (if truth x then exec_list (exec n) th L [] w else exec_list (exec n) el L [] w)
        | [] => Stuck
        end
    | IBlock t b => close t s (exec_list (exec n) b L [] w)
    | ILoop t b => turns t s (fun L w => exec_list (exec n) b L [] w) n L w
    | IBr d => Jump d L s w
    end.
  Definition execs (n : nat) (l : list instr) (L : locals) (s : list V) (w : W) : res := exec_list (exec n) l L s w.

  (** A call: parameters first, then the declared locals with their default value. *)
  Variable default : vt -> V.
  Definition expand (l : list (nat * vt)) : list vt := flat_map (fun x => repeat (snd x) (fst x)) l.
  Definition frame (c : code) (args : list V) : locals := fun i => nth i (args ++ List.map default (expand (c_locals c))) nilv.
  Definition exec_func (n : nat) (c : code) (args : list V) (w : W) : res :=
    execs n (c_instrs c) (frame c args) [] w.
  (** What a caller sees. *)
  Inductive seen := SReturned (xs : list V) (w : W) | STrapped (w : W) | SUnfinished | SBroken.
  Definition seen_out (x : out) : seen :=
    match x with
    | Returned xs w => SReturned xs w
    | Trapped w => STrapped w
    | Unfinished => SUnfinished
    | _ => SBroken
    end.
  (** Reaching the end of the body, or branching to its label, leaves the function with the stack. *)
  Definition seen_res (r : res) : seen :=
    match r with
    | Leave xs w | Norm _ xs w | Jump 0 _ xs w => SReturned xs w
    | Dead w => STrapped w
    | Over => SUnfinished
    | Jump _ _ _ _ | Stuck => SBroken
    end.
End Meaning.
Arguments eff : clear implicits.
Arguments res : clear implicits.
Arguments out : clear implicits.
Arguments seen : clear implicits.

(** ** Validity of instructions: types of the stack, top first, and whether anything may be below (after a branch). *)
Section Valid.
  (** The operands of an instruction, the value it leaves, and whether it leaves the function. *)
  Variable params : nat -> list vt.
  Variable pushes : nat -> option vt.
  Variable ends : nat -> bool.
  Variable tys : list vt.                    (* of the locals *)

  Definition vstack : Type := list vt * bool.
  Definition pop (t : vt) (s : vstack) : option vstack :=
    match s with
    | (t' :: s, p) => if Nat.eqb t t' then Some (s, p) else None
    | ([], true) => Some ([], true)
    | ([], false) => None
    end.
  Fixpoint pops (ts : list vt) (s : vstack) : option vstack :=
    match ts with
    | [] => Some s
    | t :: ts => match pop t s with Some s => pops ts s | None => None end
    end.
  Definition listed (t : option vt) : list vt := match t with Some t => [t] | None => [] end.
  Definition push (t : option vt) (s : vstack) : vstack := (listed t ++ fst s, snd s).
  Definition unreachable_after : vstack := ([], true).
  (** The end of a block: exactly its result is on the stack. *)
  Definition ended (t : option vt) (s : option vstack) : bool :=
    match s with
    | Some s => match pops (listed t) s with Some ([], _) => true | _ => false end
    | None => false
    end.
  Definition check_list (f : instr -> vstack -> option vstack) :=
    fix go (l : list instr) (s : vstack) : option vstack :=
      match l with
      | [] => Some s
      | i :: l => match f i s with Some s => go l s | None => None end
      end.
  (** [labels]: what a branch to each surrounding label has to carry, innermost first. *)
  Fixpoint check (labels : list (option vt)) (i : instr) (s : vstack) {struct i} : option vstack :=
    match i with
    | IGet v => match nth_error tys v with Some t => Some (push (Some t) s) | None => None end
    | ISet v => match nth_error tys v with Some t => pop t s | None => None end
    | IOp k =>
        match pops (rev (params k)) s with
        | Some s => Some (if ends k then unreachable_after else push (pushes k) s)
        | None => None
        end
    | IIf t th el =>
        match pop bool_t s with
        | Some s =>
            if ended t (check_list (check (t :: labels)) th ([], false)) && ended t (check_list (check (t :: labels)) el ([], false))
            then Some (push t s) else None
        | None => None
        end
    | IBlock t b => if ended t (check_list (check (t :: labels)) b ([], false)) then Some (push t s) else None
    | ILoop t b => if ended t (check_list (check (None :: labels)) b ([], false)) then Some (push t s) else None
    | IBr d =>
        match nth_error labels d with
        | Some t => match pops (listed t) s with Some _ => Some unreachable_after | None => None end
        | None => None
        end
    end.
  Definition checks (labels : list (option vt)) (l : list instr) (s : vstack) : option vstack := check_list (check labels) l s.
End Valid.
(** A function with these parameters and this result. *)
Definition valid params pushes ends (ps : list vt) (result : option vt) (c : code) : Prop :=
  ended result (checks params pushes ends (ps ++ expand (c_locals c)) [result] (c_instrs c) ([], false)) = true.

(** ** The functions that the backend is made for *)
Section Fine.
  Variable params : nat -> list vt.
  Variable pushes : nat -> option vt.
  Variable ends : nat -> bool.
  Variable indirect : nat -> bool.

  Definition scope := list (nat * vt).
  (** Where operations stand: in the function's body, in a branch of an [if] with a result of type [t] somewhere or directly in
      a loop, or directly in a loop that carries values of types [ps] and has a result of type [lt]. *)
  Inductive place :=
  | Top
  | Arm (t : vt)
  | LoopArm (t : vt) (ps : list vt) (lt : vt)
  | Body (ps : list vt) (lt : vt).
  Definition arm (p : place) (t : vt) : place := match p with Body ps lt => LoopArm t ps lt | _ => Arm t end.
  Definition result_type (p : place) : option vt := match p with Arm t | LoopArm t _ _ => Some t | _ => None end.

  Definition typed_args (G : scope) (k : nat) (args : list nat) : Prop :=
    Forall2 (fun v t => In (v, t) G)
      (if indirect k then match args with a :: args => args ++ [a] | [] => [] end else args) (params k).
  (** The last operation yields a value; leaves the region for good. *)
  Definition yields_value (l : list sop) : Prop := exists l' v, l = l' ++ [OYield [v]].
  Definition leaves (l : list sop) : Prop :=
    exists l' o, l = l' ++ [o] /\
      match o with OContinue _ | OBreak _ => True | OPlain k _ None => ends k = true | _ => False end.

  Inductive fine : scope -> place -> list sop -> Prop :=
  | fine_effect G p k args l :
      ends k = false -> pushes k = None -> typed_args G k args ->
      fine G p l -> fine G p (OPlain k args None :: l)
  | fine_value G p k args r t l :
      ends k = false -> pushes k = (if is_nil t then None else Some t) -> typed_args G k args ->
      fine ((r, t) :: G) p l -> fine G p (OPlain k args (Some (r, t)) :: l)
  | fine_end G p k args :
      ends k = true -> typed_args G k args -> fine G p [OPlain k args None]
  | fine_if G p c r t th el l :
      In (c, bool_t) G -> (t = nil_t \/ yields_value th) ->
      fine G (arm p t) th -> fine G (arm p t) el ->
      fine ((r, t) :: G) p l -> fine G p (OIf c r t th el :: l)
  | fine_last G ps lt c r t th el :
      In (c, bool_t) G -> leaves th -> leaves el -> (lt = nil_t \/ t = lt) ->
      fine G (LoopArm t ps lt) th -> fine G (LoopArm t ps lt) el ->
      fine G (Body ps lt) [OIf c r t th el]
  | fine_loop G p init ps r r' t body l :
      Forall2 (fun v b => In (v, snd b) G) init ps ->
      fine (ps ++ G) (Body (List.map snd ps) t) body ->
      fine ((r, t) :: G) p l -> fine G p (OLoop init ps r r' t body :: l)
  | fine_yield G p t v :
      result_type p = Some t -> In (v, t) G -> fine G p [OYield [v]]
  | fine_yield_nil G p :
      result_type p = Some nil_t -> fine G p [OYield []]
  | fine_continue G t ps lt vs :
      Forall2 (fun v t => In (v, t) G) vs ps -> List.length vs <= 1 -> fine G (LoopArm t ps lt) [OContinue vs]
  | fine_break G t ps lt v :
      In (v, lt) G -> fine G (LoopArm t ps lt) [OBreak v].

  (** The values of a function, each of which is defined once. *)
  Fixpoint defs (o : sop) : list (nat * vt) :=
    match o with
    | OPlain _ _ (Some x) => [x]
    | OIf _ r t th el => (r, t) :: flat_map defs th ++ flat_map defs el
    | OLoop _ ps r r' t body => (r, t) :: (r', t) :: ps ++ flat_map defs body
    | _ => []
    end.
  Definition fine_func (f : func) : Prop :=
    fine (f_params f) Top (f_body f) /\ NoDup (List.map fst (f_params f ++ flat_map defs (f_body f))).
End Fine.

(** Instructions do what their types say. *)
Record lawful {V W} (sem : nat -> list V -> W -> eff V W) (pushes : nat -> option vt) (ends : nat -> bool) : Prop := {
  law_value : forall k xs w o w', sem k xs w = EVal o w' -> match pushes k with Some _ => exists x, o = Some x | None => o = None end;
  law_end : forall k xs w o w', sem k xs w = EVal o w' -> ends k = false
}.
