(** What a program with the list construction intrinsic does. *)
From Verif Require Export ListIntrinsicModel.

Inductive value := Atom (n : nat) | Fun (n : text) | List (l : list value) | Node (kind : nat) (l : list value).
Inductive outcome A := Done (a : A) | Stuck | More.
Arguments Done {A}. Arguments Stuck {A}. Arguments More {A}.
Definition bind {A B} (o : outcome A) (f : A -> outcome B) : outcome B := match o with Done a => f a | Stuck => Stuck | More => More end.

(** The intrinsic: its own name, or that with a dollar sign and more. *)
Definition public_name : text := txt "List::__tribute_list_prepend_intrinsic".
Definition prepends (d : decl) : Prop := intrinsic d = true /\ (name d = public_name \/ exists s, name d = public_name ++ txt "$" ++ s).
Definition prepends_b (d : decl) : bool :=
  intrinsic d && (text_eqb (name d) public_name || text_eqb (firstn (S (List.length public_name)) (name d)) (public_name ++ txt "$")).

Definition find_decl (p : program) (n : text) : option decl := find (fun d => text_eqb (name d) n) p.
(** What a name stands for: its declaration; a specialized name without one stands
    for the intrinsic it is a specialization of. *)
Definition resolve (p : program) (n : text) : option decl :=
  match find_decl p n with
  | Some d => Some d
  | None =>
      if text_eqb (firstn (S (List.length public_name)) n) (public_name ++ txt "$") then
        match find_decl p public_name with Some d => if prepends_b d then Some d else None | None => None end
      else None
  end.

Definition env := list (nat * value).
Definition get (e : env) (x : nat) : outcome value := match find (fun kv => fst kv =? x) e with Some kv => Done (snd kv) | None => Stuck end.
Fixpoint gets (e : env) (xs : list nat) : outcome (list value) :=
  match xs with [] => Done [] | x :: xs' => bind (get e x) (fun v => bind (gets e xs') (fun vs => Done (v :: vs))) end.
Definition prepend (vs : list value) : outcome value := match vs with [x; List l] => Done (List (x :: l)) | _ => Stuck end.

Section Exec.
  Variable known : text -> bool.
  Variable call : text -> list value -> outcome value.
  (** Calls have one result; a reference needs something it refers to. *)
  Fixpoint exec (i : instr) (e : env) : outcome env :=
    let seq := fix seq (l : list instr) (e : env) : outcome env := match l with [] => Done e | i :: l' => bind (exec i e) (seq l') end in
    match i with
    | Call c args [r] => bind (gets e args) (fun vs => bind (call c vs) (fun v => Done ((r, v) :: e)))
    | Call _ _ _ => Stuck
    | Ref c r => if known c then Done ((r, Fun c) :: e) else Stuck
    | Indirect f args r => bind (get e f) (fun w => bind (gets e args) (fun vs => match w with Fun c => bind (call c vs) (fun v => Done ((r, v) :: e)) | _ => Stuck end))
    | Other k args r => bind (gets e args) (fun vs => Done ((r, Node k vs) :: e))
    | Field x j r => bind (get e x) (fun w => match w with
                                              | Node _ l | List l => match nth_error l j with Some v => Done ((r, v) :: e) | None => Stuck end
                                              | _ => Stuck
                                              end)
    | Prepend x t r => bind (gets e [x; t]) (fun vs => bind (prepend vs) (fun v => Done ((r, v) :: e)))
    | If c a b => bind (get e c) (fun w => match w with Atom 0 => seq b e | _ => seq a e end)
    end.
  Fixpoint execs (l : list instr) (e : env) : outcome env := match l with [] => Done e | i :: l' => bind (exec i e) (execs l') end.
End Exec.
(** Calling [n]: calls of program functions are nested at most [fuel] deep. *)
Fixpoint invoke (fuel : nat) (p : program) (n : text) (args : list value) : outcome value :=
  match resolve p n with
  | None => Stuck
  | Some d =>
      if prepends_b d then prepend args
      else match fuel with
           | 0 => More
           | S fuel' =>
               if List.length (params d) =? List.length args then
                 bind (execs (fun c => match resolve p c with Some _ => true | None => false end) (invoke fuel' p) (body d) (combine (params d) args)) (fun e => get e (ret d))
               else Stuck
           end
  end.

(** [n] stands for the intrinsic in [p]. *)
Definition stands_for_it (p : program) (n : text) : Prop := exists d, resolve p n = Some d /\ prepends d.
(** No such name is used as a function value, in code or in a value. *)
Fixpoint no_ref (bad : text -> Prop) (i : instr) : Prop :=
  match i with
  | Ref c _ => ~ bad c
  | If _ a b => fold_right (fun i P => no_ref bad i /\ P) True a /\ fold_right (fun i P => no_ref bad i /\ P) True b
  | _ => True
  end.
Fixpoint no_fun (bad : text -> Prop) (v : value) : Prop :=
  match v with
  | Atom _ => True
  | Fun n => ~ bad n
  | List l | Node _ l => fold_right (fun v P => no_fun bad v /\ P) True l
  end.
(** Calls in code. *)
Inductive calls (c : text) (args results : list nat) : instr -> Prop :=
| CHere : calls c args results (Call c args results)
| CYes x a b i : In i a -> calls c args results i -> calls c args results (If x a b)
| CNo x a b i : In i b -> calls c args results i -> calls c args results (If x a b).
