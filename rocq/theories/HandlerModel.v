(** What the compiled code of a program with effect handlers does.
    Models the code emitted by crates/tribute-front/src/ast_to_ir/lower/{expr,handle,control,lambda,decl,mod}.rs and
    rewritten by crates/tribute-passes/src/{lower_ability_perform,resolve_evidence,lower_handle_dispatch,closure_lower}.rs
    and native/evidence.rs, as an abstract machine.  A state of the machine is what is about to run, the continuation
    closure it was given, the evidence it was given, and the native stack.

    Simplifications: continuation closures are defunctionalised (each kind of closure that the compiler generates is a
    constructor); tags are unbounded numbers (their 32-bit counter is the subject of C06); the evidence array is a list
    (the sorted array is the subject of C01); functions without effects, which receive no evidence, are treated like
    those that receive it.  The machine has no next state where the compiled code would interpret a value of one shape
    as another, and where the compiler would panic. *)
From Verif Require Export HandlerSyntax.

(** ** Values, environments, continuation closures, evidence *)

(** control.rs:13-60: the domain of a continuation says how its answer is represented. *)
Inductive domain : Type := Ambient | HandleAnswer | TailResume.

(** [MARKER_PROPAGATES_HANDLES] (control.rs): whether a [handle] in the domain passes foreign carriers on. *)
Definition propagates (d : domain) : bool := match d with TailResume => false | _ => true end.

Inductive tval : Type :=
| TInt (z : Z)
| TLam (xs : list nat) (body : expr) (env : tenv)
(** What code can refer to: variables, and inside of an arm the continuation [resume] stands for and the owner tag
    (mod.rs: [handler_owner_tag], captured by closures like variables). *)
with tenv : Type :=
| TEnv (vars : list (nat * tval)) (resume : option kont) (owner : option nat)
(** The continuation closures: [build_cps_continuation] (expr.rs:1533), [create_cps_control_done_k] (mod.rs:486),
    [create_cps_escape_done_k] (mod.rs:568), [create_identity_done_k] (mod.rs:410). *)
with kont : Type :=
| KBind (x : nat) (e : expr) (env : tenv) (dom : domain) (k : kont)
| KNormal
| KEscape (o : nat)
| KIdent.

Definition t_vars (e : tenv) := match e with TEnv v _ _ => v end.
Definition t_resume (e : tenv) := match e with TEnv _ r _ => r end.
Definition t_owner (e : tenv) := match e with TEnv _ _ o => o end.

(** An evidence entry: ability, owner tag, and the dispatch closures of the handler with their environment
    (resolve_evidence.rs:775-890). *)
Record marker : Type := MkMarker { m_owner : nat; m_handler : handler; m_env : tenv }.
Definition evidence := list (nat * marker).

Fixpoint ev_lookup (ev : evidence) (a : nat) : option marker :=
  match ev with
  | [] => None
  | (b, m) :: rest => if a =? b then Some m else ev_lookup rest a
  end.

(** The handler is entered once per ability among its arms (resolve_evidence.rs:820-860). *)
Fixpoint ev_extend (arms : list arm) (m : marker) (ev : evidence) : evidence :=
  match arms with
  | [] => ev
  | Arm _ a _ _ _ :: rest => ev_extend rest m ((a, m) :: ev)
  end.

Fixpoint t_get (vars : list (nat * tval)) (x : nat) : option tval :=
  match vars with
  | [] => None
  | (y, v) :: rest => if x =? y then Some v else t_get rest x
  end.

Fixpoint t_bind (xs : list nat) (vs : list tval) (vars : list (nat * tval)) : option (list (nat * tval)) :=
  match xs, vs with
  | [], [] => Some vars
  | x :: xs, v :: vs => t_bind xs vs ((x, v) :: vars)
  | _, _ => None
  end.

(** Effect-free expressions: [lower_value] (expr.rs) and [lower_lambda] (lambda.rs:190).  A closure captures the
    [resume] and the owner tag of the arm it is written in. *)
Fixpoint t_eval (env : tenv) (d : dexp) : option tval :=
  match d with
  | DInt z => Some (TInt z)
  | DVar x => t_get (t_vars env) x
  | DAdd d1 d2 => match t_eval env d1, t_eval env d2 with Some (TInt a), Some (TInt b) => Some (TInt (a + b)) | _, _ => None end
  | DMul d1 d2 => match t_eval env d1, t_eval env d2 with Some (TInt a), Some (TInt b) => Some (TInt (a * b)) | _, _ => None end
  | DLam xs body => Some (TLam xs body env)
  end.

Fixpoint t_evals (env : tenv) (ds : list dexp) : option (list tval) :=
  match ds with
  | [] => Some []
  | d :: ds => match t_eval env d, t_evals env ds with Some v, Some vs => Some (v :: vs) | _, _ => None end
  end.

Definition t_set (x : nat) (v : tval) (env : tenv) : tenv := TEnv ((x, v) :: t_vars env) (t_resume env) (t_owner env).

(** ** Classification *)

Section Program.
  Variable P : program.
  (** Whether a cast to a variant is checked: it is [ref.cast] on Wasm (adt_to_wasm.rs:328), and nothing on the native
      target (adt_to_clif.rs:231). *)
  Variable checked : bool.

  Definition callee_cps (f : nat) : bool := match nth_error (p_funcs P) f with Some fn => f_cps fn | None => true end.

  (** [evaluation_control_class_with_handle_propagation] (expr.rs:931-1055): true for Direct. *)
  Fixpoint direct (prop : bool) (e : expr) : bool :=
    match e with
    | EPure _ => true
    | ELet _ e1 e2 => direct prop e1 && direct prop e2
    | EIf _ e1 e2 => direct prop e1 && direct prop e2
    | ECall f _ => negb (callee_cps f)
    | ECallV _ _ => false
    | EOp _ _ _ => false
    | EFn _ _ _ => true
    | EHandle _ _ => negb prop
    | EResume _ => false
    end.

  (** ** Arms *)

  (** The handler dispatch closure (handle.rs:592-700, 970-1075): the arms are tried in order, and the last one is taken
      without a test. *)
  Fixpoint op_arm (arms : list arm) (a o : nat) : option arm :=
    match arms with
    | [] => None
    | [m] => Some m
    | (Arm k b p x body as m) :: rest => if (a =? b) && (o =? p) then Some m else op_arm rest a o
    end.

  (** The tail-resumptive dispatch closure (handle.rs:709): only the [fn] arms. *)
  Definition is_fn (m : arm) : bool := match m with Arm KFn _ _ _ _ => true | _ => false end.
  Definition fn_arm (arms : list arm) (a o : nat) : option arm := op_arm (filter is_fn arms) a o.

  (** ** The machine *)

  (** What a continuation closure or a function in continuation-passing style returns: the completion carrier of
      handle.rs (Normal or Escape with an owner), or a bare value. *)
  Inductive answer : Type :=
  | AVal (v : tval)
  | ANormal (v : tval)
  | AEscape (o : nat) (v : tval).

  (** The native stack: what waits for an answer. *)
  Inductive nframe : Type :=
  | NLet (x : nat) (e : expr) (env : tenv) (evp evc : evidence)                           (* let in direct code *)
  | NBind (x : nat) (e : expr) (env : tenv) (evp evc : evidence) (dom : domain) (k : kont) (* direct let in CPS code *)
  | NInvoke (evc : evidence) (k : kont)                                                    (* direct value, then k *)
  | NHandle (o : nat) (h : handler) (env : tenv) (evp evx : evidence) (dom : domain) (k : kont)
  | NResume (o : nat) (evc : evidence) (k : kont)                                          (* resume_into_current *)
  | NRetag (o : nat).                                                                      (* its second half *)

  Inductive tstate : Type :=
  | TDirect (e : expr) (env : tenv) (evp evc : evidence) (N : list nframe)                          (* lower_value *)
  | TComp (dom : domain) (e : expr) (env : tenv) (evp evc : evidence) (k : kont) (N : list nframe)  (* lower_comp *)
  | TInvoke (k : kont) (v : tval) (ev : evidence) (N : list nframe)
  | TAnswer (a : answer) (N : list nframe).

  (** A [handle] (handle.rs:87-334, resolve_evidence.rs:775-890): a fresh owner tag, the evidence extended by the
      handler, and the body called with a continuation that makes a Normal carrier. *)
  Definition enter_handle (next : nat) (dom : domain) (body : expr) (h : handler) (env : tenv) (evp evc : evidence)
      (k : kont) (N : list nframe) : nat * tstate :=
    let evx := ev_extend (h_arms h) (MkMarker next h env) evc in
    (S next, TComp HandleAnswer body env evx evx KNormal (NHandle next h env evp evx dom k :: N)).

  (** One step; [next] is the counter of owner tags.  [evp] is the evidence of the enclosing function, which operations
      use; [evc] the evidence that calls get.  They differ only within the completion arm of a handle. *)
  Definition tstep (next : nat) (s : tstate) : option (nat * tstate) :=
    match s with
    | TDirect e env evp evc N =>
        match e with
        | EPure d => match t_eval env d with Some v => Some (next, TAnswer (AVal v) N) | None => None end
        | ELet x e1 e2 => Some (next, TDirect e1 env evp evc (NLet x e2 env evp evc :: N))
        | EIf d e1 e2 =>
            match t_eval env d with
            | Some (TInt z) => Some (next, TDirect (if Z.eqb z 0 then e2 else e1) env evp evc N)
            | _ => None
            end
        | ECall f ds =>
            match nth_error (p_funcs P) f, t_evals env ds with
            | Some fn, Some vs =>
                if f_cps fn then None else
                match t_bind (f_params fn) vs [] with
                | Some vars => Some (next, TDirect (f_body fn) (TEnv vars None None) evc evc N)
                | None => None
                end
            | _, _ => None
            end
        | EFn a o d =>                       (* [lower_ability_fn_call]; the arm gets the evidence of the caller *)
            match t_eval env d, ev_lookup evp a with
            | Some v, Some m =>
                match fn_arm (h_arms (m_handler m)) a o with
                | Some (Arm _ _ _ x body) => Some (next, TComp TailResume body (t_set x v (m_env m)) evp evp KIdent N)
                | None => None
                end
            | _, _ => None
            end
        | EHandle body h =>                  (* [lower_handle_source] (handle.rs:184): the identity is the completion *)
            Some (enter_handle next HandleAnswer body h env evp evc KIdent N)
        | ECallV _ _ | EOp _ _ _ | EResume _ => None
        end
    | TComp dom e env evp evc k N =>
        if direct (propagates dom) e then Some (next, TDirect e env evp evc (NInvoke evc k :: N))
        else
        match e with
        | ELet x e1 e2 =>                    (* [lower_normalized_block] (expr.rs:1115) *)
            if direct (propagates dom) e1 then Some (next, TDirect e1 env evp evc (NBind x e2 env evp evc dom k :: N))
            else Some (next, TComp dom e1 env evp evc (KBind x e2 env dom k) N)
        | EIf d e1 e2 =>
            match t_eval env d with
            | Some (TInt z) => Some (next, TComp dom (if Z.eqb z 0 then e2 else e1) env evp evc k N)
            | _ => None
            end
        | ECall f ds =>                      (* [lower_cps_call_expr] (expr.rs:1291) *)
            match nth_error (p_funcs P) f, t_evals env ds with
            | Some fn, Some vs =>
                match t_bind (f_params fn) vs [] with
                | Some vars => Some (next, TComp Ambient (f_body fn) (TEnv vars None None) evc evc k N)
                | None => None
                end
            | _, _ => None
            end
        | ECallV x ds =>
            match t_get (t_vars env) x, t_evals env ds with
            | Some (TLam xs body (TEnv vars r o)), Some vs =>
                match t_bind xs vs vars with
                | Some vars' => Some (next, TComp Ambient body (TEnv vars' r o) evc evc k N)
                | None => None
                end
            | _, _ => None
            end
        | EOp a o d =>                       (* the arm runs with the evidence of the code that performs *)
            match t_eval env d, ev_lookup evp a with
            | Some v, Some m =>
                match op_arm (h_arms (m_handler m)) a o with
                | Some (Arm KOp _ _ x body) =>
                    Some (next, TComp HandleAnswer body
                                  (TEnv ((x, v) :: t_vars (m_env m)) (Some k) (Some (m_owner m))) evp evp (KEscape (m_owner m)) N)
                | _ => None
                end
            | _, _ => None
            end
        | EHandle body h => Some (enter_handle next dom body h env evp evc k N)
        | EResume d =>                       (* [lower_resume_comp], [resume_into_current] (control.rs:130-310) *)
            match t_eval env d, t_resume env, t_owner env with
            | Some v, Some kc, Some o => Some (next, TInvoke kc v evc (NResume o evc k :: N))
            | _, _, _ => None
            end
        | EPure _ | EFn _ _ _ => None
        end
    | TInvoke k v ev N =>
        match k with
        | KBind x e env dom k' => Some (next, TComp dom e (t_set x v env) ev ev k' N)
        | KNormal => Some (next, TAnswer (ANormal v) N)
        | KEscape o => Some (next, TAnswer (AEscape o v) N)
        | KIdent => Some (next, TAnswer (AVal v) N)
        end
    | TAnswer a [] => None
    | TAnswer a (f :: N) =>
        match f, a with
        | NLet x e env evp evc, AVal v => Some (next, TDirect e (t_set x v env) evp evc N)
        | NBind x e env evp evc dom k, AVal v => Some (next, TComp dom e (t_set x v env) evp evc k N)
        | NInvoke evc k, AVal v => Some (next, TInvoke k v evc N)
        (* [lower_handle_dispatch] (lower_handle_dispatch.rs:120-400), done region (handle.rs:406-475) *)
        | NHandle _ h env evp evx dom k, ANormal v =>
            match h_do h with
            | Some (x, e) => Some (next, TComp dom e (t_set x v env) evp evx k N)
            | None => Some (next, TInvoke k v evx N)
            end
        | NHandle o h env evp evx dom k, AEscape o' v =>
            if o' =? o then Some (next, TInvoke k v evp N) else Some (next, TAnswer (AEscape o' v) N)
        | NResume o evc k, ANormal v => Some (next, TInvoke k v evc (NRetag o :: N))
        | NResume _ _ _, AEscape o' v => Some (next, TAnswer (AEscape o' v) N)
        | NRetag o, AEscape o' v => Some (next, TAnswer (if o' =? o then ANormal v else AEscape o' v) N)
        (* control.rs:184: the answer is cast to Escape without a test.  On the native target the word read as the owner
           is then part of the payload; it is assumed not to be the owner, so the answer is passed on. *)
        | NRetag _, ANormal v => if checked then None else Some (next, TAnswer (ANormal v) N)
        | _, _ => None
        end
    end.

  (** Root [main] (decl.rs:470-500): compiled as a value if nothing outside of its handles transfers control, else with
      the identity as continuation. *)
  Definition tstart : nat * tstate :=
    let env := TEnv [] None None in
    (0, if direct false (p_main P) then TDirect (p_main P) env [] [] []
        else TComp Ambient (p_main P) env [] [] KIdent []).

  Fixpoint trun (n : nat) (s : nat * tstate) : option (nat * tstate) :=
    match n with
    | 0 => Some s
    | S n => match tstep (fst s) (snd s) with Some s' => trun n s' | None => None end
    end.
End Program.
