(** What a program does when it runs, and when it is well typed.

    The evaluator is independent of types.  It is [Wrong] exactly when an operation meets a
    value of the wrong kind: calling something that is not a function or with another number
    of arguments, a condition that is not a truth value, matching a value against a pattern
    for another kind of value, an unbound variable. *)
From Verif Require Export InferModel UnifySpec.

(** * Running *)

Inductive value :=
| VLit (l : lit)
| VTuple (vs : list value)
| VList (vs : list value)
| VData (c : nat) (vs : list value)
| VClos (rho : list (nat * value)) (xs : list nat) (body : expr)
| VFn (f : nat)
| VCtor (c : nat).

Inductive res := Val (v : value) | Wrong | NoMatch | Timeout.
Inductive mres := Yes (bs : list (nat * value)) | No | Bad.

Definition lit_eq (a b : lit) : option bool :=
  match a, b with
  | LNat x, LNat y => Some (N.eqb x y)
  | LInt x, LInt y => Some (Z.eqb x y)
  | LBool x, LBool y => Some (Bool.eqb x y)
  | LText x, LText y => Some (String.eqb x y)
  | LNil, LNil => Some true
  | _, _ => None
  end.

Definition find_value (rho : list (nat * value)) (x : nat) : option value :=
  option_map snd (List.find (fun b => Nat.eqb (fst b) x) rho).

Section Run.
  Variable cs : list cdecl.
  Variable ds : list fdecl.

  Fixpoint matches (p : pat) (v : value) {struct p} : mres :=
    let all := fix all (ps : list pat) (vs : list value) : mres :=
      match ps, vs with
      | [], [] => Yes []
      | p :: ps, v :: vs =>
          match matches p v with
          | Yes bs => match all ps vs with Yes cs => Yes (bs ++ cs) | r => r end
          | r => r
          end
      | _, _ => Bad
      end in
    match p with
    | PWild _ => Yes []
    | PBind _ x => Yes [(x, v)]
    | PLit _ l => match v with
                  | VLit l' => match lit_eq l l' with Some true => Yes [] | Some false => No | None => Bad end
                  | _ => Bad
                  end
    | PTuple _ ps => match v with VTuple vs => all ps vs | _ => Bad end
    | PVariant _ c ps =>
        match v with
        | VData c' vs =>
            match nth_error cs c, nth_error cs c' with
            | Some k, Some k' =>
                if tydef_eqb (cd_type k) (cd_type k') then if Nat.eqb c c' then all ps vs else No else Bad
            | _, _ => Bad
            end
        | _ => Bad
        end
    | PList _ ps =>
        match v with
        | VList vs => if Nat.eqb (List.length ps) (List.length vs) then all ps vs else No
        | _ => Bad
        end
    | PRest _ ps rest =>
        match v with
        | VList vs =>
            if Nat.leb (List.length ps) (List.length vs) then
              match all ps (firstn (List.length ps) vs) with
              | Yes bs => Yes (bs ++ match rest with
                                     | Some x => [(x, VList (skipn (List.length ps) vs))]
                                     | None => []
                                     end)
              | r => r
              end
            else No
        | _ => Bad
        end
    | PAs _ p x => match matches p v with Yes bs => Yes ((x, v) :: bs) | r => r end
    end.

  Section Go.
    (** Running the body of a function. *)
    Variable call : list (nat * value) -> expr -> res.

    Definition apply (f : value) (vs : list value) : res :=
      match f with
      | VClos rho xs body =>
          if Nat.eqb (List.length xs) (List.length vs) then call (combine xs vs ++ rho) body else Wrong
      | VFn f => match nth_error ds f with
                 | Some d => if Nat.eqb (List.length (fd_params d)) (List.length vs)
                             then call (combine (fd_params d) vs) (fd_body d) else Wrong
                 | None => Wrong
                 end
      | VCtor c => match nth_error cs c with
                   | Some k => if Nat.eqb (List.length (cd_fields k)) (List.length vs) then Val (VData c vs) else Wrong
                   | None => Wrong
                   end
      | _ => Wrong
      end.

    Definition condition (r : res) (k : bool -> res) : res :=
      match r with
      | Val (VLit (LBool b)) => k b
      | Val _ => Wrong
      | r => r
      end.

    Fixpoint go (rho : list (nat * value)) (e : expr) {struct e} : res :=
      let all := fix all (es : list expr) (k : list value -> res) : res :=
        match es with
        | [] => k []
        | e :: es => match go rho e with Val v => all es (fun vs => k (v :: vs)) | r => r end
        end in
      match e with
      | ELit l => Val (VLit l)
      | EVar _ x => match find_value rho x with Some v => Val v | None => Wrong end
      | EFn f => match nth_error ds f with Some _ => Val (VFn f) | None => Wrong end
      | ECall c args => match go rho c with Val f => all args (apply f) | r => r end
      | ECons c args =>
          match nth_error cs c with
          | None => Wrong
          | Some k =>
              match args with
              | [] => Val (match cd_fields k with [] => VData c [] | _ => VCtor c end)
              | _ => all args (apply (VCtor c))
              end
          end
      | ELam _ params body => Val (VClos rho (List.map fst params) body)
      | ETuple es => all es (fun vs => Val (VTuple vs))
      | EList es => all es (fun vs => Val (VList vs))
      | ELogic both a b =>
          condition (go rho a) (fun x =>
            if Bool.eqb x both then condition (go rho b) (fun y => Val (VLit (LBool y)))
            else Val (VLit (LBool x)))
      | EBlock ss v =>
          (fix block (rho : list (nat * value)) (ss : list (option (pat * option ty) * expr)) : res :=
             match ss with
             | [] => go rho v
             | (k, e) :: ss =>
                 match go rho e with
                 | Val v => match k with
                            | None => block rho ss
                            | Some (p, _) => match matches p v with
                                             | Yes bs => block (bs ++ rho) ss
                                             | No => NoMatch
                                             | Bad => Wrong
                                             end
                            end
                 | r => r
                 end
             end) rho ss
      | ECase s arms =>
          match go rho s with
          | Val v =>
              (fix choose (arms : list (pat * option expr * expr)) : res :=
                 match arms with
                 | [] => NoMatch
                 | (p, g, body) :: arms =>
                     match matches p v with
                     | Yes bs => match g with
                                 | None => go (bs ++ rho) body
                                 | Some g => condition (go (bs ++ rho) g)
                                               (fun b => if b : bool then go (bs ++ rho) body else choose arms)
                                 end
                     | No => choose arms
                     | Bad => Wrong
                     end
                 end) arms
          | r => r
          end
      end.
  End Go.

  (** [fuel] bounds the depth of calls. *)
  Fixpoint eval (fuel : nat) : list (nat * value) -> expr -> res :=
    go (match fuel with O => fun _ _ => Timeout | S fuel => eval fuel end).
End Run.

(** * Types of values and the typing rules *)

(** A type, without names and calling conventions. *)
Inductive styp :=
| SPrim (p : prim)
| SData (d : tydef) (args : list styp)
| SFun (ps : list styp) (r : styp)
| STuple (ts : list styp)
| SApp (c : styp) (args : list styp)
| SCont (a r : styp)
| SRigid (n : nat).

(** What a type of the checker stands for, given its variables and its type parameters. *)
Fixpoint mean (th be : nat -> styp) (t : ty) {struct t} : styp :=
  match t with
  | TPrim p => SPrim p
  | TBound i => be i
  | TUni v => th v
  | TNamed d _ xs => SData d (List.map (mean th be) xs)
  | TFunc ps r _ _ => SFun (List.map (mean th be) ps) (mean th be r)
  | TTuple xs => STuple (List.map (mean th be) xs)
  | TApp c xs => SApp (mean th be c) (List.map (mean th be) xs)
  | TCont a r _ => SCont (mean th be a) (mean th be r)
  | TLocal _ _ | TError => SRigid 0
  end.

Definition none : nat -> styp := fun _ => SRigid 0.
(** The instances of a signature. *)
Definition instance (sc : poly) (t : styp) : Prop := exists be, t = mean none be (snd sc).

Definition SBool : styp := SPrim PBool.
Definition SList (t : styp) : styp := SData (mkTyDef BuiltinList "List") [t].
Definition lit_styp (l : lit) : styp :=
  match l with
  | LNat _ => SPrim PNat
  | LInt _ => SPrim PInt
  | LBool _ => SBool
  | LText _ => SData (mkTyDef Synthetic "String") []
  | LNil => SPrim PNil
  end.

Fixpoint pvars (p : pat) : list nat :=
  match p with
  | PWild _ | PLit _ _ => []
  | PBind _ x => [x]
  | PVariant _ _ ps | PTuple _ ps | PList _ ps => flat_map pvars ps
  | PRest _ ps rest => flat_map pvars ps ++ match rest with Some x => [x] | None => [] end
  | PAs _ p x => x :: pvars p
  end.

Section Typing.
  (** The types of functions and of constructors. *)
  Variables G K : nat -> styp -> Prop.

  (** Pattern [p] is for values of type [t] and gives its variables the types [bs]. *)
  Fixpoint ptyped (p : pat) (t : styp) (bs : list (nat * styp)) {struct p} : Prop :=
    let all := fix all (ps : list pat) (ts : list styp) (bs : list (nat * styp)) : Prop :=
      match ps, ts with
      | [], [] => bs = []
      | p :: ps, t :: ts => exists b1 b2, bs = b1 ++ b2 /\ ptyped p t b1 /\ all ps ts b2
      | _, _ => False
      end in
    match p with
    | PWild _ => bs = []
    | PBind _ x => bs = [(x, t)]
    | PLit _ l => t = lit_styp l /\ bs = []
    | PVariant _ c ps =>
        match ps with
        | [] => K c t /\ (forall ps r, t <> SFun ps r) /\ bs = []
        | _ => exists ts, K c (SFun ts t) /\ all ps ts bs
        end
    | PTuple _ ps => exists ts, t = STuple ts /\ all ps ts bs
    | PList _ ps => exists u, t = SList u /\ all ps (repeat u (List.length ps)) bs
    | PRest _ ps rest =>
        exists u b, t = SList u /\ all ps (repeat u (List.length ps)) b /\
                    bs = b ++ match rest with Some x => [(x, t)] | None => [] end
    | PAs _ p x => exists b, bs = (x, t) :: b /\ ptyped p t b
    end.

  (** The variables [bs] at one type each; every other variable as before. *)
  Definition extend (g : nat -> styp -> Prop) (bs : list (nat * styp)) : nat -> styp -> Prop :=
    fun x t => if existsb (Nat.eqb x) (List.map fst bs) then In (x, t) bs else g x t.

  (** [e] has type [t] where variable [x] may be used at every type in [g x]. *)
  Fixpoint typed (g : nat -> styp -> Prop) (e : expr) (t : styp) {struct e} : Prop :=
    let all := fix all (es : list expr) (ts : list styp) : Prop :=
      match es, ts with
      | [], [] => True
      | e :: es, t :: ts => typed g e t /\ all es ts
      | _, _ => False
      end in
    match e with
    | ELit l => t = lit_styp l
    | EVar _ x => g x t
    | EFn f => G f t
    | ECall c args => exists ts, typed g c (SFun ts t) /\ all args ts
    | ECons c args =>
        match args with
        | [] => K c t
        | _ => exists ts, K c (SFun ts t) /\ all args ts
        end
    | ELam _ params body =>
        exists ts r, t = SFun ts r /\ List.length ts = List.length params /\ NoDup (List.map fst params) /\
          typed (extend g (combine (List.map fst params) ts)) body r
    | ETuple es => exists ts, t = STuple ts /\ all es ts
    | EList es => exists u, t = SList u /\ all es (repeat u (List.length es))
    | ELogic _ a b => t = SBool /\ typed g a SBool /\ typed g b SBool
    | EBlock ss v =>
        (fix block (g : nat -> styp -> Prop) (ss : list (option (pat * option ty) * expr)) : Prop :=
           match ss with
           | [] => typed g v t
           | (k, e) :: ss =>
               match k with
               | None => (exists u, typed g e u) /\ block g ss
               | Some (p, _) =>
                   (* the variables of [p] may be used at all the types that typings of [e] give them *)
                   NoDup (pvars p) /\
                   exists g' : nat -> styp -> Prop,
                     (exists u bs, typed g e u /\ ptyped p u bs) /\
                     (forall x w, g' x w ->
                        if existsb (Nat.eqb x) (pvars p)
                        then exists u bs, typed g e u /\ ptyped p u bs /\ In (x, w) bs
                        else g x w) /\
                     block g' ss
               end
           end) g ss
    | ECase s arms =>
        exists u, typed g s u /\
        (fix each (arms : list (pat * option expr * expr)) : Prop :=
           match arms with
           | [] => True
           | (p, h, body) :: arms =>
               (NoDup (pvars p) /\ exists bs, ptyped p u bs /\
                 match h with Some h => typed (extend g bs) h SBool | None => True end /\
                 typed (extend g bs) body t) /\
               each arms
           end) arms
    end.

  (** Values of a type.  A closure is a value of a function type if its body is well typed
      for some typing of the variables it has captured. *)
  Inductive has_type : value -> styp -> Prop :=
  | H_lit l : has_type (VLit l) (lit_styp l)
  | H_tuple vs ts : Forall2 has_type vs ts -> has_type (VTuple vs) (STuple ts)
  | H_list vs u : Forall (fun v => has_type v u) vs -> has_type (VList vs) (SList u)
  | H_unit c t : K c t -> (forall ps r, t <> SFun ps r) -> has_type (VData c []) t
  | H_data c vs ts t : vs <> [] -> K c (SFun ts t) -> Forall2 has_type vs ts -> has_type (VData c vs) t
  | H_ctor c ts t : K c (SFun ts t) -> has_type (VCtor c) (SFun ts t)
  | H_fn f t : G f t -> has_type (VFn f) t
  | H_clos rho xs body g ts r :
      List.length ts = List.length xs -> NoDup xs ->
      typed (extend g (combine xs ts)) body r ->
      (forall x t, g x t -> find_value rho x <> None) ->
      (forall x t v, g x t -> find_value rho x = Some v -> has_type v t) ->
      has_type (VClos rho xs body) (SFun ts r).
End Typing.

(** * Well-formed programs *)

(** The ids of pattern nodes and of references to local variables. *)
Fixpoint pat_ids (p : pat) : list nat :=
  match p with
  | PWild i | PBind i _ | PLit i _ => [i]
  | PVariant i _ ps | PTuple i ps | PList i ps | PRest i ps _ => i :: flat_map pat_ids ps
  | PAs i p _ => i :: pat_ids p
  end.
Fixpoint ref_ids (e : expr) : list nat :=
  match e with
  | ELit _ | EFn _ => []
  | EVar i _ => [i]
  | ECall c args => ref_ids c ++ flat_map ref_ids args
  | ECons _ es | ETuple es | EList es => flat_map ref_ids es
  | ELam _ _ b => ref_ids b
  | ELogic _ a b => ref_ids a ++ ref_ids b
  | EBlock ss v => flat_map (fun s : option (pat * option ty) * expr => match s with (_, e) => ref_ids e end) ss ++ ref_ids v
  | ECase s arms =>
      ref_ids s ++
      flat_map (fun a : pat * option expr * expr =>
                  match a with
                  | (_, g, b) => match g with Some g => ref_ids g | None => [] end ++ ref_ids b
                  end) arms
  end.

Definition plain_ann (a : option ty) : Prop := match a with Some t => first_order t | None => True end.
Definition wf_pat (p : pat) : Prop := NoDup (pvars p) /\ NoDup (pat_ids p).

(** No pattern or parameter list binds a name twice, and annotations are types without
    effects, type parameters and [Never]. *)
Fixpoint wf (e : expr) : Prop :=
  let all := fix all (es : list expr) : Prop := match es with [] => True | e :: es => wf e /\ all es end in
  match e with
  | ELit _ | EFn _ | EVar _ _ => True
  | ECall c args => wf c /\ all args
  | ECons _ es | ETuple es | EList es => all es
  | ELam _ ps b => NoDup (List.map fst ps) /\ Forall (fun p => plain_ann (snd p)) ps /\ wf b
  | ELogic _ a b => wf a /\ wf b
  | EBlock ss v =>
      (fix go (ss : list (option (pat * option ty) * expr)) : Prop :=
         match ss with
         | [] => wf v
         | (k, e) :: ss => match k with Some (p, a) => wf_pat p /\ plain_ann a | None => True end /\ wf e /\ go ss
         end) ss
  | ECase s arms =>
      wf s /\
      (fix go (arms : list (pat * option expr * expr)) : Prop :=
         match arms with
         | [] => True
         | (p, g, b) :: arms => (wf_pat p /\ match g with Some g => wf g | None => True end /\ wf b) /\ go arms
         end) arms
  end.

(** A signature that is closed: no variables, its parameters numbered below [fst sc]. *)
Definition plain_sig (sc : poly) : Prop :=
  univars (snd sc) = [] /\ Forall (fun i => i < fst sc) (bounds (snd sc)) /\
  first_order (plug (fun _ => TPrim PNil) (snd sc)).

(** The functions an expression mentions. *)
Fixpoint mentions (f : nat) (e : expr) {struct e} : Prop :=
  let any := fix any (es : list expr) : Prop := match es with [] => False | e :: es => mentions f e \/ any es end in
  match e with
  | ELit _ | EVar _ _ => False
  | EFn h => f = h
  | ECall c args => mentions f c \/ any args
  | ECons _ args => any args
  | ELam _ _ b => mentions f b
  | ETuple es | EList es => any es
  | ELogic _ a b => mentions f a \/ mentions f b
  | EBlock ss v =>
      (fix go (ss : list (option (pat * option ty) * expr)) : Prop :=
         match ss with [] => False | (_, e) :: ss => mentions f e \/ go ss end) ss \/ mentions f v
  | ECase s arms =>
      mentions f s \/
      (fix go (l : list (pat * option expr * expr)) : Prop :=
         match l with
         | [] => False
         | (_, g, b) :: l => match g with Some g => mentions f g | None => False end \/ mentions f b \/ go l
         end) arms
  end.

(** The types at which constructors and functions may be used: the instances of what is
    registered for them. *)
Definition ctor_types (cs : list cdecl) (c : nat) (t : styp) : Prop :=
  exists k, nth_error cs c = Some k /\ instance (ctor_poly k) t.
Definition sig_types (sigs : list poly) (f : nat) (t : styp) : Prop :=
  exists sc, nth_error sigs f = Some sc /\ instance sc t.

(** Programs name resolution lets through: declared types are the program's own, signatures
    are closed, and no function names a parameter twice. *)
Record program_ok (cs : list cdecl) (ds : list fdecl) : Prop := {
  po_source : forall k, In k cs -> exists n, td_origin (cd_type k) = Source n;
  po_ctors : forall k, In k cs -> plain_sig (ctor_poly k);
  po_sigs : forall d, In d ds -> plain_sig (declared d);
  po_lengths : forall d, In d ds -> List.length (fd_params d) = List.length (fd_types d);
  po_params : forall d, In d ds -> NoDup (fd_params d);
  po_bodies : forall d, In d ds -> wf (fd_body d) /\ NoDup (ref_ids (fd_body d)) }.

(** What the checker knows when it comes to function [i]: the final signatures of the
    functions before it and the declared ones of the others. *)
Definition sigs_at (ds : list fdecl) (sigs : list poly) (i : nat) : list poly :=
  firstn i sigs ++ skipn i (List.map declared ds).

(** Whoever uses a function that has not been checked yet relies on its declared signature;
    it must not promise more than the checked one. *)
Definition no_early_promises (ds : list fdecl) (sigs : list poly) : Prop :=
  forall i d j t, nth_error ds i = Some d -> mentions j (fd_body d) -> i <= j ->
    sig_types (List.map declared ds) j t -> sig_types sigs j t.
