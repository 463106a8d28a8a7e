(** Conversion targets: registration, legality and verification.
    crates/trunk-ir/src/rewrite/conversion_target.rs

    Symbols are numbers; hash sets and maps are lists searched by key (the code
    never iterates over them).  Dynamic rules are arbitrary functions of the IR and
    the operation.  [dialect] and [name] read an operation's dialect and name off its
    opaque kind (IrModel). *)
From Verif Require Export Base IrModel.

(** conversion_target.rs:17-25 *)
Inductive legality := Legal | Illegal | Unknown.
(** conversion_target.rs:28-36; [into_check] (38-46) maps [Defer] to [None]. *)
Inductive decision := DLegal | DIllegal | Defer.
Definition into_check (d : decision) : option legality :=
  match d with DLegal => Some Legal | DIllegal => Some Illegal | Defer => None end.
Definition check := ctx -> nat -> decision.
(** conversion_target.rs:53-63 *)
Inductive mode := Partial | Full.

Definition key := (nat * nat)%type.
Definition key_eqb (a b : key) : bool := Nat.eqb (fst a) (fst b) && Nat.eqb (snd a) (snd b).
Definition has_key (l : list key) (k : key) : bool := existsb (key_eqb k) l.
Definition has_sym (l : list nat) (k : nat) : bool := existsb (Nat.eqb k) l.
Fixpoint find {K} (eqb : K -> K -> bool) (l : list (K * check)) (k : K) : option check :=
  match l with
  | [] => None
  | (k', f) :: r => if eqb k k' then Some f else find eqb r k
  end.

(** conversion_target.rs:69-88 *)
Record target := { legal_dialects : list nat; illegal_dialects : list nat;
                   legal_ops : list key; illegal_ops : list key;
                   recursive_legal_ops : list key; recursive_dynamic_ops : list key;
                   dynamic_ops : list (key * check); dynamic_dialects : list (nat * check);
                   dynamic_unknown : option check }.
Definition new_target : target :=
  {| legal_dialects := []; illegal_dialects := []; legal_ops := []; illegal_ops := []; recursive_legal_ops := [];
     recursive_dynamic_ops := []; dynamic_ops := []; dynamic_dialects := []; dynamic_unknown := None |}.

Inductive reg :=
| LegalDialect (d : nat) | IllegalDialect (d : nat)
| LegalOp (k : key) | IllegalOp (k : key)
| RecursiveLegalOp (k : key) | RecursiveDynamicOp (k : key)
| DynamicOp (k : key) (f : check) | DynamicDialect (d : nat) (f : check) | DynamicUnknown (f : check).

(** conversion_target.rs:174-337: each registration asserts before inserting. *)
Definition register (t : target) (r : reg) : option target :=
  let '{| legal_dialects := ld; illegal_dialects := id; legal_ops := lo; illegal_ops := io; recursive_legal_ops := rl;
          recursive_dynamic_ops := rd; dynamic_ops := dyo; dynamic_dialects := dyd; dynamic_unknown := du |} := t in
  match r with
  | LegalDialect d =>
      if has_sym id d || has_sym ld d then None
      else Some {| legal_dialects := d :: ld; illegal_dialects := id; legal_ops := lo; illegal_ops := io; recursive_legal_ops := rl;
                   recursive_dynamic_ops := rd; dynamic_ops := dyo; dynamic_dialects := dyd; dynamic_unknown := du |}
  | IllegalDialect d =>
      if has_sym ld d || has_sym id d then None
      else Some {| legal_dialects := ld; illegal_dialects := d :: id; legal_ops := lo; illegal_ops := io; recursive_legal_ops := rl;
                   recursive_dynamic_ops := rd; dynamic_ops := dyo; dynamic_dialects := dyd; dynamic_unknown := du |}
  | LegalOp k =>
      if has_key io k || has_key lo k then None
      else Some {| legal_dialects := ld; illegal_dialects := id; legal_ops := k :: lo; illegal_ops := io; recursive_legal_ops := rl;
                   recursive_dynamic_ops := rd; dynamic_ops := dyo; dynamic_dialects := dyd; dynamic_unknown := du |}
  | IllegalOp k =>
      if has_key lo k || has_key io k then None
      else Some {| legal_dialects := ld; illegal_dialects := id; legal_ops := lo; illegal_ops := k :: io; recursive_legal_ops := rl;
                   recursive_dynamic_ops := rd; dynamic_ops := dyo; dynamic_dialects := dyd; dynamic_unknown := du |}
  | RecursiveLegalOp k =>
      if negb (has_key lo k) || has_key rl k then None
      else Some {| legal_dialects := ld; illegal_dialects := id; legal_ops := lo; illegal_ops := io; recursive_legal_ops := k :: rl;
                   recursive_dynamic_ops := rd; dynamic_ops := dyo; dynamic_dialects := dyd; dynamic_unknown := du |}
  | RecursiveDynamicOp k =>
      match find key_eqb dyo k with
      | None => None
      | Some _ =>
          if has_key rd k then None
          else Some {| legal_dialects := ld; illegal_dialects := id; legal_ops := lo; illegal_ops := io; recursive_legal_ops := rl;
                       recursive_dynamic_ops := k :: rd; dynamic_ops := dyo; dynamic_dialects := dyd; dynamic_unknown := du |}
      end
  | DynamicOp k f =>
      match find key_eqb dyo k with
      | Some _ => None
      | None => Some {| legal_dialects := ld; illegal_dialects := id; legal_ops := lo; illegal_ops := io; recursive_legal_ops := rl;
                        recursive_dynamic_ops := rd; dynamic_ops := (k, f) :: dyo; dynamic_dialects := dyd; dynamic_unknown := du |}
      end
  | DynamicDialect d f =>
      match find Nat.eqb dyd d with
      | Some _ => None
      | None => Some {| legal_dialects := ld; illegal_dialects := id; legal_ops := lo; illegal_ops := io; recursive_legal_ops := rl;
                        recursive_dynamic_ops := rd; dynamic_ops := dyo; dynamic_dialects := (d, f) :: dyd; dynamic_unknown := du |}
      end
  | DynamicUnknown f =>
      match du with
      | Some _ => None
      | None => Some {| legal_dialects := ld; illegal_dialects := id; legal_ops := lo; illegal_ops := io; recursive_legal_ops := rl;
                        recursive_dynamic_ops := rd; dynamic_ops := dyo; dynamic_dialects := dyd; dynamic_unknown := Some f |}
      end
  end.
Fixpoint register_all (t : target) (rs : list reg) : option target :=
  match rs with
  | [] => Some t
  | r :: rest => match register t r with Some t' => register_all t' rest | None => None end
  end.

Section check.
  Variables dialect name : nat -> nat.
  Definition key_of (c : ctx) (o : nat) : key :=
    match nth_error (ops c) o with Some d => (dialect (o_kind d), name (o_kind d)) | None => (0, 0) end.

  Definition decided (f : option check) (c : ctx) (o : nat) : option legality :=
    match f with Some g => into_check (g c o) | None => None end.
  (** conversion_target.rs:361-400 *)
  Definition is_legal (t : target) (c : ctx) (o : nat) : legality :=
    let k := key_of c o in
    match decided (find key_eqb (dynamic_ops t) k) c o with
    | Some r => r
    | None =>
        if has_key (legal_ops t) k then Legal
        else if has_key (illegal_ops t) k then Illegal
        else
          match decided (find Nat.eqb (dynamic_dialects t) (fst k)) c o with
          | Some r => r
          | None =>
              if has_sym (legal_dialects t) (fst k) then Legal
              else if has_sym (illegal_dialects t) (fst k) then Illegal
              else match decided (dynamic_unknown t) c o with Some r => r | None => Unknown end
          end
    end.
  Definition legality_eqb (a b : legality) : bool :=
    match a, b with Legal, Legal | Illegal, Illegal | Unknown, Unknown => true | _, _ => false end.
  (** conversion_target.rs:403-415 *)
  Definition is_recursively_legal (t : target) (c : ctx) (o : nat) : bool :=
    let k := key_of c o in
    (has_key (recursive_dynamic_ops t) k &&
     match find key_eqb (dynamic_ops t) k with
     | Some f => match f c o with DLegal => true | _ => false end
     | None => false
     end) ||
    (has_key (recursive_legal_ops t) k && legality_eqb (is_legal t c o) Legal).
  (** conversion_target.rs:449-452 *)
  Definition failed (m : mode) (l : legality) : bool :=
    match m with
    | Partial => legality_eqb l Illegal
    | Full => negb (legality_eqb l Legal)
    end.
  (** conversion_target.rs:439-473; the failure list in walk order, each with its
      dialect, name and legality. *)
  Definition verify_mode (fuel : nat) (t : target) (c : ctx) (r : nat) (m : mode) : option (list (nat * key * legality)) :=
    let visit (acc : list (nat * key * legality)) (o : nat) :=
      let l := is_legal t c o in
      (if failed m l then acc ++ [(o, key_of c o, l)] else acc,
       if is_recursively_legal t c o then Skip else Advance (B := unit)) in
    match walk_region fuel c visit [] r with
    | Continued acc => Some acc
    | _ => None
    end.
End check.
