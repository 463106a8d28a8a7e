(** Effect row utilities.
    Models crates/tribute-front/src/typeck/effect_row.rs, the row substitution of
    crates/tribute-front/src/typeck/solver.rs:662-713, the duplicate search of
    crates/tribute-front/src/ast/types.rs:475-517, the calling convention of a row
    (crates/tribute-front/src/ast/calling_convention.rs) and the effect diagnostics of
    crates/tribute-front/src/typeck/checker/func_check.rs:268-350. *)
From Coq Require Import Ascii.
From Verif Require Export TyModel.
From Verif Require Import InternModel PathModel.

(** [AbilityId::name], phases.rs:263-265: the last segment of the qualified name. *)
Definition ability_name (a : ability) : string := last_segment_of (ab_qualified a).

(** [Vec::contains] on effects. *)
Definition has_effect (es : list effect) (e : effect) : bool := existsb (fun x => effect_eqb x e) es.

(** effect_row.rs:37-43. *)
Definition contains (r : row) (e : effect) : bool := has_effect (fst r) e.

(** effect_row.rs:46-54. *)
Definition contains_by_name (r : row) (name : string) : bool :=
  existsb (fun e => String.eqb (ability_name (fst e)) name) (fst r).

(** effect_row.rs:60-70. *)
Definition find_by_name (r : row) (name : string) : list effect :=
  filter (fun e => String.eqb (ability_name (fst e)) name) (fst r).

(** effect_row.rs:73-83. *)
Definition add_effect (r : row) (e : effect) : row :=
  (if has_effect (fst r) e then fst r else fst r ++ [e], snd r).

(** [position] followed by [Vec::remove]: drop the first occurrence. *)
Fixpoint remove_first (es : list effect) (e : effect) : option (list effect) :=
  match es with
  | [] => None
  | x :: es => if effect_eqb x e then Some es
               else match remove_first es e with Some es' => Some (x :: es') | None => None end
  end.

(** effect_row.rs:88-101. *)
Definition remove_effect (r : row) (e : effect) : option row :=
  match remove_first (fst r) e with
  | Some es => Some (es, snd r)
  | None => None
  end.

(** [RemoveResult], effect_row.rs:17-34. *)
Inductive remove_result :=
| Removed (r : row)
| NeedsConstraint (var : nat) (must_contain : effect) (remainder : nat)
| NotFound.

(** effect_row.rs:107-129.  [fresh] is what the caller's generator would return. *)
Definition remove_with_constraint (r : row) (e : effect) (fresh : nat) : remove_result :=
  if contains r e then
    match remove_effect r e with
    | Some r' => Removed r'
    | None => NotFound (* the unwrap of line 116; unreachable *)
    end
  else match snd r with
       | Some tail => NeedsConstraint tail e fresh
       | None => NotFound
       end.

(** Appending the effects of [es2] that are not there yet, effect_row.rs:138-143 and
    solver.rs:702-707. *)
Fixpoint add_all (es1 es2 : list effect) : list effect :=
  match es2 with
  | [] => es1
  | e :: es2 => add_all (if has_effect es1 e then es1 else es1 ++ [e]) es2
  end.

(** effect_row.rs:132-152. *)
Definition union (r1 r2 : row) (fresh : nat) : row :=
  (add_all (fst r1) (fst r2),
   match snd r1, snd r2 with
   | None, None => None
   | Some v, None | None, Some v => Some v
   | Some _, Some _ => Some fresh
   end).

(** effect_row.rs:162-181.  [seen] is the hash set. *)
Fixpoint conflicts (all seen rest : list effect) : option (ability * list effect) :=
  match rest with
  | [] => None
  | e :: rest =>
      if has_effect seen e then Some (fst e, filter (fun x => effect_eqb x e) all)
      else conflicts all (e :: seen) rest
  end.
Definition find_conflicting_effects (r : row) : option (ability * list effect) :=
  conflicts (fst r) [] (fst r).

(** [EffectAnnotationOrigins::find_duplicate], types.rs:486-517.  [origins] are the node ids
    of the concrete annotations; [first] is the hash map from effects to their first
    annotation. *)
Fixpoint duplicate (annotated : list effect) (first : list (effect * nat)) (rest : list (effect * nat))
  : option (list effect * nat * nat) :=
  match rest with
  | [] => None
  | (e, id) :: rest =>
      match mget effect_eqb first e with
      | Some id0 => Some (filter (fun x => effect_eqb x e) annotated, id0, id)
      | None => duplicate annotated (minsert effect_eqb first e id) rest
      end
  end.
Definition find_duplicate (origins : list nat) (r : row) : option (list effect * nat * nat) :=
  let annotated := firstn (Nat.min (List.length (fst r)) (List.length origins)) (fst r) in
  duplicate annotated [] (combine annotated origins).

(** [RowSubst], solver.rs:662-685. *)
Definition row_subst := list (nat * row).
Definition rget (s : row_subst) (v : nat) : option row := mget Nat.eqb s v.

(** [RowSubst::apply], solver.rs:691-713: follow the tail variable, remembering the
    variables already followed.  [None]: the loop did not stop within [fuel] rounds. *)
Fixpoint rloop (fuel : nat) (s : row_subst) (visited : list nat) (r : row) : option row :=
  match fuel with
  | O => None
  | S fuel =>
      match snd r with
      | None => Some r
      | Some v =>
          match rget s v with
          | None => Some r
          | Some r' =>
              if existsb (Nat.eqb v) visited then Some r
              else rloop fuel s (v :: visited) (add_all (fst r) (fst r'), snd r')
          end
      end
  end.

(** The rounds never run out ([rloop_total]), so the default is never used. *)
Definition rapply (s : row_subst) (r : row) : row :=
  match rloop (S (List.length s)) s [] r with
  | Some r' => r'
  | None => r
  end.

(** [CallingConvention::join] is [max] of the declaration order, calling_convention.rs:42-44. *)
Definition conv_rank (c : conv) : nat :=
  match c with Direct => 0 | EvidenceDirect => 1 | Cps => 2 end.
Definition conv_join (a b : conv) : conv := if conv_rank a <=? conv_rank b then b else a.

(** [calling_convention_for_effect_row], ast/calling_convention.rs:11-28.  [req] is the map
    of known ability requirements. *)
Definition row_convention (req : ability -> option conv) (r : row) : conv :=
  let c := fold_left (fun c e => conv_join c match req (fst e) with Some k => k | None => Cps end)
                     (fst r) Direct in
  match snd r with
  | Some _ => conv_join c Cps
  | None => c
  end.

(** [calling_convention_for_function_type], ast/calling_convention.rs:31-45. *)
Definition function_convention (req : ability -> option conv) (t : ty) : option conv :=
  match t with
  | TFunc _ _ e m => Some (conv_join m (row_convention req e))
  | _ => None
  end.

(** Undeclared effects of a function body, func_check.rs:325-350: only when the declared row
    is closed, and comparing ability identities.  Returns the effects of the diagnostic. *)
Definition undeclared_effects (s : row_subst) (declared body : row) : list effect :=
  let d := rapply s declared in
  match snd d with
  | Some _ => []
  | None => filter (fun e => negb (existsb (fun x => ability_eqb (fst x) (fst e)) (fst d)))
                   (fst (rapply s body))
  end.

(** Unhandled effects of the program entry point, func_check.rs:272-279. *)
Definition main_unhandled (s : row_subst) (body : row) : list effect :=
  filter (fun e => negb (ab_builtin (fst e))) (fst (rapply s body)).
