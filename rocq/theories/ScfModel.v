(** Lowering of structured control flow to branches.
    Models crates/trunk-ir/src/transforms/scf_to_cf.rs:44-490 and crates/trunk-ir/src/rewrite/helpers.rs:41-140
    (split_block, inline_region_blocks, erase_op) over the IR arena of IrModel.  Locations are dropped.  The kind of an
    operation (dialect, name, attributes) is one number; [shape] tells the scf and cf operations apart from all others.
    [None] is a panic or lack of fuel. *)
From Verif Require Export IrModel.

Inductive shape := SIf | SLoop | SSwitch | SCase | SDefault | SYield | SContinue | SBreak | SBr | SCondBr | SPlain.

Definition obind {A B} (x : option A) (f : A -> option B) : option B := match x with Some a => f a | None => None end.
Notation "x <- a ;; b" := (obind a (fun x => b)) (at level 100, a at next level, right associativity).
Notation "' p <- a ;; b" := (obind a (fun y => match y with p => b end)) (at level 100, p pattern, a at next level, right associativity).

Fixpoint iter {A} (f : ctx -> A -> option ctx) (c : ctx) (l : list A) : option ctx :=
  match l with
  | [] => Some c
  | a :: l => c1 <- f c a ;; iter f c1 l
  end.

(** ** rewrite/helpers.rs *)
(** Put a block into a region: the two assignments of lines 80-83 and scf_to_cf.rs:320-329 and 376-385. *)
Definition place_block (c : ctx) (r pos b : nat) : ctx :=
  let c1 := set_regions c (upd (regions c) r (fun x => {| r_blocks := firstn pos (r_blocks x) ++ b :: skipn pos (r_blocks x); r_parent := r_parent x |})) in
  set_blocks c1 (upd (blocks c1) b (fun x => set_bparent x (Some r))).
(** [split_block], lines 41-86. *)
Definition split_block (c : ctx) (b before : nat) : option (ctx * nat) :=
  bd <- nth_error (blocks c) b ;;
  p <- position before (b_ops bd) ;;
  let tail := skipn p (b_ops bd) in
  let c1 := set_blocks c (upd (blocks c) b (fun x => set_bops x (firstn p (b_ops bd)))) in
  let '(c2, m) := create_block c1 [] in
  let c3 := set_ops c2 (fold_left (fun l o => upd l o (fun x => set_parent x (Some m))) tail (ops c2)) in
  let c4 := set_blocks c3 (upd (blocks c3) m (fun x => set_bops x tail)) in
  r <- b_parent bd ;;
  rd <- nth_error (regions c4) r ;;
  q <- position b (r_blocks rd) ;;
  Some (place_block c4 r (S q) m, m).
(** [inline_region_blocks], lines 95-133, with a block to insert before. *)
Definition inline_region_blocks (c : ctx) (src dest before : nat) : option (ctx * list nat) :=
  if Nat.eqb src dest then Some (c, [])
  else
    sd <- nth_error (regions c) src ;;
    let moved := r_blocks sd in
    let c1 := set_regions c (upd (regions c) src (fun x => {| r_blocks := []; r_parent := r_parent x |})) in
    let c2 := set_blocks c1 (fold_left (fun l b => upd l b (fun x => set_bparent x (Some dest))) moved (blocks c1)) in
    dd <- nth_error (regions c2) dest ;;
    p <- position before (r_blocks dd) ;;
    Some (set_regions c2 (upd (regions c2) dest (fun x => {| r_blocks := firstn p (r_blocks x) ++ moved ++ skipn p (r_blocks x); r_parent := r_parent x |})), moved).
(** [erase_op], lines 135-141. *)
Definition erase (depth : nat) (c : ctx) (o : nat) : option ctx :=
  c1 <- detach_op c o ;;
  ' (c2, _) <- remove_op depth c1 o ;;
  Some c2.
(** scf_to_cf.rs:313-329: a new block before [m] in region [r]. *)
Definition block_before (c : ctx) (r m : nat) : option (ctx * nat) :=
  let '(c1, b) := create_block c [] in
  rd <- nth_error (regions c1) r ;;
  p <- position m (r_blocks rd) ;;
  Some (place_block c1 r p b, b).

Section Lower.
  Variable shape_of : nat -> shape.
  Variable br_kind cond_br_kind cmp_kind bool_type : nat.
  Variable const_kind : nat -> nat.     (* of a case value *)
  Variable case_value : nat -> nat.     (* of the kind of an scf.case *)

  Definition shape_at (c : ctx) (o : nat) : option shape := option_map (fun d => shape_of (o_kind d)) (nth_error (ops c) o).
  (** [is_scf_control_flow], lines 121-129. *)
  Definition control (x : shape) : bool := match x with SIf | SLoop | SSwitch => true | _ => false end.

  Definition branch (c : ctx) (values : list nat) (target : nat) : option (ctx * nat) := create_op c br_kind values [] [] [target].
  (** Lines 438-442 and 461-464: make the branch, erase the old exit, push the branch. *)
  Definition turn_into_br (depth : nat) (c : ctx) (b o : nat) (values : list nat) (target : nat) : option ctx :=
    ' (c1, z) <- branch c values target ;;
    c2 <- erase depth c1 o ;;
    push_op c2 b z.

  (** [replace_yield_with_br], lines 416-445. *)
  Definition replace_yield (depth : nat) (c : ctx) (bs : list nat) (target : nat) : option ctx :=
    let n := length (block_args c target) in
    iter (fun c b =>
      bd <- nth_error (blocks c) b ;;
      iter (fun c o =>
        d <- nth_error (ops c) o ;;
        match shape_of (o_kind d) with
        | SYield => turn_into_br depth c b o (firstn n (o_operands d)) target
        | _ => Some c
        end) c (b_ops bd)) c bs.

  (** [replace_continue_break], lines 451-490; the number of exit arguments is read on each call. *)
  Fixpoint replace_exits (fuel depth : nat) (c : ctx) (bs : list nat) (header exit : nat) : option ctx :=
    match fuel with
    | O => None
    | S fuel =>
        let n := length (block_args c exit) in
        iter (fun c b =>
          bd <- nth_error (blocks c) b ;;
          iter (fun c o =>
            d <- nth_error (ops c) o ;;
            match shape_of (o_kind d) with
            | SContinue => turn_into_br depth c b o (o_operands d) header
            | SBreak => v <- nth_error (o_operands d) 0 ;; turn_into_br depth c b o (if Nat.eqb n 0 then [] else [v]) exit
            | SLoop => Some c
            | _ => iter (fun c r => rd <- nth_error (regions c) r ;; replace_exits fuel depth c (r_blocks rd) header exit) c (o_regions d)
            end) c (b_ops bd)) c bs
    end.

  (** The new block's argument for a result, and the redirection of its readers: lines 151-162 and 219-230. *)
  Definition carry (c : ctx) (m : nat) (result : option nat) : option ctx :=
    match result with
    | None => Some c
    | Some r => ty <- value_ty c r ;; ' (c1, a) <- add_block_arg c m ty ;; Some (replace_all_uses c1 r a)
    end.
  Definition parent_region (c : ctx) (b : nat) : option nat := bd <- nth_error (blocks c) b ;; b_parent bd.
  Definition discard (depth : nat) (c : ctx) (o : nat) : option ctx := ' (c1, _) <- remove_op depth c o ;; Some c1.

  (** [lower_scf_if], lines 132-190, up to the recursion: the new state and the blocks to transform next. *)
  Definition if_blocks (depth : nat) (c : ctx) (b s cond t e : nat) (result : option nat) : option (ctx * list nat) :=
    ' (c1, m) <- split_block c b s ;;
    c2 <- carry c1 m result ;;
    c3 <- detach_op c2 s ;;
    p <- parent_region c3 b ;;
    ' (c4, ts) <- inline_region_blocks c3 t p m ;;
    ' (c5, es) <- inline_region_blocks c4 e p m ;;
    c6 <- discard depth c5 s ;;
    then_entry <- nth_error ts 0 ;;
    else_entry <- nth_error es 0 ;;
    c7 <- replace_yield depth c6 ts m ;;
    c8 <- replace_yield depth c7 es m ;;
    ' (c9, z) <- create_op c8 cond_br_kind [cond] [] [] [then_entry; else_entry] ;;
    c10 <- push_op c9 b z ;;
    Some (c10, ts ++ es).
  Definition lower_if (depth : nat) (c : ctx) (b s : nat) : option (ctx * list nat) :=
    d <- nth_error (ops c) s ;;
    cond <- nth_error (o_operands d) 0 ;;
    t <- nth_error (o_regions d) 0 ;;
    e <- nth_error (o_regions d) 1 ;;
    match op_results c s with
    | [] => if_blocks depth c b s cond t e None
    | [r] => if_blocks depth c b s cond t e (match uses c r with [] => None | _ => Some r end)
    | _ => Some (c, [])
    end.

  (** [lower_scf_loop], lines 193-250. *)
  Definition loop_blocks (fuel depth : nat) (c : ctx) (b s : nat) (init : list nat) (body : nat) (result : option nat) : option (ctx * list nat) :=
    ' (c1, x) <- split_block c b s ;;
    c2 <- detach_op c1 s ;;
    c3 <- carry c2 x result ;;
    p <- parent_region c3 b ;;
    ' (c4, bs) <- inline_region_blocks c3 body p x ;;
    c5 <- discard depth c4 s ;;
    header <- nth_error bs 0 ;;
    c6 <- replace_exits fuel depth c5 bs header x ;;
    ' (c7, z) <- branch c6 init header ;;
    c8 <- push_op c7 b z ;;
    Some (c8, bs).
  Definition lower_loop (fuel depth : nat) (c : ctx) (b s : nat) : option (ctx * list nat) :=
    d <- nth_error (ops c) s ;;
    let init := o_operands d in
    body <- nth_error (o_regions d) 0 ;;
    match op_results c s with
    | [] => loop_blocks fuel depth c b s init body None
    | [r] => loop_blocks fuel depth c b s init body (Some r)
    | _ => Some (c, [])
    end.

  (** Lines 271-282: the cases and the last default of a switch body. *)
  Fixpoint collect (c : ctx) (l : list nat) : option (list (nat * nat) * option nat) :=
    match l with
    | [] => Some ([], None)
    | o :: l =>
        d <- nth_error (ops c) o ;;
        match shape_of (o_kind d) with
        | SCase =>
            r <- nth_error (o_regions d) 0 ;;
            ' (cases, def) <- collect c l ;;
            Some ((case_value (o_kind d), r) :: cases, def)
        | SDefault =>
            r <- nth_error (o_regions d) 0 ;;
            ' (cases, def) <- collect c l ;;
            Some (cases, match def with None => Some r | _ => def end)
        | _ => collect c l
        end
    end.
  (** Lines 296-300 and 304-307: one case body. *)
  Definition inline_case (depth : nat) (c : ctx) (r p m : nat) : option (ctx * (nat * list nat)) :=
    ' (c1, bs) <- inline_region_blocks c r p m ;;
    c2 <- replace_yield depth c1 bs m ;;
    e <- nth_error bs 0 ;;
    Some (c2, (e, bs)).
  Fixpoint inline_cases (depth : nat) (c : ctx) (rs : list nat) (p m : nat) : option (ctx * (list nat * list nat)) :=
    match rs with
    | [] => Some (c, ([], []))
    | r :: rs =>
        ' (c1, (e, bs)) <- inline_case depth c r p m ;;
        ' (c2, (es, all)) <- inline_cases depth c1 rs p m ;;
        Some (c2, (e :: es, bs ++ all))
    end.
  (** Lines 303-332. *)
  Definition inline_default (depth : nat) (c : ctx) (def : option nat) (p m : nat) : option (ctx * (nat * list nat)) :=
    match def with
    | Some r => inline_case depth c r p m
    | None =>
        let '(c1, b) := create_block c [] in
        ' (c2, z) <- branch c1 [] m ;;
        c3 <- push_op c2 b z ;;
        rd <- nth_error (regions c3) p ;;
        k <- position m (r_blocks rd) ;;
        Some (place_block c3 p k b, (b, []))
    end.
  (** Lines 350-397: the comparisons, one block each. *)
  Fixpoint chain (c : ctx) (b disc ty : nat) (l : list (nat * nat)) (default p m : nat) : option ctx :=
    match l with
    | [] => Some c
    | (value, entry) :: rest =>
        ' (c1, k) <- create_op c (const_kind value) [] [ty] [] [] ;;
        c2 <- push_op c1 b k ;;
        kv <- nth_error (op_results c2 k) 0 ;;
        ' (c3, q) <- create_op c2 cmp_kind [disc; kv] [bool_type] [] [] ;;
        c4 <- push_op c3 b q ;;
        ' (c5, other) <- (match rest with [] => Some (c4, default) | _ => block_before c4 p m end) ;;
        qv <- nth_error (op_results c5 q) 0 ;;
        ' (c6, z) <- create_op c5 cond_br_kind [qv] [] [] [entry; other] ;;
        c7 <- push_op c6 b z ;;
        match rest with [] => Some c7 | _ => chain c7 other disc ty rest default p m end
    end.
  (** [lower_scf_switch], lines 253-410. *)
  Definition lower_switch (depth : nat) (c : ctx) (b s : nat) : option (ctx * list nat) :=
    match op_results c s with
    | _ :: _ => Some (c, [])
    | [] =>
        d <- nth_error (ops c) s ;;
        disc <- nth_error (o_operands d) 0 ;;
        body <- nth_error (o_regions d) 0 ;;
        rd <- nth_error (regions c) body ;;
        bb <- nth_error (r_blocks rd) 0 ;;
        bbd <- nth_error (blocks c) bb ;;
        ' (cases, def) <- collect c (b_ops bbd) ;;
        ' (c1, m) <- split_block c b s ;;
        c2 <- detach_op c1 s ;;
        p <- parent_region c2 b ;;
        ' (c3, (entries, inlined)) <- inline_cases depth c2 (map snd cases) p m ;;
        ' (c4, (default, more)) <- inline_default depth c3 def p m ;;
        c5 <- discard depth c4 s ;;
        ty <- value_ty c5 disc ;;
        c7 <- (match cases with
               | [] => ' (c6, z) <- branch c5 [] default ;; push_op c6 b z
               | _ => chain c5 b disc ty (combine (map fst cases) entries) default p m
               end) ;;
        Some (c7, inlined ++ more)
    end.

  (** [transform_region], lines 70-82: by index, re-reading the list of blocks. *)
  Fixpoint region_loop (block : ctx -> nat -> option ctx) (fuel : nat) (c : ctx) (r i : nat) : option ctx :=
    match fuel with
    | O => None
    | S fuel =>
        rd <- nth_error (regions c) r ;;
        match nth_error (r_blocks rd) i with
        | None => Some c
        | Some b => c1 <- block c b ;; region_loop block fuel c1 r (S i)
        end
    end.
  (** [transform_block], lines 89-118. *)
  Definition nested_first (region : ctx -> nat -> option ctx) (c : ctx) (o : nat) : option ctx :=
    d <- nth_error (ops c) o ;;
    if control (shape_of (o_kind d)) then Some c else iter region c (o_regions d).
  Definition first_control (c : ctx) (l : list nat) : option nat :=
    find (fun o => match shape_at c o with Some x => control x | None => false end) l.
  Fixpoint transform_block (fuel depth : nat) (c : ctx) (b : nat) : option ctx :=
    match fuel with
    | O => None
    | S fuel =>
        bd <- nth_error (blocks c) b ;;
        c1 <- iter (nested_first (fun c r => region_loop (transform_block fuel depth) fuel c r 0)) c (b_ops bd) ;;
        match first_control c1 (b_ops bd) with
        | None => Some c1
        | Some s =>
            ' (c2, bs) <- (match shape_at c1 s with
                           | Some SIf => lower_if depth c1 b s
                           | Some SLoop => lower_loop fuel depth c1 b s
                           | Some SSwitch => lower_switch depth c1 b s
                           | _ => Some (c1, [])
                           end) ;;
            iter (transform_block fuel depth) c2 bs
        end
    end.
  Definition transform_region (fuel depth : nat) (c : ctx) (r : nat) : option ctx := region_loop (transform_block fuel depth) fuel c r 0.
End Lower.
