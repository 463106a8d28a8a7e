(** Call graph, strongly connected components, recursion and global dead-function
    elimination.  crates/trunk-ir/src/transforms/call_graph.rs, global_dce.rs.

    A module is a tree of items; a function body is a tree of operations of which
    only the symbol references matter.  Symbols are strings.  HashMaps are lists or
    functions; where the code iterates over one, the model takes the order as part
    of its input and the theorems quantify over it.  Counters do not wrap (at most
    one index per function). *)
From Coq Require Export String List.
From Verif Require Export Base.

(** ** Tarjan's algorithm: call_graph.rs:221-284, over any key type *)
Section tarjan.
  Context {K : Type} (eqb : K -> K -> bool).

  (** [keys] is the iteration order of func_ops, [edges v] that of the callee set. *)
  Record graph := { keys : list K; edges : K -> list K }.
  Definition defined (g : graph) (v : K) : bool := existsb (eqb v) (keys g).

  Definition kupd {A} (m : K -> A) (k : K) (x : A) : K -> A := fun j => if eqb j k then x else m j.

  (** call_graph.rs:225-234 TarjanState; the top of the stack is the head. *)
  Record st := { next : nat; stack : list K; on : K -> bool; idx : K -> option nat;
                 low : K -> option nat; scc : K -> option nat; nscc : nat }.
  Definition start : st :=
    {| next := 0; stack := []; on := fun _ => false; idx := fun _ => None; low := fun _ => None; scc := fun _ => None; nscc := 0 |}.
  Definition set_low (s : st) (v : K) (x : nat) : st :=
    {| next := next s; stack := stack s; on := on s; idx := idx s; low := kupd (low s) v (Some x); scc := scc s; nscc := nscc s |}.
  (** call_graph.rs:237-242 *)
  Definition push (v : K) (s : st) : st :=
    {| next := S (next s); stack := v :: stack s; on := kupd (on s) v true; idx := kupd (idx s) v (Some (next s));
       low := kupd (low s) v (Some (next s)); scc := scc s; nscc := nscc s |}.

  (** call_graph.rs:246-264; [None] is a panic (or [rec] failing). *)
  Fixpoint visit (rec : K -> st -> option st) (g : graph) (v : K) (ws : list K) (s : st) : option st :=
    match ws with
    | [] => Some s
    | w :: r =>
        if negb (defined g w) then visit rec g v r s
        else
          match idx s w with
          | None =>
              match rec w s with
              | None => None
              | Some s1 =>
                  match low s1 w, low s1 v with
                  | Some lw, Some lv => visit rec g v r (set_low s1 v (Nat.min lv lw))
                  | _, _ => None
                  end
              end
          | Some iw =>
              if on s w then
                match low s v with
                | Some lv => visit rec g v r (set_low s v (Nat.min lv iw))
                | None => None
                end
              else visit rec g v r s
          end
    end.
  (** call_graph.rs:269-281: pop down to and including [v]. *)
  Fixpoint pops (v : K) (id : nat) (stk : list K) (o : K -> bool) (c : K -> option nat) : option (list K * (K -> bool) * (K -> option nat)) :=
    match stk with
    | [] => None
    | w :: r =>
        let o' := kupd o w false in
        let c' := kupd c w (Some id) in
        if eqb w v then Some (r, o', c') else pops v id r o' c'
    end.
  (** call_graph.rs:236-284.  Fuel bounds the recursion depth. *)
  Fixpoint strongconnect (fuel : nat) (g : graph) (v : K) (s : st) : option st :=
    match fuel with
    | O => None
    | S n =>
        match visit (strongconnect n g) g v (edges g v) (push v s) with
        | None => None
        | Some s2 =>
            match low s2 v, idx s2 v with
            | Some a, Some b =>
                if Nat.eqb a b then
                  match pops v (nscc s2) (stack s2) (on s2) (scc s2) with
                  | Some (stk, o, c) =>
                      Some {| next := next s2; stack := stk; on := o; idx := idx s2; low := low s2; scc := c; nscc := S (nscc s2) |}
                  | None => None
                  end
                else Some s2
            | _, _ => None
            end
        end
    end.
  (** call_graph.rs:68-76 tarjan_scc *)
  Fixpoint tarjan_loop (fuel : nat) (g : graph) (vs : list K) (s : st) : option st :=
    match vs with
    | [] => Some s
    | v :: r =>
        match idx s v with
        | Some _ => tarjan_loop fuel g r s
        | None => match strongconnect fuel g v s with Some s' => tarjan_loop fuel g r s' | None => None end
        end
    end.
  Definition tarjan_scc (fuel : nat) (g : graph) : option st := tarjan_loop fuel g (keys g) start.

  (** call_graph.rs:82-100 recursive_functions; groups in the order of their ids. *)
  Definition members (g : graph) (s : st) (id : nat) : list K :=
    filter (fun v => match scc s v with Some a => Nat.eqb a id | None => false end) (keys g).
  Definition recursive_functions (g : graph) (s : st) : list K :=
    flat_map (fun id =>
      match members g s id with
      | [] => []
      | [v] => if existsb (eqb v) (edges g v) then [v] else []
      | ms => ms
      end) (seq 0 (nscc s)).
End tarjan.
Arguments graph : clear implicits.
Arguments st : clear implicits.

(** ** Module trees *)
(** The operations of a body that matter (symbol attributes may be missing). *)
Inductive bkind := BCall (callee : option string) | BTailCall (callee : option string) | BConstant (func_ref : option string) | BOther.
Inductive bop := BOp (k : bkind) (nested : list bop).
(** Operations directly in a module: a function with its sym_name, whether it has an
    [abi] attribute and its body; a nested module with its [name] and [sym_name]
    attributes; wasm.export_func with its [func] attribute. *)
Inductive item :=
| Func (sym : option string) (abi : bool) (body : list bop)
| Mod (name_attr sym : option string) (items : list item)
| Export (func : option string)
| Misc (tag : nat).

(** walk_region order (walk.rs): each operation before what it contains. *)
Fixpoint body_kinds (b : bop) : list bkind := match b with BOp k l => k :: flat_map body_kinds l end.
(** call_graph.rs:158-181 and global_dce.rs:237-262: the references of a body. *)
Definition refs_of (k : bkind) : list string :=
  match k with
  | BCall (Some c) | BTailCall (Some c) | BConstant (Some c) => [c]
  | _ => []
  end.
Definition body_refs (body : list bop) : list string := flat_map refs_of (flat_map body_kinds body).
Definition calls_of (k : bkind) : list string := match k with BCall (Some c) | BTailCall (Some c) => [c] | _ => [] end.
Definition consts_of (k : bkind) : list string := match k with BConstant (Some c) => [c] | _ => [] end.

(** extract_func_name: call_graph.rs:191-207, global_dce.rs:269-290. *)
Fixpoint join (path : list string) (sym : string) : string :=
  match path with [] => sym | p :: r => p ++ "::" ++ join r sym end.
Definition extend (path : list string) (n : option string) : list string :=
  match n with Some x => path ++ [x] | None => path end.

(** call_graph.rs:123-219 the builder: definitions and references, in order. *)
Record cg := { cg_funcs : list string; cg_edges : list (string * string); cg_consts : list string; cg_calls : list string }.
Definition cg_app (a b : cg) : cg :=
  {| cg_funcs := cg_funcs a ++ cg_funcs b; cg_edges := cg_edges a ++ cg_edges b; cg_consts := cg_consts a ++ cg_consts b; cg_calls := cg_calls a ++ cg_calls b |}.
Definition cg_nil : cg := {| cg_funcs := []; cg_edges := []; cg_consts := []; cg_calls := [] |}.
Fixpoint analyze (path : list string) (i : item) : cg :=
  match i with
  | Mod _ sym items => fold_right (fun x acc => cg_app (analyze (extend path sym) x) acc) cg_nil items
  | Func (Some n) _ body =>
      let f := join path n in
      {| cg_funcs := [f]; cg_edges := map (pair f) (body_refs body);
         cg_consts := flat_map consts_of (flat_map body_kinds body); cg_calls := flat_map calls_of (flat_map body_kinds body) |}
  | _ => cg_nil
  end.
Definition build_call_graph (items : list item) : cg := fold_right (fun x acc => cg_app (analyze [] x) acc) cg_nil items.
Definition callees (es : list (string * string)) (f : string) : list string :=
  map snd (filter (fun e => String.eqb (fst e) f) es).
(** call_graph.rs:37-41 call_site_count *)
Definition call_site_count (c : cg) (f : string) : nat := List.length (filter (String.eqb f) (cg_calls c)).

(** ** Global dead-function elimination *)
Record dce_config := { extra_entry_points : list string; recursive : bool }.
(** global_dce.rs:145-223: roots and references. *)
Record analysis := { a_roots : list string; a_edges : list (string * string) }.
Definition an_app (a b : analysis) : analysis := {| a_roots := a_roots a ++ a_roots b; a_edges := a_edges a ++ a_edges b |}.
Definition an_nil : analysis := {| a_roots := []; a_edges := [] |}.
(** global_dce.rs:173-211: entry points by base name, abi attribute or configuration. *)
Definition is_root (cfg : dce_config) (qualified base : string) (abi : bool) : bool :=
  String.eqb base "main" || String.eqb base "_start" || abi ||
  existsb (fun e => String.eqb qualified e || String.eqb base e) (extra_entry_points cfg).
Fixpoint dce_analyze (cfg : dce_config) (path : list string) (i : item) : analysis :=
  match i with
  | Mod name _ items =>
      if recursive cfg then fold_right (fun x acc => an_app (dce_analyze cfg (extend path name) x) acc) an_nil items else an_nil
  | Func (Some n) abi body =>
      let f := join path n in
      {| a_roots := if is_root cfg f n abi then [f] else []; a_edges := map (pair f) (body_refs body) |}
  | Export (Some f) => {| a_roots := [f]; a_edges := [] |}
  | _ => an_nil
  end.
Definition dce_analysis (cfg : dce_config) (items : list item) : analysis :=
  fold_right (fun x acc => an_app (dce_analyze cfg [] x) acc) an_nil items.
Definition smem (x : string) (l : list string) : bool := existsb (String.eqb x) l.
(** global_dce.rs:310-328 compute_reachable; fuel bounds the while loop. *)
Fixpoint compute_reachable (fuel : nat) (es : list (string * string)) (work : list string) (seen : list string) : option (list string) :=
  match work with
  | [] => Some seen
  | f :: rest =>
      match fuel with
      | O => None
      | S n =>
          if smem f seen then compute_reachable n es rest seen
          else compute_reachable n es (rest ++ filter (fun c => negb (smem c (f :: seen))) (callees es f)) (f :: seen)
      end
  end.
(** global_dce.rs:350-393 filter_region: what is left of an item, and removed names. *)
Fixpoint filter_item (cfg : dce_config) (live : list string) (path : list string) (i : item) : list item * list string :=
  match i with
  | Mod name sym items =>
      if recursive cfg then
        let r := map (filter_item cfg live (extend path name)) items in
        ([Mod name sym (flat_map fst r)], flat_map snd r)
      else ([i], [])
  | Func (Some n) _ _ => if smem (join path n) live then ([i], []) else ([], [join path n])
  | _ => ([i], [])
  end.
(** global_dce.rs:132-143 run *)
Definition eliminate_dead_functions (cfg : dce_config) (items : list item) : option (list item * list string) :=
  let a := dce_analysis cfg items in
  match compute_reachable (List.length (a_roots a) + List.length (a_edges a)) (a_edges a) (a_roots a) [] with
  | None => None
  | Some live => let r := map (filter_item cfg live []) items in Some (flat_map fst r, flat_map snd r)
  end.
