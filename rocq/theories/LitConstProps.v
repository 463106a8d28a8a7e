(** C78: literals keep their text. *)
From Verif Require Import LitConstSpec LitConstProofs.
Open Scope Z_scope.

(** On the native target every literal of a module, at any depth, becomes code
    that makes a bytes value with exactly its text (inside a [Leaf] for strings);
    other operations stay, the nesting stays, and each text is stored once.
    Partial: no function of the program may have a name the compiler keeps for
    read-only data. *)
Theorem native_literals_keep_their_text_partial m known fs :
  (forall f, In f fs -> ~ reserved (f_name f)) ->
  (forall c, literal m c -> size c < 2 ^ 63) ->
  known = true \/ no_strings m ->
  exists m' rodata,
    native m known fs = Some (m', rodata) /\ shape m' = shape m /\
    Forall2 (native_means fs rodata) (ops m) (ops m') /\
    stored_once m (List.map snd rodata).
Proof. exact (native_literals_lemma m known fs). Qed.
Print Assumptions native_literals_keep_their_text_partial.

(** With such a function the module compiles and the literal is not its text:
    the bytes value points at the code of the function. *)
Theorem native_literals_keep_their_text_refuted : exists m fs m' rodata,
  native m true fs = Some (m', rodata) /\ (forall c, literal m c -> size c = 2) /\
  ~ Forall2 (native_means fs rodata) (ops m) (ops m').
Proof. exact native_refuted_lemma. Qed.
Print Assumptions native_literals_keep_their_text_refuted.

Theorem literals_point_at_a_function_of_their_name c mem fun_at data_at alloc :
  loader mem data_at alloc [("__tribute_rodata_0"%string, c)] ->
  0 <= fun_at "__tribute_rodata_0"%string < 2 ^ 64 ->
  exists mem' p,
    run_code fun_at data_at alloc clash [("__tribute_rodata_0"%string, c)] mem (emit_bytes_alloc "__tribute_rodata_0" (zlen c)) = Some (mem', p) /\
    word mem' p 8 = fun_at "__tribute_rodata_0"%string.
Proof. exact (clash_run c mem fun_at data_at alloc). Qed.
Print Assumptions literals_point_at_a_function_of_their_name.

(** On WebAssembly the code of every literal makes a bytes value with exactly
    its text, or the module is refused and a literal has 2^31 bytes or more.
    Partial: literals of 2^32 bytes or more are left out. *)
Theorem wasm_literals_keep_their_text_partial m known :
  Z.of_nat (List.length (ops m)) < 2 ^ 32 -> (forall c, literal m c -> size c < 2 ^ 32) -> known = true \/ no_strings m ->
  match wasm m known with
  | Some (cs, segs) => Forall2 (wasm_means segs) (ops m) cs /\ stored_once m segs
  | None => exists c, literal m c /\ 2 ^ 31 <= size c
  end.
Proof. exact (wasm_literals_lemma m known). Qed.
Print Assumptions wasm_literals_keep_their_text_partial.

(** A longer literal is cut without an error. *)
Theorem wasm_literals_keep_their_text_refuted : exists m c,
  literal m c /\ exists cs segs, wasm m true = Some (cs, segs) /\ ~ Forall2 (wasm_means segs) (ops m) cs.
Proof. exact wasm_refuted_lemma. Qed.
Print Assumptions wasm_literals_keep_their_text_refuted.

(** Without the String type of the prelude a string literal is an error on both
    targets, never another value. *)
Theorem strings_without_their_type_are_refused m fs c :
  In (KString c) (ops m) -> native m false fs = None /\ wasm m false = None.
Proof. exact (fun I => conj (native_reported m fs c I) (wasm_reported m c I)). Qed.
Print Assumptions strings_without_their_type_are_refused.

(** Non-trivial cases. *)
Definition demo : list (list (tree kind)) :=
  [[Node (KOther 1) [[[Node (KString hi) []; Node (KOther 2) [[[Node (KBytes []) []; Node (KBytes hi) []]]]]]];
    Node (KString [33]) []]].

Example demo_ops : ops demo = [KOther 1; KString hi; KOther 2; KBytes []; KBytes hi; KString [33]].
Proof. reflexivity. Qed.
Example demo_names : forall f, In f [{| f_name := "main"; f_abi := false |}; {| f_name := "__tribute_alloc"; f_abi := true |}] -> ~ reserved (f_name f).
Proof. intros f [<-|[<-|[]]] (r & E); discriminate. Qed.
Example demo_sizes : forall c, literal demo c -> size c < 2 ^ 31.
Proof. unfold literal. rewrite demo_ops. cbn. intros c H. repeat destruct H as [H|H]; try discriminate; try contradiction; injection H as <-; reflexivity. Qed.
Example demo_rodata : exists m', native demo true [] =
  Some (m', [("__tribute_rodata_0"%string, hi); ("__tribute_rodata_1"%string, []); ("__tribute_rodata_2"%string, [33])]).
Proof. eexists. vm_compute. reflexivity. Qed.
Example demo_loader : loader mem0 (fun _ => 0) (fun _ => 2000) [("__tribute_rodata_0"%string, hi)].
Proof. apply loader0. Qed.
Example demo_wasm : exists cs, wasm demo true = Some (cs, [hi; []; [33]]).
Proof. eexists. vm_compute. reflexivity. Qed.
