# A Rocq model of Kroisse/tribute

The code is read as text from /repo at the pinned commit; nothing is built or
run.  The model lives in `rocq/theories`, one group of files per area:

| suffix          | content                                                              |
|-----------------|----------------------------------------------------------------------|
| `XModel.v`      | the functions of the code, one Gallina function each, with citations |
| `XSpec.v`       | small independent specification (only where the model needs one)     |
| `XProofs.v`     | lemmas                                                               |
| `XProps.v`      | the property theorems, each `exact lemma`, with `Print Assumptions`, and the examples showing that hypotheses are satisfiable |

## Conventions

* `&mut` becomes a function returning the new value; a panic/abort is an
  explicit value (`None`, `Panic`, ...); a loop is structural recursion, a fold
  or fuel with an explicit out-of-fuel value that statements exclude.
* Machine integers are `Z`/`N` with explicit wrap where overflow is possible.
* HashMaps whose iteration order is observable are modelled by quantifying
  over orders; otherwise by total functions or association lists.
* OS and allocator behaviour is an explicit schedule argument (quantified in
  the theorems) or a Section variable.
* A theorem `..._refuted` states that the faithful model violates the property
  and gives the witness; a theorem `..._partial` proves a part, the full
  statement is kept in this file and in `properties.jsonl`.

## Trusted base

* Coq 8.16.1's kernel (and `vm_compute`).
* `Print Assumptions` of every property theorem: see "Assumptions" at the end.
* The reading of the Rust code: every definition cites the file and lines.
* Not modelled: rustc/LLVM/Cranelift code generation, salsa, tree-sitter,
  ropey/winnow internals (their documented behaviour is modelled where used),
  the allocator, OS threads.

## Plan per property

* **C01** evidence: `list marker`; binary search modelled with the exact
  halving of `slice::binary_search_by_key` abstracted by its contract on sorted
  input *and* an executable bisection; refinement to a function
  `ability -> option marker`; invariant `StronglySorted`.
* **C02** writes: the OS is a list of responses; the loop is recursion over the
  response list; theorem about the concatenation of accepted bytes.
* **C03/C04** line input: the OS is a list of read events; buffer state machine
  byte for byte; refinement to "split at newline" of the concatenated stream.
* **C05** bytes: heap of buffers, values are (buffer, offset, length); content
  function; laws for each operation over every reachable heap.
* **C06** tags: wrap-around counter; arithmetic mod 2^32.
* **C07** refcount: counter mod 2^32 against a multiset of owners.
* **C08/C09** layout: the u32 loop; invariants by induction over the fields.
* **C10** dominators: iterative set algorithm on a finite graph with fuel and
  termination proof; equality with path dominance.
* **C11/C12** folds: the fold functions on Z with explicit i128 wrap; spec is
  N-bit arithmetic on `Z mod 2^N`.
* **C13/C14** interner and alias registry: state machines over histories.
* **C15–C17** IR context: operations/values/blocks as total maps with the
  mutation API as a step function; invariants by induction over op lists.
* **C18** clone: tree-shaped regions with value maps.
* **C19** walk: rose trees, callback as state transformer.
* **C20** Tarjan: explicit state with fuel; invariant proof.
* **C21** global DCE: BFS over names; module tree analysis.
* **C22** DCE: over the IR arena of C15–C17; structural removal theorem plus an
  execution semantics (interaction trees) parametrised by the meaning of operations.
* **C23** inlining (InlineModel/Spec/Proofs/Keep/Clone/Visit/Main/Term/Done/Props.v): operations as trees with numbered values; cloning with its
  value mapping, splicing, the visit of the pattern applicator, the policy with the call graph and Tarjan's algorithm of C20, and the outer loop.
  Behaviour is a big-step semantics parametric in what all other operations do (they may run their regions any number of times, call functions,
  leave their region), in memory and in external functions. Proof: a relation `emu` between operations and their replacements carrying pairs of
  corresponding values; forward simulation by call depth and backward simulation into calls of any depth; cloning and visiting produce `emu`
  (fresh values, scopes); `emu` keeps validity; composed over functions and iterations. Termination: while the set of recursive functions stays
  the same, every function outside it gets a weight above the sum of its calls' weights (by component number), and each inlining lowers the total;
  the set can only shrink because new edges are old paths. Not modelled: types, locations, successors and the several blocks of lowered functions.
* **C24** scf_to_cf: the pass over the IR arena; a small-step machine that runs structured control flow, branches and mixtures of both (ScfSpec); each single lowering is a simulation, composed over the recursion of the pass; separately, that no structured operation is left.
* **C25** scope validation: over the IR arena, declarative scoping relation.
* **C50** use-list validation: same arena; exactness of both lists of errors.
* **C26** conversion target: registrations as finite maps; tree verification.
* **C27/C28** analysis cache and pass manager: state machines.
* **C29** mangling: character-level encoder, injectivity by parsing back.
* **C30/C31** effect rows; substitution, instantiation, generalization as
  structural functions compared with plain recursive specifications.
* **C32** unification of first-order types: the solver with fuel; by induction
  on (unbound variables, size) a run ends for all large enough fuel, and the
  bindings it leaves have exactly the solutions of the equations.
* **C33** the whole solver: soundness with respect to every interpretation of
  types in which rows are sets, by a Hoare-style rule per solver function; the
  model's state carries a log (never read) naming the runs to which the theorem
  applies.
* **C34** attribute getters: direct.
* **C35** printer/parser: character-level printer and recursive descent parser
  following winnow's backtracking; round-trip by induction on values.
* **C36/C37/C38** reference counting: CFG dataflow, path semantics, counting.
* **C39/C40** LSP positions: texts as lists of code points, ropey's line
  breaking and UTF-8/UTF-16 widths modelled.
* **C41** handler shape detection.
* **C42** cast resolution over the IR arena (`CastModel.v`): the final IR is described by the list of replacements made
  (`CastSpec.v`); proved by an invariant over the traversal with disjoint zones for blocks, operations and nested regions.
* **C43** deep release: heap of counted objects, release as fuelled recursion;
  invariant "count = held references + references from live objects".
* **C44** symbols across threads: lock/lookup/insert as interleaved steps.
* **C45** value definitions: part of the IR arena invariant of C15–C17.
* **C46** effect diagnostics and conventions: direct, over the row model of C30.
* **C47** qualified names: byte strings, splitting on the reversed text.
* **C48** reading the rope: induction over the remaining bytes, for an arbitrary list of chunks.
* **C49** completion prefix: induction over the characters before the cursor.
* **C50** use-list validation: exactness against the arena invariant of C15.
* **C51** whole operations: the printer and parser of C35 extended to operations,
  regions, blocks, functions and modules; round trip by induction on a size that
  bounds the parser's recursion, tracking the next non-blank character.
* **C52** type aliases: AliasModel has the alias map, the choice of names, the
  topological sort and the definitions of a module, and the reader's resolution
  of names. Spec: `plain` types, `inside` (proper occurrence), resolution after
  reading the definitions in order. Invariant over the definitions: what the
  printer may write is what the reader already knows. The sort always finds a
  ready alias because types are finite trees. Independence of the hash order:
  uniqueness of sorted permutations.
* **C53** whole modules: BuildModel has the numbering of values and blocks and the
  builder with its scopes, over abstract references. The specification is
  isomorphism (a renaming that is one-to-one on what is defined). Numbering is a
  renaming, the builder inverts it into fresh references, and both are put
  together with C51 and C52 into a round trip from operations to operations and
  from text to text.
* **C54** case expressions: CaseModel has the generated checks, bindings and arm
  chains of the driver's route (values and continuation-passing) and of the
  logical route. Spec: pattern matching on values, selection of the first arm
  whose pattern matches and whose guard holds, with the trace of evaluated
  expressions; an evaluator for the generated operations. Proof: code
  is made for every supported pattern; checks compute `matches`; bindings give
  the variables of the match; induction over the arms.
* **C55** exhaustiveness: check_exhaustiveness with its helpers. Sound if variant
  patterns have no tests inside, complete for arms of one test each; together with
  C54 every accepted such case expression selects an arm and runs it.
* **C56** lexical scoping: ResolveModel has the resolver of names (scopes, local
  numbers, patterns, arms, handlers, resume, effect-directed operations, module
  paths, reports). Spec (ResolveSpec): a relation between the program before and
  after, with scopes as lists of bindings and no counters. Proof: the state
  agrees with the scope (`agree`), mutual induction over the syntax; binders are
  consecutive numbers, so they are different; every report has its reference.
* **C57** declared items: build_env, merge with the prelude and resolve_use_imports,
  with hash maps traversed in any order. Spec (ResolveEnvSpec): what the
  declarations make available under which path. Proof: invariant over the
  declarations and nested modules, for any prefix; independence of the order of
  traversal by running two orders side by side through environment and resolver.
* **C58** specialization of generic functions: MonoModel has the collection of
  instances, extraction of type arguments, the worklist of rounds, specialization
  of declarations and metadata, and redirection of references, with the whole
  typed syntax. Spec (MonoSpec): the needed instances as an inductive closure over
  uses, copies as maps over the syntax. Proof: invariant over the rounds (program,
  metadata and instances so far; nothing is processed twice), two traversal orders
  side by side, success when chains of needs are shorter than 64.
* **C59** method calls: TdnrModel has the method index (functions by their first
  parameter's annotation, accessors of struct fields, scoped type identities,
  effect rows), the shallow types of expressions, the lookup, the traversal and
  the report of what is left.  TdnrSpec says with paths as lists of names which
  type an annotation means, which methods the declarations offer, which types
  can be read off expressions, and relates a program before and after.  Proved:
  index = offered methods (induction over declarations and over the imports),
  lookup = the only fitting method, traversal = the relation, panics, second
  runs, reports.  Annotations, effects, literals and type declarations are given
  by functions on numbers.
* **C60** literals: LiteralModel has the literal parsers of expressions and of
  patterns on lists of characters with byte positions, including
  from_str_radix, trim, slicing and UTF-8 decoding.  LiteralSpec has the grammar
  of new-plans/syntax.md with the values of digits, escapes and delimiters.
  Proof: the parser computes the value of every literal of the grammar; the
  decoder inverts the encoder and accepts nothing else.  Not modelled: floating
  point literals and the tree-sitter grammar that delimits the tokens.

* **C61, C62, C63** text functions of the standard library: PreludeModel has the
  Tribute functions of lib/std/prelude.trb for Int, String and Bytes as Gallina
  functions over 32-bit integers, with the reads of both targets and with a step
  allowance for recursion; PreludeSpec has the decimal grammar, positional values,
  canonical texts, the text of a rope and the strings a program can build.
  Parsing: induction over the bytes still to read, with the number read so far and
  its sign as invariant; formatting: induction over a bound on the number of
  digits. Equality: the bytes ahead of a cursor are kept by next_cursor and cut
  alike on both sides by a comparison, and the nodes ahead bound the steps.

* **C64** operators on numbers: OperatorMachine gives the instructions of the two
  back ends their meaning (trusted, after the WebAssembly and Cranelift manuals; float
  arithmetic is a parameter).  OperatorModel has the three passes that turn a call of
  `Int::+` into an instruction, with their tables of names; a case that a pass
  does not handle is `NotCompiled`.  OperatorSpec says what the operators mean on
  integers, independently.  Proof: by cases on the operator after lemmas about
  patterns and the numbers they stand for.
* **C65** boxes: BoxModel has the table of conversions, the Wasm instructions on
  `i31` references (trusted) and the native stores and loads on a byte memory.  The
  allocator's result is an argument, so the theorem holds for every address.
  Not modelled: boxes of structures and functions (which are pointers already).
* **C66** effect handlers: HandlerModel is an abstract machine for the code that
  the live lowering path emits for `handle`, `resume`, operations and calls:
  continuation closures (defunctionalised), the private Normal/Escape carrier,
  evidence with owner tags, the dispatch closures, direct and continuation-passing
  code.  HandlerSpec is the reference: a machine with one stack of pending work,
  where an operation goes to the nearest handler, `resume` reinstates the
  captured part of the stack including the handler, and an arm that does not
  resume finishes the handle.  The positive theorem is a simulation (one step of
  the reference, one or more of the machine) for programs that resume last and
  do not handle an ability while it is already handled; programs outside of it
  give refutations.  Values are integers and closures; patterns, boxing and the
  packing of arguments are not modelled.

* **C67** borrowed parameters (`OwnModel.v`): the summary loop over a module, with the order of the functions as an input.
  The specification is the largest set of parameters closed under "only lent" (`OwnSpec.v`); the loop is shown to stay
  above that set and to end in a consistent set, with the number of borrowed slots as measure. A second specification is
  a machine with call frames in which operations run in any order and one reference is followed through casts and calls.

* **C68** flattening before continuation-passing code (`NormModel.v`): the whole of `normalize.rs`. The meaning of an expression is a
  denotation in an arbitrary universe of values and computations (`sem`, `lawful`: sequencing laws and compositionality, up to
  partial equivalences, so that no extensionality axiom is needed). `NormTree.v` is a concrete universe with operations and deep
  handlers. Proof: an invariant for "the statements so far, then the rest" over the syntax, with binders unique as name resolution
  leaves them and temporaries above all of them.

* **C69** closure conversion (`ClosModel.v`): `lower_closure_lambda.rs` (turns of lifting the outermost lambdas of every function,
  naming, the new parameter list of a lifted function, loading of captured variables from the environment, renaming) and
  `closure_lower.rs` (closures as pairs of a function and an environment, calls of them with the environment put behind the
  evidence). Code is a tree of steps with branches; primitive operations are an oracle over an arbitrary world. The specification
  (`ClosSpec.v`) is an interpreter in which a lambda is a value with the variables of its place. Proof: two simulations (lifting,
  then pairing) by induction on call depth, a relation of values "lambda ~ lifted function with the captured values", and a measure
  (nesting of lambdas) for termination. Hypotheses: the program is well scoped (each variable of a lambda body is a parameter or
  captured), names of lifted functions are not taken, the source run does not go wrong.

* **C70** captures (`CaptureModel.v`): the walk that collects variables, the stack of scopes with hash maps in any order, and the
  five places that build capture lists (lambdas, continuations, handler bodies, dispatch functions, guards). The specification
  (`CaptureSpec.v`) is an inductive definition of free variables that respects binders, whereas the code collects every variable
  mentioned; the two agree because name resolution gives each binder an id of its own (`scoped`). That captures are enough is
  stated with the meaning of C68: with the captured variables and arbitrary values for all others the lambda is the same value.
* **C71** type checking (`InferModel.v`): the inference pass over expressions, patterns and `let` with generalization, the second
  pass that checks the parts, the per-node tables that connect the two, and the checking of the functions of a module in order,
  for literals, variables, calls, constructors, lambdas, tuples, lists, `&&`/`||`, blocks and `case` with guards, on top of the
  unifier of C32. Abilities, records, methods and handlers are left out, so all effect rows are empty. `InferSpec.v` has an
  evaluator in which a misapplied value goes `Wrong`, a declarative typing relation over ground types, and typing of values.
  `InferSolve.v`/`UnifyFuel.v`: the solver's answer solves the equations. `InferFo.v`, `InferPat.v`, `InferSound.v`,
  `InferTyped.v`: whatever solves the equations gives a typing derivation (induction over the expression, with the state only
  growing). `InferMain.v`: induction over evaluation, giving type soundness of accepted programs.

### C72 Structured control flow to WebAssembly
`EmitModel.v` models `scf_to_wasm` (structured conditionals, loops, yield, continue and break to the wasm dialect), the assignment of
locals, and the emitter's control flow: region results, block types, nesting, loop parameters, branches, operand order of indirect
calls, and run-length compression of locals.  `EmitSpec.v` gives, independently, what structured operations mean on an environment
(`run_func`), what WebAssembly instructions mean on locals and a stack (`exec_func`, labels counted outwards), the validator's rules
(`valid`, with the polymorphic stack after branches), and a typing relation `fine_func` for the functions that the backend is made for.
Proof: one induction over `fine` shows that compilation succeeds and the code is valid, a second that the code simulates the operations
in lockstep for every bound on rounds, so endless loops correspond too.  Outside `fine` there are refutations.

### C73 Go to definition, find references, rename
`RenameModel.v` models the definition index (collection of definitions and references with their spans, stable sorting, the innermost
entry at a position, lookup by target), the validation of new names and the requests that use them.  A file is a tree of nodes with
text and names, so spans come from the text itself; names carry, for the specification only, the symbol they stand for.
`RenameSpec.v` says which nodes declare and mention a symbol, where the cursor is, what the renamed file is and what applying a set of
replacements gives.  Proof: collected entries are exactly the nodes that declare or mention (up to order); the nodes around a position form
a chain in which entries get strictly smaller; applying the edits is followed through the tree.  The renamed text is right where
the names are the whole text of their nodes; elsewhere there are refutations.

### C74 Evidence functions on WebAssembly

Model (WasmEvModel): the operations of the two generated functions in the order of evidence_to_wasm.rs, the locals that emit.rs
gives to values, and an interpreter of the operations over locals and a heap of marker arrays; a loop that starts more often
than `rounds` says so. Left out: casts, types, the stack code of each operation (C72), the closures in a marker. Spec
(WasmEvSpec): the handlers installed so far and EvidenceSpec's lookup of the newest. Proof: symbolic execution of both
functions, the search loop of extend by induction on the width of the interval.

### C75 Release functions
Models how the annotations of declared fields become IR types, how those are
converted for the native target, the stores that build structs and variants
(with the layouts of C08/C09), the block graph of the generated release
functions for structs and enums with an interpreter for it, which stores are
retained, and the indices of types. Proved by induction over the field list:
the chain of checks releases the non-null words among the chosen offsets; the
dispatch on tags finds the chain of the variant; offsets are distinct (from
the layout), so what was stored is read back. Stated with a relation
`selected` that picks the words of the fields satisfying a predicate. Whether
an object gives up what it kept is characterised exactly: it does for types of
scalars and fails for every other declared type.

### C76 Printing on WebAssembly
`WasmIoModel` models the generated function `__tribute_wasi_write` operation by operation
(wasm/io.rs), the emission of a yield before a branch as a store to the loop argument (emit.rs, `emit_region_ops_nested`), linear
memory byte by byte, growth of the memory, and the host function `fd_write`, which reads the buffer from memory and reports through
memory.  `WasmIoSpec` says, without memory or loops, what a host takes of a text (`printed`).  Proof: invariants of the copy loop
(bytes copied so far) and of the write loop (bytes written so far), for every range, flag, memory size, growth policy and answer
sequence; the checks before the loops by cases.  The comparison with the native function of C02 uses the same `printed`.
Not modelled: a host that reports more than it was given, the stack code (C72), other users of the linear memory.

### C77 Finding handlers by hashes
`AbilityIdModel` models the numbers that stand for abilities and operations at run time (ability.rs), the references to abilities the
lowering makes, the evidence of C01 built from them, and the dispatch chain over the arms. The hash function is an arbitrary function of
what is fed to it. Spec: `newest_handler` (same ability at the same type arguments), `same_shape` (types up to attributes), `first_arm`.
Proof: lookup after extend (C01), injectivity of the conversion to i32, nested induction over types for the hashes, the pigeonhole
principle for collisions. The positive theorems assume that the hash tells apart what occurs in the program; the refutations hold for
every hash function.

### C78 Literals at run time
`LitConstModel` models both passes that collect literals into read-only data or data segments, the code they emit for a literal, the
declarations of the object file, the lookup of a symbol, and the two machines that run the code (byte-addressed memory; the stack machine of
WebAssembly with passive segments). Spec: the operations of a tree in order, `holds` (a bytes value in memory), `loader` (what the linker,
the loader and the allocator owe), `text_of`. Proof: an invariant of each collector (names numbered in order, contents without repeats, exactly
those of the literals so far), memory lemmas for stores and words, and the run of the fourteen instructions.

### C79 Lists on the native target
`ListLowModel` models the pass that turns operations on lists into references to nodes: the walk that collects the uses of `head` and `tail`, the
splitting of their blocks from last to first, the three patterns, and the final check. Spec: a machine with blocks, branches, calls and `scf.if`,
run once with lists as values and once with null and nodes; `stands` relates the values; `well_formed` (names free from `n` on, every value
defined once, lists made before they are looked into). Proof: three simulations. The first replaces lists by nodes without changing the program.
The second lowers one use at a time (environments agree up to the renamed value; the code of a block is the part up to the use, or all of it).
The third applies the patterns. Invariants carry the other uses through each step.

### C80 The rewrite engine
`DriverModel` models one iteration over a tree of operations (nested regions first, then the first pattern that matches and records something), the
application of the recorded changes, the loop with its limit, and the verification of both conversions. Patterns, the target and its recursive
legality are variables; replacing all uses is a renaming that reaches everything. Spec: `seen` (operations the engine has to look at), `at_rest`,
and `descending` patterns (every operation that is not of rank 0 is replaced by operations of lower rank). Proof: a visit without changes returns
its operation and finds no pattern that acts, by induction on the tree; one iteration lowers all ranks by one. Without a target
a run is the run with a target that calls nothing legal. For uses: `sound` patterns
(new code uses what the operation knew or what it defines, one new value per result, nested values kept) leave every use defined; the invariant of a
visit is stated for any set of values defined elsewhere and composed along sequences. Patterns that change the IR directly
and the automatic conversion of types are not modelled.

### C81 Types shown on hovering
`HoverModel` models the collector, the sorted index and the lookup on a tree of nodes with all kinds of expressions. Spec: `innermost` (the smallest
node under the cursor) on source text that is properly nested, and the types the checker gave (`typed`, with constructors as functions). Proof: the
nodes under the cursor form a chain, nodes with an entry are longer than their parts, so the smallest entry is that of the innermost entered node;
the sort only has to keep the entries. The types themselves are an oracle (the checker is covered by C71).

### C82 Types as text
`TypeTextModel` models `print_ast_type` on lists of characters. Spec: `settled` types (names begin with a capital, are no primitive names, and stand for
one definition each; no inference variables and one row variable at most). Proof: a printed type is a word and what follows it; two printed types with a comma, a bracket
or nothing after them are equal only if the types are, by induction over the first, with a lemma for lists up to their closing bracket.
The texts of primitive types and variables are compared with a table and with the standard library's reader of decimal numbers.

### C83 Lowering of list construction
`ListIntrinsicModel` models the pass: names, the collected declarations, both patterns. Spec: an evaluator of programs with calls, function values,
branches and uninterpreted operations, in which a name stands for its declaration and a specialized name without one for the intrinsic. Proof: the
names of the new program resolve as before except those of the intrinsic; execution agrees step by step, with the invariant that no value holds the
intrinsic as a function. The evaluator's depth of calls is the same on both sides, so nothing is lost by bounding it.

### C84 Signature help
`SigHelpModel` models the way from the smallest node at the cursor up to a call, the named children of the call, and the counting of commas. The
parser's own lookup of the smallest node is modelled by its description: a child is entered that begins at or before the offset and ends after it.
Spec: `formed` trees (children in order inside their node), `innermost_call`, and the commas that end at or before the cursor. Proof: nodes around a
position form a chain, so the first call on the way up is the innermost; sorted children make stopping early harmless.

### C85 Order of diagnostics
`DiagOrderModel` models the comparison and the stable sort, as an insertion sort. Spec: `before` by place in the list of phases, span and alphabetical
order, and `same_key`. Proof: the comparison is the alphabetical order of one list of numbers per diagnostic; sorted permutations are equal where the
order is antisymmetric. Collecting diagnostics (Salsa accumulators) and printing them are not modelled.

## Findings: where the code and the stated property disagree

* C02: `__tribute_io_write` ignores a failed text write and still writes the
  newline (`io_write_prefix_refuted`); `print_bytes_loses_bytes_refuted`.
* C07: the 32-bit counter wraps (`rc_wraparound_refuted`).
* C43: generated release functions release fields with `alloc_size = 0` and
  `__tribute_dealloc` ignores size 0, so Bytes and boxed numbers whose last
  reference is a field are never returned (`leaf_in_field_leaks_refuted`).
* C11/C12: divsi/remsi folds read the raw payload, so payloads that are not
  sign-extended at the width (255:i8, 256:i8) give wrong results or lose a trap
  (`noncanonical_division_refuted`, `noncanonical_trap_refuted`); the unsigned
  folds mask and are immune.
* C11: folds on i1 produce the payload -1 for true while `scf.if` folding
  accepts only 0 and 1 (`bool_payload_refuted`); `u32::from_str` accepts a plus
  sign, so `core.i+32` is taken for a 32-bit type although arith.rs:379 says it
  is rejected (`plus_width_refuted`).
* C14: re-registering one of two alias names of a type drops the reverse entry
  of the other (`alias_reverse_complete_refuted`).
* C18: `clone_region` maps operands while walking blocks in listing order, so a
  use in a block listed before the (dominating) defining block is cloned with
  the original value: the copy refers into the original region
  (`clone_region_leaks_reference_refuted`). Proved isolated when listing order
  has definitions first.
* C21 (dead-function elimination): nested modules are built with `sym_name`
  only (dialect/core.rs:8-12), and the call graph qualifies by it, but
  global_dce.rs:293-307 qualifies by an attribute called `name`. With
  `recursive` on, `main` calling `m::f` keeps `main` and removes `f`
  (`surviving_calls_resolve_refuted`). The unit tests add a `name` attribute by
  hand. With both attributes equal the property holds
  (`surviving_calls_resolve_partial`).
* `pass.rs` (`TypedNested::run`): targets are collected up front and re-checked
  only with `T::matches`. An operation erased by a pass run on an earlier
  target is detached but keeps its dialect and name, so it is still dispatched
  (and, being detached on entry, is never recognised as erased).
  `nested_runs_on_surviving_targets_refuted`.
* C22: dead code elimination removes traps. The integer divisions and
  remainders (arith.rs:16-19), `adt.array_get` and `adt.ref_cast` are
  registered as pure, so an unused `1 / 0` disappears
  (`dce_keeps_traps_refuted`), although constant folding deliberately keeps the
  same trap (arith.rs:170-180, C12). Whether a program traps therefore depends
  on whether dce-func ran.
* C29: mangled names drop effect rows and conventions of function types, so `f`
  used at `fn(Int) -> Int` and at `fn(Int) ->{Io} Int` yields two
  specializations with one symbol (`mangled_names_ignore_effects_refuted`);
  specialize.rs:34-107 pushes both declarations without a name check.
* C29: the mangler's vocabulary (`Fn`, `Tup`, `T0`, `BuiltinList`, primitive
  names, `error`) is not reserved, so user types with those names collide with
  structural types (`mangled_names_reserved_words_refuted`).
* C29: the declaration origin is dropped from nominal names although the
  compiler keeps same-named source and synthetic types distinct
  (`mangled_names_ignore_origins_refuted`).
* C46: the check of closed effect annotations (func_check.rs:325-350) compares
  ability identities only, so a function declared to perform `State(Int)` may
  perform `State(Bool)` without a report
  (`undeclared_effects_reported_refuted`). An open tail left in the body's row
  is not reported either: only listed effects are compared.
* Generalization of a fully resolved type (C31):
  `generalize`/`generalize_with_mapping` return the type they were given rather
  than the resolved one when no unresolved variable is left (solver.rs:280-283,
  354-357): `generalize` of `?a` under `?a := Int` is `?a` with no parameters.
  Only tests call these variants; the checker calls
  `generalize_excluding_with_mapping`, which resolves. Theorem
  `plain_generalization_refuted`.
* C33: a row in which one ability occurs twice is matched first-come:
  {State(?a), State(?b)} = {State(Int), State(Bool)} is accepted with ?a = ?b =
  Int (`repeated_ability_unsound_refuted`);
  `compute_effect_difference_with_unify` likewise lets two effects match the
  same candidate.
* C33: `unify_rows` binds a row variable without checking whether unifying the
  effect arguments has already bound it, so the first binding is overwritten
  (`row_variable_overwritten_refuted`).
* C33: a pure row is accepted against an open row with effects without binding
  anything (solver.rs documents this as subsumption;
  `pure_row_accepted_refuted`).
* C32/C33: `occurs_in_effect_row` follows row bindings but not type bindings,
  so a cycle through a row is accepted and applying the substitution then
  recurses forever (`cyclic_substitution_refuted`).
* C39: ropey is used with its default features, so VT, FF, NEL, LS and PS end a
  line for the server but not for LSP clients: after such a character all line
  numbers are off by one (form_feed_line_refuted), and edits land in the wrong
  place (server_text_drifts_refuted).
* C39: a column past the end of a line is clamped only against '\n'. On a CR LF
  line it gives the offset between CR and LF (column_past_crlf_refuted); on a
  line that ends in a lone CR it gives the start of the next line
  (column_past_end_refuted). The protocol asks for the end of the line.
* C40: the row and column given to tree-sitter count ropey's line breaks, while
  tree-sitter and point_after_text count '\n': after a lone CR (or VT, FF, ...)
  the points of incremental edits are wrong (edit_points_refuted).
* C40: a change whose end lies before its start reaches Rope::remove with a
  reversed range, which panics and stops the server
  (reversed_range_panics_refuted).
* C37 (crates/tribute-passes/src/native/rc_insertion.rs): insertion only
  releases a reference in a block where it is live on entry or defined. A
  reference that is needed on one successor of a branch and not on the other is
  never released on the other (released_on_every_path_refuted).
* C37: a jump hands the count of its operand to the block argument without a
  retain even when the operand is still live in the target (or is passed
  twice): one count is then released under two names
  (no_use_after_release_refuted).
* C37: a value whose last use is a tail call without an ownership contract is
  released before the call that receives it
  (tail_call_arguments_alive_refuted).
* C38 (rc_optimization.rs:40-99): a retain/release pair is removed when nothing
  between the two is given the reference, but a release of a different object
  between them can free the object: `p = load q; retain p; release q; load p;
  release p` becomes a use after free. RC insertion makes exactly this code
  when the owner is a block argument of a block other than the entry (a loop
  header), since such owners are never proved to be borrowed from
  (`pair_removal_frees_too_early_refuted`). With an owner elsewhere during the
  whole interval the removal is correct
  (`pair_removal_keeps_behaviour_partial`).
* C25: scope validation looks only at func.func and wasm.func, so clif.func
  bodies (what the native pipeline ends with) pass unchecked; and it accepts a
  value read before its definition in the same region (example
  read_before_definition_passes).
* C42: (a) A chain of two casts, each of which can be materialized alone, can
  be left unresolved. The native materializer turns int to i32 into the input
  itself, so the value keeps the type int; the following cast i32 to anyref is
  then looked up as int to anyref, for which there is no materialization
  (`chained_casts_refuted`). (b) Blocks are visited in list order. A cast in a
  block listed before the one defining its input is materialized for the old
  type of the input and then reads a value of another type
  (`order_of_blocks_refuted`). (c) Casts without operand or result, and casts
  that a materializer emits, stay without being reported
  (`unreported_casts_refuted`).
* C24: `scf.if` and `scf.loop` with two or more results and `scf.switch` with
  results are not lowered (scf_to_cf.rs lowers none or one result), and neither
  is anything structured after them in the same block: the pass then silently
  returns IR that still has structured control flow
  (`lowering_complete_refuted`). The positive theorems assume at most one
  result (none for a switch).
* C24: the pass moves the branch that replaces a `scf.yield`, `scf.continue` or
  `scf.break` to the end of its block, and drops operations of a switch body
  that are neither cases nor defaults. The machine calls runs that reach an
  exit in the middle of a block wrong, so the theorems say nothing about them.
* C35 (printer.rs write_type_alias_name, parser/raw.rs type_alias_name): a type
  alias whose name starts with a digit is printed bare and the parser, which
  wants an identifier there, rejects it (`alias_names_refuted`).
* C35 (parser/raw.rs raw_attr_value): the keywords true, false and unit match
  as prefixes, so a type attribute whose dialect starts with one of them
  (`units.meter`) is read as the keyword (`keyword_dialect_refuted`). NaN and
  infinite float attributes print as words that do not parse
  (`infinite_floats_do_not_read`).
* C35 (parser/raw.rs raw_type): after a type with parentheses an empty pair of
  braces is read as the attributes of the type, so an empty region that follows
  the last result type is lost (`swallowed_braces_refuted`).
* C51 (parser/raw.rs raw_operation): an operation that prints as a mere name
  followed by an operation with results does not parse: the results are read as
  operands (`results_taken_as_operands_refuted`).
* C51 (printer.rs print_module_op, raw.rs raw_operation): an empty module
  prints as `core.module @m {\n}` and reads as a module without a region;
  likewise an empty region of an operation without attributes and result types
  (`empty_module_refuted`, `empty_region_refuted`).
* C51 (raw.rs is_type_alias_def): the look-ahead ignores escapes, so a
  definition of an alias whose name contains a quote is not recognised and the
  module does not parse (`quoted_alias_refuted`).
* C51 (printer.rs print_region): a lone block without arguments loses its
  label; if it branches to itself the successor cannot be resolved unless it is
  numbered 0; an empty lone block disappears (`elided_label_refuted`,
  `empty_block_refuted`).
* C51, seen in reading only: print_module_op drops every attribute of a module
  but its name and merges its blocks; print_func drops the attributes of the
  function type and all regions but the first; an operand defined in a block
  printed later prints as `%?`, which does not parse.
* C52 (printer.rs print_module_op): a type with two names in the registry keeps
  only the last in the printer's map, so the first name may be made up again
  for another type. The text still resolves, but if the module contains a
  nested module the registry is printed again there, and the other type's alias
  then resolves to the first type (nested_alias_refuted).
* C53 (printer.rs print_region): values are named in the order of the text, so
  a use in a block that is printed before the block of its definition prints as
  %?, which does not parse, though dominance allows it (forward_use_refuted).
* C53 (printer.rs print_module_op, builder.rs): numbers start again for each
  operation of a module while the reader keeps one scope, so two top-level
  operations with results print as %0 and the second is rejected
  (repeated_results_refuted).
* C53 (dialect/func.rs print_func): a function nested in another operation
  clears all names, so later uses outside print as %?
  (nested_function_refuted).
* C53 (builder.rs): the reader records the printed name of every argument as
  bind_name unless it is argN in position N; printed names are never of that
  form, so a round trip adds an attribute to every argument
  (argument_names_refuted).
* Inlining (C23): only the last operation of the callee's block is checked
  (`splice_callee_body_before`, inline.rs:153-161). A `func.return` or
  `func.tail_call` inside a region of the callee, such as a branch of scf.if,
  is copied as it is and then returns from the caller
  (`inlining_keeps_behaviour_refuted`). The passes before inlining leave such
  operations only in functions without a return at the end, which are never
  inlined.
* C54 (ast_to_ir/lower/case.rs emit_pattern_check): on the route that the
  driver uses, the fields of a variant pattern are not tested: `case x {
  Some(1) -> a, _ -> b }` runs `a` for `Some(2)` (`legacy_case_refuted`). The
  logical route tests them.
* C54 (case.rs lower_case_chain): the last arm runs without a test whenever it
  is not the only one; for tuples and other types the checker only warns, so
  `(5, 6)` runs the arm `(3, 4)` (`last_arm_refuted`). On the logical route the
  last arm of a case that the checker wrongly calls exhaustive casts to a
  variant the value does not have (`logical_exhaustive_case_refuted`).
* C54 (case.rs emit_literal_check): string, float and unit literals pass the
  type checker as patterns and stop the compiler with `unreachable!`
  (`literal_case_refuted`); record patterns likewise.
* C54 (astgen/patterns.rs lower_constructor_fields): the names of fields in
  constructor patterns are dropped and the patterns taken by position; `User {
  age }` binds the first field (`named_field_refuted`; lang-examples/record-
  patterns.trb has such a pattern).
* C55 (typeck/checker/expr.rs check_exhaustiveness): patterns inside variants
  are not looked at, so `Some(1)`, `None` counts as exhaustive
  (`exhaustive_sound_refuted`); a catch-all arm that is not the last is not
  recognized, and a number is then called not exhaustive; tuples only get a
  warning and unsolved types nothing (`exhaustive_complete_refuted`).
* C57 (resolve/mod.rs resolve_use_imports): imports are resolved one after
  another in hash order and later ones see the names earlier ones add, so with
  `use a::b` and `use b::c` the meaning of `c` can differ from run to run
  (`use_order_refuted`). Without such chains the order does not matter
  (`resolution_order_irrelevant`).
* C57 (resolve/mod.rs collect_definition): a variant's constructor is numbered
  by module and variant name, without the name of the enum, so `A::X` and
  `B::X` of two enums in one module resolve to the same constructor
  (`variants_distinct_refuted`).
* C57 (resolver.rs resolve_name): qualified paths are only looked up from the
  root of the file. `inner::value()` inside `mod outer`, as in lang-
  examples/modules_inline.trb (a legacy example), is reported as not found
  (`neighbour_module_refuted`), and so are plain names of modules further out
  than the innermost (`outer_items_refuted`).
* C57 (resolver.rs inject_ability_operations): the operations of a declared
  effect are looked up under the name as written, so inside an inline module
  they are not available without a path (`module_effects_refuted`).
* C57 (resolve/mod.rs): `use` inside an inline module is collected into the
  inner environment and dropped (`module_use_refuted`).
* C57 (resolve/mod.rs): when a module name is declared twice, a placeholder of
  a nested module can replace a declared item (`reopened_module_refuted`).
* C58 (monomorphize/mod.rs): the worklist stops with an assertion after 64
  rounds. A chain of 64 different generic functions, each calling the next,
  needs 65 rounds and panics although every instance is finite
  (deep_chain_refuted).
* C58 (monomorphize/mod.rs): polymorphic recursion (a generic function calling
  itself at a larger type) type-checks and then hits the same assertion; the
  user sees a compiler panic, not a diagnostic (polymorphic_recursion_refuted).
* C58 (collect.rs is_concrete_type, mangling): a continuation type counts as
  concrete type argument, but mangling it panics
  (continuation_argument_refuted).
* C58 (mangling): effects of function types are not part of mangled names, so
  instances that differ only in an effect give two declarations of one name
  (copy_names_refuted). Both copies are emitted, in hash order.
* C58 (collect.rs extract_type_args): type parameters are only found in
  parameters and results, not in effect rows, applied types and continuations;
  calls of functions with a parameter only there stay generic
  (effect_parameter_refuted).
* C58 (specialize.rs type_args_variant): the node ids of a copy carry a 64-bit
  hash of its type arguments; two instances with the same hash overwrite each
  other's metadata. The theorems about metadata assume that this does not
  happen (separates).
* C58 (specialize.rs): the node ids of parameters are not given the variant, so
  all copies of a function share them with the source.
* C59 (tdnr/resolver.rs annotations_to_effect_row): a function whose first
  parameter names a type and whose effects contain a row variable (`fn f(x:
  Int) ->{e} Int` or `_`) makes the compiler panic with `unreachable!`
  (row_variable_refuted); this is the only panic of the pass (panics_exactly).
* C59 (tdnr/resolver.rs accessors): the types of accessors are looked up with
  the path of the struct itself as scope, so a module with the name of the
  struct that declares a type of this name takes over and field accesses stay
  unresolved (companion_module_refuted).
* C59 (tdnr/resolver.rs get_expr_type): the result of a generic accessor is the
  unsubstituted annotation, so `b.v.x` on `struct Box(a) { v: a }` stays
  unresolved although it type-checks (generic_field_refuted).
* C59 (observed, in the model): functions of all modules are candidates,
  private ones included; foreign functions are not, although type checking
  indexes them; a function without return annotation whose body has no type
  that can be read off counts as returning Nil; receivers that are case,
  lambda, handle or list expressions have no type.
* C60 (expressions.rs parse_string_literal): a text literal with a byte escape
  above 7F whose bytes are not UTF-8, such as "\xFF", reaches `expect` and
  panics the compiler (`byte_escape_panics_refuted`).
* C60 (patterns.rs unescape_string): in a pattern \xHH is the character U+00HH,
  in an expression it is a byte; the pattern "\xC3\xA9" does not match the text
  written the same way (`pattern_byte_escapes_refuted`). The prefixes s, rs and
  sr are not known in patterns: s"a" matches the four characters s"a"
  (`pattern_prefixes_refuted`).
* C60 (expressions.rs parse_string_literal): multiline texts s#"..."# and
  #"..."# fall through to the last branch and denote their own source text
  (`multiline_text_refuted`); in b#"..."# escapes are not processed although
  syntax.md allows them (`multiline_bytes_refuted`).
* C60 (expressions.rs process_escape_sequences): an escaped surrogate such as
  \uD800 disappears without a diagnostic (`surrogate_escape_refuted`).
* C60 (observed): a number literal that does not fit becomes ExprKind::Error or
  PatternKind::Error without a diagnostic; the expression is lowered to nil
  (ast_to_ir/lower/expr.rs:863) and the pattern matches everything
  (case.rs:470).
* C63 (native/intrinsic_to_native.rs BytesGetOrPanicPattern): native
  get_or_panic emits no bounds check, so an index past the end reads other
  memory instead of panicking (get_or_panic_native_refuted).
* C63 (arith_to_clif.rs, extend): arith.extend of an i8 or i32 becomes a sign
  extension, although intrinsic_to_native.rs relies on zero extension.
  Bytes::get(b"\xff", 0) is 4294967295 on the native target, and indices from
  2^31 on address memory below the data (get_high_byte_refuted,
  get_far_index_refuted).
* C61, C62 (prelude.trb, runtime bytes_len): lengths are truncated to 32 bits,
  so a text of more than 2^32 bytes is parsed up to the truncated length and
  compared as if it were shorter (huge_text_parsed_refuted,
  huge_strings_equal_refuted).
* C64 (arith_to_wasm.rs, comparison table): the unsigned predicates ule, ugt
  and uge have no Wasm lowering, nor does ult on i64, so a program with
  `Nat::<=`, `Nat::>` or `Nat::>=` does not compile to Wasm
  (`wasm_nat_order_refuted`).
* C64 (arith_to_wasm.rs, type_suffix): integer types other than i64 are treated
  as i32, so 8 and 16 bit arithmetic is not cut back to its width on Wasm
  (`wasm_narrow_arithmetic_refuted`); native code uses the width.
* C65 (tribute_rt_to_wasm.rs): Int and Nat are boxed as i31 references, which
  hold 31 bits: an Int outside of [-2^30, 2^30) and a Nat from 2^30 to 2^32 -
  2^30 arrive as a different number (`wasm_boxed_int_refuted`,
  `wasm_boxed_nat_refuted`).
* C65 (native/rtti.rs against new-plans/rc.md): the code reserves the type
  indices 0 to 4 for nil, bool, nat, int, float; rc.md gives 0 to Int, 1 to
  Float, 2 to Bool and Nat.  Nat is boxed with the index of Int, because both
  are core.i32 when boxes are made.
* C66 (resolve_evidence.rs, handle.rs): after a handle ends normally, its
  completion arm and everything that follows run with the evidence of its body,
  so a later operation of the same ability goes to the handler that has ended
  (`finished_handler_refuted`).
* C66 (native/evidence.rs): an arm runs with the evidence of the code that
  performed, which contains its own handler; an arm that performs its own
  ability calls itself forever instead of the outer handler
  (`own_ability_refuted`).
* C66 (control.rs resume_into_current): the value of a resume that is not last
  is the value of the handled body, not the answer of the handle as typing and
  cps-effects.md say; the completion arm then runs on what the arm returns
  (`resume_value_refuted`), the rest of the arm is skipped if a later arm
  completes the handle (`stop_skips_suffix_refuted`), and with another handle
  in between resume returns the inner body's value
  (`resume_across_handler_refuted`).
* C66 (control.rs:184): the answer of the current continuation is cast to
  Escape without a test; within a closure or a handle body it is Normal, so the
  documented run_state traps on Wasm (`run_state_wasm_refuted`). On the native
  target a word of the payload is compared with the owner tag, which is
  harmless unless they are equal (`run_state_native`).
* C66 (handle.rs:709): an op operation performed within a fn arm makes resume
  take a bare value for a carrier (`operation_in_fn_arm_refuted`).
* C66 (handle.rs:970-1075): handlers need not have an arm for every operation,
  and the last arm is taken without a test: an operation without an arm runs
  the last arm (`missing_arm_refuted`).
* C66 (abilities.md:317 against typeck/checker/expr.rs:2190): the reference
  lets a fn arm implement an operation declared with op; the checker rejects
  it. The documents do not say whether the original handler or one installed
  around a resumption serves the resumed computation.
* C68: in a function that is not compiled in continuation-passing style, a call
  whose callee is computed (`pick()(next())`) runs the arguments before the
  callee (lower/expr.rs:314 and 538); in continuation-passing functions the
  callee runs first (normalize.rs:116). Adding an effect to a function changes
  the order (`direct_code_same_order_refuted`).
* C68: the debug validator of the normal form does not look into lambdas in
  argument position (normalize.rs:57-67), so it accepts expressions that are
  not normal (`validator_exact_refuted`); the normaliser's own output is always
  normal. Observed, not modelled: of several spreads in one record expression
  only the last is kept, and the others are not evaluated
  (astgen/expressions.rs:312-315); a spread written after fields is evaluated
  before them.
* **C69** A lambda without effects inside a function that receives evidence,
  with a `handle` in it whose body calls an effectful function, uses the
  evidence of the outer function without capturing it (`lambda.rs` keeps
  `scope.evidence`; `get_or_create_evidence`, `lower/mod.rs`:621). After
  lifting the reference dangles; `resolve_evidence` replaces it later, so only
  the code between the two passes is ill-scoped. The theorems assume well-
  scoped code and say nothing about this case.
* **C69** Lifted functions are named `f::__clam_0` without looking whether that
  name exists; a function of the program with such a name would clash. The
  theorems assume that no function has such a name (`unclaimed`).
* C71: the type of `a && b` and `a || b` is left open when a body is inferred
  (`expr.rs` ~795), and a block's value is then checked without an expected
  type (`expr.rs:277-285, 1318-1330`). So `fn f() -> Int { True && True }` is
  accepted (`logic_has_its_type_refuted`).
* C71: variables in a tuple pattern or a list pattern get fresh types that
  nothing connects to the scrutinee unless its type is already a tuple or list
  type in hand (`bind_pattern_vars_with_ctx`, `expr.rs:1838-1919`). `case
  pair() { #(a, b) -> a(+1) }` is accepted
  (`tuple_patterns_type_their_variables_refuted`,
  `list_patterns_type_their_variables_refuted`).
* C71: constructor patterns are paired with the fields without comparing their
  number (`expr.rs:1782-1797`); the surplus variables have any type
  (`constructor_patterns_have_all_fields_refuted`).
* C71: the first pass does not look at guards, and a reference to a generalized
  local keeps the type of its first visit (`func_context.rs:402-428`), so a
  guard in a local function does not restrict its callers
  (`guards_are_conditions_refuted`).
* C71: a function with an open signature can be used at any type by the
  functions before it in the file; its body is checked later and its signature
  is then narrowed (`func_check.rs` ~399), without going back
  (`open_signatures_keep_their_promises_refuted`). In the same way `fn same(x:
  a) -> a { +1 }` is accepted as a function from Int to Int
  (`named_types_stay_open_refuted`).
* C72: `scf.continue` and `scf.break` become `br 1` and `br 2` wherever they
  stand (scf_to_wasm.rs:186-264). Only a conditional directly in the loop makes
  that right: below two conditionals a break goes back to the loop's start, and
  a continue directly in the loop leaves it
  (`break_below_two_conditionals_leaves_the_loop_refuted`,
  `continue_in_the_loop_itself_goes_on_refuted`). A continue with two values is
  not converted and the emitter rejects it
  (`loop_with_two_carried_values_compiles_refuted`). The front end makes no
  `scf.loop` at present, so these are latent.
* C72: whether a `wasm.if` has a result is decided from its first region alone
  (control_flow_handlers.rs:75-95). When that region ends by leaving (return,
  unreachable), the value of the other region is never stored, and the module
  is valid: later uses read the local's default
  (`value_of_a_conditional_with_an_early_return_refuted`).
* C72: a nil constant becomes `wasm.nop` (arith_to_wasm.rs:57-64), which emits
  `ref.null none`, but a nil result is never stored (emit.rs:958-966,
  1116-1132). The reference stays on the stack, so a branch, block or loop with
  a nil constant is rejected by validation
  (`nil_constant_in_a_branch_is_valid_refuted`).
* C73: declarations are indexed with the span of the whole declaration
  (definition_index.rs:504-576, astgen/declarations.rs:82), and rename replaces
  that span (server.rs:389-393): renaming `f` in `fn f(x) { x } fn main() {
  f(1) }` leaves `g fn main() { g(1) }`. In the same way a typed parameter
  loses its type, a variant its fields and a constructor call its arguments.
  `renaming_a_function_keeps_its_declaration_refuted`,
  `renaming_a_parameter_keeps_its_type_refuted`,
  `renaming_a_variant_keeps_fields_and_arguments_refuted`.
* C73: `can_rename` tries references before definitions
  (definition_index.rs:424-443), and the reference spans of patterns,
  constructor calls, handlers and method calls include their parts: on the `x`
  of `Some(x) ->` the rename of `Some` is offered, and on the parameter of a
  function passed to a method the method is renamed.
  `rename_is_offered_for_pattern_variables_refuted`,
  `rename_renames_the_parameter_under_the_cursor_refuted`.
* C73: functions, types and abilities are looked up by name alone
  (definition_index.rs:277-279, 352-356): a variable of the same name counts as
  a reference to the function, and a parameter of that name, if it comes first,
  as its definition. `find_references_tells_functions_from_variables_refuted`,
  `goto_definition_tells_functions_from_variables_refuted`.
* C73: rename does not look whether the new name is taken (server.rs:353-418):
  `fn g(x, y) { x + y }` becomes `fn g(y, y) { y + y }`.
  `rename_keeps_names_apart_refuted`.
* C74: in the WebAssembly lookup function the `br 0` that should continue the
  search loop (evidence_to_wasm.rs:888-891) is inside of an `if`, which is the
  innermost label: the branch leaves the `if`, the loop ends and the function
  traps. Only the marker in the middle of the array is ever found
  (`only_the_middle_handler_is_found`, `a_kept_handler_is_found_refuted`).
* C74: the evidence functions keep the bounds of the search in locals 2 and 3
  (evidence_to_wasm.rs:634-637), but the emitter gives the same locals to the
  first two values of the function (emit.rs:769-833). In extend these are the
  id of the new marker and the length of the array, so ids are compared with
  the lower bound and the new array ends with the inserted marker: with ids not
  below the number of handlers, which hashes almost always are when not
  negative, a handler inside of another one drops the outer one
  (`outer_handlers_are_lost`, `an_outer_handler_is_found_refuted`).
* C74: the WebAssembly extend function inserts a second marker for an ability
  instead of replacing the first (the native one replaces it, C01), so of three
  nested handlers with a negative id the second is found
  (`the_newest_of_an_ability_is_found_refuted`).
* C75: the values that are reference counted in native code have the IR type
  `tribute_rt.anyref` (`rc_insertion.rs:74`), and a declared field of any type
  but the built-in scalars and `Bytes` has it too (`lower/mod.rs:309-340`). The
  generated release functions release a field only if its type converts to
  `core.ptr` (`rtti.rs:228`, `rtti.rs:466`), but the native type converter has
  no conversion for `anyref` (its table in the module comment says `core.ptr`).
  So a field that holds an object is retained when the object is built and
  never released when it dies: every string, list, tuple, function or user-
  defined value in a field leaks (`types_that_hold_objects_are_not_balanced`,
  `an_object_in_a_field_is_freed_refuted`). Conversely a `Bytes` field is
  released but was never retained. The repository's tests for release functions
  only use `core.ptr` fields.
* C76: after a failed write the two targets put out different bytes: the native
  `__tribute_io_write` ignores the failure and still writes the newline (C02),
  the WebAssembly helper treats text and newline as one buffer and drops both
  (`targets_print_the_same_refuted`). On both, the program is not told that
  output was lost.
* C77 (lower/expr.rs:1320, lower/handle.rs:50 and 538): performing and handling
  refer to an ability without its type arguments, so `State(Int)` and
  `State(Text)`, which type-inference.md:91 allows side by side, are one
  ability at run time: an operation of the outer one goes to the inner handler
  (`an_operation_reaches_its_handler_refuted`).
* C77 (ability.rs:240-255): the lowering that is to replace it passes the
  arguments, but `hash_type` ignores attributes, and the name of a declared
  type is one: `State(Foo)` and `State(Bar)` get the same number for every hash
  function (`declared_types_are_told_apart_refuted`).
* C77: the numbers are 32-bit hashes of names and no pass checks whether two
  abilities of a program, or two operations of a handler, share one; for every
  hash function some abilities do (`abilities_are_told_apart_refuted`).
* C78: the native backend looks a symbol up among functions before data, and
  literals are named `__tribute_rodata_0`, `__tribute_rodata_1` and so on. A
  program with a function of that name compiles (its linker name is mangled),
  and the literal points at the code of the function
  (`native_literals_keep_their_text_refuted`). On WebAssembly a literal of 2^32
  bytes or more is cut by `as u32` before the check that it fits an i32
  (`wasm_literals_keep_their_text_refuted`).
* C79: the operands of `list.head` and `list.tail` are noted before any is
  lowered. If a block is written before the one that dominates it, an operand
  can be the result of a use that is lowered, and removed, first; the code then
  tests and reads a value that no longer exists
  (`native_lists_behave_like_lists_refuted`). The WebAssembly pipeline has no
  lowering of `list.*` at all.
* C80: `apply_partial` stops after ten iterations unless another limit is set,
  and neither conversion looks at `reached_fixpoint`. A partial conversion
  therefore reports success while a pattern still has work to do at an
  operation the target does not know, and a full one rejects a program that
  more iterations would convert. Shown with eleven successive rewrites of one
  operation (`ten_iterations_are_enough_refuted`); patterns that need fewer
  steps finish (`patterns_that_make_progress_finish`).
* C80: that a replacement has as many results as the operation it replaces is
  checked by `debug_assert_eq!` only. In a release build the pairs are cut to
  the shorter list, the uses of the remaining results keep naming a removed
  value, and a full conversion still succeeds
  (`too_few_results_leave_uses_hanging`).
* C81: calls, method calls, operators, blocks, cases, lambdas, handlers, tuples
  and lists have no entry in the index of types. Hovering over the `+` of
  `Some(1 + 2)` shows the type and the range of the constructor around it. A
  constructor with arguments is entered with the type of the constructor, so
  the whole of `Some(1)` is shown as `fn(Nat) -> Option(Nat)`
  (`hover_shows_the_type_refuted`).
* C82: an inference variable is shown by the sum of two numbers, so variables
  (0, 1) and (1, 0) of one function are both `b`; inference variables and
  signature variables share the letters; every row variable is `e`, also next
  to a type variable `e`; and a named type is shown without its module. `fn(a)
  -> b` with two different variables can be shown as `fn(b) -> b`
  (`shown_types_are_told_apart_refuted`).
* C83: `LowerListIntrinsics` rewrites direct calls and removes the declaration
  of the intrinsic, but leaves `func.constant` references to it, which then
  refer to nothing (`list_construction_is_lowered_refuted`); a call with
  another number of operands is left behind in the same way. The prelude only
  calls it directly.
* C84: `extract_call_info` asks for the field `arguments` of a call, which the
  grammar does not define (`lower_call_expr` says so and looks for
  `argument_list` by kind), so signature help is never shown
  (`signature_help_never_shown`, `signature_help_finds_the_call_refuted`); the
  only test accepts an empty answer. The walk upwards also passes over method
  calls, so with that mended help in their arguments would be about the call
  around them.
* C85: `compare_diagnostics` does not compare severity, labels or note, so two
  diagnostics that differ only there are shown in the order they were found
  (`diagnostics_order_is_fixed_refuted`). No program that makes the compiler
  find them in two orders has been constructed; the refutation is about the
  sort.

## How to read seeded/LOG.jsonl

Each edit was made in a scratch copy and the copy rebuilt by a script. A lemma, theorem or example whose proof no longer checks is recorded, its proof
is cut there so that the build goes on, and `theorems_failed` lists the property theorems that rest on such a lemma. This has limits:

* `theorems_failed` says that the existing proof no longer checks. It does not say that the theorem became false of the edited program: a proof can
  also break because its script follows the shape of the definition. No counterexample was proved for most entries. `examples_failed` is
  stronger where it is not empty: there a concrete result changed.
* Some entries list failed theorems although the edit is harmless; their `note` says so where this was noticed. They show that a script is brittle and
  say nothing about the strength of the theorem. About 95 entries have both a note and failed theorems; entries without a note were not searched for
  harmless edits one by one.
* Most notes were written together with the edit, before its run, and are predictions. Four notes on `SigHelpModel.v` were compared with the outcome
  afterwards and corrected, one of them because it was wrong. The other notes were not all compared again.
* Entries with an empty `theorems_failed` and a non-empty `theorems_tightened` survived at first and were entered by hand. Where the edit was tried
  again after tightening, there is a second entry ending in "(again, after tightening)".
* Edits that only stopped the build at a definition (for instance because the number of arguments changed) are not entered; three of C80 were tried again
  in a form that keeps the arguments.

## Oracles (Section variables / function arguments standing for code not modelled)

All are universally quantified in the theorems, so each theorem holds for every behaviour of them.

* `utf8_ok` (IoModel): `core::str::from_utf8` succeeding.
* `sem`, `truth`, `default` (EmitSpec): what plain operations do, which values count as true and what a declared local starts with;
  `params`, `pushes`, `ends`, `indirect` (EmitSpec): the operand types, result type, leaving and callee order of each instruction.  `lawful` says that
  `sem` gives a value exactly when `pushes` says so.
* `grows` (WasmIoModel): whether the engine grows a memory of so many pages by so many; `answers`: what the host answers to
  `fd_write`, any sequence of honest answers.
* `finish` (AbilityIdModel): FxHasher as a function of what is fed to it, arbitrary.
* `alphanumeric` (LspModel): `char::is_alphanumeric`.
* `compute` (CacheModel): what an analysis computes from the IR state; `St`, `V` the states and results.
* `pure` (DceModel): the purity registry filled at link time by the dialects.
* `compute`, `effect`, `answer` (DceSpec): what pure and impure operations do when run, and the environment's answers.
* `St`, `tag`, `isolated` (PassModel): pass states, operation classes, and the isolation trait.
* `dialect`, `name` (TargetModel): dialect and name of an operation.
* `is_function` (ValidModel): which operations are `func.func` or `wasm.func`.
* `is_cast`, `convert`, `materialize` (CastModel): which operations are casts, the conversion table, and the materializer as a
  function from two types to a plan of operations.
* `behave` (RcPairSpec): what an operation other than retain and release does to the heap.
* `order`, `w`, call contracts (RcInsertModel): the order of releases, borrow information, and ownership contracts of callees.
* `effect`, `truth`, `equal`, `answer` (ScfSpec): what an operation that is not control flow does (give results, branch, return,
  trap, talk to the world, run one of its regions), when a condition holds, when a discriminant equals a case value, and the
  world's answers. `shape_of`, `case_value`, the kinds of the operations that the pass creates (ScfModel); `makes` states what is
  assumed about those kinds: a branch is a branch, a constant gives its literal, the comparison agrees with `equal`.
* kind predicates and behaviours (TailResModel): which operations are `tribute_control` operations, and what others do.
* `shuffle` (ResolveModel, MonoModel): the order in which a hash map is traversed, any permutation.
* `ann`, `effs`, `lit`, `other` (TdnrModel): what the numbers of annotations, effect lists, literals and type declarations stand for; names in
  them are identifiers.
* `variant` (MonoModel): the hash of the type arguments of an instance; theorems about metadata ask that it separates the needed
  instances of a function.
* `pure` (InferModel): whether the right-hand side of a `let` is pure, decided by its inferred effect row, which is not modelled.
* `sem` (NormSpec): values, computations and the behaviour of calls, constructors, handlers and so on; any lawful one.
* `checked` (HandlerModel): whether the dispatcher checks the tag of a shift; both answers are covered.
* C35: Rust's formatting and parsing of f64 (`show`, `read`, `is_finite`), assumed to print
  finite floats as decimal numerals without exponent that read back as the same float.

## Assumptions

`Print Assumptions` prints "Closed under the global context" for every property
theorem.  No axiom is declared in `rocq/theories`.  Loading the standard library
(`Coq.ssr.ssreflect`, pulled in by std++ and others) brings seven parameters of
the standard library's `Coq.ssr.ssrunder.Under_rel` module into the environment
(`Under_rel`, `Under_rel_from_rel`, `Under_relE`, `Over_rel`, `over_rel`,
`over_rel_done`, `under_rel_done`); no theorem here depends on them.
