# DESIGN

Formal model of pscm (`/repo/src/c`, the C++ interpreter) in Coq 8.16.1 and
machine-checked proofs about it.  Everything is in `rocq/theories`, logical
name `Verif`.

## 1. Layout

For each area there are up to four kinds of file.

* `*Model.v` - the code, function by function.  Each definition has a comment
  with the file and lines it models and the simplifications made.
* `*Spec.v` - a small specification that does not mention the model's helpers
  (mathematical lists, finite maps, integers, ASCII text, guard sequences ...).
* `*Proofs*.v`, `*Inv*.v`, `*Mono.v` - lemmas.
* `*Properties*.v`, `*Witness.v` - the theorems `cNN_...` named in
  MANIFEST.json, each followed by `Example`s showing that its hypotheses are
  met by a concrete case, and (for claims that are false of the code) the
  refutation.

| model | source modelled | how |
|---|---|---|
| Base | - | outcome type: value, Scheme error (`scm_error`/throw/abort), assertion failure, undefined behaviour, out of fuel |
| NumModel, StrNumModel | number.cc, function.cc, number parts of pscm.h, string.cc (number->string, string->number) | int64 as Z with an explicit `UB` result on overflow; doubles through `Coq.Floats.SpecFloat` (computable, no axioms); ratios as the pair the code stores |
| HeapModel, ListModel, EqModel | list.cc, eq.cc, predicate.cc (list?), cell layout of pscm_types.h | heap of `SCM_List` cells (data, next, is_dotted) with addresses and wrapper identity; loops are fuelled and proved fuel independent |
| AlistModel | alist.cc | entry lists plus the comparison each procedure calls |
| HashModel | hash_table.cc | bucket array, the three hash functions with their unsigned wrap-around |
| VectorModel | vector.cc | array with length, C `int` truncation |
| StringModel | string.cc, char.cc | byte strings with explicit length, signed chars, `int` lengths, NUL handling |
| ParseModel, PrintModel | parse.cc, print.cc | recursive descent over the byte buffer with position; printer as byte list |
| PortModel | port.cc (string ports, read from a port) | position/peek state, output buffer, the 4096-byte `read` buffer |
| EnvModel | environment.cc, module.cc, define.cc, variable lookup in eval.cc | frames, global table, modules with obarray/uses/exports |
| EvalModel | eval.cc, let.cc, cond.cc, case.cc, do.cc, map.cc, for_each.cc, apply.cc, macro.cc, quasiquote.cc, delay.cc, values.cc, dynwind.cc, throw.cc, continuation.cc (escapes) | fuelled big-step interpreter in a state monad (store, output trace, catch stack, wind chain) with outcomes normal/error/throw/jump; primitives are a parameter whose result is constrained only by the hypotheses in the statements |
| GcModel | gc.cc, gc.h | segments, size-class free lists, large objects, mark and sweep over addressed blocks |
| OptModel | read.cc, debug.cc | the two option tables and their set/enable/disable procedures |
| SmobModel | smob.cc, smob.h | type table and smob objects |
| ApiModel | pscm_api.cc, error.cc (scm_api_catch_handler) | the guard around every call, last-error globals, string and file evaluation, over EvalModel and ParseModel |
| PredModel | predicate.cc, symbol.cc, variable.cc, char.cc (char?) | predicates and conversions on HeapModel objects; variables as a store of cells |
| ReplModel | repl.cc, main.cc (do_eval, my_eval) | line collection, is_balanced, the session and script loops over ApiModel |
| HostModel | load.cc, exit.cc, throw.cc (handler_message, scm_uncaught_throw, scm_handle_by_message_noexit, scm_c_with_throw_handler) | load over EvalModel; the message buffer; a small control model of lazy catches |
| MachModel, MachNat | continuation.cc, dynwind.cc, throw.cc, eval.cc (core forms), procedure.cc, function.cc, map.cc, for_each.cc | a machine whose stack is the list of C frames waiting for a nested evaluation; continuations save that list and the wind chain; cells, environments, argument lists, map's iterator arrays, the catch stack are global; MachNat is a big-step semantics that the machine is proved to follow |
| PsysModel | port.cc (except `read`), string.cc (display, write, newline) | files, stdio FILEs with buffering chosen by the environment, file/string/soft ports, current ports, call-with-...-file/string; soft-port procedures answer arbitrarily |
| ModsysModel | module.cc (binders, module-use!, module-map: BinderModel; scm_c_ entry points: HostModModel), load.cc 30-60 | registry, files as lists of forms, %load-path, autoload, exports and interfaces over EnvModel's tables |
| BinderModel | module.cc 93-190, 962-1103, 1147-1157 | lookups that consult binders, module-use!, module-map over the hash-table heap |
| LocModel | parse.cc (counters, stack of open constructs, parse_error), source_location.cc 7-21 | the reader again, with line/column, locations in the objects, the stack, and a ghost list of lexemes; refines ParseModel |
| DiagModel | error.cc, source_location.cc 63-74, eval.cc 257-275 | texts of evaluation errors with buffer bounds; call stack and context as a state machine over enter/leave/escape events |
| CopyModel | source_location.cc 7-60, macro.cc 148-155, pscm.h 601-671, gc.cc sweep_scm | strings with explicit allocation and freeing, locations per object, objects as finite trees of identities |
| CallModel | apply.cc 16-160, macro.cc 352-401, eval.cc 937-962 | host_call, host_apply, macroexpand_1, macroexpand, defined over EvalModel |
| RegModel | function.cc, pscm.h 1031-1068, module.cc 536-563, init.cc, all init_ functions | the table of builtins; eval_with_func with C signatures |
| HostModModel | module.cc 522-644, 1106-1186, variable.cc | module functions for C++ code, over ModsysModel |
| CellModel | eval.cc, let.cc, define.cc, procedure.cc, function.cc, pscm_types.h | the evaluator over heap list nodes that are shared and written, related to EvalModel |
| SqrtModel | number.cc: scm_c_sqrt | std::sqrt is the IEEE-754 operation of Coq.Floats.SpecFloat |
| TailModel | eval.cc: eval_with_env, eval_if | frames of the C stack counted apart from jumps to entry; other special forms follow EvalModel |
## 2. Trusted base

* Coq 8.16.1's kernel (`coqc`), including `vm_compute`, which is used for
  `Example`s and for refutation witnesses.
* Axioms: `Print Assumptions` answers "Closed under the global context" for
  every theorem named in MANIFEST.json (716 theorems at the last count).
  No axiom of the standard library is used by any of them.  (Loading the
  library brings Coq.ssr.ssrunder's module-type fields into scope; no theorem
  depends on them.)
* No `Admitted`, no axioms, no functors or module types, no kernel flags, no
  plugins; the only libraries used are Coq's own.
* The correspondence between the model and the C++ text.  It is not proved;
  it was established by reading, checked by the lit tests of the
  repository (section 5) and by mutation testing (section 6).
* The reading of C++: two's-complement 64-bit `int64_t`/`long`, 32-bit `int`,
  signed `char`, IEEE binary64 `double`; signed overflow, out-of-range
  conversions and out-of-bounds accesses are undefined behaviour and are an
  outcome (`UB`) of the model rather than something assumed away.

## 3. What is not modelled

* Saved C stacks byte by byte: EvalModel treats a continuation as an escape to
  a live `call/cc` (C46); MachModel models re-entry on a machine whose C stack
  is a list of explicit frames, with the copied/restored segment made explicit
  (C46, C85, C86, C87).  The `memcpy`/`longjmp` of raw stack bytes, registers
  and callee-saved state is represented by those frames, not by bytes.
* The command line parser and logging; the text excerpt printed with syntax errors; the extra lines eval.h and eval.cc print on stderr for argument mismatches and unbound symbols.
  The REPL's line assembly is in ReplModel, `load` and the host API in
  HostModel.
* Address-dependent values: `eq?`/`hashq` on addresses is modelled by identity
  numbers; nothing is proved that depends on actual addresses except in
  GcModel, where blocks have them.
* The conservative scan of the C stack is a set of root words (GcModel); that
  this set contains every live reference at run time is not proved for the
  compiled program.
* Floating-point `sqrt`, `exp`, `log`, trigonometry, and printing/reading of doubles.
* Running out of memory, other than segment exhaustion in GcModel.
* Time and stack depth: the model's recursion is unbounded, the C stack is not.

## 4. Properties, plan and result

Status `proved`: the statement in properties.jsonl is proved for everything it
quantifies over.  `partial`: a theorem with suffix `_partial` covers the part
stated in the note, or the statement is false of the code and a theorem with
suffix `_refuted` proves a counterexample (usually next to an exact
characterisation of when it does hold).

| id | property | what is modelled and how it is proved | result |
|---|---|---|---|
| C01 | Exact fixnum arithmetic | NumModel.v: int64 over Z with UB on overflow, SpecFloat doubles, ratios as stored; induction over the argument list. | **proved** (7 theorems, NumProperties.v). Proved for argument lists of every length; overflow is shown to be exactly the UB case. |
| C02 | Integer division laws | NumModel.v: int64 over Z with UB on overflow, SpecFloat doubles, ratios as stored; induction over the argument list. | **proved** (6 theorems, NumProperties.v). Full statement. |
| C03 | gcd and lcm | NumModel.v: int64 over Z with UB on overflow, SpecFloat doubles, ratios as stored; induction over the argument list. | **proved** (3 theorems, NumProperties.v). Arguments other than INT64_MIN; c03_min_is_ub shows that negating INT64_MIN is UB in the code. |
| C04 | Rationals are exact and in normal form | NumModel.v: int64 over Z with UB on overflow, SpecFloat doubles, ratios as stored; induction over the argument list. | **proved** (6 theorems, NumProperties.v). Also n-ary / and ratio*ratio; normal forms are unique. |
| C05 | Integer comparisons are a total order | NumModel.v: int64 over Z with UB on overflow, SpecFloat doubles, ratios as stored; induction over the argument list. | **proved** (3 theorems, NumProperties.v). All five relations, argument lists of every length. |
| C06 | Sign predicates | NumModel.v: int64 over Z with UB on overflow, SpecFloat doubles, ratios as stored; induction over the argument list. | **proved** (5 theorems, NumProperties.v, NumProperties2.v). Parity, max, min: C124; ratios: C07. |
| C07 | Arithmetic is closed over every number the interpreter can create | NumModel.v: int64 over Z with UB on overflow, SpecFloat doubles, ratios as stored; induction over the argument list. | **proved** (5 theorems, NumProperties.v). Full statement; what is false beyond it is refuted in C135. |
| C08 | number->string / string->number round trip | theories/StrNumModel.v: digit loop and strtol model; proof by strong induction on the value. | **proved** (2 theorems, NumProperties.v). -2^63: C125. |
| C09 | expt on integers | theories/NumModel.v: repeated multiplication loop; induction on the exponent. | **proved** (2 theorems, NumProperties.v). Full statement plus the behaviour for negative exponents. |
| C10 | cons/car/cdr/set-car! laws and aliasing | HeapModel.v + ListModel.v: heap of cells with addresses, fuelled loops; list-segment predicates, induction on the segment, frame conditions. | **proved** (14 theorems, ListProperties.v). cons, car, cdr, set-car!, set-cdr! on every heap; frame conditions included. |
| C11 | length | HeapModel.v + ListModel.v: heap of cells with addresses, fuelled loops; list-segment predicates, induction on the segment, frame conditions. | **proved** (3 theorems, ListProperties.v). Full statement; c11_length_of_dotted shows that improper lists are counted with their final cdr instead of being rejected. |
| C12 | append | HeapModel.v + ListModel.v: heap of cells with addresses, fuelled loops; list-segment predicates, induction on the segment, frame conditions. | **proved** (2 theorems, ListProperties.v). Full statement for proper lists; for an improper last argument the exact (lossy) behaviour is proved. |
| C13 | reverse | HeapModel.v + ListModel.v: heap of cells with addresses, fuelled loops; list-segment predicates, induction on the segment, frame conditions. | **proved** (2 theorems, ListProperties.v). Full statement. |
| C14 | list-ref, list-tail and list-head bounds | HeapModel.v + ListModel.v: heap of cells with addresses, fuelled loops; list-segment predicates, induction on the segment, frame conditions. | **proved** (6 theorems, ListProperties.v). Full statement, all 64-bit indices (negative ones become huge size_t values and are shown to be rejected). |
| C15 | last-pair | HeapModel.v + ListModel.v: heap of cells with addresses, fuelled loops; list-segment predicates, induction on the segment, frame conditions. | **proved** (4 theorems, ListProperties.v). Full statement; what is false beyond it is refuted in C136. |
| C16 | list? decides proper lists | HeapModel.v + ListModel.v: heap of cells with addresses, fuelled loops; list-segment predicates, induction on the segment, frame conditions. | **proved** (2 theorems, ListProperties.v). Full statement; what is false beyond it is refuted in C137. |
| C17 | memq/memv/member find the first match | HeapModel.v + ListModel.v: heap of cells with addresses, fuelled loops; list-segment predicates, induction on the segment, frame conditions. | **proved** (4 theorems, CompareProperties.v, ListProperties.v). Full: memq, memv, member with the comparison each uses filled in (C74, C20). Excludes circular data and inexact numbers (no shape). |
| C18 | eq? is stable on the same cell | HeapModel.v + ListModel.v: heap of cells with addresses, fuelled loops; list-segment predicates, induction on the segment, frame conditions. | **partial** (1 theorems, ListProperties.v). False of the code for every list with at least two elements: cdr allocates a new wrapper each time. |
| C19 | equal? is an equivalence deciding structural equality | theories/EqModel.v: the two recursive comparisons over finite data; induction on data. | **proved** (3 theorems, ListProperties.v). Full statement (decides structural equality, hence an equivalence). Floats are outside the class; c19_inexact_not_transitive shows why. |
| C20 | Key comparison used by assoc, member and equal-hash tables | Define the shape of an object (its elements, dots ignored) and prove by induction on the fuel that the comparison decides equality of shapes; relate shapes to data. | **proved** (3 theorems, CompareProperties.v). Full, on all data without inexact numbers, ratios and NULs (the class [shows]); dotted cells anywhere. |
| C21 | assq/assv/assoc and assoc-ref | theories/AlistModel.v: functions on entry lists; refinement to first-match lookup. | **proved** (5 theorems, AlistProperties.v, CompareProperties.v). Full: assq/assoc/assv with the comparison filled in. assv on a non-list is an assertion failure (c21_non_list). |
| C22 | assoc-set! / assoc-remove! update laws | theories/AlistModel.v: functions on entry lists; refinement to first-match lookup. | **proved** (8 theorems, AlistProperties.v, CompareProperties.v). Full statement; what is false beyond it is refuted in C138. |
| C23 | Hash tables refine finite maps | theories/HashModel.v: bucket array, hash functions as in the code; invariant + refinement to a finite map by induction over operation histories. | **proved** (8 theorems, HashProperties.v). Every history of set/ref/remove/get-handle/create-handle in each family refines a finite map. Negative capacities: C100. |
| C24 | equal-hash tables find every equal key | theories/HashModel.v: bucket array, hash functions as in the code; invariant + refinement to a finite map by induction over operation histories. | **proved** (2 theorems, HashProperties.v). Full statement; what is false beyond it is refuted in C139. |
| C25 | Vector bounds and update laws | theories/VectorModel.v. | **proved** (9 theorems, VectorProperties.v). Full statement, plus make-vector/vector/vector-length and type errors. |
| C26 | vector/list conversions | theories/VectorModel.v. | **proved** (4 theorems, VectorProperties.v). Larger vectors: C126. Improper lists: the final cdr becomes an element. |
| C27 | String access, substring and append | theories/StringModel.v: byte lists, strncmp/toupper as in C. | **proved** (8 theorems, StringProperties.v). Larger results: C126. |
| C28 | String ordering is a total order | theories/StringModel.v: byte lists, strncmp/toupper as in C. | **proved** (3 theorems, StringProperties.v). Full statement; c28_nul_hides_the_rest shows why NUL is excluded. |
| C29 | Case-insensitive equality and consistency | theories/StringModel.v: byte lists, strncmp/toupper as in C. | **proved** (2 theorems, StringProperties.v). Order against the upper-cased strings: C127. |
| C30 | string/list/char conversions | theories/StringModel.v: byte lists, strncmp/toupper as in C. | **proved** (5 theorems, StringProperties.v). Full statement (round trip for strings shorter than 2^31). |
| C31 | The reader terminates and makes progress | theories/ParseModel.v, PrintModel.v: recursive descent over a byte list with fuel = input length (theorem: never runs out), printer as a function to bytes; round trip by induction on data. | **proved** (5 theorems, ParseProperties.v). Full statement; undefined behaviour is confined to integer literals above 2^63-1 (signed overflow in parse_number), which c31_huge_numeral_overflows shows to be real. |
| C32 | write/read round trip | theories/ParseModel.v, PrintModel.v: recursive descent over a byte list with fuel = input length (theorem: never runs out), printer as a function to bytes; round trip by induction on data. | **proved** (2 theorems, ParseProperties.v). Full statement; what is false beyond it is refuted in C140. |
| C33 | Which string literals round trip | theories/ParseModel.v, PrintModel.v: recursive descent over a byte list with fuel = input length (theorem: never runs out), printer as a function to bytes; round trip by induction on data. | **proved** (1 theorems, ParseProperties.v). An equivalence; strings that do not survive: C129. |
| C34 | Keyword symbols round trip | theories/ParseModel.v, PrintModel.v: recursive descent over a byte list with fuel = input length (theorem: never runs out), printer as a function to bytes; round trip by induction on data. | **proved** (1 theorems, ParseProperties.v). Full statement; what is false beyond it is refuted in C141. |
| C35 | String input ports are byte streams | theories/PortModel.v: port state machine; history induction; capacity invariant. | **proved** (2 theorems, PortProperties.v). Full statement (also char-ready? and close). |
| C36 | String output ports accumulate | theories/PortModel.v: port state machine; history induction; capacity invariant. | **proved** (2 theorems, PortProperties.v). NUL bytes: C128. |
| C37 | read on a port yields the next datum | theories/PortModel.v: port state machine; history induction; capacity invariant. | **proved** (3 theorems, PortProperties.v). Full statement; what is false beyond it is refuted in C142. |
| C38 | Lexical lookup order | EnvModel.v: frames, parent chain, global table, module obarrays and uses; refinement to "first hit" lookup. | **proved** (2 theorems, EnvProperties.v). The usual order, modules before the global table: C123. |
| C39 | set! updates the nearest binding only | EnvModel.v: frames, parent chain, global table, module obarrays and uses; refinement to "first hit" lookup. | **proved** (1 theorems, EnvProperties.v). Full statement; what is false beyond it is refuted in C143. |
| C40 | define in a procedure body is local | EnvModel.v: frames, parent chain, global table, module obarrays and uses; refinement to "first hit" lookup. | **proved** (1 theorems, EnvProperties.v). Full statement; what is false beyond it is refuted in C144. |
| C41 | do loop variables are local | EvalModel.v: fuelled evaluator over an environment store following eval.cc case by case; fuel monotonicity (EvalMono.v) turns every statement into one about the limit; state invariants by induction on fuel (EvalInv*.v). | **proved** (1 theorems, EvalProperties2.v). Full statement; what is false beyond it is refuted in C145. |
| C42 | Module variable resolution | EnvModel.v: frames, parent chain, global table, module obarrays and uses; refinement to "first hit" lookup. | **proved** (3 theorems, EnvProperties.v). Full statement: order, isolation, most recent use first. |
| C43 | Exports show the current value | EnvModel.v: frames, parent chain, global table, module obarrays and uses; refinement to "first hit" lookup. | **proved** (1 theorems, EnvProperties.v). Full statement; what is false beyond it is refuted in C146. |
| C44 | module-bound? reflects boundness | EnvModel.v: frames, parent chain, global table, module obarrays and uses; refinement to "first hit" lookup. | **proved** (1 theorems, EnvProperties.v). Full statement; what is false beyond it is refuted in C147. |
| C45 | dynamic-wind normal exit | EvalModel.v: wind chain and guard calls inside the evaluator; trace of guard calls for every pair of chains. | **proved** (3 theorems, EvalProperties3.v). Order of the three calls, value and restoration of the wind chain for every program, unless a throw left a dynamic-wind (which skips the out guard: example c45_throw). |
| C46 | Continuation jumps leave the wind chain at the target | EvalModel.v: wind chain and guard calls inside the evaluator; trace of guard calls for every pair of chains. | **proved** (6 theorems, EvalProperties3.v, MachProperties.v). Full statement; what is false beyond it is refuted in C148. |
| C47 | Only extents actually left or entered run their guards | EvalModel.v: wind chain and guard calls inside the evaluator; trace of guard calls for every pair of chains. | **proved** (2 theorems, EvalProperties3.v). Full statement; what is false beyond it is refuted in C149. |
| C48 | throw selects the innermost matching handler | EvalModel.v: catch stack inside the evaluator; invariant over all evaluations. | **proved** (3 theorems, EvalProperties3.v). No arguments: C122. |
| C49 | catch restores the catch stack | EvalModel.v: catch stack inside the evaluator; invariant over all evaluations. | **proved** (2 theorems, EvalProperties3.v). Full statement; what is false beyond it is refuted in C150. |
| C50 | Collection never frees reachable objects | theories/GcModel.v: object graph marking with explicit mark stack, sweep, size-class free lists, bump allocation; reachability invariants. | **proved** (3 theorems, GcProperties.v). References the collector does not see: C101. |
| C51 | Collection reclaims everything unreachable | theories/GcModel.v: object graph marking with explicit mark stack, sweep, size-class free lists, bump allocation; reachability invariants. | **proved** (4 theorems, GcProperties.v). Large objects of odd size: C102. |
| C52 | Allocations never overlap | theories/GcModel.v: object graph marking with explicit mark stack, sweep, size-class free lists, bump allocation; reachability invariants. | **proved** (6 theorems, GcProperties.v). Full statement: distinct live blocks never overlap, are aligned and inside mapped segments; allocation succeeds for every size the program asks for. |
| C53 | if/and/or/begin evaluate exactly the required subexpressions | EvalModel.v: fuelled evaluator over an environment store following eval.cc case by case; fuel monotonicity (EvalMono.v) turns every statement into one about the limit; state invariants by induction on fuel (EvalInv*.v). | **proved** (6 theorems, EvalProperties.v). Full statement for any operands. |
| C54 | Procedure application binds parameters correctly | EvalModel.v: fuelled evaluator over an environment store following eval.cc case by case; fuel monotonicity (EvalMono.v) turns every statement into one about the limit; state invariants by induction on fuel (EvalInv*.v). | **proved** (6 theorems, EvalProperties.v). Full statement; what is false beyond it is refuted in C151. |
| C55 | let, let*, letrec scoping | EvalModel.v: fuelled evaluator over an environment store following eval.cc case by case; fuel monotonicity (EvalMono.v) turns every statement into one about the limit; state invariants by induction on fuel (EvalInv*.v). | **proved** (3 theorems, EvalProperties2.v). let, let*, letrec and named let by their exact binding structure. |
| C56 | Named let evaluates its whole body | EvalModel.v: fuelled evaluator over an environment store following eval.cc case by case; fuel monotonicity (EvalMono.v) turns every statement into one about the limit; state invariants by induction on fuel (EvalInv*.v). | **proved** (2 theorems, EvalProperties2.v). Full statement; what is false beyond it is refuted in C152. |
| C57 | case selects the first matching clause | EvalModel.v: fuelled evaluator over an environment store following eval.cc case by case; fuel monotonicity (EvalMono.v) turns every statement into one about the limit; state invariants by induction on fuel (EvalInv*.v). | **proved** (3 theorems, EvalProperties2.v, EvalProperties5.v). cond and dotted keys: C120. |
| C58 | map visits every row in order | EvalModel.v: fuelled evaluator over an environment store following eval.cc case by case; fuel monotonicity (EvalMono.v) turns every statement into one about the limit; state invariants by induction on fuel (EvalInv*.v). | **proved** (2 theorems, EvalProperties4.v). for-each: C121. |
| C59 | Quasiquote of a template | EvalModel.v: fuelled evaluator over an environment store following eval.cc case by case; fuel monotonicity (EvalMono.v) turns every statement into one about the limit; state invariants by induction on fuel (EvalInv*.v). | **proved** (2 theorems, EvalProperties4.v). Full statement; what is false beyond it is refuted in C153. |
| C60 | Promises are forced at most once | EvalModel.v: fuelled evaluator over an environment store following eval.cc case by case; fuel monotonicity (EvalMono.v) turns every statement into one about the limit; state invariants by induction on fuel (EvalInv*.v). | **proved** (3 theorems, EvalProperties4.v). Full statement, including re-entrant forces: a completed force establishes the value, every evaluation preserves it, and forcing again evaluates nothing. |
| C61 | values / call-with-values | EvalModel.v: fuelled evaluator over an environment store following eval.cc case by case; fuel monotonicity (EvalMono.v) turns every statement into one about the limit; state invariants by induction on fuel (EvalInv*.v). | **proved** (1 theorems, EvalProperties4.v). Full statement; what is false beyond it is refuted in C154. |
| C62 | apply passes arguments unevaluated a second time | EvalModel.v: fuelled evaluator over an environment store following eval.cc case by case; fuel monotonicity (EvalMono.v) turns every statement into one about the limit; state invariants by induction on fuel (EvalInv*.v). | **proved** (2 theorems, EvalProperties4.v). Full statement; what is false beyond it is refuted in C155. |
| C63 | Macro parameters receive the operand syntax | EvalModel.v: fuelled evaluator over an environment store following eval.cc case by case; fuel monotonicity (EvalMono.v) turns every statement into one about the limit; state invariants by induction on fuel (EvalInv*.v). | **proved** (5 theorems, EvalProperties4.v). Full statement; what is false beyond it is refuted in C156. |
| C64 | Evaluation is deterministic in its fuel | EvalModel.v: fuelled evaluator over an environment store following eval.cc case by case; fuel monotonicity (EvalMono.v) turns every statement into one about the limit; state invariants by induction on fuel (EvalInv*.v). | **proved** (2 theorems, EvalProperties.v). Full statement: the outcome is a function of program and state; more fuel never changes it. |
| C65 | Reader/debug options behave as a record of settings | OptModel.v: both option tables as records; every setting list by induction. | **proved** (11 theorems, OptProperties.v). Where the clauses fail without their conditions: C103. |
| C66 | Smob registry | SmobModel.v: type table and object store; invariant over histories of the C interface. | **proved** (14 theorems, SmobProperties.v, SmobProperties2.v). Types with size > 0 and tags near -2^63: C104. |
| C67 | cons terminates | ListModel.v: the copy loop of cons; divergence on circular cdr shown for every fuel. | **proved** (1 theorems, ListProperties.v). Full statement; what is false beyond it is refuted in C157. |
| C68 | hashq and hashv tables agree with eq? and eqv? | HashModel.v: hashq/hashv functions and comparisons; case analysis on key kinds. | **proved** (4 theorems, HashProperties.v). Full statement; what is false beyond it is refuted in C158. |
| C69 | Character comparison and classification | StringModel.v: char predicates over all 256 byte values and the comparison chain for argument lists of every length. | **proved** (3 theorems, StringProperties.v). Full statement. |
| C70 | The host survives every evaluation of an expression or a string | ApiModel.v over EvalModel.v; the catch-stack invariant eval_stack (EvalInv4) says entries of enclosing catches are never lost and a throw or jump always has a live target; eval_fits (EvalInv5) bounds the table; induction over sessions. | **proved** (2 theorems, ApiProperties.v). pscm_eval_file: C105. Programs with inexact/rational literals are outside the evaluator model. |
| C71 | pscm_eval reports values and errors | ApiModel.v: unfold the guard around eval; both directions over runs. | **proved** (3 theorems, ApiProperties.v). After a later successful call: C106. |
| C72 | Strings and files | ApiModel.v over ParseModel.v parse/parse_all; one_by_one is the inductive specification of a file run. | **proved** (5 theorems, ApiProperties.v). String: value and error case. File: every expression in order, each by its own guarded call. |
| C73 | The interface can be used without limit | EvalInv3 eval_catch (catch stack restored unless a throw or jump passed over a catch) lifted to the guard; the counterexample is a session of 99 calls plus a general lemma for full tables. | **proved** (1 theorems, ApiProperties.v). Full statement; what is false beyond it is refuted in C159. |
| C74 | What eq?, eqv?, memv and assq compare | EqModel/ListModel/AlistModel comparisons characterised on data represented in the heap (CompareSpec.same_or); memq/memv/member/assq/assoc as "first element that satisfies it". | **proved** (3 theorems, CompareProperties.v). Exact comparison on every pair of readable data; the ways it differs from the standard: C107. |
| C75 | A source text is the sequence of its data | ParseLocal.v: induction over the reader showing a successful read is unchanged by appending a line break and more text; then induction over the data of the first text. | **proved** (5 theorems, ParseProperties2.v). All texts without NUL. Carriage returns: C108. |
| C76 | Type predicates partition the objects | PredModel.v predicates over HeapModel objects; case analysis on the object, stated through the #t/#f answers. | **proved** (7 theorems, PredProperties.v). Whole doubles: C109. |
| C77 | Symbols and generated symbols | PredModel.v; dec is injective by reading it back (ParseProofs2); names made by the reader by induction over its five functions (names_all). | **proved** (7 theorems, PredProperties.v). NUL in names, reading of generated names, 2^31 calls: C110. |
| C78 | Variable objects are cells | PredModel.v variables; refinement against the history function PredSpec.holds. | **proved** (5 theorems, PredProperties.v). The variable from a lookup is a copy: C111. |
| C79 | When the interactive loop takes an input as complete | ReplModel.v is_balanced/submissions; completeness by induction over the reader (ntb_all: what a successful read consumes is neutral for the balance count). | **proved** (4 theorems, ReplProperties.v). Full statement; what is false beyond it is refuted in C160. |
| C80 | An interactive session | ReplModel.v over ApiModel; all_run is the inductive specification of a session. | **proved** (3 theorems, ReplProperties.v). Syntax errors and several expressions on a line: C112. |
| C81 | Running a script | ReplModel.v do_eval over ApiModel. | **proved** (3 theorems, ReplProperties.v). Status after errors, empty scripts: C113. |
| C82 | Loading a file; leaving the process | HostModel.v load over EvalModel.eval_last; equality of outcomes with EvalSpec.body_run through EvalProofs.lim; exit_code arithmetic. | **proved** (10 theorems, HostProperties.v). Doubles, status above 255, empty files: C114. |
| C83 | Messages for uncaught throws | HostModel.v put_msg models one snprintf into the fixed buffer; induction over the pieces. | **proved** (3 theorems, HostProperties.v). Full statement; what is false beyond it is refuted in C161. |
| C84 | Throw handlers do not disturb catches | HostModel.v: wind chain entries as the lists the code builds; lazy_index follows the code; induction over chains and uses. | **proved** (3 theorems, HostProperties.v). The handler is not called: C115. |
| C85 | Continuations can be re-entered | MachModel.v: the evaluator as a machine with explicit C frames (what copy_stack copies) and global memory (what it does not); step case analysis, saved stacks are permanent by induction over executions. | **proved** (3 theorems, MachProperties.v). Shared operand lists and map: C116. Core forms only (see MachModel). |
| C86 | What has been computed stays as it is | MachProofs2-7: invariant over all steps saying that nothing a value points to is under construction by a frame on the stack (worlds with open cells and environments); preserved by jumps that are safe; counterexample programs by computation. | **proved** (3 theorems, MachProperties.v). Full statement; what is false beyond it is refuted in C162. |
| C87 | A catch body has its handler whenever it runs | MachProofs8: the catch stack is the list of catch bodies on the C stack, by induction over executions; counterexamples by computation. | **proved** (1 theorems, MachProperties.v). Full statement; what is false beyond it is refuted in C163. |
| C88 | File ports | PsysModel.v: file system, stdio FILEs with arbitrary buffering, ports. Frame lemma (what a primitive leaves alone), then for the sole writer of a file: file ++ pending = sent, by induction over histories; for readers: buffer ++ rest of file = what is still to be read. | **proved** (7 theorems, PsysProperties.v). Non-local exits, two writers, unflushed data: C117. |
| C89 | The current ports | PsysModel.v: getters and setters by induction over histories; default output by the writer invariant of C88 for the FILE stdout. | **proved** (4 theorems, PsysProperties2.v). Redirection: C118. |
| C90 | Soft ports | PsysModel.v: soft ports with procedures answering arbitrarily; the call log; a soft port keeps its vector, by induction. | **proved** (5 theorems, PsysProperties3.v). Other procedures, rw ports: C119. Soft-port procedures that themselves use ports are not modelled. |
| C91 | Ports are independent and safe | PsysModel.v: "later" relation on ports, invariant that every open port has a live FILE or a buffer within its capacity, so every primitive is defined. | **proved** (10 theorems, PsysProperties3.v). Closing the initial output port: C118. |
| C92 | Loading modules | ModsysModel.v: modules, registry, autoload options, files as lists of forms, the recursion resolve/search/run with fuel. Invariant wf over sessions (registered names, interfaces, loaded names distinct); termination by a potential (unregistered names times cost of files plus autoload options); result independent of fuel. | **proved** (5 theorems, ModsysProperties.v). Module forms with constant or variable right-hand sides over files given as lists of forms; the evaluator is EvalModel. Two names with the same path are two modules: C97. |
| C93 | The current module | ModsysModel.v: postcondition of every form, by induction on fuel. | **proved** (3 theorems, ModsysProperties.v). Errors: C97. |
| C94 | Interfaces of modules | ModsysModel.v: invariant "an interface binds only exported names"; effect of export and use on what modules see. | **proved** (3 theorems, ModsysProperties2.v). Modules without an interface and late exports: C97. |
| C95 | The clauses of define-module | ModsysModel.v: induction over the clauses. | **proved** (1 theorems, ModsysProperties2.v). Other orders and #:export with a list: C98. |
| C96 | Autoload | ModsysModel.v: one unfolding of the search, with C92 to C94 for the load. | **proved** (4 theorems, ModsysProperties3.v). Assignments and failing files: C99. |
| C97 | Module files are robust | ModsysModel.v: refuted by sessions, for all names and files of the given shape. | **partial** (4 theorems, ModsysProperties.v, ModsysProperties2.v). All three clauses refuted: (a b) and (a/b) evaluate one file twice; a failing file leaves its half-loaded module current and registered, for ever; a module that has exported nothing, or not yet, shows everything. |
| C98 | Any clauses in any order | ModsysModel.v: refuted for every reachable session. | **partial** (4 theorems, ModsysProperties3.v). Refuted, for every session: #:export (a b) exports nothing; #:export takes all later symbols including keywords; #:autoload takes every later name, and can load at once. |
| C99 | Autoload on any access | ModsysModel.v: refuted for every reachable session. | **partial** (2 theorems, ModsysProperties3.v). Refuted: set! makes a global variable and the module is never loaded; a failed autoload is not tried again. |
| C100 | Any capacity | As C23; counterexamples proved on the same model. | **partial** (1 theorems, HashProperties.v). Refuted: a negative capacity is undefined behaviour. |
| C101 | The collector sees every reference | As C50; counterexamples proved on the same model. | **partial** (6 theorems, GcProperties.v, RootProperties.v). Refuted five times: a stale vector length, an object at the bottom of the heap range, an address in a gap between segments, a saved continuation stack, data held only by a smob. |
| C102 | Memory of every size is reused | As C51; counterexamples proved on the same model. | **partial** (1 theorems, GcProperties.v). Refuted for large objects of odd size. |
| C103 | Option settings are symmetric | As C65; counterexamples proved on the same model. | **partial** (3 theorems, OptProperties.v). All three refuted. |
| C104 | Smob data of every type and tag | As C66; counterexamples proved on the same model. | **partial** (2 theorems, SmobProperties.v). Both refuted. |
| C105 | The host survives every file | As C70; the part that holds is proved with suffix _partial, the rest refuted on the same model. | **proved** (1 theorems, ApiProperties.v). Full statement; what is false beyond it is refuted in C164. |
| C106 | The last error is that of the last call | As C71; counterexamples proved on the same model. | **partial** (1 theorems, ApiProperties.v). Refuted: the last error is not cleared. |
| C107 | eq? and eqv? distinguish different objects | As C74; counterexamples proved on the same model. | **partial** (2 theorems, CompareProperties.v). Both refuted. |
| C108 | Line ends | As C75; counterexamples proved on the same model. | **partial** (1 theorems, ParseProperties2.v). Refuted: it ends a comment for read on a port but not for the file reader. |
| C109 | Whole inexact numbers are integers | As C76; counterexamples proved on the same model. | **partial** (1 theorems, PredProperties.v). Refuted for every double. |
| C110 | Symbols with any name | As C77; the part that holds is proved with suffix _partial, the rest refuted on the same model. | **proved** (2 theorems, PredProperties.v). Full statement; what is false beyond it is refuted in C165. |
| C111 | Looked-up variables are the binding | As C78; counterexamples proved on the same model. | **partial** (1 theorems, PredProperties.v). Refuted: it is a copy. |
| C112 | No input ends the session | As C80; counterexamples proved on the same model. | **partial** (2 theorems, ReplProperties.v). Refuted: a syntax error ends the process; the rest of a line is not evaluated. |
| C113 | The exit status of a script | As C81; counterexamples proved on the same model. | **partial** (2 theorems, ReplProperties.v). Refuted: the status is 0 although forms failed, and a script of comments only fails. |
| C114 | Any exit code, any file | As C82; the part that holds is proved with suffix _partial, the rest refuted on the same model. | **proved** (1 theorems, HostProperties.v). Full statement; what is false beyond it is refuted in C166. |
| C115 | Throw handlers are called | As C84; counterexamples proved on the same model. | **partial** (2 theorems, HostProperties.v). Refuted: the entry's layout is not the one scm_throw looks for, so the handler is never called; each non-local exit leaks one of 100 slots. |
| C116 | Resumptions are independent | As C85; counterexamples proved on the same model. | **partial** (2 theorems, MachProperties.v). Refuted: operands of a call are collected in a shared list; re-entering the procedure called by map is a use after free. |
| C117 | File ports in all circumstances | As C88; counterexamples proved on the same model. | **partial** (3 theorems, PsysProperties.v). All three refuted. |
| C118 | Redirection | As C89; counterexamples proved on the same model. | **partial** (3 theorems, PsysProperties2.v). Refuted: set-current-output-port redirects nothing; read-char and peek-char without a port always raise; closing the initial output port makes default output undefined behaviour. |
| C119 | Soft ports are full ports | As C90; counterexamples proved on the same model. | **partial** (5 theorems, PsysProperties3.v). Refuted: display/write/newline to a soft port are lost; peek-char/char-ready? ignore it; an rw port is no output port; a NUL in the mode string ends it; a closing procedure that exits leaves the port open. |
| C120 | cond selects the first matching clause | As C57; the part that holds is proved with suffix _partial, the rest refuted on the same model. | **proved** (2 theorems, EvalProperties2.v). Full statement; what is false beyond it is refuted in C167. |
| C121 | for-each visits every row in order | As C58; the part that holds is proved with suffix _partial, the rest refuted on the same model. | **proved** (2 theorems, EvalProperties4.v, EvalProperties5.v). Full statement; what is false beyond it is refuted in C168. |
| C122 | throw without arguments | As C48; counterexamples proved on the same model. | **partial** (1 theorems, EvalProperties3.v). Refuted: the handler receives () as an extra argument. |
| C123 | Modules can redefine global names | As C38; the part that holds is proved with suffix _partial, the rest refuted on the same model. | **proved** (1 theorems, EnvProperties.v). Full statement; what is false beyond it is refuted in C169. |
| C124 | Parity, max and min are exact | As C06; the part that holds is proved with suffix _partial, the rest refuted on the same model. | **proved** (7 theorems, NumProperties.v, NumProperties2.v). Full statement; what is false beyond it is refuted in C170. |
| C125 | The smallest integer prints | As C08; counterexamples proved on the same model. | **partial** (1 theorems, NumProperties.v). Refuted: negation overflows. |
| C126 | Sizes beyond 2^31 | As C26; counterexamples proved on the same model. | **partial** (2 theorems, StringProperties.v, VectorProperties.v). Refuted: lengths are C ints. |
| C127 | Case-insensitive order | As C29; the part that holds is proved with suffix _partial, the rest refuted on the same model. | **proved** (1 theorems, StringProperties.v). Full statement; what is false beyond it is refuted in C171. |
| C128 | NUL bytes on string ports | As C36; counterexamples proved on the same model. | **partial** (1 theorems, PortProperties.v). Refuted: strlen truncates. |
| C129 | Every string literal round trips | As C33; counterexamples proved on the same model. | **partial** (2 theorems, ParseProperties.v). Refuted for control characters and bytes above 126; C33 has the exact class. |
| C130 | Every object knows where it was read | Instrument the reader model with line/column counters and a ghost list of lexemes; prove by induction on call depth that each call is a step that consumes its lexemes and moves the counters correctly over calm ones, refining ParseModel, and that each located object can be read again at its place. | **proved** (7 theorems, LocProperties.v). Full. Hypothesis: no stale entries on the reader's stack (C132 shows this holds after any successful loads). The exact class of texts is in the statement: [calm]/[line_calm] lexemes before the object. |
| C131 | Locations in every text | As C130; counterexamples proved on the same model. | **partial** (6 theorems, LocProperties.v). Refuted: newline in a string literal, escaped newline, #\\newline-as-newline, #: prefix, #{...}# over lines, shared constants #t #f (). |
| C132 | Syntax errors are reported from the text at hand | The same induction carries an invariant on the stack of open constructs (each entry belongs to the text and names the right place); loads clear the stack. | **proved** (3 theorems, LocProperties.v). Full. |
| C133 | Reports after any history | As C132; counterexamples proved on the same model. | **partial** (4 theorems, LocProperties.v). Refuted: parse() leaves entries after errors and after (), non-empty vectors; the next report follows them into another text (undefined behaviour). |
| C134 | Key comparison agrees with equal? | As C20; counterexamples proved on the same model. | **partial** (2 theorems, CompareProperties.v, ListProperties.v). Refuted: (x . y) and (x y) are one key; (x . (y)), as the reader stores it, and (x y) are two. |
| C135 | Closure of arithmetic over ratios | As C07: counterexamples and general failure theorems on the same model. | **partial** (2 theorems, NumProperties.v, NumProperties2.v). Refuted (the clauses that hold are C07). False of the code: (/ 1 2) yields a ratio on which + - < = and number equality hit assert(is_num), and the sign predicates fail. Proved: * and / never abort on numbers, and an exact characterisation of the aborting pairs. |
| C136 | last-pair of every list | As C15: counterexamples and general failure theorems on the same model. | **partial** (1 theorems, ListProperties.v). Refuted (the clauses that hold are C15). False of the code: for every proper list of odd length >= 3 the middle cell is returned (list.cc 331-352). Proved for length 1 and even lengths; termination on circular lists proved (Floyd). |
| C137 | list? for every length | As C16: counterexamples and general failure theorems on the same model. | **partial** (1 theorems, ListProperties.v). Refuted (the clauses that hold are C16). Terminates on every object; true exactly for proper lists of at most 10001 elements. Refuted for longer lists (hard-coded MAX_COUNT). |
| C138 | Association lists with list values | As C22: counterexamples and general failure theorems on the same model. | **partial** (1 theorems, AlistProperties.v). Refuted (the clauses that hold are C22). Update laws proved for atom values and for assoc-remove! (first match removed, order kept). Refuted for list values: assoc-ref returns the value's first element, #f for the empty list; c22_set_then_ref_any_value gives the exact result. |
| C139 | equal-hash tables with keys of every type | As C24: counterexamples and general failure theorems on the same model. | **partial** (1 theorems, HashProperties.v). Refuted (the clauses that hold are C24). Proved for keys built from symbols, strings, integers, booleans, () and nested proper lists. False for characters (likewise vectors and inexact numbers), which are hashed by address. |
| C140 | write/read round trip of every datum | As C32: counterexamples and general failure theorems on the same model. | **partial** (4 theorems, ParseProperties.v). Refuted (the clauses that hold are C32). Proved for the class ParseSpec.plain (all depths). Not in the class because false: INT64_MIN, lists headed by quote/quasiquote/unquote/unquote-splicing without exactly one operand, dotted tails that are proper lists, ratios. |
| C141 | Every symbol round trips | As C34: counterexamples and general failure theorems on the same model. | **partial** (2 theorems, ParseProperties.v). Refuted (the clauses that hold are C34). Refuted for every keyword symbol and for symbols with non-identifier characters; proved for identifiers. |
| C142 | read on a port for every text | As C37: counterexamples and general failure theorems on the same model. | **partial** (2 theorems, PortProperties.v). Refuted (the clauses that hold are C37). Proved for every plain datum whose text fits the 4095-byte buffer and has no delimiter character literals. Refuted for longer texts, #\( literals, comments holding parentheses, and a symbol directly followed by a list. |
| C143 | set! in module code | As C39: counterexamples and general failure theorems on the same model. | **partial** (1 theorems, EnvProperties.v). Refuted (the clauses that hold are C39). Proved when the environment has no module of its own, or the current one, or the binding is in a frame. False for a module-private variable set while another module is current. |
| C144 | define in bodies of module code and of procedures | As C40: counterexamples and general failure theorems on the same model. | **partial** (2 theorems, EnvProperties.v). Refuted (the clauses that hold are C40). Proved for (define x v) in environments without a module. False in code loaded as a module, and for the procedure form, which always writes the current module. |
| C145 | do loops inside other scopes | As C41: counterexamples and general failure theorems on the same model. | **partial** (2 theorems, EvalProperties2.v). Refuted (the clauses that hold are C41). Proved: initialisation, parallel steps, order of body, result, for any number of iterations, when no enclosing frame binds a loop variable. False otherwise: the loop overwrites the enclosing frame's variable (c41_outer_variable_refuted). The test must be a boolean (pscm.h is_false). |
| C146 | Exports show the current value | As C43: counterexamples and general failure theorems on the same model. | **partial** (1 theorems, EnvProperties.v). Refuted (the clauses that hold are C43). Users see the value at export time (proved); later definitions are not seen (same theorem), so the claim is false. |
| C147 | module-bound? reflects boundness | As C44: counterexamples and general failure theorems on the same model. | **partial** (1 theorems, EnvProperties.v). Refuted (the clauses that hold are C44). True exactly for variables bound to something other than #f; false for variables bound to #f. |
| C148 | Wind chain after any in guards | As C46: counterexamples and general failure theorems on the same model. | **partial** (1 theorems, MachProperties.v). Refuted (the clauses that hold are C46). An in guard that catches a throw out of a dynamic-wind leaves a stale extent in the chain (c148_in_guard_refuted). |
| C149 | Only extents actually left or entered run their guards | As C47: counterexamples and general failure theorems on the same model. | **partial** (1 theorems, EvalProperties3.v). Refuted (the clauses that hold are C47). Exact guard sequence of every jump between chains; equals the promised one when nothing is shared and at most one extent is left. False when extents are shared or several are left: all out guards run outermost first and shared guards run again (c47_shared_guards_refuted). |
| C150 | catch restores the catch stack | As C49: counterexamples and general failure theorems on the same model. | **partial** (2 theorems, EvalProperties3.v). Refuted (the clauses that hold are C49). The catch stack is what it was when an evaluation returns, unless a throw or a jump passed over a catch that was not its target; in that case the entry stays and a later throw is undefined behaviour (c49_entry_stays_refuted, c49_dangling_refuted). |
| C151 | Too few arguments with a rest parameter | As C54: counterexamples and general failure theorems on the same model. | **partial** (1 theorems, EvalProperties.v). Refuted (the clauses that hold are C54). Evaluation order, arity, rest parameters, fresh frames; too few arguments with a rest parameter are accepted silently, hence the hypothesis. |
| C152 | Named let evaluates its whole body | As C56: counterexamples and general failure theorems on the same model. | **partial** (1 theorems, EvalProperties2.v). Refuted (the clauses that hold are C56). False of the code: expand_let keeps only the first body expression, the others are never evaluated (c56_rest_of_body_refuted, for every named let). Proved for a single body expression and for named let without variables. |
| C153 | Splicing dotted lists | As C59: counterexamples and general failure theorems on the same model. | **partial** (2 theorems, EvalProperties4.v). Refuted (the clauses that hold are C59). Every well-formed template at every depth, and constants are their own value. Not covered: splicing dotted lists (tail becomes an element) and inner ,@ before a dot (refuted: the dot is lost). |
| C154 | A single value that is a list | As C61: counterexamples and general failure theorems on the same model. | **partial** (1 theorems, EvalProperties4.v). Refuted (the clauses that hold are C61). Exact for (values v ...). A single value that is a list is taken for several values (refuted). |
| C155 | apply passes arguments unevaluated a second time | As C62: counterexamples and general failure theorems on the same model. | **partial** (1 theorems, EvalProperties4.v). Refuted (the clauses that hold are C62). The elements of the list are used as is. The leading arguments only if self-evaluating: their values are evaluated a second time (refuted). |
| C156 | Macros with one parameter | As C63: counterexamples and general failure theorems on the same model. | **partial** (1 theorems, EvalProperties4.v). Refuted (the clauses that hold are C63). Operand binding and evaluation of the expansion. A single parameter is taken for a rest parameter, so that clause is refuted; too few operands with a rest parameter are accepted silently. Definitions in a module other than the root are not covered. |
| C157 | cons on circular lists | As C67: counterexamples and general failure theorems on the same model. | **partial** (1 theorems, ListProperties.v). Refuted (the clauses that hold are C67). False of the code for circular cdr: the loop at list.cc 75-78 never ends. Proved for proper lists. |
| C158 | hashq and hashv tables with keys of every type | As C68: counterexamples and general failure theorems on the same model. | **partial** (2 theorems, HashProperties.v). Refuted (the clauses that hold are C68). Proved for symbols (hashq) and integers, characters, booleans (hashv). False for equal integers in hashq tables and equal symbols in hashv tables. |
| C159 | The interface can be used without limit | As C73: counterexamples and general failure theorems on the same model. | **partial** (2 theorems, ApiProperties.v). Refuted (the clauses that hold are C73). Proved when no throw or continuation call passed over a catch (c73_partial). False in general: each such evaluation leaks one of 100 catch entries; after 99 every string is answered by NULL for ever (c73_dead_refuted, c73_reached_refuted). |
| C160 | The interactive loop on every text | As C79: counterexamples and general failure theorems on the same model. | **partial** (4 theorems, ReplProperties.v). Refuted (the clauses that hold are C79). Proved for texts without #{...}# and without a backslash before a delimiter. False in general: an extra closing parenthesis blocks the session for ever, strings over two lines are submitted incomplete, lines over 4095 bytes are cut. |
| C161 | Messages of every length | As C83: counterexamples and general failure theorems on the same model. | **partial** (2 theorems, HostProperties.v). Refuted (the clauses that hold are C83). Exact text for lines of at most 1023 bytes; from 1026 bytes on (including the newline) undefined behaviour: the key or message overruns a 1024-byte buffer (c83_long_message_refuted). |
| C162 | Values under arbitrary re-entry | As C86: counterexamples and general failure theorems on the same model. | **partial** (2 theorems, MachProperties.v). Refuted (the clauses that hold are C86). Proved for executions in which continuations escape, or are re-entered where no procedure call or map is half done, and no set-car!/set-cdr! (values) or set!/define of that variable happens. Refuted in general: re-entering an operand changes rest lists and parameters of earlier calls. |
| C163 | Re-entered catch bodies | As C87: counterexamples and general failure theorems on the same model. | **partial** (2 theorems, MachProperties.v). Refuted (the clauses that hold are C87). Proved while jumps stay inside the same catch bodies and the innermost catch catches. Refuted: a body re-entered after its catch returned has no handler, and its return makes the catch stack index negative. |
| C164 | The host survives every file | As C105: counterexamples and general failure theorems on the same model. | **partial** (1 theorems, ApiProperties.v). Refuted (the clauses that hold are C105). Proved for files that parse. Refuted for a file with a syntax error: the reader's error is thrown outside any catch and the process exits. |
| C165 | Symbols with any name | As C110: counterexamples and general failure theorems on the same model. | **partial** (3 theorems, PredProperties.v). Refuted (the clauses that hold are C110). Proved for names without NUL and for texts without #{...}#; refuted beyond; the 2^31-th gensym overflows its int counter. |
| C166 | Any exit code, any file | As C114: counterexamples and general failure theorems on the same model. | **partial** (3 theorems, HostProperties.v). Refuted (the clauses that hold are C114). 0 <= n <= 255 proved. Refuted: 256 is seen as 0, a double outside int is undefined behaviour, an empty file is an error. |
| C167 | cond clauses with only a test, dotted case keys | As C120: counterexamples and general failure theorems on the same model. | **partial** (2 theorems, EvalProperties2.v). Refuted (the clauses that hold are C120). Every clause list, with #t as the value of a clause with only a test (proved to be an equivalence without =>). Refuted: that value should be the test's; a dotted key matches a proper datum. |
| C168 | for-each on every list | As C121: counterexamples and general failure theorems on the same model. | **partial** (1 theorems, EvalProperties4.v). Refuted (the clauses that hold are C121). Proved for lists of equal length without () elements and at most 10 lists; refuted: it stops silently at an element that is (). |
| C169 | Modules can redefine global names | As C123: counterexamples and general failure theorems on the same model. | **partial** (2 theorems, EnvProperties.v). Refuted (the clauses that hold are C123). Proved for names without a global entry. Refuted: the global table is searched first; operator position differs. |
| C170 | Parity, max and min of every integer | As C124: counterexamples and general failure theorems on the same model. | **partial** (2 theorems, NumProperties.v). Refuted (the clauses that hold are C124). odd?/even?/max/min go through double: exact below 2^53; refuted at 2^53+1 (wrong parity, max returns a different number) and INT64_MAX (undefined cast). Inexact arguments proved. |
| C171 | Case-insensitive order of every string | As C127: counterexamples and general failure theorems on the same model. | **partial** (1 theorems, StringProperties.v). Refuted (the clauses that hold are C127). Proved for ASCII; refuted for bytes above 127 (signed char comparison). |
| C172 | Evaluation errors say what and where | DiagModel: the snprintf calls with their buffer sizes and positions (UB when a position is behind the buffer). Texts computed against a specification of the places; lengths bounded. | **proved** (5 theorems, DiagProperties.v). Full; the bound of 400 bytes on the expected-type text covers every call in the code (literals below 60 bytes); beyond it the buffer overflows (c172_ex_long). |
| C173 | An error names each place once | As C172: counterexamples. | **partial** (2 theorems, DiagProperties.v). Refuted: for a datum without a location the place of the evaluation appears three times; file names with a common prefix of 511 bytes give one text. |
| C174 | The call stack in an error report | DiagModel: events enter/leave/escape on the globals of error.cc. Invariants by induction on the history; the report by induction on the frames. | **proved** (4 theorems, DiagProperties.v). Full for the entry and exit of eval_with_env; the printed text of an expression is a parameter. |
| C175 | The call stack after any history | As C174: general failure theorems. | **partial** (3 theorems, DiagProperties.v). Refuted: evaluating an unlocated expression removes the caller's entry, a throw leaves entries behind and the context on the dead evaluation, more than 100 levels remove entries of the outer ones. |
| C176 | Locations of expanded code | CopyModel: owned strings with explicit free/strdup, locations per object. Ownership invariant over histories; induction on the expansion. | **proved** (5 theorems, CopyProperties.v). Full for the functions of source_location.cc and their callers; objects are finite trees with identities. |
| C177 | Locations of expanded code for all macros | As C176: UB proved for every expansion with an operand at its own position. | **partial** (4 theorems, CopyProperties.v). Refuted: an operand at its own position in the expansion (as in every macro expanding (name x ...) to (op x ...)) makes copy_source_location read the file name it has just freed; swapped operands both get the first one's place; shared constants move. |
| C178 | Calls from C++ code | CallModel over EvalModel; equivalence with call_vals by the limit lemmas. | **proved** (6 theorems, CallProperties.v). The five functions are one model definition (they differ in the number of arguments). c178_exact is the rule for every argument list. Calling an SCM_Function uses EvalModel's call_func. |
| C179 | Calls from C++ code with any argument | counterexample and a rule for all callbacks. | **partial** (2 theorems, CallProperties.v). Refuted: the arguments are evaluated a second time, in the procedure's own environment; apply, map, call/cc raise an error when called from C++. |
| C180 | macroexpand and defined? | CallModel; induction on the number of expansions. | **proved** (5 theorems, CallProperties.v). c180_agrees needs the macro in the global frame; modules are reached through env_search. |
| C181 | A macro call means its expansion | rule for every macro that returns a symbol; concrete counterexample. | **partial** (2 theorems, CallProperties.v). Refuted: an expansion that is a symbol is returned unevaluated; quoted constants inside an expansion are macro-expanded. |
| C182 | Builtins are called as declared | RegModel: table, dispatch; a boolean check of the table by computation, then case analysis for all argument lists. | **proved** (7 theorems, RegProperties.v). The table of the 208 builtins and the C signatures was read off the init functions by a script and is part of the model; what the C functions do is a parameter. |
| C183 | Every registered function is called as declared | rules for whole classes of registrations. | **partial** (3 theorems, RegProperties.v). Refuted: current-module is registered with arity 0 but declared with a parameter; functions with optional or rest arguments get an SCM_List instead of separate arguments; functions with more than three required arguments always raise an error. |
| C184 | Module functions for C++ code | HostModModel over ModsysModel; the lookup and use lemmas of C92 to C97. | **proved** (9 theorems, HostModProperties.v). Module names are lists, not text; functions of the C++ program are arbitrary functions on the modelled state. |
| C185 | C++ code: scoped current module, live variables | rules for all functions, modules and names. | **partial** (2 theorems, HostModProperties.v). Refuted: an error leaves the module of the call as the current one; the returned variable is a copy made for the call. |
| C186 | Programs as shared list nodes | CellModel over a heap of nodes, representation relation and simulation with EvalModel (nodes made for a call are owned and avoided by everything else); a frame invariant for all runs. | **proved** (6 theorems, CellProperties.v). A core of the language over list nodes (CellModel): quote, if, cond, case, and, or, begin, set!, lambda, define, let (also named), let*, letrec, do, delay, map, for-each, apply, call-with-values, procedures with rest parameters, primitives, force, values and eval; a run that meets another form (macros, quasiquote, catch, throw, continuations) is outside the theorem. The primitives are arbitrary functions that only make new nodes. |
| C187 | Evaluation leaves the expression alone | rule for all lists with a function object in front, and a concrete expression. | **partial** (3 theorems, CellProperties.v). Refuted: the evaluator writes the values of the operands into a list that has a function object in front (eval.cc 676); (eval code) with code the list of the function car and ''(5 6) gives 5 once and an error after that. |
| C188 | Inexact arithmetic | fold lemmas against SpecFloat operations; NumSpec2 is the separate specification. | **proved** (6 theorems, NumProperties3.v). The IEEE operations are those of Coq's SpecFloat. |
| C189 | Operands that are not numbers | cases over the type of the operand, and literals. | **partial** (3 theorems, NumProperties3.v). Refuted: next to an inexact number a non-number counts as 0.0, (+ 1.0 'a) is 1.0 and (< 1.0 'a) is #f; next to an exact integer it is an assert that ends the process. |
| C190 | Division by zero | rule for every mixed division, and a literal. | **partial** (2 theorems, NumProperties3.v). Refuted: once the division has met an inexact divisor after an exact number, divisors are not checked: (/ 1 0.0) and (/ 1 2.0 0) are +inf, though (/ 1.0 0.0) is an error. |
| C191 | abs and expt of every number | cases over the type of the operand. | **partial** (3 theorems, NumProperties3.v). Refuted: (abs 1.5) and (expt 2.0 3) end the process by an assert. |
| C192 | Texts of integers | declarative grammar, proved equivalent to the scanning loops in both directions. | **proved** (3 theorems, StrNumProperties.v). The C library's strtol is modelled after ISO C; strtod is not modelled. |
| C193 | string->number and what is not a number | literals, and a rule for null characters. | **partial** (3 theorems, StrNumProperties.v). Refuted: blanks in front and anything after a null character are accepted, and an integer that does not fit in 64 bits becomes the largest one (20 nines give 9223372036854775807). |
| C194 | call/cc under another name | rule for every operand that is not itself a procedure object. | **partial** (1 theorems, EvalProperties5.v). Refuted: the operand of a call/cc reached through a variable is not evaluated; the test for a procedure is made on the expression itself, so every such call written in a program is an error. |
| C195 | R5RS argument counts | case analysis on the kind of registration, with the table checked by computation. | **proved** (2 theorems, RegProperties2.v). The standard's table is written down separately (RegSpec2.v); the registrations are those of the model's table of builtins. |
| C196 | All R5RS procedures | the exact list of missing names. | **partial** (2 theorems, RegProperties2.v). Refuted: 61 of the 200 procedures are missing, among them floor, round, exact->inexact, caar and string-copy; for-each, call-with-values and dynamic-wind are keywords without a value; eval takes no environment. |
| C197 | Printing smobs | on top of the invariant of C66. | **proved** (2 theorems, SmobProperties2.v). What %p writes and what an installed function writes are parameters. |
| C198 | Smobs as operators | on top of the invariant of C66. | **proved** (2 theorems, SmobProperties2.v). Operand evaluation and the installed functions are parameters; an operand that changes the type's apply functions is not covered. |
| C199 | Inexact literals | exactness of double sums and products of integers below 2^53, then induction on the digits. | **proved** (4 theorems, NumLitProperties.v). The IEEE operations are Coq's SpecFloat; the compiler is assumed not to contract the multiplication and addition into a fused one. |
| C200 | A literal is the nearest double | evaluation for single literals, absorption of infinity by induction for the families. | **partial** (4 theorems, NumLitProperties.v). Each counterexample class is a theorem. |
| C201 | Display, and the shape of written data | induction over the element list. | **proved** (6 theorems, PrintProperties.v). How printf renders a double is a parameter. |
| C202 | Display inside lists, and strings with NUL | the printer's list case switches to write mode. | **partial** (3 theorems, PrintProperties.v). Each counterexample class is a theorem. |
| C203 | Complaints about stray bytes | case analysis of the reader at a byte that starts nothing, on top of C130. | **proved** (2 theorems, LocProperties2.v). The fixed part of the message; the frames of open constructs are C132. |
| C204 | Objects in the interpreter's variables survive | invariant on the registry, then C50. | **proved** (1 theorems, RootProperties.v). Option values are the exception, see c101_option_value_refuted. |
| C205 | C values and back | case analysis, and induction for strlen. | **proved** (10 theorems, ConvProperties.v). assert is taken to be compiled in; allocation succeeds. |
| C206 | Conversions that lose the value | modular arithmetic. | **partial** (4 theorems, ConvProperties.v). Each counterexample class is a theorem. |
| C207 | Binders, module-use! and module-map | induction on the nesting of lookups and on binder bodies; an invariant for code that runs inside a binder. | **proved** (11 theorems, BinderProperties.v). Files evaluated by an autoload during a lookup do not consult binders in the model; the procedure given to module-map may allocate but not change the module. |
| C208 | Binders stay in service | the same invariant; a concrete pair of modules. | **partial** (2 theorems, BinderProperties.v). The loss after an error is a theorem about every later history. |
| C209 | Evaluation agrees with a natural semantics | simulation by induction on the derivation; a throw leaves the frames that the search for older catches sees. The converse by strong induction on the length of the run, with the simulation to advance past each nested evaluation. | **proved** (8 theorems, MachProperties2.v). MachNat.v is the semantics. Programs that call continuations, and throws that an outer catch takes but not the innermost one, have no rule in it (C46-C50 and the catch-stack claims are about those); c209_converse is about all the others that end. |
| C210 | Collections are paced | the fold of sweep1 over the tiles of the heap, summed. | **proved** (6 theorems, GcPacingProperties.v). GcPacingSpec.v has the footprint of a block and the runs with their counts. The size_t counters do not wrap in the model. |
| C211 | Bounded live data, bounded heap | invariant over histories: the bytes of each size class on no free list stay under live_bytes + 3/2 since, and a class grows only when its free list is empty. | **proved** (4 theorems, GcPacingProperties.v). frugal (GcPacingSpec.v) is the history of GcSpec.v with the sizes of the structs the program allocates and the limit on live_bytes, which c210_counters identifies with the bytes of the surviving blocks. Memory a struct owns outside the collected heap (vector elements, string bytes, hash buckets) is malloced and not counted by gc.cc either. |
| C212 | Programs of integer functions compute what their equations say | simulation by induction on the derivation; evaluation only adds frames; the text is shown to be what write prints and is read back with C32. | **proved** (3 theorems, LangProperties.v). LangSpec.v: the language, its text, and its big-step rules on mathematical integers. The theorem goes through the reader (ParseModel), the embedding interface (ApiModel), the evaluator (EvalModel) and number.cc (NumModel: the premise numeric). It holds from some depth of the C stack on, and says nothing about expressions without a finite derivation or with overflow. |
| C213 | The square root of every number is the nearest double | rounding of a value known by comparisons with half-integers: the shift with guard and sticky bits keeps the comparison; square root, division and integer conversion are instances. | **proved** (3 theorems, SqrtProperties.v). SqrtSpec.v nearest_root: the root is on r's side of the midpoint with every other double, in rationals. std::sqrt is the IEEE-754 square root (SFsqrt); that it and the int64-to-double conversion and division round to nearest is proved on integers, without real numbers or their axioms. |
| C214 | Only answers of the program's meaning, and silence without one | induction on the depth: a subexpression that returns has an outcome by induction, and C212's simulation gives the state in which the next one starts. | **proved** (3 theorems, DivProperties.v). DivSpec.v: scoped says which names may occur, over that evaluation comes to a result that is not small; both on the rules of C212. Not returning is AFuel at every depth: on the machine the C stack overflows. |
| C215 | Procedures are values that keep the variables of where they were written | mutual induction on the rules; a procedure value is related to a VProc whose environment chain shows the closure's variables, through a step-free relation kept under growth of the frame heap (ext) and under the writes of let and application, which go to frames allocated by them. | **proved** (2 theorems, HoProperties.v). HoSpec.v: the rules, hev, with procedures as parameters, body and visible variables; hshow the texts; shown relates a value to the answer (the integer, or a procedure). Bound names are identifiers that are no keyword, no operator and no macro of the interpreter. Expressions that stop in an error have no value in hev and are outside; C212 has them for first-order programs. |
| C216 | Errors of programs with procedures as values | induction on the error rules, with C215's simulation for the parts that have values; binding is split where the operand fails or the parameters end. | **proved** (2 theorems, HerProperties.v). HerSpec.v: her, the rules for errors beside hev; result, told. Arithmetic on a procedure has neither a value nor an error: next to an integer it ends the process (C189). An integer called on no operands answers itself in the code and is outside the rules. |
| C217 | Only answers of the rules for procedures as values, and silence without one | induction on the depth of the C stack: a run of the evaluator that ends has a value, an error or a stray step in the rules; determinism of the rules excludes two at once. | **proved** (3 theorems, HdvProperties.v). HdvSpec.v: stray, the steps that leave the rules, and hscoped, which names may stand where. The theorems are about every answered run, not only about a sufficiently deep stack; c217_never about every depth beyond that needed for what comes before. c217_omega is the self-application. |
| C218 | Files of programs with procedures as values | the text of the file parses to the sequence of data, so that the loop of pscm_eval_file is the session of C216 and C217. | **proved** (3 theorems, HofProperties.v). HofProperties.v: the file is read as its data (C32) and evaluated one after the other; c218_omega is a file with the self-application in the middle. |
| C219 | Tail calls and the C stack | induction on the iteration count with the frames allocated so far; the bound on jumps is removed by monotonicity. The relation to EvalModel by comparing one turn of a frame with one step. | **partial** (4 theorems, TailProperties.v). TailModel.v: deep counts nested calls of eval_with_env apart from the jumps to entry within one; c219_same_outcomes relates it to EvalModel.eval both ways. In forms other than if, jumps count as calls. Refuted by c219_tail_loop_refuted; C compilers cannot turn these calls into jumps, because eval_with_env restores the error context after each. |

## 5. Validation of the model against the repository's tests

A script outside /verif ran every FileCheck test under /repo/test that uses
only modelled features through the model with `vm_compute` and compared the
printed output with the expected one.  All of them agree.  This is testing
of the model, not proof; nothing in rocq/ depends on it.

## 6. Mutation testing

`seeded/LOG.jsonl` has one line for each wrong program tried: the edited
definition, the edit, the claim it breaks, the theorems that stopped proving
and the theorems tightened because they had survived.  Edits that change
nothing the program can do (equivalent mutants) are logged as such.
