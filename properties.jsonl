{"id": "C01", "title": "Exact fixnum arithmetic", "statement": "(+ a b ...), (- a b ...) and (* a b ...) on exact integers return the exact mathematical sum, difference or product whenever every left-to-right partial result fits in a signed 64-bit integer; otherwise the C++ code performs a signed overflow (undefined behaviour), and it is never silently wrong before that point.", "quantifier": "every argument list of 64-bit integers, of every length", "why_tests_cant": "The domain is unbounded (or 2^64 wide); tests sample a handful of points and miss the boundary that matters.", "anchors": ["src/c/number.cc: scm_c_add_number, scm_c_minus_number, scm_c_mul_number", "src/c/function.cc: eval_with_func"]}
{"id": "C02", "title": "Integer division laws", "statement": "For all 64-bit a and b with b /= 0 and (a,b) /= (INT64_MIN,-1): (quotient a b) truncates toward zero, (remainder a b) has the sign of a, (modulo a b) has the sign of b, and a = b*quotient + remainder; b = 0 raises a Scheme error in all three.", "quantifier": "all pairs of 64-bit integers", "why_tests_cant": "The domain is unbounded (or 2^64 wide); tests sample a handful of points and miss the boundary that matters.", "anchors": ["src/c/number.cc: scm_c_quotient, scm_c_remainder, scm_c_modulo"]}
{"id": "C03", "title": "gcd and lcm", "statement": "(gcd a b ...) is the non-negative greatest common divisor and (lcm a b ...) the non-negative least common multiple of its arguments.", "quantifier": "every argument list of 64-bit integers whose absolute values and partial lcms are representable", "why_tests_cant": "The domain is unbounded (or 2^64 wide); tests sample a handful of points and miss the boundary that matters.", "anchors": ["src/c/number.cc: scm_c_gcd, scm_c_lcm"]}
{"id": "C04", "title": "Rationals are exact and in normal form", "statement": "(/ a b) on exact integers, b /= 0, denotes exactly the rational a/b; the result is an integer when b divides a, otherwise numerator and denominator are coprime and the denominator is greater than 1.", "quantifier": "all pairs of 64-bit integers for which no intermediate overflows", "why_tests_cant": "The domain is unbounded (or 2^64 wide); tests sample a handful of points and miss the boundary that matters.", "anchors": ["src/c/number.cc: make_ratio, scm_c_div"]}
{"id": "C05", "title": "Integer comparisons are a total order", "statement": "=, <, >, <=, >= on exact integers agree with the mathematical order for every argument pair (trichotomy, transitivity, antisymmetry).", "quantifier": "all 64-bit integers", "why_tests_cant": "The domain is unbounded (or 2^64 wide); tests sample a handful of points and miss the boundary that matters.", "anchors": ["src/c/number.cc: scm_c_eq_number, scm_c_lt_number, scm_c_gt_number, scm_c_lt_eq_number, scm_c_gt_eq_number"]}
{"id": "C06", "title": "Sign predicates", "statement": "zero?, positive? and negative? agree with the mathematical notion on every exact integer and on every double (a NaN has no sign), and anything that is not a number is an error.", "quantifier": "all 64-bit integers, all doubles, all other objects", "why_tests_cant": "The domain is unbounded (or 2^64 wide); tests sample a handful of points and miss the boundary that matters. The code converts to double first, so errors only appear beyond 2^53.", "anchors": ["src/c/number.cc: scm_c_is_odd, scm_c_is_even, scm_c_max, scm_c_min"]}
{"id": "C07", "title": "Arithmetic is closed over every number the interpreter can create", "statement": "On numbers, * and / with any number of arguments yield a number or raise an error and never abort the process; + and - and the comparisons of two numbers abort exactly when one of the two is a ratio and neither is inexact.", "quantifier": "all pairs of numbers produced by the interpreter", "why_tests_cant": "Needs a case the tests do not combine: a ratio reaching an operator written for integers and floats only.", "anchors": ["src/c/number.cc: BinaryOperator, scm_c_div", "src/c/eq.cc: _number_eq"]}
{"id": "C08", "title": "number->string / string->number round trip", "statement": "(string->number (number->string n r) r) = n for every exact integer n and every radix r from 2 to 36.", "quantifier": "all 64-bit integers except -2^63, and all radices", "why_tests_cant": "The domain is unbounded (or 2^64 wide); tests sample a handful of points and miss the boundary that matters.", "anchors": ["src/c/string.cc: int_to_string_radix, scm_c_number_to_string, scm_c_string_to_number"]}
{"id": "C09", "title": "expt on integers", "statement": "(expt b n) = b^n for every integer base and every exponent n >= 0 whose partial products fit in 64 bits.", "quantifier": "all 64-bit bases and exponents", "why_tests_cant": "The domain is unbounded (or 2^64 wide); tests sample a handful of points and miss the boundary that matters.", "anchors": ["src/c/number.cc: scm_c_expt"]}
{"id": "C10", "title": "cons/car/cdr/set-car! laws and aliasing", "statement": "(car (cons a d)) is a; (cdr (cons a d)) is a list/atom equal to d sharing its structure; set-car! on a cell is visible through every alias of that cell and changes no other cell.", "quantifier": "every heap, including heaps with sharing and cycles", "why_tests_cant": "Aliasing effects depend on the whole heap graph; tests use fresh unshared lists.", "anchors": ["src/c/list.cc: scm_cons, car, cdr, scm_c_set_car, scm_c_set_cdr"]}
{"id": "C11", "title": "length", "statement": "(length l) is the number of elements of the proper list l, for every proper list, without modifying the heap.", "quantifier": "every heap and every proper list in it", "why_tests_cant": "The domain is unbounded (or 2^64 wide); tests sample a handful of points and miss the boundary that matters.", "anchors": ["src/c/list.cc: scm_c_length"]}
{"id": "C12", "title": "append", "statement": "(append l1 ... ln) on proper lists is a list whose elements are the concatenation of the arguments' elements in order; no argument list is modified.", "quantifier": "every heap, every number of lists of every length", "why_tests_cant": "The domain is unbounded (or 2^64 wide); tests sample a handful of points and miss the boundary that matters.", "anchors": ["src/c/list.cc: scm_append"]}
{"id": "C13", "title": "reverse", "statement": "(reverse l) yields the elements of l in opposite order in fresh cells; reversing twice yields the original sequence; the argument is unchanged.", "quantifier": "every heap and proper list", "why_tests_cant": "The domain is unbounded (or 2^64 wide); tests sample a handful of points and miss the boundary that matters.", "anchors": ["src/c/list.cc: scm_c_reverse"]}
{"id": "C14", "title": "list-ref, list-tail and list-head bounds", "statement": "(list-ref l k), (list-tail l k) and (list-head l k) return the k-th element / suffix / prefix exactly when k is in range and raise a Scheme error otherwise; they never read outside the list.", "quantifier": "every heap, list and 64-bit k", "why_tests_cant": "Off-by-one and negative/huge k are a 2^64 domain.", "anchors": ["src/c/list.cc: scm_c_list_ref, scm_c_list_tail, scm_c_list_head"]}
{"id": "C15", "title": "last-pair", "statement": "(last-pair l) returns the cell holding the last element for every proper list of one element or of an even number of elements, and raises an error instead of looping on every circular list.", "quantifier": "every heap and non-empty list", "why_tests_cant": "The two-speed traversal is only wrong for particular lengths; cycles make it unbounded.", "anchors": ["src/c/list.cc: scm_c_last_pair"]}
{"id": "C16", "title": "list? decides proper lists", "statement": "(list? x) terminates on every object, including circular structures, and is #t exactly for proper lists of at most 10001 elements.", "quantifier": "every heap and every object", "why_tests_cant": "Includes circular and arbitrarily long lists; the code uses a hard iteration cap.", "anchors": ["src/c/predicate.cc: scm_c_is_list"]}
{"id": "C17", "title": "memq/memv/member find the first match", "statement": "member-style search returns the suffix starting at the first matching element and #f when there is none; the heap is unchanged.", "quantifier": "every heap, list and key", "why_tests_cant": "The domain is unbounded (or 2^64 wide); tests sample a handful of points and miss the boundary that matters.", "anchors": ["src/c/list.cc: scm_c_memq, scm_c_memv, scm_c_member", "src/c/eq.cc: _eq"]}
{"id": "C18", "title": "eq? is stable on the same cell", "statement": "If p is a pair, (eq? (cdr p) (cdr p)) is #t when the cdr is a pair.", "quantifier": "every heap and pair", "why_tests_cant": "The wrapper object is allocated on each access; a test compares one pointer with itself.", "anchors": ["src/c/list.cc: cdr", "src/c/pscm.h: wrap", "src/c/eq.cc: scm_c_is_eq"]}
{"id": "C19", "title": "equal? is an equivalence deciding structural equality", "statement": "On finite (acyclic) data built from booleans, characters, exact integers, symbols, strings without NUL, lists, dotted lists and vectors, equal? is reflexive, symmetric and transitive and true exactly for structurally identical data.", "quantifier": "all finite data", "why_tests_cant": "The domain is unbounded (or 2^64 wide); tests sample a handful of points and miss the boundary that matters.", "anchors": ["src/c/eq.cc: _equal_recursive, scm_c_is_equal"]}
{"id": "C20", "title": "Key comparison used by assoc, member and equal-hash tables", "statement": "The comparison used by assoc, member, case and equal-hash tables always answers, and holds exactly between objects made of the same elements, a dotted tail counting as one more element; between data without dots it agrees with equal?.", "quantifier": "all finite data", "why_tests_cant": "Requires comparing two independent recursive definitions on every shape, including dotted lists.", "anchors": ["src/c/eq.cc: _eq, _equal_recursive", "src/c/alist.cc"]}
{"id": "C21", "title": "assq/assv/assoc and assoc-ref", "statement": "The lookup returns the first entry whose key matches and #f if none matches; entries that are not pairs are handled without reading outside the list.", "quantifier": "every association list and key", "why_tests_cant": "The domain is unbounded (or 2^64 wide); tests sample a handful of points and miss the boundary that matters.", "anchors": ["src/c/alist.cc", "src/c/list.cc: assoc family"]}
{"id": "C22", "title": "assoc-set! / assoc-remove! update laws", "statement": "After assoc-set! with key k and value v, assoc-ref k gives v if v is not a list (and the first element of v, or #f, if it is a list or ()), and every other key is unaffected; after assoc-remove! the first entry with k is gone and the order of the others is preserved. acons gives a new list whose first element is a new pair of k and v and whose other elements are those of the given list, which is unchanged.", "quantifier": "every association list, key and value", "why_tests_cant": "The domain is unbounded (or 2^64 wide); tests sample a handful of points and miss the boundary that matters.", "anchors": ["src/c/alist.cc: scm_c_assoc_set, scm_c_assoc_remove"]}
{"id": "C23", "title": "Hash tables refine finite maps", "statement": "For every capacity that is not negative and every sequence of hash-set!/hash-ref/hash-remove!/get-handle operations in the eq and eqv families, every result equals that of a finite map, the reported size is the number of distinct keys, and hash-fold visits each binding once.", "quantifier": "every history of operations, every capacity", "why_tests_cant": "Collisions and operation orders are unbounded.", "anchors": ["src/c/hash_table.cc"]}
{"id": "C24", "title": "equal-hash tables find every equal key", "statement": "In an equal-hash table, after any history, hash-ref with a key equal? to a stored key returns the stored value, for keys built from symbols, strings, integers, booleans, () and proper lists of such keys at any depth.", "quantifier": "every history and every pair of equal keys", "why_tests_cant": "Depends on the hash function agreeing with the comparison for every type.", "anchors": ["src/c/hash_table.cc: scm_hash_code_equal, scm_cmp_equal"]}
{"id": "C25", "title": "Vector bounds and update laws", "statement": "vector-ref/vector-set! succeed exactly for 0 <= k < length; reading after writing returns the written value at that index and leaves every other index unchanged; out of range raises an error and changes nothing.", "quantifier": "every vector and 64-bit index", "why_tests_cant": "The domain is unbounded (or 2^64 wide); tests sample a handful of points and miss the boundary that matters.", "anchors": ["src/c/vector.cc"]}
{"id": "C26", "title": "vector/list conversions", "statement": "vector->list and list->vector are mutually inverse on proper lists and preserve order and length.", "quantifier": "every heap, every proper list and every vector of fewer than 2^31 elements", "why_tests_cant": "The domain is unbounded (or 2^64 wide); tests sample a handful of points and miss the boundary that matters.", "anchors": ["src/c/vector.cc: scm_c_vector_to_list, scm_c_list_to_vector"]}
{"id": "C27", "title": "String access, substring and append", "statement": "string-ref/string-set!/substring are bounds checked for every 64-bit index; substring returns exactly bytes [start,end); string-append returns the concatenation and its length is the sum of lengths; string-set! changes one byte only.", "quantifier": "every heap, string and 64-bit index; results of string-append and make-string below 2^31 bytes", "why_tests_cant": "The domain is unbounded (or 2^64 wide); tests sample a handful of points and miss the boundary that matters.", "anchors": ["src/c/string.cc"]}
{"id": "C28", "title": "String ordering is a total order", "statement": "string=?, string<?, string>?, string<=?, string>=? on strings without NUL bytes form a total order (lexicographic on unsigned bytes) and are mutually consistent; string=? decides equality.", "quantifier": "all pairs/triples of byte strings", "why_tests_cant": "The domain is unbounded (or 2^64 wide); tests sample a handful of points and miss the boundary that matters.", "anchors": ["src/c/string.cc: scm_c_string_lt and family"]}
{"id": "C29", "title": "Case-insensitive equality and consistency", "statement": "string-ci=? holds exactly if the upper-cased strings are equal; string-ci<?, >?, <=?, >=? and =? are consistent with each other: one total preorder.", "quantifier": "all byte strings", "why_tests_cant": "Signedness of char only shows for bytes above 127.", "anchors": ["src/c/string.cc: scm_c_string_ci_lt and family"]}
{"id": "C30", "title": "string/list/char conversions", "statement": "list->string and string->list are inverse; char-upcase/char-downcase are idempotent and only change ASCII letters; char->integer/integer->char are inverse on 0..255.", "quantifier": "all strings and characters", "why_tests_cant": "The domain is unbounded (or 2^64 wide); tests sample a handful of points and miss the boundary that matters.", "anchors": ["src/c/string.cc", "src/c/char.cc"]}
{"id": "C31", "title": "The reader terminates and makes progress", "statement": "For every input string the reader stops, and each successful datum consumes at least one character; it never reads past the terminating NUL.", "quantifier": "all input strings", "why_tests_cant": "Arbitrary malformed input; nesting is unbounded.", "anchors": ["src/c/parse.cc: parse_expr, parse_list, skip_whitespace"]}
{"id": "C32", "title": "write/read round trip", "statement": "Reading back the text printed by write for a datum built from symbols (identifier characters, not number-like, no leading colon), integers above -2^63, booleans, characters, printable strings, proper lists (headed by quote, quasiquote, unquote or unquote-splicing only with exactly one operand), dotted lists whose tail is not a list, and vectors yields the same datum, at any depth; so does a sequence of such data.", "quantifier": "all such data, of every depth", "why_tests_cant": "Unbounded nesting and every combination of token adjacency.", "anchors": ["src/c/print.cc: print_ast, _print_list", "src/c/parse.cc"]}
{"id": "C33", "title": "Which string literals round trip", "statement": "For every byte string, reading the text printed by write yields the same string exactly if every byte is a printable ASCII character, a tab, a newline or a carriage return.", "quantifier": "all byte strings", "why_tests_cant": "The escape table differs between printer and reader for control characters.", "anchors": ["src/c/print.cc: is_str case", "src/c/parse.cc: parse_string"]}
{"id": "C34", "title": "Keyword symbols round trip", "statement": "A symbol whose name is an identifier (identifier characters, not number-like, no leading colon) printed by write is read back as the same symbol.", "quantifier": "all symbols", "why_tests_cant": "Only certain first characters trigger the special syntax.", "anchors": ["src/c/print.cc", "src/c/parse.cc: parse_expr"]}
{"id": "C35", "title": "String input ports are byte streams", "statement": "Any interleaving of read-char and peek-char on a string input port returns the bytes of the string in order, then EOF for ever; peek-char does not consume; a closed port yields EOF.", "quantifier": "every string and every history of operations", "why_tests_cant": "Histories are unbounded.", "anchors": ["src/c/port.cc: read_char_from_port, peek_char_from_port"]}
{"id": "C36", "title": "String output ports accumulate", "statement": "get-output-string returns exactly the concatenation of everything written (any number of writes of any size), never overrunning its buffer; writes after close are ignored.", "quantifier": "every history of writes of fewer than 2^30 bytes in all, printed texts without NUL bytes", "why_tests_cant": "Buffer growth boundaries depend on the total length.", "anchors": ["src/c/port.cc: write_char_to_port_string", "src/c/string.cc: write_string_to_port"]}
{"id": "C37", "title": "read on a port yields the next datum", "statement": "(read port) on the text of a datum of the class of C32 that fits 4095 bytes and has no character literal of a delimiter returns that datum and leaves the port directly behind it, for an atom behind the blank that ends it; at the end of the text it returns the eof object.", "quantifier": "every port content", "why_tests_cant": "The expression splitter is a second, approximate lexer: strings, comments, character literals and length limits interact.", "anchors": ["src/c/port.cc: read_expr_from_port"]}
{"id": "C38", "title": "Lexical lookup order", "statement": "A variable reference sees the innermost lexical binding, then the global table, then the module of the defining environment, then the current module (in each its own variables, those of used modules, those of the root); bindings in other frames and modules never interfere.", "quantifier": "every environment chain and module graph", "why_tests_cant": "The domain is unbounded (or 2^64 wide); tests sample a handful of points and miss the boundary that matters.", "anchors": ["src/c/environment.cc: scm_env_search", "src/c/module.cc: module_search_variable"]}
{"id": "C39", "title": "set! updates the nearest binding only", "statement": "set! on a bound name changes exactly the binding that a reference sees, and no other binding, in every environment that has no module of its own or that of the current module, and whenever the binding is in a frame of a procedure.", "quantifier": "every environment chain", "why_tests_cant": "The domain is unbounded (or 2^64 wide); tests sample a handful of points and miss the boundary that matters.", "anchors": ["src/c/eval.cc: eval_set", "src/c/environment.cc: scm_env_insert"]}
{"id": "C40", "title": "define in a procedure body is local", "statement": "(define x v) in a procedure body, in an environment without a module of its own, creates or changes the binding in the innermost frame only, and the body then sees v, whatever the enclosing scopes bind.", "quantifier": "every environment and name", "why_tests_cant": "Interaction of three name spaces.", "anchors": ["src/c/define.cc: eval_define"]}
{"id": "C41", "title": "do loop variables are local", "statement": "A do loop initialises its variables, then evaluates test, body and all steps before any variable changes, for any number of iterations, and returns the value of its result expressions, when no enclosing procedure or loop binds one of its variables and the test gives a boolean.", "quantifier": "every environment and do form", "why_tests_cant": "Only visible when names collide with an outer binding.", "anchors": ["src/c/do.cc: eval_do, update_do_variables"]}
{"id": "C42", "title": "Module variable resolution", "statement": "module-ref/variable lookup searches own bindings, then used interfaces most-recent first, then the root module; defining in one module never changes what another module's own bindings resolve to.", "quantifier": "every module graph", "why_tests_cant": "The domain is unbounded (or 2^64 wide); tests sample a handful of points and miss the boundary that matters.", "anchors": ["src/c/module.cc: module_search_variable"]}
{"id": "C43", "title": "Exports show the current value", "statement": "A module that uses another and does not bind x itself sees for an exported x the value x had when it was exported, whatever is defined later.", "quantifier": "every history of define/export/set!", "why_tests_cant": "Order of export and definition matters; histories are unbounded.", "anchors": ["src/c/module.cc: scm_module_export, scm_ensure_public_interface"]}
{"id": "C44", "title": "module-bound? reflects boundness", "statement": "(module-bound? m s) is #t exactly when module-ref succeeds with a value other than #f.", "quantifier": "every module and symbol", "why_tests_cant": "Depends on the value stored.", "anchors": ["src/c/module.cc: scm_c_module_bound_p"]}
{"id": "C45", "title": "dynamic-wind normal exit", "statement": "With no escapes, (dynamic-wind in thunk out) runs in, thunk, out once each in this order, returns thunk's value and leaves the wind chain unchanged, at any nesting depth.", "quantifier": "every nesting of dynamic-wind", "why_tests_cant": "The domain is unbounded (or 2^64 wide); tests sample a handful of points and miss the boundary that matters.", "anchors": ["src/c/dynwind.cc: eval_dynamic_wind"]}
{"id": "C46", "title": "Continuation jumps leave the wind chain at the target", "statement": "After invoking a continuation, at any time and any number of times, after any history of throws and jumps, the wind chain is the one that was current when it was captured, provided every in guard that a jump calls ends under the wind chain its dynamic-wind was called under; in particular in every execution in which no throw is caught outside a dynamic-wind it was thrown in. The out guards of the extents left run before the in guards of the extents entered.", "quantifier": "every pair of wind chains", "why_tests_cant": "Chains are unbounded trees of extents.", "anchors": ["src/c/dynwind.cc: unwind/rewind", "src/c/continuation.cc: scm_dynthrow"]}
{"id": "C47", "title": "Only extents actually left or entered run their guards", "statement": "A jump between extents of which none is shared, leaving at most one, runs the out guard of the extent left and then the in guards of the extents entered, outermost first; a jump within the same extents runs no guard.", "quantifier": "every pair of wind chains", "why_tests_cant": "Needs both chains to share a proper suffix.", "anchors": ["src/c/dynwind.cc: find_common_prefix"]}
{"id": "C48", "title": "throw selects the innermost matching handler", "statement": "throw transfers to the most recently established active catch whose tag is #t or the same symbol; the handler receives the key and the arguments (at least one) outside the catch, and what it does is what the catch form does; a body that does not throw gives the value of the form; with no match the process exits.", "quantifier": "every catch stack and key", "why_tests_cant": "The domain is unbounded (or 2^64 wide); tests sample a handful of points and miss the boundary that matters.", "anchors": ["src/c/throw.cc: scm_throw, tags_match"]}
{"id": "C49", "title": "catch restores the catch stack", "statement": "After an evaluation returns, the stack of active handlers is what it was before, provided no throw or jump in it passed over a catch that was not its target.", "quantifier": "every nesting and every throw", "why_tests_cant": "Only violated when a throw skips inner handlers.", "anchors": ["src/c/throw.cc: scm_c_catch"]}
{"id": "C50", "title": "Collection never frees reachable objects", "statement": "After a collection every object reachable from the roots through traced fields is intact and still allocated.", "quantifier": "every heap graph and root set", "why_tests_cant": "Quantifies over all heap graphs including cycles.", "anchors": ["src/c/gc.cc: mark, sweep"]}
{"id": "C51", "title": "Collection reclaims everything unreachable", "statement": "After a collection exactly the cells not reachable from the roots have been freed, mark bits are clear, and freed memory is used again.", "quantifier": "every heap graph and root set", "why_tests_cant": "The domain is unbounded (or 2^64 wide); tests sample a handful of points and miss the boundary that matters.", "anchors": ["src/c/gc.cc: sweep"]}
{"id": "C52", "title": "Allocations never overlap", "statement": "Any sequence of allocations and collections returns blocks that are aligned, at least as large as requested and disjoint from every other live block.", "quantifier": "every history of allocations and collections", "why_tests_cant": "Histories are unbounded.", "anchors": ["src/c/gc.cc: gc_alloc, free lists"]}
{"id": "C53", "title": "if/and/or/begin evaluate exactly the required subexpressions", "statement": "if evaluates its test once and exactly one branch; and/or evaluate left to right and stop at the first deciding value, which is the result; begin evaluates all in order and returns the last.", "quantifier": "every expression and state", "why_tests_cant": "The domain is unbounded (or 2^64 wide); tests sample a handful of points and miss the boundary that matters.", "anchors": ["src/c/eval.cc"]}
{"id": "C54", "title": "Procedure application binds parameters correctly", "statement": "Calling a closure evaluates the operands left to right and binds the parameters, the rest parameter to the list of the remaining values, in a fresh frame over the closure's environment, in which the body runs; without a rest parameter a wrong count raises an error. With a rest parameter there must be an operand for every other parameter.", "quantifier": "every parameter list and argument list", "why_tests_cant": "The domain is unbounded (or 2^64 wide); tests sample a handful of points and miss the boundary that matters.", "anchors": ["src/c/procedure.cc: apply_procedure", "src/c/function.cc: eval_with_func"]}
{"id": "C55", "title": "let, let*, letrec scoping", "statement": "let evaluates inits in the outer scope, let* sequentially, letrec in the scope of its variables; the bodies are evaluated in order and the last value returned.", "quantifier": "every binding list and body", "why_tests_cant": "The domain is unbounded (or 2^64 wide); tests sample a handful of points and miss the boundary that matters.", "anchors": ["src/c/let.cc"]}
{"id": "C56", "title": "Named let evaluates its whole body", "statement": "(let name ((v e) ...) body) with a single body expression evaluates the initial values, binds name to the loop procedure and runs the body, and each call of name runs it again.", "quantifier": "every named let", "why_tests_cant": "Only visible with more than one body expression.", "anchors": ["src/c/let.cc: expand_let"]}
{"id": "C57", "title": "case selects the first matching clause", "statement": "case evaluates its key once and runs the body of the first clause that contains it, or of the else clause, and nothing else.", "quantifier": "every clause list", "why_tests_cant": "The domain is unbounded (or 2^64 wide); tests sample a handful of points and miss the boundary that matters.", "anchors": ["src/c/cond.cc", "src/c/case.cc"]}
{"id": "C58", "title": "map visits every row in order", "statement": "(map f l ...) evaluates f and the lists in order, calls f on the rows in order, up to the end of the shortest list, and returns the list of results, for closures and primitives; whatever a call does is what map does.", "quantifier": "every list", "why_tests_cant": "Only lists containing certain elements expose the difference.", "anchors": ["src/c/map.cc", "src/c/for_each.cc"]}
{"id": "C59", "title": "Quasiquote of a template", "statement": "A quasiquote template without unquote evaluates to a datum equal to the template; unquote inserts the value and unquote-splicing the elements of a proper list, at the right nesting depth, for every template in which no inner ,@ stands directly before a dot.", "quantifier": "every template", "why_tests_cant": "The domain is unbounded (or 2^64 wide); tests sample a handful of points and miss the boundary that matters.", "anchors": ["src/c/quasiquote.cc: quasi"]}
{"id": "C60", "title": "Promises are forced at most once", "statement": "force returns the same value for ever after the first completed force, and the delayed expression is not evaluated again.", "quantifier": "every history of force calls, including re-entrant ones", "why_tests_cant": "Histories, re-entrancy.", "anchors": ["src/c/delay.cc"]}
{"id": "C61", "title": "values / call-with-values", "statement": "(call-with-values (lambda () (values v ...)) f) calls f with exactly v ....", "quantifier": "every list of values", "why_tests_cant": "Single values that are lists are the hard case.", "anchors": ["src/c/values.cc"]}
{"id": "C62", "title": "apply passes arguments unevaluated a second time", "statement": "(apply f a ... l) calls f with the values of a ... followed by the elements of l, the elements used as they are, when the values of a ... evaluate to themselves.", "quantifier": "every argument list", "why_tests_cant": "Double evaluation is only visible for symbols and lists.", "anchors": ["src/c/apply.cc"]}
{"id": "C63", "title": "Macro parameters receive the operand syntax", "statement": "Using a macro binds each parameter to the corresponding operand, unevaluated, and a rest parameter to the list of the remaining operands, runs its body and evaluates what it returns; define-macro in the root module with no, with two or more parameters, or with a rest parameter, or from a procedure, defines that macro.", "quantifier": "every parameter list and operand list", "why_tests_cant": "Depends on the number of parameters.", "anchors": ["src/c/macro.cc"]}
{"id": "C64", "title": "Evaluation is deterministic in its fuel", "statement": "If evaluating an expression completes, then its result and effects do not depend on how much stack/time was available.", "quantifier": "every program", "why_tests_cant": "The domain is unbounded (or 2^64 wide); tests sample a handful of points and miss the boundary that matters.", "anchors": ["src/c/eval.cc"]}
{"id": "C65", "title": "Reader/debug options behave as a record of settings", "statement": "read-options-interface with a setting list sets exactly the listed boolean options, keeps unlisted non-boolean ones, copy implies positions, an unknown name raises an error and changes nothing; applying the printed settings is the identity when no option value is a quote form; enable and disable of switches change exactly those (disable: names that are not an option's value), set a value or switches a switch on.", "quantifier": "every setting list and every state", "why_tests_cant": "The domain is unbounded (or 2^64 wide); tests sample a handful of points and miss the boundary that matters.", "anchors": ["src/c/read.cc", "src/c/debug.cc"]}
{"id": "C66", "title": "Smob registry", "statement": "Smob tags are distinct, descriptors are found exactly for registered tags, at most 256 types exist and data stored in a smob is returned unchanged by the C interface, and by the Scheme procedures for types registered with size 0.", "quantifier": "every history of registrations", "why_tests_cant": "The domain is unbounded (or 2^64 wide); tests sample a handful of points and miss the boundary that matters.", "anchors": ["src/c/smob.cc", "src/c/smob.h"]}
{"id": "C67", "title": "cons terminates", "statement": "(cons a d) returns for every proper list d.", "quantifier": "every heap and every cdr", "why_tests_cant": "A test never conses onto a circular list, and the walk is invisible otherwise.", "anchors": ["src/c/list.cc: scm_cons"]}
{"id": "C68", "title": "hashq and hashv tables agree with eq? and eqv?", "statement": "Two eq? symbols reach the same entry of a table through the hashq procedures, and integers, characters and booleans that are eqv? through the hashv procedures.", "quantifier": "every pair of keys and every table", "why_tests_cant": "Which keys expose a difference depends on the key class and on object identity.", "anchors": ["src/c/hash_table.cc: scm_cmp_eq, scm_cmp_eqv", "src/c/eq.cc"]}
{"id": "C69", "title": "Character comparison and classification", "statement": "char=?/<?/>?/<=?/>=? compare the character codes given by char->integer, the -ci versions those of the upper-cased characters, and the class predicates hold exactly of the ASCII classes.", "quantifier": "every pair of characters", "why_tests_cant": "The domain is unbounded (or 2^64 wide); tests sample a handful of points and miss the boundary that matters.", "anchors": ["src/c/char.cc"]}
{"id": "C70", "title": "The host survives every evaluation of an expression or a string", "statement": "pscm_eval and pscm_eval_string return to the host whatever the program does short of exit: no error, throw or continuation call in the evaluated program terminates the process or jumps past the call.", "quantifier": "every program text and every earlier history of calls", "why_tests_cant": "Depends on the whole history of the interpreter (stale handlers) and on every way a program can fail.", "anchors": ["src/c/pscm_api.cc: pscm_eval, pscm_eval_string, pscm_eval_file", "src/c/error.cc: scm_api_catch_handler", "src/c/throw.cc: scm_c_catch"]}
{"id": "C71", "title": "pscm_eval reports values and errors", "statement": "pscm_eval returns the value of the expression; it returns NULL exactly if the evaluation ended in an uncaught throw, and then, until the next call, the last-error key is the name of the thrown key and the last-error message its message string.", "quantifier": "every expression and session", "why_tests_cant": "The domain is unbounded (or 2^64 wide); tests sample a handful of points and miss the boundary that matters.", "anchors": ["src/c/pscm_api.cc: pscm_eval, pscm_get_last_error_key, pscm_get_last_error_message", "src/c/error.cc: scm_api_catch_handler"]}
{"id": "C72", "title": "Strings and files", "statement": "pscm_eval_string evaluates exactly one datum, once; text that is not exactly one datum gives NULL and has no effect. pscm_eval_file evaluates all expressions of the file in order, each also after a failed one, and returns the result of the last.", "quantifier": "every text and every file contents", "why_tests_cant": "The domain is unbounded (or 2^64 wide); tests sample a handful of points and miss the boundary that matters.", "anchors": ["src/c/pscm_api.cc: pscm_eval_string, pscm_eval_file", "src/c/parse.cc: parse, parse_file"]}
{"id": "C73", "title": "The interface can be used without limit", "statement": "In every session in which no throw or continuation call passes over a catch that is not its target, the catch stack is empty after every call, so that later calls have the same resources.", "quantifier": "every session", "why_tests_cant": "Exhaustion needs about a hundred calls of a particular kind.", "anchors": ["src/c/pscm_api.cc", "src/c/throw.cc: g_catch_stack"]}
{"id": "C74", "title": "What eq?, eqv?, memv and assq compare", "statement": "On readable data: eq? and eqv? hold for the same object and for equal integers, characters, booleans, symbols, strings and the empty list, and for nothing else; memv compares integers, characters and booleans by value and everything else by identity; assq compares integers and symbols by value and everything else by identity.", "quantifier": "every pair of objects of every kind, every list", "why_tests_cant": "The domain is unbounded (or 2^64 wide); tests sample a handful of points and miss the boundary that matters.", "anchors": ["src/c/eq.cc: _eq, _eqv", "src/c/list.cc: scm_c_memv", "src/c/alist.cc: scm_c_assq"]}
{"id": "C75", "title": "A source text is the sequence of its data", "statement": "Reading a text and then another on the following lines gives the data of the first followed by those of the second; blanks and comments around data mean nothing; what has been read does not depend on later lines.", "quantifier": "every pair of source texts", "why_tests_cant": "Depends on how a token, comment or list ends at every possible cut.", "anchors": ["src/c/parse.cc: parse_expr, parse_file, skip_whitespace", "src/c/port.cc: read_expr_from_port"]}
{"id": "C76", "title": "Type predicates partition the objects", "statement": "boolean? null? pair? number? symbol? string? char? vector? procedure? answer #t or #f for every object without changing anything, accept exactly the objects of their type, and no object satisfies two of them; integer? implies rational? implies real? implies number?, every number is exactly one of exact? and inexact?; not holds of #f only; list? implies null? or pair?.", "quantifier": "every object of every kind in every heap", "why_tests_cant": "The domain is unbounded (or 2^64 wide); tests sample a handful of points and miss the boundary that matters.", "anchors": ["src/c/predicate.cc", "src/c/char.cc: scm_c_is_char", "src/c/pscm.h: is_num ... is_variable"]}
{"id": "C77", "title": "Symbols and generated symbols", "statement": "symbol->string and string->symbol are inverse to each other and make fresh objects; other arguments are errors; gensym never returns a symbol with the name of an earlier one, nor one eq? to it.", "quantifier": "every name, every heap, every history of fewer than 2^31 calls of gensym", "why_tests_cant": "Histories of calls, all names and texts.", "anchors": ["src/c/symbol.cc: scm_c_gensym, scm_c_symbol_to_string, scm_c_string_to_symbol", "src/c/parse.cc: parse_symbol"]}
{"id": "C78", "title": "Variable objects are cells", "statement": "variable-ref returns what the last variable-set! on that variable (or its creation) stored, variable-bound? tells whether there is such a value, operations on one variable never affect another, misuse is an error; a lookup gives a variable holding the value of the name at that moment.", "quantifier": "every history of variable operations", "why_tests_cant": "Histories.", "anchors": ["src/c/variable.cc"]}
{"id": "C79", "title": "When the interactive loop takes an input as complete", "statement": "Lines typed are collected until they form a complete expression and then handed over as one text; every complete text without #{...}# and without a backslash before a delimiter is taken as complete, as is everything write prints; a text of parentheses and ordinary bytes is taken exactly if its parentheses match.", "quantifier": "every sequence of lines", "why_tests_cant": "All texts, with strings, comments, escapes and nesting.", "anchors": ["src/c/repl.cc: is_balanced, repl"]}
{"id": "C80", "title": "An interactive session", "statement": "Each completed input is evaluated once, in order, and its value shown; no evaluation error, throw or continuation call ends the session; what was answered does not depend on later input.", "quantifier": "every sequence of inputs", "why_tests_cant": "The domain is unbounded (or 2^64 wide); tests sample a handful of points and miss the boundary that matters.", "anchors": ["src/c/repl.cc: repl", "src/c/pscm_api.cc: pscm_eval"]}
{"id": "C81", "title": "Running a script", "statement": "Running a script evaluates all its forms once each, in order, whatever errors they raise; a file that cannot be opened gives status 1.", "quantifier": "every script text", "why_tests_cant": "All texts, with errors at every position.", "anchors": ["src/main.cc: do_eval, my_eval", "src/c/parse.cc: parse_file"]}
{"id": "C82", "title": "Loading a file; leaving the process", "statement": "load evaluates the forms of a file that has forms in order at top level and returns the last value; the first error ends it with the effects so far; an unreadable or ill-formed file is an error without effects. (exit n) for an integer n ends the process with status n modulo 256, (exit) with 0; arguments that are not numbers are errors.", "quantifier": "every file text and state, every status", "why_tests_cant": "The domain is unbounded (or 2^64 wide); tests sample a handful of points and miss the boundary that matters.", "anchors": ["src/c/load.cc: scm_c_primitive_load, scm_eval_expression_list", "src/c/exit.cc: scm_c_exit"]}
{"id": "C83", "title": "Messages for uncaught throws", "statement": "A throw that no catch matches, whose message line has at most 1023 bytes, prints one line with the program name, the key and the message and ends the process with status 1; the host's message handler prints the same and returns, except for the key quit; up to 1025 bytes the line is cut to 1023.", "quantifier": "every key and message of every length", "why_tests_cant": "Needs keys or messages around a thousand bytes.", "anchors": ["src/c/throw.cc: handler_message, scm_uncaught_throw, scm_handle_by_message_noexit"]}
{"id": "C84", "title": "Throw handlers do not disturb catches", "statement": "A throw goes to the innermost matching catch whatever handlers scm_c_with_throw_handler has installed; a body that returns gives the value, with the wind chain as before; handlers can be nested up to 100 deep.", "quantifier": "every nesting and history of handlers and throws", "why_tests_cant": "Exhaustion needs a hundred non-local exits; dispatch depends on the layout of the wind chain.", "anchors": ["src/c/throw.cc: scm_c_with_throw_handler, scm_throw"]}
{"id": "C85", "title": "Continuations can be re-entered", "statement": "Invoking a continuation makes its call/cc call return the given value to the whole rest of the computation captured with it, at any later time and any number of times, whether or not that call has already returned, in the memory as it is at that time.", "quantifier": "every program, every later point of its execution and every number of invocations", "why_tests_cant": "Needs every history of captures, returns, jumps and errors between capture and invocation.", "anchors": ["src/c/continuation.cc: scm_make_continuation, scm_dynthrow, copy_stack_and_call", "src/c/eval.cc: eval_list_with_env, eval_call_cc", "src/c/map.cc: eval_map"]}
{"id": "C86", "title": "What has been computed stays as it is", "statement": "A value that has been computed, or is the value of a variable, keeps its contents, and a variable its value, for the rest of the execution unless the program itself applies set-car!, set-cdr!, set! or define to it, in every execution in which continuations escape or are re-entered where no procedure call or map is half done.", "quantifier": "every program, value, variable and later state of the execution", "why_tests_cant": "The later state can be reached by any sequence of calls, escapes and re-entries.", "anchors": ["src/c/procedure.cc: apply_procedure", "src/c/map.cc: eval_map", "src/c/continuation.cc: copy_stack_and_call"]}
{"id": "C87", "title": "A catch body has its handler whenever it runs", "statement": "While jumps stay inside the same catch bodies and the innermost catch covers the keys thrown, a throw in the body of a catch is handled by that catch: its handler is called with the key and the arguments, in the memory as it is, and the catch call returns what it returns.", "quantifier": "every program and every throw in it", "why_tests_cant": "Depends on the history of jumps into and out of bodies.", "anchors": ["src/c/throw.cc: scm_c_catch, scm_throw, g_catch_stack", "src/c/continuation.cc: copy_stack_and_call"]}
{"id": "C88", "title": "File ports", "statement": "What a program writes to a file output port is in the file, in order and complete, once the port is closed, and never anything else; reading a file answers its bytes in order and then end-of-file for ever; a file nobody writes keeps its contents; call-with-output-file and call-with-input-file close their port when the procedure returns.", "quantifier": "every history of port operations on any number of ports and files with one output port per file at a time, texts without NUL bytes, every buffering behaviour of stdio", "why_tests_cant": "The domain is unbounded (or 2^64 wide); tests sample a handful of points and miss the boundary that matters.", "anchors": ["src/c/port.cc: scm_c_open_output_file, scm_c_open_input_file, scm_c_close_output_port, scm_c_call_with_output_file, read_char_from_port, peek_char_from_port", "src/c/string.cc: scm_c_display, write_string_to_port"]}
{"id": "C89", "title": "The current ports", "statement": "current-input-port, current-output-port and current-error-port answer the port last given to their setter; setters return the previous port and accept only ports of the right direction; display, write and newline without a port go to the standard output, in order.", "quantifier": "every history of port operations that does not close the initial output port, texts without NUL bytes", "why_tests_cant": "The domain is unbounded (or 2^64 wide); tests sample a handful of points and miss the boundary that matters.", "anchors": ["src/c/port.cc: scm_current_output_port, scm_set_current_output_port, init_port, scm_c_read_char, scm_c_write_char", "src/c/string.cc: scm_c_display, scm_c_newline"]}
{"id": "C90", "title": "Soft ports", "statement": "write-char, read-char, force-output and close-port on a port made by make-soft-port call the procedure in the corresponding vector element, once per character or operation, pass its answer on, call no procedure of another port, and call nothing after the port has been closed.", "quantifier": "every vector, mode string without NUL bytes, behaviour of the procedures (other than using ports themselves) and history", "why_tests_cant": "The domain is unbounded (or 2^64 wide); tests sample a handful of points and miss the boundary that matters.", "anchors": ["src/c/port.cc: scm_c_make_soft_port, call_soft_port_thunk, write_char_to_port_string, flush_port"]}
{"id": "C91", "title": "Ports are independent and safe", "statement": "A port never changes direction; an operation of the wrong direction is an error without effect; a closed port stays closed, reads end-of-file and ignores writes; operations on one port do not influence another; no history of port operations is undefined behaviour.", "quantifier": "every history of port operations on any number of ports that does not close the initial output port, prints fewer than 2^29 bytes and opens strings shorter than 2^31 bytes", "why_tests_cant": "The domain is unbounded (or 2^64 wide); tests sample a handful of points and miss the boundary that matters.", "anchors": ["src/c/port.cc", "src/c/string.cc: scm_c_display, scm_c_write, scm_c_newline"]}
{"id": "C92", "title": "Loading modules", "statement": "resolve-module, use-modules and the #:use-module clause evaluate the file of a module name at most once in a session, the first existing one among the directories of %load-path in order and the current directory; a name stands for the same module for ever and different names for different modules; circular uses end; the definitions in the file go to the new module and change no other binding; without a file there is a warning and an empty module.", "quantifier": "every set of files (circular ones included) and every session of module forms", "why_tests_cant": "The domain is unbounded (or 2^64 wide); tests sample a handful of points and miss the boundary that matters.", "anchors": ["src/c/module.cc: scm_resolve_module, module_name_to_path, file_exists", "src/c/load.cc: scm_c_primitive_load_with_env"]}
{"id": "C93", "title": "The current module", "statement": "A form other than define-module and set-current-module that ends without an error leaves the current module as it was, whatever the files it loads do; define-module and set-current-module make the named module current.", "quantifier": "every set of files and every session of module forms", "why_tests_cant": "The domain is unbounded (or 2^64 wide); tests sample a handful of points and miss the boundary that matters.", "anchors": ["src/c/module.cc: scm_resolve_module, eval_define_module, eval_use_modules, scm_c_set_current_module"]}
{"id": "C94", "title": "Interfaces of modules", "statement": "The interface of a module binds exported names only; export gives the interface the value the module sees at that moment; using a module that has an interface makes exactly its exported names visible, to the current module only, before those of modules used earlier, behind the module's own variables.", "quantifier": "every session of module forms", "why_tests_cant": "The domain is unbounded (or 2^64 wide); tests sample a handful of points and miss the boundary that matters.", "anchors": ["src/c/module.cc: scm_module_export, scm_ensure_public_interface, eval_use_modules, module_search_variable"]}
{"id": "C95", "title": "The clauses of define-module", "statement": "A define-module form with #:use-module clauses followed by #:export and names makes a module that uses exactly the given modules, the last one first, exports exactly the given names, binds nothing itself, and whose interface gives the imported exported names their values; no file of a known module is evaluated again.", "quantifier": "every session, module name, list of used modules and list of exported names", "why_tests_cant": "The domain is unbounded (or 2^64 wide); tests sample a handful of points and miss the boundary that matters.", "anchors": ["src/c/module.cc: eval_define_module"]}
{"id": "C96", "title": "Autoload", "statement": "A name listed in an #:autoload clause loads its module at the first reference, in a module that does not see the name otherwise: the clause is used up, the module's interface is used from then on, and the reference gives what the interface shows; names seen otherwise and names that no clause of this module lists load nothing.", "quantifier": "every set of files, every session, every name", "why_tests_cant": "The domain is unbounded (or 2^64 wide); tests sample a handful of points and miss the boundary that matters.", "anchors": ["src/c/module.cc: module_search_variable, eval_define_module", "src/c/environment.cc: scm_env_search"]}
{"id": "C97", "title": "Module files are robust", "statement": "Each module file is evaluated at most once; an error while a module is loaded leaves the current module as it was and the module unloaded; a module shows only what it exports, whenever it does so.", "quantifier": "every set of files and every session of module forms", "why_tests_cant": "The domain is unbounded (or 2^64 wide); tests sample a handful of points and miss the boundary that matters.", "anchors": ["src/c/module.cc: scm_resolve_module, eval_use_modules, scm_module_export"]}
{"id": "C98", "title": "Any clauses in any order", "statement": "The clauses of define-module may be written in any order and each takes its own operands only, #:export a list of names.", "quantifier": "every define-module form", "why_tests_cant": "The domain is unbounded (or 2^64 wide); tests sample a handful of points and miss the boundary that matters.", "anchors": ["src/c/module.cc: eval_define_module"]}
{"id": "C99", "title": "Autoload on any access", "statement": "Any access to a listed name, an assignment included, loads the module, and a module that could not be loaded is tried again at the next reference.", "quantifier": "every set of files and every session", "why_tests_cant": "The domain is unbounded (or 2^64 wide); tests sample a handful of points and miss the boundary that matters.", "anchors": ["src/c/module.cc: module_search_variable", "src/c/eval.cc: eval_set", "src/c/environment.cc"]}
{"id": "C100", "title": "Any capacity", "statement": "make-hash-table accepts every integer as capacity, or raises an error.", "quantifier": "every integer", "why_tests_cant": "Must hold for every program; the code breaks it, and the theorem is a counterexample for a whole class of inputs.", "anchors": ["src/c/hash_table.cc"]}
{"id": "C101", "title": "The collector sees every reference", "statement": "Every object a program can still reach in any way survives a collection: also through a vector that has been filled after its creation, at any address, from a saved continuation, and from the data of a smob.", "quantifier": "every program and every moment of collection", "why_tests_cant": "Must hold for every program; the code breaks it, and the theorem is a counterexample for a whole class of inputs.", "anchors": ["src/c/gc.cc: mark, sweep"]}
{"id": "C102", "title": "Memory of every size is reused", "statement": "Memory freed by a collection can be allocated again, whatever the size of the object was.", "quantifier": "every allocation size and history", "why_tests_cant": "Must hold for every program; the code breaks it, and the theorem is a counterexample for a whole class of inputs.", "anchors": ["src/c/gc.cc: sweep"]}
{"id": "C103", "title": "Option settings are symmetric", "statement": "Applying the printed option settings is always the identity; an option that has been switched on can be switched off by set!; disable removes switches only.", "quantifier": "every state of the options", "why_tests_cant": "Must hold for every program; the code breaks it, and the theorem is a counterexample for a whole class of inputs.", "anchors": ["src/c/read.cc", "src/c/debug.cc"]}
{"id": "C104", "title": "Smob data of every type and tag", "statement": "Data stored in a smob of any registered type can be read back from Scheme, and any integer can be given as a tag.", "quantifier": "every registration and integer", "why_tests_cant": "Must hold for every program; the code breaks it, and the theorem is a counterexample for a whole class of inputs.", "anchors": ["src/c/smob.cc", "src/c/smob.h"]}
{"id": "C105", "title": "The host survives every file", "statement": "pscm_eval_file returns to the host for every file without a syntax error, present or not, and whatever its forms do.", "quantifier": "every file and every session", "why_tests_cant": "Must hold for every program; the code breaks it, and the theorem is a counterexample for a whole class of inputs.", "anchors": ["src/c/pscm_api.cc: pscm_eval, pscm_eval_string, pscm_eval_file", "src/c/error.cc: scm_api_catch_handler", "src/c/throw.cc: scm_c_catch"]}
{"id": "C106", "title": "The last error is that of the last call", "statement": "After a call that succeeded there is no last error.", "quantifier": "every session", "why_tests_cant": "Must hold for every program; the code breaks it, and the theorem is a counterexample for a whole class of inputs.", "anchors": ["src/c/pscm_api.cc: pscm_eval, pscm_get_last_error_key, pscm_get_last_error_message", "src/c/error.cc: scm_api_catch_handler"]}
{"id": "C107", "title": "eq? and eqv? distinguish different objects", "statement": "eq? is #f for different strings; eqv? is #f for an exact and an inexact number.", "quantifier": "every pair of objects", "why_tests_cant": "Must hold for every program; the code breaks it, and the theorem is a counterexample for a whole class of inputs.", "anchors": ["src/c/eq.cc: _eq, _eqv", "src/c/list.cc: scm_c_memv", "src/c/alist.cc: scm_c_assq"]}
{"id": "C108", "title": "Line ends", "statement": "A carriage return means the same to the file reader and to read on a port.", "quantifier": "every text", "why_tests_cant": "Must hold for every program; the code breaks it, and the theorem is a counterexample for a whole class of inputs.", "anchors": ["src/c/parse.cc: parse_expr, parse_file, skip_whitespace", "src/c/port.cc: read_expr_from_port"]}
{"id": "C109", "title": "Whole inexact numbers are integers", "statement": "integer? and rational? hold of inexact numbers that are whole.", "quantifier": "every double", "why_tests_cant": "Must hold for every program; the code breaks it, and the theorem is a counterexample for a whole class of inputs.", "anchors": ["src/c/predicate.cc", "src/c/char.cc: scm_c_is_char", "src/c/pscm.h: is_num ... is_variable"]}
{"id": "C110", "title": "Symbols with any name", "statement": "Symbols whose names have no NUL byte are eq? exactly if their names are equal, and no symbol in a program text without #{...}# is one that gensym has returned.", "quantifier": "every name and text, any number of calls", "why_tests_cant": "Must hold for every program; the code breaks it, and the theorem is a counterexample for a whole class of inputs.", "anchors": ["src/c/symbol.cc: scm_c_gensym, scm_c_symbol_to_string, scm_c_string_to_symbol", "src/c/parse.cc: parse_symbol"]}
{"id": "C111", "title": "Looked-up variables are the binding", "statement": "The variable object that a lookup gives is the binding itself: assigning one changes the other.", "quantifier": "every environment and name", "why_tests_cant": "Must hold for every program; the code breaks it, and the theorem is a counterexample for a whole class of inputs.", "anchors": ["src/c/variable.cc"]}
{"id": "C112", "title": "No input ends the session", "statement": "Whatever is typed, the session goes on, and every expression on a line is evaluated.", "quantifier": "every sequence of lines", "why_tests_cant": "Must hold for every program; the code breaks it, and the theorem is a counterexample for a whole class of inputs.", "anchors": ["src/c/repl.cc: repl", "src/c/pscm_api.cc: pscm_eval"]}
{"id": "C113", "title": "The exit status of a script", "statement": "The exit status of a script is 0 exactly if all forms were evaluated without an error.", "quantifier": "every script", "why_tests_cant": "Must hold for every program; the code breaks it, and the theorem is a counterexample for a whole class of inputs.", "anchors": ["src/main.cc: do_eval, my_eval", "src/c/parse.cc: parse_file"]}
{"id": "C114", "title": "Any exit code, any file", "statement": "(exit n) for 0 <= n <= 255 ends the process with status n.", "quantifier": "every argument of exit and every file", "why_tests_cant": "Must hold for every program; the code breaks it, and the theorem is a counterexample for a whole class of inputs.", "anchors": ["src/c/load.cc: scm_c_primitive_load, scm_eval_expression_list", "src/c/exit.cc: scm_c_exit"]}
{"id": "C115", "title": "Throw handlers are called", "statement": "A handler installed with scm_c_with_throw_handler for a key is called, at the point of the throw, by a throw to that key in its body; installing handlers can be repeated without limit.", "quantifier": "every program", "why_tests_cant": "Must hold for every program; the code breaks it, and the theorem is a counterexample for a whole class of inputs.", "anchors": ["src/c/throw.cc: scm_c_with_throw_handler, scm_throw"]}
{"id": "C116", "title": "Resumptions are independent", "statement": "The results of one resumption of a continuation do not influence what another one computes from, and a continuation captured in a procedure called by map can be resumed after map has returned.", "quantifier": "every program", "why_tests_cant": "Must hold for every program; the code breaks it, and the theorem is a counterexample for a whole class of inputs.", "anchors": ["src/c/continuation.cc: scm_make_continuation, scm_dynthrow, copy_stack_and_call", "src/c/eval.cc: eval_list_with_env, eval_call_cc", "src/c/map.cc: eval_map"]}
{"id": "C117", "title": "File ports in all circumstances", "statement": "call-with-output-file closes its port however the procedure is left; two output ports on a file do not overwrite each other; what was written is visible to a reader at once.", "quantifier": "every history of port operations", "why_tests_cant": "Must hold for every program; the code breaks it, and the theorem is a counterexample for a whole class of inputs.", "anchors": ["src/c/port.cc: scm_c_open_output_file, scm_c_open_input_file, scm_c_close_output_port, scm_c_call_with_output_file, read_char_from_port, peek_char_from_port", "src/c/string.cc: scm_c_display, write_string_to_port"]}
{"id": "C118", "title": "Redirection", "statement": "Reading and writing without a port use the current ports, and closing any port is harmless.", "quantifier": "every history of port operations", "why_tests_cant": "Must hold for every program; the code breaks it, and the theorem is a counterexample for a whole class of inputs.", "anchors": ["src/c/port.cc: scm_current_output_port, scm_set_current_output_port, init_port, scm_c_read_char, scm_c_write_char", "src/c/string.cc: scm_c_display, scm_c_newline"]}
{"id": "C119", "title": "Soft ports are full ports", "statement": "All input and output procedures work on soft ports, an rw port is both an input and an output port, the mode is read to its end, and close-port closes the port even if the procedure exits.", "quantifier": "every vector, mode string and behaviour of the procedures", "why_tests_cant": "Must hold for every program; the code breaks it, and the theorem is a counterexample for a whole class of inputs.", "anchors": ["src/c/port.cc: scm_c_make_soft_port, call_soft_port_thunk, write_char_to_port_string, flush_port"]}
{"id": "C120", "title": "cond selects the first matching clause", "statement": "cond runs the body of the first clause whose test is not #f; a clause with only a test gives #t; a clause with => calls the receiver on the value of the test.", "quantifier": "every clause list", "why_tests_cant": "Must hold for every program; the code breaks it, and the theorem is a counterexample for a whole class of inputs.", "anchors": ["src/c/cond.cc", "src/c/case.cc"]}
{"id": "C121", "title": "for-each visits every row in order", "statement": "(for-each f l ...) with up to 10 lists of equal length, none with () as an element, calls f on every row in order.", "quantifier": "every list of lists", "why_tests_cant": "Must hold for every program; the code breaks it, and the theorem is a counterexample for a whole class of inputs.", "anchors": ["src/c/map.cc", "src/c/for_each.cc"]}
{"id": "C122", "title": "throw without arguments", "statement": "A handler receives exactly the key and the arguments given to throw, also if there are none.", "quantifier": "every throw", "why_tests_cant": "Must hold for every program; the code breaks it, and the theorem is a counterexample for a whole class of inputs.", "anchors": ["src/c/throw.cc: scm_throw, tags_match"]}
{"id": "C123", "title": "Modules can redefine global names", "statement": "A variable reference to a name without a global entry sees the innermost lexical binding, then the module of the defining environment, then the current module.", "quantifier": "every environment, module and name", "why_tests_cant": "Must hold for every program; the code breaks it, and the theorem is a counterexample for a whole class of inputs.", "anchors": ["src/c/environment.cc: scm_env_search", "src/c/module.cc: module_search_variable"]}
{"id": "C124", "title": "Parity, max and min are exact", "statement": "odd?, even?, max and min agree with the mathematical notion on all exact integers below 2^53 in magnitude; with an inexact argument max and min give the largest or smallest value as an inexact number; a non-number is an error.", "quantifier": "all 64-bit integers, all argument lists", "why_tests_cant": "The domain is unbounded (or 2^64 wide); tests sample a handful of points and miss the boundary that matters.", "anchors": ["src/c/number.cc: scm_c_is_odd, scm_c_is_even, scm_c_max, scm_c_min"]}
{"id": "C125", "title": "The smallest integer prints", "statement": "(number->string n r) denotes n also for n = -2^63.", "quantifier": "every radix", "why_tests_cant": "Must hold for every program; the code breaks it, and the theorem is a counterexample for a whole class of inputs.", "anchors": ["src/c/string.cc: int_to_string_radix, scm_c_number_to_string, scm_c_string_to_number"]}
{"id": "C126", "title": "Sizes beyond 2^31", "statement": "vector->list, string-append and make-string work for every size that fits memory.", "quantifier": "every size", "why_tests_cant": "Must hold for every program; the code breaks it, and the theorem is a counterexample for a whole class of inputs.", "anchors": ["src/c/vector.cc: scm_c_vector_to_list, scm_c_list_to_vector", "src/c/string.cc"]}
{"id": "C127", "title": "Case-insensitive order", "statement": "string-ci<? etc. agree with the case-sensitive comparison of the upper-cased strings, for ASCII strings.", "quantifier": "every pair of byte strings", "why_tests_cant": "The domain is unbounded (or 2^64 wide); tests sample a handful of points and miss the boundary that matters.", "anchors": ["src/c/string.cc: scm_c_string_ci_lt and family"]}
{"id": "C128", "title": "NUL bytes on string ports", "statement": "get-output-string returns everything written, also when a printed text contains a NUL byte.", "quantifier": "every history of writes", "why_tests_cant": "Must hold for every program; the code breaks it, and the theorem is a counterexample for a whole class of inputs.", "anchors": ["src/c/port.cc: write_char_to_port_string", "src/c/string.cc: write_string_to_port"]}
{"id": "C129", "title": "Every string literal round trips", "statement": "For every byte string, reading the text printed by write yields the same string.", "quantifier": "every byte string", "why_tests_cant": "Must hold for every program; the code breaks it, and the theorem is a counterexample for a whole class of inputs.", "anchors": ["src/c/print.cc: is_str case", "src/c/parse.cc: parse_string"]}
{"id": "C130", "title": "Every object knows where it was read", "statement": "Every located object that reading a text produces, at any depth, carries the name of the file and the line and column (counted from 1) where its own text begins, provided the text before it has no token over several lines and no keyword; the line alone is right also after strings over several lines. A syntax error names the place the reader has reached. Keeping locations does not change what is read.", "quantifier": "every text, every file name, every earlier history of successful loads", "why_tests_cant": "The domain is unbounded (or 2^64 wide); tests sample a handful of points and miss the boundary that matters.", "anchors": ["src/c/parse.cc: skip_whitespace, parse_expr, parse_list, parse_vector, parse_string, parse_error, push_parse_stack, print_parse_stack", "src/c/source_location.cc: set_source_location", "src/c/symbol.cc"]}
{"id": "C131", "title": "Locations in every text", "statement": "The line and column stored in an object are those of its text whatever tokens come before it on the line, and are not changed by reading another text.", "quantifier": "every text and every sequence of texts", "why_tests_cant": "Must hold for every program; the code breaks it, and the theorem is a counterexample for a whole class of inputs.", "anchors": ["src/c/parse.cc: skip_whitespace, parse_expr, parse_list, parse_vector, parse_string, parse_error, push_parse_stack, print_parse_stack", "src/c/source_location.cc: set_source_location", "src/c/symbol.cc"]}
{"id": "C132", "title": "Syntax errors are reported from the text at hand", "statement": "After any history of successful loads, a syntax error is reported without undefined behaviour, and every open construct listed in the report is a construct of that kind, of this text, with the place where it begins; a load leaves no open construct behind.", "quantifier": "every history of successful loads and every text", "why_tests_cant": "The domain is unbounded (or 2^64 wide); tests sample a handful of points and miss the boundary that matters.", "anchors": ["src/c/parse.cc: skip_whitespace, parse_expr, parse_list, parse_vector, parse_string, parse_error, push_parse_stack, print_parse_stack", "src/c/source_location.cc: set_source_location", "src/c/symbol.cc"]}
{"id": "C133", "title": "Reports after any history", "statement": "A syntax error is reported without undefined behaviour whatever texts have been read before, by whichever entry point, and the report lists exactly the open constructs.", "quantifier": "every sequence of texts", "why_tests_cant": "Must hold for every program; the code breaks it, and the theorem is a counterexample for a whole class of inputs.", "anchors": ["src/c/parse.cc: skip_whitespace, parse_expr, parse_list, parse_vector, parse_string, parse_error, push_parse_stack, print_parse_stack", "src/c/source_location.cc: set_source_location", "src/c/symbol.cc"]}
{"id": "C134", "title": "Key comparison agrees with equal?", "statement": "assoc, member, case and equal-hash tables take for the same key exactly what equal? takes for equal.", "quantifier": "all finite data", "why_tests_cant": "Must hold for every program; the code breaks it, and the theorem is a counterexample for a whole class of inputs.", "anchors": ["src/c/eq.cc: _eq, _equal_recursive", "src/c/alist.cc"]}
{"id": "C135", "title": "Closure of arithmetic over ratios", "statement": "Every value produced by (/ a b) can be passed to +, -, <, = and equal? and yields a number or boolean (never a process abort).", "quantifier": "all pairs of numbers produced by the interpreter", "why_tests_cant": "Needs a case the tests do not combine: a ratio reaching an operator written for integers and floats only.", "anchors": ["src/c/number.cc: BinaryOperator, scm_c_div", "src/c/eq.cc: _number_eq"]}
{"id": "C136", "title": "last-pair of every list", "statement": "(last-pair l) returns the cell holding the last element of the list l and terminates on circular lists.", "quantifier": "every heap and non-empty list", "why_tests_cant": "The two-speed traversal is only wrong for particular lengths; cycles make it unbounded.", "anchors": ["src/c/list.cc: scm_c_last_pair"]}
{"id": "C137", "title": "list? for every length", "statement": "(list? x) terminates on every object, including circular structures, and is #t exactly for proper lists.", "quantifier": "every heap and every object", "why_tests_cant": "Includes circular and arbitrarily long lists; the code uses a hard iteration cap.", "anchors": ["src/c/predicate.cc: scm_c_is_list"]}
{"id": "C138", "title": "Association lists with list values", "statement": "After assoc-set! with key k and value v, assoc-ref k gives v and every other key is unaffected; after assoc-remove! the first entry with k is gone and the order of the others is preserved.", "quantifier": "every association list, key and value", "why_tests_cant": "Must hold for every program; the code breaks it, and the theorem is a counterexample for a whole class of inputs.", "anchors": ["src/c/alist.cc: scm_c_assoc_set, scm_c_assoc_remove"]}
{"id": "C139", "title": "equal-hash tables with keys of every type", "statement": "In an equal-hash table, hash-ref with a key equal? to a stored key returns the stored value.", "quantifier": "every history and every pair of equal keys", "why_tests_cant": "Depends on the hash function agreeing with the comparison for every type.", "anchors": ["src/c/hash_table.cc: scm_hash_code_equal, scm_cmp_equal"]}
{"id": "C140", "title": "write/read round trip of every datum", "statement": "Reading back the text printed by write for a datum built from symbols (identifier characters, not number-like, no leading colon), integers, booleans, characters, printable strings, proper and dotted lists and vectors yields the same datum.", "quantifier": "all such data, of every depth", "why_tests_cant": "Unbounded nesting and every combination of token adjacency.", "anchors": ["src/c/print.cc: print_ast, _print_list", "src/c/parse.cc"]}
{"id": "C141", "title": "Every symbol round trips", "statement": "A symbol printed by write is read back as the same symbol, including keywords beginning with ':'.", "quantifier": "all symbols", "why_tests_cant": "Only certain first characters trigger the special syntax.", "anchors": ["src/c/print.cc", "src/c/parse.cc: parse_expr"]}
{"id": "C142", "title": "read on a port for every text", "statement": "(read port) returns the datum the reader would return on the remaining text and leaves the port after it.", "quantifier": "every port content", "why_tests_cant": "The expression splitter is a second, approximate lexer: strings, comments, character literals and length limits interact.", "anchors": ["src/c/port.cc: read_expr_from_port"]}
{"id": "C143", "title": "set! in module code", "statement": "set! changes exactly the binding that a reference would see and no other binding.", "quantifier": "every environment chain", "why_tests_cant": "Must hold for every program; the code breaks it, and the theorem is a counterexample for a whole class of inputs.", "anchors": ["src/c/eval.cc: eval_set", "src/c/environment.cc: scm_env_insert"]}
{"id": "C144", "title": "define in bodies of module code and of procedures", "statement": "A define inside a lambda body creates a binding visible in that body only and never changes a binding of an enclosing scope or module.", "quantifier": "every environment and name", "why_tests_cant": "Interaction of three name spaces.", "anchors": ["src/c/define.cc: eval_define"]}
{"id": "C145", "title": "do loops inside other scopes", "statement": "A do loop binds fresh variables: bindings of the same name outside the loop are unchanged by it; steps are evaluated in parallel.", "quantifier": "every environment and do form", "why_tests_cant": "Only visible when names collide with an outer binding.", "anchors": ["src/c/do.cc: eval_do, update_do_variables"]}
{"id": "C146", "title": "Exports show the current value", "statement": "A module that uses another sees the current value of each exported variable.", "quantifier": "every history of define/export/set!", "why_tests_cant": "Order of export and definition matters; histories are unbounded.", "anchors": ["src/c/module.cc: scm_module_export, scm_ensure_public_interface"]}
{"id": "C147", "title": "module-bound? reflects boundness", "statement": "(module-bound? m s) is #t exactly when module-ref would succeed.", "quantifier": "every module and symbol", "why_tests_cant": "Depends on the value stored.", "anchors": ["src/c/module.cc: scm_c_module_bound_p"]}
{"id": "C148", "title": "Wind chain after any in guards", "statement": "After invoking a continuation captured with chain T from any chain S, the wind chain is T and the out guards of S's extents have run before the in guards of T's.", "quantifier": "every pair of wind chains", "why_tests_cant": "Chains are unbounded trees of extents.", "anchors": ["src/c/dynwind.cc: unwind/rewind", "src/c/continuation.cc: scm_dynthrow"]}
{"id": "C149", "title": "Only extents actually left or entered run their guards", "statement": "When jumping between extents sharing outer extents, the guards of the shared extents do not run, and out guards run innermost first.", "quantifier": "every pair of wind chains", "why_tests_cant": "Needs both chains to share a proper suffix.", "anchors": ["src/c/dynwind.cc: find_common_prefix"]}
{"id": "C150", "title": "catch restores the catch stack", "statement": "After a catch form returns (normally or by its handler), the stack of active handlers is what it was before.", "quantifier": "every nesting and every throw", "why_tests_cant": "Only violated when a throw skips inner handlers.", "anchors": ["src/c/throw.cc: scm_c_catch"]}
{"id": "C151", "title": "Too few arguments with a rest parameter", "statement": "Calling a closure with n fixed parameters and an optional rest parameter binds parameters left to right to the argument values in a fresh frame over the closure's environment; a wrong count raises an error.", "quantifier": "every parameter list and argument list", "why_tests_cant": "Must hold for every program; the code breaks it, and the theorem is a counterexample for a whole class of inputs.", "anchors": ["src/c/procedure.cc: apply_procedure", "src/c/function.cc: eval_with_func"]}
{"id": "C152", "title": "Named let evaluates its whole body", "statement": "(let name ((v e) ...) b1 b2 ... bn) evaluates all body expressions in each iteration.", "quantifier": "every named let", "why_tests_cant": "Only visible with more than one body expression.", "anchors": ["src/c/let.cc: expand_let"]}
{"id": "C153", "title": "Splicing dotted lists", "statement": "A quasiquote template without unquote evaluates to a datum equal to the template; unquote inserts the value and unquote-splicing the elements of the value, at the right nesting depth.", "quantifier": "every template", "why_tests_cant": "Must hold for every program; the code breaks it, and the theorem is a counterexample for a whole class of inputs.", "anchors": ["src/c/quasiquote.cc: quasi"]}
{"id": "C154", "title": "A single value that is a list", "statement": "(call-with-values (lambda () (values v ...)) f) calls f with exactly v ....", "quantifier": "every list of values", "why_tests_cant": "Single values that are lists are the hard case.", "anchors": ["src/c/values.cc"]}
{"id": "C155", "title": "apply passes arguments unevaluated a second time", "statement": "(apply f a ... l) calls f with the values of a ... followed by the elements of l, each used as is.", "quantifier": "every argument list", "why_tests_cant": "Double evaluation is only visible for symbols and lists.", "anchors": ["src/c/apply.cc"]}
{"id": "C156", "title": "Macros with one parameter", "statement": "A macro defined by define-macro binds each parameter to the corresponding operand, unevaluated, and a rest parameter to the list of the remaining operands.", "quantifier": "every parameter list and operand list", "why_tests_cant": "Depends on the number of parameters.", "anchors": ["src/c/macro.cc"]}
{"id": "C157", "title": "cons on circular lists", "statement": "(cons a d) returns for every d, including circular lists (the constructor does not need to look at the tail).", "quantifier": "every heap and every cdr", "why_tests_cant": "A test never conses onto a circular list, and the walk is invisible otherwise.", "anchors": ["src/c/list.cc: scm_cons"]}
{"id": "C158", "title": "hashq and hashv tables with keys of every type", "statement": "Two eq? keys reach the same entry of a table through the hashq procedures, and two eqv? keys through the hashv procedures.", "quantifier": "every pair of keys and every table", "why_tests_cant": "Which keys expose a difference depends on the key class and on object identity.", "anchors": ["src/c/hash_table.cc: scm_cmp_eq, scm_cmp_eqv", "src/c/eq.cc"]}
{"id": "C159", "title": "The interface can be used without limit", "statement": "The number of calls a host can make is not limited: after a call has returned, later calls have the same resources as before it.", "quantifier": "every session", "why_tests_cant": "Exhaustion needs about a hundred calls of a particular kind.", "anchors": ["src/c/pscm_api.cc", "src/c/throw.cc: g_catch_stack"]}
{"id": "C160", "title": "The interactive loop on every text", "statement": "Lines typed are collected until they form a complete expression, and a complete expression is submitted as soon as its last line ends.", "quantifier": "every sequence of lines", "why_tests_cant": "All texts, with strings, comments, escapes and nesting.", "anchors": ["src/c/repl.cc: is_balanced, repl"]}
{"id": "C161", "title": "Messages of every length", "statement": "A throw that no catch matches prints one line with the program name, the key and the message and ends the process with status 1, for every key and message.", "quantifier": "every key and message of every length", "why_tests_cant": "Needs keys or messages around a thousand bytes.", "anchors": ["src/c/throw.cc: handler_message, scm_uncaught_throw, scm_handle_by_message_noexit"]}
{"id": "C162", "title": "Values under arbitrary re-entry", "statement": "A value that has been computed, or is the value of a variable, keeps its contents, and a variable its value, for the rest of the execution unless the program itself applies set-car!, set-cdr!, set! or define to it.", "quantifier": "every program, value, variable and later state of the execution", "why_tests_cant": "The later state can be reached by any sequence of calls, escapes and re-entries.", "anchors": ["src/c/procedure.cc: apply_procedure", "src/c/map.cc: eval_map", "src/c/continuation.cc: copy_stack_and_call"]}
{"id": "C163", "title": "Re-entered catch bodies", "statement": "Whenever the body of a catch is running, including when it is re-entered through a continuation, a throw in it whose key matches is handled by that catch.", "quantifier": "every program and every throw in it", "why_tests_cant": "Depends on the history of jumps into and out of bodies.", "anchors": ["src/c/throw.cc: scm_c_catch, scm_throw, g_catch_stack", "src/c/continuation.cc: copy_stack_and_call"]}
{"id": "C164", "title": "The host survives every file", "statement": "pscm_eval_file returns to the host whatever the file contains.", "quantifier": "every file and every session", "why_tests_cant": "Must hold for every program; the code breaks it, and the theorem is a counterexample for a whole class of inputs.", "anchors": ["src/c/pscm_api.cc: pscm_eval, pscm_eval_string, pscm_eval_file", "src/c/error.cc: scm_api_catch_handler", "src/c/throw.cc: scm_c_catch"]}
{"id": "C165", "title": "Symbols with any name", "statement": "Symbols are eq? exactly if their names are equal, and no symbol a program text can contain is one that gensym returns, however many it has returned.", "quantifier": "every name and text, any number of calls", "why_tests_cant": "Must hold for every program; the code breaks it, and the theorem is a counterexample for a whole class of inputs.", "anchors": ["src/c/symbol.cc: scm_c_gensym, scm_c_symbol_to_string, scm_c_string_to_symbol", "src/c/parse.cc: parse_symbol"]}
{"id": "C166", "title": "Any exit code, any file", "statement": "(exit n) for 0 <= n <= 255 ends the process with status n, and any other argument is an error or non-zero; load accepts a file without forms.", "quantifier": "every argument of exit and every file", "why_tests_cant": "Must hold for every program; the code breaks it, and the theorem is a counterexample for a whole class of inputs.", "anchors": ["src/c/load.cc: scm_c_primitive_load, scm_eval_expression_list", "src/c/exit.cc: scm_c_exit"]}
{"id": "C167", "title": "cond clauses with only a test, dotted case keys", "statement": "cond runs the body of the first clause whose test is not #f; a clause with only a test returns the test's value; a clause with => calls the receiver on the value; case with a dotted key in a clause matches that datum only.", "quantifier": "every clause list", "why_tests_cant": "Must hold for every program; the code breaks it, and the theorem is a counterexample for a whole class of inputs.", "anchors": ["src/c/cond.cc", "src/c/case.cc"]}
{"id": "C168", "title": "for-each on every list", "statement": "(for-each f l ...) calls f on every row in order.", "quantifier": "every list of lists", "why_tests_cant": "Must hold for every program; the code breaks it, and the theorem is a counterexample for a whole class of inputs.", "anchors": ["src/c/map.cc", "src/c/for_each.cc"]}
{"id": "C169", "title": "Modules can redefine global names", "statement": "A variable reference sees the innermost lexical binding, then the module of the defining environment, then the current module, then the global table, in operand and in operator position.", "quantifier": "every environment, module and name", "why_tests_cant": "Must hold for every program; the code breaks it, and the theorem is a counterexample for a whole class of inputs.", "anchors": ["src/c/environment.cc: scm_env_search", "src/c/module.cc: module_search_variable"]}
{"id": "C170", "title": "Parity, max and min of every integer", "statement": "odd?, even?, max and min agree with the mathematical notion on every exact integer; max/min return an exact integer for exact arguments and the largest/smallest value otherwise.", "quantifier": "all 64-bit integers, all argument lists", "why_tests_cant": "Must hold for every program; the code breaks it, and the theorem is a counterexample for a whole class of inputs.", "anchors": ["src/c/number.cc: scm_c_is_odd, scm_c_is_even, scm_c_max, scm_c_min"]}
{"id": "C171", "title": "Case-insensitive order of every string", "statement": "string-ci<? etc. agree with the case-sensitive comparison of the upper-cased strings.", "quantifier": "every pair of byte strings", "why_tests_cant": "Must hold for every program; the code breaks it, and the theorem is a counterexample for a whole class of inputs.", "anchors": ["src/c/string.cc: scm_c_string_ci_lt and family"]}
{"id": "C172", "title": "Evaluation errors say what and where", "statement": "An error raised during evaluation has as text the place of the evaluation and the first 1023 bytes of the message; a type error's message names the place of the datum, what was expected, the type found and where it was evaluated; no file name or message overruns a buffer.", "quantifier": "every datum, evaluation context, file name and message", "why_tests_cant": "The domain is unbounded (or 2^64 wide); tests sample a handful of points and miss the boundary that matters.", "anchors": ["src/c/error.cc: type_error, eval_error, push_eval_stack, pop_eval_stack, print_eval_stack", "src/c/source_location.cc: get_source_location_str", "src/c/eval.cc: eval_with_env"]}
{"id": "C173", "title": "An error names each place once", "statement": "The text of a type error names each place once, and different places have different texts.", "quantifier": "every datum, evaluation context and file name", "why_tests_cant": "Must hold for every program; the code breaks it, and the theorem is a counterexample for a whole class of inputs.", "anchors": ["src/c/error.cc: type_error, eval_error, push_eval_stack, pop_eval_stack, print_eval_stack", "src/c/source_location.cc: get_source_location_str", "src/c/eval.cc: eval_with_env"]}
{"id": "C174", "title": "The call stack in an error report", "statement": "Whatever happens, the call stack that is kept has at most 100 entries and its report lists the 20 innermost with their places and texts (long texts cut at 200 bytes) and the number of the others; if no evaluation has been left by a throw or a continuation, expressions are located and nest at most 100 deep, it is exactly the list of the evaluations going on; and the place an error is reported at is that of the innermost evaluation, at any depth.", "quantifier": "every history of evaluations, returns, throws and continuation calls", "why_tests_cant": "The domain is unbounded (or 2^64 wide); tests sample a handful of points and miss the boundary that matters.", "anchors": ["src/c/error.cc: type_error, eval_error, push_eval_stack, pop_eval_stack, print_eval_stack", "src/c/source_location.cc: get_source_location_str", "src/c/eval.cc: eval_with_env"]}
{"id": "C175", "title": "The call stack after any history", "statement": "The call stack reported is the list of the evaluations going on, and errors are reported at the innermost, whatever has been evaluated, thrown and caught before.", "quantifier": "every history of evaluations, returns, throws and continuation calls", "why_tests_cant": "Must hold for every program; the code breaks it, and the theorem is a counterexample for a whole class of inputs.", "anchors": ["src/c/error.cc: type_error, eval_error, push_eval_stack, pop_eval_stack, print_eval_stack", "src/c/source_location.cc: get_source_location_str", "src/c/eval.cc: eval_with_env"]}
{"id": "C176", "title": "Locations of expanded code", "statement": "If no operand of a macro call stands at its own position in the expansion, expanding is free of memory errors, the expansion gets the place of the call, its parts keep their places or get those of parts of the call, and nothing else changes place; if the expansion shares nothing with the call, exactly the parts that stand opposite to a part of the call get its place. Setting and copying single locations is exact. Over any history of reading, such expansions, taking lists apart and collecting garbage, no file name is freed twice or read after it was freed.", "quantifier": "every call, expansion and history", "why_tests_cant": "The domain is unbounded (or 2^64 wide); tests sample a handful of points and miss the boundary that matters.", "anchors": ["src/c/source_location.cc: set_source_location, copy_source_location, copy_source_location_recursive", "src/c/macro.cc: expand_macro_call", "src/c/pscm.h: cdr, cadr, caddr, cadddr", "src/c/gc.cc: sweep_scm"]}
{"id": "C177", "title": "Locations of expanded code for all macros", "statement": "Expanding a macro is free of memory errors whatever the macro returns, operands keep their places, and every expansion to a constant is at the place of its own call.", "quantifier": "every call and expansion", "why_tests_cant": "Must hold for every program; the code breaks it, and the theorem is a counterexample for a whole class of inputs.", "anchors": ["src/c/source_location.cc: set_source_location, copy_source_location, copy_source_location_recursive", "src/c/macro.cc: expand_macro_call", "src/c/pscm.h: cdr, cadr, caddr, cadddr", "src/c/gc.cc: sweep_scm"]}
{"id": "C178", "title": "Calls from C++ code", "statement": "Calling a procedure from C++ with scm_call_0 ... scm_call_3 or scm_apply_0 on arguments that are neither symbols nor non-empty lists binds its parameters to them and evaluates its body in its own scope; calling a primitive passes it the arguments as they are; scm_apply_0 on a list is the call on its elements, on anything that is no list an error; calling what is no procedure is an error.", "quantifier": "every procedure, primitive, argument list and state", "why_tests_cant": "The domain is unbounded (or 2^64 wide); tests sample a handful of points and miss the boundary that matters.", "anchors": ["src/c/apply.cc: scm_call_0, scm_call_1, scm_call_2, scm_call_3, scm_apply_0", "src/c/eval.cc: apply_procedure", "src/c/function.cc: eval_with_func"]}
{"id": "C179", "title": "Calls from C++ code with any argument", "statement": "A procedure called from C++ receives exactly the values passed, and every procedure can be called.", "quantifier": "every argument", "why_tests_cant": "Must hold for every program; the code breaks it, and the theorem is a counterexample for a whole class of inputs.", "anchors": ["src/c/apply.cc: scm_call_0, scm_call_1, scm_call_2, scm_call_3, scm_apply_0", "src/c/eval.cc: apply_procedure", "src/c/function.cc: eval_with_func"]}
{"id": "C180", "title": "macroexpand and defined?", "statement": "macroexpand-1 on a call of a top-level macro gives the value of its transformer on the operands, without evaluating it, and returns anything else unchanged; macroexpand gives y exactly if y is reached by expanding again and again and is no macro call any more; if an expansion is a form without macro calls, evaluating the macro call is evaluating the expansion; defined? answers #t exactly for symbols that a reference at the top level resolves.", "quantifier": "every macro, operand list, datum and state", "why_tests_cant": "The domain is unbounded (or 2^64 wide); tests sample a handful of points and miss the boundary that matters.", "anchors": ["src/c/macro.cc: scm_c_macroexpand_1, scm_c_macroexpand, expand_macro_call, expand_macros", "src/c/eval.cc: scm_c_defined, eval_with_env"]}
{"id": "C181", "title": "A macro call means its expansion", "statement": "Evaluating a call of a macro gives what evaluating its expansion gives, whatever the expansion is.", "quantifier": "every macro and expansion", "why_tests_cant": "Must hold for every program; the code breaks it, and the theorem is a counterexample for a whole class of inputs.", "anchors": ["src/c/macro.cc: scm_c_macroexpand_1, scm_c_macroexpand, expand_macro_call, expand_macros", "src/c/eval.cc: scm_c_defined, eval_with_env"]}
{"id": "C182", "title": "Builtins are called as declared", "statement": "Every builtin but current-module: with a fixed number of parameters it is called on exactly the arguments given if their number is right, and otherwise not called, and wrong-number-of-args is thrown; + and * fold from the left, starting with 0 and 1; all others get any number of arguments as a list. No C function is called through a pointer of another type. Every name means, at the start, the function registered under it, and no other name is bound. A function registered from C++ with at most three required arguments is called in the same way.", "quantifier": "every builtin and every argument list", "why_tests_cant": "The domain is unbounded (or 2^64 wide); tests sample a handful of points and miss the boundary that matters.", "anchors": ["src/c/function.cc: eval_with_func", "src/c/pscm.h: scm_define_function, scm_define_generic_function, scm_define_vararg_function, reduce", "src/c/module.cc: scm_c_define_gsubr", "src/c/init.cc: init_scm and all init_ functions"]}
{"id": "C183", "title": "Every registered function is called as declared", "statement": "Each function registered, by the interpreter or with scm_c_define_gsubr (name, required, optional, rest), is called with one argument for each parameter its declaration has.", "quantifier": "every registration and argument list", "why_tests_cant": "Must hold for every program; the code breaks it, and the theorem is a counterexample for a whole class of inputs.", "anchors": ["src/c/function.cc: eval_with_func", "src/c/pscm.h: scm_define_function, scm_define_generic_function, scm_define_vararg_function, reduce", "src/c/module.cc: scm_c_define_gsubr", "src/c/init.cc: init_scm and all init_ functions"]}
{"id": "C184", "title": "Module functions for C++ code", "statement": "Looking up a name in a module gives a variable that holds what code in the module sees under the name, and changes nothing; a name without binding is an error. Defining a name, in a given or in the current module, changes that binding and nothing else. A function called in a module runs with it as the current module, which is restored when the function returns; so does the initialiser of scm_c_define_module, and a module that exists is not made or loaded again. Using a module makes visible to the current module, and to no other, what the module shows.", "quantifier": "every module state of a session, every name, value and function of the C++ program", "why_tests_cant": "The domain is unbounded (or 2^64 wide); tests sample a handful of points and miss the boundary that matters.", "anchors": ["src/c/module.cc: scm_c_define, scm_c_module_lookup, scm_c_module_define, scm_module_lookup, scm_module_define, scm_c_call_with_current_module, scm_c_define_module, scm_c_use_module", "src/c/variable.cc: scm_make_variable, scm_variable_ref, scm_variable_set_x"]}
{"id": "C185", "title": "C++ code: scoped current module, live variables", "statement": "The current module is restored also if the called function or initialiser ends with an error, and the variable that looking up or defining a name returns is the variable of that name: setting it is seen by the module, and defining the name again is seen through it.", "quantifier": "every function, module and name", "why_tests_cant": "Must hold for every program; the code breaks it, and the theorem is a counterexample for a whole class of inputs.", "anchors": ["src/c/module.cc: scm_c_define, scm_c_module_lookup, scm_c_module_define, scm_module_lookup, scm_module_define, scm_c_call_with_current_module, scm_c_define_module, scm_c_use_module", "src/c/variable.cc: scm_make_variable, scm_variable_ref, scm_variable_set_x"]}
{"id": "C186", "title": "Programs as shared list nodes", "statement": "Whatever nodes an expression is made of, and whatever else refers to them, evaluating it gives the value, variables, modules and output that its written form determines, as long as no list that has a function object in front is itself evaluated as code. In every run, with any heap and however it ends, no element of an existing list is replaced, and no link between nodes either except out of a node that holds a function object; so an expression as the reader makes it is the same expression after any evaluation.", "quantifier": "every program of the core language, every heap with any sharing, every state, also runs that end in an error", "why_tests_cant": "The domain is unbounded (or 2^64 wide); tests sample a handful of points and miss the boundary that matters.", "anchors": ["src/c/eval.cc: eval_with_env, eval_list_with_env, eval_with_list, eval_set, eval_lambda, eval_if, eval_and, eval_or", "src/c/let.cc: expand_let, expand_letstar, expand_letrec", "src/c/define.cc: eval_define", "src/c/procedure.cc: apply_procedure", "src/c/function.cc: eval_with_func"]}
{"id": "C187", "title": "Evaluation leaves the expression alone", "statement": "Evaluating an expression does not change it, so evaluating it again, in the same state, does the same.", "quantifier": "every expression object, also one built by a program with function objects in it", "why_tests_cant": "Must hold for every program; the code breaks it, and the theorem is a counterexample for a whole class of inputs.", "anchors": ["src/c/eval.cc: eval_with_env, eval_list_with_env, eval_with_list, eval_set, eval_lambda, eval_if, eval_and, eval_or", "src/c/let.cc: expand_let, expand_letstar, expand_letrec", "src/c/define.cc: eval_define", "src/c/procedure.cc: apply_procedure", "src/c/function.cc: eval_with_func"]}
{"id": "C188", "title": "Inexact arithmetic", "statement": "From the first inexact argument on, +, -, *, / work from left to right with the IEEE double operation on the arguments as doubles (exact integers before it are added or multiplied exactly and rounded once); dividing an inexact number by zero is an error; =, <, >, <=, >= with inexact numbers are the IEEE relations between all neighbours.", "quantifier": "all doubles including infinities, NaN and both zeros, argument lists of any length mixed with integers and ratios", "why_tests_cant": "The domain is unbounded (or 2^64 wide); tests sample a handful of points and miss the boundary that matters.", "anchors": ["src/c/number.cc: scm_c_add_number, scm_c_minus_wrapper, scm_c_mul_number, scm_c_div, scm_c_eq_chain, scm_c_lt_chain, scm_c_gt_chain, scm_c_le_chain, scm_c_ge_chain, scm_c_abs, scm_c_expt", "src/c/pscm.h: scm_to_double"]}
{"id": "C189", "title": "Operands that are not numbers", "statement": "+, *, -, / and the comparisons raise an error when an operand is not a number.", "quantifier": "every operand of any type, argument lists of any length", "why_tests_cant": "Must hold for every program; the code breaks it, and the theorem is a counterexample for a whole class of inputs.", "anchors": ["src/c/number.cc: scm_c_add_number, scm_c_minus_wrapper, scm_c_mul_number, scm_c_div, scm_c_eq_chain, scm_c_lt_chain, scm_c_gt_chain, scm_c_le_chain, scm_c_ge_chain, scm_c_abs, scm_c_expt", "src/c/pscm.h: scm_to_double"]}
{"id": "C190", "title": "Division by zero", "statement": "(/ a b ...) raises an error whenever one of the divisors is zero, exact or inexact.", "quantifier": "all numbers, argument lists of any length", "why_tests_cant": "Must hold for every program; the code breaks it, and the theorem is a counterexample for a whole class of inputs.", "anchors": ["src/c/number.cc: scm_c_add_number, scm_c_minus_wrapper, scm_c_mul_number, scm_c_div, scm_c_eq_chain, scm_c_lt_chain, scm_c_gt_chain, scm_c_le_chain, scm_c_ge_chain, scm_c_abs, scm_c_expt", "src/c/pscm.h: scm_to_double"]}
{"id": "C191", "title": "abs and expt of every number", "statement": "(abs x) is the absolute value of every 64-bit integer but the smallest; abs and expt give a number or an error for every number.", "quantifier": "all numbers", "why_tests_cant": "Must hold for every program; the code breaks it, and the theorem is a counterexample for a whole class of inputs.", "anchors": ["src/c/number.cc: scm_c_add_number, scm_c_minus_wrapper, scm_c_mul_number, scm_c_div, scm_c_eq_chain, scm_c_lt_chain, scm_c_gt_chain, scm_c_le_chain, scm_c_ge_chain, scm_c_abs, scm_c_expt", "src/c/pscm.h: scm_to_double"]}
{"id": "C192", "title": "Texts of integers", "statement": "In every radix from 2 to 36, string->number takes for an integer exactly: blanks, an optional sign, in radix 16 an optional 0x, one or more digits of the radix in either case, and the end of the string or a null character; the value is the one denoted, or the nearest 64-bit integer. Every other text gives #f (texts with . or e in radix 10 are read as inexact numbers); another radix is an error.", "quantifier": "all strings of any bytes and length, all radices", "why_tests_cant": "The domain is unbounded (or 2^64 wide); tests sample a handful of points and miss the boundary that matters.", "anchors": ["src/c/string.cc: scm_c_string_to_number"]}
{"id": "C193", "title": "string->number and what is not a number", "statement": "string->number gives an integer only for a text that is a sign and digits, and then the integer that the text denotes.", "quantifier": "all strings", "why_tests_cant": "Must hold for every program; the code breaks it, and the theorem is a counterexample for a whole class of inputs.", "anchors": ["src/c/string.cc: scm_c_string_to_number"]}
{"id": "C194", "title": "call/cc under another name", "statement": "call/cc is a procedure: a variable bound to it can be called in its place.", "quantifier": "all receivers, all environments in which a variable other than a keyword is bound to call/cc, all stores", "why_tests_cant": "Must hold for every program; the code breaks it, and the theorem is a counterexample for a whole class of inputs.", "anchors": ["src/c/eval.cc: eval_with_env (call of a function object named call/cc)", "src/c/continuation.cc: init_continuation"]}
{"id": "C195", "title": "R5RS argument counts", "statement": "A procedure of R5RS that is bound at the start can be called with every number of arguments that R5RS allows; where R5RS fixes the number, another one throws wrong-number-of-args and the function is not called.", "quantifier": "all procedures of R5RS chapter 6 that are bound (eval, call/cc and two port procedures excepted), all argument lists", "why_tests_cant": "The domain is unbounded (or 2^64 wide); tests sample a handful of points and miss the boundary that matters.", "anchors": ["src/c/function.cc: eval_with_func", "src/c/*.cc: the init functions"]}
{"id": "C196", "title": "All R5RS procedures", "statement": "Every procedure of R5RS is bound at the start and can be called as R5RS says.", "quantifier": "all procedures of R5RS chapter 6", "why_tests_cant": "Must hold for every program; the code breaks it, and the theorem is a counterexample for a whole class of inputs.", "anchors": ["src/c/*.cc: the init functions"]}
{"id": "C197", "title": "Printing smobs", "statement": "A smob without a print function of its own is written as #<name data>: the registered name and the data stored last, a decimal number for types of size 0 and an address otherwise; an installed print function is called on the smob instead.", "quantifier": "all histories of registrations, installations, creations and stores; all smobs", "why_tests_cant": "The domain is unbounded (or 2^64 wide); tests sample a handful of points and miss the boundary that matters.", "anchors": ["src/c/print.cc: _print_ast_with_context (smob case)", "src/c/smob.cc: default_smob_print"]}
{"id": "C198", "title": "Smobs as operators", "statement": "A smob in operator position with n operands, n at most 3, calls the apply function installed for n on the smob and the values of the operands, evaluated from left to right; without such a function the call is an error and no operand is evaluated.", "quantifier": "all histories, all smobs, all operand lists, all evaluation behaviours of the operands", "why_tests_cant": "The domain is unbounded (or 2^64 wide); tests sample a handful of points and miss the boundary that matters.", "anchors": ["src/c/eval.cc: eval_with_env (smob case)", "src/c/smob.cc: scm_set_smob_apply"]}
{"id": "C199", "title": "Inexact literals", "statement": "A numeral with a decimal point or an exponent reads as the double obtained from its digits with one IEEE division for the fraction, one addition and one multiplication or division for the exponent, all integers and powers of ten involved being exact; numerals below 1 without an exponent, and integers followed by a point and zeros, are rounded only once.", "quantifier": "all signs, all integer parts of 64 bits, all fractions of up to 22 digits whose digits form a number below 2^53, all exponents up to 22, all following texts", "why_tests_cant": "The domain is unbounded (or 2^64 wide); tests sample a handful of points and miss the boundary that matters.", "anchors": ["src/c/parse.cc: parse_number"]}
{"id": "C200", "title": "A literal is the nearest double", "statement": "Every decimal literal reads as the double nearest to its decimal value. Does not hold: 1.14 and 2.28 read as doubles that are not nearest, a zero with an exponent of 309 or more and fractions of 310 or more digits read as NaN, and an exponent of -310 gives zero for values that doubles can express.", "quantifier": "all decimal literals", "why_tests_cant": "Must hold for every program; the code breaks it, and the theorem is a counterexample for a whole class of inputs.", "anchors": ["src/c/parse.cc: parse_number"]}
{"id": "C201", "title": "Display, and the shape of written data", "statement": "Display sends the bytes of a string and of a character as they are, shows other atoms as write does, and shows a vector as its displayed elements between #( and ) with single spaces; write shows a list as its written elements between parentheses with single spaces and a dot before an improper tail.", "quantifier": "all data", "why_tests_cant": "The domain is unbounded (or 2^64 wide); tests sample a handful of points and miss the boundary that matters.", "anchors": ["src/c/print.cc: _print_ast_with_context", "src/c/print.cc: _print_list"]}
{"id": "C202", "title": "Display inside lists, and strings with NUL", "statement": "Display shows the strings and characters inside a list without quotes, and all bytes of a string. Does not hold: a non-empty list is displayed exactly as it is written, and a string is displayed only up to its first NUL.", "quantifier": "all lists, all strings", "why_tests_cant": "Must hold for every program; the code breaks it, and the theorem is a counterexample for a whole class of inputs.", "anchors": ["src/c/print.cc: _print_ast_with_context", "src/c/print.cc: _print_list"]}
{"id": "C203", "title": "Complaints about stray bytes", "statement": "A text in which the first byte after blanks and comments cannot begin a datum is rejected with a message that quotes that byte and its code in hexadecimal (only the code, if the byte is not visible), at the line and column of that byte, whatever follows it; a text without any datum is reported as lacking an expression when one is required.", "quantifier": "all layouts, all such bytes, all following texts, all file names", "why_tests_cant": "The domain is unbounded (or 2^64 wide); tests sample a handful of points and miss the boundary that matters.", "anchors": ["src/c/parse.cc: parse_expr", "src/c/parse.cc: parse_error"]}
{"id": "C204", "title": "Objects in the interpreter's variables survive", "statement": "In a process that is initialised once, an object held by the current module, the module registry, the wind chain, a current port, the end-of-file object, the error key, the expression being evaluated or a shared constant survives every collection unchanged: all these variables are registered as roots, once, and the registry does not fill up.", "quantifier": "all orders in which constants are first used, all heap histories, all collections", "why_tests_cant": "The domain is unbounded (or 2^64 wide); tests sample a handful of points and miss the boundary that matters.", "anchors": ["src/c/gc.cc: gc_register_root", "src/c/init.cc: init_scm", "src/c/symbol.cc: DEFINE_SCM_SINGLETON"]}
{"id": "C205", "title": "C values and back", "statement": "Booleans, ints, chars and doubles converted to Scheme objects come back unchanged; a string or symbol made from n bytes, or from a C string, holds exactly those bytes; a Scheme string is handed out with all its bytes, or as a C string if it contains no NUL and otherwise as an error; null pointers and non-strings are errors.", "quantifier": "all values, all buffers, all lengths below 2^31", "why_tests_cant": "The domain is unbounded (or 2^64 wide); tests sample a handful of points and miss the boundary that matters.", "anchors": ["src/c/pscm.h: scm_to_int, scm_to_double, scm_to_char", "src/c/string.cc: scm_from_locale_stringn, scm_to_locale_stringn", "src/c/symbol.cc: scm_from_locale_symboln"]}
{"id": "C206", "title": "Conversions that lose the value", "statement": "A conversion to a C value that cannot represent the object reports an error. Does not hold: an integer outside int wraps around, a non-number converts to the double 0, a non-character to NUL, and a string length of 2^32+n makes a string of n bytes.", "quantifier": "all objects, all lengths", "why_tests_cant": "Must hold for every program; the code breaks it, and the theorem is a counterexample for a whole class of inputs.", "anchors": ["src/c/pscm.h: scm_to_int, scm_to_double, scm_to_char", "src/c/string.cc: scm_from_locale_stringn"]}
{"id": "C207", "title": "Binders, module-use! and module-map", "statement": "A lookup in a module finds its own names, those of its used interfaces and the root module's without a binder; otherwise the binder set last in that module is called with the module and the name, a variable it returns stands for its value and #f for no answer. No lookup calls a binder with another name or of another module; while a binder runs none is called; a binder that defines the name is not asked for it again; without autoloads every lookup ends after at most one call; as long as no binder ended with an error every unbound name reaches its module's binder. module-use! shows the used interface after the module's own names and before older uses, and changes no other module. module-map calls the procedure once for each binding of the module with its name and value, and the results are in the order of the calls.", "quantifier": "all worlds, all binders (any sequence of lookups, definitions and uses, then an answer or an error), all histories of calls", "why_tests_cant": "The domain is unbounded (or 2^64 wide); tests sample a handful of points and miss the boundary that matters.", "anchors": ["src/c/module.cc: module_search_variable, scm_c_set_module_binder, scm_c_module_use, scm_c_module_map"]}
{"id": "C208", "title": "Binders stay in service", "statement": "A binder that ends with an error is asked again at the next lookup, and a name that one binder looks up in another module reaches the other module's binder. Does not hold: the guard against recursion is not reset when an error leaves a binder, so that no binder of any module is called any more, and it also suppresses the binders of other modules.", "quantifier": "all worlds, all histories after the error", "why_tests_cant": "Must hold for every program; the code breaks it, and the theorem is a counterexample for a whole class of inputs.", "anchors": ["src/c/module.cc: module_search_variable"]}
{"id": "C209", "title": "Evaluation agrees with a natural semantics", "statement": "A program without continuations has the value, the uncaught throw and the memory (list cells and environments) that a big-step semantics gives it, whatever the C stack does: the evaluator neither loses nor invents a result, reaches no undefined behaviour and no failed assert. The semantics covers variables, if, set!, define, lambda with rest parameters, begin, calls of closures and primitives with their errors, catch and throw, dynamic-wind (whose last guard is not run when the thunk throws), map and for-each (which takes an element () for the end of the list). An expression evaluated inside any C stack, with any continuations captured and any catches active, returns its value to the function that asked for it; a throw leaves the catches that were active, in the same order. A throw whose key no active catch takes ends the process there, and every catch around it is skipped. Conversely, a program that ends, captures no continuation and throws only what its innermost catch or no catch takes has that value or throw, and that memory, in the semantics. The semantics gives a program one outcome at most.", "quantifier": "all programs of the core forms, all C stacks, all memories; programs whose evaluation ends", "why_tests_cant": "The domain is unbounded (or 2^64 wide); tests sample a handful of points and miss the boundary that matters.", "anchors": ["src/c/eval.cc: eval_with_env, eval_list_with_env", "src/c/procedure.cc: apply_procedure", "src/c/throw.cc: scm_c_catch, scm_throw", "src/c/dynwind.cc: eval_dynamic_wind", "src/c/map.cc: eval_map", "src/c/for_each.cc: eval_for_each"]}
{"id": "C210", "title": "Collections are paced", "statement": "After a collection the collector's live count is the number of bytes (headers included) of exactly the blocks that were not freed, which for a program without stale pointers are the reachable ones; the next collection is due once one and a half times that many bytes, but at least 2 MiB, have been requested. An allocation before then frees, marks and changes nothing else; one at or after it is a collection followed by an allocation. So the allocator starts at most one collection for every 2 MiB requested, and never lets the bytes requested since the last one exceed the threshold by a whole block.", "quantifier": "all histories of allocations, writes and collections, all roots, all sizes", "why_tests_cant": "The domain is unbounded (or 2^64 wide); tests sample a handful of points and miss the boundary that matters.", "anchors": ["src/c/gc.cc: gc_alloc, sweep_phase, run_gc"]}
{"id": "C211", "title": "Bounded live data, bounded heap", "statement": "However long a program runs and however much it allocates: if what survives each collection is at most some number of bytes, the number and the size of the heap segments ever mapped are bounded by that number alone. With up to 15 MiB of surviving objects the table of 64 segments is never full, so allocation does not fail while the operating system provides memory; with up to 1 MiB the heap never has more than nine segments.", "quantifier": "all histories, of any length, of allocations of the program's structs, writes and collections; all limits on the surviving bytes", "why_tests_cant": "The domain is unbounded (or 2^64 wide); tests sample a handful of points and miss the boundary that matters.", "anchors": ["src/c/gc.cc: gc_alloc, bump_allocate, sweep_phase"]}
{"id": "C212", "title": "Programs of integer functions compute what their equations say", "statement": "A host that hands the text of function definitions and then of expressions to pscm_eval_string, one call each, gets back, in order, exactly the integers that the defining equations give (literals, variables, + - * quotient remainder modulo, if on a comparison, let, calls of functions that may be recursive and mutually recursive; a function sees its parameters and nothing of its caller). Where the equations divide by zero, name something unbound or give a wrong number of operands, that call returns NULL, the last error key is error, and later expressions are answered as if nothing had happened. The same texts in one file given to pscm_eval_file answer the value of the last expression.", "quantifier": "all programs of that language, all names and literals the reader accepts, all sessions of expressions, all recursion depths, any initialised interpreter state; values and intermediate results below 2^63 in absolute value", "why_tests_cant": "The domain is unbounded (or 2^64 wide); tests sample a handful of points and miss the boundary that matters.", "anchors": ["src/c/pscm_api.cc: pscm_eval_string, pscm_eval_file; parse.cc: parse; eval.cc: eval_with_env; procedure.cc: apply_procedure; let.cc: expand_let; define.cc: eval_define; number.cc"]}
{"id": "C213", "title": "The square root of every number is the nearest double", "statement": "(sqrt x) signals an error when x is not a number and exactly when a number is below zero; otherwise it answers with an inexact number, never an exact one. For every integer, ratio and float above zero no double is closer to the real square root than the answer (for an integer or ratio: the root of the double it is converted to); a zero of either sign, positive infinity and NaN are their own roots. An exact square k*k, even above 2^53, has exactly the root k.", "quantifier": "every 64-bit integer, every ratio of 64-bit integers, every double; all non-numbers", "why_tests_cant": "The domain is unbounded (or 2^64 wide); tests sample a handful of points and miss the boundary that matters.", "anchors": ["src/c/number.cc: scm_c_sqrt; pscm.h: scm_to_double"]}
{"id": "C214", "title": "Only answers of the program's meaning, and silence without one", "statement": "Load a program of integer functions and ask for values, as in C212. Whenever all the calls of pscm_eval_string return, the answers are exactly those of the program's equations (NULL for a division by zero, an unbound variable or a wrong argument count), unless an expression comes to an integer outside 63 bits, everything before it having been answered by the equations. An expression to which the equations give no value, and which does not come to such an integer -- (f 7) after (define (f x) (f x)) -- is never answered: the call does not return, not even with an error, however deep the stack, although everything before it has been answered.", "quantifier": "every program and sequence of expressions of the language of C212 whose names are bound or unbound statically, every depth of the C stack, every environment with the operators bound", "why_tests_cant": "The domain is unbounded (or 2^64 wide); tests sample a handful of points and miss the boundary that matters.", "anchors": ["src/c/eval.cc: eval_with_env, eval_if, eval_lambda; procedure.cc: apply_procedure; pscm_api.cc: pscm_eval_string"]}
{"id": "C215", "title": "Procedures are values that keep the variables of where they were written", "statement": "A program may pass procedures to procedures, return them, bind them by let and call whatever an expression evaluates to. Loading its definitions and then asking for expressions, one call of pscm_eval_string each, gives the values of the lexical rules, in order: a procedure's body sees its parameters and the variables that were visible where its lambda was written -- never those of its caller -- a variable hides a top-level function of the same name, and a top-level procedure may call itself and the others through its name. ((adder 3) n) where (define (adder n) (lambda (x) (+ x n))) is called under another n answers with the 3. The rules give every expression at most one value.", "quantifier": "every program and sequence of expressions made of integers, variables, + - * quotient remainder modulo, if on = < > <= >=, let, lambda and application, to which the rules give values and 63-bit integers; every sufficiently deep C stack, every environment with the operators bound", "why_tests_cant": "The domain is unbounded (or 2^64 wide); tests sample a handful of points and miss the boundary that matters.", "anchors": ["src/c/eval.cc: eval_with_env, eval_if, eval_lambda, lookup_symbol; procedure.cc: apply_procedure; environment.cc: search; pscm_api.cc: pscm_eval_string"]}
{"id": "C216", "title": "Errors of programs with procedures as values", "statement": "As C215, when some expressions stop in an error. An expression that, evaluated from left to right, meets a variable without a meaning, divides by zero, calls an integer on operands, or calls a procedure with a number of operands that is not its own is answered NULL, and the session goes on: the expressions after it get their values. Of a call with too many operands only as many are evaluated as the procedure has parameters; the operands of a call of an integer are not evaluated; a procedure that fails does so where it is called, not where it was made. The error symbol stays pending. No expression has both a value and an error.", "quantifier": "every program and sequence of expressions of the language of C215 to each of which the rules give a value or an error; every sufficiently deep C stack, every environment with the operators bound", "why_tests_cant": "The domain is unbounded (or 2^64 wide); tests sample a handful of points and miss the boundary that matters.", "anchors": ["src/c/eval.cc: eval_with_env, eval_if, eval_lambda, lookup_symbol; procedure.cc: apply_procedure; throw.cc: scm_throw, scm_c_catch; pscm_api.cc: pscm_eval_string"]}
{"id": "C217", "title": "Only answers of the rules for procedures as values, and silence without one", "statement": "As C215 and C216, the other way round. Whenever every call of pscm_eval_string of such a session returns, however deep the C stack was, the answers are the values and errors the rules give, unless one of the expressions, everything before it having been answered by the rules, comes to an operation whose result does not fit in 63 bits, to arithmetic or a comparison on a procedure, or to an integer called on no operands. An expression to which the rules give neither a value nor an error, and which comes to none of these, is never answered, at any depth of the C stack, and the expressions before it are. ((lambda (x) (x x)) (lambda (x) (x x))) is one. No answer of the rules belongs to an expression that comes to one of these.", "quantifier": "every program and sequence of expressions of the language of C215 whose variables are bound where they stand, are top-level functions, or have no meaning at all; every depth of the C stack; every environment with the operators bound", "why_tests_cant": "The domain is unbounded (or 2^64 wide); tests sample a handful of points and miss the boundary that matters.", "anchors": ["src/c/eval.cc: eval_with_env, eval_if, eval_lambda, lookup_symbol; procedure.cc: apply_procedure; throw.cc: scm_throw, scm_c_catch; pscm_api.cc: pscm_eval_string"]}
{"id": "C218", "title": "Files of programs with procedures as values", "statement": "As C215 to C217, for one file with the definitions and then the expressions, separated by spaces, given to pscm_eval_file. If the rules give every expression a value or an error, the call returns (given a deep enough C stack) what belongs to the last expression: its integer, some procedure, or NULL for an error; errors of earlier expressions do not stop the file, but leave the error symbol pending. Whatever the call answers, at any depth, is that, unless an expression, everything before it having a result, leaves what the rules speak about. A file with an expression that has no result at all and does not leave the rules is never finished, at any depth of the C stack, whatever follows it.", "quantifier": "every program and non-empty sequence of expressions of the language of C215; every depth of the C stack; every environment with the operators bound", "why_tests_cant": "The domain is unbounded (or 2^64 wide); tests sample a handful of points and miss the boundary that matters.", "anchors": ["src/c/pscm_api.cc: pscm_eval_file, pscm_eval; parse.cc: parse_file; eval.cc: eval_with_env; procedure.cc: apply_procedure; throw.cc: scm_throw, scm_c_catch"]}
{"id": "C219", "title": "Tail calls and the C stack", "statement": "A loop written as a tail call runs in a bounded C stack, however many iterations it makes. Does not hold: apply_procedure evaluates the body in a new frame of eval_with_env and returns only when the body has, so that a tail call is nested like any other. After loading (define (loop k) (if (= k 0) 0 (loop (- k 1)))) the expression (loop k) is answered, by 0, exactly when the C stack has room for k + 4 nested calls of eval_with_env. What holds: the branches of an if, however deeply nested, are evaluated in the frame of the if. Counting frames this way gives every program the outcome that the evaluator of the other claims gives it.", "quantifier": "all iteration counts a fixnum can hold, all depths of the C stack, all integer primitives; for the last sentence all programs, environments and states", "why_tests_cant": "The domain is unbounded (or 2^64 wide); tests sample a handful of points and miss the boundary that matters.", "anchors": ["src/c/eval.cc: eval_with_env, eval_if, eval_with_list; procedure.cc: apply_procedure"]}
