{"id": "C01", "title": "Integer literals and results are stored exactly or wrapped to 63 bits", "statement": "Storing any 64-bit integer in a Cordy value and reading it back yields the same integer whenever it lies in [-2^62, 2^62-1], and otherwise the unique integer of that interval congruent to it modulo 2^63.", "quantifier": "every 64-bit integer", "why_tests_cant": "2^64 inputs; the bug class (sign bit lost by the tag shift) sits at two boundaries and in the sign extension", "anchors": ["cordy-sys/src/vm/value/ptr.rs: from_i64, as_precise_int, MIN_INT, MAX_INT"]}
{"id": "C02", "title": "Inline values never get confused with one another", "statement": "nil, both booleans, every integer, every builtin function, every field accessor, every string of at most 7 bytes and every heap pointer are encoded to machine words such that the reported type is the constructor's type, reading the payload back gives the original payload, and two inline values have the same word exactly when they are the same value.", "quantifier": "every pair of inline values and every 4-byte aligned pointer", "why_tests_cant": "the word space is 2^64 and the tags overlap by design (2-bit, 5-bit and 1-bit masks)", "anchors": ["cordy-sys/src/vm/value/ptr.rs: from_*, as_*, ty, is_*"]}
{"id": "C03", "title": "Borrow guards exclude each other", "statement": "Over any sequence of shared/mutable borrow attempts and guard drops on one value, a mutable guard is never outstanding together with any other guard; an attempt succeeds exactly when the outstanding guards allow it, a failed attempt changes nothing, and when all guards are dropped the value is again fully borrowable.", "quantifier": "every finite history of borrow/release events below 2^16-1 simultaneous guards", "why_tests_cant": "histories are unbounded", "anchors": ["cordy-sys/src/vm/value/ptr.rs: Prefix, Lock/borrow state, Ref, RefMut"]}
{"id": "C04", "title": "Heap values are freed exactly once, when the last handle is dropped", "statement": "Over any history of clones and drops of handles to a heap value the value is freed exactly when the number of live handles reaches zero, never earlier and never twice.", "quantifier": "every finite history with fewer than 2^32 simultaneous handles", "why_tests_cant": "unbounded histories", "anchors": ["cordy-sys/src/vm/value/ptr.rs: Clone/Drop for ValuePtr, Prefix::inc/dec"]}
{"id": "C05", "title": "Ranges produce exactly the arithmetic progression they denote", "statement": "range(a,b,s) rejects s = 0 and otherwise iterates over a, a+s, a+2s, ... exactly up to (not including) the first term that reaches or passes b, then stops forever.", "quantifier": "all integers a,b,s in the int range (no 64-bit overflow of the last step)", "why_tests_cant": "infinitely many triples; off-by-one in the stop clamp only shows for non-divisible spans", "anchors": ["cordy-sys/src/vm/value/range.rs: Range::from, Range::next", "cordy-sys/src/core/mod.rs: range dispatch"]}
{"id": "C06", "title": "`x in range` agrees with iterating the range", "statement": "x in range(a,b,s) is true exactly when iterating the range produces x.", "quantifier": "all integers x,a,b,s", "why_tests_cant": "cross product of four integers, signs and divisibility", "anchors": ["cordy-sys/src/vm/value/range.rs: Range::contains"]}
{"id": "C07", "title": "len of a range is the number of elements it iterates", "statement": "len(range(a,b,s)) equals the number of values that iterating it produces.", "quantifier": "all integers a,b,s", "why_tests_cant": "only non-divisible spans break it", "anchors": ["cordy-sys/src/vm/value/range.rs: Range::len"]}
{"id": "C08", "title": "Reversing a range reverses its element sequence", "statement": "reverse(range(a,b,s)) iterates the same values as range(a,b,s) in the opposite order, and rindex_of searches a range from its end.", "quantifier": "all integers a,b,s", "why_tests_cant": "depends on divisibility and on the sign of the step", "anchors": ["cordy-sys/src/vm/value/range.rs: Range::reverse", "cordy-sys/src/core/collections.rs: reverse"]}
{"id": "C09", "title": "Indexing is total, exact and bounds-checked", "statement": "For a sequence of length n, a[i] is the i-th element for 0<=i<n, the (n+i)-th for -n<=i<0, and an index error for every other i; assignment a[i]=v changes exactly that element and nothing else and fails in exactly the same cases.", "quantifier": "every sequence and every integer index", "why_tests_cant": "all lengths and all indices incl. extreme values that wrap when cast to usize", "anchors": ["cordy-sys/src/vm/value/mod.rs: Indexable::check_index", "cordy-sys/src/core/collections.rs: get_index,set_index"]}
{"id": "C10", "title": "Slices select exactly the progression of in-range indices", "statement": "a[lo:hi:step] with step /= 0 returns exactly the elements at lo', lo'+step, ... strictly before hi' (negative bounds counted from the end, omitted bounds meaning the natural ends), skipping indices outside the sequence; step 0 is an error; a[:] = a, a[::-1] = reverse(a), a[:k]+a[k:] = a.", "quantifier": "every sequence, all optional integer bounds and steps", "why_tests_cant": "four unbounded dimensions with sign cases", "anchors": ["cordy-sys/src/core/collections.rs: get_slice, to_index, rev_range", "cordy-sys/src/vm/value/slice.rs"]}
{"id": "C11", "title": "Integer arithmetic is exact modulo the 63-bit wrap", "statement": "For ints (and bools read as 0/1) +, -, *, unary - return the mathematical result wrapped to 63 bits; hence + and * are commutative and associative, * distributes over +, and results that fit are exact.", "quantifier": "all integers", "why_tests_cant": "every operand pair; the intermediate 64-bit computation also wraps", "anchors": ["cordy-sys/src/vm/operator.rs: binary_add, binary_sub, binary_mul, unary_sub"]}
{"id": "C12", "title": "Division and modulo are floored and consistent", "statement": "x / 0 and x % 0 are errors; for y /= 0, x / y is floor(x/y), x % y has the sign of y and absolute value below |y|, and (x / y) * y + x % y = x (up to the 63-bit wrap, which only the quotient MIN / -1 triggers).", "quantifier": "all integer pairs", "why_tests_cant": "sign combinations and extreme values", "anchors": ["cordy-sys/src/vm/operator.rs: binary_div, binary_mod"]}
{"id": "C13", "title": "Power and shifts compute the mathematical operation", "statement": "x ** n for n >= 0 is x^n wrapped to 63 bits and an error for n < 0; x << n is x*2^n wrapped, x >> n is floor(x/2^n), and a negative shift amount shifts the other way.", "quantifier": "all integers x, n", "why_tests_cant": "the shift count is masked and the exponent truncated to 32 bits by the machine operations", "anchors": ["cordy-sys/src/vm/operator.rs: binary_pow, i64_left_shift"]}
{"id": "C14", "title": "Bitwise operators act bitwise and keep booleans boolean", "statement": "& | ^ and unary ! on ints act on every bit of the two's complement representation, on two booleans they return booleans, De Morgan's laws hold, and results never leave the int range.", "quantifier": "all integer and boolean operands", "why_tests_cant": "2^126 pairs", "anchors": ["cordy-sys/src/vm/operator.rs: binary_bitwise_and/or/xor, unary_not"]}
{"id": "C15", "title": "Complex numbers normalise and form a ring", "statement": "Complex arithmetic is componentwise modulo 2^64, a complex result whose imaginary part is zero is always returned as an int (so the two representations never overlap), and floor division by a nonzero complex divides conjugate-multiplied components by the squared norm with flooring.", "quantifier": "all complex and integer operands", "why_tests_cant": "unbounded operand space and a normalisation invariant over all results", "anchors": ["cordy-sys/src/vm/operator.rs: binary_*", "cordy-sys/src/vm/value/number.rs: IntoValue for ComplexType"]}
{"id": "C16", "title": "Equality is an equivalence relation", "statement": "== is reflexive (on values without functions compared by identity), symmetric and transitive for all nested values, values of different kinds are unequal except equal ints and rationals, and != is its negation.", "quantifier": "all finite values of every nesting depth", "why_tests_cant": "structural, unbounded depth", "anchors": ["cordy-sys/src/vm/value/ptr.rs: PartialEq for ValuePtr"]}
{"id": "C17", "title": "Ordering on one kind of value is a total order consistent with equality", "statement": "On ints/bools/nil, rationals, complex numbers, strings, and lists/vectors of one such kind, < is a strict total order, cmp is antisymmetric and transitive, and a value compares as Equal exactly to the values == to it.", "quantifier": "all triples of values, all nesting depths", "why_tests_cant": "transitivity ranges over triples of unbounded values", "anchors": ["cordy-sys/src/vm/value/ptr.rs: Ord for ValuePtr"]}
{"id": "C18", "title": "Ordering across kinds is usable for sorting mixed data", "statement": "Comparison is transitive on arbitrary values, so that sort of any list gives an ordered result.", "quantifier": "all triples of arbitrary values", "why_tests_cant": "needs the right mixed-kind triple", "anchors": ["cordy-sys/src/vm/value/ptr.rs: Ord for ValuePtr", "cordy-sys/src/core/collections.rs: sort"]}
{"id": "C19", "title": "Equal values hash equally", "statement": "If a == b then a and b have the same hash, so that sets and dicts keyed by compound values find them.", "quantifier": "all pairs of equal values", "why_tests_cant": "requires equal values that were built differently (e.g. sets filled in another order)", "anchors": ["cordy-sys/src/vm/value/ptr.rs: Hash for ValuePtr", "cordy-sys/src/vm/value/collections.rs: Hash for Set/Dict"]}
{"id": "C20", "title": "Sets and dicts behave as insertion-ordered finite maps", "statement": "After any history of inserts, updates, removals and clears a dict contains exactly the last value written for each key not removed since, no key twice, iterated in the order of first insertion since last removal; a set likewise.", "quantifier": "all histories of operations", "why_tests_cant": "unbounded histories", "anchors": ["cordy-sys/src/core/collections.rs: push, insert, remove, clear, get_dict_index, set_index", "cordy-sys/src/vm/value/collections.rs"]}
{"id": "C21", "title": "Set algebra", "statement": "a|b, a&b, a-b, a^b contain exactly the elements of the mathematical union, intersection, difference, symmetric difference, without duplicates, leave their operands unchanged, and keep operand order; union/intersect/difference builtins agree with the operators on membership.", "quantifier": "all pairs of sets", "why_tests_cant": "all sets", "anchors": ["cordy-sys/src/vm/operator.rs: binary_sub, binary_bitwise_*", "cordy-sys/src/core/collections.rs: set_union, set_intersect, set_difference"]}
{"id": "C22", "title": "Heaps pop elements in ascending order", "statement": "Over any history of pushes and pops on a heap, every pop returns a minimum of the current contents and removes exactly one occurrence of it; popping everything sorts.", "quantifier": "all histories", "why_tests_cant": "unbounded histories", "anchors": ["cordy-sys/src/vm/value/collections.rs: Heap", "cordy-sys/src/core/collections.rs: push, pop"]}
{"id": "C23", "title": "sort, min, max, reverse, zip, sum laws", "statement": "sort returns an ordered permutation of its input; min returns the first minimum and max the last maximum of the input; reverse is an involution; zip has the length of its shortest argument with exact tuples; sum of ints is the wrapped sum.", "quantifier": "all lists", "why_tests_cant": "all lengths", "anchors": ["cordy-sys/src/core/collections.rs: sort, min, max, reverse, zip, sum"]}
{"id": "C24", "title": "List mutation operations", "statement": "push, push_front, pop, pop_front, insert, remove act exactly as on a mathematical sequence: they fail exactly on empty/out-of-range arguments, leaving the list unchanged, and otherwise change exactly the addressed position.", "quantifier": "all lists, indices and histories of operations", "why_tests_cant": "unbounded histories", "anchors": ["cordy-sys/src/core/collections.rs: push, push_front, pop, pop_front, insert, remove"]}
{"id": "C25", "title": "Higher-order builtins call their function once per element in order", "statement": "map, filter, flat_map, reduce, any, all, find, index_of call the given function on the elements in order, exactly once each up to the deciding one, stop at the first error, and return the mathematically expected result.", "quantifier": "all lists and all (stateful, possibly failing) functions", "why_tests_cant": "functions are arbitrary and effectful", "anchors": ["cordy-sys/src/core/collections.rs: map, filter, flat_map, reduce, predicate, left_find"]}
{"id": "C26", "title": "group_by partitions its input", "statement": "group_by(n) splits a list into consecutive chunks of length n (the last possibly shorter) whose concatenation is the input; group_by(f) gives a dict from keys to the elements having this key in input order, keys in order of first appearance, whose groups partition the input; n <= 0 is an error.", "quantifier": "all lists, n, and functions f", "why_tests_cant": "unbounded", "anchors": ["cordy-sys/src/core/collections.rs: group_by"]}
{"id": "C27", "title": "Permutations and combinations enumerate exactly once", "statement": "combinations(n) yields each n-subset of positions once in lexicographic order; permutations(n) each n-arrangement once.", "quantifier": "all lists and n", "why_tests_cant": "combinatorial", "anchors": ["cordy-sys/src/core/collections.rs: permutations, combinations"]}
{"id": "C28", "title": "char/ord and hex/bin/int conversions round-trip", "statement": "ord(char(c)) = c for every c for which char succeeds, char fails exactly for invalid code points; int parsing of hex(n)/bin(n) text gives n back.", "quantifier": "all integers", "why_tests_cant": "boundary code points, sign, truncation to 32 bits", "anchors": ["cordy-sys/src/core/strings.rs: to_chr, to_ord, to_hex, to_bin"]}
{"id": "C29", "title": "String formatting consumes exactly its arguments", "statement": "fmt % args succeeds exactly when the number of directives (%% excluded) equals the number of arguments and each argument suits its directive; literal text is copied, %% yields %, padding never truncates.", "quantifier": "all format strings and argument lists", "why_tests_cant": "grammar-shaped, unbounded inputs", "anchors": ["cordy-sys/src/core/strings.rs: StringFormatter, format_string"]}
{"id": "C30", "title": "String helpers round-trip", "statement": "join(split(s, sep), sep) = s for nonempty literal separators; split never yields a piece containing the separator; escaped regex text matches only itself; strip and case helpers touch nothing else.", "quantifier": "all strings", "why_tests_cant": "all strings", "anchors": ["cordy-sys/src/core/strings.rs: split, join, escape_regex, trim, to_lower, to_upper"]}
{"id": "C31", "title": "Call arity is enforced uniformly", "statement": "A function with p required, d optional parameters and possibly a variadic tail called with n arguments runs exactly when n is within [p, p+d] (or >= p if variadic) with parameter i bound to argument i and missing optionals set to their defaults, is partially applied when 0 < n < p, and is an error otherwise.", "quantifier": "all parameter shapes and argument counts", "why_tests_cant": "unbounded shapes and counts", "anchors": ["cordy-sys/src/vm/value/func.rs: Function::in_range, num_var_args, jump_offset", "cordy-sys/src/vm/mod.rs: invoke, call_function"]}
{"id": "C32", "title": "Partial application is transparent", "statement": "f(a1..ak)(b1..bm) has the same effect as f(a1..ak,b1..bm) whenever k is below the required argument count, for user functions, closures and builtins.", "quantifier": "all functions, all splits of an argument list", "why_tests_cant": "every split of every argument list and function shape", "anchors": ["cordy-sys/src/vm/mod.rs: invoke (PartialFunction, PartialNativeFunction)", "cordy-sys/src/core/mod.rs: invoke_partial"]}
{"id": "C33", "title": "Operator sections swap correctly", "statement": "(op x)(y) computes y op x and (op)(x)(y), or op(x,y), computes x op y; the swap of builtin operators is an involution that maps every asymmetric operator to its flipped form.", "quantifier": "all operators and operands", "why_tests_cant": "whole table x all values", "anchors": ["cordy-sys/src/core/mod.rs: NativeFunction::swap, as_binary_operator", "cordy-sys/src/compiler/parser/expr/optimizer.rs"]}
{"id": "C34", "title": "Builtin dispatch is the same however a builtin is called", "statement": "Calling a builtin directly, through partial application, or through the pre-resolved fast paths used by map/filter/sort etc. runs the same implementation with the same argument list, or reports the same incorrect-argument-count error.", "quantifier": "all builtins, all argument counts", "why_tests_cant": "three dispatchers x ~100 builtins x argument counts", "anchors": ["cordy-sys/src/core/mod.rs: invoke_stack, invoke_partial, InvokeArg0, InvokeArg1, InvokeArg2"]}
{"id": "C35", "title": "Destructuring binds each name to the element it denotes", "statement": "A pattern without * succeeds exactly on iterables whose length equals the number of terms, with one * exactly on those at least as long as the other terms; then leading terms get leading elements, trailing terms trailing elements, the starred term the list in between, nested patterns recursively; a failing match reports an error.", "quantifier": "all patterns of any nesting and all values", "why_tests_cant": "recursive patterns, all lengths", "anchors": ["cordy-sys/src/core/pattern.rs: Pattern::apply"]}
{"id": "C36", "title": "Deep copy yields an equal, disjoint object graph", "statement": "copy(v) terminates on every (also cyclic) object graph, the result is isomorphic to the original including sharing, shares no mutable object with it, and leaves the original unchanged.", "quantifier": "all finite object graphs", "why_tests_cant": "cycles and sharing", "anchors": ["cordy-sys/src/core/collections.rs: copy, copy_recursive"]}
{"id": "C37", "title": "Memoised functions compute each argument tuple at most once", "statement": "A @memoize'd function called over any history returns for each argument tuple the first result computed for it, and calls the underlying function exactly once per distinct tuple that succeeded (failed calls are not cached).", "quantifier": "all call histories, arbitrary underlying functions", "why_tests_cant": "stateful, unbounded histories", "anchors": ["cordy-sys/src/core/mod.rs: invoke_memoized"]}
{"id": "C38", "title": "Dict default factories", "statement": "Reading a missing key of a dict with a default inserts and returns the default, once; without default it is an error and the dict is unchanged; present keys never consult the default.", "quantifier": "all histories", "why_tests_cant": "stateful", "anchors": ["cordy-sys/src/core/collections.rs: get_dict_index, dict_set_default"]}
{"id": "C39", "title": "Branches in compiled code go where the source says", "statement": "Linearising the compiler's control flow graph (emit) preserves execution: from any block and state, running the flat code with relative jumps performs exactly the instruction sequence of the graph, for forward, backward and merged branches.", "quantifier": "all control flow graphs built by the compiler", "why_tests_cant": "arbitrary graphs", "anchors": ["cordy-sys/src/compiler/parser/core/graph.rs: Code::emit, Block, BlockEnd"]}
{"id": "C40", "title": "The bytecode peephole optimiser preserves behaviour", "statement": "A program that exits or fails with a runtime error when linked without the bytecode optimiser ends with the same exit or error value, the same output and the same heap when linked with it, and with no other outcome; the optimised code is never longer.", "quantifier": "all well-formed programs (main and functions, with defaults, closures, callbacks from builtins), all builtin implementations, all initial states, runs of any length", "why_tests_cant": "rewriting overlaps, jumps and return addresses move", "anchors": ["cordy-sys/src/compiler/parser/core/optimizer.rs"]}
{"id": "C41", "title": "Compiled expressions compute the value the source denotes", "statement": "For every expression the emitted bytecode run from any stack pushes exactly the value (or raises exactly the error) of a left-to-right big-step evaluation, leaving everything below untouched.", "quantifier": "all expressions of every depth, all environments", "why_tests_cant": "structural induction over all programs", "anchors": ["cordy-sys/src/compiler/parser/codegen.rs: emit_expr", "cordy-sys/src/vm/mod.rs: run_instruction"]}
{"id": "C42", "title": "Short circuit and comparison chains", "statement": "a and b, a or b, if-then-else evaluate only the needed operands; a < b < c evaluates each operand at most once, left to right, stopping at the first false link, and yields the conjunction.", "quantifier": "all expressions", "why_tests_cant": "effects of unevaluated operands", "anchors": ["cordy-sys/src/compiler/parser/codegen.rs", "cordy-sys/src/vm/opcode.rs: Compare, JumpIfFalse"]}
{"id": "C43", "title": "The expression optimiser preserves results", "statement": "Constant folding, composition-to-call rewriting, dead-branch elimination and partial call merging do not change the value of any expression that evaluates without error.", "quantifier": "all expressions", "why_tests_cant": "rewriting on all trees", "anchors": ["cordy-sys/src/compiler/parser/expr/optimizer.rs"]}
{"id": "C44", "title": "List, set, dict and call spreads", "statement": "[a, ...b, c] builds the concatenation in order; a call with ...b passes exactly the spread elements in place, for any nesting of literals and calls.", "quantifier": "all literals/calls with any number of spreads and nesting", "why_tests_cant": "nested accumulators", "anchors": ["cordy-sys/src/vm/mod.rs: literals, LiteralAcc, LiteralUnroll, Unroll, Call", "cordy-sys/src/compiler/parser/codegen.rs"]}
{"id": "C45", "title": "Closures capture variables, not values", "statement": "All closures capturing one variable observe each other's and the enclosing function's assignments while the scope is live and continue to share one cell after it is left; variables of different activations or loop iterations are never shared.", "quantifier": "all interleavings of closure creation, assignment, scope exit and calls", "why_tests_cant": "histories", "anchors": ["cordy-sys/src/vm/mod.rs: CloseLocal, CloseUpValue, LiftUpValue, PushUpValue, StoreUpValue"]}
{"id": "C46", "title": "Returning from a function restores the caller exactly", "statement": "After Return the value stack is the caller's stack with callee and arguments replaced by the one result, for any contents of the frame.", "quantifier": "all stacks and frames", "why_tests_cant": "arbitrary stack contents", "anchors": ["cordy-sys/src/vm/mod.rs: Return, call_function"]}
{"id": "C47", "title": "Globals are unreadable before definition", "statement": "Reading or writing a global before its declaration has executed is a runtime error that changes nothing; afterwards reads give the last write.", "quantifier": "all execution histories", "why_tests_cant": "dynamic order of definitions and calls", "anchors": ["cordy-sys/src/vm/mod.rs: InitGlobal, PushGlobal, StoreGlobal"]}
{"id": "C48", "title": "Lexing is total and locations are faithful", "statement": "For every input text the scanner terminates, its tokens' locations are increasing, disjoint and within the text, and re-reading the text at a token's location gives this token.", "quantifier": "all input texts", "why_tests_cant": "all strings", "anchors": ["cordy-sys/src/compiler/scanner.rs"]}
{"id": "C49", "title": "Numeric and string literals denote what is written", "statement": "Every decimal, hex and binary literal (with _ separators) denotes its value or is reported as invalid when it exceeds the supported size; quoting and scanning back a string is the identity; keywords and identifiers are never confused.", "quantifier": "all literals", "why_tests_cant": "all digit strings and texts", "anchors": ["cordy-sys/src/compiler/scanner.rs: scan_numeric*, scan_string, scan_identifier"]}
{"id": "C50", "title": "Comments and whitespace do not affect tokens", "statement": "Inserting whitespace or a comment between tokens does not change the token sequence; a block comment ends at its first */.", "quantifier": "all texts", "why_tests_cant": "all comment bodies", "anchors": ["cordy-sys/src/compiler/scanner.rs: advance (comments)"]}
{"id": "C51", "title": "A failed REPL/eval compilation leaves the session unchanged", "statement": "If incremental compilation fails, all previously compiled code, constants, globals, functions, patterns and fields keep their indices and contents; if it succeeds old indices stay valid.", "quantifier": "all compile histories", "why_tests_cant": "histories", "anchors": ["cordy-sys/src/compiler/mod.rs: incremental_compile, CompileParameters save/restore"]}
{"id": "C52", "title": "Failed hashing of recursive structures is detected", "statement": "Inserting a self-containing structure into a set or dict reports the recursion error, and the recursion guard is clean afterwards so later operations are unaffected.", "quantifier": "all histories", "why_tests_cant": "stateful flag across operations", "anchors": ["cordy-sys/src/vm/value/collections.rs: guard_recursive_hash"]}
{"id": "C53", "title": "Vector operators act elementwise", "statement": "For vectors of equal length op acts elementwise, a scalar is broadcast, the first failing component determines the error, and the operands are unchanged.", "quantifier": "all vectors, nested arbitrarily, all operators", "why_tests_cant": "all lengths", "anchors": ["cordy-sys/src/vm/operator.rs: apply_vector_*"]}
{"id": "C54", "title": "Enumerate and its reverse", "statement": "enumerate(xs) yields (0,x0),(1,x1),..., one per element; searching an enumeration from its end (rfind, rindex_of) visits the same pairs in reverse order.", "quantifier": "all iterables", "why_tests_cant": "all lengths", "anchors": ["cordy-sys/src/vm/value/range.rs: Enumerate", "cordy-sys/src/vm/value/mod.rs: Iterable"]}
{"id": "C55", "title": "Rational arithmetic is exact and reduced", "statement": "If at least one operand is rational (the other rational, int or bool), + - * / give the exact rational result in lowest terms with positive denominator; dividing by zero is an error.", "quantifier": "all rationals", "why_tests_cant": "infinitely many numerators and denominators", "anchors": ["cordy-sys/src/vm/operator.rs: binary_add, binary_sub, binary_mul, binary_div", "cordy-sys/src/vm/value/number.rs: RationalType"]}
{"id": "C56", "title": "Operators keep values well formed and never crash the interpreter", "statement": "Applying any unary or binary operator to well-formed values returns a well-formed value or a Cordy error: never a complex number with zero imaginary part, an unreduced rational, an out-of-range int, a set with duplicates, and never a panic.", "quantifier": "all operators and all operands, nested vectors included", "why_tests_cant": "the crashing operand pairs are isolated points of a 2^128 space", "anchors": ["cordy-sys/src/vm/operator.rs: UnaryOp::apply, BinaryOp::apply", "cordy-sys/src/vm/value/number.rs: IntoValue"]}
{"id": "C57", "title": "Membership tests", "statement": "x in xs is true exactly when xs has an element equal to x (lists, vectors, heaps), a matching element (sets) or key (dicts), or x as a substring (strings); not in is its negation.", "quantifier": "all values and containers", "why_tests_cant": "all lengths", "anchors": ["cordy-sys/src/vm/operator.rs: binary_in"]}
{"id": "C58", "title": "Repetition", "statement": "s * n and n * s repeat a string or list n times for n >= 0 and are an error for n < 0.", "quantifier": "all strings, lists and ints", "why_tests_cant": "the element count overflows only for huge n", "anchors": ["cordy-sys/src/vm/operator.rs: binary_str_repeat, binary_list_repeat"]}
{"id": "C59", "title": "max and min operators", "statement": "max(a,b) and min(a,b) return one of their operands each (the other one), bounding both operands in the value order; for equal operands max returns the second and min the first.", "quantifier": "all pairs of values of one ordered kind", "why_tests_cant": "all values", "anchors": ["cordy-sys/src/vm/operator.rs: BinaryOp::apply"]}
{"id": "C60", "title": "counter, dict(...), keys and values", "statement": "counter(xs) has one entry per distinct element in order of first appearance holding its number of occurrences; dict(pairs) is the dict obtained by writing the pairs in order and rejects anything that is not a pair; keys and values list the entries in order.", "quantifier": "all finite iterables", "why_tests_cant": "all lengths, all patterns of equal elements", "anchors": ["cordy-sys/src/core/collections.rs: counter, collect_into_dict, dict_keys, dict_values"]}
{"id": "C61", "title": "min_by and max_by with a key function", "statement": "min_by(f, xs) calls f once per element in order and, if no call fails, returns the first element whose key is least; max_by returns the last element whose key is greatest; an empty input is an error.", "quantifier": "all finite iterables and key functions with side effects", "why_tests_cant": "all lengths, all key functions", "anchors": ["cordy-sys/src/core/collections.rs: min_by, max_by", "/repo/src/util.rs: catch"]}
{"id": "C62", "title": "gcd and lcm", "statement": "gcd(a, b, ...) of two or more ints or bools is their greatest common divisor (wrapped to 63 bits, which matters only for 2^62); lcm is their least common multiple whenever that is at most 2^62 - 1; a single int is returned as it is; no argument, or a non-int argument, is an error naming the first such argument.", "quantifier": "all argument lists", "why_tests_cant": "number of arguments and values unbounded", "anchors": ["cordy-sys/src/core/math.rs: gcd, lcm"]}
{"id": "C63", "title": "sqrt", "statement": "sqrt(n) of an int n >= 0 is the largest r with r*r <= n; sqrt of the square of a non-negative rational is that rational, and sqrt of a rational never exceeds the true root; negative arguments are errors.", "quantifier": "all ints and rationals", "why_tests_cant": "all values", "anchors": ["cordy-sys/src/core/math.rs: sqrt"]}
{"id": "C64", "title": "abs, real, imag, count_ones, count_zeros", "statement": "abs is non-negative and exact for ints and rationals, componentwise on complex numbers, elementwise on vectors; real and imag return the parts of a complex number; count_ones/count_zeros count the bits of the 64-bit two's complement and add up to 64.", "quantifier": "all values", "why_tests_cant": "all values", "anchors": ["cordy-sys/src/core/math.rs: abs, get_real, get_imag, count_ones, count_zeros"]}
{"id": "C65", "title": "Conversions between ints and rationals", "statement": "rational(a, b) is the exact quotient in lowest terms and an error exactly for b = 0; numer and denom are its parts; int(q) succeeds exactly for whole numbers in the int range and int(rational(n)) = n.", "quantifier": "all ints and rationals", "why_tests_cant": "all values", "anchors": ["cordy-sys/src/core/math.rs: convert_to_int, convert_to_rational, get_numer, get_denom"]}
{"id": "C66", "title": "Every struct or module declaration creates its own type", "statement": "The value of a struct, module or native module declaration is the type declared there, with its own fields and methods, never that of another declaration, in any history of REPL lines, evals and declarations.", "quantifier": "all sessions and declarations", "why_tests_cant": "histories", "anchors": ["cordy-sys/src/compiler/parser/semantic.rs: declare_const, end_module, declare_type", "cordy-sys/src/compiler/parser/mod.rs: parse_struct_or_module, parse_native_module", "cordy-sys/src/vm/value/mod.rs: StructTypeImpl"]}
{"id": "C67", "title": "Lexical scoping", "statement": "A name means the innermost initialised variable with that name, in this function or one around it (as a captured variable), else a global, else it is an error or left to a global declared later; blocks and functions end the scope of exactly the variables declared in them; one block cannot declare a name twice; a captured variable stays the same variable for all references to it.", "quantifier": "all programs: all nestings of blocks, functions, declarations and references", "why_tests_cant": "programs of any size and nesting", "anchors": ["cordy-sys/src/compiler/parser/semantic.rs: declare_local, pop_locals, resolve_reference, resolve_upvalue, init_local", "cordy-sys/src/compiler/parser/mod.rs: parse of functions and blocks"]}
{"id": "C68", "title": "Expressions parse by the documented grammar", "statement": "An expression is accepted exactly if it is one of the documented grammar, and then has the one tree that grammar gives it: operators bind by the documented precedence table, all to the left except assignment; calls, indexing and fields bind before prefix operators; comparisons chain; a newline matters only before a bracket, a name, a literal, fn or if; and the parser ends on every input.", "quantifier": "all sequences of tokens", "why_tests_cant": "inputs of any length and nesting", "anchors": ["cordy-sys/src/compiler/parser/mod.rs: parse_expr, parse_expr_1_terminal to parse_expr_11, parse_comma_expr_arg", "cordy-sys/src/compiler/parser/core/mod.rs: peek, advance", "docs/language.md: Precedence and Associativity"]}
{"id": "C69", "title": "eval is the inverse of repr", "statement": "eval(repr(v)) is v again, for every value v made of nil, booleans, numbers, strings and collections, ranges and slices; so different data has different texts. str of a string is the string itself, str of other data is its repr.", "quantifier": "all data values of any size and nesting", "why_tests_cant": "all values", "anchors": ["cordy-sys/src/vm/value/mod.rs: to_str, to_repr_str, map_join", "cordy-sys/src/compiler/scanner.rs", "cordy-sys/src/compiler/parser/mod.rs: parse_expr", "docs/library.md: Repr, Eval"]}
{"id": "C70", "title": "typeof and is", "statement": "Every value has one type, returned by typeof; typeof(x) == typeof(y) exactly for values of the same type (the same struct for structs); x is T is true exactly if the type of x is T or a subtype of T (bool of int, int of complex and rational, collections and str of iterable, everything of any), x is not T is the opposite, and anything that is not a type is rejected; so x is typeof(x) is always true.", "quantifier": "all values and types", "why_tests_cant": "all values", "anchors": ["cordy-sys/src/core/mod.rs: type_of", "cordy-sys/src/vm/operator.rs: binary_is", "cordy-sys/src/vm/value/mod.rs: is_evaluable, is_iterable, is_instance_of", "docs/library.md: Type Of"]}
{"id": "C71", "title": "Printing objects that contain themselves", "statement": "repr and str of any object end and do not panic, however objects contain each other; an object is written as dots ([...], {...}, (...), Name(...)) exactly where it is a part of itself, and in full everywhere else, also if it occurs several times; an object that does not contain itself is written as the tree it stands for.", "quantifier": "all object graphs, with sharing and cycles", "why_tests_cant": "all heaps and values", "anchors": ["cordy-sys/src/vm/value/mod.rs: RecursionGuard, safe_to_repr_str, recursive_guard", "cordy-sys/src/vm/value/range.rs: Enumerate to_repr_str"]}
{"id": "C72", "title": "Error reports and stack traces", "statement": "A compile or run time error is reported with the number of the line in which the place of the error starts, the text of this line (and of the other lines of the place), and marks under exactly the characters of the place; making the report never panics, for any text and any place in it; the place of an expression made of parts is the smallest that covers them; the stack trace lists exactly the active calls, innermost first, at any depth of recursion (repeated lines are counted), each with the function whose code it is.", "quantifier": "all source texts, places, call stacks and layouts of functions", "why_tests_cant": "all texts and call stacks", "anchors": ["cordy-sys/src/reporting.rs: Location, SourceView::format, lineno", "cordy-sys/src/vm/error.rs: with_stacktrace, find_owning_function", "cordy-sys/src/compiler/parser/mod.rs: emit_code"]}
{"id": "C73", "title": "Fields and methods of structs", "statement": "A program compiles, as far as fields are concerned, exactly if no declaration has two members of one name and every name used as a field is a member of some declaration, before or after the use. Calling a struct type with as many arguments as it has fields makes a new object whose fields are the arguments in order, any other number is an error; x->f reads the field, x->f = v changes this field of this object and nothing else, x->f op= v writes the result of the operator; x->m is the method m bound to x, T->m the method itself, T->f the getter of f; anything else is an error that changes nothing; nothing panics, however many structs share names of fields.", "quantifier": "all programs of declarations and uses of fields, all heaps and objects", "why_tests_cant": "all programs, heaps and histories of declarations", "anchors": ["cordy-sys/src/compiler/parser/semantic.rs: Fields, declare_field, declare_method, resolve_field", "cordy-sys/src/vm/value/mod.rs: get_field, set_field, StructImpl, StructTypeImpl", "cordy-sys/src/vm/mod.rs: invoke_func_eval, store_field, GetField, SetField"]}
{"id": "C74", "title": "Syntax highlighting", "statement": "Highlighting a text, or a line which continues an earlier text, never fails; the characters given to the formatter are exactly those of the text, in sections that are not nested and end with the type they have begun with. Each token is in the colour of its type; between tokens white space is plain and the rest is a comment. A continued line is shown as it would be in the whole text. The line-breaking formatter changes nothing but that no section contains a line feed.", "quantifier": "all texts, prefixes and tables of names", "why_tests_cant": "texts of any length and content, with and without errors", "anchors": ["cordy-sys/src/syntax.rs: scan, consume_whitespace_and_comment, BlockingFormatter", "cordy-sys/src/compiler/scanner.rs: ScanToken::ty", "cordy-sys/src/compiler/mod.rs: scan"]}
{"id": "C75", "title": "Formatted pages", "statement": "The page written by --format, read as HTML, shows the text with its colours: no character of the text is taken for markup, nothing but carriage returns is lost, and the types left out have no colour; two different texts without tabs and carriage returns give different pages. The same holds for the web terminal.", "quantifier": "all texts, sets of types to leave out, and tables of names", "why_tests_cant": "texts of any length and content", "anchors": ["cordy/src/main.rs: RenderedFormatter, run_main", "cordy-web/src/lib.rs: TerminalFormatter, scan"]}
{"id": "C76", "title": "The command line", "statement": "The options of the cordy command mean the same in any order, up to the first argument that is not an option: this is the file, and everything after it is passed to the program unchanged, even what looks like an option. A command line is accepted exactly if it asks for at most one of help, version, disassembly and format, links no module twice and writes each option as documented; otherwise the first thing that is wrong is reported and nothing is run. No command line makes the command panic.", "quantifier": "all lists of arguments", "why_tests_cant": "all lists of any length and all texts", "anchors": ["cordy/src/main.rs: parse_args, main, run_main, Mode::set"]}
{"id": "C77", "title": "Sessions of the REPL", "statement": "Entering lines one after the other does what the language says for them in this order: the variables and functions of a line are those of all later lines, with the values they have then; a line that ends with an expression prints its value, and everything printed comes in the order of the lines; after each line the session waits with nothing left over but the variables. A line that fails is reported, keeps the effects it had before the error, and the session goes on; exit ends the session.", "quantifier": "all lists of lines, of any length, with closures, loops and literals over several lines, for all primitive operations", "why_tests_cant": "all sessions", "anchors": ["cordy-sys/src/repl.rs: Repl::run", "cordy-sys/src/compiler/parser/mod.rs: parse_incremental_repl, teardown", "cordy-sys/src/vm/mod.rs: run_until_completion, run_recovery, incremental_compile, ExitType"]}
{"id": "C78", "title": "Names declared later", "statement": "A function may refer to globals, functions and methods that are declared after it. The reference then means what it would mean if the name were known already: the variable, function or method first declared under that name, or else the outer variable of that name; it takes effect at its place among the other operations of the function. A name that is never declared, and an assignment to a function, is an error.", "quantifier": "all sequences of operations and references of one block, and all sequences of later declarations", "why_tests_cant": "all programs, names and orders of declarations", "anchors": ["cordy-sys/src/compiler/parser/semantic.rs: LateBinding, resolve_late_bindings, resolve_remaining_late_bindings", "cordy-sys/src/compiler/parser/core/mod.rs: push_load_lvalue, push_store_lvalue", "cordy-sys/src/compiler/parser/core/graph.rs: next_opcode, insert, do_insert"]}
{"id": "C79", "title": "Disassembly", "statement": "The disassembly of a program has one line for each instruction, in order, with the number of the instruction and, where the source line changes, that line; the instructions are aligned. An instruction that reads or writes a variable is shown with the name of this variable, optimized or not; one that jumps is shown with the number of the instruction it goes to.", "quantifier": "all programs, with any edits by the optimizer", "why_tests_cant": "programs of any length and any number of lines", "anchors": ["cordy-sys/src/compiler/mod.rs: CompileResult::disassemble", "cordy-sys/src/vm/opcode.rs: Opcode::disassembly", "cordy-sys/src/compiler/parser/core/graph.rs: Code::emit, Code::push, Block"]}
{"id": "C80", "title": "Lines entered into the REPL", "statement": "A text of several lines may be entered line by line: while it is not complete the REPL asks for more with another prompt and nothing happens; with the line that completes it, it does what the whole text entered at once would do, and is shown as one text in error reports. Blank lines between inputs do nothing. An error in an input ends this input only; the end of the input and an error of the reader end the session.", "quantifier": "all lists of lines, all compilers and machines", "why_tests_cant": "all sequences of lines, and all ways in which compiling and running can end", "anchors": ["cordy-sys/src/repl.rs: run, Repl::run, Repl::prompt", "cordy-sys/src/reporting.rs: SourceView::push, text_mut"]}
