import json
P=[]
def p(title,statement,quant,why,anchors):
    P.append(dict(id="C%02d"%(len(P)+1),title=title,statement=statement,quantifier=quant,why_tests_cant=why,anchors=anchors))
V="cordy-sys/src/vm/"; C="cordy-sys/src/core/"; K="cordy-sys/src/compiler/"
p("Integer literals and results are stored exactly or wrapped to 63 bits",
 "Storing any 64-bit integer in a Cordy value and reading it back yields the same integer whenever it lies in [-2^62, 2^62-1], and otherwise the unique integer of that interval congruent to it modulo 2^63.",
 "every 64-bit integer","2^64 inputs; the bug class (sign bit lost by the tag shift) sits at two boundaries and in the sign extension",
 [V+"value/ptr.rs: from_i64, as_precise_int, MIN_INT, MAX_INT"])
p("Inline values never get confused with one another",
 "nil, both booleans, every integer, every builtin function, every field accessor, every string of at most 7 bytes and every heap pointer are encoded to machine words such that the reported type is the constructor's type, reading the payload back gives the original payload, and two inline values have the same word exactly when they are the same value.",
 "every pair of inline values and every 4-byte aligned pointer","the word space is 2^64 and the tags overlap by design (2-bit, 5-bit and 1-bit masks)",
 [V+"value/ptr.rs: from_*, as_*, ty, is_*"])
p("Borrow guards exclude each other",
 "Over any sequence of shared/mutable borrow attempts and guard drops on one value, a mutable guard is never outstanding together with any other guard; an attempt succeeds exactly when the outstanding guards allow it, a failed attempt changes nothing, and when all guards are dropped the value is again fully borrowable.",
 "every finite history of borrow/release events below 2^16-1 simultaneous guards","histories are unbounded",
 [V+"value/ptr.rs: Prefix, Lock/borrow state, Ref, RefMut"])
p("Heap values are freed exactly once, when the last handle is dropped",
 "Over any history of clones and drops of handles to a heap value the value is freed exactly when the number of live handles reaches zero, never earlier and never twice.",
 "every finite history with fewer than 2^32 simultaneous handles","unbounded histories",
 [V+"value/ptr.rs: Clone/Drop for ValuePtr, Prefix::inc/dec"])
p("Ranges produce exactly the arithmetic progression they denote",
 "range(a,b,s) rejects s = 0 and otherwise iterates over a, a+s, a+2s, ... exactly up to (not including) the first term that reaches or passes b, then stops forever.",
 "all integers a,b,s in the int range (no 64-bit overflow of the last step)","infinitely many triples; off-by-one in the stop clamp only shows for non-divisible spans",
 [V+"value/range.rs: Range::from, Range::next", C+"mod.rs: range dispatch"])
p("`x in range` agrees with iterating the range",
 "x in range(a,b,s) is true exactly when iterating the range produces x.",
 "all integers x,a,b,s","cross product of four integers, signs and divisibility",
 [V+"value/range.rs: Range::contains"])
p("len of a range is the number of elements it iterates",
 "len(range(a,b,s)) equals the number of values that iterating it produces.",
 "all integers a,b,s","only non-divisible spans break it",
 [V+"value/range.rs: Range::len"])
p("Reversing a range reverses its element sequence",
 "reverse(range(a,b,s)) iterates the same values as range(a,b,s) in the opposite order, and rindex_of searches a range from its end.",
 "all integers a,b,s","depends on divisibility and on the sign of the step",
 [V+"value/range.rs: Range::reverse", C+"collections.rs: reverse"])
p("Indexing is total, exact and bounds-checked",
 "For a sequence of length n, a[i] is the i-th element for 0<=i<n, the (n+i)-th for -n<=i<0, and an index error for every other i; assignment a[i]=v changes exactly that element and nothing else and fails in exactly the same cases.",
 "every sequence and every integer index","all lengths and all indices incl. extreme values that wrap when cast to usize",
 [V+"value/mod.rs: Indexable::check_index", C+"collections.rs: get_index,set_index"])
p("Slices select exactly the progression of in-range indices",
 "a[lo:hi:step] with step /= 0 returns exactly the elements at lo', lo'+step, ... strictly before hi' (negative bounds counted from the end, omitted bounds meaning the natural ends), skipping indices outside the sequence; step 0 is an error; a[:] = a, a[::-1] = reverse(a), a[:k]+a[k:] = a.",
 "every sequence, all optional integer bounds and steps","four unbounded dimensions with sign cases",
 [C+"collections.rs: get_slice, to_index, rev_range", V+"value/slice.rs"])
p("Integer arithmetic is exact modulo the 63-bit wrap",
 "For ints (and bools read as 0/1) +, -, *, unary - return the mathematical result wrapped to 63 bits; hence + and * are commutative and associative, * distributes over +, and results that fit are exact.",
 "all integers","every operand pair; the intermediate 64-bit computation also wraps",
 [V+"operator.rs: binary_add, binary_sub, binary_mul, unary_sub"])
p("Division and modulo are floored and consistent",
 "x / 0 and x % 0 are errors; for y /= 0, x / y is floor(x/y), x % y has the sign of y and absolute value below |y|, and (x / y) * y + x % y = x (up to the 63-bit wrap, which only the quotient MIN / -1 triggers).",
 "all integer pairs","sign combinations and extreme values",
 [V+"operator.rs: binary_div, binary_mod"])
p("Power and shifts compute the mathematical operation",
 "x ** n for n >= 0 is x^n wrapped to 63 bits and an error for n < 0; x << n is x*2^n wrapped, x >> n is floor(x/2^n), and a negative shift amount shifts the other way.",
 "all integers x, n","the shift count is masked and the exponent truncated to 32 bits by the machine operations",
 [V+"operator.rs: binary_pow, i64_left_shift"])
p("Bitwise operators act bitwise and keep booleans boolean",
 "& | ^ and unary ! on ints act on every bit of the two's complement representation, on two booleans they return booleans, De Morgan's laws hold, and results never leave the int range.",
 "all integer and boolean operands","2^126 pairs",
 [V+"operator.rs: binary_bitwise_and/or/xor, unary_not"])
p("Complex numbers normalise and form a ring",
 "Complex arithmetic is componentwise modulo 2^64, a complex result whose imaginary part is zero is always returned as an int (so the two representations never overlap), and floor division by a nonzero complex divides conjugate-multiplied components by the squared norm with flooring.",
 "all complex and integer operands","unbounded operand space and a normalisation invariant over all results",
 [V+"operator.rs: binary_*", V+"value/number.rs: IntoValue for ComplexType"])
p("Equality is an equivalence relation",
 "== is reflexive (on values without functions compared by identity), symmetric and transitive for all nested values, values of different kinds are unequal except equal ints and rationals, and != is its negation.",
 "all finite values of every nesting depth","structural, unbounded depth",
 [V+"value/ptr.rs: PartialEq for ValuePtr"])
p("Ordering on one kind of value is a total order consistent with equality",
 "On ints/bools/nil, rationals, complex numbers, strings, and lists/vectors of one such kind, < is a strict total order, cmp is antisymmetric and transitive, and a value compares as Equal exactly to the values == to it.",
 "all triples of values, all nesting depths","transitivity ranges over triples of unbounded values",
 [V+"value/ptr.rs: Ord for ValuePtr"])
p("Ordering across kinds is usable for sorting mixed data",
 "Comparison is transitive on arbitrary values, so that sort of any list gives an ordered result.",
 "all triples of arbitrary values","needs the right mixed-kind triple",
 [V+"value/ptr.rs: Ord for ValuePtr", C+"collections.rs: sort"])
p("Equal values hash equally",
 "If a == b then a and b have the same hash, so that sets and dicts keyed by compound values find them.",
 "all pairs of equal values","requires equal values that were built differently (e.g. sets filled in another order)",
 [V+"value/ptr.rs: Hash for ValuePtr", V+"value/collections.rs: Hash for Set/Dict"])
p("Sets and dicts behave as insertion-ordered finite maps",
 "After any history of inserts, updates, removals and clears a dict contains exactly the last value written for each key not removed since, no key twice, iterated in the order of first insertion since last removal; a set likewise.",
 "all histories of operations","unbounded histories",
 [C+"collections.rs: push, insert, remove, clear, get_dict_index, set_index", V+"value/collections.rs"])
p("Set algebra",
 "a|b, a&b, a-b, a^b contain exactly the elements of the mathematical union, intersection, difference, symmetric difference, without duplicates, leave their operands unchanged, and keep operand order; union/intersect/difference builtins agree with the operators on membership.",
 "all pairs of sets","all sets",
 [V+"operator.rs: binary_sub, binary_bitwise_*", C+"collections.rs: set_union, set_intersect, set_difference"])
p("Heaps pop elements in ascending order",
 "Over any history of pushes and pops on a heap, every pop returns a minimum of the current contents and removes exactly one occurrence of it; popping everything sorts.",
 "all histories","unbounded histories",
 [V+"value/collections.rs: Heap", C+"collections.rs: push, pop"])
p("sort, min, max, reverse, zip, sum laws",
 "sort returns an ordered permutation of its input; min returns the first minimum and max the last maximum of the input; reverse is an involution; zip has the length of its shortest argument with exact tuples; sum of ints is the wrapped sum.",
 "all lists","all lengths",
 [C+"collections.rs: sort, min, max, reverse, zip, sum"])
p("List mutation operations",
 "push, push_front, pop, pop_front, insert, remove act exactly as on a mathematical sequence: they fail exactly on empty/out-of-range arguments, leaving the list unchanged, and otherwise change exactly the addressed position.",
 "all lists, indices and histories of operations","unbounded histories",
 [C+"collections.rs: push, push_front, pop, pop_front, insert, remove"])
p("Higher-order builtins call their function once per element in order",
 "map, filter, flat_map, reduce, any, all, find, index_of call the given function on the elements in order, exactly once each up to the deciding one, stop at the first error, and return the mathematically expected result.",
 "all lists and all (stateful, possibly failing) functions","functions are arbitrary and effectful",
 [C+"collections.rs: map, filter, flat_map, reduce, predicate, left_find"])
p("group_by partitions its input",
 "group_by(n) splits a list into consecutive chunks of length n (the last possibly shorter) whose concatenation is the input; group_by(f) gives a dict from keys to the elements having this key in input order, keys in order of first appearance, whose groups partition the input; n <= 0 is an error.",
 "all lists, n, and functions f","unbounded",
 [C+"collections.rs: group_by"])
p("Permutations and combinations enumerate exactly once",
 "combinations(n) yields each n-subset of positions once in lexicographic order; permutations(n) each n-arrangement once.",
 "all lists and n","combinatorial",
 [C+"collections.rs: permutations, combinations"])
p("char/ord and hex/bin/int conversions round-trip",
 "ord(char(c)) = c for every c for which char succeeds, char fails exactly for invalid code points; int parsing of hex(n)/bin(n) text gives n back.",
 "all integers","boundary code points, sign, truncation to 32 bits",
 [C+"strings.rs: to_chr, to_ord, to_hex, to_bin"])
p("String formatting consumes exactly its arguments",
 "fmt % args succeeds exactly when the number of directives (%% excluded) equals the number of arguments and each argument suits its directive; literal text is copied, %% yields %, padding never truncates.",
 "all format strings and argument lists","grammar-shaped, unbounded inputs",
 [C+"strings.rs: StringFormatter, format_string"])
p("String helpers round-trip",
 "join(split(s, sep), sep) = s for nonempty literal separators; split never yields a piece containing the separator; escaped regex text matches only itself; strip and case helpers touch nothing else.",
 "all strings","all strings",
 [C+"strings.rs: split, join, escape_regex, trim, to_lower, to_upper"])
p("Call arity is enforced uniformly",
 "A function with p required, d optional parameters and possibly a variadic tail called with n arguments runs exactly when n is within [p, p+d] (or >= p if variadic) with parameter i bound to argument i and missing optionals set to their defaults, is partially applied when 0 < n < p, and is an error otherwise.",
 "all parameter shapes and argument counts","unbounded shapes and counts",
 [V+"value/func.rs: Function::in_range, num_var_args, jump_offset", V+"mod.rs: invoke, call_function"])
p("Partial application is transparent",
 "f(a1..ak)(b1..bm) has the same effect as f(a1..ak,b1..bm) whenever k is below the required argument count, for user functions, closures and builtins.",
 "all functions, all splits of an argument list","every split of every argument list and function shape",
 [V+"mod.rs: invoke (PartialFunction, PartialNativeFunction)", C+"mod.rs: invoke_partial"])
p("Operator sections swap correctly",
 "(op x)(y) computes y op x and (op)(x)(y), or op(x,y), computes x op y; the swap of builtin operators is an involution that maps every asymmetric operator to its flipped form.",
 "all operators and operands","whole table x all values",
 [C+"mod.rs: NativeFunction::swap, as_binary_operator", K+"parser/expr/optimizer.rs"])
p("Builtin dispatch is the same however a builtin is called",
 "Calling a builtin directly, through partial application, or through the pre-resolved fast paths used by map/filter/sort etc. runs the same implementation with the same argument list, or reports the same incorrect-argument-count error.",
 "all builtins, all argument counts","three dispatchers x ~100 builtins x argument counts",
 [C+"mod.rs: invoke_stack, invoke_partial, InvokeArg0, InvokeArg1, InvokeArg2"])
p("Destructuring binds each name to the element it denotes",
 "A pattern without * succeeds exactly on iterables whose length equals the number of terms, with one * exactly on those at least as long as the other terms; then leading terms get leading elements, trailing terms trailing elements, the starred term the list in between, nested patterns recursively; a failing match reports an error.",
 "all patterns of any nesting and all values","recursive patterns, all lengths",
 [C+"pattern.rs: Pattern::apply"])
p("Deep copy yields an equal, disjoint object graph",
 "copy(v) terminates on every (also cyclic) object graph, the result is isomorphic to the original including sharing, shares no mutable object with it, and leaves the original unchanged.",
 "all finite object graphs","cycles and sharing",
 [C+"collections.rs: copy, copy_recursive"])
p("Memoised functions compute each argument tuple at most once",
 "A @memoize'd function called over any history returns for each argument tuple the first result computed for it, and calls the underlying function exactly once per distinct tuple that succeeded (failed calls are not cached).",
 "all call histories, arbitrary underlying functions","stateful, unbounded histories",
 [C+"mod.rs: invoke_memoized"])
p("Dict default factories",
 "Reading a missing key of a dict with a default inserts and returns the default, once; without default it is an error and the dict is unchanged; present keys never consult the default.",
 "all histories","stateful",
 [C+"collections.rs: get_dict_index, dict_set_default"])
p("Branches in compiled code go where the source says",
 "Linearising the compiler's control flow graph (emit) preserves execution: from any block and state, running the flat code with relative jumps performs exactly the instruction sequence of the graph, for forward, backward and merged branches.",
 "all control flow graphs built by the compiler","arbitrary graphs",
 [K+"parser/core/graph.rs: Code::emit, Block, BlockEnd"])
p("The bytecode peephole optimiser preserves behaviour",
 "A program that exits or fails with a runtime error when linked without the bytecode optimiser ends with the same exit or error value, the same output and the same heap when linked with it, and with no other outcome; the optimised code is never longer.",
 "all well-formed programs (main and functions, with defaults, closures, callbacks from builtins), all builtin implementations, all initial states, runs of any length","rewriting overlaps, jumps and return addresses move",
 [K+"parser/core/optimizer.rs"])
p("Compiled expressions compute the value the source denotes",
 "For every expression the emitted bytecode run from any stack pushes exactly the value (or raises exactly the error) of a left-to-right big-step evaluation, leaving everything below untouched.",
 "all expressions of every depth, all environments","structural induction over all programs",
 [K+"parser/codegen.rs: emit_expr", V+"mod.rs: run_instruction"])
p("Short circuit and comparison chains",
 "a and b, a or b, if-then-else evaluate only the needed operands; a < b < c evaluates each operand at most once, left to right, stopping at the first false link, and yields the conjunction.",
 "all expressions","effects of unevaluated operands",
 [K+"parser/codegen.rs", V+"opcode.rs: Compare, JumpIfFalse"])
p("The expression optimiser preserves results",
 "Constant folding, composition-to-call rewriting, dead-branch elimination and partial call merging do not change the value of any expression that evaluates without error.",
 "all expressions","rewriting on all trees",
 [K+"parser/expr/optimizer.rs"])
p("List, set, dict and call spreads",
 "[a, ...b, c] builds the concatenation in order; a call with ...b passes exactly the spread elements in place, for any nesting of literals and calls.",
 "all literals/calls with any number of spreads and nesting","nested accumulators",
 [V+"mod.rs: literals, LiteralAcc, LiteralUnroll, Unroll, Call", K+"parser/codegen.rs"])
p("Closures capture variables, not values",
 "All closures capturing one variable observe each other's and the enclosing function's assignments while the scope is live and continue to share one cell after it is left; variables of different activations or loop iterations are never shared.",
 "all interleavings of closure creation, assignment, scope exit and calls","histories",
 [V+"mod.rs: CloseLocal, CloseUpValue, LiftUpValue, PushUpValue, StoreUpValue"])
p("Returning from a function restores the caller exactly",
 "After Return the value stack is the caller's stack with callee and arguments replaced by the one result, for any contents of the frame.",
 "all stacks and frames","arbitrary stack contents",
 [V+"mod.rs: Return, call_function"])
p("Globals are unreadable before definition",
 "Reading or writing a global before its declaration has executed is a runtime error that changes nothing; afterwards reads give the last write.",
 "all execution histories","dynamic order of definitions and calls",
 [V+"mod.rs: InitGlobal, PushGlobal, StoreGlobal"])
p("Lexing is total and locations are faithful",
 "For every input text the scanner terminates, its tokens' locations are increasing, disjoint and within the text, and re-reading the text at a token's location gives this token.",
 "all input texts","all strings",
 [K+"scanner.rs"])
p("Numeric and string literals denote what is written",
 "Every decimal, hex and binary literal (with _ separators) denotes its value or is reported as invalid when it exceeds the supported size; quoting and scanning back a string is the identity; keywords and identifiers are never confused.",
 "all literals","all digit strings and texts",
 [K+"scanner.rs: scan_numeric*, scan_string, scan_identifier"])
p("Comments and whitespace do not affect tokens",
 "Inserting whitespace or a comment between tokens does not change the token sequence; a block comment ends at its first */.",
 "all texts","all comment bodies",
 [K+"scanner.rs: advance (comments)"])
p("A failed REPL/eval compilation leaves the session unchanged",
 "If incremental compilation fails, all previously compiled code, constants, globals, functions, patterns and fields keep their indices and contents; if it succeeds old indices stay valid.",
 "all compile histories","histories",
 [K+"mod.rs: incremental_compile, CompileParameters save/restore"])
p("Failed hashing of recursive structures is detected",
 "Inserting a self-containing structure into a set or dict reports the recursion error, and the recursion guard is clean afterwards so later operations are unaffected.",
 "all histories","stateful flag across operations",
 [V+"value/collections.rs: guard_recursive_hash"])
p("Vector operators act elementwise",
 "For vectors of equal length op acts elementwise, a scalar is broadcast, the first failing component determines the error, and the operands are unchanged.",
 "all vectors, nested arbitrarily, all operators","all lengths",
 [V+"operator.rs: apply_vector_*"])
p("Enumerate and its reverse",
 "enumerate(xs) yields (0,x0),(1,x1),..., one per element; searching an enumeration from its end (rfind, rindex_of) visits the same pairs in reverse order.",
 "all iterables","all lengths",
 [V+"value/range.rs: Enumerate", V+"value/mod.rs: Iterable"])
p("Rational arithmetic is exact and reduced",
 "If at least one operand is rational (the other rational, int or bool), + - * / give the exact rational result in lowest terms with positive denominator; dividing by zero is an error.",
 "all rationals","infinitely many numerators and denominators",
 [V+"operator.rs: binary_add, binary_sub, binary_mul, binary_div", V+"value/number.rs: RationalType"])
p("Operators keep values well formed and never crash the interpreter",
 "Applying any unary or binary operator to well-formed values returns a well-formed value or a Cordy error: never a complex number with zero imaginary part, an unreduced rational, an out-of-range int, a set with duplicates, and never a panic.",
 "all operators and all operands, nested vectors included","the crashing operand pairs are isolated points of a 2^128 space",
 [V+"operator.rs: UnaryOp::apply, BinaryOp::apply", V+"value/number.rs: IntoValue"])
p("Membership tests",
 "x in xs is true exactly when xs has an element equal to x (lists, vectors, heaps), a matching element (sets) or key (dicts), or x as a substring (strings); not in is its negation.",
 "all values and containers","all lengths",
 [V+"operator.rs: binary_in"])
p("Repetition",
 "s * n and n * s repeat a string or list n times for n >= 0 and are an error for n < 0.",
 "all strings, lists and ints","the element count overflows only for huge n",
 [V+"operator.rs: binary_str_repeat, binary_list_repeat"])
p("max and min operators",
 "max(a,b) and min(a,b) return one of their operands each (the other one), bounding both operands in the value order; for equal operands max returns the second and min the first.",
 "all pairs of values of one ordered kind","all values",
 [V+"operator.rs: BinaryOp::apply"])
p("counter, dict(...), keys and values",
 "counter(xs) has one entry per distinct element in order of first appearance holding its number of occurrences; dict(pairs) is the dict obtained by writing the pairs in order and rejects anything that is not a pair; keys and values list the entries in order.",
 "all finite iterables","all lengths, all patterns of equal elements",
 [C+"collections.rs: counter, collect_into_dict, dict_keys, dict_values"])
p("min_by and max_by with a key function",
 "min_by(f, xs) calls f once per element in order and, if no call fails, returns the first element whose key is least; max_by returns the last element whose key is greatest; an empty input is an error.",
 "all finite iterables and key functions with side effects","all lengths, all key functions",
 [C+"collections.rs: min_by, max_by", "/repo/src/util.rs: catch"])
p("gcd and lcm",
 "gcd(a, b, ...) of two or more ints or bools is their greatest common divisor (wrapped to 63 bits, which matters only for 2^62); lcm is their least common multiple whenever that is at most 2^62 - 1; a single int is returned as it is; no argument, or a non-int argument, is an error naming the first such argument.",
 "all argument lists","number of arguments and values unbounded",
 ["cordy-sys/src/core/math.rs: gcd, lcm"])
p("sqrt",
 "sqrt(n) of an int n >= 0 is the largest r with r*r <= n; sqrt of the square of a non-negative rational is that rational, and sqrt of a rational never exceeds the true root; negative arguments are errors.",
 "all ints and rationals","all values",
 ["cordy-sys/src/core/math.rs: sqrt"])
p("abs, real, imag, count_ones, count_zeros",
 "abs is non-negative and exact for ints and rationals, componentwise on complex numbers, elementwise on vectors; real and imag return the parts of a complex number; count_ones/count_zeros count the bits of the 64-bit two's complement and add up to 64.",
 "all values","all values",
 ["cordy-sys/src/core/math.rs: abs, get_real, get_imag, count_ones, count_zeros"])
p("Conversions between ints and rationals",
 "rational(a, b) is the exact quotient in lowest terms and an error exactly for b = 0; numer and denom are its parts; int(q) succeeds exactly for whole numbers in the int range and int(rational(n)) = n.",
 "all ints and rationals","all values",
 ["cordy-sys/src/core/math.rs: convert_to_int, convert_to_rational, get_numer, get_denom"])
p("Every struct or module declaration creates its own type",
 "The value of a struct, module or native module declaration is the type declared there, with its own fields and methods, never that of another declaration, in any history of REPL lines, evals and declarations.",
 "all sessions and declarations","histories",
 ["cordy-sys/src/compiler/parser/semantic.rs: declare_const, end_module, declare_type","cordy-sys/src/compiler/parser/mod.rs: parse_struct_or_module, parse_native_module","cordy-sys/src/vm/value/mod.rs: StructTypeImpl"])
p("Lexical scoping",
 "A name means the innermost initialised variable with that name, in this function or one around it (as a captured variable), else a global, else it is an error or left to a global declared later; blocks and functions end the scope of exactly the variables declared in them; one block cannot declare a name twice; a captured variable stays the same variable for all references to it.",
 "all programs: all nestings of blocks, functions, declarations and references","programs of any size and nesting",
 ["cordy-sys/src/compiler/parser/semantic.rs: declare_local, pop_locals, resolve_reference, resolve_upvalue, init_local","cordy-sys/src/compiler/parser/mod.rs: parse of functions and blocks"])
p("Expressions parse by the documented grammar",
 "An expression is accepted exactly if it is one of the documented grammar, and then has the one tree that grammar gives it: operators bind by the documented precedence table, all to the left except assignment; calls, indexing and fields bind before prefix operators; comparisons chain; a newline matters only before a bracket, a name, a literal, fn or if; and the parser ends on every input.",
 "all sequences of tokens","inputs of any length and nesting",
 ["cordy-sys/src/compiler/parser/mod.rs: parse_expr, parse_expr_1_terminal to parse_expr_11, parse_comma_expr_arg","cordy-sys/src/compiler/parser/core/mod.rs: peek, advance","docs/language.md: Precedence and Associativity"])
p("eval is the inverse of repr",
 "eval(repr(v)) is v again, for every value v made of nil, booleans, numbers, strings and collections, ranges and slices; so different data has different texts. str of a string is the string itself, str of other data is its repr.",
 "all data values of any size and nesting","all values",
 ["cordy-sys/src/vm/value/mod.rs: to_str, to_repr_str, map_join","cordy-sys/src/compiler/scanner.rs","cordy-sys/src/compiler/parser/mod.rs: parse_expr","docs/library.md: Repr, Eval"])
p("typeof and is",
 "Every value has one type, returned by typeof; typeof(x) == typeof(y) exactly for values of the same type (the same struct for structs); x is T is true exactly if the type of x is T or a subtype of T (bool of int, int of complex and rational, collections and str of iterable, everything of any), x is not T is the opposite, and anything that is not a type is rejected; so x is typeof(x) is always true.",
 "all values and types","all values",
 ["cordy-sys/src/core/mod.rs: type_of","cordy-sys/src/vm/operator.rs: binary_is","cordy-sys/src/vm/value/mod.rs: is_evaluable, is_iterable, is_instance_of","docs/library.md: Type Of"])
p("Printing objects that contain themselves",
 "repr and str of any object end and do not panic, however objects contain each other; an object is written as dots ([...], {...}, (...), Name(...)) exactly where it is a part of itself, and in full everywhere else, also if it occurs several times; an object that does not contain itself is written as the tree it stands for.",
 "all object graphs, with sharing and cycles","all heaps and values",
 ["cordy-sys/src/vm/value/mod.rs: RecursionGuard, safe_to_repr_str, recursive_guard","cordy-sys/src/vm/value/range.rs: Enumerate to_repr_str"])
p("Error reports and stack traces",
 "A compile or run time error is reported with the number of the line in which the place of the error starts, the text of this line (and of the other lines of the place), and marks under exactly the characters of the place; making the report never panics, for any text and any place in it; the place of an expression made of parts is the smallest that covers them; the stack trace lists exactly the active calls, innermost first, at any depth of recursion (repeated lines are counted), each with the function whose code it is.",
 "all source texts, places, call stacks and layouts of functions","all texts and call stacks",
 ["cordy-sys/src/reporting.rs: Location, SourceView::format, lineno","cordy-sys/src/vm/error.rs: with_stacktrace, find_owning_function","cordy-sys/src/compiler/parser/mod.rs: emit_code"])
p("Fields and methods of structs",
 "A program compiles, as far as fields are concerned, exactly if no declaration has two members of one name and every name used as a field is a member of some declaration, before or after the use. Calling a struct type with as many arguments as it has fields makes a new object whose fields are the arguments in order, any other number is an error; x->f reads the field, x->f = v changes this field of this object and nothing else, x->f op= v writes the result of the operator; x->m is the method m bound to x, T->m the method itself, T->f the getter of f; anything else is an error that changes nothing; nothing panics, however many structs share names of fields.",
 "all programs of declarations and uses of fields, all heaps and objects","all programs, heaps and histories of declarations",
 ["cordy-sys/src/compiler/parser/semantic.rs: Fields, declare_field, declare_method, resolve_field","cordy-sys/src/vm/value/mod.rs: get_field, set_field, StructImpl, StructTypeImpl","cordy-sys/src/vm/mod.rs: invoke_func_eval, store_field, GetField, SetField"])
p("Syntax highlighting",
 "Highlighting a text, or a line which continues an earlier text, never fails; the characters given to the formatter are exactly those of the text, in sections that are not nested and end with the type they have begun with. Each token is in the colour of its type; between tokens white space is plain and the rest is a comment. A continued line is shown as it would be in the whole text. The line-breaking formatter changes nothing but that no section contains a line feed.",
 "all texts, prefixes and tables of names","texts of any length and content, with and without errors",
 ["cordy-sys/src/syntax.rs: scan, consume_whitespace_and_comment, BlockingFormatter","cordy-sys/src/compiler/scanner.rs: ScanToken::ty","cordy-sys/src/compiler/mod.rs: scan"])
p("Formatted pages",
 "The page written by --format, read as HTML, shows the text with its colours: no character of the text is taken for markup, nothing but carriage returns is lost, and the types left out have no colour; two different texts without tabs and carriage returns give different pages. The same holds for the web terminal.",
 "all texts, sets of types to leave out, and tables of names","texts of any length and content",
 ["cordy/src/main.rs: RenderedFormatter, run_main","cordy-web/src/lib.rs: TerminalFormatter, scan"])
p("The command line",
 "The options of the cordy command mean the same in any order, up to the first argument that is not an option: this is the file, and everything after it is passed to the program unchanged, even what looks like an option. A command line is accepted exactly if it asks for at most one of help, version, disassembly and format, links no module twice and writes each option as documented; otherwise the first thing that is wrong is reported and nothing is run. No command line makes the command panic.",
 "all lists of arguments","all lists of any length and all texts",
 ["cordy/src/main.rs: parse_args, main, run_main, Mode::set"])
p("Sessions of the REPL",
 "Entering lines one after the other does what the language says for them in this order: the variables and functions of a line are those of all later lines, with the values they have then; a line that ends with an expression prints its value, and everything printed comes in the order of the lines; after each line the session waits with nothing left over but the variables. A line that fails is reported, keeps the effects it had before the error, and the session goes on; exit ends the session.",
 "all lists of lines, of any length, with closures, loops and literals over several lines, for all primitive operations","all sessions",
 ["cordy-sys/src/repl.rs: Repl::run","cordy-sys/src/compiler/parser/mod.rs: parse_incremental_repl, teardown","cordy-sys/src/vm/mod.rs: run_until_completion, run_recovery, incremental_compile, ExitType"])
p("Names declared later",
 "A function may refer to globals, functions and methods that are declared after it. The reference then means what it would mean if the name were known already: the variable, function or method first declared under that name, or else the outer variable of that name; it takes effect at its place among the other operations of the function. A name that is never declared, and an assignment to a function, is an error.",
 "all sequences of operations and references of one block, and all sequences of later declarations","all programs, names and orders of declarations",
 ["cordy-sys/src/compiler/parser/semantic.rs: LateBinding, resolve_late_bindings, resolve_remaining_late_bindings","cordy-sys/src/compiler/parser/core/mod.rs: push_load_lvalue, push_store_lvalue","cordy-sys/src/compiler/parser/core/graph.rs: next_opcode, insert, do_insert"])
p("Disassembly",
 "The disassembly of a program has one line for each instruction, in order, with the number of the instruction and, where the source line changes, that line; the instructions are aligned. An instruction that reads or writes a variable is shown with the name of this variable, optimized or not; one that jumps is shown with the number of the instruction it goes to.",
 "all programs, with any edits by the optimizer","programs of any length and any number of lines",
 ["cordy-sys/src/compiler/mod.rs: CompileResult::disassemble","cordy-sys/src/vm/opcode.rs: Opcode::disassembly","cordy-sys/src/compiler/parser/core/graph.rs: Code::emit, Code::push, Block"])
p("Lines entered into the REPL",
 "A text of several lines may be entered line by line: while it is not complete the REPL asks for more with another prompt and nothing happens; with the line that completes it, it does what the whole text entered at once would do, and is shown as one text in error reports. Blank lines between inputs do nothing. An error in an input ends this input only; the end of the input and an error of the reader end the session.",
 "all lists of lines, all compilers and machines","all sequences of lines, and all ways in which compiling and running can end",
 ["cordy-sys/src/repl.rs: run, Repl::run, Repl::prompt","cordy-sys/src/reporting.rs: SourceView::push, text_mut"])
open('/verif/properties.jsonl','w').write("".join(json.dumps(x)+"\n" for x in P))
print(len(P))
