# DESIGN

Formal model, in Rocq (Coq 8.16.1), of the Cordy interpreter (`/repo`, Rust), and theorems about it.
The list of properties is `properties.jsonl`; which theorems belong to which property is in `MANIFEST.json`
(regenerated by `tools/manifest.py`, as this file is by `tools/design.py`).

## Conventions

* Model files contain only definitions, each citing file and lines in `/repo` (paths relative to
  `/repo/cordy-sys/src`). Vocabulary needed to state properties is in `*Spec.v`, independent of the model's
  helpers; proofs are in `*Proofs*.v` (and `Comp*.v` for the compiler); the property theorems are in `P_*.v`: statement, short proof, `Print Assumptions`,
  and examples showing that concrete cases meet the hypotheses.
* Rust `i64`/`usize` arithmetic is modelled as in the *release* profile: wrap-around modulo 2^64; shift counts masked by 63.
* Rust `Result` is data (`Ok`/`Err`), and a Rust panic is the separate outcome `Panic`, so "never crashes" can be stated.
* When the code violates the English property, the full statement is kept, the violation is a theorem `..._refuted`
  (a concrete counterexample executed in the model) and the strongest true part is proved, as `..._partial` if it covers only
  part of what the sentence says. A property with such a theorem has status `partial` in the manifest even if the true part is complete.
* `tools/mutate.py` applies wrong edits to a scratch copy of the model and rebuilds; `seeded/LOG.jsonl` records what failed.

## Trusted base

* Coq's kernel (with its virtual machine, `vm_compute`, used for concrete examples) and the standard library's definitions.
* `Print Assumptions` reports "Closed under the global context" for every theorem of `P_*.v`: no axiom is used.
  Loading the standard library brings the module `Coq.ssr.ssrunder` with the seven declarations
  `Under_rel.{Under_rel, Under_rel_from_rel, Under_relE, under_rel_done, Over_rel, over_rel, over_rel_done}` (fields of an opaque module of the
  standard library) into the environment; no theorem depends on them. No axioms, functors, module types, plugins or disabled checks of our own.
* That the model says what the code does: the definitions were written by reading the source, function by function; nothing was executed.
  The table of builtins (`Native.v`) was generated from the source text by `tools/gen_native.py`.
* Behaviour of libraries outside `/repo`, modelled from their sources or documentation: std `VecDeque`, `BinaryHeap` (algorithms modelled), `HashMap`,
  `char`, `i64`/`u64` parsing and formatting; indexmap 2.0.0 (`remove` = `swap_remove`), fxhash 0.2.1, itertools 0.10.5 (algorithms modelled),
  num-integer, num-rational (exact rationals), and stable sorting (by its documented contract: only a merge sort with the given comparison).

## What is modelled

| Model file | Code | Remarks |
|---|---|---|
| Base, Ptr | `vm/value/ptr.rs` 1-330: tagged words | 64-bit words as integers, pointers aligned |
| Lock | `vm/value/ptr.rs` 600-800: reference counts and borrow guards | one object, arbitrary histories |
| Native | `core/mod.rs` 28-425: table of builtins, arities, swaps | generated |
| Value | equality, ordering, hashing: `vm/value/ptr.rs`, `vm/value/*.rs` | contents of values, acyclic |
| Err, Ops | `vm/error.rs`, `vm/operator.rs`, `vm/value/number.rs` | `to_str` and `%` formatting are parameters there (formatting: Str) |
| Iter, Seq | `vm/value/range.rs`, `vm/value/mod.rs` iterators, `vm/value/slice.rs`, indexing and slicing in `core/collections.rs` | iterators over snapshots (Hof: live) |
| Coll, Heap, Combi | `core/collections.rs`, `vm/value/collections.rs` | aliasing of arguments not modelled |
| Hof | builtins that call back, over an arbitrary interpreter state | |
| Memo, Copy | `@memoize` and `copy` on object graphs with sharing and cycles | |
| Str | `core/strings.rs` | no regex engine; case mapping for ASCII |
| Disp | dispatch of builtins `core/mod.rs` 480-990 | |
| Pattern | `core/pattern.rs`, `compiler/parser/semantic.rs` 576-627 | |
| Scan | `compiler/scanner.rs` | whole file |
| Graph, Peep | `compiler/parser/core/graph.rs`, `compiler/parser/core/optimizer.rs`, `parser/mod.rs` teardown | |
| Vm | `vm/mod.rs` interpreter loop, calls, closures, upvalues; `vm/value/func.rs` | values other than functions and all operators are a parameter (`prims`): an arbitrary "world" with interaction trees |
| Lang, Compile, Lit | `compiler/parser/codegen.rs`, statement rules of `compiler/parser/mod.rs`, literals under construction | from resolved syntax trees |
| LangSpec, LangCheck | the specification of the source language (definitional interpreter), and the syntactic exclusions for C41-C45 | not code |
| Opt | `compiler/parser/expr/optimizer.rs` | |
| Math | `core/math.rs` | whole file except parsing a rational from a text |
| RecHash | hashing and insertion with borrowed sets and dicts, `guard_recursive_hash`: `vm/value/collections.rs` 63-202, `core/collections.rs` 40-69, 469-537 | heap with sharing and cycles; stored hashes; equal hashes of different inputs not modelled |
| Incr | incremental compilation `compiler/mod.rs` 64-198, `parser/mod.rs` 48-55, 215-268; what the parser does to the shared tables (`semantic.rs` declare_const, declare_function, fields, types, native library) | a parse is an arbitrary sequence of these changes |
| Resolve | local variables, scopes, captured variables: `compiler/parser/semantic.rs` 50-102, 178-231, 962-1015, 1108-1167, 1217-1402 | a program is a sequence of declarations, references, blocks and functions; no `self`, modules, late bindings |
| Parse | the parser of expressions: `compiler/parser/mod.rs` 1087-1090, 1196-2090, `compiler/parser/core/mod.rs` 43-192 | on tokens; a function literal is one token; stops at the first error |
| Repr | `repr` and `str`: `vm/value/mod.rs` 174-289, `number.rs` 36-49, 106-108, `range.rs` 100-158, `slice.rs` 48-62; reading a text as an expression and the value of literals: `compiler/mod.rs` 86-198, `parser/mod.rs` 224-268, `codegen.rs` 60-215 | finite values (no cycles); names of functions and types, and which non-ASCII characters are printable, are parameters |
| TypeOf | `typeof`: `core/mod.rs` 1092-1126 | `is` is in Ops |
| Show | `repr` and `str` of graphs of objects with the recursion guard: `vm/value/mod.rs` 174-289, 526-546 | heap with sharing and cycles; values without identity as in Repr |
| Report | error reports: `reporting.rs` 11-70, 88-103, 148-262; stack traces: `vm/error.rs` 103-142, 182-194, `func.rs` 94-96, `parser/mod.rs` 242-255 | one source entry; the error texts are parameters |
| Struct | declarations: `parser/mod.rs` 315-378, `semantic.rs` 746-757, 893-929, 1399-1480; fields and methods: `vm/value/mod.rs` 416-472, 683-789, `vm/mod.rs` 550-575, 690-698, 825-853 | values other than objects, types, getters and functions are opaque |
| Syntax | highlighting: `syntax.rs` 17-130, `scanner.rs` 174-190, `compiler/mod.rs` 17-22; `cordy/src/main.rs` 155-166, 246-296; `cordy-web/src/lib.rs` 45-51, 92-122 | a formatter is the list of the calls it gets; counting loops run as often as the difference; the table of native names is a parameter |
| Cli | the command line: `cordy/src/main.rs` 56-82, 84-139, 149-185, 215-238 | says what is asked for; reading the file, printing and running are not in this file |
| ReplRun, Repl | sessions: `repl.rs` 22-26, 62-122, `parser/mod.rs` 210-222, `vm/mod.rs` 70-87, 223-234 | a line is given as resolved statements and functions; reporting an error is a parameter; lines that do not compile are in Incr |
| LateBind | references to names declared later: `semantic.rs` 234-274, 360-371, 980-989, 1023-1104, `core/mod.rs` 212-283, `core/graph.rs` 122-127, 283-301 | one block of a function, which is complete before the declarations; patterns and locations are left out; the debug_assert of `insert` is not checked |
| Disasm | the disassembly: `compiler/mod.rs` 225-250, `vm/opcode.rs` 161-215; names: `core/graph.rs` 17-35, 145-164, 208-216, 268-301, `core/mod.rs` 288-303 | the pushes of a block come together; branches at the end of a block are given; the text of other opcodes and the lines are parameters |
| ReplIo | lines and inputs of the REPL: `repl.rs` 20-121, `reporting.rs` 104-149 | compiler, machine, recovery and reports are parameters |

## What is not modelled

The grammar of statements in `parser/mod.rs` (only the emission of code; expressions are in Parse),
annotated functions (`@e fn`), calls of FFI functions (`CallNative`), `monitor`, reading and writing files and standard
input, environment and arguments, the regex engine, the texts of error messages, the REPL's line editing,
the bindings to WASM, documentation tests. Memory exhaustion and host stack overflow. `unsafe` memory access is modelled only through the
tagged words (Ptr), reference counts and guards (Lock).

## Findings

Violations of the properties (each one a theorem `..._refuted`, see the list below), and further defects seen while reading:

* `resolve_upvalue` returns the captured slot instead of its position when the upvalue already exists: in
  `fn f(){ let a=1; fn g(){ let c=2; fn h(){ c; a; a } h() } g() }` the second `a` reads `c`.
* A `return` compiled before a later capture in a loop emits no `LiftUpValue` (C45_return_refuted); `continue` in `for` lifts only the inner scope
  (C45_iterations_refuted); `continue` in the `else` of a loop jumps to the loop start with the iterator already popped; `continue` in `do .. while` skips the condition.
* A `do .. while` after an expression statement without `;` pops once per iteration (C45_do_refuted).
* `if a {} elif b then x else y` leaves the stack unbalanced.
* Default argument expressions are resolved in the scope of the enclosing function but emitted in the callee.
* `assert (1 + 2) == 3` panics in the compiler; upvalues left by `pop_locals` make later struct methods at global scope emit `Closure` on a non-function.
* `fn f(*a = 1)` / `*a?` give two defaults, so the minimum argument count underflows; two variadic parameters are not rejected.
* `.=` on a field emits NotEqual; a failed `run_recovery` does not clear open upvalues, the unroll stack or the global count.
* Variadic parameters and partial application: the number of new arguments is used instead of the total (C32_variadic_refuted).
* `union(s, s)`, `intersect`, `difference` of a set with itself panic (mutable borrow while iterating).
* Copying a set whose element contains itself recurses forever in the hash.
* Insertion of a recursive structure inserts it and then reports the error.
* `sort_by`, `min_by`, `max_by` go on calling after an error; destructuring a dict looks up the keys 0, 1, ...
* The expression optimiser: exchanges complex operands once too often, turns errors in dead branches into compile errors, treats `exit` as free of effects;
  a constant expression that panics at run time panics the compiler.
* A failed `eval` is not undone (C51_eval_refuted); all native modules are equal constants, so the second one evaluates to the first (C66_native_refuted).
* A variable captured through an intermediate function resolves, from its second use on, to the wrong entry of the environment: another variable, or none at all (C67_refuted; `resolve_upvalue` keeps the index of the outer environment instead of the position found).
* A destructuring assignment to globals inside a module's function panics the compiler: `let x, y; module M { fn f() { x, y = 1, 2 } }` gives a late
  binding with fallback in a pattern, for which `resolve_remaining_late_bindings` has only `panic!()`.
* `[x +]` and `(x +, y)` are errors although `(x +)`, `[+]` and `(+, y)` are accepted (C68_partial_operator_refuted); a line `max = 3` continues the expression before it (C68_next_line_refuted).
* `repr` does not escape single quotes and writes escapes the scanner does not know; `(1,)` is written as `(1)`, the empty dict as `{}`, a rational as an integer division (C69_*_refuted).
* `range(3) is range` and `enumerate(x) is enumerate` are type errors, and a field getter or memoized function is not a `function`, so `x is typeof(x)` fails for these (C70_own_refuted).
* After non-ASCII characters errors are reported for the wrong line: lines are found by counting bytes, locations count characters (C72_unicode_refuted).
* A place that ends with the first character of a line is shown as if it ended in the line before, with marks beyond its end (C72_end_refuted).
* Highlighting a continued line measures the earlier text in bytes and the tokens in characters: after a line with a
  non-ASCII character the colours are shifted (C74_prefix_refuted). White space at the start of a line inside of a string
  has no colour (C74_continued_string_refuted).
* The web terminal does not escape `&`: the text `'&#91;'` is shown as `'['` (C75_web_refuted).
* In the REPL a line that fails leaves its variables declared, without a place on the stack: after `let x = 1 + nil` fails and `let y = 5`, `x` is 5 and
  `y` is not declared (C77_refuted).
* The `cordy` command ends with status 0 also after a compile or run time error; an unknown option is taken as the name of the file.
* References to names declared later are inserted one by one, when the name is declared, before
  the opcode that followed them, and so (C78, LateBind.v):
  adjacent references come in the order of the declarations (`fn f() { x = y }; let x = 1; let y = 2`
  stores to `x` before `y` is loaded); a reference at the end of a block has no opcode to be put
  before: its id is that of the first opcode inserted, or none, and in the second case the debug_assert
  fails; and for a method with `self` declared later, `GetMethod` comes before the push of `self`
  (`struct A() { fn a(self) { b() + b() } fn b(self) { 9 } }` binds the second `b` to 9; with a single call the
  test of the repository passes because `self` itself happens to be on top of the stack, and is replaced).
* The opcodes inserted for such references carry no name, so in a disassembly every name after one
  of them is shown at the wrong opcode.
* In a disassembly the numbers of the instructions are taken modulo 10000, the targets of jumps are
  not (C79); `AssertTest` and `AssertCompare` are shown with the distance to their target, all other jumps with the target.
* `0..=` is not scanned by maximal munch.

## Properties: what is proved and where

### C01 Integer literals and results are stored exactly or wrapped to 63 bits

Storing any 64-bit integer in a Cordy value and reading it back yields the same integer whenever it lies in [-2^62, 2^62-1], and otherwise the unique integer of that interval congruent to it modulo 2^63.

Plan: Ptr.v: words as Z mod 2^64, from_i64/as_precise_int as bit operations; round-trip law.

Status: proved.

* `C01_int_store_load` (P_Ptr.v): C01. Reading back a stored 64-bit integer gives the unique integer of [-2^62, 2^62-1] congruent to it modulo 2^63, hence the same integer whenever it already lies there; and the stored word is an int again.

### C02 Inline values never get confused with one another

nil, both booleans, every integer, every builtin function, every field accessor, every string of at most 7 bytes and every heap pointer are encoded to machine words such that the reported type is the constructor's type, reading the payload back gives the original payload, and two inline values have the same word exactly when they are the same value.

Plan: Ptr.v: all inline constructors/observers; type_of/decoders round-trip, injectivity.

Status: proved.

* `C02_inline_faithful` (P_Ptr.v): C02. For every inline value: the word fits 64 bits, the reported type is the constructor's, the payload reads back, each of the seven type tests answers exactly "is it this constructor", and words of two inline values are equal exactly when the values are.
* `C02_bool_as_int` (P_Ptr.v): Where truth of a boolean matters as an integer: `as_int` of true is 1 and of false is 0 (used by arithmetic on booleans).

### C03 Borrow guards exclude each other

Over any sequence of shared/mutable borrow attempts and guard drops on one value, a mutable guard is never outstanding together with any other guard; an attempt succeeds exactly when the outstanding guards allow it, a failed attempt changes nothing, and when all guards are dropped the value is again fully borrowable.

Plan: Lock.v: u16 lock word state machine vs. a ghost multiset of guards; invariant over histories.

Status: partial. The lock word is a u16: the guarantees hold up to 65535 simultaneous shared guards (C03_exclusion, C03_exact, C03_released); C03_unbounded_refuted shows that the next borrow is refused.

* `C03_exclusion` (P_Lock.v): C03: in every history of attempts and guard drops, however long and with however many guards, a mutable guard is never outstanding together with a shared one (and a second mutable guard is never handed out).
* `C03_exact` (P_Lock.v): C03: below 65535 simultaneous shared guards an attempt succeeds exactly when the outstanding guards allow it ([guard_step] is the specification), and a failed attempt changes nothing.
* `C03_released` (P_Lock.v): C03: once all guards are dropped the value is fully borrowable again.
* `C03_unbounded_refuted` (P_Lock.v): The bound is needed: with 65535 shared guards the next shared borrow is refused.

### C04 Heap values are freed exactly once, when the last handle is dropped

Over any history of clones and drops of handles to a heap value the value is freed exactly when the number of live handles reaches zero, never earlier and never twice.

Plan: Lock.v: u32 refcount machine vs. ghost set of handles; invariant over histories.

Status: partial. The count is a u32: proved up to 2^32 - 1 handles; C04_unbounded_refuted: beyond that the counter wraps and the object is freed early.

* `C04_refcount` (P_Lock.v): C04: over every history of allocations, clones, drops and moves of handles (below 2^32 simultaneous handles): no operation touches released memory, an object is allocated exactly as long as some handle to it exists (in the program or inside an allocated object), its counter is the number of these handles, and its memory was released exactly once if it is dead and never if it is alive.
* `C04_unbounded_refuted` (P_Lock.v): Without the bound it is false: 2^32 clones wrap the counter and the next drop frees the object although handles are left.

### C05 Ranges produce exactly the arithmetic progression they denote

range(a,b,s) rejects s = 0 and otherwise iterates over a, a+s, a+2s, ... exactly up to (not including) the first term that reaches or passes b, then stops forever.

Plan: Range.v: Range::from/next; induction on the number of steps against the closed-form progression.

Status: proved.

* `C05_range_progression` (P_Iter.v): C05: range(a, b, s)

### C06 `x in range` agrees with iterating the range

x in range(a,b,s) is true exactly when iterating the range produces x.

Plan: Range.v: contains vs. membership in the iterated sequence.

Status: proved.

* `C06_range_membership` (P_Iter.v): C06: membership agrees with iteration

### C07 len of a range is the number of elements it iterates

len(range(a,b,s)) equals the number of values that iterating it produces.

Plan: Range.v: len; expected false for non-divisible spans -> refutation + proof on the divisible domain.

Status: partial. False of the code: len(range(0,5,2)) is 2. C07_range_len_partial says exactly when it is right (empty range, or the step divides the span) and that otherwise it is one too small.

* `C07_range_len_refuted` (P_Iter.v): C07: len(range) is NOT the number of iterated elements
* `C07_range_len_partial` (P_Iter.v): what does hold: it is exact iff the range is empty or the step divides the span, and otherwise one too small

### C08 Reversing a range reverses its element sequence

reverse(range(a,b,s)) iterates the same values as range(a,b,s) in the opposite order, and rindex_of searches a range from its end.

Plan: Range.v: reverse; expected false -> refutation + what does hold.

Status: partial. Reversal is proved for all ranges. rindex_of/rfind: proved for every iterable except ranges and enumerations, where it is false (C08_rindex_of_refuted).

* `C08_reverse` (P_Iter.v): C08: the builtin reverse: exactly the elements in opposite order, and an involution
* `C08_rindex_of_partial` (P_Iter.v): rfind / rindex_of: last match, on every iterable that is not a range or enumerate
* `C08_rindex_of_refuted` (P_Iter.v): the missing cases are false: `range(5) . rindex_of(0)` is -1 although 0 is an element

### C09 Indexing is total, exact and bounds-checked

For a sequence of length n, a[i] is the i-th element for 0<=i<n, the (n+i)-th for -n<=i<0, and an index error for every other i; assignment a[i]=v changes exactly that element and nothing else and fails in exactly the same cases.

Plan: Seq.v: check_index, get/set index against nth_error/update.

Status: partial. Proved for lists, vectors and ASCII strings; for non-ASCII strings false (C09_string_refuted): the code mixes byte and character counts and panics.

* `C09_index` (P_Seq.v): C09 for lists and vectors (lengths below 2^62, which memory bounds anyway)
* `C09_assign` (P_Seq.v)
* `C09_string_partial` (P_Seq.v): strings: only for ASCII contents
* `C09_string_refuted` (P_Seq.v): 'e-acute'[1] crashes the interpreter, and 'e-acute'[-1] too, though the string has length 1

### C10 Slices select exactly the progression of in-range indices

a[lo:hi:step] with step /= 0 returns exactly the elements at lo', lo'+step, ... strictly before hi' (negative bounds counted from the end, omitted bounds meaning the natural ends), skipping indices outside the sequence; step 0 is an error; a[:] = a, a[::-1] = reverse(a), a[:k]+a[k:] = a.

Plan: Seq.v: get_slice against an index-progression specification; corollaries.

Status: partial. Proved for lists and vectors and for ASCII strings; false for other strings (C10_string_refuted).

* `C10_slice` (P_Seq.v): C10 for lists and vectors
* `C10_slice_laws` (P_Seq.v)
* `C10_slice_value` (P_Seq.v): a first-class slice value [a:b:c] applied to a sequence is the slice
* `C10_string_partial` (P_Seq.v)
* `C10_string_refuted` (P_Seq.v): 'e-acute'[:] crashes

### C11 Integer arithmetic is exact modulo the 63-bit wrap

For ints (and bools read as 0/1) +, -, *, unary - return the mathematical result wrapped to 63 bits; hence + and * are commutative and associative, * distributes over +, and results that fit are exact.

Plan: Ops.v over Value.v; results vs Z arithmetic modulo 2^63.

Status: proved.

* `C11_arith` (P_Ops.v)
* `C11_exact` (P_Ops.v)
* `C11_laws` (P_Ops.v)

### C12 Division and modulo are floored and consistent

x / 0 and x % 0 are errors; for y /= 0, x / y is floor(x/y), x % y has the sign of y and absolute value below |y|, and (x / y) * y + x % y = x (up to the 63-bit wrap, which only the quotient MIN / -1 triggers).

Plan: Ops.v; floor division laws.

Status: proved.

* `C12_division` (P_Ops.v)

### C13 Power and shifts compute the mathematical operation

x ** n for n >= 0 is x^n wrapped to 63 bits and an error for n < 0; x << n is x*2^n wrapped, x >> n is floor(x/2^n), and a negative shift amount shifts the other way.

Plan: Ops.v; u32 exponent truncation and masked shifts modelled -> true on a domain, refuted beyond.

Status: partial. Proved for exponents below 2^32 and shift amounts between -63 and 63; beyond that false of the code (three counterexamples): the exponent is truncated to u32, the amount masked to 6 bits.

* `C13_pow_partial` (P_Ops.v)
* `C13_shift_partial` (P_Ops.v)
* `C13_pow_refuted` (P_Ops.v): the exponent is truncated to 32 bits: 2 ** 2^32 is 1
* `C13_shift_refuted` (P_Ops.v): the shift amount is masked to 6 bits: 1 << 64 is 1
* `C13_right_shift_refuted` (P_Ops.v): and 5 >> 64 is 5, not 0

### C14 Bitwise operators act bitwise and keep booleans boolean

& | ^ and unary ! on ints act on every bit of the two's complement representation, on two booleans they return booleans, De Morgan's laws hold, and results never leave the int range.

Plan: Ops.v; Z.testbit characterisation.

Status: proved.

* `C14_bitwise` (P_Ops.v)
* `C14_not` (P_Ops.v)
* `C14_de_morgan` (P_Ops.v)

### C15 Complex numbers normalise and form a ring

Complex arithmetic is componentwise modulo 2^64, a complex result whose imaginary part is zero is always returned as an int (so the two representations never overlap), and floor division by a nonzero complex divides conjugate-multiplied components by the squared norm with flooring.

Plan: Ops.v complex part.

Status: partial. Ring operations proved for all operands; power for exponents below 2^32; division for components below the bound `tiny`, because the squared norm wraps beyond it (C15_division_refuted).

* `C15_ring` (P_Ops.v)
* `C15_pow_partial` (P_Ops.v)
* `C15_division_partial` (P_Ops.v)
* `C15_division_refuted` (P_Ops.v): (1i) / (2^32 i): the norm 2^64 wraps to 0 and a "division by zero" error is reported

### C16 Equality is an equivalence relation

== is reflexive (on values without functions compared by identity), symmetric and transitive for all nested values, values of different kinds are unequal except equal ints and rationals, and != is its negation.

Plan: Value.v value_eq; mutual induction.

Status: proved.

* `C16_equality_equivalence` (P_Value.v): C16: == is an equivalence relation on all (well-formed) values of any nesting.
* `C16_equality_kinds` (P_Value.v): C16: values of different types are unequal, except an int and a rational.
* `C16_equality_list` (P_Value.v): C16: and what equality means for each structured type: equal length and elementwise equal for lists and vectors; for dicts, equal size and every key of one looked up in the other gives an equal value.
* `C16_equality_dict` (P_Value.v)

### C17 Ordering on one kind of value is a total order consistent with equality

On ints/bools/nil, rationals, complex numbers, strings, and lists/vectors of one such kind, < is a strict total order, cmp is antisymmetric and transitive, and a value compares as Equal exactly to the values == to it.

Plan: Value.v value_cmp on homogeneous carriers.

Status: proved.

* `C17_total_order` (P_Value.v): C17: on each ordered kind, of every nesting depth, comparison is a total order whose equality is ==.
* `C17_trichotomy` (P_Value.v)
* `C17_string_order` (P_Value.v): C17: strings are ordered by code points, ints numerically, lists lexicographically.
* `C17_int_order` (P_Value.v)
* `C17_operators_consistent` (P_Value.v): The four comparison operators are mutually consistent on *all* values, ordered or not.

### C18 Ordering across kinds is usable for sorting mixed data

Comparison is transitive on arbitrary values, so that sort of any list gives an ordered result.

Plan: Value.v: expected refutation by a mixed triple.

Status: partial. False of the code: comparison is not transitive across kinds (two counterexamples).

* `C18_mixed_order_refuted` (P_Value.v): C18 is false of the code: <= is not transitive across types (all other pairs of types compare as "equal"), so sorting mixed data is not meaningful.
* `C18_bool_rational_refuted` (P_Value.v): ... and even among numbers, once nil or booleans meet rationals:

### C19 Equal values hash equally

If a == b then a and b have the same hash, so that sets and dicts keyed by compound values find them.

Plan: Value.v hash as the sequence of words fed to the hasher; refutation for sets, proof for the rest.

Status: partial. False of the code for sets/dicts with several entries (order dependent hash) and for integral rationals; C19_equal_hash_partial proves it for all other values.

* `C19_equal_hash_refuted` (P_Value.v): C19 is false of the code: two equal sets with different (fx) hashes; and an int equal to a rational that hashes other data.
* `C19_int_rational_refuted` (P_Value.v)
* `C19_equal_hash_partial` (P_Value.v): What does hold: values free of sets/dicts with two or more entries and of rationals with denominator 1 feed the same data to the hasher whenever equal.

### C20 Sets and dicts behave as insertion-ordered finite maps

After any history of inserts, updates, removals and clears a dict contains exactly the last value written for each key not removed since, no key twice, iterated in the order of first insertion since last removal; a set likewise.

Plan: Coll.v IndexMap/IndexSet models vs. a finite-map specification over histories.

Status: proved.

* `C20_dict` (P_Coll.v): C20. After any history of calls on a fresh dict: no key twice; under each key the last value written and not erased since; keys in the order of their births.
* `C20_dict_read` (P_Coll.v): and so does reading the dict: `d[k]`
* `C20_set` (P_Coll.v): a set holds exactly the elements written and not erased since, once each, by birth
* `C20_remove_answer` (P_Coll.v): `remove` tells whether the key was there; `pop` takes the youngest
* `C20_pop_youngest` (P_Coll.v)

### C21 Set algebra

a|b, a&b, a-b, a^b contain exactly the elements of the mathematical union, intersection, difference, symmetric difference, without duplicates, leave their operands unchanged, and keep operand order; union/intersect/difference builtins agree with the operators on membership.

Plan: Coll.v set operators.

Status: partial. Everything is proved except that `difference` (the builtin, not `-`) keeps the order of the remaining elements, which is false.

* `C21_builtins` (P_Coll.v): C21. union / intersect / difference against any iterable: exact membership, no duplicates; union keeps the receiver's elements in place and appends the new ones in order, intersect keeps order.
* `C21_builtins_agree` (P_Coll.v): ... and so the same members as the operators
* `C21_difference_order_refuted` (P_Coll.v): but `difference` does not keep the order of the remaining elements, unlike `-`
* `C21_operators` (P_Ops.v): C21: the operators

### C22 Heaps pop elements in ascending order

Over any history of pushes and pops on a heap, every pop returns a minimum of the current contents and removes exactly one occurrence of it; popping everything sorts.

Plan: Heap.v binary heap against multiset specification.

Status: proved.

* `C22_heap` (P_Coll.v): C22. A heap built from any values of one ordered kind answers any history of pushes, pops, peeks and clears like a priority queue on the bag of those values.
* `C22_heap_sort` (P_Coll.v): popping everything sorts
* `C22_heap_order` (P_Coll.v): two heaps compare by their tops, in reverse: the one with the smaller minimum is the greater

### C23 sort, min, max, reverse, zip, sum laws

sort returns an ordered permutation of its input; min returns the first minimum and max the last maximum of the input; reverse is an involution; zip has the length of its shortest argument with exact tuples; sum of ints is the wrapped sum.

Plan: Coll.v sort/min/max/reverse/zip/sum.

Status: proved.

* `C23_sort` (P_Coll.v): C23. sort gives an ascending rearrangement of its input; any ascending rearrangement is the same up to ==.
* `C23_min_max` (P_Coll.v): min is the first minimum, max the last maximum; both fail exactly on nothing
* `C23_sum` (P_Coll.v): sum of ints (and booleans) is their total, wrapped; the first other element is the error
* `C23_zip` (P_Coll.v): zip: one row per position of the shortest argument, holding the elements at that position
* `C23_reverse` (P_Coll.v)

### C24 List mutation operations

push, push_front, pop, pop_front, insert, remove act exactly as on a mathematical sequence: they fail exactly on empty/out-of-range arguments, leaving the list unchanged, and otherwise change exactly the addressed position.

Plan: Coll.v list operations.

Status: proved.

* `C24_insert` (P_Coll.v): C24. Lists. [insert i] splits the list at [i]; it fails exactly outside 0..len and then changes nothing.
* `C24_remove` (P_Coll.v)
* `C24_ends` (P_Coll.v): the ends, and `clear`; a non-int position is an error and changes nothing
* `C24_failure_atomic` (P_Coll.v): no call on any collection crashes, and a failed call changes nothing

### C25 Higher-order builtins call their function once per element in order

map, filter, flat_map, reduce, any, all, find, index_of call the given function on the elements in order, exactly once each up to the deciding one, stop at the first error, and return the mathematically expected result.

Plan: Hof.v with functions as state transformers (state monad with errors).

Status: proved.

* `C25_map` (P_Hof.v): C25. map(f, c): f is called once on each element, in order; the result is the list of the answers; the first failure is the result and ends the calls.
* `C25_filter` (P_Hof.v): filter(f, c): the elements whose answer is true, in order
* `C25_any_all` (P_Hof.v)
* `C25_find` (P_Hof.v)
* `C25_rfind` (P_Hof.v): rfind / rindex_of: the same, from the end, when the function leaves the collection alone
* `C25_flat_map` (P_Hof.v): flat_map(f, c): the answers' elements, concatenated; an answer that is not iterable is an error
* `C25_reduce` (P_Hof.v): reduce(f, c): f(...f(f(x0, x1), x2)..., xn); nothing to reduce is an error, and then f is not called
* `C25_checks` (P_Hof.v): the function is not called at all when the arguments are of the wrong kind
* `C25_stable` (P_Hof.v): a function that leaves the collection alone is called on exactly its elements, and the builtin returns (reduce starts from the first)
* `C25_reduce_stable` (P_Hof.v)
* `C25_index_of` (P_Iter.v): index_of / find: first match

### C26 group_by partitions its input

group_by(n) splits a list into consecutive chunks of length n (the last possibly shorter) whose concatenation is the input; group_by(f) gives a dict from keys to the elements having this key in input order, keys in order of first appearance, whose groups partition the input; n <= 0 is an error.

Plan: Coll.v group_by.

Status: proved.

* `C26_chunks` (P_Hof.v): C26. group_by(n, c): the elements in order, in pieces of n, the last of 1..n
* `C26_groups` (P_Hof.v): group_by(f, c): one entry per distinct key, in order of first appearance, holding the elements with that key in order; together they are the elements

### C27 Permutations and combinations enumerate exactly once

combinations(n) yields each n-subset of positions once in lexicographic order; permutations(n) each n-arrangement once.

Plan: Coll.v itertools permutations/combinations modelled by their documented output order.

Status: partial. Proved for n >= 1 (and n larger than the length, and negative n); false for n = 0, which is rejected.

* `C27_combinations` (P_Combi.v): C27. For every n > 0, `combinations(n, l)` is the list of vectors of the elements at each n-element subset of the positions of [l], each subset once, in lexicographic order.
* `C27_permutations` (P_Combi.v): `permutations(n, l)`: each way to put n different positions in a row, once, in lexicographic order.
* `C27_too_many` (P_Combi.v): more elements than there are: no choice at all
* `C27_negative` (P_Combi.v): a negative n is an error
* `C27_zero_refuted` (P_Combi.v): n = 0: there is one choice of no positions, but both builtins fail, with a message that asks for a non-negative integer

### C28 char/ord and hex/bin/int conversions round-trip

ord(char(c)) = c for every c for which char succeeds, char fails exactly for invalid code points; int parsing of hex(n)/bin(n) text gives n back.

Plan: Str.v.

Status: partial. Round trips proved where they hold; the counterexamples: char looks at the low 32 bits only, ord rejects non-ASCII characters, negative hex texts are not read back, 64-bit numerals are accepted.

* `C28_char_exact` (P_Str.v): [char n] below 2^32: the character n if n is a Unicode scalar value other than 0, else an error
* `C28_char_range_refuted` (P_Str.v): ... but only the low 32 bits are looked at
* `C28_ord_char` (P_Str.v): ord inverts char for ASCII, and ord answers nothing but the code of an ASCII character
* `C28_char_ord` (P_Str.v)
* `C28_ord_char_refuted` (P_Str.v): the full claim fails: ord rejects every non-ASCII character, since it counts bytes
* `C28_hex` (P_Str.v): hex and bin: n >= 0 is written as its numeral, and the same function reads it back
* `C28_bin` (P_Str.v)
* `C28_hex_negative_refuted` (P_Str.v): negative numbers do not come back
* `C28_reads` (P_Str.v): what the readers accept, and what they answer (the number, cut to 63 bits)
* `C28_int_of_text` (P_Str.v): int(str(n)) = n
* `C28_int_exact_refuted` (P_Str.v): a numeral of 64 bits is not rejected although ints have 63: int('9223372036854775807') is -1

### C29 String formatting consumes exactly its arguments

fmt % args succeeds exactly when the number of directives (%% excluded) equals the number of arguments and each argument suits its directive; literal text is copied, %% yields %, padding never truncates.

Plan: Str.v formatter state machine.

Status: partial. Proved for all formats and arguments; a width that does not fit in a usize crashes the interpreter (C29_no_crash_refuted).

* `C29_format` (P_Str.v): s % v is [out] exactly if [s] is a sequence of characters, `%%` and directives, and [out] renders them with the arguments in [v], each used once, in order
* `C29_unique_reading` (P_Str.v): a format has one reading
* `C29_count` (P_Str.v): as many arguments as directives, otherwise there is an error
* `C29_wrong_count` (P_Str.v)
* `C29_padding` (P_Str.v): padding only adds: the digits are all there at the end, and the width is reached
* `C29_width` (P_Str.v)
* `C29_no_crash` (P_Str.v): no crash on a format whose widths fit 64 bits
* `C29_no_crash_refuted` (P_Str.v): but a longer width crashes the interpreter

### C30 String helpers round-trip

join(split(s, sep), sep) = s for nonempty literal separators; split never yields a piece containing the separator; escaped regex text matches only itself; strip and case helpers touch nothing else.

Plan: Str.v on code point lists.

Status: partial. Missing: the regex engine (library fancy_regex) is not modelled, so nothing is said about escaping; case mapping only for ASCII.

* `C30_split_join` (P_Str.v): splitting at a separator without regex metacharacters: joining gives the text back, and no piece contains the separator
* `C30_split_matches` (P_Str.v): whatever the regex engine matches: the pieces and the matched texts, alternating, are the text
* `C30_split_chars` (P_Str.v): the empty separator: the characters
* `C30_strip` (P_Str.v): strip removes exactly the white space at both ends
* `C30_case_partial` (P_Str.v): case: position by position; A-Z to a-z (or back) and everything else in ASCII unchanged. Missing for the full claim: the regex engine (so escaping), and non-ASCII letters

### C31 Call arity is enforced uniformly

A function with p required, d optional parameters and possibly a variadic tail called with n arguments runs exactly when n is within [p, p+d] (or >= p if variadic) with parameter i bound to argument i and missing optionals set to their defaults, is partially applied when 0 < n < p, and is an error otherwise.

Plan: Func.v arity arithmetic.

Status: proved.

* `C31_call_runs` (P_Vm.v): C31. Calling any user function or closure value [fv] with arguments [args].
* `C31_parameters` (P_Vm.v): inside the called function, local [i] is argument [i]
* `C31_call_too_few` (P_Vm.v): too few arguments: a partial function holding them (no argument at all: the function itself)
* `C31_call_error` (P_Vm.v): too many: an error, nothing has happened

### C32 Partial application is transparent

f(a1..ak)(b1..bm) has the same effect as f(a1..ak,b1..bm) whenever k is below the required argument count, for user functions, closures and builtins.

Plan: Func.v invoke on partial functions; refutation for variadics.

Status: partial. Proved unless the call reaches a variadic parameter, where it is false of the code (C32_variadic_refuted).

* `C32_partial_application_partial` (P_Vm.v): C32. Calling a partial function is calling the function with all arguments, unless this reaches a variadic parameter.
* `C32_variadic_refuted` (P_Vm.v): With a variadic parameter the claim is false of the code: vm/mod.rs:768 passes the number of new arguments, not the total, to num_var_args. `fn f(a, b, *c)`: f(1)(2,3,4) is not f(1,2,3,4).

### C33 Operator sections swap correctly

(op x)(y) computes y op x and (op)(x)(y), or op(x,y), computes x op y; the swap of builtin operators is an involution that maps every asymmetric operator to its flipped form.

Plan: Native.v table + Ops.v.

Status: partial. Proved for all operators; on sets the result is equal but the element order may differ (C33_set_order_refuted).

* `C33_swap` (P_Disp.v): C33. Swapping is an involution, and a swapped operator computes the flipped operation; the operators without a swapped form are * & | ^ == != (and `-`, which has no section).
* `C33_unswapped` (P_Disp.v)
* `C33_apply` (P_Disp.v): every operator symbol names the builtin that performs it, `op(x, y)` computes `x op y`, and the direct opcode of a builtin call is that of the symbol
* `C33_section_left` (P_Disp.v): `(x op)(y)`: a partial builtin whose call on [y] computes `x op y`
* `C33_section_right` (P_Disp.v): `(op x)(y)`: a partial builtin whose call on [y] computes `y op x`, for the operators with a swapped form ...
* `C33_section_right_symmetric` (P_Disp.v): ... and the others give the same answer with the operands either way round: an equal value, or an error
* `C33_set_order_refuted` (P_Disp.v): What is missing: for sets "equal" is not "identical", since `(& s)(t)` computes `s & t`, whose elements are in the order of [s], not of [t].

### C34 Builtin dispatch is the same however a builtin is called

Calling a builtin directly, through partial application, or through the pre-resolved fast paths used by map/filter/sort etc. runs the same implementation with the same argument list, or reports the same incorrect-argument-count error.

Plan: Native.v dispatchers.

Status: partial. Direct calls, currying and partially applied builtins: proved. The fast paths with 0, 1 and 2 arguments: proved outside listed cases, in each of which they really differ (three counterexamples).

* `C34_direct` (P_Disp.v): C34. A direct call of any builtin with any arguments does what its arity promises.
* `C34_no_crash` (P_Disp.v): no argument list makes a direct call (or a call of a partial builtin) hit a missing implementation
* `C34_partially_applied` (P_Disp.v): a partial builtin answers exactly as if its held arguments had been given in the same call
* `C34_currying` (P_Disp.v): however the arguments are split over calls, the last call does what one call with all of them does
* `C34_fast0_partial` (P_Disp.v): the fast paths used by `map`, `filter`, `sort_by`, `reduce`, ...
* `C34_fast1_partial` (P_Disp.v)
* `C34_fast2_partial` (P_Disp.v)
* `C34_fast2_crash_refuted` (P_Disp.v): What is missing from C34: in each excepted case the fast path really differs. `reduce(print)` and `reduce(vector)` (any two-argument use of `print` or `vector`) crash the interpreter
* `C34_fast1_min_refuted` (P_Disp.v): `[int] . map(min)` tries to iterate `int`; `min(int)` is the smallest integer
* `C34_fast_error_refuted` (P_Disp.v): error messages with different argument counts

### C35 Destructuring binds each name to the element it denotes

A pattern without * succeeds exactly on iterables whose length equals the number of terms, with one * exactly on those at least as long as the other terms; then leading terms get leading elements, trailing terms trailing elements, the starred term the list in between, nested patterns recursively; a failing match reports an error.

Plan: Pattern.v.

Status: partial. Proved for sequences (lists, vectors, ASCII strings) when the assignments leave the value alone; counterexamples: sets are refused, aliasing, non-ASCII strings crash, two stars in an assignment.

* `C35_match` (P_Pattern.v): A compiled pattern, run against a value [v] that its assignments leave alone: either the pattern matches as [binds] says, and exactly its assignments are carried out (the last one first) and the operands of `a[i]` and `a.f` targets are taken off the stack, each by its own assignment; or it does not match and an error is reported.
* `C35_unique` (P_Pattern.v): ... and the assignments asked for are determined by the value
* `C35_lengths` (P_Pattern.v): lengths, for patterns without nesting against lists, vectors and strings
* `C35_sets_refuted` (P_Pattern.v): a set of two elements is iterable and has length two, but `a, b = {1, 2}` is an error
* `C35_aliasing_refuted` (P_Pattern.v): l[1], l[0] = l does not exchange the elements of l = [1, 2]: both become 2. (The hypothesis of [C35_match] that the assignments leave the value alone is needed.)
* `C35_string_crash_refuted` (P_Pattern.v): *a, b = 'e-acute 1' crashes the interpreter
* `C35_failed_match_assigns` (P_Pattern.v): a failing match keeps the assignments made before the failure was noticed: (a, b), c = [[1], 2] reports an error, but c is 2
* `C35_two_stars_refuted` (P_Pattern.v): two stars are rejected in a `let` but not in an assignment: *a, *b = [1, 2, 3] gives a = [1, 2] and b = []; the 3 is lost
* `C35_compiles` (P_Pattern.v): the compiler crashes exactly on patterns that name a field of the enclosing struct without `self.`

### C36 Deep copy yields an equal, disjoint object graph

copy(v) terminates on every (also cyclic) object graph, the result is isomorphic to the original including sharing, shares no mutable object with it, and leaves the original unchanged.

Plan: Copy.v heap graph copy.

Status: partial. Proved for every closed object graph: termination, one-to-one correspondence, disjointness, equality; exceptions (false of the code): defaults of dicts are dropped, sets/dicts in cycles may lose entries.

* `C36_ends` (P_Copy.v): Copying ends on every graph, however cyclic.
* `C36_copy_partial` (P_Copy.v): There is a one-to-one correspondence between objects of the graph and new objects, such that the copy is the original with every object replaced by its counterpart: the same kind of object with corresponding contents in the same order (heaps: up to the order). Sharing and cycles are thereby preserved. The exceptions are the default of a dict, which is dropped, and sets and dicts whose copy has fewer entries. The original heap is unchanged.
* `C36_disjoint` (P_Copy.v): Nothing the copy leads to existed before: no mutable object is shared.
* `C36_equal` (P_Copy.v): For graphs of lists, vectors and struct instances: the copy reads as the same value.
* `C36_isomorphic_refuted` (P_Copy.v): Sets in cycles: the lists a = [b] and b = [s] are different elements of the set s, but while they are being copied both are empty, and the copy of s has one element.
* `C36_default_refuted` (P_Copy.v): The default of a dict is not copied.

### C37 Memoised functions compute each argument tuple at most once

A @memoize'd function called over any history returns for each argument tuple the first result computed for it, and calls the underlying function exactly once per distinct tuple that succeeded (failed calls are not cached).

Plan: Memo.v.

Status: partial. Proved for all histories; `exactly once` is false for a re-entrant call with the same arguments.

* `C37_hit` (P_Memo.v): An answered call changes nothing.
* `C37_failure_not_cached` (P_Memo.v): A function that fails is called again by the next call.
* `C37_exactly_once_refuted` (P_Memo.v): "Exactly once" does not hold if a call for the same arguments is made while the first one is in progress: the function underneath runs twice, and the outer result is dropped.

### C38 Dict default factories

Reading a missing key of a dict with a default inserts and returns the default, once; without default it is an error and the dict is unchanged; present keys never consult the default.

Plan: Coll.v dict defaults.

Status: proved.

* `C38_present` (P_Coll.v): C38. Reading a dict: a present key never consults the default and changes nothing.
* `C38_missing` (P_Coll.v): without a default a missing key is an error and changes nothing
* `C38_default` (P_Coll.v): with a default, the default's answer [v] is stored (as youngest entry) and returned, unless the default itself stored something under the key meanwhile: that is then kept and returned. A failing default stores nothing of its own.
* `C38_once` (P_Coll.v): so the default is consulted once per key: the next read, whatever the default is by then, gives the same answer from the dict

### C39 Branches in compiled code go where the source says

Linearising the compiler's control flow graph (emit) preserves execution: from any block and state, running the flat code with relative jumps performs exactly the instruction sequence of the graph, for forward, backward and merged branches.

Plan: Graph.v emit simulation.

Status: proved.

* `C39_emit_preserves_traces` (P_Graph.v): From every block, the emitted flat code can perform exactly the traces of the graph, and ends in exactly the same ways. [base]: code emitted earlier; it is kept.
* `C39_emit_twice` (P_Graph.v): Later emission does not disturb code emitted earlier: traces of an earlier graph are still those of the extended code.
* `C39_join_forward` (P_Graph.v)
* `C39_join_reverse` (P_Graph.v)

### C40 The bytecode peephole optimiser preserves behaviour

A program that exits or fails with a runtime error when linked without the bytecode optimiser ends with the same exit or error value, the same output and the same heap when linked with it, and with no other outcome; the optimised code is never longer.

Plan: Peep.v.

Status: proved.

* `C40_optimised_program_same_outcome` (P_Peep.v): For all primitive operations, all well-formed programs and initial worlds: if the program linked without optimisation exits or raises an error (and never stores to its own operand slot, see [self_store]), then linked with optimisation it ends with the same error value and the same world.
* `C40_optimised_program_no_other_outcome` (P_Peep.v): ... and no other one: the two programs can never be seen to differ.
* `C40_not_longer` (P_Peep.v): The optimised code is never longer.

### C41 Compiled expressions compute the value the source denotes

For every expression the emitted bytecode run from any stack pushes exactly the value (or raises exactly the error) of a left-to-right big-step evaluation, leaving everything below untouched.

Plan: Codegen.v + VM.v.

Status: proved.

* `C41_compiled_same_outcome` (P_Compile.v): ** C41: for all primitive operations, all programs (outside the cases of LangCheck.v, which concern statements only), with or without the bytecode optimiser, all initial worlds: if the definitional interpreter ends with an outcome (exit or an error, and the final world), then so does the compiled code on the machine.
* `C41_no_other_outcome` (P_Compile.v): ... and with no other outcome.
* `C41_source_deterministic` (P_Compile.v): The source has one outcome: the interpreter is deterministic and its fuel does not matter.
* `C41_expressions` (P_Compile.v)
* `C41_value` (P_Compile.v): The value of one expression: if after `pre` expression [e] has value [v] and leads to state [s1], then `pre; let x = e; post`, compiled, does what [post] does with [x] bound to [v] from [s1] on; all other variables are as [s1] has them.
* `C41_error` (P_Compile.v): An error of the expression is the outcome.

### C42 Short circuit and comparison chains

a and b, a or b, if-then-else evaluate only the needed operands; a < b < c evaluates each operand at most once, left to right, stopping at the first false link, and yields the conjunction.

Plan: Codegen.v corollaries.

Status: proved.

* `C42_and_falsy` (P_Compile.v): `let x = a and b`, where [a] is falsy here: like `let x = a`, whatever [b] is.
* `C42_and_truthy` (P_Compile.v): where [a] is truthy: like `a; let x = b`.
* `C42_or_truthy` (P_Compile.v)
* `C42_or_falsy` (P_Compile.v)
* `C42_if` (P_Compile.v): `let x = if c then a else b`: like `c; let x = a` or `c; let x = b`.
* `C42_chain` (P_Compile.v): `let x = e0 c1 e1 .. ck ek`: like `e0; e1; ..; ej; let x = b`, where operands after the first failing comparison are not evaluated, and [b] is whether there is none.
* `C42_chain_prefix` (P_Compile.v)

### C43 The expression optimiser preserves results

Constant folding, composition-to-call rewriting, dead-branch elimination and partial call merging do not change the value of any expression that evaluates without error.

Plan: Opt.v.

Status: partial. Proved for all expressions and programs without complex constants which are `gentle` (a syntactic condition: of operands that may be exchanged, all but one are constants, variables or partially applied builtins), for values and final states of runs without error. Missing: exchanging larger operands, where the final states differ by a renaming of addresses; errors. Three counterexamples: complex constants, errors in dead branches, `exit`.

* `C43_expression_partial` (P_Opt.v): For all primitive operations, constants and functions obeying the laws of OptSpec.v: an expression as a programmer writes it (no operators marked as swapped), without complex constants and [gentle] (of the operands that may be reordered, all but one are constants, variables or partially applied builtins), gives the same values with the same final states as its optimised form, in every frame and every state. Missing from the property: reorderings of larger operands that both allocate, or of a closure and an expression with side effects (where the final states differ by a renaming of addresses); errors; and see the three counterexamples below.
* `C43_program_partial` (P_Opt.v): ... and a program of such expressions completes with a world if and only if the optimised program does.
* `C43_compiled_partial` (P_Opt.v): ... hence, compiled with or without the bytecode optimiser, the optimised program ends normally with the world with which the source program completes.
* `C43_complex_refuted` (P_Opt.v)
* `C43_dead_error_refuted` (P_Opt.v)
* `C43_exit_refuted` (P_Opt.v)

### C44 List, set, dict and call spreads

[a, ...b, c] builds the concatenation in order; a call with ...b passes exactly the spread elements in place, for any nesting of literals and calls.

Plan: VM.v literals stack.

Status: proved.

* `C44_call` (P_Compile.v): `let x = f(args)`, where [args] may have any number of spreads: like `let x = fv(v1, .., vn)` where the [vi] are the values of the plain arguments and the elements of the spread ones, in order. The items may contain calls and literals with spreads themselves.
* `C44_call_error` (P_Compile.v): A spread argument that is not iterable is the error, and what follows is not evaluated.
* `C44_literal` (P_Compile.v): `let x = [..]` (or a vector, set or dict): like `let x = v` where [v] is the object made of exactly what [literal_of] says about the items and the contributions of spreads, in order. For all primitive operations, the literals being those of Lit.v.
* `C44_literal_any` (P_Compile.v): The same for any representation of literals that holds what is added to it.
* `C44_set_members` (P_Compile.v): What sets and dicts contain: [literal_of] read by membership and lookup, when equality of keys is an equivalence.
* `C44_dict_lookup` (P_Compile.v): the value of a key is the one given last

### C45 Closures capture variables, not values

All closures capturing one variable observe each other's and the enclosing function's assignments while the scope is live and continue to share one cell after it is left; variables of different activations or loop iterations are never shared.

Plan: Upvalue.v.

Status: partial. The meaning of variables is proved for all programs of the source semantics; compiled programs follow it (C45_compiled_partial) outside the exclusions of LangCheck.v, for which it is false of the code (three counterexamples).

* `C45_scoped_start` (P_Compile.v): In the meaning of programs, every variable is a location. Locations in use are below the size of the store: so at the start, and after any expression or statements; closures and globals keep referring to the same locations.
* `C45_cells_stay` (P_Compile.v)
* `C45_cells_stay_statements` (P_Compile.v)
* `C45_declaration_fresh` (P_Compile.v): A declaration makes a variable that nothing refers to yet, wherever it stands (in a loop, a function called before, ...).
* `C45_activation_fresh` (P_Compile.v): The parameters of every call are variables that nothing refers to yet, and the captured variables are the locations captured when the closure was made.
* `C45_iteration_fresh` (P_Compile.v): Each iteration of `for` runs its body with a variable that nothing refers to yet.
* `C45_closure_shares` (P_Compile.v): A closure refers to the very locations of the variables it captures; so two closures that capture one variable, and the scope of that variable, share it.
* `C45_assign` (P_Compile.v): Assignment through one name is seen through every other name of the same location, and through no name of another location.
* `C45_compiled_partial` (P_Compile.v): Compiled programs follow this meaning of variables, outside the exclusions of LangCheck.v. Missing: those programs, for which it is false; see below.
* `C45_return_refuted` (P_Compile.v)
* `C45_iterations_refuted` (P_Compile.v)
* `C45_do_refuted` (P_Compile.v): here the compiled program pops a variable in each iteration and breaks down

### C46 Returning from a function restores the caller exactly

After Return the value stack is the caller's stack with callee and arguments replaced by the one result, for any contents of the frame.

Plan: VM.v Return.

Status: proved.

* `C46_return_restores` (P_Vm.v): C46. Return, from a call entered with [frame] as the callee's locals and temporaries.
* `C46_call_then_return` (P_Vm.v): A call and its return: whatever the body did to the part of the stack above the callee, to the values below it (stores to captured variables and globals) and to everything else, the caller continues after the call, in its own frame, with callee and arguments replaced by the result.

### C47 Globals are unreadable before definition

Reading or writing a global before its declaration has executed is a runtime error that changes nothing; afterwards reads give the last write.

Plan: VM.v globals.

Status: proved.

* `C47_undeclared` (P_Vm.v)
* `C47_history` (P_Vm.v): For every history of declarations, reads and writes.
* `C47_from_start` (P_Vm.v)

### C48 Lexing is total and locations are faithful

For every input text the scanner terminates, its tokens' locations are increasing, disjoint and within the text, and re-reading the text at a token's location gives this token.

Plan: Scan.v.

Status: partial. Proved for every text; exceptions that are false of the code: line breaks inside strings come before the string token, and the error location of an unterminated string is outside of the text.

* `C48_segmentation` (P_Scan.v): For every text the scanner ends, and the tokens it reports are those of a division of the whole text into pieces (tokens as they are spelled, white space, comments, and erroneous pieces), in order, each at the place where it is written; in addition there is one line break token for each line feed of the text; one error is reported for each erroneous piece. The one token that is not a proper piece is that of a string which is still open at the end of the text: it covers all of that piece.
* `C48_reread` (P_Scan.v): Reading the text of a token again gives this token.
* `C48_ordered` (P_Scan.v): Tokens other than line breaks come in the order of their places, do not overlap, and lie within the text.
* `C48_order_of_line_breaks_refuted` (P_Scan.v): With the line breaks included, places are not increasing: the line breaks inside a string come before the string.
* `C48_error_location_refuted` (P_Scan.v): The error for an open string is not within the text.
* `C48_ordered_always` (P_Syntax.v): Also in a text with errors, tokens other than line breaks come in the order of their places, do not overlap, are not empty, and lie within the text.

### C49 Numeric and string literals denote what is written

Every decimal, hex and binary literal (with _ separators) denotes its value or is reported as invalid when it exceeds the supported size; quoting and scanning back a string is the identity; keywords and identifiers are never confused.

Plan: Scan.v literals.

Status: partial. Proved for all literals; literals from 2^62 to 2^63-1 are accepted but denote another number (C49_large_literal_refuted).

* `C49_spelled` (P_Scan.v): A properly spelled token is read as that token: numbers have the value that is written, strings are decoded, reserved words are not identifiers and everything else that is a word is one.
* `C49_lines` (P_Scan.v): The same for any number of tokens on separate lines.
* `C49_words` (P_Scan.v): A word is an identifier exactly if it is not reserved.
* `C49_too_large` (P_Scan.v): Numbers which need 64 bits or more are reported.
* `C49_written` (P_Scan.v): Every string can be written down.
* `C49_large_literal_refuted` (P_Scan.v): A literal from 2^62 to 2^63 - 1 is accepted, but values are 63-bit integers: it denotes a negative number.

### C50 Comments and whitespace do not affect tokens

Inserting whitespace or a comment between tokens does not change the token sequence; a block comment ends at its first */.

Plan: Scan.v comments.

Status: partial. Proved for white space and all comments that close properly; the end of a block comment is not its first star-slash in two cases (C50_comment_end_refuted).

* `C50_separator` (P_Scan.v): White space separates: the tokens of two texts put together with white space in between are those of the first and those of the second, provided the first text has no open string or comment. A line feed also ends a line comment, and is a line break token.
* `C50_white_space` (P_Scan.v): The sequence of tokens and errors (without line breaks) is unaffected by any amount of white space where there is some.
* `C50_comment` (P_Scan.v): Hence such a comment can be inserted, with white space around it, between two texts.
* `C50_comment_end_refuted` (P_Scan.v): A block comment does not always end at its first star and slash: the empty comment and one with a star before the end swallow what follows, and a slash right after the opening ends the comment.

### C51 A failed REPL/eval compilation leaves the session unchanged

If incremental compilation fails, all previously compiled code, constants, globals, functions, patterns and fields keep their indices and contents; if it succeeds old indices stay valid.

Plan: Incr.v save/restore.

Status: partial. Failed REPL line: nothing changes at all; every session: all indices keep their contents; functions declared are defined: proved for any parser behaviour made of the listed changes. False for eval: a failed eval is not undone, and an undeclared field in it makes all later lines fail (C51_eval_refuted).

* `C51_failed_line` (P_Incr.v): A line of the REPL that does not compile (or is incomplete) changes nothing at all: code, constants, patterns, globals, locations, fields, library and local variables are what they were.
* `C51_indices` (P_Incr.v): In every session, whatever fails or succeeds, all indices given out keep their contents.
* `C51_eval_locals` (P_Incr.v): An eval, failed or not, does not change the local variables of the session.
* `C51_field_names` (P_Incr.v): In every session the index of a field belongs to one name only.
* `C51_functions` (P_Incr.v): A line that compiles defines every function it declares: there is a constant which is a function with its code.
* `C51_verdict` (P_Incr.v): The verdict: a line is a success if and only if neither the scanner nor the parser reports an error, and it is continued on the next line only if the first error is an unexpected end of the input.
* `C51_eval_verdict` (P_Incr.v): The verdict of an eval: a success under the same condition, and an error otherwise: an eval is never continued.
* `C51_literals` (P_Incr.v): The index of a literal given to the code is that of a constant with its value, also when the constant was there before; and then there is no new one.
* `C51_eval_refuted` (P_Incr.v): An eval that fails is not undone: after `eval('x -> foo')`, with no field foo, no line of the REPL compiles, until one declares a field of that name.

### C52 Failed hashing of recursive structures is detected

Inserting a self-containing structure into a set or dict reports the recursion error, and the recursion guard is clean afterwards so later operations are unaffected.

Plan: Coll.v guard flag.

Status: partial. Never succeeds on a self-containing structure, no false alarm otherwise, guard has no influence: proved for all heaps. False of the code: the failure may be a crash instead of the error (C52_crash_refuted), the element stays inserted and makes later operations crash (C52_later_refuted), lists that contain themselves overflow the stack (C52_list_refuted).

* `C52_detects_set` (P_RecHash.v): Adding to a set [b] a value that contains [b], in any heap: it never succeeds.
* `C52_detects_dict` (P_RecHash.v): The same for the keys of a dict.
* `C52_reports` (P_RecHash.v): ... and it is the error, not a crash, if the set or dict is empty and no chain of parts is infinite without passing through [b].
* `C52_no_false_alarm_set` (P_RecHash.v): No false alarm: if neither the new value nor an element of the set contains the set, then it is added, unless an equal element is there already; nothing else changes, whatever happened before.
* `C52_no_false_alarm_dict` (P_RecHash.v): For dicts only the keys matter: values may contain the dict. An equal key gets the new value in its place; the first of them, should mutation have made several keys equal.
* `C52_guard_clean` (P_RecHash.v): The guard left by earlier operations, failed or not, has no influence on any later history.
* `C52_crash_refuted` (P_RecHash.v)
* `C52_later_refuted` (P_RecHash.v): The element is inserted in spite of the error, and a later insertion of an unrelated value crashes: `x.push(x)` (an error), then `x.push(set())`.
* `C52_list_refuted` (P_RecHash.v): A list that contains itself cannot be put in a set: hashing it overflows the stack.

### C53 Vector operators act elementwise

For vectors of equal length op acts elementwise, a scalar is broadcast, the first failing component determines the error, and the operands are unchanged.

Plan: Ops.v vectors.

Status: proved.

* `C53_elementwise` (P_Ops.v): C53. [collected f n r]: r is the vector of f 0 .. f (n-1), or the first error among them
* `C53_broadcast` (P_Ops.v)

### C54 Enumerate and its reverse

enumerate(xs) yields (0,x0),(1,x1),..., one per element; searching an enumeration from its end (rfind, rindex_of) visits the same pairs in reverse order.

Plan: Range.v enumerate.

Status: partial. Forward iteration proved for all; reverse iteration of an enumeration is false of the code.

* `C54_reverse_enumerate_refuted` (P_Iter.v)
* `C54_iterate` (P_Iter.v): iterating a collection yields exactly its contents in order
* `C54_enumerate` (P_Iter.v): C54: enumerate pairs every element with its position, for every iterable

### C55 Rational arithmetic is exact and reduced

If at least one operand is rational (the other rational, int or bool), + - * / give the exact rational result in lowest terms with positive denominator; dividing by zero is an error.

Status: proved.

* `C55_rational` (P_Ops.v)

### C56 Operators keep values well formed and never crash the interpreter

Applying any unary or binary operator to well-formed values returns a well-formed value or a Cordy error: never a complex number with zero imaginary part, an unreduced rational, an out-of-range int, a set with duplicates, and never a panic.

Status: partial. Well-formedness proved for all operators and values; no crash proved unless the left operand is the complex/rational corner case of C56_no_crash_refuted.

* `C56_well_formed` (P_Ops.v)
* `C56_no_crash_partial` (P_Ops.v)
* `C56_no_crash_refuted` (P_Ops.v): the complex number with real part -2^63 (reachable: 2^62 * 2i wraps) modulo -1; rational zero to a negative power

### C57 Membership tests

x in xs is true exactly when xs has an element equal to x (lists, vectors, heaps), a matching element (sets) or key (dicts), or x as a substring (strings); not in is its negation.

Status: proved.

* `C57_in_range` (P_Coll.v): C57: `x in r` for an int and a range, through the operator: membership in the progression
* `C57_in` (P_Ops.v)

### C58 Repetition

s * n and n * s repeat a string or list n times for n >= 0 and are an error for n < 0.

Status: partial. Strings: all; lists: when n * len < 2^64, beyond which the element count wraps (C58_list_repeat_refuted).

* `C58_str_repeat` (P_Ops.v)
* `C58_list_repeat_partial` (P_Ops.v)
* `C58_list_repeat_refuted` (P_Ops.v): the element count is computed modulo 2^64: eight elements times 2^61 is the empty list

### C59 max and min operators

max(a,b) and min(a,b) return one of their operands each (the other one), bounding both operands in the value order; for equal operands max returns the second and min the first.

Status: proved.

* `C59_max_min` (P_Ops.v)
* `C59_max_min_bounds` (P_Ops.v)

### C60 counter, dict(...), keys and values

counter(xs) has one entry per distinct element in order of first appearance holding its number of occurrences; dict(pairs) is the dict obtained by writing the pairs in order and rejects anything that is not a pair; keys and values list the entries in order.

Status: proved.

* `C60_counter` (P_Coll.v): C60. counter: one entry per distinct element, in order of first appearance, holding the number of its occurrences.
* `C60_collect` (P_Coll.v): dict(pairs): the same as writing the pairs one after the other; keys() and values() list the entries in order
* `C60_collect_error` (P_Coll.v): a list with anything but pairs is rejected

### C61 min_by and max_by with a key function

min_by(f, xs) calls f once per element in order and, if no call fails, returns the first element whose key is least; max_by returns the last element whose key is greatest; an empty input is an error.

Status: partial. Proved for key functions that do not fail; after a failing call the key function is still called on later elements (C61_stops_at_error_refuted).

* `C61_min_by` (P_Hof.v)
* `C61_max_by` (P_Hof.v)
* `C61_stops_at_error_refuted` (P_Hof.v): but a failing key function does not end the calls, unlike in the other builtins: it is called on the later elements too, and the last error is the result

### C62 gcd and lcm

gcd(a, b, ...) of two or more ints or bools is their greatest common divisor (wrapped to 63 bits, which matters only for 2^62); lcm is their least common multiple whenever that is at most 2^62 - 1; a single int is returned as it is; no argument, or a non-int argument, is an error naming the first such argument.

Status: proved.

* `C62_gcd` (P_Math.v): gcd of two or more integers: the greatest common divisor, wrapped to 63 bits (it is out of range only if all arguments are 0 or -2^62)
* `C62_arguments` (P_Math.v): one integer is returned as it is, whatever its sign; no argument, or an argument that is not an integer, is an error naming the first such argument
* `C62_lcm` (P_Math.v): lcm of two or more integers: the least common multiple, whenever it is an int (at most 2^62 - 1)

### C63 sqrt

sqrt(n) of an int n >= 0 is the largest r with r*r <= n; sqrt of the square of a non-negative rational is that rational, and sqrt of a rational never exceeds the true root; negative arguments are errors.

Status: partial. Ints and squares of rationals: proved for all. For other rationals numerator and denominator are rounded separately, so the root may be exceeded (C63_rounding_refuted).

* `C63_sqrt_int` (P_Math.v): sqrt of an integer rounds down; of the square of a rational it is that rational; of a negative number it is an error
* `C63_sqrt_rational` (P_Math.v)
* `C63_rounding_refuted` (P_Math.v): for a rational that is not a square, the roots of numerator and denominator are rounded separately: sqrt(1/2) is 1, which is too large

### C64 abs, real, imag, count_ones, count_zeros

abs is non-negative and exact for ints and rationals, componentwise on complex numbers, elementwise on vectors; real and imag return the parts of a complex number; count_ones/count_zeros count the bits of the 64-bit two's complement and add up to 64.

Status: partial. Proved for all values; two corner cases are false of the code: abs of the least int is itself (C64_abs_refuted), parts of complex numbers outside the int range wrap (C64_parts_refuted).

* `C64_abs` (P_Math.v): abs: of an int, |x| wrapped to 63 bits; of a rational, |q|; of a complex number, both components; elementwise on vectors, as far as the first failing element
* `C64_abs_refuted` (P_Math.v): the least int has no absolute value among the ints: it is its own
* `C64_count` (P_Math.v): count_ones is the number of ones in the 64-bit two's complement, count_zeros that of the zeros; together 64
* `C64_parts` (P_Math.v): the parts of a complex number (or int), wrapped to 63 bits
* `C64_parts_refuted` (P_Math.v): a part that is not a 63-bit int is lost: the real part of 2^62 + 1i is negative

### C65 Conversions between ints and rationals

rational(a, b) is the exact quotient in lowest terms and an error exactly for b = 0; numer and denom are its parts; int(q) succeeds exactly for whole numbers in the int range and int(rational(n)) = n.

Status: proved.

* `C65_rational` (P_Math.v): rational(a, b) is a / b in lowest terms, for rationals, ints and bools; an error exactly if b is 0
* `C65_parts` (P_Math.v): numer and denom: v = numer / denom, in lowest terms, denominator positive; both are rationals
* `C65_int` (P_Math.v): int(q) succeeds exactly on whole numbers that are ints, giving that number; so int(rational(n)) = n
* `C65_default` (P_Math.v): int(s, d) of a text is d exactly where int(s) is an error; otherwise it is int(s). nil, bools and ints are converted whatever the default

### C66 Every struct or module declaration creates its own type

The value of a struct, module or native module declaration is the type declared there, with its own fields and methods, never that of another declaration, in any history of REPL lines, evals and declarations.

Status: partial. Proved for structs and modules. False for native modules, which are all equal: the second one evaluates to the first (C66_native_refuted).

* `C66_types` (P_Incr.v): C66: in every session, the value of a declaration of a struct or module is the type that was declared for it.
* `C66_native_refuted` (P_Incr.v)

### C67 Lexical scoping

A name means the innermost initialised variable with that name, in this function or one around it (as a captured variable), else a global, else it is an error or left to a global declared later; blocks and functions end the scope of exactly the variables declared in them; one block cannot declare a name twice; a captured variable stays the same variable for all references to it.

Status: partial. False of the code for variables two or more functions up that an intermediate function has captured before (C67_refuted: the second use of such a variable is another variable, or an entry that does not exist). C67_near has no condition on the program: variables of the function, of the one directly around it, and globals. C67_scoping_partial: all others, in programs without such a repeated capture. Blocks, declarations and environments (C67_blocks, C67_declare, C67_environment) hold in general. Not modelled: self, modules, late bound globals.

* `C67_near` (P_Resolve.v): C67, a name that is a variable of the program, of this function or of the function directly around it: it is the innermost initialised variable with this name, whatever came before in the program.
* `C67_scoping_partial` (P_Resolve.v): C67, any name: it is the innermost initialised variable with this name, in programs in which no reference is to a variable that a function between the variable and the reference captured before. See C67_refuted for those.
* `C67_unbound` (P_Resolve.v): C67, names without a variable: undeclared in the program itself, and left to a global declared later in functions.
* `C67_blocks` (P_Resolve.v): C67: the variables at the end of a block or function are those from before it: those declared inside are gone, and no other.
* `C67_declare` (P_Resolve.v): C67: a declaration is refused exactly when the same block of the same function has a variable with the name already, and otherwise adds it.
* `C67_environment` (P_Resolve.v): C67: a captured variable stays the same variable, with the same name, until the end of the function that refers to it; and the environment that its closures get has it there, from the variables or the environment of the function around it.
* `C67_refuted` (P_Resolve.v): C67, refuted in general: in `fn f() { let a = 1; fn g() { let c = 2; fn h() { c; a; a } } }` the second `a` is the variable `c`; in `fn f() { let a = 1; let b = 2; fn g() { a; fn h() { b; b } } }` the second `b` is an entry that the environment of h does not have (a crash when it runs).

### C68 Expressions parse by the documented grammar

An expression is accepted exactly if it is one of the documented grammar, and then has the one tree that grammar gives it: operators bind by the documented precedence table, all to the left except assignment; calls, indexing and fields bind before prefix operators; comparisons chain; a newline matters only before a bracket, a name, a literal, fn or if; and the parser ends on every input.

Status: proved. Function literals are one token, errors after the first are not modelled, assignment targets are not checked here. C68_partial_operator_refuted and C68_next_line_refuted do not contradict the statement; they refute two stronger readings: an operator with only a left operand is accepted only before ')'; a line starting with `max =` continues the one before.

* `C68_sound` (P_Parse.v): Whatever the parser returns is derived by the grammar from the tokens it has consumed: no token is lost, doubled or reordered, and every operator has the operands the grammar gives it.
* `C68_complete` (P_Parse.v): Every expression of the grammar is accepted, up to where it ends, with the tree the grammar gives it.
* `C68_unambiguous` (P_Parse.v): The grammar is unambiguous: the tokens of an expression have one tree.
* `C68_terminates` (P_Parse.v): The parser terminates on every input: it returns an expression, or reports an error.
* `C68_accepts` (P_Parse.v): A whole input, on one line, is accepted if and only if it is an expression of the grammar.
* `C68_newlines` (P_Parse.v): Newlines matter only before an opening parenthesis or bracket, a name, a literal, `fn` or `if`.
* `C68_precedence` (P_Parse.v)
* `C68_prefix` (P_Parse.v): A prefix operator takes its operand before any infix operator, and after calls, indexing and fields.
* `C68_assignment` (P_Parse.v): Assignment is the lowest, and groups to the right.
* `C68_partial_operator_refuted` (P_Parse.v): Refuted: that an operator may be applied to its left operand wherever it may stand alone. `[x +]` and `(x +, y)` are errors, `(x +)` is not.
* `C68_next_line_refuted` (P_Parse.v): Refuted: that a line starting with a name starts a statement. After a line `a`, a line `max = 3` is not an assignment to `max`: the two are `a max= 3`.

### C69 eval is the inverse of repr

eval(repr(v)) is v again, for every value v made of nil, booleans, numbers, strings and collections, ranges and slices; so different data has different texts. str of a string is the string itself, str of other data is its repr.

Status: partial. Proved end to end (printer, scanner, parser, literals) for all values in [readable]. False of the code for the others: strings with a single quote or control characters, vectors with fewer than two elements, empty dicts and ranges, rationals, heaps, complex numbers with a part out of the range of literals (C69_*_refuted). Structs and functions are printed but not read back; range and enumerate are taken not to be redefined.

* `C69_round_trip` (P_Repr.v): Data of any size and depth made of nil, booleans, integers, complex numbers, strings, lists, vectors, sets, dicts, ranges, enumerates and slices (the cases that do not come back are listed in [readable], and shown below): scanning and parsing what `repr` has written succeeds, and the value of the expression is the value that was written.
* `C69_deterministic` (P_Repr.v): A text evaluates to one value at most.
* `C69_injective` (P_Repr.v): Hence different data is written differently.
* `C69_str` (P_Repr.v): `str` of a string is the string; of any other data it is the same as `repr`, also inside of collections.
* `C69_quote_refuted` (P_Repr.v): a string with a single quote: `'` is written as it is between single quotes
* `C69_control_refuted` (P_Repr.v): a string with a control character: the escapes `\0` and `\u{..}` are not known to the scanner, which keeps the backslash
* `C69_vector_refuted` (P_Repr.v): the vectors of no and of one element: `()` is an error, `(1)` is the number 1
* `C69_dict_refuted` (P_Repr.v): the empty dict is written as the empty set
* `C69_rational_refuted` (P_Repr.v): rationals are written as an integer division
* `C69_range_refuted` (P_Repr.v): the empty range calls `range` with an unknown name; a heap is written as a list
* `C69_complex_refuted` (P_Repr.v): a complex number whose part is out of the range of literals: an error, or another number

### C70 typeof and is

Every value has one type, returned by typeof; typeof(x) == typeof(y) exactly for values of the same type (the same struct for structs); x is T is true exactly if the type of x is T or a subtype of T (bool of int, int of complex and rational, collections and str of iterable, everything of any), x is not T is the opposite, and anything that is not a type is rejected; so x is typeof(x) is always true.

Status: partial. False of the code for ranges and enumerates (`x is typeof(x)` is a type error) and for field getters (it is false): C70_own_refuted. Everything else is proved for all values; the two theorems with suffix _partial leave out exactly these. Memoized functions are not values of this model.

* `C70_typeof` (P_TypeOf.v): Every value has one type, and `typeof` returns it.
* `C70_distinguishes` (P_TypeOf.v): `typeof(x) == typeof(y)` exactly if they are of the same type.
* `C70_is_partial` (P_TypeOf.v): `x is T` answers whether the type of x is a subtype of T, and `x is not T` the opposite; for all x but field getters `(->f)`, and all types T but range and enumerate.
* `C70_own_partial` (P_TypeOf.v): `x is typeof(x)` for all values but ranges, enumerates and field getters.
* `C70_own_refuted` (P_TypeOf.v): The guarantee `x is typeof(x) will always be true, for any value of x` fails: for ranges and enumerates it is a type error, for a field getter it is false.
* `C70_rejects` (P_TypeOf.v): What is not a type is rejected on the right of `is` and `is not`.

### C71 Printing objects that contain themselves

repr and str of any object end and do not panic, however objects contain each other; an object is written as dots ([...], {...}, (...), Name(...)) exactly where it is a part of itself, and in full everywhere else, also if it occurs several times; an object that does not contain itself is written as the tree it stands for.

Status: proved. For every closed heap and every value in it. The time it takes can be exponential in the number of shared objects; not stated. Host stack depth is not modelled.

* `C71_ends` (P_Show.v): `repr` and `str` of every object in every heap, however the objects contain each other, end without a panic, with the text that [shows] describes: an object is written as dots exactly where it is a part of itself, and else in full, also where it occurs several times.
* `C71_only` (P_Show.v): At no point is there a panic (of the guard being empty), nor a result other than this text.
* `C71_tree` (P_Show.v): An object that does not contain itself is written as the tree it stands for: the guard has no effect, and neither has sharing.
* `C71_eval` (P_Show.v): Hence, with C69: the text of such an object evaluates to that tree.
* `C71_itself` (P_Show.v): A list that has itself as an element is written with dots at exactly these places of it: the elements that are other objects are not dots of it.

### C72 Error reports and stack traces

A compile or run time error is reported with the number of the line in which the place of the error starts, the text of this line (and of the other lines of the place), and marks under exactly the characters of the place; making the report never panics, for any text and any place in it; the place of an expression made of parts is the smallest that covers them; the stack trace lists exactly the active calls, innermost first, at any depth of recursion (repeated lines are counted), each with the function whose code it is.

Status: partial. False of the code for texts with non-ASCII characters (lines are found by counting bytes, places count characters): C72_unicode_refuted; and for places that end with the first character of a line (that line is not shown): C72_end_refuted. The partial theorems are for ASCII texts and for places that do not end so. No panic and the traces are proved in full. The texts of the errors are parameters.

* `C72_line_partial` (P_Report.v): The number of the line: for ASCII texts, a place that starts in a line (its line break included) is reported with the number of this line.
* `C72_every_char` (P_Report.v): Every character is in one line.
* `C72_marks_partial` (P_Report.v): A place within one line of an ASCII text: the report shows the number and the text of this line, and below it marks (`^`) exactly the columns of the characters of the place.
* `C72_lines_partial` (P_Report.v): A place from line n to a later line n2, not ending with the first character of that line: all lines from n to n2 are shown.
* `C72_no_panic` (P_Report.v): Reporting never panics: for every text, and every place in it, or up to two characters after its end (as for what is not terminated), or no place.
* `C72_unicode_refuted` (P_Report.v): Texts with other characters: places are in characters, but the lines are found by counting bytes; the error at `x` in the second line is reported for the first line.
* `C72_end_refuted` (P_Report.v): A place that ends with the first character of a line: this line is not shown, and the place is reported as being in the line before.
* `C72_join` (P_Report.v): The place of a part and of another part, joined, is the smallest that covers both.
* `C72_trace` (P_Report.v): A stack trace stands for exactly the active calls, innermost first, at any depth: lines that repeat are counted, none is lost.
* `C72_owner` (P_Report.v): The function named in a line is the one whose code contains the instruction; code before all functions is that of the script.

### C73 Fields and methods of structs

A program compiles, as far as fields are concerned, exactly if no declaration has two members of one name and every name used as a field is a member of some declaration, before or after the use. Calling a struct type with as many arguments as it has fields makes a new object whose fields are the arguments in order, any other number is an error; x->f reads the field, x->f = v changes this field of this object and nothing else, x->f op= v writes the result of the operator; x->m is the method m bound to x, T->m the method itself, T->f the getter of f; anything else is an error that changes nothing; nothing panics, however many structs share names of fields.

Status: proved. For all programs of declarations and uses of names; native modules are in C66. Functions are identified by the constant that is reserved for them; what they do when called is in C31-C32, C41. Names used without an explicit `self->` and u32 truncation are not modelled.

* `C73_verdict` (P_Struct.v): A program compiles, as far as fields are concerned, if and only if no declaration has a name twice and every name used as a field is a field or method of some declaration, before or after the use.
* `C73_index` (P_Struct.v): A name means the same field index everywhere: what was resolved at any point of a program is what the running program uses.
* `C73_used` (P_Struct.v)
* `C73_types` (P_Struct.v): Every declaration has its own type.
* `C73_construct` (P_Struct.v): Constructors: the number of arguments must be that of the fields; the new object has the arguments as its fields, in order, and no other object changes.
* `C73_module` (P_Struct.v): Modules are not constructors.
* `C73_read` (P_Struct.v): Reading: a field gives its value; a method with self gives the function of the method, bound to the object; nothing else can be read.
* `C73_write` (P_Struct.v): Writing a field: it has the new value, all other fields and all other objects are as before; what is not a field cannot be written.
* `C73_modify` (P_Struct.v): `a->f op= v` writes the result of the operator on the old value and v; if the operator fails nothing is changed.
* `C73_type` (P_Struct.v): On the type itself: a method gives its function, a field gives its getter, which called with any value reads the field of that value.
* `C73_functions` (P_Struct.v): Different methods are different functions.
* `C73_others` (P_Struct.v): Other values have no fields.
* `C73_no_panic` (P_Struct.v): Nothing panics, and objects always have exactly the fields of their struct.

### C74 Syntax highlighting

Highlighting a text, or a line which continues an earlier text, never fails; the characters given to the formatter are exactly those of the text, in sections that are not nested and end with the type they have begun with. Each token is in the colour of its type; between tokens white space is plain and the rest is a comment. A continued line is shown as it would be in the whole text. The line-breaking formatter changes nothing but that no section contains a line feed.

Status: partial. The characters, the grammar and the colours of whole texts are proved in full. Continued lines: false of the code after a prefix which is not ASCII (the prefix is measured in bytes): C74_prefix_refuted, and for white space inside of a continued string: C74_continued_string_refuted; the partial theorem is for ASCII prefixes and says exactly what is shown then. The table of native names is a parameter.

* `C74_text` (P_Syntax.v): Highlighting never fails, for any text after any prefix: the characters it pushes are exactly those of the text, and the calls follow the grammar which is promised to formatters: sections are ended with their type, and are not nested.
* `C74_painted` (P_Syntax.v): Each token of a text is shown in the colour of its type, and between the tokens white space is plain and the rest, from the first other character on, is a comment; this describes exactly one colouring.
* `C74_types` (P_Syntax.v): The types of tokens: words for constants and the operators which are words, other reserved words, literals, names; a name is a type exactly if it names a native which [is] accepts as a type.
* `C74_continuation_partial` (P_Syntax.v): A line that continues an ASCII text is shown as it is in the whole text, but for the white space it begins with.
* `C74_continued_string_refuted` (P_Syntax.v): That white space is not shown as a part of the string which is continued.
* `C74_prefix_refuted` (P_Syntax.v): After a prefix which is not ASCII the colours are wrong: the prefix is measured in bytes, the tokens in characters. After the line 'é' the line [12 3] is shown as a number of one digit, a comment, a blank number and another comment.
* `C74_lines` (P_Syntax.v): The formatter that breaks sections at line feeds gives its inner formatter the same characters in the same colours, but line feeds without colour, and keeps to the grammar; so no section has a line feed inside.

### C75 Formatted pages

The page written by --format, read as HTML, shows the text with its colours: no character of the text is taken for markup, nothing but carriage returns is lost, and the types left out have no colour; two different texts without tabs and carriage returns give different pages. The same holds for the web terminal.

Status: partial. Proved for the HTML page. False of the code for the web terminal, which does not escape ampersands: C75_web_refuted. Reading HTML is specified for the tags and entities that are used.

* `C75_page` (P_Syntax.v): The page written by --format, read as a browser does, shows the text in its colours: there are no tags or entities but those of the formatter, whatever the text, and nothing of the text is lost except carriage returns; tabs are four spaces, line feeds are outside of the sections, and the types to be left out have no colour.
* `C75_faithful` (P_Syntax.v): Two texts without tabs or carriage returns which look the same on the page are the same.
* `C75_web_refuted` (P_Syntax.v): The web terminal does not escape ampersands: two different texts are shown alike.

### C76 The command line

The options of the cordy command mean the same in any order, up to the first argument that is not an option: this is the file, and everything after it is passed to the program unchanged, even what looks like an option. A command line is accepted exactly if it asks for at most one of help, version, disassembly and format, links no module twice and writes each option as documented; otherwise the first thing that is wrong is reported and nothing is run. No command line makes the command panic.

Status: proved. Proved. Reading the file, printing and running are not part of it; --link arguments are split at the first '='.

* `C76_accepted` (P_Cli.v): Options in any order and of any number, of which at most one asks for another mode and no two link the same module, followed by nothing or by a file and arguments: this is accepted, and each option has its effect; all that follows the file is passed to the program as it is, even what looks like an option.
* `C76_exact` (P_Cli.v): Nothing else is accepted: every list of arguments is read as options and a rest, or is wrong after some options, and then the error is the one for that.
* `C76_unique` (P_Cli.v): Where the options end is not ambiguous.
* `C76_done` (P_Cli.v): What is done: help and version come first; without a file the mode does not matter and the links are given to the interactive session; with a file, it is shown or run with the options that were given. The program does not fail on any command line.
* `C76_no_failure` (P_Cli.v)

### C77 Sessions of the REPL

Entering lines one after the other does what the language says for them in this order: the variables and functions of a line are those of all later lines, with the values they have then; a line that ends with an expression prints its value, and everything printed comes in the order of the lines; after each line the session waits with nothing left over but the variables. A line that fails is reported, keeps the effects it had before the error, and the session goes on; exit ends the session.

Status: partial. Partial: for lines outside the exceptions of LangCheck.v (C41), when the interpreter ends on each line; the printing of error reports is a parameter; the state after a failed line is described (code, variables, world), but what later lines do then is not, and does go wrong (C77_refuted). That the session has no other outcome than the interpreter's is by determinism (C41_no_other_outcome).

* `C77_session_partial` (P_Repl.v): For all primitive operations, initial worlds and lists of lines (outside the cases of LangCheck.v) which, run one after the other by the interpreter, all succeed: the session takes all of them, and waits for the next; its stack is the values of the variables, and the world (what was printed, the heap) is the one of the interpreter. Missing: lines after one that failed (see below), and lines on which the interpreter does not end.
* `C77_deterministic` (P_Repl.v): There is no other session of these lines, and a line has one outcome.
* `C77_failure_partial` (P_Repl.v): ... and if the next line stops with an error, the error is reported with the world that the interpreter leaves, and the session goes on; if it stops with exit, so does the session.
* `C77_refuted` (P_Repl.v)

### C78 Names declared later

A function may refer to globals, functions and methods that are declared after it. The reference then means what it would mean if the name were known already: the variable, function or method first declared under that name, or else the outer variable of that name; it takes effect at its place among the other operations of the function. A name that is never declared, and an assignment to a function, is an error.

Status: partial. Partial: proved for blocks in which no two late references are adjacent and none is at the end of the block, when no method with self is declared later (loads, stores, functions, methods without self, fallbacks, errors; any number of references and declarations in any order). A block may also end with a late reference if it has no other one (C78_late_last_partial). False without each of the three (C78_late_refuted_order, _end, _self). One block of one function, complete before the declarations; patterns are left out.

* `C78_late_partial` (P_Late.v): The code of a block, after all the declarations that follow, is the code it would have if the names had been known, each load and store at its place, and it is an error exactly when one of them is (never declared, or a store to a function) - when no two late references are adjacent, none is at the end of the block, and no method with `self` is declared later.
* `C78_late_last_partial` (P_Late.v): The same when the block ends with its only late reference.
* `C78_late_refuted_order` (P_Late.v): `fn f() { x = y }; let x = 1; let y = 2`: f stores to x before it loads y
* `C78_late_refuted_self` (P_Late.v): a method with `self` declared after the method that uses it: the method is looked up before `self` is pushed, so on whatever is on top of the stack
* `C78_late_refuted_end` (P_Late.v): a block that ends with a load: `let t = a + 1; if b ...`, with a and b declared later in this order: b is loaded first, and 1 is added to b

### C79 Disassembly

The disassembly of a program has one line for each instruction, in order, with the number of the instruction and, where the source line changes, that line; the instructions are aligned. An instruction that reads or writes a variable is shown with the name of this variable, optimized or not; one that jumps is shown with the number of the instruction it goes to.

Status: partial. Partial: names are proved right for code without inserted opcodes, and wrong after a late-bound name (C79_names_refuted); the shown number is the last four digits (C79_number_refuted); assertions show a distance (C79_assert_refuted). The edits are removals and replacements at any place, which is what the passes of optimizer.rs consist of; the text of opcodes without variable and target, and the line of an instruction (SourceView::lineno, in Report.v), are parameters.

* `C79_listing_partial` (P_Disasm.v): The listing of a program has a line for each instruction, in order: the source line, if it is not that of the instruction before (instructions without a place do not count), the number of the instruction (its last four digits), and the instruction; one that reads or writes a variable is shown with the name it was pushed with, whatever instructions the optimizer has removed or replaced - if nothing was inserted (C78).
* `C79_aligned` (P_Disasm.v): All labels are of the same length, so the instructions are aligned.
* `C79_jump` (P_Disasm.v): A jump is shown with the number of the instruction the machine goes to (it has read the jump, and is at the one after).
* `C79_names_refuted` (P_Disasm.v): the opcode of a name declared later carries no name, and takes that of the next variable: `fn f(a) { g; a }; let g = 1`
* `C79_number_refuted` (P_Disasm.v): the instructions 0 and 10000 have the same number, and jumps to them do not
* `C79_assert_refuted` (P_Disasm.v): an assertion is shown with the distance to its target, not with the target

### C80 Lines entered into the REPL

A text of several lines may be entered line by line: while it is not complete the REPL asks for more with another prompt and nothing happens; with the line that completes it, it does what the whole text entered at once would do, and is shown as one text in error reports. Blank lines between inputs do nothing. An error in an input ends this input only; the end of the input and an error of the reader end the session.

Status: proved. For all compilers and machines (parameters), with the hypothesis that an aborted compilation leaves the machine as it was, which is C51 for the modelled one. Views added by eval() are part of the model; the line editor is not.

* `C80_lines` (P_ReplIo.v): Entering the lines of an input one by one does what entering the whole input at once does, and blank lines between the inputs do nothing; the prompts tell how many lines belong together. What is read after it finds the session after the last input; when an input ends the session, nothing more is read.
* `C80_session` (P_ReplIo.v): In particular a whole session, from its start to the end of its input.
* `C80_any_lines` (P_ReplIo.v): Any lines at all are such inputs and blank lines, and then either nothing, or lines the session does not read because it has ended, or the beginning of an input which is never completed.
* `C80_pending` (P_ReplIo.v): An input that is never completed changes nothing but the pending text: all the lines ask for more.
* `C80_reader` (P_ReplIo.v): An end of the input, or an error of the reader, ends the session; the error is its result.

