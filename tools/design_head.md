# DESIGN

Formal model, in Rocq (Coq 8.16.1), of the Cordy interpreter (`/repo`, Rust), and theorems about it.
The list of properties is `properties.jsonl`; which theorems belong to which property is in `MANIFEST.json`
(regenerated by `tools/manifest.py`, as this file is by `tools/design.py`).

## Conventions

* Model files contain only definitions, each citing file and lines in `/repo` (paths relative to
  `/repo/cordy-sys/src`). Vocabulary needed to state properties is in `*Spec.v`, independent of the model's
  helpers; proofs are in `*Proofs*.v` (and `Comp*.v` for the compiler); the property theorems are in `P_*.v`: statement, short proof, `Print Assumptions`,
  and examples showing that concrete cases meet the hypotheses.
* Rust `i64`/`usize` arithmetic is modelled as in the *release* profile: wrap-around modulo 2^64; shift counts masked by 63.
* Rust `Result` is data (`Ok`/`Err`), and a Rust panic is the separate outcome `Panic`, so "never crashes" can be stated.
* When the code violates the English property, the full statement is kept, the violation is a theorem `..._refuted`
  (a concrete counterexample executed in the model) and the strongest true part is proved, as `..._partial` if it covers only
  part of what the sentence says. A property with such a theorem has status `partial` in the manifest even if the true part is complete.
* `tools/mutate.py` applies wrong edits to a scratch copy of the model and rebuilds; `seeded/LOG.jsonl` records what failed.

## Trusted base

* Coq's kernel (with its virtual machine, `vm_compute`, used for concrete examples) and the standard library's definitions.
* `Print Assumptions` reports "Closed under the global context" for every theorem of `P_*.v`: no axiom is used.
  Loading the standard library brings the module `Coq.ssr.ssrunder` with the seven declarations
  `Under_rel.{Under_rel, Under_rel_from_rel, Under_relE, under_rel_done, Over_rel, over_rel, over_rel_done}` (fields of an opaque module of the
  standard library) into the environment; no theorem depends on them. No axioms, functors, module types, plugins or disabled checks of our own.
* That the model says what the code does: the definitions were written by reading the source, function by function; nothing was executed.
  The table of builtins (`Native.v`) was generated from the source text by `tools/gen_native.py`.
* Behaviour of libraries outside `/repo`, modelled from their sources or documentation: std `VecDeque`, `BinaryHeap` (algorithms modelled), `HashMap`,
  `char`, `i64`/`u64` parsing and formatting; indexmap 2.0.0 (`remove` = `swap_remove`), fxhash 0.2.1, itertools 0.10.5 (algorithms modelled),
  num-integer, num-rational (exact rationals), and stable sorting (by its documented contract: only a merge sort with the given comparison).

## What is modelled

| Model file | Code | Remarks |
|---|---|---|
| Base, Ptr | `vm/value/ptr.rs` 1-330: tagged words | 64-bit words as integers, pointers aligned |
| Lock | `vm/value/ptr.rs` 600-800: reference counts and borrow guards | one object, arbitrary histories |
| Native | `core/mod.rs` 28-425: table of builtins, arities, swaps | generated |
| Value | equality, ordering, hashing: `vm/value/ptr.rs`, `vm/value/*.rs` | contents of values, acyclic |
| Err, Ops | `vm/error.rs`, `vm/operator.rs`, `vm/value/number.rs` | `to_str` and `%` formatting are parameters there (formatting: Str) |
| Iter, Seq | `vm/value/range.rs`, `vm/value/mod.rs` iterators, `vm/value/slice.rs`, indexing and slicing in `core/collections.rs` | iterators over snapshots (Hof: live) |
| Coll, Heap, Combi | `core/collections.rs`, `vm/value/collections.rs` | aliasing of arguments not modelled |
| Hof | builtins that call back, over an arbitrary interpreter state | |
| Memo, Copy | `@memoize` and `copy` on object graphs with sharing and cycles | |
| Str | `core/strings.rs` | no regex engine; case mapping for ASCII |
| Disp | dispatch of builtins `core/mod.rs` 480-990 | |
| Pattern | `core/pattern.rs`, `compiler/parser/semantic.rs` 576-627 | |
| Scan | `compiler/scanner.rs` | whole file |
| Graph, Peep | `compiler/parser/core/graph.rs`, `compiler/parser/core/optimizer.rs`, `parser/mod.rs` teardown | |
| Vm | `vm/mod.rs` interpreter loop, calls, closures, upvalues; `vm/value/func.rs` | values other than functions and all operators are a parameter (`prims`): an arbitrary "world" with interaction trees |
| Lang, Compile, Lit | `compiler/parser/codegen.rs`, statement rules of `compiler/parser/mod.rs`, literals under construction | from resolved syntax trees |
| LangSpec, LangCheck | the specification of the source language (definitional interpreter), and the syntactic exclusions for C41-C45 | not code |
| Opt | `compiler/parser/expr/optimizer.rs` | |
EXTRA_ROWS

## What is not modelled

The grammar of statements in `parser/mod.rs` (only the emission of code; expressions are in Parse),
annotated functions (`@e fn`), calls of FFI functions (`CallNative`), `monitor`, reading and writing files and standard
input, environment and arguments, the regex engine, the texts of error messages, the REPL's line editing,
the bindings to WASM, documentation tests. Memory exhaustion and host stack overflow. `unsafe` memory access is modelled only through the
tagged words (Ptr), reference counts and guards (Lock).

## Findings

Violations of the properties (each one a theorem `..._refuted`, see the list below), and further defects seen while reading:

* `resolve_upvalue` returns the captured slot instead of its position when the upvalue already exists: in
  `fn f(){ let a=1; fn g(){ let c=2; fn h(){ c; a; a } h() } g() }` the second `a` reads `c`.
* A `return` compiled before a later capture in a loop emits no `LiftUpValue` (C45_return_refuted); `continue` in `for` lifts only the inner scope
  (C45_iterations_refuted); `continue` in the `else` of a loop jumps to the loop start with the iterator already popped; `continue` in `do .. while` skips the condition.
* A `do .. while` after an expression statement without `;` pops once per iteration (C45_do_refuted).
* `if a {} elif b then x else y` leaves the stack unbalanced.
* Default argument expressions are resolved in the scope of the enclosing function but emitted in the callee.
* `assert (1 + 2) == 3` panics in the compiler; upvalues left by `pop_locals` make later struct methods at global scope emit `Closure` on a non-function.
* `fn f(*a = 1)` / `*a?` give two defaults, so the minimum argument count underflows; two variadic parameters are not rejected.
* `.=` on a field emits NotEqual; a failed `run_recovery` does not clear open upvalues, the unroll stack or the global count.
* Variadic parameters and partial application: the number of new arguments is used instead of the total (C32_variadic_refuted).
* `union(s, s)`, `intersect`, `difference` of a set with itself panic (mutable borrow while iterating).
* Copying a set whose element contains itself recurses forever in the hash.
* Insertion of a recursive structure inserts it and then reports the error.
* `sort_by`, `min_by`, `max_by` go on calling after an error; destructuring a dict looks up the keys 0, 1, ...
* The expression optimiser: exchanges complex operands once too often, turns errors in dead branches into compile errors, treats `exit` as free of effects;
  a constant expression that panics at run time panics the compiler.
* A failed `eval` is not undone (C51_eval_refuted); all native modules are equal constants, so the second one evaluates to the first (C66_native_refuted).
* A variable captured through an intermediate function resolves, from its second use on, to the wrong entry of the environment: another variable, or none at all (C67_refuted; `resolve_upvalue` keeps the index of the outer environment instead of the position found).
* A destructuring assignment to globals inside a module's function panics the compiler: `let x, y; module M { fn f() { x, y = 1, 2 } }` gives a late
  binding with fallback in a pattern, for which `resolve_remaining_late_bindings` has only `panic!()`.
* `[x +]` and `(x +, y)` are errors although `(x +)`, `[+]` and `(+, y)` are accepted (C68_partial_operator_refuted); a line `max = 3` continues the expression before it (C68_next_line_refuted).
* `repr` does not escape single quotes and writes escapes the scanner does not know; `(1,)` is written as `(1)`, the empty dict as `{}`, a rational as an integer division (C69_*_refuted).
* `range(3) is range` and `enumerate(x) is enumerate` are type errors, and a field getter or memoized function is not a `function`, so `x is typeof(x)` fails for these (C70_own_refuted).
* After non-ASCII characters errors are reported for the wrong line: lines are found by counting bytes, locations count characters (C72_unicode_refuted).
* A place that ends with the first character of a line is shown as if it ended in the line before, with marks beyond its end (C72_end_refuted).
* Highlighting a continued line measures the earlier text in bytes and the tokens in characters: after a line with a
  non-ASCII character the colours are shifted (C74_prefix_refuted). White space at the start of a line inside of a string
  has no colour (C74_continued_string_refuted).
* The web terminal does not escape `&`: the text `'&#91;'` is shown as `'['` (C75_web_refuted).
* In the REPL a line that fails leaves its variables declared, without a place on the stack: after `let x = 1 + nil` fails and `let y = 5`, `x` is 5 and
  `y` is not declared (C77_refuted).
* The `cordy` command ends with status 0 also after a compile or run time error; an unknown option is taken as the name of the file.
* References to names declared later are inserted one by one, when the name is declared, before
  the opcode that followed them, and so (C78, LateBind.v):
  adjacent references come in the order of the declarations (`fn f() { x = y }; let x = 1; let y = 2`
  stores to `x` before `y` is loaded); a reference at the end of a block has no opcode to be put
  before: its id is that of the first opcode inserted, or none, and in the second case the debug_assert
  fails; and for a method with `self` declared later, `GetMethod` comes before the push of `self`
  (`struct A() { fn a(self) { b() + b() } fn b(self) { 9 } }` binds the second `b` to 9; with a single call the
  test of the repository passes because `self` itself happens to be on top of the stack, and is replaced).
* The opcodes inserted for such references carry no name, so in a disassembly every name after one
  of them is shown at the wrong opcode.
* In a disassembly the numbers of the instructions are taken modulo 10000, the targets of jumps are
  not (C79); `AssertTest` and `AssertCompare` are shown with the distance to their target, all other jumps with the target.
* `0..=` is not scanned by maximal munch.

## Properties: what is proved and where

