* **C01** Integer literals and results are stored exactly or wrapped to 63 bits: Ptr.v: words as Z mod 2^64, from_i64/as_precise_int as bit operations; round-trip law.
* **C02** Inline values never get confused with one another: Ptr.v: all inline constructors/observers; type_of/decoders round-trip, injectivity.
* **C03** Borrow guards exclude each other: Lock.v: u16 lock word state machine vs. a ghost multiset of guards; invariant over histories.
* **C04** Heap values are freed exactly once, when the last handle is dropped: Lock.v: u32 refcount machine vs. ghost set of handles; invariant over histories.
* **C05** Ranges produce exactly the arithmetic progression they denote: Range.v: Range::from/next; induction on the number of steps against the closed-form progression.
* **C06** `x in range` agrees with iterating the range: Range.v: contains vs. membership in the iterated sequence.
* **C07** len of a range is the number of elements it iterates: Range.v: len; expected false for non-divisible spans -> refutation + proof on the divisible domain.
* **C08** Reversing a range reverses its element sequence: Range.v: reverse; expected false -> refutation + what does hold.
* **C09** Indexing is total, exact and bounds-checked: Seq.v: check_index, get/set index against nth_error/update.
* **C10** Slices select exactly the progression of in-range indices: Seq.v: get_slice against an index-progression specification; corollaries.
* **C11** Integer arithmetic is exact modulo the 63-bit wrap: Ops.v over Value.v; results vs Z arithmetic modulo 2^63.
* **C12** Division and modulo are floored and consistent: Ops.v; floor division laws.
* **C13** Power and shifts compute the mathematical operation: Ops.v; u32 exponent truncation and masked shifts modelled -> true on a domain, refuted beyond.
* **C14** Bitwise operators act bitwise and keep booleans boolean: Ops.v; Z.testbit characterisation.
* **C15** Complex numbers normalise and form a ring: Ops.v complex part.
* **C16** Equality is an equivalence relation: Value.v value_eq; mutual induction.
* **C17** Ordering on one kind of value is a total order consistent with equality: Value.v value_cmp on homogeneous carriers.
* **C18** Ordering across kinds is usable for sorting mixed data: Value.v: expected refutation by a mixed triple.
* **C19** Equal values hash equally: Value.v hash as the sequence of words fed to the hasher; refutation for sets, proof for the rest.
* **C20** Sets and dicts behave as insertion-ordered finite maps: Coll.v IndexMap/IndexSet models vs. a finite-map specification over histories.
* **C21** Set algebra: Coll.v set operators.
* **C22** Heaps pop elements in ascending order: Heap.v binary heap against multiset specification.
* **C23** sort, min, max, reverse, zip, sum laws: Coll.v sort/min/max/reverse/zip/sum.
* **C24** List mutation operations: Coll.v list operations.
* **C25** Higher-order builtins call their function once per element in order: Hof.v with functions as state transformers (state monad with errors).
* **C26** group_by partitions its input: Coll.v group_by.
* **C27** Permutations and combinations enumerate exactly once: Coll.v itertools permutations/combinations modelled by their documented output order.
* **C28** char/ord and hex/bin/int conversions round-trip: Str.v.
* **C29** String formatting consumes exactly its arguments: Str.v formatter state machine.
* **C30** String helpers round-trip: Str.v on code point lists.
* **C31** Call arity is enforced uniformly: Func.v arity arithmetic.
* **C32** Partial application is transparent: Func.v invoke on partial functions; refutation for variadics.
* **C33** Operator sections swap correctly: Native.v table + Ops.v.
* **C34** Builtin dispatch is the same however a builtin is called: Native.v dispatchers.
* **C35** Destructuring binds each name to the element it denotes: Pattern.v.
* **C36** Deep copy yields an equal, disjoint object graph: Copy.v heap graph copy.
* **C37** Memoised functions compute each argument tuple at most once: Memo.v.
* **C38** Dict default factories: Coll.v dict defaults.
* **C39** Branches in compiled code go where the source says: Graph.v emit simulation.
* **C40** The bytecode peephole optimiser preserves behaviour: Peep.v.
* **C41** Compiled expressions compute the value the source denotes: Codegen.v + VM.v.
* **C42** Short circuit and comparison chains: Codegen.v corollaries.
* **C43** The expression optimiser preserves results: Opt.v.
* **C44** List, set, dict and call spreads: VM.v literals stack.
* **C45** Closures capture variables, not values: Upvalue.v.
* **C46** Returning from a function restores the caller exactly: VM.v Return.
* **C47** Globals are unreadable before definition: VM.v globals.
* **C48** Lexing is total and locations are faithful: Scan.v.
* **C49** Numeric and string literals denote what is written: Scan.v literals.
* **C50** Comments and whitespace do not affect tokens: Scan.v comments.
* **C51** A failed REPL/eval compilation leaves the session unchanged: Incr.v save/restore.
* **C52** Failed hashing of recursive structures is detected: Coll.v guard flag.
* **C53** Vector operators act elementwise: Ops.v vectors.
* **C54** Enumerate and its reverse: Range.v enumerate.
