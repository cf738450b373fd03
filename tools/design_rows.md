| Math | `core/math.rs` | whole file except parsing a rational from a text |
| RecHash | hashing and insertion with borrowed sets and dicts, `guard_recursive_hash`: `vm/value/collections.rs` 63-202, `core/collections.rs` 40-69, 469-537 | heap with sharing and cycles; stored hashes; equal hashes of different inputs not modelled |
| Incr | incremental compilation `compiler/mod.rs` 64-198, `parser/mod.rs` 48-55, 215-268; what the parser does to the shared tables (`semantic.rs` declare_const, declare_function, fields, types, native library) | a parse is an arbitrary sequence of these changes |
| Resolve | local variables, scopes, captured variables: `compiler/parser/semantic.rs` 50-102, 178-231, 962-1015, 1108-1167, 1217-1402 | a program is a sequence of declarations, references, blocks and functions; no `self`, modules, late bindings |
| Parse | the parser of expressions: `compiler/parser/mod.rs` 1087-1090, 1196-2090, `compiler/parser/core/mod.rs` 43-192 | on tokens; a function literal is one token; stops at the first error |
| Repr | `repr` and `str`: `vm/value/mod.rs` 174-289, `number.rs` 36-49, 106-108, `range.rs` 100-158, `slice.rs` 48-62; reading a text as an expression and the value of literals: `compiler/mod.rs` 86-198, `parser/mod.rs` 224-268, `codegen.rs` 60-215 | finite values (no cycles); names of functions and types, and which non-ASCII characters are printable, are parameters |
| TypeOf | `typeof`: `core/mod.rs` 1092-1126 | `is` is in Ops |
| Show | `repr` and `str` of graphs of objects with the recursion guard: `vm/value/mod.rs` 174-289, 526-546 | heap with sharing and cycles; values without identity as in Repr |
| Report | error reports: `reporting.rs` 11-70, 88-103, 148-262; stack traces: `vm/error.rs` 103-142, 182-194, `func.rs` 94-96, `parser/mod.rs` 242-255 | one source entry; the error texts are parameters |
| Struct | declarations: `parser/mod.rs` 315-378, `semantic.rs` 746-757, 893-929, 1399-1480; fields and methods: `vm/value/mod.rs` 416-472, 683-789, `vm/mod.rs` 550-575, 690-698, 825-853 | values other than objects, types, getters and functions are opaque |
| Syntax | highlighting: `syntax.rs` 17-130, `scanner.rs` 174-190, `compiler/mod.rs` 17-22; `cordy/src/main.rs` 155-166, 246-296; `cordy-web/src/lib.rs` 45-51, 92-122 | a formatter is the list of the calls it gets; counting loops run as often as the difference; the table of native names is a parameter |
| Cli | the command line: `cordy/src/main.rs` 56-82, 84-139, 149-185, 215-238 | says what is asked for; reading the file, printing and running are not in this file |
| ReplRun, Repl | sessions: `repl.rs` 22-26, 62-122, `parser/mod.rs` 210-222, `vm/mod.rs` 70-87, 223-234 | a line is given as resolved statements and functions; reporting an error is a parameter; lines that do not compile are in Incr |
| LateBind | references to names declared later: `semantic.rs` 234-274, 360-371, 980-989, 1023-1104, `core/mod.rs` 212-283, `core/graph.rs` 122-127, 283-301 | one block of a function, which is complete before the declarations; patterns and locations are left out; the debug_assert of `insert` is not checked |
| Disasm | the disassembly: `compiler/mod.rs` 225-250, `vm/opcode.rs` 161-215; names: `core/graph.rs` 17-35, 145-164, 208-216, 268-301, `core/mod.rs` 288-303 | the pushes of a block come together; branches at the end of a block are given; the text of other opcodes and the lines are parameters |
| ReplIo | lines and inputs of the REPL: `repl.rs` 20-121, `reporting.rs` 104-149 | compiler, machine, recovery and reports are parameters |
