{
 "C03": {
  "note": "The lock word is a u16: the guarantees hold up to 65535 simultaneous shared guards (C03_exclusion, C03_exact, C03_released); C03_unbounded_refuted shows that the next borrow is refused."
 },
 "C04": {
  "note": "The count is a u32: proved up to 2^32 - 1 handles; C04_unbounded_refuted: beyond that the counter wraps and the object is freed early."
 },
 "C07": {
  "note": "False of the code: len(range(0,5,2)) is 2. C07_range_len_partial says exactly when it is right (empty range, or the step divides the span) and that otherwise it is one too small."
 },
 "C08": {
  "note": "Reversal is proved for all ranges. rindex_of/rfind: proved for every iterable except ranges and enumerations, where it is false (C08_rindex_of_refuted)."
 },
 "C09": {
  "note": "Proved for lists, vectors and ASCII strings; for non-ASCII strings false (C09_string_refuted): the code mixes byte and character counts and panics."
 },
 "C10": {
  "note": "Proved for lists and vectors and for ASCII strings; false for other strings (C10_string_refuted)."
 },
 "C13": {
  "note": "Proved for exponents below 2^32 and shift amounts between -63 and 63; beyond that false of the code (three counterexamples): the exponent is truncated to u32, the amount masked to 6 bits."
 },
 "C15": {
  "note": "Ring operations proved for all operands; power for exponents below 2^32; division for components below the bound `tiny`, because the squared norm wraps beyond it (C15_division_refuted)."
 },
 "C18": {
  "note": "False of the code: comparison is not transitive across kinds (two counterexamples)."
 },
 "C19": {
  "note": "False of the code for sets/dicts with several entries (order dependent hash) and for integral rationals; C19_equal_hash_partial proves it for all other values."
 },
 "C21": {
  "note": "Everything is proved except that `difference` (the builtin, not `-`) keeps the order of the remaining elements, which is false."
 },
 "C27": {
  "note": "Proved for n >= 1 (and n larger than the length, and negative n); false for n = 0, which is rejected."
 },
 "C28": {
  "note": "Round trips proved where they hold; the counterexamples: char looks at the low 32 bits only, ord rejects non-ASCII characters, negative hex texts are not read back, 64-bit numerals are accepted."
 },
 "C29": {
  "note": "Proved for all formats and arguments; a width that does not fit in a usize crashes the interpreter (C29_no_crash_refuted)."
 },
 "C30": {
  "note": "Missing: the regex engine (library fancy_regex) is not modelled, so nothing is said about escaping; case mapping only for ASCII."
 },
 "C32": {
  "note": "Proved unless the call reaches a variadic parameter, where it is false of the code (C32_variadic_refuted)."
 },
 "C33": {
  "note": "Proved for all operators; on sets the result is equal but the element order may differ (C33_set_order_refuted)."
 },
 "C34": {
  "note": "Direct calls, currying and partially applied builtins: proved. The fast paths with 0, 1 and 2 arguments: proved outside listed cases, in each of which they really differ (three counterexamples)."
 },
 "C35": {
  "note": "Proved for sequences (lists, vectors, ASCII strings) when the assignments leave the value alone; counterexamples: sets are refused, aliasing, non-ASCII strings crash, two stars in an assignment."
 },
 "C36": {
  "note": "Proved for every closed object graph: termination, one-to-one correspondence, disjointness, equality; exceptions (false of the code): defaults of dicts are dropped, sets/dicts in cycles may lose entries."
 },
 "C37": {
  "note": "Proved for all histories; `exactly once` is false for a re-entrant call with the same arguments."
 },
 "C43": {
  "note": "Proved for all expressions and programs without complex constants which are `gentle` (a syntactic condition: of operands that may be exchanged, all but one are constants, variables or partially applied builtins), for values and final states of runs without error. Missing: exchanging larger operands, where the final states differ by a renaming of addresses; errors. Three counterexamples: complex constants, errors in dead branches, `exit`."
 },
 "C45": {
  "note": "The meaning of variables is proved for all programs of the source semantics; compiled programs follow it (C45_compiled_partial) outside the exclusions of LangCheck.v, for which it is false of the code (three counterexamples)."
 },
 "C48": {
  "note": "Proved for every text; exceptions that are false of the code: line breaks inside strings come before the string token, and the error location of an unterminated string is outside of the text."
 },
 "C49": {
  "note": "Proved for all literals; literals from 2^62 to 2^63-1 are accepted but denote another number (C49_large_literal_refuted)."
 },
 "C50": {
  "note": "Proved for white space and all comments that close properly; the end of a block comment is not its first star-slash in two cases (C50_comment_end_refuted)."
 },
 "C54": {
  "note": "Forward iteration proved for all; reverse iteration of an enumeration is false of the code."
 },
 "C56": {
  "note": "Well-formedness proved for all operators and values; no crash proved unless the left operand is the complex/rational corner case of C56_no_crash_refuted."
 },
 "C58": {
  "note": "Strings: all; lists: when n * len < 2^64, beyond which the element count wraps (C58_list_repeat_refuted)."
 },
 "C61": {
  "note": "Proved for key functions that do not fail; after a failing call the key function is still called on later elements (C61_stops_at_error_refuted)."
 },
 "C63": {
  "note": "Ints and squares of rationals: proved for all. For other rationals numerator and denominator are rounded separately, so the root may be exceeded (C63_rounding_refuted)."
 },
 "C64": {
  "note": "Proved for all values; two corner cases are false of the code: abs of the least int is itself (C64_abs_refuted), parts of complex numbers outside the int range wrap (C64_parts_refuted)."
 },
 "C52": {
  "note": "Never succeeds on a self-containing structure, no false alarm otherwise, guard has no influence: proved for all heaps. False of the code: the failure may be a crash instead of the error (C52_crash_refuted), the element stays inserted and makes later operations crash (C52_later_refuted), lists that contain themselves overflow the stack (C52_list_refuted)."
 },
 "C51": {
  "note": "Failed REPL line: nothing changes at all; every session: all indices keep their contents; functions declared are defined: proved for any parser behaviour made of the listed changes. False for eval: a failed eval is not undone, and an undeclared field in it makes all later lines fail (C51_eval_refuted)."
 },
 "C66": {
  "note": "Proved for structs and modules. False for native modules, which are all equal: the second one evaluates to the first (C66_native_refuted)."
 },
 "C67": {
  "note": "False of the code for variables two or more functions up that an intermediate function has captured before (C67_refuted: the second use of such a variable is another variable, or an entry that does not exist). C67_near has no condition on the program: variables of the function, of the one directly around it, and globals. C67_scoping_partial: all others, in programs without such a repeated capture. Blocks, declarations and environments (C67_blocks, C67_declare, C67_environment) hold in general. Not modelled: self, modules, late bound globals."
 },
 "C68": {
  "note": "Function literals are one token, errors after the first are not modelled, assignment targets are not checked here. C68_partial_operator_refuted and C68_next_line_refuted do not contradict the statement; they refute two stronger readings: an operator with only a left operand is accepted only before ')'; a line starting with `max =` continues the one before.",
  "status": "proved"
 },
 "C69": {
  "note": "Proved end to end (printer, scanner, parser, literals) for all values in [readable]. False of the code for the others: strings with a single quote or control characters, vectors with fewer than two elements, empty dicts and ranges, rationals, heaps, complex numbers with a part out of the range of literals (C69_*_refuted). Structs and functions are printed but not read back; range and enumerate are taken not to be redefined."
 },
 "C70": {
  "note": "False of the code for ranges and enumerates (`x is typeof(x)` is a type error) and for field getters (it is false): C70_own_refuted. Everything else is proved for all values; the two theorems with suffix _partial leave out exactly these. Memoized functions are not values of this model."
 },
 "C71": {
  "note": "For every closed heap and every value in it. The time it takes can be exponential in the number of shared objects; not stated. Host stack depth is not modelled."
 },
 "C72": {
  "note": "False of the code for texts with non-ASCII characters (lines are found by counting bytes, places count characters): C72_unicode_refuted; and for places that end with the first character of a line (that line is not shown): C72_end_refuted. The partial theorems are for ASCII texts and for places that do not end so. No panic and the traces are proved in full. The texts of the errors are parameters."
 },
 "C73": {
  "note": "For all programs of declarations and uses of names; native modules are in C66. Functions are identified by the constant that is reserved for them; what they do when called is in C31-C32, C41. Names used without an explicit `self->` and u32 truncation are not modelled."
 },
 "C74": {
  "note": "The characters, the grammar and the colours of whole texts are proved in full. Continued lines: false of the code after a prefix which is not ASCII (the prefix is measured in bytes): C74_prefix_refuted, and for white space inside of a continued string: C74_continued_string_refuted; the partial theorem is for ASCII prefixes and says exactly what is shown then. The table of native names is a parameter."
 },
 "C75": {
  "note": "Proved for the HTML page. False of the code for the web terminal, which does not escape ampersands: C75_web_refuted. Reading HTML is specified for the tags and entities that are used."
 },
 "C76": {
  "note": "Proved. Reading the file, printing and running are not part of it; --link arguments are split at the first '='."
 },
 "C77": {
  "note": "Partial: for lines outside the exceptions of LangCheck.v (C41), when the interpreter ends on each line; the printing of error reports is a parameter; the state after a failed line is described (code, variables, world), but what later lines do then is not, and does go wrong (C77_refuted). That the session has no other outcome than the interpreter's is by determinism (C41_no_other_outcome)."
 },
 "C78": {
  "note": "Partial: proved for blocks in which no two late references are adjacent and none is at the end of the block, when no method with self is declared later (loads, stores, functions, methods without self, fallbacks, errors; any number of references and declarations in any order). A block may also end with a late reference if it has no other one (C78_late_last_partial). False without each of the three (C78_late_refuted_order, _end, _self). One block of one function, complete before the declarations; patterns are left out."
 },
 "C79": {
  "note": "Partial: names are proved right for code without inserted opcodes, and wrong after a late-bound name (C79_names_refuted); the shown number is the last four digits (C79_number_refuted); assertions show a distance (C79_assert_refuted). The edits are removals and replacements at any place, which is what the passes of optimizer.rs consist of; the text of opcodes without variable and target, and the line of an instruction (SourceView::lineno, in Report.v), are parameters."
 },
 "C80": {
  "note": "For all compilers and machines (parameters), with the hypothesis that an aborted compilation leaves the machine as it was, which is C51 for the modelled one. Views added by eval() are part of the model; the line editor is not."
 }
}
