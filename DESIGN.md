# Formal model of PhilippHochmann/Calculator in Rocq (Coq 8.16.1)

## 1. Shape of the development

* `rocq/theories/M_*.v` – models. Total Gallina functions, one per C function, each with a
  comment citing file and lines in `/repo`. No proofs, except what termination needs.
* `rocq/theories/S_*.v` – small independent specifications (what the English property says),
  written without using the model's helpers.
* `rocq/theories/L_*.v` – lemmas and proofs.
* `rocq/theories/P_*.v` – the theorems named in `MANIFEST.json`, one block per property:
  theorem, `Print Assumptions`, and an `Example` that shows a concrete case meeting the
  hypotheses.

Undefined behaviour of C (null dereference, out-of-bounds access, use of freed memory,
uninitialised result, signed overflow, out-of-range float-to-int conversion) is a value of the
model (`UB`), so that "does not crash" is a statement and a crash is a provable witness.
`software_defect` (message and `exit`) is another value (`Defect`). Unbounded C loops are
modelled with fuel only where no structural measure exists; running out of fuel is its own value,
and the theorems either exclude it or prove that it never goes away (non-termination).

A property that the code violates is kept with its full statement; the theorem
`..._refuted` proves the negation from a concrete witness, and a theorem with suffix `_partial`
proves the property on the largest sub-domain found.

## 2. Basic modelling decisions

* `char` is `Ascii.ascii`; a C string is a `list ascii` without NUL. Comparisons of characters are
  made on the code 0..255; bytes >= 128 (negative as signed char) satisfy no range test in either
  reading, which is the only way the code uses them.
* `size_t` is `nat`/`N`/`Z`. Wrap-around is modelled where the code can reach it (matching.c).
* `double` is `Floats.SpecFloat.spec_float` with precision 53, emax 1024: the standard library's executable, axiom
  free IEEE-754 binary64 (one NaN). libm (`pow exp sin tgamma ...`), `rand`, `strtod`, `printf`
  are parameters (explicit arguments) of the model functions; theorems quantify over them, with
  the hypotheses they need spelled out.
* Heap objects of tree nodes are values (the code never shares nodes between trees); operators are
  records carrying the address they live at, because some code compares operator pointers.
* Linked lists and the vector are modelled with explicit memory (addresses / buffer cells).
* malloc never fails (`alloc_wrappers.c` exits otherwise).

## 3. Plan per property

| id | modelled | proof |
|----|----------|-------|
| C01 | buffer of cells + count; growth loop | refinement to `list` over `fold_left` of operations |
| C02 | same buffer, `vsnprintf` truncation | invariant: cells = text ++ NUL; refinement to concatenation |
| C03 | heap of nodes (address -> next, prev, data) | doubly-linked-segment representation invariant, refinement to `list` over operation sequences |
| C04-C06 | 92-way trie nodes with counters | well-formedness invariant, refinement to finite map over histories |
| C07 | iterator stack | the run of get_next enumerates the sorted key list |
| C08-C10 | string functions on buffers | structural induction; witnesses for the failing inputs |
| C11, C12 | tokenizer state machine over the trie model | loop invariant |
| C13-C15 | context: list of operators with addresses, tries with addresses, glue pointer | simulation with an association list; witnesses for id reuse and keyword loss |
| C16-C18, C24 | shunting-yard step function over operator and node stacks | stack-count invariant; token conservation invariant |
| C19, C20 | a separate grammar with precedence conditions | C19: induction over expressions; C20: witness + invariant for inputs without the defect |
| C21 | same step function | bisimulation of runs |
| C22, C23 | printer with the l/r flags (`M_Printer`) | printed surface term satisfies the grammar conditions; then C19; then tokenizer lemma; a checked class of contexts (`printable_ctx`, `readable_ctx`) that contains every session's context; witnesses for contexts outside |
| C25-C29 | tree functions | induction on trees |
| C30-C33 | suffix-tree matcher with explicit index arithmetic | refinement to a declarative enumeration; soundness, completeness |
| C34-C37 | rule application, rule sets, rule text parsing | induction; witness for the dropped constraint |
| C38-C42 | session: context + composite functions + history | witnesses for id collision and null body; invariants for the rest |
| C43-C46, C54 | numeric operators on binary64 | exactness below 2^53, loop invariants; absorption witnesses |
| C47 | loop of the table command | witness of non-termination; row sequence for terminating runs |
| C48 | rules as text, parsed by the model parser, denoted in R | one lemma per rule; witnesses for unsound rules |
| C49 | tree function | induction |
| C50 | constraint solver; measuring of a whole table (`M_Table.v`) | induction over constraints; invariant over all histories of calls; witness for a span cut off to nothing |
| C51 | all of table.c: calls, measuring, printing line by line | layout invariant over histories, every printed line counted; witnesses for the off-by-one, the read outside the array and the endless loop |
| C52 | dispatcher | case analysis over the checks |
| C53 | `%.10g` (`M_Printf.v`) and `strtod` (`M_Strtod.v`) as exact functions on binary64 | between 0.0001 and 9999999999: nearest ten-digit numeral, reread equal up to the tenth digit, same text again, exact for ten-digit numbers; witness 1e+10 |
| C55 | rewriting with composite rules | well-founded multiset measure |
| C56 | getline post-processing | witness + partial |
| C57 | get_variable_nodes with buffer and offset | induction on trees |
| C58 | glue pointer of the context model | witness + invariant over histories |
| C59 | rule files line by line (getline, comments, headers, array of rule sets) | induction over the lines; witnesses for the write outside the array and the cut last line; seven sections load, fewer are refused |
| C60 | evaluator with explicit rounds for its loops | decreasing integer measures below 2^53; case analysis over the 58 operators |
| C61 | SpecFloat operations | equality with Flocq's BinarySingleNaN operations, then its correctness theorems |
| C62 | the 17 derivative rules on the real meaning of expressions (Coquelicot's Derive) | one lemma per rule, congruence below other operators |
| C63 | the file's text in the model (M_ShippedRules.v, byte for byte) | computation of the parse; C34 for definedness |
| C64 | fuel; "forever" is a distinct outcome | refuted by a cycle of four trees, by induction on the fuel |
| C65 | load command, nested scripts | refuted by a script with a faulty line; self-loading script by induction on the depth |
| C66 | printing of tables, every character of every line (`picture`, S_Table.v, is the independent picture: a function from coordinates to characters) | exact print of each field, row and line; invariant over histories; overview example |
| C67 | `console_strlen`, `get_line_of_string`, `get_text_width` | induction over the text against the count of visible characters; refuted for adjacent sequences, an empty first line, an open sequence |
| C68 | the counters behind the border columns and rows | counting invariant over all histories; exact without spans or without single-cell lines; witness otherwise |
| C69 | all calls of table.h against an abstract sheet (`S_TableApi.v`); rows of texts from the first call to the last printed line; any table without lines and spans, with its alignments (`S_Plain.v`) | refinement over all sequences of calls; composition with C50 and C66 |
| C70 | `report_error_at` with the text it writes, the messages, `show_error_at_token`, `arith_parse` with texts (`M_Error.v`); the marker as a set of columns of the first line (`S_Error.v`) | marker: list lemmas; parser: C24; evaluation: invariant on token positions through function expansion, rules and folding (`L_Located.v`, `L_Origin.v`) |
| C71 | `main` with its trie of switches, messages, command loop and exit status (`M_Main.v`); outcome of a command line as an inductive specification (`S_Main.v`) | equivalence of program and specification for all argument lists and inputs, by C04, C52 and induction over arguments and commands |
| C72 | the context of rules and the checker of constraints (`M_Simplify.v`); table of words, conditions, their truth and the trees that stand for them (`S_Constraint.v`) | the context represents the registry of all 74 operators (`crep`, by computation and C11); induction over conditions, with the two replacing passes shown to be local; refuted: C and mod bind no tighter than comparisons (`0 == 4 mod 2` is `(0 == 4) mod 2`), a constraint with count ends the program |
| C73 | `apply_derivatives` with the patterns `init_simplification` sets up for any accepted file (M_Simplify). S_Deriv: `spelled` (every e' written out), `two_variables`, `long_at`. Induction on the number of short forms; the search is outermost-first, so what is inside an e' is unchanged when it is reached; the constraint of the third pattern by C72. |
| C74 | M_TableOut: the calls `cmd_table_exec` makes to the table library, `%-.10f`, `%zu`, the header and the fold line. S_TableOut: `cells` (what stands where), `ten_places`, `seen_text`. The rows are those of C47, the picture is that of C69 (rows of cells aligned right); the texts are shown to be tidy (colours closed, no line breaks) because names of variables are words in every reachable session, also after simplification (L_NamesKept). |
| C75 | The passes of simplification as inductive relations over `apply_rule` and folding (S_Passes): exhausting a section, writing minus signs, the chain of sections, the three ways to end. P_Passes proves `simplify` returns iff the relation holds (both directions), what happens without rules, and that an expression no rule applies to is stable. |
| C76 | `cmd_help.c` function by function (M_Help): the walk over the list of operators, the wrapping of lines, the calls of the table library. Specification (S_Help): the manual with names and descriptions in five groups, how an operator is used, where lines are broken, cells with their own alignment. `C76_overview`: by the invariant of sessions (the list of operators is the registry followed by the definitions), induction over the operators for the wrapping, and C69_grid. `C76_operators`: by C69_plain; the cells are computed from the registry, the last result stays a variable. Hypotheses of the overview: infix operators in bodies have two operands, prefix and postfix operators one (rules with list wildcards could produce others), and the table is not longer than an int can count |
| C77 | `strtod` (`M_Strtod.v`) and the parser's leaf case | `numeral` spells out digits with an optional point; both directions by cutting the text at its first non-digits; single words run through the parser |
| C78 | sessions (`M_Session.v`), tokenizer, parser, simplification | the tokens do not depend on the functions; the parser looks up the words only and the simplification the unary minus only (congruence by induction over the tokens); a rule of a function needs a node with its id, which is at least 58 |
| C79 | `load_simplification`, `init_simplification` | case analysis; x' and deriv(x, z) parse as in the calculator's own context by C78 unless x or z is defined; refuted by a malformed file (success is reported, no rules in force) and by a session that defines x(a) (crash) |
| C80 | evaluation, constraints, matching, simplification, evaluation command | two runs side by side: operators other than @, rand and ans do not look at history or random numbers; matching with two checkers that agree on trees without them (induction over patterns and suffix loops); such trees stay such trees (`L_OpsKept.v`) |
| C81 | simplification of constants, evaluation command, history | a tree with a value is folded to one constant; no left side of a shipped rule matches a constant or minus a constant (computed over the rules); then the line ans is parsed in every session (no user function can take its name) and evaluated |
| C82 | all commands | one property of outcomes (history kept, random numbers a suffix) carried through operators, evaluation (induction over evaluations and trees), simplification, tables (induction over rows), definitions, clears and scripts (induction over nesting and lines) |

## 4. Trusted base

- Coq 8.16.1's kernel (with its `vm_compute`), coqchk.
- No axioms of our own. `Print Assumptions` stands behind every theorem of the P_ files. Theorems about
  data structures, parsing, trees, matching, rules as text and sessions are closed under the global
  context. Theorems that speak of real numbers (parts of P_Eval.v: C43-C46, C54, C60, C61; P_TableCmd.v: C47; P_TableOut.v: C74_numbers; P_Printf.v: C53, C77 and C23_session_numbers, C23_session_exact; parts of P_Simplify.v:
  C48, C49_value, C62) use only these four axioms of the standard library:
  `ClassicalDedekindReals.sig_not_dec`, `ClassicalDedekindReals.sig_forall_dec`,
  `FunctionalExtensionality.functional_extensionality_dep`, `Classical_Prop.classic`.
- The reading of /repo that the M_ files express; each definition cites the lines it models. Doubles are
  IEEE binary64 (`Coq.Floats.SpecFloat`, round to nearest even), `size_t` has 64 bits, `int` 32 bits,
  characters are bytes in the C locale.
- libm (pow, fmod, exp, sin, ...), rand() and printf's %g are parameters of the model, never axioms; where
  a theorem needs something of them it is a hypothesis of that theorem. strtod is a parameter of the
  parser; `M_Strtod.v` is the instance used for computed cases and for the shipped rules, and `M_Printf.v` the
  instance of %-.10g (`M_TableOut.v`: %-.10f). Both are written from the C standard (correct rounding as in glibc) and are part of the trusted
  base of C53.

## 5. Not modelled

Message texts other than those of `M_Error.v` (in sessions a message is the event `SError`; C70_same_outcome connects the two), lifetimes of the memory of function names and operators,
the memory of cell texts in tables (text_needs_free, free_table), terminal handling (readline, ANSI echo; input is read as by getline), whispered messages, memory exhaustion, `print_tree_visually`,
timing. Memory leaks are not modelled except in the trie (C06) and the list (C03).
