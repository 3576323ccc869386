{
 "claims": [
  {
   "property": "C01",
   "status": "proved",
   "theorems": [
    "C01_vector_refines_list"
   ],
   "note": "Any start size, any sequence of calls an ideal list allows; memory safety included (Ub is a distinct outcome)."
  },
  {
   "property": "C02",
   "status": "proved",
   "theorems": [
    "C02_string_builder_concatenates"
   ],
   "note": "Formatting itself (printf) is a parameter: the text appended."
  },
  {
   "property": "C03",
   "status": "proved",
   "theorems": [
    "C03_linked_list_refines_sequence"
   ],
   "note": "Explicit heap, freed nodes are detected; destroy frees everything."
  },
  {
   "property": "C04",
   "status": "proved",
   "theorems": [
    "C04_trie_refines_map",
    "C04_trie_add_inadmissible"
   ],
   "note": ""
  },
  {
   "property": "C05",
   "status": "proved",
   "theorems": [
    "C05_longest_prefix"
   ],
   "note": ""
  },
  {
   "property": "C06",
   "status": "proved",
   "theorems": [
    "C06_no_garbage"
   ],
   "note": ""
  },
  {
   "property": "C07",
   "status": "proved",
   "theorems": [
    "C07_iteration_enumerates"
   ],
   "note": "Depth bound 28 characters as in the code; C07_too_long shows the stop beyond it."
  },
  {
   "property": "C08",
   "status": "proved",
   "theorems": [
    "C08_str_split",
    "C08_begins_with"
   ],
   "note": ""
  },
  {
   "property": "C09",
   "status": "partial",
   "theorems": [
    "C09_get_line_refuted",
    "C09_get_line_partial",
    "C09_get_line_absent",
    "C09_get_line_leading_newline"
   ],
   "note": "The full claim is false of the code (text with a leading newline); proved for all other texts and for index 0; the off-by-one behaviour for leading newlines is proved exactly."
  },
  {
   "property": "C10",
   "status": "partial",
   "theorems": [
    "C10_strip_refuted",
    "C10_strip_partial",
    "C10_strip_blank_text"
   ],
   "note": "The full claim is false of the code (non-empty text of blanks only reads in front of its buffer); proved for all other texts."
  },
  {
   "property": "C11",
   "status": "proved",
   "theorems": [
    "C11_tokenizer_lossless",
    "C11_context_tokenizer_lossless"
   ],
   "note": "For every keyword set without a keyword that starts with a digit (the calculator never registers one: names in arith_context.c:27-95, and cmd_definition.c:53 demands a leading letter). C11_digit_keyword shows the condition is needed."
  },
  {
   "property": "C12",
   "status": "proved",
   "theorems": [
    "C12_tokens_maximal"
   ],
   "note": "Under the condition of C11; also that the cutting is unique."
  },
  {
   "property": "C13",
   "status": "proved",
   "theorems": [
    "C13_registry_refines_map"
   ],
   "note": ""
  },
  {
   "property": "C14",
   "status": "partial",
   "theorems": [
    "C14_ids_refuted",
    "C14_ids_partial"
   ],
   "note": "False of the code: after deleting an operator the next addition reuses the id of a registered one. Proved for all histories that delete only the youngest operators between two additions."
  },
  {
   "property": "C15",
   "status": "partial",
   "theorems": [
    "C15_keyword_refuted",
    "C15_deletion_partial"
   ],
   "note": "False of the code for a name used in two placements: deleting one removes the keyword of the other. Proved: all other lookups and the keyword status of all other names are unchanged; names never deleted are keywords."
  },
  {
   "property": "C16",
   "status": "partial",
   "theorems": [
    "C16_parse_total_refuted",
    "C16_parse_total_partial",
    "C16_parse_crash_cause"
   ],
   "note": "False of the code: ((1,2)) dereferences a null operator. Proved for every input without a delimiter in a parenthesis that directly follows an opening parenthesis or delimiter; and that nothing else crashes."
  },
  {
   "property": "C17",
   "status": "proved",
   "theorems": [
    "C17_arities_respected"
   ],
   "note": "For every context, however built."
  },
  {
   "property": "C18",
   "status": "proved",
   "theorems": [
    "C18_tokens_used_once"
   ],
   "note": ""
  },
  {
   "property": "C19",
   "status": "proved",
   "theorems": [
    "C19_correct_tree",
    "C19_all_expressions_accepted"
   ],
   "note": ""
  },
  {
   "property": "C20",
   "status": "partial",
   "theorems": [
    "C20_only_expressions_refuted",
    "C20_only_expressions_partial",
    "C20_accepted_iff"
   ],
   "note": "False of the code: 1+sum(+) is accepted. Proved for every input in which no operator dangles before a closing parenthesis; expressions are exactly the accepted inputs without such an operator."
  },
  {
   "property": "C21",
   "status": "proved",
   "theorems": [
    "C21_blanks",
    "C21_bracket_shape"
   ],
   "note": "For contexts in which no operator name contains a bracket; the arithmetic context is one."
  },
  {
   "property": "C24",
   "status": "proved",
   "theorems": [
    "C24_error_position"
   ],
   "note": ""
  },
  {
   "property": "C25",
   "status": "partial",
   "theorems": [
    "C25_equality_symmetric_transitive",
    "C25_copy_equal_refuted",
    "C25_copy_equal_partial",
    "C25_equal_values_refuted",
    "C25_equal_values_partial"
   ],
   "note": "Symmetry and transitivity hold. A copy equals its original iff no constant is NaN (refuted in general, proved without NaN). Equal trees have equal values unless they hold the constant -0, which counts as equal to 0."
  },
  {
   "property": "C26",
   "status": "proved",
   "theorems": [
    "C26_list_variables",
    "C26_firsts",
    "C26_copy_ids",
    "C26_count"
   ],
   "note": ""
  },
  {
   "property": "C27",
   "status": "proved",
   "theorems": [
    "C27_replace_is_substitution",
    "C27_substitution_value",
    "C27_absent"
   ],
   "note": ""
  },
  {
   "property": "C28",
   "status": "proved",
   "theorems": [
    "C28_reduce_is_evaluation",
    "C28_calls"
   ],
   "note": ""
  },
  {
   "property": "C29",
   "status": "proved",
   "theorems": [
    "C29_folding_keeps_value",
    "C29_folding_complete",
    "C29_folding_fails"
   ],
   "note": "Nullary applications are folded like all others."
  },
  {
   "property": "C30",
   "status": "proved",
   "theorems": [
    "C30_match_is_instance",
    "C30_all_matchings_are_instances",
    "C30_delivered_unique"
   ],
   "note": "Equality is the program's tree equality, except that a NaN bound by a variable is itself. Subjects whose operand lists have less than 2^63 elements."
  },
  {
   "property": "C31",
   "status": "partial",
   "theorems": [
    "C31_finds_instances_refuted",
    "C31_finds_instances_partial",
    "C31_succeeds_partial",
    "C31_stable"
   ],
   "note": "False of the code: f(g([ws],[xs]),h([xs],[ys])) crashes on the instance f(g(2,2),h(2)). Proved: whenever the matcher answers every instance is found; it does answer for patterns in which a list variable that occurred before the operand list is not directly followed by another list variable."
  },
  {
   "property": "C32",
   "status": "partial",
   "theorems": [
    "C32_constraints_hold_refuted",
    "C32_constraints_hold_partial",
    "C32_foreign_variable"
   ],
   "note": "False of the code for patterns without variables: their constraints are never looked at. Proved for all patterns with a variable whose constraints only speak of variables of the pattern."
  },
  {
   "property": "C33",
   "status": "partial",
   "theorems": [
    "C33_memory_safe_refuted",
    "C33_memory_safe_partial"
   ],
   "note": "False of the code: f(g([xs]),h([xs],[ys])) reads past the operands of h(1) in f(g(1,2,3),h(1)). Proved for patterns in which a list variable that occurred before the operand list is not directly followed by another list variable."
  },
  {
   "property": "C34",
   "status": "proved",
   "theorems": [
    "C34_apply_rule",
    "C34_apply_rule_defined"
   ],
   "note": "Partial correctness for every rule; definedness under the conditions of C33."
  },
  {
   "property": "C35",
   "status": "proved",
   "theorems": [
    "C35_apply_ruleset",
    "C35_terminates",
    "C35_cap_zero_diverges"
   ],
   "note": ""
  },
  {
   "property": "C36",
   "status": "proved",
   "theorems": [
    "C36_get_rule_accepts",
    "C36_no_new_variables"
   ],
   "note": ""
  },
  {
   "property": "C58",
   "status": "partial",
   "theorems": [
    "C58_set_glue_op",
    "C58_glue_stays_refuted",
    "C58_glue_stays_partial"
   ],
   "note": "False of the code: deleting the glue operator leaves a dangling pointer. Proved for all histories that do not delete it."
  },
  {
   "property": "C57",
   "status": "proved",
   "theorems": [
    "C57_variable_places"
   ],
   "note": ""
  },
  {
   "property": "C37",
   "status": "partial",
   "theorems": [
    "C37_all_constraints_hold_refuted",
    "C37_up_to_three_constraints_partial",
    "C37_accepted",
    "C37_accepted_only_if",
    "C37_one_reading"
   ],
   "note": "False of the code: the fourth and later constraints of a text are silently dropped. Proved for up to three constraints (patterns with a variable, constraints over variables of the pattern, see C32)."
  },
  {
   "property": "C59",
   "status": "partial",
   "theorems": [
    "C59_rule_files_refuted",
    "C59_rule_files_partial",
    "C59_further_sections_ignored",
    "C59_bad_line_refused",
    "C59_last_line_cut",
    "C59_seven_sections"
   ],
   "note": "False of the code: two headers beyond the last rule set make it write outside the array, and a last line without newline loses its last character. Proved for newline-terminated files with at most as many sections as rule sets, and for one further section. Loading the rules (C59_seven_sections, in P_Passes) succeeds with seven such sections and is refused with fewer."
  },
  {
   "property": "C42",
   "status": "partial",
   "theorems": [
    "C42_ans",
    "C42_at_partial",
    "C42_at_undefined",
    "C42_at_refuted"
   ],
   "note": "ans and @i are proved for every history; false of the code for indices outside int (and NaN): the conversion is undefined behaviour instead of an error."
  },
  {
   "property": "C43",
   "status": "partial",
   "theorems": [
    "C43_gcd_partial",
    "C43_gcd_forever",
    "C43_gcd_refuted",
    "C43_lcm_partial",
    "C43_lcm_zero",
    "C43_lcm_off_by_one",
    "C43_lcm_refuted"
   ],
   "note": "False of the code: gcd(2^60,1) never ends, lcm(0,0) is NaN, lcm(3,9007199254740990) is off by one. Proved: gcd for all |a|,|b| <= 2^53, lcm for |a*b| <= 2^53."
  },
  {
   "property": "C44",
   "status": "partial",
   "theorems": [
    "C44_binomial_partial",
    "C44_binomial_above",
    "C44_binomial_rounding",
    "C44_binomial_refuted",
    "C44_factorial",
    "C44_factorial_ends_partial",
    "C44_factorial_ends_refuted",
    "C44_fibonacci_numbers",
    "C44_fibonacci",
    "C44_fibonacci_overflow"
   ],
   "note": "False of the code: 2 C 3 is 1, 58 C 23 is off by one, (2^54)! never ends, fib(93) overflows. Proved: C(n,k) when min(k,n-k)*C(n,k) <= 2^53; n! for all n whose factorial is a double; fib for |n| <= 92 (exact up to 78)."
  },
  {
   "property": "C45",
   "status": "partial",
   "theorems": [
    "C45_rand_partial",
    "C45_rand_refuted"
   ],
   "note": "False of the code: rand(2^53+2,2^53+4) can be 2^53+4. Proved for bounds and width of at most 2^53."
  },
  {
   "property": "C46",
   "status": "partial",
   "theorems": [
    "C46_max_partial",
    "C46_min_partial",
    "C46_max_refuted",
    "C46_empty",
    "C46_fold",
    "C46_avg",
    "C46_integers"
   ],
   "note": "False of the code for NaN arguments (max(NaN) = -inf). Proved for all argument lists without NaN."
  },
  {
   "property": "C54",
   "status": "partial",
   "theorems": [
    "C54_when",
    "C54_error_partial",
    "C54_error_refuted"
   ],
   "note": "False of the code: (-2)^(-1) is reported as complex, (-2)^1.5 is not reported. The exact condition is proved, and the claim for bases >= 0 and for the exponents where it holds."
  },
  {
   "property": "C60",
   "status": "partial",
   "theorems": [
    "C60_ends_partial",
    "C60_ends_refuted"
   ],
   "note": "False of the code (gcd(inf,1)). Proved for all 58 operators with the stated bounds for @, fib, C, !, gcd, lcm, rand and none for the others."
  },
  {
   "property": "C61",
   "status": "partial",
   "theorems": [
    "C61_rounded",
    "C61_unary",
    "C61_to_integers",
    "C61_frac_partial",
    "C61_frac_refuted"
   ],
   "note": "frac of a small negative number is 1, not less than 1; everything else proved."
  },
  {
   "property": "C48",
   "status": "partial",
   "theorems": [
    "C48_numbers",
    "C48_rules_count",
    "C48_keeps_partial",
    "C48_even_partial",
    "C48_partial",
    "C48_wrong",
    "C48_refuted",
    "C48_simplify_wrong",
    "C48_simplify_refuted",
    "C48_steps",
    "C48_sections"
   ],
   "note": "False of the code: 3 of the 135 shipped rules change the value ((x^y)^z, the sum-times-power rule and -(x+y) -> x-y), and simplification of (x^2)^0.5, a*(b+x^2)*x^3 and (-4)*(4-x) is wrong. Proved: 113 rules keep the value wherever there is one, the others (except those 3) agree wherever both sides have a value; the even-power rule for folded exponents and an exact fmod; whole sections 0, 2, 4, 6 keep the value for any number of rounds."
  },
  {
   "property": "C49",
   "status": "proved",
   "theorems": [
    "C49_no_negative",
    "C49_value",
    "C49_evaluation"
   ],
   "note": "As real function and as computed double (or error code), with the same history and random numbers."
  },
  {
   "property": "C62",
   "status": "proved",
   "theorems": [
    "C62_derivative",
    "C62_zero",
    "C62_round"
   ],
   "note": "Every step with the derivative rules; the rules in a chain agree step by step. Chain, product and power rules hold wherever the result has a value."
  },
  {
   "property": "C63",
   "status": "proved",
   "theorems": [
    "C63_loads",
    "C63_defined"
   ],
   "note": "Definedness for the rules without constraints."
  },
  {
   "property": "C64",
   "status": "partial",
   "theorems": [
    "C64_never_ends",
    "C64_refuted",
    "C64_values_partial"
   ],
   "note": "False of the code: (-3)*4/0 makes the simplification cycle forever. Proved: every expression that has a value is simplified, with the shipped rules, to a display of that value, so it ends there."
  },
  {
   "property": "C38",
   "status": "partial",
   "theorems": [
    "C38_calls_expanded_refuted",
    "C38_calls_expanded_partial",
    "C38_functions_known",
    "C38_defined_once"
   ],
   "note": "False of the code: numbers of functions are reused after clear (f(x)=x, g(x)=x+1, clear f, h(x)=x+2: h(1) is 2). Proved for all sessions in which functions are cleared youngest first or all at once; in every session the functions known to the parser are exactly those defined and not cleared. Sessions: start, definitions (no list-named parameters, bodies over the operators of the calculator), rejected definitions, clears, tables, evaluations, loading of rules."
  },
  {
   "property": "C39",
   "status": "proved",
   "theorems": [
    "C39_rejected_unchanged",
    "C39_builtins_kept",
    "C39_names_are_new"
   ],
   "note": "For all reachable sessions and definitions without '['."
  },
  {
   "property": "C40",
   "status": "partial",
   "theorems": [
    "C40_definitions_safe_refuted",
    "C40_commas",
    "C40_definitions_safe_partial"
   ],
   "note": "False of the code: f(x)=1/0, f((a,b))=1 and f(x)=((1,x)) crash. Proved: no crash for definitions whose delimiters are used as in function calls, unless the error is found by the simplification of the right side."
  },
  {
   "property": "C41",
   "status": "proved",
   "theorems": [
    "C41_clear_all",
    "C41_clear_function",
    "C41_clear_unknown"
   ],
   "note": "The name is what stands from character 6 of the line on."
  },
  {
   "property": "C52",
   "status": "proved",
   "theorems": [
    "C52_one_command",
    "C52_dispatch",
    "C52_lines_in_order",
    "C52_quit"
   ],
   "note": ""
  },
  {
   "property": "C55",
   "status": "proved",
   "theorems": [
    "C55_expansion_ends"
   ],
   "note": ""
  },
  {
   "property": "C56",
   "status": "partial",
   "theorems": [
    "C56_scripts_refuted",
    "C56_scripts_partial"
   ],
   "note": "False of the code: the last character of a file that does not end with a newline is lost. Proved for all files of newline-terminated lines."
  },
  {
   "property": "C65",
   "status": "partial",
   "theorems": [
    "C65_script_errors_refuted",
    "C65_script_loads_itself"
   ],
   "note": "False of the code: errors in a script are not passed on by load, and a script that loads itself does not end."
  },
  {
   "property": "C47",
   "status": "partial",
   "theorems": [
    "C47_table_rows",
    "C47_ends_partial",
    "C47_integers",
    "C47_never_ends",
    "C47_ends_refuted"
   ],
   "note": "False of the code: table x;10^16;10^16+10;1 never ends because the step is lost in rounding. Proved: what the command prints, for every session and line, with fold; it ends whenever start and end are at most 2^52 steps away from 0 (and |step| <= 2^900), with a bound on the number of rows; for integers (sum up to 2^53) exactly the rows start, start+step, ... up to the end."
  },
  {
   "property": "C22",
   "status": "partial",
   "theorems": [
    "C22_printed_tokens",
    "C22_any_context_refuted",
    "C22_percent_always",
    "C22_percent_crash"
   ],
   "note": "True, for every tree, in contexts described by printable_ctx (no name with two readings at one place, no postfix operator as strong as a right-associative infix operator, prefix names without percent signs); false in other contexts: ^(a,!(b)) prints as a^b!."
  },
  {
   "property": "C23",
   "status": "proved",
   "theorems": [
    "C23_text_parses_back",
    "C23_reparsed",
    "C23_arith",
    "C23_session",
    "C23_session_reparsed",
    "C23_same_text",
    "C23_session_numbers",
    "C23_session_exact"
   ],
   "note": "For the arithmetic context and the context of every session with its functions; also: what was parsed, printed, parses to the same tree and prints to the same text. Constants must print as digits that read back (see C53)."
  },
  {
   "property": "C53",
   "status": "partial",
   "theorems": [
    "C53_printed_partial",
    "C53_numeral",
    "C53_reread_partial",
    "C53_exact",
    "C53_integers",
    "C53_negative",
    "C53_special",
    "C53_exponent",
    "C53_refuted"
   ],
   "note": "True between 0.0001 and 9999999999 and for zero: the text is the decimal numeral nearest to the number with ten digits, reads as a number equal up to the tenth digit and prints the same; numbers with at most ten digits read as themselves. False beyond: 1e+10 reads as 1*e+10."
  },
  {
   "property": "C50",
   "status": "partial",
   "theorems": [
    "C50_satisfied",
    "C50_least",
    "C50_table",
    "C50_clean",
    "C50_refuted"
   ],
   "note": "The solver: proved for all constraints in any order; every set cell of every table that can be measured has room if its span is not empty; tables from tidy texts and spans over unused cells can always be measured. False of the code for spans over used cells: the span can be cut off to nothing and the text is then not counted."
  },
  {
   "property": "C51",
   "status": "partial",
   "theorems": [
    "C51_no_span",
    "C51_spans_partial",
    "C51_refuted",
    "C51_last_refuted",
    "C51_endless_refuted"
   ],
   "note": "False of the code: get_total_width counts the borders one column too far to the right (a line comes out too short, at the eleventh column it reads outside the array), and a span cut off to nothing is printed forever. Proved for all tables without spans, and with spans where the borders match."
  },
  {
   "property": "C66",
   "status": "partial",
   "theorems": [
    "C66_no_span",
    "C66_spans_partial"
   ],
   "note": "Exact picture for all tables without spans; with spans if the borders along each span's edges agree and no line belongs to a single cell (texts tidy, spans over unused cells). Otherwise false: see C51_refuted, C68_refuted."
  },
  {
   "property": "C67",
   "status": "partial",
   "theorems": [
    "C67_width_partial",
    "C67_refuted",
    "C67_empty_line_refuted",
    "C67_open_refuted"
   ],
   "note": "False of the code for two colour sequences in a row (they are counted), for every text that starts with a newline and for an unfinished sequence (undefined behaviour). Proved for tidy texts."
  },
  {
   "property": "C68",
   "status": "partial",
   "theorems": [
    "C68_counters",
    "C68_exact_partial",
    "C68_refuted"
   ],
   "note": "Never below the number of drawn lines, for all histories; equal to it without spans or without single-cell lines; false in general (a span over a cell with a line leaves the counter raised)."
  },
  {
   "property": "C69",
   "status": "proved",
   "theorems": [
    "C69_calls",
    "C69_call",
    "C69_grid",
    "C69_plain"
   ],
   "note": "For all sequences of calls whose texts are tidy (C67) and whose spans cover unused cells; the rows of texts must be at most 11 wide and less than 2^31 lines high. C69_plain: whatever calls without lines and spans are made, the printed lines are the picture of the described sheet, with all alignments of cells, rows and columns."
  },
  {
   "property": "C70",
   "status": "partial",
   "theorems": [
    "C70_marker",
    "C70_not_interactive",
    "C70_command_errors_refuted",
    "C70_command_errors_partial",
    "C70_same_outcome",
    "C70_parse_error",
    "C70_evaluation_error"
   ],
   "note": "Proved for all messages about expressions, for every session whose rules rewrite no single variables (the shipped rules do not). False for three messages of the table command, which end with a newline: for arguments far to the right the marker comes on the next line."
  },
  {
   "property": "C71",
   "status": "proved",
   "theorems": [
    "C71_start",
    "C71_program",
    "C71_switch_order",
    "C71_commands",
    "C71_as_typed"
   ],
   "note": "For inputs that consist of whole lines (see C56 for the last line without newline) and command lists of any length; what single commands do is the subject of the other properties."
  },
  {
   "property": "C72",
   "status": "partial",
   "theorems": [
    "C72_language",
    "C72_meaning",
    "C72_binding_refuted",
    "C72_count_refuted"
   ],
   "note": "Language and meaning proved for all conditions of the stated form. Not as expected: infix C and mod bind like comparisons, and count is accepted but ends the program (refuted by witnesses)."
  },
  {
   "property": "C73",
   "status": "proved",
   "theorems": [
    "C73_shorthand",
    "C73_spelled",
    "C73_ambiguous",
    "C73_malformed",
    "C73_worked_out"
   ],
   "note": "For every accepted rule file loaded into the initial contexts and every tree whose ' and deriv have their declared number of operands. C73_malformed and C73_worked_out speak of trees of the calculator's own operators without short forms; C73_spelled says that C73_shorthand leads to such trees."
  },
  {
   "property": "C74",
   "status": "proved",
   "theorems": [
    "C74_table_printed",
    "C74_numbers"
   ],
   "note": "For every session of C38, both output modes and every successful table command with fewer than about 2^30 rows. Text of NaN: its sign is not modelled."
  },
  {
   "property": "C75",
   "status": "proved",
   "theorems": [
    "C75_simplify",
    "C75_no_rules",
    "C75_unchanged"
   ],
   "note": "simplify related in both directions to a relation that spells out the passes; single rule applications are those of C30-C36 (apply_rule), derivatives those of C73"
  },
  {
   "property": "C76",
   "status": "proved",
   "theorems": [
    "C76_overview",
    "C76_operators"
   ],
   "note": "The licence text is modelled, but no claim is made about it. Bodies of functions must have as many operands as their operators need (rule files with list wildcards could break this)."
  },
  {
   "property": "C77",
   "status": "proved",
   "theorems": [
    "C77_numerals",
    "C77_language",
    "C77_figures",
    "C77_names"
   ],
   "note": "Words up to 2^1000 are shown to be correctly rounded. The exponent, hexadecimal and signed forms of the C library's strtod are not modelled; no word of the input can have such a form unless an operator has such a name."
  },
  {
   "property": "C78",
   "status": "proved",
   "theorems": [
    "C78_reading",
    "C78_answers"
   ],
   "note": "Holds for all reachable sessions, also where functions were cleared out of order. Lines that define functions contain no square brackets and functions use operators of the calculator only (rules could introduce others), as in session_of."
  },
  {
   "property": "C79",
   "status": "partial",
   "theorems": [
    "C79_only_rules",
    "C79_loaded",
    "C79_unreadable",
    "C79_success_refuted",
    "C79_crash_refuted"
   ],
   "note": "Proved: nothing but the rules changes, rules in force afterwards are those of the file, and a file of seven sections of rules is loaded unless the user has defined a function x or z. Refuted: success is reported for a malformed file although no rules are in force, and loading crashes after x(a)=a (a null tree is dereferenced). An unreadable file is reported, but the old rules are gone."
  },
  {
   "property": "C80",
   "status": "proved",
   "theorems": [
    "C80_one_answer",
    "C80_again"
   ],
   "note": "The mathematical library is a function (L), so its results do not depend on earlier calls. Evaluation inside a constraint does not use up random numbers in the model; rules with rand in a constraint are excluded here. Evaluation lines only, not tables."
  },
  {
   "property": "C81",
   "status": "partial",
   "theorems": [
    "C81_numbers",
    "C81_ans_partial",
    "C81_ans_refuted"
   ],
   "note": "False of the code: with rules loaded a negative result is turned into minus a positive constant before it reaches the history and is not entered: after 2+3 and 1-4, ans is 5. Proved: every expression with a value is answered with a display of that value (with or without the shipped rules), and ans is the value if there are no rules or it is not negative. Expressions without user functions; shipped rules or none."
  },
  {
   "property": "C82",
   "status": "proved",
   "theorems": [
    "C82_command",
    "C82_input",
    "C82_from_start"
   ],
   "note": "For commands that return; after quit or a crash there is no history. Negative results are shown as minus a constant if rules are loaded and then are no constants (C81). Evaluation inside a constraint of a rule does not draw random numbers in the model."
  }
 ]
}