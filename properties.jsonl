{"id": "C01", "title": "Growable vector behaves as a list", "statement": "After any sequence of vec_push / vec_push_many / vec_push_empty / vec_pop / vec_get / vec_clear / vec_trim calls on a vector created with any start size, every value handed back is the one an ideal list would hand back, the element count is the list's length, growth never loses or reorders elements, and no call touches memory outside the allocated buffer.", "quantifier": "every start size, every finite sequence of operations and every element value", "why_tests_cant": "The number of reallocation histories is unbounded; a test exercises a handful of sizes.", "anchors": ["src/util/vector.c: vec_create vec_ensure_size vec_push vec_push_many vec_push_empty vec_pop vec_peek vec_get vec_clear vec_trim vec_count"]}
{"id": "C02", "title": "String builder text is the concatenation of what was appended", "statement": "A string builder created with any start size and given any sequence of formatted pieces and single characters exposes exactly the concatenation of the pieces, is NUL-terminated at every moment and never writes outside its buffer, whatever the point at which the buffer has to grow.", "quantifier": "every start size and every sequence of appended pieces of any length", "why_tests_cant": "Growth happens at data dependent points; off-by-one errors at exactly-full buffers need the right length combination.", "anchors": ["src/util/string_builder.c: strbuilder_create strbuilder_append vstrbuilder_append strbuilder_append_char strbuilder_to_str"]}
{"id": "C03", "title": "Linked list behaves as a sequence under arbitrary edits", "statement": "After any sequence of insertions (front, back, after a node, at an index) and deletions, walking the list forward yields exactly the abstract sequence, walking it backward yields its reverse, list_count is its length, list_get_node(i) reaches the i-th element from whichever end it searches, and no operation reads or writes a freed node.", "quantifier": "every finite sequence of edits, every index", "why_tests_cant": "Pointer surgery at head, tail and middle interacts over unboundedly long histories.", "anchors": ["src/util/linked_list.c: list_insert_after list_append list_insert_at list_delete_node list_delete_at list_get_node list_count iterator"]}
{"id": "C04", "title": "Trie is a finite map from strings", "statement": "After any sequence of trie_add_str and trie_remove_str calls on admissible strings, trie_contains(s) is true exactly for the strings added and not since removed, it hands back the payload slot of exactly that string, adding a present string reports a duplicate and changes nothing, and trie_count is the number of strings present.", "quantifier": "every finite history of additions and removals, every query string", "why_tests_cant": "Sharing of prefixes between strings makes bugs depend on the whole history.", "anchors": ["src/util/trie.c: trie_create trie_add_str trie_remove_str remove_rec trie_contains trie_count"]}
{"id": "C05", "title": "Longest-prefix query returns the longest stored prefix", "statement": "trie_longest_prefix(s) is the length of the longest non-empty stored string that is a prefix of s (0 if there is none), with the payload of that string.", "quantifier": "every trie reachable by adding and removing strings, every query string", "why_tests_cant": "Quantifies over all stored sets and all queries.", "anchors": ["src/util/trie.c: trie_longest_prefix"]}
{"id": "C06", "title": "Trie keeps no garbage branches", "statement": "After any history of additions and removals every branch of the trie leads to a stored string; in particular removing every stored string leaves only the root allocated. Every successor counter equals the number of live successors, so it can neither wrap nor free a node still in use.", "quantifier": "every finite history of additions and removals", "why_tests_cant": "Leaks of interior nodes are invisible to lookups and depend on removal order.", "anchors": ["src/util/trie.c: remove_rec trie_remove_str num_successors"]}
{"id": "C07", "title": "Trie iteration enumerates the stored set", "statement": "Iterating a trie yields every stored string exactly once, in increasing character order, with its own payload, then reports the end and starts over; this holds for all stored sets whose strings fit the iterator's depth bound, and a longer string makes iteration stop the program.", "quantifier": "every trie reachable by additions and removals", "why_tests_cant": "The iterator's stack evolution depends on the shape of the whole trie.", "anchors": ["src/util/trie.c: find_terminal get_next trie_get_iterator trie_get_current_string"]}
{"id": "C08", "title": "Splitting a line into arguments loses nothing", "statement": "str_split(s, d1, ..., dn) cuts s at the first occurrence of d1, the rest at the first occurrence of d2 and so on, stopping at the first delimiter that does not occur; putting the delimiters back between the pieces restores s. begins_with(p, s) is true exactly when s starts with p.", "quantifier": "every string and every list of delimiters", "why_tests_cant": "All strings and all delimiter placements.", "anchors": ["src/util/string_util.c: str_split begins_with"]}
{"id": "C09", "title": "Line k of a text is its k-th line", "statement": "get_line_of_string(text, k) delivers the k-th newline separated line of the text and its length, for every text and every existing line index.", "quantifier": "every text and line index", "why_tests_cant": "All texts; the failing case (text starting with a newline) is not in the test-suite.", "anchors": ["src/util/string_util.c: get_line_of_string get_num_lines", "src/table/table.c: get_text_width"]}
{"id": "C10", "title": "strip removes exactly the surrounding blanks and stays in its buffer", "statement": "strip returns the text without leading and trailing blanks and only touches memory of the string it was given.", "quantifier": "every string", "why_tests_cant": "All strings, including blank-only ones.", "anchors": ["src/util/string_util.c: strip"]}
{"id": "C11", "title": "Tokenizer neither drops nor invents characters", "statement": "Concatenating the tokens of any input in order gives back the input, and no token is empty, for every input string and every keyword set of the calculator.", "quantifier": "every input string and every keyword set without a keyword starting with a digit", "why_tests_cant": "Unbounded inputs and keyword sets; the token-start bookkeeping is only right under an unstated invariant.", "anchors": ["src/engine/parsing/tokenizer.c: tokenize push_token"]}
{"id": "C12", "title": "Tokens are maximal and longest-match", "statement": "Every token is either a maximal run of letters, a run of digits not followed by another digit of the same number, the longest keyword that starts at its position, or one single other character; letters are never split by a keyword.", "quantifier": "every input string and every keyword set without a keyword starting with a digit", "why_tests_cant": "Unbounded inputs; interaction of keyword matching and run detection.", "anchors": ["src/engine/parsing/tokenizer.c: tokenize", "src/util/trie.c: trie_longest_prefix"]}
{"id": "C13", "title": "Operator registry refines a finite map", "statement": "After any history of ctx_add_op / ctx_delete_op, ctx_lookup_op(name, placement) finds exactly the operator added under that name and placement and not deleted since; adding fails exactly if the name is taken in that placement or an infix operator of the same precedence has the other associativity; hence in every reachable context infix operators of equal precedence agree in associativity.", "quantifier": "every history of additions and deletions", "why_tests_cant": "Depends on all histories; lookups go through tries holding pointers into a linked list.", "anchors": ["src/engine/parsing/context.c: ctx_add_op ctx_delete_op ctx_lookup_op"]}
{"id": "C14", "title": "Operators of one context have distinct identities", "statement": "Two different operators that are registered in the same context at the same time never share the id by which trees are compared and matched.", "quantifier": "every history of additions and deletions", "why_tests_cant": "Needs a delete followed by an add; id reuse only shows up later in matching.", "anchors": ["src/engine/parsing/context.c: ctx_add_op ctx_delete_op", "src/engine/tree/tree_util.c: tree_equals find_op"]}
{"id": "C15", "title": "Deleting an operator does not disturb the others", "statement": "After ctx_delete_op of one operator, every other registered operator is still found under its name and placement and its name is still recognised as a keyword by the tokenizer.", "quantifier": "every history of additions and deletions", "why_tests_cant": "Needs two operators sharing a name in different placements and a deletion.", "anchors": ["src/engine/parsing/context.c: ctx_delete_op"]}
{"id": "C16", "title": "Parsing never crashes", "statement": "parse_input returns a result code for every input string: it never dereferences a null operator and never reports success without delivering a tree.", "quantifier": "every input string, every context", "why_tests_cant": "All token sequences; the crash needs a delimiter inside doubled parentheses.", "anchors": ["src/engine/parsing/parser.c: parse_input parse_tokens op_pop_and_insert op_push"]}
{"id": "C17", "title": "Parsed trees respect arities", "statement": "If parsing succeeds, every operator node in the resulting tree has exactly the number of operands its operator demands (any number for dynamic-arity functions), so evaluation never reads a missing operand.", "quantifier": "every input string that parses successfully, every context with well-formed operators", "why_tests_cant": "All successful parses.", "anchors": ["src/engine/parsing/parser.c: parse_tokens op_pop_and_insert", "src/client/core/arith_evaluation.c: arith_op_evaluate"]}
{"id": "C18", "title": "Parsing uses every token exactly once", "statement": "If parsing succeeds, the constants, variables and nullary functions of the tree read from left to right are exactly the operand tokens of the input in order, and the operators of the tree are exactly the operator tokens of the input plus one glue operator per implicit multiplication.", "quantifier": "every input string that parses successfully", "why_tests_cant": "All successful parses, including malformed ones that are wrongly accepted.", "anchors": ["src/engine/parsing/parser.c: parse_tokens"]}
{"id": "C19", "title": "Every well-formed expression is accepted with the tree dictated by precedence and associativity", "statement": "For every expression of the operator grammar (constants, variables, prefix, infix, postfix operators, functions with argument lists, parentheses, implicit multiplication) parsing its token sequence succeeds and delivers the tree in which every operand belongs to the operator that precedence and associativity assign it to.", "quantifier": "every expression of unbounded size and nesting, every context", "why_tests_cant": "Unbounded nesting; shunting-yard errors appear only for particular operator combinations.", "anchors": ["src/engine/parsing/parser.c: parse_tokens op_push", "src/engine/tree/operator.c"]}
{"id": "C20", "title": "Only well-formed expressions are accepted", "statement": "If parsing succeeds then the input is an expression of the operator grammar and the delivered tree is the one the grammar assigns to it.", "quantifier": "every input string", "why_tests_cant": "All rejected strings are in scope; the known counterexamples need a dangling operator inside an empty-able argument list that follows another operand.", "anchors": ["src/engine/parsing/parser.c: parse_tokens (closing parenthesis case)"]}
{"id": "C21", "title": "Blanks and bracket shape carry no meaning", "statement": "Inserting or deleting blanks between tokens, or exchanging ( ) with { }, changes neither acceptance nor the tree (up to token positions).", "quantifier": "every token sequence and every placement of blanks", "why_tests_cant": "All inputs.", "anchors": ["src/engine/parsing/parser.c: parse_tokens", "src/util/string_util.c: is_space is_opening_parenthesis is_closing_parenthesis"]}
{"id": "C22", "title": "Printed trees parse back to the same tree (token level)", "statement": "For every tree that respects arities, the token sequence printed by tree_to_str parses back to a tree equal to the original: printing inserts enough parentheses for every combination of prefix, infix, postfix and function operators.", "quantifier": "every tree of every size over any context", "why_tests_cant": "Unbounded trees; the repository only has a randomized test.", "anchors": ["src/engine/tree/tree_to_string.c: tree_to_str prefix_to_str infix_to_str postfix_to_str function_to_str", "src/engine/parsing/parser.c"]}
{"id": "C23", "title": "Printed text parses back to the same tree (arithmetic context, full pipeline)", "statement": "For every tree over the built-in arithmetic operators whose constants print as plain decimals and whose variables are legal names, parse_input(ctx, tree_to_str(tree)) succeeds with an equal tree, through the real tokenizer with the real keyword set.", "quantifier": "every such tree", "why_tests_cant": "Unbounded trees and adjacency of printed operator characters.", "anchors": ["src/engine/tree/tree_to_string.c", "src/engine/parsing/tokenizer.c", "src/engine/parsing/parser.c", "src/client/core/arith_context.c: init_arith_ctx"]}
{"id": "C24", "title": "Parse errors point into the input", "statement": "Whenever parsing fails, the reported token index is at most the number of tokens, so the character position shown to the user lies within the line.", "quantifier": "every input string", "why_tests_cant": "All rejected inputs.", "anchors": ["src/engine/parsing/parser.c: parse_tokens ERROR", "src/client/core/arith_context.c: show_error_at_token"]}
{"id": "C25", "title": "Tree equality is an equivalence and copies are equal", "statement": "tree_equals is symmetric and transitive, tree_equals(tree, tree_copy(tree)) holds, and equal trees evaluate to equal values.", "quantifier": "every tree", "why_tests_cant": "All trees, including those holding NaN constants.", "anchors": ["src/engine/tree/tree_util.c: tree_copy tree_equals"]}
{"id": "C26", "title": "Variable listing is exact", "statement": "list_variables returns each distinct variable name once in order of first occurrence, gives every occurrence the index of its name, and reports insufficiency exactly when there are more distinct names than the buffer holds.", "quantifier": "every tree and buffer size", "why_tests_cant": "All trees and sizes.", "anchors": ["src/engine/tree/tree_util.c: list_variables list_variables_rec tree_copy_IDs count_all_variable_nodes"]}
{"id": "C27", "title": "Replacing a variable is substitution", "statement": "replace_variable_nodes(tree, v, name) replaces exactly the occurrences of that variable, leaves everything else untouched, returns their number, and the result evaluates like the original under the extended assignment.", "quantifier": "every tree, replacement and name", "why_tests_cant": "All trees.", "anchors": ["src/engine/tree/tree_util.c: replace_variable_nodes get_variable_nodes tree_replace"]}
{"id": "C28", "title": "Evaluation is compositional and reports the first failing operator", "statement": "tree_reduce yields the value obtained by applying each operator to the values of its operands, fails on the first (left-most innermost) operator whose evaluation fails, delivering that error code and node, and never evaluates operators after it.", "quantifier": "every tree and every operator semantics", "why_tests_cant": "All trees and all listeners.", "anchors": ["src/engine/tree/tree_util.c: tree_reduce"]}
{"id": "C29", "title": "Constant folding preserves the value", "statement": "tree_reduce_constant_subtrees changes no value: under every assignment of values to variables the folded tree evaluates to the same value or error as before; on success no operator application over constants only is left (except nullary dynamic ones).", "quantifier": "every tree, every assignment, every operator semantics without side effects", "why_tests_cant": "All trees and assignments.", "anchors": ["src/engine/tree/tree_util.c: tree_reduce_constant_subtrees"]}
{"id": "C30", "title": "A reported match is a real instance", "statement": "If matching a pattern against a tree succeeds then replacing every pattern variable by the tree (or list of trees) bound to it yields a tree equal to the subject, and repeated variables were bound to equal trees.", "quantifier": "every pattern, every subject tree", "why_tests_cant": "All patterns with list variables; partial matchings are shared between suffixes.", "anchors": ["src/engine/transformation/matching.c: get_all_matchings get_matching match_parameter_lists extend_matching fill_suffix"]}
{"id": "C31", "title": "Matching finds every instance", "statement": "If some assignment of trees to simple variables and of tree lists to list variables makes the pattern equal to the subject, matching succeeds.", "quantifier": "every pattern, subject and assignment", "why_tests_cant": "All splits of argument lists between list variables.", "anchors": ["src/engine/transformation/matching.c: match_parameter_lists"]}
{"id": "C32", "title": "A reported match satisfies the pattern's constraints", "statement": "If matching succeeds, every constraint attached to the pattern holds under the delivered assignment.", "quantifier": "every pattern with constraints, every subject", "why_tests_cant": "Depends on the order in which variables become bound.", "anchors": ["src/engine/transformation/matching.c: get_pattern extend_matching", "src/engine/transformation/transformation.c: transform_by_matching"]}
{"id": "C33", "title": "Matching is memory safe", "statement": "Matching never reads beyond the operand list of a subject node.", "quantifier": "every pattern and subject", "why_tests_cant": "Needs a list variable bound in an outer argument list and reused in an inner one.", "anchors": ["src/engine/transformation/matching.c: match_parameter_lists"]}
{"id": "C34", "title": "Rule application rewrites exactly one instance", "statement": "apply_rule either reports failure and leaves the tree unchanged - then no position of the tree is an instance - or replaces exactly the first instance in pre-order by the instantiated right-hand side and leaves the rest untouched.", "quantifier": "every rule and tree", "why_tests_cant": "All trees and rules.", "anchors": ["src/engine/transformation/rewrite_rule.c: apply_rule", "src/engine/transformation/matching.c: find_matching"]}
{"id": "C35", "title": "Rule sets are applied by priority until a normal form or the cap", "statement": "apply_ruleset always applies the first applicable rule of the set, stops only when no rule applies or cap applications were made, and returns the number of applications.", "quantifier": "every ruleset, tree and cap >= 1", "why_tests_cant": "All rewrite histories.", "anchors": ["src/engine/transformation/rewrite_rule.c: apply_ruleset apply_ruleset_by_iterator"]}
{"id": "C36", "title": "Rules never introduce unbound variables", "statement": "get_rule accepts a right-hand side only if all its variables occur in the pattern; therefore applying an accepted rule yields a tree whose variables all come from the subject.", "quantifier": "every pattern and right-hand side", "why_tests_cant": "All rules.", "anchors": ["src/engine/transformation/rewrite_rule.c: get_rule", "src/engine/transformation/transformation.c: transform_by_matching"]}
{"id": "C37", "title": "Rule text means what it says", "statement": "A rule text 'pattern -> replacement WHERE c1 ; ... ; cn' that is accepted becomes a rule that fires only if all n constraints hold.", "quantifier": "every rule text", "why_tests_cant": "The loss of the fourth constraint is silent.", "anchors": ["src/engine/transformation/rule_parsing.c: parse_rule parse_constraints parse_pattern"]}
{"id": "C38", "title": "Calling a user-defined function evaluates its own body", "statement": "In every session, after any history of definitions and clears, an application of a defined function is replaced by that function's body with the arguments substituted for the parameters.", "quantifier": "every history of define/clear commands, every call", "why_tests_cant": "Needs a particular define/clear history; the collision of ids is invisible before.", "anchors": ["src/client/commands/cmd_definition.c: add_function", "src/client/core/arith_context.c: add_composite_function remove_composite_function arith_simplify"]}
{"id": "C39", "title": "Rejected definitions leave the session unchanged", "statement": "If a definition is rejected (syntax error, recursion, bad parameters, built-in name) the set of functions and the operators available to the parser are as before; a built-in operator is never redefined or removed.", "quantifier": "every definition text in every reachable session", "why_tests_cant": "All failure points of the definition command.", "anchors": ["src/client/commands/cmd_definition.c: add_function"]}
{"id": "C40", "title": "Definitions never crash", "statement": "Every input containing '=' is handled without undefined behaviour.", "quantifier": "every definition text", "why_tests_cant": "Needs a right-hand side whose constant part fails to evaluate.", "anchors": ["src/client/commands/cmd_definition.c: add_function cmd_definition_exec", "src/client/core/arith_context.c: arith_simplify"]}
{"id": "C41", "title": "clear removes exactly the named function", "statement": "The clear command removes exactly the named user-defined function (all of them without a name), keeps every built-in operator, and rejects built-in or unknown names.", "quantifier": "every session and name", "why_tests_cant": "All sessions.", "anchors": ["src/client/commands/cmd_clear.c: cmd_clear_exec", "src/client/core/arith_context.c: clear_composite_functions remove_composite_function"]}
{"id": "C42", "title": "History references give back earlier results", "statement": "After any sequence of evaluations, ans is the most recent stored constant result and @i is the i-th most recent one; indices outside the history are reported as an error.", "quantifier": "every sequence of results and every index", "why_tests_cant": "All histories.", "anchors": ["src/client/core/history.c: history_add history_get", "src/client/core/arith_evaluation.c: arith_op_evaluate"]}
{"id": "C43", "title": "gcd and lcm are correct and terminate", "statement": "For all integer arguments exactly representable as double the gcd operator terminates with the greatest common divisor and lcm yields the least common multiple.", "quantifier": "all pairs of integers", "why_tests_cant": "Infinitely many pairs; non-termination cannot be tested.", "anchors": ["src/client/core/arith_evaluation.c: euclid gcd lcm"]}
{"id": "C44", "title": "Binomial coefficient, factorial and Fibonacci are correct", "statement": "For all naturals in the exactly representable range, C(n,k), n! and fib(n) equal their mathematical definitions.", "quantifier": "all n, k in the exact range", "why_tests_cant": "Whole ranges.", "anchors": ["src/client/core/arith_evaluation.c: binomial factorial fibonacci"]}
{"id": "C45", "title": "rand stays in its interval", "statement": "rand(a,b) lies in [a,b) for all integers a < b whatever the random generator returns.", "quantifier": "all bounds and all generator outputs", "why_tests_cant": "All generator outputs.", "anchors": ["src/client/core/arith_evaluation.c: random_between"]}
{"id": "C46", "title": "Aggregates over argument lists", "statement": "max/min return an argument that bounds all arguments; sum/prod fold the arguments from left to right; an empty argument list is handled as documented.", "quantifier": "every non-empty argument list of numbers", "why_tests_cant": "Lists of any length.", "anchors": ["src/client/core/arith_evaluation.c: arith_op_evaluate (max min sum prod avg)"]}
{"id": "C47", "title": "The table command terminates with the expected rows", "statement": "The table command produces exactly one row per value start, start+step, ... up to end in the direction of the step, and terminates, for all finite start, end and non-zero step.", "quantifier": "all start, end, step", "why_tests_cant": "Rounding can absorb the step; non-termination is untestable.", "anchors": ["src/client/commands/cmd_table.c: cmd_table_exec"]}
{"id": "C48", "title": "Simplification rules preserve meaning", "statement": "Each rewrite rule shipped in simplification.ruleset has left and right side equal as real functions wherever both are defined and the constraint holds.", "quantifier": "all real values of the rule's variables, all lengths of list variables", "why_tests_cant": "Uncountably many values, unbounded argument lists.", "anchors": ["simplification.ruleset", "src/client/simplification/simplification.c: simplify"]}
{"id": "C49", "title": "Rewriting negative constants preserves the value", "statement": "replace_negative_consts removes all negative constants and the tree's value is unchanged under every assignment.", "quantifier": "every tree, every assignment", "why_tests_cant": "All trees.", "anchors": ["src/client/simplification/simplification.c: replace_negative_consts"]}
{"id": "C50", "title": "Table column widths satisfy all cells", "statement": "The computed column widths (row heights) satisfy every cell's minimum, including cells spanning several columns, for any set of constraints in any order.", "quantifier": "every list of constraints", "why_tests_cant": "Unbounded constraint lists and span overlaps.", "anchors": ["src/table/table.c: satisfy_constraints get_dimensions"]}
{"id": "C51", "title": "Printed table lines are aligned", "statement": "Every spanning cell is printed as wide as the columns and inner borders it covers, so all printed lines of a table have the same width.", "quantifier": "every table layout", "why_tests_cant": "All combinations of spans and borders.", "anchors": ["src/table/table.c: get_total_width get_dimensions print_table"]}
{"id": "C52", "title": "Exactly one command handles a line, in fixed priority", "statement": "Every input line is handled by exactly one command, the first in registration order whose check accepts it; comment lines are ignored and quit ends the session.", "quantifier": "every input line", "why_tests_cant": "All lines.", "anchors": ["src/client/commands/commands.c: process_input exec_command init_commands"]}
{"id": "C53", "title": "Printed constants read back as the same number", "statement": "The text printed for a constant, entered again, denotes the same number up to the printed precision.", "quantifier": "every double", "why_tests_cant": "All doubles; large and small magnitudes use exponent notation.", "anchors": ["src/engine/tree/tree_to_string.c: CONSTANT_TYPE_FMT", "src/engine/parsing/parser.c: try_parse_constant"]}
{"id": "C54", "title": "Power reports an error exactly when there is no real result", "statement": "x^y reports a complex/undefined result exactly when x^y is not a real number.", "quantifier": "all x, y", "why_tests_cant": "All pairs.", "anchors": ["src/client/core/arith_evaluation.c: arith_op_evaluate (power)"]}
{"id": "C55", "title": "Expansion of user functions terminates and is complete", "statement": "Replacing calls of user-defined functions terminates for every expression and leaves no call of a user-defined function behind, provided the bodies are free of user-defined functions.", "quantifier": "every expression and every set of definitions", "why_tests_cant": "Termination over unbounded nesting with argument duplication.", "anchors": ["src/client/core/arith_context.c: arith_simplify", "src/engine/transformation/rewrite_rule.c: apply_ruleset_by_iterator"]}
{"id": "C56", "title": "Scripts are read line by line without loss", "statement": "load executes each line of the file as if typed, including the last one.", "quantifier": "every file content", "why_tests_cant": "Final line with or without newline.", "anchors": ["src/client/commands/cmd_load.c", "src/util/console_util.c: ask_input_getline"]}
{"id": "C57", "title": "Finding the occurrences of a variable is exact and stays inside the buffer", "statement": "get_variable_nodes returns the number of nodes with that variable name even if the buffer is too small, and writes the addresses of the first buffer_size of them, from left to right, to consecutive places of the buffer and nowhere else.", "quantifier": "every tree, name and buffer size", "why_tests_cant": "All trees and sizes; writing behind the buffer shows only for particular splits of the occurrences over the children.", "anchors": ["src/engine/tree/tree_util.c: get_variable_nodes"]}
{"id": "C58", "title": "The operator for implicit multiplication is valid", "statement": "ctx_set_glue_op accepts exactly the operators that can take two operands (and otherwise leaves the context as it was); afterwards the operator inserted for implicit multiplication is that operator, whatever is added to or deleted from the context.", "quantifier": "every history of calls before and after", "why_tests_cant": "depends on what happens to the registry after the pointer was stored; tests set the glue operator once and never delete it", "anchors": ["src/engine/parsing/context.c: ctx_set_glue_op, ctx_delete_op", "src/engine/parsing/parser.c: parse_tokens"]}
{"id": "C59", "title": "A rule file is loaded completely and in order", "statement": "parse_rulesets_from_file delivers for each RULESET section, in order, exactly the rules of its lines, in order; comments, leading blanks and empty lines do not matter; sections beyond the given number of rule sets are ignored and nothing is written outside the rule sets; the first line that is not a rule makes it return -1.", "quantifier": "every file and number of rule sets", "why_tests_cant": "all files: order, bounds of the array of rule sets and comment handling depend on the arrangement of the lines", "anchors": ["src/engine/transformation/rule_parsing.c: parse_rulesets_from_file"]}
{"id": "C60", "title": "Every operator application ends", "statement": "Applying an operator to the right number of numeric arguments ends with a value or an error, without undefined behaviour.", "quantifier": "every operator of the calculator, every argument list of matching length", "why_tests_cant": "Non-termination cannot be tested; all doubles.", "anchors": ["src/client/core/arith_evaluation.c: arith_op_evaluate"]}
{"id": "C61", "title": "Elementary arithmetic is correctly rounded", "statement": "+, -, *, /, % and sqrt yield the double nearest to the exact result (or an error where it is undefined); floor, ceil, round, trunc, abs, sgn and negation are exact; frac lies in [0,1).", "quantifier": "all finite doubles whose result does not overflow", "why_tests_cant": "2^64 arguments, 2^128 pairs.", "anchors": ["src/client/core/arith_evaluation.c: arith_op_evaluate"]}
{"id": "C62", "title": "Derivative rules compute the derivative", "statement": "One rewriting round with the derivative rules turns an expression into one that has the same value wherever both have one, where deriv(e, x) means the derivative of e with respect to x; the chain, sum, product, power and function rules yield a value only where the derivative exists.", "quantifier": "all expressions the user can enter, all assignments of real numbers", "why_tests_cant": "All real functions built from the operators, at all points.", "anchors": ["simplification.ruleset: second section", "src/client/simplification/simplification.c: apply_derivatives", "src/engine/transformation/rewrite_rule.c: apply_rule"]}
{"id": "C63", "title": "The shipped rule file is usable", "statement": "The rule file that comes with the program is read completely, in seven sections, each line becoming the rule it says; applying a rule without constraints never crashes.", "quantifier": "all 135 rules, all expressions", "why_tests_cant": "Applying a rule must be safe for every expression.", "anchors": ["src/client/simplification/simplification.c: init_simplification", "src/client/simplification/rule_parsing.c: parse_rulesets_from_file"]}
{"id": "C64", "title": "Simplification ends", "statement": "Simplification of an expression ends.", "quantifier": "all expressions", "why_tests_cant": "Non-termination cannot be tested; all expressions.", "anchors": ["src/client/simplification/simplification.c: apply_simplification"]}
{"id": "C65", "title": "load reports errors of the script and ends", "statement": "Loading a script ends, and reports success only if every line of the script succeeded.", "quantifier": "every script in every session", "why_tests_cant": "All scripts, including scripts that load each other; non-termination cannot be tested.", "anchors": ["src/client/commands/cmd_load.c: cmd_load_exec", "src/client/commands/commands.c: process_input"]}
{"id": "C66", "title": "A printed table is the picture of its cells", "statement": "Printing a table shows, for every cell, its text lines aligned and padded in the cell's rectangle, each requested border line beside the cells it belongs to, the right corner characters where lines meet, and a column or row for border lines exactly where a line is drawn.", "quantifier": "every table built by any sequence of calls", "why_tests_cant": "All combinations of texts, alignments, borders, spans.", "anchors": ["src/table/table.c: fprint_table print_table get_dimensions override_superfluous_lines print_text print_intersection"]}
{"id": "C67", "title": "Width of a text is what is seen", "statement": "The width computed for a text is that of its widest line, counted in visible characters: colour sequences take no room.", "quantifier": "every text", "why_tests_cant": "All texts, with any number of lines and colour sequences.", "anchors": ["src/table/table.c: get_text_width get_text_height", "src/util/string_util.c: console_strlen get_line_of_string"]}
{"id": "C68", "title": "Room for border lines is kept exactly for drawn lines", "statement": "After any sequence of calls that set or remove border lines, each column (row) has room for a border exactly if some cell in it is drawn with a line there, and removing lines never makes the count negative.", "quantifier": "every sequence of table calls", "why_tests_cant": "All histories of setting, overriding, and removing lines.", "anchors": ["src/table/table.c: override_left_border override_above_border set_vline set_hline set_all_vlines set_span"]}
{"id": "C69", "title": "Every table call changes what its description says and nothing else; texts appear where they were put", "statement": "Adding a cell, moving to the next row or to a position, setting alignments, lines, boxes and spans each change exactly the described cells, lines and cursor, and leave all others alone; a call that the description does not allow is never carried out. Rows of texts added row by row are printed as those rows, every column as wide as its widest text and every row as high as its highest text.", "quantifier": "every sequence of table calls (spans over unused cells, tidy texts); every list of rows of texts", "why_tests_cant": "All histories of calls and all texts.", "anchors": ["src/table/table.h", "src/table/table.c: set_position next_row add_text_cell add_cell add_cells_from_array set_default_alignments override_vertical_alignment override_horizontal_alignment set_hline set_vline make_boxed set_all_vlines override_left_border override_above_border set_span print_table"]}
{"id": "C70", "title": "Error messages point at the faulty part of the input", "statement": "When an expression is rejected in interactive use, exactly one line is written below the input. It shows the message for the error, and its marker stands exactly below the token the parser rejects (or just behind the input if it ends too early), or, for an error during evaluation, exactly below a token that was typed for an operator or a number of the expression, also if functions and rules have rewritten the expression in between. Errors reported by commands mark the argument they are about.", "quantifier": "every input, every text before it in the line, every session with its functions and rules, every position and length", "why_tests_cant": "All expressions, all rewriting histories; token positions must survive substitution of functions, rules and constant folding.", "anchors": ["src/util/console_util.c: report_error_at", "src/client/core/arith_context.c: show_error_at_token arith_parse arith_parse_raw arith_simplify listenererr_to_str", "src/engine/parsing/parser.c: perr_to_string", "src/engine/tree/tree_util.c: set_token_index tree_replace", "src/client/commands/cmd_table.c"]}
{"id": "C71", "title": "Command line, order of execution and exit status", "statement": "Every command line has exactly one documented effect: an unknown argument before the commands is named on stderr, nothing else is done and the program fails; --help (before --version) prints the usage and succeeds; --version prints the version; otherwise the commands behind --commands are carried out in order up to the first that fails, whose number is reported and which makes the program fail; with --interactive or without --commands the lines of the input are read until its end or quit, and the exit status says whether any of them failed. The greeting appears exactly if input is read from a terminal without --quiet. Order and repetition of the switches do not matter. Commands that all succeed do the same as typed lines.", "quantifier": "every list of arguments, every input text, every file system, terminal or not, every sequence of commands", "why_tests_cant": "All command lines and inputs; the exit status of arbitrarily long sessions.", "anchors": ["src/client/main.c: main add_switch parse_arg", "src/client/commands/commands.c: init_commands process_input exec_command", "src/util/trie.c: trie_contains"]}
{"id": "C72", "title": "The constraints of rules: language and meaning", "statement": "A constraint behind WHERE is read with the operators of the calculator and the words type, equal, count, CONST, VAR, OP, TRUE, FALSE, ==, !=, <, >, <=, >=, ||, ! and no others; two expressions side by side are not a product; arithmetic binds tighter than comparisons and these tighter than ||. A constraint holds exactly if it is true: kinds of expressions, structural equality, the comparisons of IEEE 754, or and not; if some compared expression has no value (a variable, a failing operator), it does not hold.", "quantifier": "every constraint built from kind tests, equality tests, comparisons of arbitrary expressions, TRUE/FALSE, || and !, of any size; every name and place of an operator; every state of the session", "why_tests_cant": "Constraints are arbitrary expressions that users write into rule files; the order type, equal, evaluation of the three passes matters for all nestings.", "anchors": ["src/client/simplification/propositional_context.c: init_propositional_ctx", "src/client/simplification/propositional_evaluation.c: propositional_checker prop_op_evaluate type_eval equal_eval", "src/engine/tree/tree_util.c: tree_reduce_ops tree_reduce"]}
{"id": "C73", "title": "The two notations of derivatives", "statement": "With any rule file loaded, an expression containing e' is treated exactly as the one in which every e' is written deriv(e, v), where v is the only variable of e (or the name z if e has none); if some e contains two different variables this is reported at such an e'. A deriv(e, b) whose b is not a variable is reported at its place; otherwise the derivative rules are applied and afterwards either no deriv is left or one that is left is reported.", "quantifier": "every expression (any nesting of both notations), every accepted rule file", "why_tests_cant": "All expressions: nested short forms are rewritten one after the other while the tree changes under the search.", "anchors": ["src/client/simplification/simplification.c: init_simplification apply_derivatives", "src/engine/transformation/matching.c: find_matching", "src/engine/tree/tree_util.c: list_variables find_op"]}
{"id": "C74", "title": "What the table command prints", "statement": "When the table command succeeds, the rows it computed are printed in order, one line each: their number (on terminals only), the argument and the value with ten digits behind the point (or Error), every cell padded by a blank and aligned to the right in a column as wide as its widest text; on terminals a header above them shows the variable and the expression as it was typed, not as it was simplified. The numbers are within half a unit of the last digit printed. After the table comes the fold result, if one was asked for.", "quantifier": "every session, every table command (any number of rows below 2^30), both output modes", "why_tests_cant": "All sessions, expressions and numbers: the column widths depend on all rows, the header contains colour sequences that must not count, and the texts depend on every double.", "anchors": ["src/client/commands/cmd_table.c: cmd_table_exec", "src/engine/parsing/tree_to_string.c: tree_to_str", "src/table/table.c: add_cell_fmt next_row set_default_alignments print_table"]}
{"id": "C75", "title": "How an expression is simplified", "statement": "With rules loaded, simplifying an expression does exactly this: constant subexpressions are evaluated; then, for each section of the rule file except the second in the order of the file, the first rule that can be applied is applied and constants are evaluated again until no rule of the section can be applied, and negative constants are written with a minus sign; then derivatives are worked out, and a derivative that is malformed or left over is reported; otherwise the sections are gone through once more, constants are evaluated, an operation that is not defined is reported, and minus signs are written. The outcome is the expression or the error reached this way, and there is one iff this comes to an end. Without rules only constants are evaluated. If no rule can be applied to an expression without derivatives, it comes out as it is, its constants evaluated and its negative constants written with a minus sign; simplifying this again changes nothing.", "quantifier": "every rule file that loads, every expression, every mathematical library, history and sequence of random numbers", "why_tests_cant": "The order of rules and passes matters only for particular combinations of rules and expressions; a test sees one expression with one rule file", "anchors": ["src/client/simplification/simplification.c: simplify, apply_simplification, replace_negative_consts", "src/engine/matching/rewrite_rule.c: apply_ruleset", "src/engine/tree/tree_util.c: tree_reduce_constant_subtrees"]}
{"id": "C76", "title": "What the help command prints", "statement": "The command help prints the table of commands, the built-in operators in five groups, each operator once and in the way it is used (x+y, -x, x!, log(2), max(*), pi), coloured from its first to its last character and nothing else coloured, lines being broken behind the operator that reaches column 80, and then, if functions or constants are defined, a table with one line for each of them in the order of definition: its name and parameters, an equals sign and its body. Together these are all operators the calculator knows at that moment. The command help operators prints five tables (infix, prefix, postfix, functions, constants) in which each built-in operator stands with the precedence, associativity or arity the parser uses for it, or with its value, and its description; the value of ans is the last result, or missing if there is none.", "quantifier": "every session: every sequence of definitions, redefinitions, clears, evaluations and rule files, every history, every mathematical library", "why_tests_cant": "What is printed depends on the definitions, their parameters and bodies, and on the history, all of which are unbounded; that the help text and the operators of the parser agree is a relation between two tables that a test samples", "anchors": ["src/client/commands/cmd_help.c: cmd_help_exec, print_short_help, print_op_table, print_ops_between, print_op", "src/table/table.c: print_table", "src/client/core/arith_context.c: init_arith_ctx"]}
{"id": "C77", "title": "Which words are numbers and which are names", "statement": "A word made of digits and points is a constant exactly when it has at least one digit and at most one point, and then stands for the double nearest to the decimal number it spells (up to 2^1000); otherwise (as 1.2.3 or a single point) it is reported as an unexpected character at this word. A word made of letters, underscores and brackets that names no operator is a variable, except for inf, infinity and nan in any mixture of small and capital letters, which are constants.", "quantifier": "every word and every context with operators", "why_tests_cant": "All texts; the boundary of the accepted language and correct rounding cannot be sampled.", "anchors": ["src/engine/parsing/parser.c: try_parse_constant, parse_tokens", "src/util/string_util.c: is_digit, is_letter"]}
{"id": "C78", "title": "User-defined functions do not affect other input", "statement": "In every session, an expression none of whose words is the name of a user-defined function is read as if no function had been defined, and evaluating it shows the same, succeeds or fails the same way and leaves the same history and random numbers as in the same session without its functions - whatever was defined and cleared before.", "quantifier": "every history of commands, every expression, every rule file", "why_tests_cant": "All histories and expressions; names of functions are keywords of the tokenizer and their rules are tried on every expression.", "anchors": ["src/client/commands/cmd_definition.c: add_function", "src/client/core/arith_context.c: arith_parse arith_simplify", "src/engine/parsing/tokenizer.c: tokenize"]}
{"id": "C79", "title": "Loading simplification rules", "statement": "load simplification puts exactly the rules of the file in force, section by section, and changes nothing else; it reports success only if the rules are in force, and it never crashes.", "quantifier": "every session and every file", "why_tests_cant": "All files and all histories; the patterns for derivatives are parsed with the user's own functions in scope.", "anchors": ["src/client/commands/cmd_load.c: cmd_load_exec", "src/client/simplification/simplification.c: init_simplification unload_simplification"]}
{"id": "C80", "title": "The same expression has the same answer", "statement": "An expression that uses neither @ nor ans nor rand, in a session whose functions and rules do not use them either, is answered the same way - same result or same error, same number entered into the history - whatever was evaluated before and whatever the random numbers are; it draws no random number. In particular, entering it again shows the same.", "quantifier": "every session, every expression, every two histories and sequences of random numbers, every mathematical library", "why_tests_cant": "All expressions, all rule files and all pairs of histories; the history is visible to every evaluation, also inside the constraints of rules.", "anchors": ["src/client/core/arith_evaluation.c: arith_op_evaluate", "src/client/simplification/simplification.c: simplify", "src/client/simplification/propositional_evaluation.c: propositional_checker", "src/client/core/history.c: history_get history_add", "src/client/commands/cmd_evaluation.c: cmd_evaluation_exec"]}
{"id": "C81", "title": "ans is the last result", "statement": "An expression that has a value is answered with that value, and ans afterwards stands for it: the line ans shows it again.", "quantifier": "every session without rules or with the shipped rules, every expression without user functions that has a value, every mathematical library", "why_tests_cant": "All expressions and sessions; the result passes through the whole simplification before it is entered into the history, so whether it arrives there depends on every rule.", "anchors": ["src/client/commands/cmd_evaluation.c: cmd_evaluation_exec", "src/client/core/history.c: history_add history_get", "src/client/simplification/simplification.c: simplify replace_negative_consts", "src/client/core/arith_evaluation.c: arith_op_evaluate"]}
{"id": "C82", "title": "The history is what was shown", "statement": "Every command keeps all earlier results and appends exactly the numbers it shows as results - evaluations that end in one constant and folds of tables - in the order in which they are shown, also through scripts that load scripts. Failed commands, definitions, clears and loaded rules append nothing. Starting from an empty history, the history is at any time the sequence of the results shown. Random numbers are drawn in order and never put back.", "quantifier": "every session state, every command line, every input and script, every file system, every mathematical library", "why_tests_cant": "All inputs and histories, and every path through parsing, simplification, evaluation, tables and nested scripts, including those that fail half-way.", "anchors": ["src/client/core/history.c: history_add history_get", "src/client/commands/cmd_evaluation.c: cmd_evaluation_exec", "src/client/commands/cmd_table.c: cmd_table_exec", "src/client/commands/commands.c: process_input exec_command", "src/client/core/arith_evaluation.c: arith_op_evaluate"]}
