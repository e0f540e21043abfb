{"id": "C01", "title": "Slicing an evaluated span yields exactly that substring", "statement": "For a span over any evaluated block whose text is ASCII, slicing a range (a..b, a.., ..b), take and take_split return spans whose text is exactly the corresponding substring of the original text, however the block is cut into constants, concatenations and variable expansions; the two halves of take_split concatenate back to the original.", "quantifier": "every evaluated block (any nesting and fragmentation of nodes), every span of it, every in-range bounds", "why_tests_cant": "The answer depends on how the text is fragmented into content references; the number of fragmentations is unbounded and tests try a handful.", "anchors": ["src/evaluated/nom/mod.rs: InputTake for BlockSpan, Slice<Range*>", "src/evaluated/block_span.rs: BlockSpan::revalidate_offset, BlockSpan::into_string"]}
{"id": "C02", "title": "Turning a span into a block, simplifying and appending never change text", "statement": "Block::new/simplify, BlockSpan::to_new_block and push_all_contents preserve the character sequence: the new block's text is the span's text, the simplified block's text is the original's, and after push_all_contents the text is old text followed by the span's text. to_new_block and push_all_contents keep (union) the variable sensitivity.", "quantifier": "every well-formed ASCII block and span, any nesting depth", "why_tests_cant": "simplify recursively rewrites nested offsets and lengths; off-by-one errors only show for particular fragmentations and depths.", "anchors": ["src/evaluated/mod.rs: Block::new, Block::simplify, Block::push_all_contents", "src/evaluated/content_reference.rs: ContentReference::simplify", "src/evaluated/block_span.rs: BlockSpan::to_new_block"]}
{"id": "C03", "title": "Substring search finds the first occurrence", "statement": "find_substring(needle) on a span of ASCII text returns the byte index of the first occurrence of the needle in the span's text, and None exactly if the needle does not occur.", "quantifier": "every fragmented ASCII span and every non-empty needle", "why_tests_cant": "The search is a streaming ring-buffer algorithm whose correctness depends on all overlap patterns of needle and text.", "anchors": ["src/evaluated/nom/mod.rs: FindSubstring for BlockSpan"]}
{"id": "C04", "title": "Prefix comparison", "statement": "compare(t) is Ok iff the span text starts with t, Incomplete iff the text is a proper prefix of t, and Error otherwise; compare_no_case does the same up to ASCII case.", "quantifier": "every span and every tag", "why_tests_cant": "All strings and all fragmentations.", "anchors": ["src/evaluated/nom/mod.rs: Compare for BlockSpan"]}
{"id": "C05", "title": "Character iteration with byte indices", "statement": "iter_indices on an ASCII span yields every character of the text in order, paired with its byte offset from the start of the span; split_at_position(p) splits exactly before the first character satisfying p, or at the end if there is none.", "quantifier": "every fragmented ASCII span, every predicate", "why_tests_cant": "Universally quantified over predicates and fragmentations.", "anchors": ["src/evaluated/block_span.rs: Iter, IndexIter", "src/evaluated/nom/mod.rs: InputTakeAtPosition for BlockSpan"]}
{"id": "C06", "title": "Segments of a span cover its text, in order", "statement": "Whenever segments() of a span completes, the concatenation of the located pieces it yields equals the span's text.", "quantifier": "every fragmented ASCII span", "why_tests_cant": "Depends on nesting of content references of unbounded depth.", "anchors": ["src/evaluated/block_span.rs: SegmentsIter", "src/evaluated/content_reference.rs: SegmentsIter", "src/evaluated/nodes.rs: SegmentsIter"]}
{"id": "C07", "title": "Asking for a span's location or segments never crashes", "statement": "location() and segments() return normally for every span that parsing can produce, e.g. for the text left after consuming a prefix.", "quantifier": "every span of every evaluated block", "why_tests_cant": "A crash requires an offset that coincides with an inner segment boundary; tests rarely hit it.", "anchors": ["src/evaluated/block_span.rs: BlockSpan::location, SegmentsIter", "src/evaluated/content_reference.rs: SegmentsIter", "src/source_location.rs: Located::slice"]}
{"id": "C08", "title": "Offset inverts slicing", "statement": "If s2 is s with its first n bytes removed, then the offset from s to s2 is n; hence recognize! returns exactly the consumed text.", "quantifier": "every fragmented ASCII span and every n up to its length", "why_tests_cant": "The property test in the repository only uses one-piece blocks; multi-piece blocks differ.", "anchors": ["src/evaluated/nom/mod.rs: Offset for BlockSpan", "src/parsers/ast/mod.rs: advanced_var"]}
{"id": "C09", "title": "Non-ASCII text is preserved", "statement": "The text of a block built from a source string is that string, and slicing off whole characters from the front leaves the remaining characters, for non-ASCII text as well (including a leading byte-order mark).", "quantifier": "every Unicode source string", "why_tests_cant": "Tests only use ASCII.", "anchors": ["src/evaluated/content_reference.rs: ContentReference::chars", "src/evaluated/block_span.rs: Iter", "src/lib.rs: Engine::process_block"]}
{"id": "C10", "title": "Locations form a partial order that never relates different files", "statement": "Location comparison is reflexive-equal, antisymmetric and transitive; two source positions are comparable iff they are in the same file (or same evaluation tree), and then compare lexicographically by line and then column.", "quantifier": "all locations", "why_tests_cant": "Order laws quantify over all triples of locations.", "anchors": ["src/source_location.rs: PartialOrd for Location"]}
{"id": "C11", "title": "Slicing located text gives the location of the first kept character", "statement": "Slicing n bytes off located text yields location line + number of newlines skipped, and column counted from the last skipped newline; the new location is never smaller than the old one.", "quantifier": "every text, every in-range slice", "why_tests_cant": "All strings with arbitrarily placed newlines.", "anchors": ["src/source_location.rs: Located<&str>::slice, Location::advance_line, Location::advance_character"]}
{"id": "C12", "title": "Variable-name interning is injective and stable", "statement": "After any sequence of interning calls, interning the same text gives the same id, different texts give different ids, resolving an id gives the interned text, and ids never change meaning later.", "quantifier": "every history of interning operations", "why_tests_cant": "Histories are unbounded.", "anchors": ["src/lib.rs: NameCache::variable_name, variable_name_for_str"]}
{"id": "C13", "title": "Variable store: last write wins, others untouched", "statement": "After any history of global and target-specific assignments, reading a variable returns the value last assigned to it in that scope, target-specific lookup falls back to nothing else than what was stored for that target, and assignments to other names or scopes have no effect on it.", "quantifier": "every history of set_variable, set_variable_for_target, append and rule insertions", "why_tests_cant": "Unbounded histories of operations.", "anchors": ["src/lib.rs: Database::set_variable, set_variable_for_target, get_variable, get_variable_for_target"]}
{"id": "C14", "title": "+= appends after one space", "statement": "After append_to_variable(v, new) the expansion of v is: the old expansion, one space, then the expansion of new (just new when v was undefined); every other variable is unchanged; flavor and origin of an existing variable are kept.", "quantifier": "every database, every name, every value expression", "why_tests_cant": "Quantifies over arbitrary value expressions and databases.", "anchors": ["src/lib.rs: Database::append_to_variable", "src/ast/mod.rs: collapsing_concat"]}
{"id": "C15", "title": "Rule accumulation", "statement": "Defining rules for a target repeatedly: dependencies of recipe-less definitions accumulate in order onto the existing rule, keeping its recipe; a definition with a recipe replaces the rule; rules of other targets are unaffected.", "quantifier": "every history of rule definitions", "why_tests_cant": "Unbounded histories, interleaved over targets.", "anchors": ["src/lib.rs: Database::add_rule, Recipe::from_protorule, Database::get_rule"]}
{"id": "C16", "title": "Sensitivity is sound (non-interference)", "statement": "If two databases agree on every variable in the sensitivity set reported for an evaluation that runs no $(eval), then evaluating the expression in the second gives the same text and the same sensitivity set.", "quantifier": "every expression, every pair of databases agreeing on the reported set", "why_tests_cant": "A two-run (hyper)property over all expressions and databases.", "anchors": ["src/ast/mod.rs: AstNode::eval, eval_internal"]}
{"id": "C17", "title": "Sensitivity contains every variable that was looked up", "statement": "Every variable reference evaluated directly or transitively contributes its (computed) name to the sensitivity set of the result; concatenation's set is the union of its parts' sets.", "quantifier": "every expression and database", "why_tests_cant": "Quantifies over all nested, computed names.", "anchors": ["src/ast/mod.rs: AstNode::eval_internal"]}
{"id": "C18", "title": "Evaluation without $(eval) does not modify the database", "statement": "Evaluating an expression that (transitively through the variables it references) has no eval call leaves all variables and rules unchanged.", "quantifier": "every expression and database", "why_tests_cant": "A frame property over all executions.", "anchors": ["src/ast/mod.rs: AstNode::eval_internal"]}
{"id": "C19", "title": "Collapsing concatenations does not change meaning", "statement": "collapsing_concat of a list of expressions evaluates to the concatenation of the texts of the parts (dropping empty expressions and merging nothing else), with the union of their sensitivities.", "quantifier": "every list of expressions, every database", "why_tests_cant": "All lists of expressions.", "anchors": ["src/ast/mod.rs: collapsing_concat"]}
{"id": "C20", "title": "Simple variables are frozen, recursive variables track later changes", "statement": "A variable assigned with := expands to the text its value had at assignment time whatever is assigned afterwards; a variable assigned with = expands to the value of its expression in the database at reference time.", "quantifier": "every value, every later history of assignments", "why_tests_cant": "Quantifies over all later histories.", "anchors": ["src/parsers/variable/mod.rs: handle_global_variable_action", "src/eval/mod.rs: Variable::expand"]}
{"id": "C21", "title": "Undefined variables expand to nothing", "statement": "Referencing a name with no definition (including computed names) yields empty text, no crash, and records the name as a dependency.", "quantifier": "every database and name expression", "why_tests_cant": "All names and databases.", "anchors": ["src/ast/mod.rs: AstNode::eval_internal"]}
{"id": "C22", "title": "Acyclic definitions terminate, self-reference does not", "statement": "If variable definitions are ranked so that each body only references lower-ranked variables, evaluation always terminates with a value; a variable whose own expansion references itself makes evaluation diverge.", "quantifier": "every database with a ranking; every expression", "why_tests_cant": "Termination is a liveness property over unbounded executions.", "anchors": ["src/ast/mod.rs: AstNode::eval_internal", "src/eval/mod.rs: Variable::expand"]}
{"id": "C23", "title": "Substitution references", "statement": "$(name:key=repl) replaces, in each whitespace-separated word of the variable's value, the suffix key by repl (or matches with % as a stem) and joins the words with single spaces; a word that does not match is kept unchanged.", "quantifier": "every value, key and replacement text", "why_tests_cant": "All strings; the suffix-matching algorithm is wrong only on particular overlaps.", "anchors": ["src/ast/text_functions.rs: do_subref, do_replacement"]}
{"id": "C24", "title": "Backslash unquoting at a stop character", "statement": "makefile_take_until_unquote stops at the first stop character preceded by an even number of backslashes; the text returned before it has each run of backslashes before a stop character halved (the odd one removed), all other backslashes intact; the rest is exactly what follows.", "quantifier": "every text, every stop-character predicate", "why_tests_cant": "All strings with arbitrary backslash runs.", "anchors": ["src/parsers/mod.rs: makefile_take_until_unquote"]}
{"id": "C25", "title": "Line continuation folding", "statement": "makefile_line joins physical lines ending in backslash-newline: leading blanks of continuation lines and trailing blanks and backslashes before the newline are removed and exactly one space is inserted between pieces (GNU mode), and the remainder starts right after the newline ending the logical line.", "quantifier": "every multi-line text", "why_tests_cant": "Unboundedly many continuation lines with arbitrary whitespace.", "anchors": ["src/parsers/mod.rs: makefile_line, makefile_grab_line, ends_with_backslash"]}
{"id": "C26", "title": "A physical line ends at its newline", "statement": "Grabbing one line returns the text up to the first newline (or comment start on that line) and never more than one physical line.", "quantifier": "every input text", "why_tests_cant": "A counterexample needs a comment on a later line.", "anchors": ["src/parsers/mod.rs: makefile_grab_line"]}
{"id": "C27", "title": "Windows line endings", "statement": "A makefile with CRLF line endings is read like the same makefile with LF endings.", "quantifier": "every makefile text", "why_tests_cant": "Quantifies over all texts.", "anchors": ["src/parsers/mod.rs: makefile_grab_line"]}
{"id": "C28", "title": "Expression parsing keeps all text", "statement": "parse_ast of text without '$' evaluates to that text; $$ evaluates to a single $; text before and after a reference is preserved.", "quantifier": "every text", "why_tests_cant": "All strings and positions of references.", "anchors": ["src/parsers/ast/mod.rs: parse_ast, parse_var_ref, advanced_var"]}
{"id": "C29", "title": "Only built-in function names call functions", "statement": "$(name) where name is not a function name followed by blank refers to the variable of that name, and ${name} refers to the variable too.", "quantifier": "every name", "why_tests_cant": "All names, including those that begin with a function name.", "anchors": ["src/parsers/ast/mod.rs: function_call, parse_var_ref"]}
{"id": "C30", "title": "Line processing always makes progress", "statement": "Each step of the line parser on non-empty input either reports an error or strictly shortens the remaining input, so processing a makefile performs at most as many steps as it has characters.", "quantifier": "every parser state, every non-empty input", "why_tests_cant": "Termination for all inputs.", "anchors": ["src/parsers/mod.rs: ParserState::parse_line", "src/lib.rs: Engine::process_block"]}
{"id": "C31", "title": "Conditional nesting decides which lines are active", "statement": "At every point of the file, lines are ignored iff some enclosing conditional's current branch is not taken; an else branch is taken iff no earlier branch was.", "quantifier": "every sequence of conditional directives (any nesting depth)", "why_tests_cant": "Unbounded nesting and histories.", "anchors": ["src/parsers/conditional/mod.rs: handle_conditional", "src/parsers/mod.rs: ParserState::update_ignoring"]}
{"id": "C32", "title": "Ignored lines have no effect on variables and rules", "statement": "While lines are being ignored no variable or rule is added or changed by them.", "quantifier": "every line, every parser state in which lines are ignored", "why_tests_cant": "All possible lines.", "anchors": ["src/parsers/mod.rs: ParserState::parse_line"]}
{"id": "C33", "title": "define ... endef captures the body verbatim", "statement": "A define collects the lines up to the matching endef (nested define/endef pairs are balanced) joined by newlines, and nothing of the body is executed as makefile lines.", "quantifier": "every sequence of body lines, every nesting depth", "why_tests_cant": "Unbounded nesting and length.", "anchors": ["src/parsers/variable/mod.rs: handle_define_line, parse_define_line"]}
{"id": "C34", "title": "Assignment operators are recognised exactly", "statement": "parse_assignment_operator accepts exactly '=', ':=', '::=', '+=', '?=', '!=' at the start of the text, consuming exactly the operator, and reports the corresponding flavor.", "quantifier": "every text", "why_tests_cant": "All strings.", "anchors": ["src/parsers/variable/mod.rs: parse_assignment_operator"]}
{"id": "C35", "title": "?= keeps an existing value", "statement": "Assigning with ?= leaves a variable that already has a value unchanged.", "quantifier": "every database, name and value", "why_tests_cant": "All databases.", "anchors": ["src/parsers/variable/mod.rs: handle_global_variable_action"]}
{"id": "C36", "title": "Reading a makefile never crashes", "statement": "Processing any makefile text either succeeds or returns a parse error; it does not panic (e.g. for 'x :=' with an empty value, ifdef, or target-specific variables).", "quantifier": "every makefile text", "why_tests_cant": "All inputs.", "anchors": ["src/lib.rs: Engine::process_block, read_makefile", "src/parsers/mod.rs: ParserState::parse_line"]}
{"id": "C37", "title": "The last rule of a file is recorded", "statement": "Every rule in a makefile, including the last one, is in the database when the file has been read.", "quantifier": "every makefile", "why_tests_cant": "Needs the end-of-file case of every makefile.", "anchors": ["src/lib.rs: Engine::process_block", "src/parsers/mod.rs: ParserState::close_rule"]}
{"id": "C38", "title": "Parse errors are reported to the caller", "statement": "If a line cannot be parsed, process_block/read_makefile return Err with a parse error.", "quantifier": "every makefile text", "why_tests_cant": "All inputs.", "anchors": ["src/lib.rs: Engine::process_block"]}
{"id": "C39", "title": "A line that is neither rule, assignment nor directive is an error", "statement": "A non-blank line without separator is reported as missing separator.", "quantifier": "every line", "why_tests_cant": "All lines.", "anchors": ["src/parsers/targets/mod.rs: parse_line, next_mword"]}
{"id": "C40", "title": "File lists split at blanks", "statement": "parse_file_seq returns the blank-separated words of the text in order, with ./ prefixes cleaned and escaped stop characters unquoted.", "quantifier": "every text", "why_tests_cant": "All strings.", "anchors": ["src/parsers/file_sequence.rs: parse_file_seq, clean_match"]}
{"id": "C41", "title": "Drive letters do not end the target list", "statement": "The separator colon of a rule is the first unquoted colon that is not a drive specification (single letter, colon, slash); the search returns everything before it.", "quantifier": "every text", "why_tests_cant": "All strings.", "anchors": ["src/parsers/targets/mod.rs: find_non_drivespec_colon"]}
{"id": "C42", "title": "include reads files in order and honours '-include'", "statement": "include processes the named files in order at that point, a missing file is an error for include and ignored for -include/sinclude.", "quantifier": "every list of file names and file system", "why_tests_cant": "All file systems and lists.", "anchors": ["src/parsers/directives/mod.rs: handle_include", "src/lib.rs: Engine::read_makefile"]}
{"id": "C43", "title": "The expression visitor sees each node once", "statement": "Visiting an expression calls the visitor once per node in left-to-right pre-order.", "quantifier": "every expression tree", "why_tests_cant": "All trees.", "anchors": ["src/ast/visit.rs"]}
{"id": "C44", "title": "Recipe lines", "statement": "A line beginning with the recipe prefix while a rule is open is appended, in order, to that rule's recipe and its text is kept up to the newline; it is never evaluated as makefile syntax.", "quantifier": "every sequence of lines following a rule", "why_tests_cant": "Unbounded sequences.", "anchors": ["src/parsers/recipe_line.rs: recipe_line", "src/parsers/mod.rs: ParserState::push_command_line"]}
{"id": "C45", "title": "Multi-target rules define every target", "statement": "A rule with several targets records the same dependencies, rule type and recipe for each target, and only for those.", "quantifier": "every list of targets and dependencies", "why_tests_cant": "All lists.", "anchors": ["src/lib.rs: Database::from_protorule", "src/parsers/targets/mod.rs: handle_target_action"]}
{"id": "C46", "title": "Rule bookkeeping is consistent", "statement": "After any sequence of rule definitions, the list of all rules contains exactly one rule per defined target and is the same set as the rules found by looking targets up; each rule's target file id is the interned id of its target text, and its set of dependency ids is exactly the set of interned ids of its dependency texts.", "quantifier": "every sequence of rule definitions over readable target and dependency texts", "why_tests_cant": "the ids, names and dependency sets are maintained incrementally across definitions; only an invariant over all histories excludes a stale or missing id", "anchors": ["src/lib.rs: Database::rules, Database::get_rule, Database::add_rule, Rule::from_protorule, Rule::dep_names"]}
{"id": "C47", "title": "A comment ends with its line", "statement": "Parsing a comment consumes the '#' and the rest of that (logical) line, and nothing of the lines after it.", "quantifier": "every text beginning with '#'", "why_tests_cant": "whether following lines survive depends on everything that follows in the file", "anchors": ["src/parsers/comment.rs: parse_comment", "src/parsers/mod.rs: makefile_grab_line"]}
{"id": "C48", "title": "Reading a makefile keeps the engine's state consistent", "statement": "After reading any makefile, with any includes and evals, every variable and rule in the database refers to interned names, all stored values are well-formed texts, and no name or number handed out before is lost or changed.", "quantifier": "every state of the engine, every ASCII makefile and file system", "why_tests_cant": "All histories of reads.", "anchors": ["src/lib.rs: Engine::read_makefile, Engine::process_block, Database, NameCache", "src/parsers/mod.rs: ParserState::parse_line"]}
{"id": "C49", "title": "A makefile means what its lines say", "statement": "Reading a makefile processes its lines one after the other: comments and blank lines do nothing, assignments define variables, conditionals select lines, rules with their recipe lines are recorded for each target, definitions of several lines collect their body, includes read the named files in place. Afterwards the engine holds exactly the variables and rules this line-by-line meaning gives, and every character of every value is attributed to the place it was written at.", "quantifier": "every ASCII makefile text made of such lines, every file system", "why_tests_cant": "the space of texts, nestings and interleavings of lines is unbounded", "anchors": ["src/lib.rs: Engine::read_makefile, Engine::process_block", "src/parsers/mod.rs: ParserState::parse_line", "src/parsers/variable/mod.rs", "src/parsers/conditional/mod.rs", "src/parsers/targets/mod.rs", "src/parsers/directives", "src/parsers/recipe_line.rs", "src/eval"]}
{"id": "C50", "title": "A makefile written from statements means what the statements say", "statement": "Take any sequence of assignments (=, :=, ?=, !=, +=), definitions of several lines, rules with recipes, includes, conditionals whose last branch is the one to take, lines of words and blank lines, over names and values that use no special characters (but for $$, references, and references $(x:a=b) that replace endings), where names of variables and targets may themselves contain references, and write it out as a makefile, with or without a comment at its beginning. Reading the file succeeds; afterwards every variable expands to the text the statements give it, every rule has the dependencies, recipe and kind the statements give it, and nothing else is defined. In particular, with SRCS the names n.c, OBJS = $(SRCS:.c=.o) and prog: $(OBJS), the rule depends on the names n.o. For conditionals whose other branch is taken the effect is also determined: lines are ignored until the next ifeq, ifneq or else.", "quantifier": "every sequence of such statements, of any length and nesting; every file system", "why_tests_cant": "the space of statement sequences, nestings and values is unbounded", "anchors": ["src/lib.rs: Engine::read_makefile, Engine::process_block", "src/parsers/mod.rs: ParserState::parse_line", "src/parsers/variable/mod.rs", "src/parsers/conditional/mod.rs", "src/parsers/targets/mod.rs", "src/parsers/directives", "src/parsers/recipe_line.rs", "src/eval"]}
{"id": "C51", "title": "The words of a rule line", "statement": "Before a rule line is expanded it is cut into words. A word ends at a blank, at '=', before '?=' or '+=', or after a colon that is not part of a drive specification; a reference $(...) or ${...} with matching brackets is never cut, whatever it contains, and neither is a character quoted by a backslash. An operator is a word of its own. Nothing is lost or repeated, every word has at least one character, and cutting never fails.", "quantifier": "every text", "why_tests_cant": "the brackets nest without bound and the cases (quotes, drives, operators, references) combine freely", "anchors": ["src/parsers/targets/mod.rs: next_mword, parse_line"]}
{"id": "C52", "title": "Evaluated text acts like makefile text", "statement": "A line `$(eval text)` has the effect that the expanded text would have as a part of the makefile: the variables and rules it defines are there afterwards, the rule before it is kept, and what follows is read as usual. A text from a variable, from a definition, with references or of several lines is no exception.", "quantifier": "every makefile, every place in it, every text", "why_tests_cant": "the effect must be the same in every state the makefile can reach before the line, and for every text", "anchors": ["src/ast/mod.rs: AstNode::eval (Eval)", "src/parsers/targets/mod.rs: action", "src/lib.rs: Engine::process_block"]}
{"id": "C53", "title": "Makefiles can be read one after the other", "statement": "A program may call `read_makefile` several times on the same engine and name cache. Every makefile is read by the same rules as the first one: it starts outside of any conditional, definition or rule, sees the variables and rules that the makefiles before it left, and adds its own. A reader that fails changes nothing. In particular a makefile that is cut into pieces between two statements and read piece by piece defines what it defines when it is read at once.", "quantifier": "every sequence of calls, with every name and text (or read error), every state left by the earlier calls", "why_tests_cant": "the meaning of a makefile must not depend on hidden state left by any earlier sequence of makefiles; there are infinitely many histories", "anchors": ["src/lib.rs: Engine::read_makefile", "src/lib.rs: Engine::process_block", "src/parsers/mod.rs: ParserState"]}
{"id": "C54", "title": "Sensitivities name the variables that matter", "statement": "After a makefile is read, the sensitivity of each dependency of a rule, and of the result of evaluating a variable or a recipe line, names every variable whose value it depends on, and no other variable. This holds through chains of variables, for appended values and for substitution references, and includes variables that are not defined.", "quantifier": "every makefile, every rule, variable and recipe line in it", "why_tests_cant": "a missing or superfluous name shows only for some chain of definitions; there are infinitely many makefiles and chains of every length", "anchors": ["src/evaluated/mod.rs: Block::sensitivity, Block::push", "src/ast/mod.rs: AstNode::eval", "src/parsers/mod.rs: parse_file_seq", "src/evaluated/block_span.rs: to_new_block", "README.md"]}
{"id": "C55", "title": "Makefiles may contain any UTF-8 text", "statement": "A makefile is UTF-8 text. A byte order mark at its start is skipped and changes nothing else. Characters of any length may occur in values, comments and names: lines end where they end in the text, values are what is written, and nothing panics.", "quantifier": "every makefile text in UTF-8, with and without a byte order mark", "why_tests_cant": "offsets are in bytes and iteration is in characters; whether they agree depends on every position of every multi-byte character in the text", "anchors": ["src/lib.rs: Engine::process_block", "src/evaluated/block_span.rs: BlockSpan::chars", "src/evaluated/content_reference.rs: ContentReference::chars", "src/parsers/mod.rs: makefile_grab_line"]}
{"id": "C56", "title": "Commands over several lines", "statement": "A recipe line that ends in a backslash is continued by the next line: both are one command. The backslash and the line break stay in the command, and one tab at the start of the next line is removed. The next line belongs to the command whether or not it begins with a tab, and is not read as makefile syntax.", "quantifier": "every rule, every recipe, every command of one or more lines, every following text", "why_tests_cant": "a command may have any number of lines with any content; tests try a few shapes and never look at what becomes of a next line that looks like a directive or an assignment", "anchors": ["src/parsers/recipe_line.rs: recipe_line", "src/parsers/mod.rs: makefile_grab_line, ends_with_backslash", "src/parsers/mod.rs: ParserState::parse_line"]}
