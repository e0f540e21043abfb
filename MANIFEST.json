{
 "claims": [
  {
   "property": "C01",
   "status": "proved",
   "theorems": [
    "C01_slices_are_substrings",
    "C01_out_of_range_panics",
    "C01_whole_block",
    "C01_node_slice"
   ],
   "note": "ASCII text"
  },
  {
   "property": "C02",
   "status": "proved",
   "theorems": [
    "C02_into_string",
    "C02_simplify_preserves",
    "C02_block_new_preserves",
    "C02_to_new_block_preserves",
    "C02_push_all_contents_appends",
    "C02_marks_are_text"
   ],
   "note": ""
  },
  {
   "property": "C03",
   "status": "proved",
   "theorems": [
    "C03_find_substring_first",
    "C03_non_ascii_refuted"
   ],
   "note": "ASCII text and non-empty ASCII needle; the refuted theorem shows the restriction is needed"
  },
  {
   "property": "C04",
   "status": "proved",
   "theorems": [
    "C04_compare_is_prefix",
    "C04_compare_no_case_is_prefix"
   ],
   "note": ""
  },
  {
   "property": "C05",
   "status": "proved",
   "theorems": [
    "C05_indices_enumerate",
    "C05_split_at_position",
    "C05_split_at_position1",
    "C05_split_before_functional"
   ],
   "note": ""
  },
  {
   "property": "C06",
   "status": "proved",
   "theorems": [
    "C06_segments_cover",
    "C06_location_is_first"
   ],
   "note": ""
  },
  {
   "property": "C07",
   "status": "partial",
   "theorems": [
    "C07_location_panics_refuted",
    "C07_location_panics_iff",
    "C07_segments_panic_iff",
    "C07_panic_iff_on_boundary",
    "C07_location_no_panic_partial",
    "C07_flat_partial"
   ],
   "note": "false in general (refuted); the exact condition under which location() and segments() panic is proved for every well-formed ASCII tree and span, with offsets at any depth; text without references never panics"
  },
  {
   "property": "C08",
   "status": "partial",
   "theorems": [
    "C08_offset_refuted",
    "C08_offset_partial"
   ],
   "note": "false in general (refuted); the value computed is characterised for every suffix"
  },
  {
   "property": "C09",
   "status": "partial",
   "theorems": [
    "C09_sliced_text_refuted",
    "C09_unsliced_text_partial",
    "C09_source_text_partial",
    "C09_slices_partial",
    "C09_suffix_partial",
    "C09_suffix_iff_ascii"
   ],
   "note": "false for slices (refuted); unsliced text is preserved; what every slice of a source text shows is proved exactly: the rest is right iff the text sliced off is ASCII, and a slice that ends inside a character panics"
  },
  {
   "property": "C10",
   "status": "proved",
   "theorems": [
    "C10_comparable_iff_same_source",
    "C10_less_is_lexicographic",
    "C10_equal_iff_identical",
    "C10_antisymmetric",
    "C10_transitive",
    "C10_located_order_refuted"
   ],
   "note": "locations are ordered as claimed; LocatedString's order inherits it but ignores the text (C10_located_order_refuted)"
  },
  {
   "property": "C11",
   "status": "proved",
   "theorems": [
    "C11_slice_location",
    "C11_slice_not_earlier"
   ],
   "note": ""
  },
  {
   "property": "C12",
   "status": "proved",
   "theorems": [
    "C12_same_text_same_id",
    "C12_ids_identify_texts",
    "C12_resolve",
    "C12_lookup_knows_interned"
   ],
   "note": "any interning history, both name spaces"
  },
  {
   "property": "C13",
   "status": "proved",
   "theorems": [
    "C13_last_write_wins",
    "C13_other_writes_invisible",
    "C13_absent_iff_never_written",
    "C13_append_write"
   ],
   "note": "any history of database writes"
  },
  {
   "property": "C14",
   "status": "proved",
   "theorems": [
    "C14_append_to_defined",
    "C14_append_to_undefined",
    "C14_append_frame",
    "C14_append_self_diverges"
   ],
   "note": "for appended values that do not refer to the variable itself; a self-reference is shown to diverge"
  },
  {
   "property": "C15",
   "status": "proved",
   "theorems": [
    "C15_rule_history"
   ],
   "note": "target and dependency texts readable (hypothesis readable_rule); the view is deps, recipe, type"
  },
  {
   "property": "C16",
   "status": "proved",
   "theorems": [
    "C16_sensitivity_is_sound"
   ],
   "note": "whole block equal, not only text; both states with the same name table"
  },
  {
   "property": "C17",
   "status": "proved",
   "theorems": [
    "C17_lookups_are_recorded",
    "C17_evaluation_is_expansion",
    "C17_expansion_unique"
   ],
   "note": ""
  },
  {
   "property": "C18",
   "status": "proved",
   "theorems": [
    "C18_evaluation_changes_nothing"
   ],
   "note": ""
  },
  {
   "property": "C19",
   "status": "proved",
   "theorems": [
    "C19_collapsing_concat"
   ],
   "note": ""
  },
  {
   "property": "C20",
   "status": "proved",
   "theorems": [
    "C20_simple_is_frozen",
    "C20_recursive_tracks"
   ],
   "note": ""
  },
  {
   "property": "C21",
   "status": "proved",
   "theorems": [
    "C21_undefined_is_empty"
   ],
   "note": ""
  },
  {
   "property": "C22",
   "status": "proved",
   "theorems": [
    "C22_ranked_definitions_terminate",
    "C22_circular_definitions_diverge",
    "C22_result_independent_of_fuel"
   ],
   "note": ""
  },
  {
   "property": "C23",
   "status": "partial",
   "theorems": [
    "C23_substitution_partial",
    "C23_what_happens",
    "C23_whole_words",
    "C23_results_unique",
    "C23_repeated_suffix_refuted",
    "C23_empty_key_refuted",
    "C23_prefix_pattern_refuted",
    "C23_whole_word_refuted",
    "C23_two_pieces_refuted",
    "C23_computed_name_refuted",
    "C23_found_twice_refuted",
    "C23_directory_refuted",
    "C23_name_lost_refuted"
   ],
   "note": "false as stated: nine refutations (two of them for whole makefiles: endings found twice, and sources in a directory named by a variable, where the names of the files are lost); the exact behaviour for all values is proved (a stem that goes over a boundary between pieces is cut), and the cases in which the documented result is produced; C50_objects gives the usual SRCS/OBJS idiom from text to rule"
  },
  {
   "property": "C24",
   "status": "proved",
   "theorems": [
    "C24_unquote",
    "C24_stops_at_first_unquoted",
    "C24_unquote_to_end"
   ],
   "note": "for ASCII text; NUL as stop character (file lists) treated separately with the exact treatment of trailing backslashes"
  },
  {
   "property": "C25",
   "status": "proved",
   "theorems": [
    "C25_logical_line",
    "C25_every_text_has_a_line",
    "C25_line_before_comment"
   ],
   "note": "exact for texts without '#'; with '#' the line is everything before the first '#' (C26)"
  },
  {
   "property": "C26",
   "status": "partial",
   "theorems": [
    "C26_line_ends_at_newline_partial",
    "C26_line_ends_at_newline_refuted",
    "C26_what_is_grabbed"
   ],
   "note": "false in general (refuted: a later '#' joins lines); proved when no '#' follows the first newline, plus exact characterisation"
  },
  {
   "property": "C27",
   "status": "partial",
   "theorems": [
    "C27_crlf_line_partial",
    "C27_crlf_like_lf_refuted",
    "C27_value_refuted",
    "C27_continuation_refuted",
    "C27_endif_refuted"
   ],
   "note": "false (refuted); exact: the carriage return stays at the end of each line, so at the end of every value; a backslash before it does not continue the line; else and endif before it end the program"
  },
  {
   "property": "C28",
   "status": "proved",
   "theorems": [
    "C28_parse_follows_grammar",
    "C28_plain_text",
    "C28_text_with_references",
    "C28_substitution_reference",
    "C28_dollar",
    "C28_text_after_call_refuted",
    "C28_nested_panics_refuted"
   ],
   "note": "Parsing follows the grammar for every span; plain text, $$, $c, $(name) and, in text that is tidy (a file and its logical lines), $(name:key=repl) evaluate to what they mean with all text around kept. Two findings: text after a function call is dropped; on text collected from several expansions parsing may panic."
  },
  {
   "property": "C29",
   "status": "partial",
   "theorems": [
    "C29_variable_partial",
    "C29_one_character",
    "C29_function_prefix_refuted",
    "C29_braces_refuted"
   ],
   "note": "Names that do not begin with a function name are variables. False of the code for names that begin with one and for braces (refuted)."
  },
  {
   "property": "C30",
   "status": "proved",
   "theorems": [
    "C30_line_shortens",
    "C30_number_of_steps",
    "C30_loop_ends",
    "C30_processing_is_steps"
   ],
   "note": "ASCII makefiles; the loop ends if evaluation and includes do (variable recursion is C22)"
  },
  {
   "property": "C31",
   "status": "partial",
   "theorems": [
    "C31_nesting",
    "C31_ignoring_partial",
    "C31_after_opening_partial",
    "C31_as_kept",
    "C31_endif_refuted",
    "C31_after_endif_refuted"
   ],
   "note": "Nesting holds for all histories; the ignored flag is right unless an endif ends a branch that is not taken, where the code fails (finding)"
  },
  {
   "property": "C32",
   "status": "partial",
   "theorems": [
    "C32_ignored_line_partial",
    "C32_define_apart",
    "C32_directive_partial",
    "C32_eval_refuted",
    "C32_recipe_refuted",
    "C32_recipe_moves_refuted"
   ],
   "note": "Holds for lines that are neither recipe lines nor conditionals with eval; both exceptions are findings"
  },
  {
   "property": "C33",
   "status": "partial",
   "theorems": [
    "C33_define_partial",
    "C33_joined_refuted",
    "C33_comment_refuted",
    "C33_endef_refuted"
   ],
   "note": "bodies without #, with tabs, carriage returns and backslashes: collected verbatim up to the matching endef, never executed; the joined-by-newlines claim is refuted (last newline kept), and so are bodies with # lines"
  },
  {
   "property": "C34",
   "status": "proved",
   "theorems": [
    "C34_operator_recognised",
    "C34_nothing_else"
   ],
   "note": "both directions"
  },
  {
   "property": "C35",
   "status": "partial",
   "theorems": [
    "C35_overwrites_refuted",
    "C35_one_value"
   ],
   "note": "the claim is false of the code, for every name and values: ?= always overwrites"
  },
  {
   "property": "C36",
   "status": "partial",
   "theorems": [
    "C36_texts_refuted",
    "C36_lines_refuted",
    "C36_ifdef_anywhere_refuted",
    "C36_unclosed_anywhere_refuted", "C36_unclosed_rule_anywhere_refuted",
    "C36_empty_simple_assignment_refuted",
    "C36_ifdef_refuted",
    "C36_target_variable_refuted",
    "C36_static_pattern_refuted",
    "C36_export_refuted",
    "C36_override_refuted",
    "C36_strip_refuted",
    "C36_keyword_name_refuted",
    "C36_brace_refuted",
    "C36_continued_target_refuted",
    "C36_calm_partial"
   ],
   "note": "The code violates this property. C36_texts_refuted and C36_lines_refuted: every makefile in which one of the listed lines is reached panics, whatever precedes and follows it (among them assignments, recipe lines, include lines, conditions, define bodies, dependencies and commands of rules with a reference that is not closed); ten single kinds are shown besides. Makefiles written from well-formed statements that are calm (ranked references, non-empty :=, no colon in dependencies, quiet bodies, includes resolved; substitution references, computed names and targets, quoted conditionals included) are always read"
  },
  {
   "property": "C37",
   "status": "partial",
   "theorems": [
    "C37_recorded_partial",
    "C37_last_rule_refuted",
    "C37_included_refuted"
   ],
   "note": "Every rule but the last of a file is recorded; the last is lost (finding)"
  },
  {
   "property": "C38",
   "status": "partial",
   "theorems": [
    "C38_never_reported_refuted",
    "C38_errors_panic_refuted",
    "C38_unmatched_refuted",
    "C38_malformed_refuted",
    "C38_io_errors_partial"
   ],
   "note": "The code violates this property: parse errors always panic, never are returned; and a malformed conditional is not an error at all but read as an ordinary line"
  },
  {
   "property": "C39",
   "status": "partial",
   "theorems": [
    "C39_separator_refuted"
   ],
   "note": "the claim is false of the code: no line of words is ever reported"
  },
  {
   "property": "C40",
   "status": "proved",
   "theorems": [
    "C40_words",
    "C40_quoted_words",
    "C40_every_text_has_words"
   ],
   "note": "words of plain text; quoted words exactly, including trailing backslashes"
  },
  {
   "property": "C41",
   "status": "partial",
   "theorems": [
    "C41_colon_partial",
    "C41_drive_colon_refuted",
    "C41_what_is_found",
    "C41_every_text_has_a_result"
   ],
   "note": "false (refuted: characters exchanged in the drive test); proved when no colon is followed by a slash, plus exact characterisation"
  },
  {
   "property": "C42",
   "status": "partial",
   "theorems": [
    "C42_files_in_order",
    "C42_missing_panics_refuted",
    "C42_missing_anywhere_refuted"
   ],
   "note": "Order and skipping hold; the error for a missing file is a panic (finding), after any statements"
  },
  {
   "property": "C43",
   "status": "proved",
   "theorems": [
    "C43_visits_each_node_once",
    "C43_callback_follows"
   ],
   "note": ""
  },
  {
   "property": "C44",
   "status": "partial",
   "theorems": [
    "C44_recipe_partial",
    "C44_hash_refuted"
   ],
   "note": "recipe lines without #, with tabs, carriage returns and backslashes (commands over several lines: C56); with a later # the recipe is lost"
  },
  {
   "property": "C45",
   "status": "proved",
   "theorems": [
    "C45_every_target_defined"
   ],
   "note": "the recipe-less clause needs pairwise different targets; a repeated one is extended twice, as C15 says"
  },
  {
   "property": "C46",
   "status": "proved",
   "theorems": [
    "C46_rule_bookkeeping"
   ],
   "note": ""
  },
  {
   "property": "C47",
   "status": "partial",
   "theorems": [
    "C47_comment_extent_partial",
    "C47_comment_ends_with_its_line_refuted",
    "C47_hides_refuted"
   ],
   "note": "false in general (refuted); exact extent proved: up to the end of the logical line with the last '#' of the text"
  },
  {
   "property": "C48",
   "status": "proved",
   "theorems": [
    "C48_reading_keeps_consistent"
   ],
   "note": "ASCII makefiles"
  },
  {
   "property": "C49",
   "status": "proved",
   "theorems": [
    "C49_makefile_means",
    "C49_meaning_unique"
   ],
   "note": "full functional refinement from text: runs (MakeSpec) is a line-by-line semantics on located characters, substitution references and evaluated text included; the engine computes it, for every file system and nesting of includes. Lines on which the code panics have no meaning in runs (they are in CrashSpec)."
  },
  {
   "property": "C50",
   "status": "proved",
   "theorems": [
    "C50_statements",
    "C50_all_branches",
    "C50_lines",
    "C50_objects"
   ],
   "note": "string-level semantics of statements (does_all: what a reader expects; acts_all: what the code does with every conditional), with substitution references, computed names of variables, computed targets, first commands after a semicolon, conditionals with parentheses or quotes, and assignments over several lines; C50_lines: continued assignments with every operator; C50_objects: the SRCS/OBJS idiom for every list of sources, on one line, on several lines, or added to with +="
  },
  {
   "property": "C51",
   "status": "partial",
   "theorems": [
    "C51_next_word",
    "C51_one_way",
    "C51_nothing_lost",
    "C51_quoted_last_refuted"
   ],
   "note": "Every text is cut as specified, in exactly one way, without loss. A quoted character that ends the text is cut off its word (refuted): 'a\\:' alone on a line becomes a rule."
  },
  {
   "property": "C52",
   "status": "partial",
   "theorems": [
    "C52_assignment_partial",
    "C52_rule_refuted",
    "C52_reference_refuted",
    "C52_quoted_reference_refuted",
    "C52_several_lines_refuted"
   ],
   "note": "An assignment of plain text in $(eval ...) acts like the assignment itself, in every makefile written from statements. Rules in evaluated text are lost; text with references, $$ or several lines crashes (refuted)."
  },
  {
   "property": "C53",
   "status": "partial",
   "theorems": [
    "C53_sequence",
    "C53_statements",
    "C53_stops",
    "C53_pieces_partial",
    "C53_last_rule_refuted"
   ],
   "note": "Sequences of calls (with failing readers) behave as specified, for texts and for statements, and panics propagate. Cutting a makefile into pieces changes nothing if no rule is open at the cut; otherwise the rule is lost (refuted)."
  },
  {
   "property": "C54",
   "status": "partial",
   "theorems": [
    "C54_statements",
    "C54_rule",
    "C54_session",
    "C54_enough",
    "C54_needed",
    "C54_chain",
    "C54_now_refuted",
    "C54_name_refuted",
    "C54_condition_refuted",
    "C54_target_refuted"
   ],
   "note": "Dependencies, values and recipe lines name exactly the variables looked up, for all statements, in one makefile or several (C54_statements, C54_session, C54_rule; for all texts see C49_makefile_means, whose conclusion includes the sensitivities). Missing: the code forgets the variables on the right of :=, those in computed names of variables, those of conditions and those of targets (refuted)."
  },
  {
   "property": "C55",
   "status": "partial",
   "theorems": [
    "C55_ascii_partial",
    "C55_mark_refuted",
    "C55_mark_lines_refuted",
    "C55_value_refuted",
    "C55_last_letter_refuted",
    "C55_comment_refuted"
   ],
   "note": "true for ASCII texts without a byte order mark (C49); the code violates the rest: see the refuted theorems"
  },
  {
   "property": "C56",
   "status": "partial",
   "theorems": [
    "C56_commands_partial",
    "C56_no_tab_refuted"
   ],
   "note": "next lines with a tab and at least one more character; the code violates the property for next lines without a tab"
  }
 ]
}
