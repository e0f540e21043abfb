# A Rocq model of hastur

hastur is a parser and evaluator for GNU-make files. Input text, after variable
expansion, is kept as a tree of *evaluated nodes*; parsers (nom 4.2) run over
*spans* of that tree, so every consumed piece of text can be traced to its origin
and to the variables it depends on ("sensitivity").

## Architecture of the model

* Everything executable is a total Gallina function. Rust panics (`assert!`,
  `unwrap`, index out of bounds, usize underflow in the debug profile,
  `unimplemented!`) are an explicit result `Panic`. Recursion that is not
  structural takes fuel and yields an explicit `OutOfFuel`.
* `theories/*Model*.v` : the model, function by function, each definition citing
  the file and lines it models. No proofs there.
* `theories/*Spec*.v` : small specifications, independent of the model's helpers.
* `theories/*Proofs*.v` : lemmas.
* `theories/Prop*.v` : the property theorems, each closed by `exact`, with
  `Print Assumptions` beneath.
* `theories/ModelTests.v` : unit tests of the repository replayed on the model by
  `vm_compute` (tests, not proofs; they validate the model).
* A property the code violates is recorded as a theorem with suffix `_refuted`
  that exhibits a concrete failing input (or states the failure for all inputs of
  a kind), next to the strongest true part.

The layers, from the bottom up, with their files:

| layer | model | specification | theorems |
|---|---|---|---|
| located text | `LocModel` | `LocSpec` | `PropLoc` (C10, C11) |
| evaluated nodes, spans, nom traits | `EvdModel`, `NomModel` | `EvdSpec`, `CutSpec` | `PropEvd` (C01-C09), `PropCut` (C07), `PropSlice` (C09) |
| names, variables, rules, visitor | `AstModel` | `DbSpec` | `PropDb` (C12, C13, C15, C43, C45, C46) |
| lines, tokens, comments, file lists | `ParseModel` | `ParseSpec` | `PropParse` (C24-C27, C40, C41, C47) |
| evaluation | `EngineModel` (`eval_fuel`) | `EvalSpec` | `PropEval` (C14, C16-C23) |
| expressions, assignments | `AstParseModel` | `AstParseSpec` | `PropAst` (C28, C29, C34) |
| line parser, engine | `EngineModel` | `EngineSpec` | `PropEngine` (C30-C33, C35-C39, C42, C44, C48) |
| words of rule lines | (the same) | `WordSpec` | `PropWord` (C51) |
| whole makefiles as texts | (the same) | `MakeSpec`, `CrashSpec` | `PropMake` (C49), `PropCrash` |
| whole makefiles as statements | (the same) | `WriteSpec`, `StopSpec` | `PropWrite` (C50 and others), `PropNest` (C52), `PropCrash` |
| several makefiles, one after the other | (the same) | `SessionSpec` | `PropSession` (C53) |
| sensitivities of whole makefiles | (the same) | `MakeSpec`, `WriteSpec` | `PropSens` (C54) |
| makefiles with characters outside ASCII | (the same) | `EngineSpec`, `MakeSpec` | `PropUtf8` (C55) |

## Plan per property

| id | property | what is modelled and how it is proved |
|---|---|---|
| C01 | Slicing an evaluated span yields exactly that substring | Model.Evaluated/Model.Nom: spans as (parent, suffix of contents, offset, length), revalidate_offset loop with panics. Spec: text of a node tree by structural recursion, `firstn`/`skipn`. Induction over contents; well-formedness invariant preserved. |
| C02 | Turning a span into a block, simplifying and appending never change text | simplify as a structurally recursive function with explicit panics; prove no panic and text equality by mutual induction on node/block/reference; to_new_block/push_all_contents by induction over contents. |
| C03 | Substring search finds the first occurrence | ring-buffer loop modelled literally over bytes with buffer as a list and modular indices; invariant: buffer rotated at buffer_start = last |needle| bytes. Spec: first index where needle is a prefix of the suffix. |
| C04 | Prefix comparison | zip/position model; spec with `prefix` relations. |
| C05 | Character iteration with byte indices | char stream model with remaining_bytes underflow as panic; spec: index/char pairs of plain text. |
| C06 | Segments of a span cover its text, in order | segments iterators modelled as lazy lists ending in Done or Boom; prove by induction that if it ends in Done the concatenation is the text. |
| C07 | Asking for a span's location or segments never crashes | expected false (`<` instead of `<=`): refuted theorem with witness; exact condition for all trees (CutSpec: which characters begin a piece, which cuts are read on the way), by induction over trees; text without references never panics. |
| C08 | Offset inverts slicing | expected false across pieces: refuted + exact characterisation and partial theorem within the first piece. |
| C09 | Non-ASCII text is preserved | refuted with witness for slices; positive theorem for unsliced text; exact result of every slice of a source text, by induction over the text. |
| C10 | Locations form a partial order that never relates different files | Location order as a function to option comparison; order laws by case analysis. |
| C11 | Slicing located text gives the location of the first kept character | Located::slice model; spec counts newlines / chars since last newline. |
| C12 | Variable-name interning is injective and stable | interner as an append-only list of strings; invariant NoDup; histories = list of operations. |
| C13 | Variable store: last write wins, others untouched | database as association lists, operation histories; last-write-wins by induction over histories. |
| C14 | += appends after one space | append_to_variable model + evaluator; theorem about the evaluator's text. |
| C15 | Rule accumulation | from_protorule model and history induction. |
| C16 | Sensitivity is sound (non-interference) | fuel-indexed evaluator; two-run induction. |
| C17 | Sensitivity contains every variable that was looked up | induction on the evaluator, with an independent relation 'variable n is dereferenced'. |
| C18 | Evaluation without $(eval) does not modify the database | induction on the evaluator. |
| C19 | Collapsing concatenations does not change meaning | list induction. |
| C20 | Simple variables are frozen, recursive variables track later changes | theorems on assignment action + later histories. |
| C21 | Undefined variables expand to nothing | one-step theorem for all databases and name expressions. |
| C22 | Acyclic definitions terminate, self-reference does not | fuel monotonicity, ranking ⇒ exists fuel; self-reference ⇒ all fuel exhausted. |
| C23 | Substitution references | do_subref/do_replacement model; partial + refuted witnesses. `C23_what_happens` is exact for all values (`cut_substituted`): stems are cut at the last boundary between pieces. The documented result is proved for values in which no word goes over from one piece to the next (`words_whole`): one line, several lines, lists added to, references with blanks around them. The same relation is used for expressions (`pieces_of`, C17), parsed text (C28), located texts (`MakeSpec`, C49) and statements (`WriteSpec`, C50). `C23_directory_refuted`: sources in a directory named by a variable lose the names of their files. |
| C24 | Backslash unquoting at a stop character | unquote loop model; spec on plain strings. |
| C25 | Line continuation folding | makefile_line model; spec on list of physical lines. |
| C26 | A physical line ends at its newline | expected false if a later '#': refuted + partial theorem when no '#' in the rest. |
| C27 | Windows line endings | false; refuted for every value, for every continued line and for every conditional (`PropCrlf`); what stays true is how the text is divided into lines. |
| C28 | Expression parsing keeps all text | parse_ast model; theorem for '$'-free text and `$$`; refuted after function call. |
| C29 | Only built-in function names call functions | expected false: refuted witnesses + partial positive. |
| C30 | Line processing always makes progress | progress lemma per line parser; ranking on remaining length. |
| C31 | Conditional nesting decides which lines are active | conditional stack model; refuted after endif; exact partial. |
| C32 | Ignored lines have no effect on variables and rules | parse_line in ignoring state: database unchanged except through ifeq argument evaluation and recipe lines; expected partial/refuted. |
| C33 | define ... endef captures the body verbatim | define handling as state machine; induction over body lines. |
| C34 | Assignment operators are recognised exactly | alt over tags; case analysis. |
| C35 | ?= keeps an existing value | expected false: refuted. |
| C36 | Reading a makefile never crashes | false. Refuted witnesses; then for all makefiles: `CrashSpec` lists the lines that end the program, on texts, `StopSpec` on plain strings, and any makefile in which such a line is reached panics, whatever precedes and follows it. The converse direction is `C36_calm_partial`: makefiles written from calm statements are always read. |
| C37 | The last rule of a file is recorded | expected false: refuted + partial (rules closed by a later line are recorded). |
| C38 | Parse errors are reported to the caller | false: process_block never returns Err (theorem over all inputs); an unmatched `else` or `endif` after any statements panics; `ifeq` without its arguments is read as an ordinary line. |
| C39 | A line that is neither rule, assignment nor directive is an error | expected false: refuted. |
| C40 | File lists split at blanks | parse_file_seq model; spec split at blanks. |
| C41 | Drive letters do not end the target list | expected false (swapped characters): refuted + partial. |
| C42 | include reads files in order and honours '-include' | file system as an oracle; induction over list of names. A missing file panics, after any statements. |
| C43 | The expression visitor sees each node once | visitor model emitting a trace; equals pre-order list. |
| C44 | Recipe lines | recipe_line model and state machine. |
| C45 | Multi-target rules define every target | add_rules loop by induction over targets. |
| C46 | Rule bookkeeping is consistent | invariant over the same histories: keys without repetition, ids resolve to texts, dependency id sets exact. |
| C47 | A comment ends with its line | comment loop model; expected false if a later '#': refuted + exact extent. |
| C48 | Reading a makefile keeps the engine's state consistent | invariant over the engine's mutual recursion (evaluate, read, process). |
| C49 | A makefile means what its lines say | refinement: line-by-line semantics on located characters (`MakeSpec.runs`), simulated by the engine; an executable reading of the semantics (`MakeRun`, proved sound) exhibits concrete runs. |
| C50 | A makefile written from statements means what they say | string-level statement language and big-step semantics (`WriteSpec`), printed to text, with includes, references `$(x:a=b)`, computed names and targets, rules with a first command after a semicolon and commands over several lines, conditionals with parentheses or quotes, assignments continued over several lines (`SLong`, `C50_lines`), and a leading comment; proved through C49. References `$(x:a=b)` have a meaning there for every value: `says_in`/`val_in` give the pieces of a value and `cut_substituted` (C23) what is replaced. `C50_objects` is the SRCS/OBJS idiom for any list of sources, on one line, on several, or added to with `+=` (`ObjectSpec.listed`). `does_all` is what a reader expects and covers conditionals whose last branch is the taken one; `acts_all` is what the code does with all of them (the `endif` bug, C31, C32). `calm_all` (C36) is a condition under which reading never crashes. |
| C51 | The words of a rule line | inductive specification of a word on located characters (`WordSpec.word`), shown to have exactly one solution; the index-based scan of the code follows it. A quoted character at the very end of the text is left out of its word (refuted). |
| C52 | Evaluated text | `$(eval ...)` in `MakeSpec.runs` (text that comes from one place) and as a statement in `WriteSpec`; an assignment in it is shown to act like the line itself at every place of every makefile. Rules in it are lost, text from several places crashes (refuted). |
| C53 | Makefiles one after the other | `SessionSpec.read_each` is a program that calls `read_makefile` again and again; the simulation of C49 starts from the state left by the calls before. Cutting a makefile into pieces is shown to change nothing if no rule is open at the cuts; a rule at the end of a piece is lost (refuted). |
| C54 | Sensitivities name the variables that matter | the specification of makefiles as texts keeps, with every dependency and every `:=` value, the set of variables looked up for it (`looks_up`, defined on texts; `uses`, defined on statements); the simulation proves that the sensitivities recorded by the code name exactly these. `uses` is shown to be enough (equal values of these variables give equal texts) and needed. What the code forgets (right sides of `:=`, computed names, conditions, targets) is stated for all makefiles of a kind (refuted). |
| C55 | Makefiles may contain any UTF-8 text | proved for ASCII texts (this is C49); for others refuted by running the model of the whole engine on makefiles with a byte order mark, an accented letter in a value, and one in a comment: character iterators skip as many characters as the offset has bytes |
| C56 | Commands over several lines | from the run of the model on statements (C50): recipes of the statement language may have continued lines; proved for next lines with a tab; for next lines without a tab refuted, for every such makefile |

## Trusted base

* Coq 8.16.1: its kernel, including the `vm_compute` conversion.
* Axioms: none. `Print Assumptions` stands beneath every property theorem and
  answers "Closed under the global context" for each of them (all theorems of
  MANIFEST.json). Only the standard library is imported.
  (`coqchk -o` also lists the constants of the sealed standard library module
  `Coq.ssr.ssrunder`, which is loaded with the standard tactics; no theorem
  depends on them.)
* The specifications (`*Spec.v`) say what the English says.
* The model is a faithful reading of the Rust source. This rests on the citations
  beside each definition and on `ModelTests.v`, which replays the repository's
  tests on the model.
* What the model assumes about the code it does not contain:
  * nom 4.2: the macros used (`alt!`, `do_parse!`, `many0!`, `take_until!`,
    `add_return_error!`, `return_error!`, ...) behave as the definitions at the
    beginning of `ParseModel`. `at_eof()` is `true` for spans, so `Incomplete`
    is never returned.
  * `im` maps and sets are maps and sets; `string-interner` gives consecutive
    numbers to new strings; `std` iterators, `String` and UTF-8 as documented.
  * The debug profile: overflow of `usize` subtraction panics.
  * Opening and reading a file is an oracle from names to results that does not
    change while a makefile is read.

## What is modelled

Every function of these files, with panics: `source_location.rs`,
`evaluated/{mod,nodes,block_span,content_reference,nom/mod}.rs`,
`ast/{mod,text_functions,visit}.rs`, `eval/mod.rs`,
`parsers/{mod,comment,recipe_line,file_sequence,macros}.rs`,
`parsers/{ast,variable,conditional,targets,directives}/mod.rs`, `lib.rs`.

Simplified (also said beside the definitions):

* line and column numbers are unbounded (Rust: u32), file ids and name ids too;
* `Arc`, `Box`, `Marker` and lifetimes are dropped; blocks are values;
* a parse error carries its kind, not the span and the list of outer errors
  (`error_utils.rs` only rearranges those; the code prints them and panics);
* an `io::Error` is a number;
* evaluation, includes and the mutual recursion between them take fuel; every
  theorem about results holds for all sufficiently large fuel, and divergence is
  "out of fuel for every fuel";
* the working directory that `include` joins to names is part of the oracle.

Not modelled:

* `pattern.rs` (an empty `matches` without callers), `traits.rs`, `types.rs` (no code);
* `Debug`/`Display` output, the text of error messages, logging;
* `vpaths`, `patterned_vpaths` and `get_path_for_filename` (never used or
  `unimplemented!`); `Variable::new_for_target` (no callers, expanding it panics);
* plain accessors (`Rule::target`, `Block::content`, ...): the model reads the field;
* running recipes: hastur does not do so.

Scope of theorems: text is ASCII wherever byte offsets matter (`ascii_files`,
`asciis`, `wf_*`); C03, C09 show what happens otherwise.

## Findings

Each is a theorem about the model (suffix `_refuted` unless named differently).

| what happens | theorem |
|---|---|
| a span that begins at the end of an inner piece cannot be located (panic) | C07_location_panics_refuted, C07_location_panics_iff, C07_segments_panic_iff |
| `offset` ignores the offset in the second span's piece | C08_offset_refuted |
| slicing skips characters where it should skip bytes | C09_sliced_text_refuted, C09_suffix_iff_ascii, C03_non_ascii_refuted |
| located strings compare equal in order although their texts differ | C10_located_order_refuted |
| appending a variable to itself diverges when read | C14_append_self_diverges |
| substitution references: six wrong results or panics | C23_*_refuted |
| `$(dir)file.c` in a list: `$(list:.c=.o)` gives `dir.o`, the file name is lost | C23_name_lost_refuted |
| a later `#` joins all lines up to it | C26_line_ends_at_newline_refuted, C33_comment_refuted, C44_hash_refuted |
| CRLF: the carriage return becomes part of the line, so part of every value; a backslash before it does not continue the line; `else` and `endif` end the program | C27_crlf_like_lf_refuted, C27_value_refuted, C27_continuation_refuted, C27_endif_refuted |
| text after a function call is dropped; nested text panics | C28_text_after_call_refuted, C28_nested_panics_refuted |
| `$(evaluate)` calls eval, `${x}` is not a reference | C29_function_prefix_refuted, C29_braces_refuted |
| `endif` does not end ignoring; everything up to the next conditional is lost | C31_endif_refuted, C31_after_endif_refuted |
| `ifeq` arguments are evaluated in ignored branches (`$(eval)`); recipe lines of ignored rules join the rule before | C32_eval_refuted, C32_recipe_refuted, C32_recipe_moves_refuted |
| the last newline of a define is kept; lines with `#` and words that begin like `endef` | C33_*_refuted |
| `?=` always overwrites | C35_overwrites_refuted |
| `x :=`, `ifdef`, `else ifeq`, `t: x = 1`, `t: d;x=1 cmd`, static patterns, `export`, `override`, `private`, `undefine`, `unexport`, `vpath`, `load`, names that begin with a keyword, `$(strip )`, continued targets, references that are not closed (assignments, recipes, directives, define bodies, conditions, dependencies and commands of rules): panic, wherever the line is | C36_*_refuted |
| the last rule of a file is not recorded | C37_last_rule_refuted, C37_included_refuted |
| parse errors are never returned; they panic | C38_never_reported_refuted, C38_errors_panic_refuted, C38_unmatched_refuted |
| `ifeq`/`ifneq` without its arguments is read as an ordinary line, and ignored | C38_malformed_refuted |
| a line of words is silently ignored | C39_separator_refuted |
| drive letters: the two characters are exchanged | C41_drive_colon_refuted |
| a missing include panics | C42_missing_panics_refuted, C42_missing_anywhere_refuted |
| a rule in `$(eval ...)` is lost; text with references, `$$` or several lines crashes | C52_rule_refuted, C52_*_refuted |
| the last rule of every makefile of a sequence is lost, whatever comes before it | C53_last_rule_refuted |
| `:=` forgets the variables of its right side: a dependency that comes from them does not name them | C54_now_refuted |
| the variables of a condition, of a target, and of a computed name are named nowhere in the rule | C54_condition_refuted, C54_target_refuted, C54_name_refuted |
| after a byte order mark, lines end two characters too early and later lines are misread; an accented letter in a value swallows the rest of the makefile or panics; one in a comment panics | C55_mark_refuted, C55_mark_lines_refuted, C55_value_refuted, C55_last_letter_refuted, C55_comment_refuted |
| a recipe line ending in a backslash is not continued by a next line without a tab: that line is read as makefile syntax and the command ends in the backslash | C56_no_tab_refuted |
| a comment swallows everything up to the line of the last `#` | C47_comment_ends_with_its_line_refuted, C47_hides_refuted |

## Wrong programs

`seeded/LOG.jsonl` records edits of the model that a realistic bug would make, the
theorems that failed, and the theorems that were tightened when none did.
