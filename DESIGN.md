# Formal model of dynamicprompts: design

This file says what is modelled, how each property of `properties.jsonl` is
proved, what was found to be false of the code, and what has to be trusted.

## Layout (`rocq/theories`)

| directory | content |
|---|---|
| `Model/` | executable Gallina transcriptions of the Python functions; every definition cites file and lines in /repo; no proofs of properties |
| `Spec/` | small declarative specifications, written without the model's helpers |
| `Proofs/` | lemmas |
| `Properties/` | only final theorems (`exact lemma`), concrete instances showing that hypotheses can be met, and `Print Assumptions` |
| `Tests/` | the project's own tests (`/repo/tests`) and their data files, run on the model: expected results checked by computation |

`seeded/LOG.jsonl` records the wrong programs the theorems were tested against.

## Modelling decisions

* **Strings** are lists of Unicode code points (`list N`).  Whitespace is
  Python's `str.isspace` set, spelled out.  `str.isalnum` needs the Unicode
  database and is a parameter of the theorems that mention it.
* **Exceptions** are values (`exn`).  No function is partial.
* **Generators** are defunctionalised: a suspended Python generator is a value
  of an inductive type (one constructor per suspension point), and
  `next fuel g r` resumes it, returning a yielded text with the new suspended
  state, a stop, an exception, or `OFuel`.  Running out of fuel is never
  confused with a normal answer; theorems quantify over all fuel.
  A `StopIteration` escaping inside a generator body becomes `RuntimeError`
  (PEP 479).
* **Random generator**: an arbitrary state type with arbitrary primitive draws
  (`rng_impl`); draws are reduced into range by the model, so theorems hold
  for every behaviour of a random generator that returns in-range values.
  Theorems quantify over all `rng_impl`.
* **Floats**: weights in commands and items are exact rationals (`Qc`), as
  written.  Wherever weights are added or multiplied by `random()`, each weight
  and each result is rounded to 53 binary digits by `fl`, any function that
  returns a nearest float (`Float.v`, `Rounding`); theorems quantify over it.
  `ieee_round`, ties to even, is proved to be one (C65).  Exponents are
  unbounded: no overflow, underflow, infinities or NaN.  "Sum" and "total" of
  weights in C07 and C53 mean this float sum.
* **Wildcard lookups** inside samplers are a pure function from pattern to
  items.  The manager model (a state machine with caches) proves that this is
  what the manager implements as long as shuffling is off; `Stack.v` makes the
  samplers' environment from parser and manager, justified by C61.
* **Warnings and logging** are not modelled.
* **pyparsing** is not available in the sandbox.  The grammar is transcribed as
  recursive descent following pyparsing 3 semantics: ordered choice, greedy
  repetition, skipping of ignorable comments before each element.

## Trusted base

* Coq 8.16.1's kernel, and `coqc`/`coqchk` running it.
* Axioms: none.  `Print Assumptions` stands after every theorem listed in
  `MANIFEST.json` (in `Properties/*.v`) and answers "Closed under the global
  context" for each of them.  The standard library's axioms are not used.
  `coqchk -o` on all of `Properties/`, which rechecks the model, the proofs and
  the parts of the standard library they load, lists no axioms.  (With `-norec`
  the standard library is loaded unchecked; then seven fields of the module
  type in `Coq.ssr.ssrunder`, which `lia` loads, are listed.)
* That `Model/` says what the Python code does.  The citations in the comments
  are there so that a reader can check this line by line.  `Tests/` adds
  evidence: the expected results of the project's own tests of the parser,
  commands, samplers, wildcards, file reading, variables, wrapping, generators
  and helpers come out of the model when it computes them.  (These are tests of
  the model.  Left out: tests that only count calls of mocks, symbolic links,
  those that need Jinja, spacy or transformers itself, some whose random choices
  are replaced by mocks, and those of shuffling, seeds and feeling lucky.)
* That pyparsing, `random`, `fnmatch`, `re`, `json`, `yaml`, `itertools`, `str`
  behave as modelled; the parts used are written out in `Model/Str.v`,
  `Rng.v`, `Names.v`, `Parser.v`, `Generators.v`.

### Code that is modelled

| Python | model |
|---|---|
| `utils.py`, `sampling_result.py` | `Utils.v`, `Float.v`, `Rng.v` (`choose_without_replacement`), `Sampler.v` (`next_sampler_next_value`, rotation) |
| `enums.py`, `commands/*.py` | `Command.v` |
| `sampling_context.py` | `Context.v`, `Sampler.v` |
| `samplers/{base,random,combinatorial,cycle,command_collection,utils}.py` | `Sampler.v` |
| `parser/{parse,config}.py` | `Parser.v` |
| `wildcards/{utils,item,values}.py` | `Names.v`, `Values.v` |
| `wildcards/collection/*.py` | `TextFile.v`, `Structured.v` |
| `wildcards/tree/*.py` | `Tree.v` |
| `wildcards/wildcard_manager.py` | `Manager.v` |
| `generators/*.py`, the list functions of `jinja_extensions.py` | `Generators.v` |
| which random source generators use; `wildcard`, `random_sample`, `all_combinations` of `jinja_extensions.py` | `Session.v` |

### Code that is not modelled

* pyparsing's error messages and positions; Python's recursion limit and the
  4300-digit limit of `int`; Unicode digits in weights; float overflow and underflow.
* File encodings (`errors="ignore"`), YAML and JSON text syntax (the model
  starts from the parsed value), symbolic links, file system errors other than
  those of `write_text`.
* The language model (`transformers`), spaCy, the Lexica search service, and
  jinja's rendering: arbitrary functions of an arbitrary state.
* Logging, warnings, `__repr__`, dataclass boilerplate other than equality,
  deprecated aliases, type-only modules (`types.py`, `constants.py`).
* `fnmatch` ranges that are empty before a `!`; structured entries whose
  `content` is not a string and not a number are only partly covered.

## Properties, one by one

Statements are in `properties.jsonl`; theorem names are those of `MANIFEST.json`.
"Modelled" names the file of `Model/` and the specification of `Spec/` used.

| id | property | modelled in / specified by | how it is proved | theorems |
|---|---|---|---|---|
| C01 | Plain text passes through the parser verbatim | Parser / Syntax `Plain` | the literal parser is shown to take exactly the text up to the next special character; on plain text that is everything; depth monotonicity (`parsers_up`) makes the result independent of the recursion bound | `C01_plain_text_is_one_literal` |
| C02 | The parser accepts exactly the written syntax, and reads it as the command written | Parser / Syntax `Written` (relation text–tree) | mutual induction over `Written`: each construct's parser returns the tree and leaves the rest untouched; conversely, induction on the grammar's depth: whatever a construct's parser consumed is a way to write what it returned; unambiguity follows because parsing is a function | `C02_written_templates_parse_back`, `C02_parser_accepts_exactly_the_syntax`, `C02_writing_is_unambiguous`, `C02_tabs_are_blanks`, `C02_parser_accepts_exactly_the_syntax_with_tabs` |
| C03 | Parsing always terminates with a command or a parse error | Parser / – | well-founded argument: every nested call of the grammar consumes at least one character, so a depth equal to the text length suffices; outcome enumeration by inversion | `C03_parsing_ends`, `C03_depth_is_enough`, `C03_the_other_exception_occurs` |
| C04 | Comments do not influence the result | Parser / Syntax `BeforeComment` | induction over the skipping of ignorable text; the parser's result factors through the text after the comment | `C04_comment_text_is_irrelevant`, `C04_comment_leaves_no_trace`, `C04_final_comment_leaves_no_trace` |
| C05 | Variant bounds are always normalised | Command `adjust_range` / – | case analysis and `lia` | `C05_bounds_normalised`, `C05_clamp_in_range`, `C05_clamp_keeps_valid`, `C05_clamp_keeps_order` |
| C06 | Multi-choice enumeration lists every ordered selection exactly once | Command `get_value_combinations` / Comb `Selection`, `Before`, `falling` | induction on the size of the selection; counting by falling factorial | `C06_combinations_are_the_selections`, `C06_each_selection_once`, `C06_in_order`, `C06_count`, `C06_empty_selection` |
| C07 | Random multi-choice draws without replacement | Rng `choose_without_replacement` / Text, StreamRng (examples) | invariant of the drawing loop: drawn positions and remaining positions partition the option list | `C07_draw_without_replacement`, `C07_failure`, `C07_success_with_positive_weights` |
| C08 | An option of weight zero is never the first pick | Rng `choices` / – | cumulative-weight search returns an interval of positive width; later picks refuted by a computed run | `C08_first_pick_has_positive_weight`, `C08_later_picks_refuted` |
| C09 | Remaining options keep their own weights during a multi-choice draw | Rng, one step of the loop / – | exact condition for one step; equal weights by invariant; refuted in general by a computed run | `C09_step_keeps_pairing_iff`, `C09_equal_weights_keep_pairing`, `C09_pairing_refuted` |
| C10 | De-duplication keeps the first occurrences in order | Utils `dedupe` / Text | induction over the input with the set of texts seen | `C10_dedupe_no_repeats`, `C10_dedupe_same_elements`, `C10_dedupe_first_occurrence_order`, `C10_dedupe_idempotent`, `C10_dedupe_identity_on_distinct` |
| C11 | Joining partial results never leaves dangling separators | Utils / Text | string algebra on `removeprefix`/`removesuffix` | `C11_joined_drops_outer_separators`, `C11_joined_single_untouched`, `C11_joined_empty_separator`, `C11_joined_exact`, `C11_overlapping_separator_refuted` |
| C12 | Whitespace squashing yields a normal form | Utils / Text | induction over the text; words are specified as maximal runs without white space | `C12_sampled_prompts_are_squashed`, `C12_squash_keeps_words`, `C12_words_exist`, `C12_squash_normal_form`, `C12_normal_form_shape`, `C12_squash_idempotent`, `C12_squash_fixes_normal_forms` |
| C13 | Wrapping splits at the first marker | Utils / Text | induction over the text; uniqueness of the cut from the specification alone | `C13_wrap_cuts_at_first_marker`, `C13_cut_is_unique` |
| C14 | Every generated prompt belongs to the template's language | Sampler (all samplers) / Lang `Allowed` (`Produces`, `Body`, `Void`) | invariant of suspended generators (each suspended state only has allowed continuations), preserved by every resume step; induction on fuel | `C14_every_prompt_is_allowed` |
| C15 | Combinatorial sampling enumerates the whole cartesian product in order | Sampler / Enum `Enum` | mutual induction over Enum: the suspended combinatorial generator is related to the list of prompts still to come; contexts up to the storage of variables (`BindFacts`) | `C15_enumerates_in_order`, `C15_simple_templates_are_enumerated`, `C15_sequence_is_product` |
| C16 | Combinatorial variants do not repeat a selection | Sampler / Enum | the `seen` list of the generator bounds the texts already yielded; the wider claims are refuted by computed runs | `C16_single_choice_has_no_repeats`, `C16_selections_are_not_repeated`, `C16_multi_choice_texts_are_distinct_refuted`, `C16_squashed_texts_are_distinct_refuted` |
| C17 | Combinatorial sampling is deterministic | Sampler / Enum | fuel induction over generators without random or cyclical parts; the random state is threaded unchanged | `C17_combinatorial_runs_use_no_randomness` |
| C18 | The prompt limit is respected and only truncates | Sampler `collect`, `next` / – | fuel monotonicity of `next`, then induction on the limit | `C18_limit_only_truncates`, `C18_at_most_the_requested_number`, `C18_smaller_request_is_a_prefix`, `C18_fuel_is_immaterial` |
| C19 | Random sampling never runs dry | Sampler / – | invariant of endless generators: no reachable state of one answers `stop` | `C19_endless_samplers_do_not_stop` |
| C20 | Cyclical sampling cycles with period n and stays in step | Sampler (cycle) / Cycle | closed form of the k-th state of the cyclical generator, by induction on k | `C20_kth_prompt`, `C20_single_choice`, `C20_variants_stay_in_step`, `C20_no_selection_never_answers`, `C20_equal_options_have_no_pair` |
| C21 | A finite sampler is never used inside an endless one | Context `effective_method` / Lang `resolve` | case analysis, then a reachability invariant of generators | `C21_method_resolution`, `C21_finite_mark_ignored_in_endless_context`, `C21_own_mark_decides`, `C21_nothing_finite_inside_endless` |
| C22 | Random parts do not multiply combinatorial output | Sampler / Enum | counting along the product loop; endless parts are drawn once per prompt | `C22_only_finite_parts_multiply` |
| C23 | Immediate variables have one value everywhere | Sampler, Context / Lang | an immediate assignment leaves a literal in the variable dictionary, and literals generate themselves | `C23_immediate_variable_has_one_value` |
| C24 | Assignment semantics | Sampler `process_variable_assignments` / Lang `Bound` | dictionary algebra (`DictFacts`) over the list of assignments | `C24_assignments_govern_the_whole_sequence`, `C24_unassigned_names_keep_their_meaning`, `C24_preserving_assignment_keeps_defined_names`, `C24_last_lazy_assignment_wins` |
| C25 | Undefined variables | Context `resolve_access` / Lang `Refers` | case analysis of the lookup order | `C25_undefined_variable_is_a_key_error`, `C25_no_value_no_default_no_fallback`, `C25_defined_variable_is_sampled`, `C25_empty_value_counts_as_undefined_refuted` |
| C26 | Variable references never loop | Context `resolve_access`, `for_sampling_variable` / – | each unfolding removes a name from those not yet visited | `C26_resolving_terminates`, `C26_recursive_reference_raises` |
| C27 | A missing wildcard falls back to its written form | Sampler (wildcards) / – | the generator state after yielding the fallback is the state before it | `C27_missing_wildcard_falls_back`, `C27_combinatorial_never_stops` |
| C28 | Wildcard names are normalised safely | Names, Manager / Names `SafeName` | induction over the cleaning passes; the rest by inversion of outcomes | `C28_lookups_stay_inside`, `C28_get_file`, `C28_get_file_rejects`, `C28_clean_result`, `C28_cleaned_name_is_safe`, `C28_safe_name_unchanged`, `C28_clean_outcomes`, `C28_cleaning_idempotent_refuted` |
| C29 | Wrapping wildcard names | Names / Names | string algebra | `C29_wrapped`, `C29_recognised`, `C29_recognised_iff`, `C29_unchanged_when_wrapped`, `C29_idempotent`, `C29_only_missing_wraps`, `C29_clean_inverts`, `C29_clean_inverts_always_refuted` |
| C30 | Wildcard values are exactly the values of the matching collections | Values, Manager / Lookup | permutation and sortedness of the merge of collections | `C30_values`, `C30_nothing_else_nothing_missing`, `C30_multiplicities`, `C30_shuffle_is_a_permutation` |
| C31 | The wildcard cache is transparent | Manager (state machine) / Lookup | invariant over all histories: every cached entry equals a fresh computation; refuted with shuffling and after file writes | `C31_cache_transparent`, `C31_transparent_after_clear`, `C31_same_values_with_shuffling`, `C31_transparent_after_shuffling_refuted`, `C31_transparent_after_write_refuted` |
| C32 | The wildcard cache is bounded | Manager / – | invariant over all histories | `C32_cache_bounded` |
| C33 | The wildcard tree lists exactly what was put in | Tree / Tree | induction over insertions; walking is the inverse of insertion on names without empty components; the map made anew is that list read back | `C33_walk_lists_the_mapping`, `C33_full_names`, `C33_names_distinct`, `C33_any_names_refuted`, `C33_the_tree_maps_the_same`, `C33_made_anew_refuted` |
| C34 | Glob matching | Names `fnmatch`, Tree / Names `Glob` | matcher proved equivalent to a declarative relation by induction on pattern and text | `C34_plain_lookup`, `C34_wrapped_fallback_refuted`, `C34_matcher`, `C34_plain_pattern`, `C34_star`, `C34_fallback_pattern` |
| C35 | Weighted wildcard items repeat by their integer weight | Values, Sampler / Items | counting; `floor` on rationals | `C35_items_repeat_by_integer_weight`, `C35_listing_is_unique`, `C35_light_items_never_occur` |
| C36 | Weighted random wildcard values | Values, Sampler / Items | buffer invariant: everything buffered is an item of positive weight | `C36_random_values_are_items` |
| C37 | Wildcard text files | TextFile / Files | state machine of one collection object; invariant over all interleavings of reads and writes | `C37_values_of_text`, `C37_reads_see_the_last_write`, `C37_read_text` |
| C38 | Structured wildcard files | Structured, Tree / Files | induction over the JSON/YAML value; the collection at a path depends on that path only | `C38_collections`, `C38_entries`, `C38_parts_are_independent`, `C38_list_file`, `C38_registered`, `C38_dotted_directory_refuted` |
| C39 | Later roots override earlier ones | Tree, Manager / Tree | ordered-dictionary update algebra | `C39_last_definition_counts`, `C39_every_definition_has_its_name`, `C39_defined_once`, `C39_prefix`, `C39_empty_prefix` |
| C40 | Batched combinatorial generation is repetition | Generators / Generators | induction on the number of batches | `C40_batches_are_repeated_calls`, `C40_an_exception_stops_the_batches` |
| C41 | One seed per prompt determines the prompt | Generators, Sampler / Seeds | relational invariant: after re-seeding two generator states differ only in parts that are never read; refuted for buffered and cyclical parts | `C41_the_seed_determines_the_prompt`, `C41_refuted_for_weighted_wildcards`, `C41_refuted_for_cyclical_variants`, `C41_refuted_for_immediate_assignments` |
| C42 | Seed arguments are validated and broadcast | Generators / Seeds | case analysis | `C42_one_seed_per_prompt_in_order`, `C42_a_single_seed_is_used_for_all`, `C42_an_integer_is_one_seed`, `C42_other_counts_are_rejected`, `C42_zero_and_the_empty_list_are_no_seed` |
| C43 | Jinja prompt collection | Generators (jinja) / Generators | induction on the number of renderings, for an arbitrary renderer | `C43_jinja_collects_blocks_or_texts` |
| C44 | Blocked magic prompts are regenerated in place | Generators (magic) / Generators | induction on attempts, for an arbitrary model | `C44_blocked_prompts_are_regenerated_in_place`, `C44_one_prompt_per_prompt` |
| C45 | Magic prompts keep the user's prompt | Generators `clean_up_magic_prompt` / – | string algebra | `C45_the_prompt_is_kept` |
| C46 | Attention marks existing text | Generators (attention) / Generators | induction over prompts; rounding arithmetic over rationals | `C46_existing_text_is_marked`, `C46_chunks_occur`, `C46_refuted_for_fine_bounds` |
| C47 | The alphanumeric shortcut agrees with the grammar | Parser / – | both sides are shown to be the same literal; refuted for wraps made of letters | `C47_shortcut_agrees`, `C47_letters_as_wrap_refuted` |
| C48 | A lone wildcard inside a variant behaves like the list of its values | Sampler `wildcard_to_variant` / Items | the generator started for the lone wildcard is the one started for the variant of its values | `C48_lone_wildcard_is_its_values` |
| C49 | Scanning a wildcard directory finds exactly the visible files | Tree (directory scan) / Files | induction over the directory tree | `C49_scan`, `C49_text_collections_are_visible_files`, `C49_text_files_found`, `C49_last_file_counts` |
| C50 | Magic continuations contain no braces | Generators / – | characterwise invariant of the clean-up passes | `C50_no_braces_are_added` |
| C51 | Template permutations are all selections in order | Generators `permutations` / Comb | induction on the size of the selection | `C51_permutations_lists_every_selection`, `C51_negative_sizes_are_rejected` |
| C52 | Feeling lucky returns found prompts | Generators / Generators | case analysis of the calls | `C52_feeling_lucky` |
| C53 | Template choices return listed items | Generators, Rng / – | cumulative-weight argument as for C08 | `C53_choice_returns_an_item`, `C53_choice_of_nothing_fails`, `C53_weighted_choice_avoids_zero`, `C53_weighted_choice_succeeds`, `C53_weighted_choice_fails_without_weight`, `C53_total_is_positive` |
| C54 | Generators return allowed prompts in the requested number | Generators / Lang | C14 and C18 lifted to the generators' loops | `C54_random_without_seeds`, `C54_random_with_seeds`, `C54_combinatorial`, `C54_dummy` |
| C55 | Endless sampling serves every request | Sampler, Generators / Sure, Lang | every generator of such a template is shown to answer for all large enough fuel, by mutual induction over Sure; hanging by induction on the fuel | `C55_endless_templates_never_fail`, `C55_every_request_is_served`, `C55_too_few_options_hang`, `C55_refuted_for_negative_bounds` |
| C56 | Random sampling can draw every allowed prompt | Sampler, Rng / Draws, Lang | mutual induction over Draws building the list of raw draws; allowed texts of fair templates are drawable by induction over Produces; converse from C14 | `C56_drawable_prompts_are_drawn`, `C56_fair_templates_reach_every_allowed_prompt` |
| C57 | Parsed templates are well formed | Parser / Shape | an invariant of every parser function, by induction on the depth of the recursive grammar; no hypothesis on the configuration | `C57_parsed_commands_are_well_formed` |
| C58 | Everyday templates are served, from text to prompts | Parser, Sampler, Generators / Everyday, Lang | Everyday and the shape of C57 give Sure of C55, by induction over Everyday with the set of known variables; allowed by C54 | `C58_everyday_templates_are_served` |
| C59 | Plain text generates itself | Parser, Sampler, Generators / Syntax, Choices | C01, C55 and C54 composed; combinatorial case from C60 | `C59_plain_text_is_its_own_prompt`, `C59_plain_text_is_listed_once` |
| C60 | The combinatorial generator returns the whole list, in order | Parser, Sampler, Generators / Enum, Choices | the enumeration of C15 through islice and the generator's loop; one-choice templates by induction over the command | `C60_combinatorial_generator_lists_all`, `C60_one_choice_templates_list_their_choices` |
| C61 | The wildcard manager answers like a fixed function during sampling | Manager, Stack / Tree | the cache invariant of C31 with the flags shown unchanged by questions | `C61_answers_are_fixed` |
| C62 | A combinatorial run over a text file's wildcard lists the file's values | Parser, Tree, Manager, Stack, Sampler, Generators / FileWildcard, Enum | C02 for the template, C01 for name and lines, C49 and C39 for the tree, C30 for the lookup, then C60 | `C62_file_wildcard_combinatorial` |
| C63 | A random run over a text file's wildcard returns values of the file, and can return each | Parser, Tree, Manager, Stack, Sampler, Generators / FileWildcard, Draws | lookup as in C62; allowed texts of the wildcard computed from Lang; served by C58; reached by C56 | `C63_file_wildcard_random`, `C63_every_value_can_be_drawn` |
| C64 | A cyclical wildcard goes through a text file's values in order | Parser, Tree, Manager, Stack, Sampler, Generators / FileWildcard, Cycle | lookup as in C62; Cycle of C20 carried through islice and the seeded loop | `C64_file_wildcard_cyclical` |
| C65 | Weighted choice under float rounding | Float, Rng / Comb (float_sum) | bisection invariant on running sums; random() times the total stays below the total by the gap below a float; ieee_round nearest by case analysis on the scaled integer part | `C65_ieee_rounds_to_nearest`, `C65_floats_are_kept`, `C65_rounding_keeps_order`, `C65_relative_error`, `C65_draw_is_the_stretch_hit`, `C65_absorbed_weight_is_never_drawn`, `C65_every_positive_weight_drawn_refuted`, `C65_order_free_sum_refuted` |
| C66 | Endless parts of a combinatorial sequence advance once per prompt | Sampler / Enum, Cycle, Select | invariant on the collection: after j prompts it holds the value number j*d of each of its endless parts; induction over the tokens from the right, then over the product | `C66_endless_parts_after_assignments`, `C66_endless_parts_advance_once_per_prompt` |
| C67 | An option's share of the random numbers is its share of the weights | Rng, Float, Sampler / Share, Cycle | rounding is monotone, so the numbers below a cut are an initial segment; rounding to nearest keeps the cut within one number of the float share; relative error of float sums by induction; the run by following one choice through the sampler | `C67_draws_follow_the_cuts`, `C67_true_shares`, `C67_exact_shares`, `C67_each_options_share`, `C67_random_choices_follow_the_cuts` |
| C68 | Generators draw from their own random source, or all from the shared one | Session, Generators / Session | invariant relating generators and sources to the list of creations; induction over the program; equal dialogues by determinism | `C68_own_source`, `C68_shared_source`, `C68_same_seed_same_prompts`, `C68_unlinked_seed_is_ignored`, `C68_seeds_forget_the_past`, `C68_unlinked_generators_are_independent_refuted` |
| C69 | Generator functions of Jinja templates | Session, Generators, Stack / Enum, FileWildcard, Lang | from C54, C58, C60 and C62, with the cap as the limit | `C69_wildcard_lists_the_file`, `C69_all_combinations_lists_all`, `C69_random_sample_is_allowed`, `C69_random_sample_is_the_generators`, `C69_random_sample_answers`, `C69_random_sample_of_nothing` |
| C70 | What is written to a wildcard file is what later lookups find | Manager, Tree, TextFile / Write, Lookup, FileWildcard | the map of the tree does not depend on contents of .txt files; invariant 'the tree agrees with the files, and only asked wildcards are cached' over all operations including writes | `C70_write_rewrites_one_file`, `C70_other_files_are_untouched`, `C70_new_questions_see_the_writes`, `C70_one_folder`, `C70_written_values_are_found`, `C70_two_names_refuted` |
| C71 | A new manager looks where it was told to, sorts and removes duplicates | Manager / Lookup | from C30 for the manager __init__ makes | `C71_new_manager`, `C71_two_roots_are_refused`, `C71_no_roots_no_values`, `C71_folder` |
| C72 | Which language model and device a MagicPrompt generator uses | Magic / Magic | invariant over histories: class attributes and instances hold the pipeline of the streak of equal requests; induction over the calls | `C72_uses_the_pipeline_of_the_first_call`, `C72_nothing_after_a_failed_load`, `C72_uses_the_model_asked_for`, `C72_one_load_for_each_change`, `C72_model_name`, `C72_a_made_generator_works_refuted`, `C72_device_asked_for_refuted`, `C72_reported_name_refuted` |
| C73 | Shuffling can give every order of the values, each in exactly one way | Manager, Rng / Shuffle, Lookup | the shuffle as a function of its draws; induction over the rounds: the draw of a round is the position of the value that ends there | `C73_same_draws_same_order`, `C73_each_order_in_one_way`, `C73_series_of_draws`, `C73_values_are_not_looked_at`, `C73_lookups_give_every_order` |
| C74 | Earlier parses do not change later ones | ParserCache, Parser | invariant: every cached parser behaves like a new one for its key | `C74_earlier_parses_do_not_matter` |
| C75 | Commands made in code are those made by the parser | Build, Parser, Command / Build, Syntax | the options are a written variant in the sense of C02; the rest by cases | `C75_variants_as_written`, `C75_default_weights`, `C75_variant_fields`, `C75_literals_added`, `C75_only_literals_are_added`, `C75_sequences_of_texts_and_commands`, `C75_cross`, `C75_values_added` |
| C76 | What the clean-up of magic prompts changes | Generators / Regex, CleanUp | each hand-written matcher finds the longest match of its pattern and fails only where there is none; longest matches are unique, so the whole result is | `C76_cleaned_up_as_the_patterns_say`, `C76_only_the_added_text`, `C76_other_texts`, `C76_pairs_of_parentheses_refuted`, `C76_every_phrase_gets_its_weight_refuted`, `C76_bangs_at_the_end_refuted` |
| C77 | The numbers that decide a random prompt | Sampler, Rng / Rolls, Draws, Seeds | forward: mutual induction over Rolls running the sampler; back: strong induction on fuel over every branch of next, inverting each draw into the rule that allows it; determinism from the forward direction; runs with the state invariant of C41 | `C77_the_first_prompt_is_rolled`, `C77_rolled_prompts_are_given`, `C77_the_source_decides`, `C77_every_prompt_is_rolled` |
| C78 | The phrases the attention generator may mark | Generators / Phrases, Files | the splitter is run along a derivation of Pieces; every text has one, by induction on its length; the keep test is compared character by character with the list of punctuation | `C78_chunker_gives_the_phrases`, `C78_prompts_without_phrases_stay`, `C78_phrases_are_bare` |
| C79 | A combinatorial run that ends has given exactly the allowed prompts | Sampler, Context / Exhaust, Lang | a run that ends is a list of steps measured by the fuel used in all; by induction on it every loop (sequence, selection, wildcard, wrap) has run its parts to the end; then induction over Produces; the other half is C14 | `C79_ended_runs_are_exhaustive`, `C79_runs_agree`, `C79_simple_templates` |
| C80 | Other braces around variants | Parser / Braces, Syntax | a relation between the results of each parser function on a text and on the exchanged text, kept by every combinator, then induction on the recursion depth; for the negative part, what follows an option text begins with one of its end characters, which the closing mark is not | `C80_other_braces_mean_the_same`, `C80_no_values_with_other_braces`, `C80_no_wraps_with_other_braces`, `C80_bounded_choices_mean_the_same_refuted` |
| C81 | Every command that can be written down has a text | Parser / Express, Shape, Syntax | by induction on the commands a text is built for each and derived in the grammar of Spec/Syntax.v, with the invariants that texts have no comment start and no wrap; then C02 | `C81_every_writable_command_has_a_text` |
| C82 | The number of combinatorial prompts | Sampler / Count, Enum | the list that Spec/Enum.v assigns to a variant is counted: the selections are a disjoint union over the first option, no prompt is dropped as a repeat; then C15 | `C82_prompts_of_flat_templates`, `C82_prompts_of_a_variant` |
| C83 | Which combinations cyclical variants go through | Sampler / Cycle | C20 gives the k-th prompt; which k mod n and k mod m occur together is a form of the Chinese remainder theorem proved with Bezout's identity | `C83_pairs_that_meet`, `C83_coprime_variants_meet_everywhere`, `C83_prompts_come_back` |
| C84 | Only what is mentioned matters | Sampler, Context, Generators / Mention | a relation between the generators of the two runs that every step keeps (as for C74), by induction on the fuel | `C84_random_generator`, `C84_combinatorial_generator`, `C84_sampling` |
| C85 | Choosing several options, as the syntax guide describes it | Parser, Sampler / Guide, Syntax, Lang | the parser's cursor after the bounds is the same for both texts and the bounds it returns are computed; a relation between generators that differ only in the bounds of a variant is kept by every step; the rest by inversion of C14's relation | `C85_lower_bound_left_out`, `C85_one_number`, `C85_bounds_in_either_order`, `C85_upper_bound_left_out`, `C85_guide_on_the_upper_bound_refuted`, `C85_guide_on_the_separator_refuted`, `C85_no_more_than_there_are`, `C85_several_texts`, `C85_no_repeats`, `C85_all_texts`, `C85_equal_texts_refuted`, `C85_values_without_repeats`, `C85_weighted_values_refuted` |
| C86 | A variable is its value written out | Sampler, Context / Inline, Mention | the values are made in contexts that differ in x only, so C84's relation holds between their generators; a relation for sequences on top of it, kept by every step of both samplers of sequences, up to one unit of fuel | `C86_value_written_out`, `C86_place_of_the_assignment`, `C86_marked_value_refuted`, `C86_immediate_value_refuted` |
| C87 | Passing a value to a wildcard is assigning it before | Sampler, Context / Param, Mention | a relation on generators on top of C84's: the two wildcards have contexts that agree on every variable once they start, the other parts on every variable but x; kept by every step of both samplers of sequences, with equal fuel | `C87_passing_is_assigning`, `C87_only_literals_refuted`, `C87_other_uses_refuted`, `C87_lone_in_braces_refuted` |
| C88 | White space between the parts of a template | Sampler, Utils / Blank, Text | squashing reads only the words, which other white space does not change; a relation on generators of texts, sequences and the combinatorial nesting that keeps track of whether a text is at the start or the end | `C88_white_space_between_parts`, `C88_white_space_of_texts`, `C88_ignored_by_the_parser_refuted`, `C88_guide_example_refuted` |
| C89 | How likely each prompt is | Sampler, Rng, Utils / Chance, Rolls, StreamRng | decision trees over the raw numbers with an average over their leaves; each template has a tree that the rolls of Spec/Rolls follow and whose average is the mean over the outcomes; counting the number sequences of a length by the tree; uniqueness of the cuts links them to C67; runs by C55 and the absence of memory | `C89_chance_of_a_prompt`, `C89_chance_of_a_run`, `C89_runs_multiply`, `C89_there_are_chances`, `C89_shares_follow_the_weights`, `C89_equal_weights_equal_chances_refuted` |
| C90 | How likely each prompt is, for every kind of template | Sampler, Rng, Utils, Values, Context / Odds, Chance, Rolls, StreamRng | decision trees whose leaves are places in the list of outcomes, so that what is drawn later may depend on what was drawn before; a law of mixing trees; numbers below M taken modulo a divisor of M are even; by induction every rule of Spec/Odds has a tree that the rolls of Spec/Rolls follow; then counted as in C89 | `C90_chance_of_a_prompt`, `C90_chance_of_a_run`, `C90_chances_add_up`, `C90_wildcards_are_even` |
| C91 | Which templates have chances, and which prompts | Sampler, Rng, Utils, Values, Context / Odds, Sure, Rolls, Draws, Lang | outcome lists built by induction over Spec/Sure, with sizes multiplied, every listed outcome being in the language; rules of Spec/Odds hold for multiples of M, so two lists for two sizes hold for the product, where both count the same sequences; the numbers that draw a prompt (C56) are below a multiple of M, so that prompt is counted | `C91_safe_templates_have_chances`, `C91_chances_are_unique`, `C91_likely_prompts_are_allowed`, `C91_drawable_prompts_have_a_chance`, `C91_exactly_the_allowed_prompts`, `C91_refuted_for_faint_options` |
| C92 | Weights are relative, and matter only for choices at random | Sampler, Rng, Utils, Float, Values, Context, Parser, Generators / Weights, Lang | a simulation between the samplers of two commands that differ in weights, by induction over fuel; rounding commutes with powers of two, so cumulative weights, the scaled random number and the bisection are scaled alike; equality tests agree because the same options are repeated; other factors and other repeats refuted by running the model | `C92_weights_are_relative`, `C92_random_generator`, `C92_all_weights_scaled`, `C92_only_chance_weighs`, `C92_combinatorial_generator`, `C92_any_weights_without_chance`, `C92_floats_scale` |
| C93 | Every exception of sampling has its cause in the template | Sampler, Context, Rng, Values, Generators / Causes, Lang | an invariant of generators that keeps the layer, the variables known to have values, the samplers that can be in use and the cautious commands they hold, preserved by every step of every sampler by induction over fuel; paths of wildcards by the soundness of sampling; with all exceptions allowed every command is cautious, which gives the list of kinds; a run raising each of them | `C93_every_exception_has_its_cause`, `C93_combinatorial_generator`, `C93_random_generator`, `C93_kinds_of_exceptions`, `C93_no_key_error` |
| C94 | Templates that are written differently list the same prompts | Sampler, Context, Values, Generators / Alike, Enum, Cycle, Lang | lists are unique, since the run determines them; a variant that chooses one option is the list of first occurrences of what its options list; parts of a sequence may be exchanged for others whose products show the same texts, the endless parts keeping their numbers; induction over Alike; runs by C60 | `C94_alike_templates_have_the_same_list`, `C94_alike_templates_give_the_same_prompts`, `C94_same_chances_refuted`, `C94_several_options_refuted` |
| C95 | Templates that are written differently allow the same prompts under every sampler | Sampler, Context, Values / Akin, Lang, Draws | mutual induction over Produces: scopes whose variables mean the same give the same texts; one chosen option gives exactly what some option gives; parts joined without separator may be exchanged for others with the same joined texts; induction over Akin; runs by C14 and C56 | `C95_akin_templates_allow_the_same_prompts`, `C95_akin_commands_allow_the_same_prompts`, `C95_akin_commands_produce_the_same_texts`, `C95_no_run_gives_another_prompt`, `C95_random_prompts_can_be_drawn_from_both`, `C95_zero_weights_refuted`, `C95_several_options_refuted` |
| C96 | Templates that are written differently give every prompt with the same chance | Sampler, Float, Rng / Even, Chance | outcomes are determined (stretches of the weights are unique); averages of any test over the outcomes agree: parts of a sequence by products, options by linear combinations; induction over Even; runs by C89 | `C96_even_templates_have_the_same_chances`, `C96_first_prompts_are_as_likely`, `C96_runs_are_as_likely`, `C96_chances_are_unique`, `C96_order_refuted`, `C96_repeated_refuted` |
| C97 | Templates that are written differently make the same prompts of the same random numbers | Sampler, Rng / Pace, Rolls | rolling is unchanged when variables are replaced by ones that roll alike (mutual induction over Rolls); each rule by inversion of Rolls, a choice of one reduces to one count and one pick; induction over Pace; samplers by C77, runs by C55 | `C97_the_same_is_rolled`, `C97_first_prompts_are_the_same`, `C97_runs_are_the_same`, `C97_even_templates_refuted`, `C97_equal_options_refuted` |
| C98 | The answers of the random prompt generator, random number by random number | Generators, Sampler, Rng / Reseed, Rolls, Pace | every prompt of a call comes from a generator that acts like a new one (memorylessness of C41) and is rolled by C77; existence by C55, uniqueness by determinism of rolling; rewritten templates by C97 | `C98_answers_are_rolled`, `C98_full_answers_are_rolled`, `C98_answers_are_determined`, `C98_rewritten_templates_are_answered_alike` |
| C99 | Prompts may be asked for all at once or portion by portion | Generators / Reseed, Rolls | by C98 a call is described by rolled prompts, and lists of rolled prompts split like lists; one seed gives equal prompts because rolling is determined; witnesses computed | `C99_requests_may_be_split`, `C99_seeded_requests_may_be_split`, `C99_one_seed_gives_one_prompt`, `C99_cyclical_requests_refuted`, `C99_weighted_wildcards_refuted` |
| C100 | Templates in which nothing is left to choose take no random number | Generators, Sampler / Fixed, Rolls, Reseed | mutual induction over Rolls from one source, rebuilding the derivation for the other: the rules that ask for numbers do not apply to such templates; C77 and C98 carry it to the sampler and the generator; witness computed | `C100_fixed_templates_take_no_number`, `C100_fixed_requests_repeat_one_prompt`, `C100_fixed_requests_agree`, `C100_equal_options_take_numbers_refuted` |
| C101 | Random sampling draws what combinatorial sampling lists | Sampler, Generators / Lang, Choices, Draws, Choosy | by induction over the template the allowed texts in every scope are among the choices, so C14 bounds all runs; every choice is drawable, so C56 gives the numbers; C60 gives the list; witnesses computed or by inversion of the allowed texts | `C101_no_other_prompts`, `C101_the_list_can_be_drawn`, `C101_several_options_refuted`, `C101_optional_texts_refuted` |

## What was found to be false of the code

Each `*_refuted` theorem exhibits a concrete run; the rest were noticed while
modelling and follow from the definitions.

Sampling

* Options of equal weight are not exactly equally likely: of three, the middle one
  has one of the 2^53 values of random() less than the others (C89).
* Multi-choice draws re-attach weights to the wrong options after the first
  draw, so an option of weight zero can be picked (C08, C09).
* A single option ignores the bounds in random sampling (C07); remaining weight
  zero raises ValueError (C07).
* A positive weight too small to move the float sum of the weights before it is
  never drawn, and the total depends on the order of the options (C65).
* A separator that overlaps itself can lose text when joining (C11).
* Multi-choice and squashed combinatorial texts can repeat (C16);
  `{2$$a|a}` yields nothing, and `{@2$$a|a}` never answers (C55).
* A negative maximum makes random variants raise ValueError (C55).
* A missing wildcard makes combinatorial sampling endless (C27), and
  `{__missing__|x}` hang when duplicates are skipped.
* A variable with an empty value counts as undefined and raises KeyError (C25).
* An immediate assignment is evaluated once, in the context of the first use;
  a lone assignment raises NotImplementedError.
* Wildcards turned into variants lose their own variables and mark (C48, C87);
  items whose integer weight is below one vanish (C35).
* A token without results in a random sequence raises RuntimeError.
* Only the first value of a dynamic wildcard path is used in combinatorial
  sampling.
* Draws of weighted wildcards are buffered by tens, so a prompt does not depend
  on its own seed only; the same holds for cyclical variants and immediate
  assignments (C41).  `seeds=0` is ignored (C42); an empty template with seeds
  raises StopIteration.

Wildcards

* Switching shuffling off does not clear the cache, nor does `write_text` of a
  file (C31).
* The fallback search fails for wrapped names (C34); cleaning is not idempotent
  (C28) and does not invert wrapping for odd names (C29).
* Names with empty components are listed under another name (C33); a prefix
  ending in "/" makes names unreachable (C39); a dotted directory of a
  structured file loses its suffix (C38).
* A file registered under two names can go on giving its old values under the
  other name after a write (C70).
* De-duplication treats the text "cat" and an item of content "cat" as
  different (C30).

Parser

* White space is not ignored, as the syntax guide says; the guide's example of it
  lacks a brace, and with the brace gives `In summer , I wear` (C88).
* Templates, not only literals, can be passed to wildcards, against the guide
  (C87).
* `__${a:{x|y}}__` raises AttributeError instead of a parse error (C03).
* A wildcard wrap of letters makes the alphanumeric shortcut disagree with the
  grammar (C47).
* A blank before "(" stays in the wildcard name (`__a (b=c)__` names "a ").
* In the path of a wildcard a text that begins with ")" is read up to "|" or
  "}", not up to the next parenthesis (C02, `ReadAs`).
* With other braces around variants, such as "<" and ">", nothing written in
  "${...}" or "%{...}" that holds text is accepted: no value can be assigned, no
  default given, nothing wrapped, because "}" is read as text.  Separators run
  over ">", so `<2$$a|b> and <3$$c|d>` is one variant (C80).

Generators

* Unlinked random generators and combinatorial generators share one source of
  random numbers: asking one changes the answers of the others (C68).
* `random_sample("")` in a Jinja template raises StopIteration (C69).
* `to_wildcard` omits the closing wrap when wrap and name together end with the
  wrap by overlap (wrap "aba", name "ba"); C69 excludes this.
* A MagicPrompt model that could not be loaded is not tried again: generators
  made for it afterwards have no pipeline and raise TypeError in `generate`.
  Their `model_name` is that of the last request of any generator, and a device
  given for a model in use is ignored (C72).
* Cleaning up magic prompts trims to the first and last word character, which
  can remove one parenthesis of a pair ("(cat) sitting" becomes "cat) sitting")
  and always removes bangs at the end ("a dog!!" gets no weight).  Phrases with
  bangs are replaced everywhere at once, so "cat! dog cat!! x" becomes
  "(cat:1.1) dog (cat:1.1)! x" (C76).
* Attention weights are rounded to hundredths and can leave bounds that are not
  (C46).
