{"id": "C01", "title": "Plain text passes through the parser verbatim", "statement": "Parsing a non-empty text that contains none of the characters '#', '{', '$', '%', no wildcard wrap and no tab, and that does not begin with a comment, returns a literal command whose text is exactly the input, whitespace and punctuation included.", "quantifier": "every string over all Unicode code points with the stated characters absent, every length", "why_tests_cant": "The set of plain texts is infinite; a test samples a handful and says nothing about unusual characters, lengths or whitespace layouts.", "anchors": ["src/dynamicprompts/parser/parse.py: parse, _configure_literal, _configure_literal_sequence, _create_prompt/create_parser"]}
{"id": "C02", "title": "The parser accepts exactly the written syntax, and reads it as the command written", "statement": "Writing a command tree (literals, nested variants with weights, bounds, separators and sampling marks, wildcards, variable accesses and assignments, wraps) in the documented syntax and parsing the text returns exactly that tree. Conversely, every text without comments and tabs that is accepted is one way to write the command returned, so no text outside the syntax is accepted and no text has two readings. A text with tabs is read as the text in which each tab is replaced by the blanks up to the next column divisible by eight.", "quantifier": "every well-formed command tree of every size and nesting depth; every text without comments and tabs", "why_tests_cant": "Grammar interactions (ordered choice, backtracking, whitespace, comments) only surface for particular nestings; there are infinitely many.", "anchors": ["src/dynamicprompts/parser/parse.py: create_parser and all _configure_/_parse_ functions", "docs/SYNTAX.md"]}
{"id": "C03", "title": "Parsing always terminates with a command or a parse error", "statement": "For every template text the parser terminates, and it either returns one command or raises; it never loops. The exceptions it can raise are enumerated, and the one that is not a parse error is exhibited.", "quantifier": "every template string", "why_tests_cant": "Termination and the exception set are claims over all inputs.", "anchors": ["src/dynamicprompts/parser/parse.py: parse, _parse_wildcard_variable_access_command"]}
{"id": "C04", "title": "Comments do not influence the result", "statement": "Replacing the text of a top-level '#' comment by any other comment text leaves the parsed command unchanged, and no character of the comment occurs in the command.", "quantifier": "every comment text and every plain text around it", "why_tests_cant": "Infinitely many comment bodies, including ones containing template syntax.", "anchors": ["src/dynamicprompts/parser/parse.py: create_parser (ignore)"]}
{"id": "C05", "title": "Variant bounds are always normalised", "statement": "A variant's bounds as seen by samplers are the given bounds, put in order and clamped to 0..number of options; so 0 <= min <= max <= number of options, whatever bounds were given in either order, and a bound already in range is unchanged.", "quantifier": "every pair of integer bounds and every number of options", "why_tests_cant": "Boundary combinations (reversed, negative, larger than the option count) are unbounded.", "anchors": ["src/dynamicprompts/commands/variant_command.py: VariantCommand.__post_init__, adjust_range"]}
{"id": "C06", "title": "Multi-choice enumeration lists every ordered selection exactly once", "statement": "The value combinations of size k of a variant are exactly the sequences of k pairwise different option values; when option values are distinct every such sequence is listed exactly once, in order, n!/(n-k)! in total; k=0 gives the single empty selection.", "quantifier": "every list of option values and every k", "why_tests_cant": "Completeness and absence of repeats are claims over all sizes.", "anchors": ["src/dynamicprompts/commands/variant_command.py: VariantCommand.get_value_combinations"]}
{"id": "C07", "title": "Random multi-choice draws without replacement", "statement": "Choosing k of n weighted options returns k options that are k different positions of the option list (all of them when k >= n), for every state of the random generator, unless the float sum of the remaining weights is not positive, when ValueError is raised. With a single option that option is returned whatever k is.", "quantifier": "every list of values and weights, every k, every random generator behaviour", "why_tests_cant": "Random outcomes cannot be enumerated; a repeat may need a rare draw.", "anchors": ["src/dynamicprompts/utils.py: choose_without_replacement"]}
{"id": "C08", "title": "An option of weight zero is never the first pick", "statement": "A single weighted draw never returns an option whose weight is zero, for every behaviour of the random generator. For two or more draws this fails, because weights are re-attached to the wrong options (a concrete run is exhibited).", "quantifier": "every list of values and weights, every random generator behaviour", "why_tests_cant": "Absence of an outcome cannot be shown by sampling.", "anchors": ["src/dynamicprompts/utils.py: choose_without_replacement", "src/dynamicprompts/samplers/random.py: RandomSampler._get_variant"]}
{"id": "C09", "title": "Remaining options keep their own weights during a multi-choice draw", "statement": "After each draw the options not yet drawn are still paired with the weights the template gave them. False in general (exhibited); true when all weights are equal, and the exact condition on a step under which pairing is kept is proved.", "quantifier": "every list of values and weights and every drawn option", "why_tests_cant": "Misalignment shows only as a skewed distribution.", "anchors": ["src/dynamicprompts/utils.py: choose_without_replacement"]}
{"id": "C10", "title": "De-duplication keeps the first occurrences in order", "statement": "dedupe returns a sequence without repeats, containing the same elements as its input, in order of first occurrence, and is idempotent.", "quantifier": "every sequence", "why_tests_cant": "Order and membership must hold for all inputs.", "anchors": ["src/dynamicprompts/utils.py: dedupe"]}
{"id": "C11", "title": "Joining partial results never leaves dangling separators", "statement": "Joining results inserts the separator between neighbours and removes one leading and one trailing separator; a single result is returned untouched; if the outer texts are at least as long as the separator and do not begin or end with it, the joined text is exactly the interleaving (with a self-overlapping separator and shorter texts, text is lost; exhibited).", "quantifier": "every list of texts and every separator", "why_tests_cant": "Empty results and separators occurring inside results combine in unboundedly many ways.", "anchors": ["src/dynamicprompts/sampling_result.py: SamplingResult.joined"]}
{"id": "C12", "title": "Whitespace squashing yields a normal form", "statement": "Squashed text has no leading or trailing whitespace, only single spaces as whitespace, the same words in the same order, and squashing again changes nothing; with ignore_whitespace every prompt returned is in this form.", "quantifier": "every text; every template and sampler", "why_tests_cant": "Normal-form claims range over all strings.", "anchors": ["src/dynamicprompts/utils.py: squash_whitespace", "src/dynamicprompts/sampling_context.py: SamplingContext.sample_prompts", "src/dynamicprompts/sampling_result.py: whitespace_squashed"]}
{"id": "C13", "title": "Wrapping splits at the first marker", "statement": "The wrapper text is cut at the first ellipsis marker (maximal run of ellipsis characters or of three or more dots): text before it, marker, text after it concatenate back to the wrapper, nothing before it contains a marker; the wrapped prompt is before + inner + after. Without a marker the inner text is appended.", "quantifier": "every wrapper text and inner text", "why_tests_cant": "Positions and lengths of markers are unbounded.", "anchors": ["src/dynamicprompts/commands/wrap_command.py: split_wrapper_string", "src/dynamicprompts/sampling_result.py: as_wrapper"]}
{"id": "C14", "title": "Every generated prompt belongs to the template's language", "statement": "Whatever sampler (random, combinatorial, cyclical, mixed and nested), whatever the random generator does and however many prompts are requested, each prompt produced is one the template's documented meaning allows: options chosen within bounds and without repetition, wildcard values from the wildcard's collection, variables replaced by one of their possible values, wraps applied.", "quantifier": "every template, variable environment, wildcard contents, random behaviour, number of prompts", "why_tests_cant": "Combines all features; the space of executions is infinite.", "anchors": ["src/dynamicprompts/samplers/*.py", "src/dynamicprompts/sampling_context.py", "src/dynamicprompts/sampling_result.py"]}
{"id": "C15", "title": "Combinatorial sampling enumerates the whole cartesian product in order", "statement": "Combinatorial sampling yields exactly the ordered product of the options: complete, in leftmost-slowest order, then stops. This holds for literals, sequences and (nested, multi-choice) variants, and also with variable assignments (immediate or not, overwriting or not), accesses, wildcards with variables, wraps, and random or cyclical parts whose values are known.", "quantifier": "every such template, every size", "why_tests_cant": "Completeness and order must hold for all templates.", "anchors": ["src/dynamicprompts/samplers/combinatorial.py: CombinatorialSampler"]}
{"id": "C16", "title": "Combinatorial variants do not repeat a selection", "statement": "A combinatorial single-choice variant never yields the same text twice, for every options list, even if options are equal or expand to equal texts.", "quantifier": "every variant command and environment", "why_tests_cant": "Coincidences between expansions are unbounded.", "anchors": ["src/dynamicprompts/samplers/combinatorial.py: CombinatorialSampler._get_variant"]}
{"id": "C17", "title": "Combinatorial sampling is deterministic", "statement": "A combinatorial run of a template without random or cyclical parts does not consult or change the random generator.", "quantifier": "every such template, every random generator state", "why_tests_cant": "Independence from hidden state is not observable by finitely many runs.", "anchors": ["src/dynamicprompts/samplers/combinatorial.py"]}
{"id": "C18", "title": "The prompt limit is respected and only truncates", "statement": "Requesting n prompts returns at most n, and the prompts for a smaller limit are a prefix of the prompts for a larger one from the same state.", "quantifier": "every template, sampler, state and pair of limits", "why_tests_cant": "Ranges over all limits and infinite generators.", "anchors": ["src/dynamicprompts/sampling_context.py: sample_prompts", "src/dynamicprompts/generators/combinatorial.py", "src/dynamicprompts/generators/randomprompt.py"]}
{"id": "C19", "title": "Random sampling never runs dry", "statement": "A random or cyclical generator that has produced one prompt never stops: every later request yields a prompt or raises.", "quantifier": "every template, every history of requests", "why_tests_cant": "An eventual stop may need arbitrarily many requests.", "anchors": ["src/dynamicprompts/samplers/random.py", "src/dynamicprompts/samplers/cycle.py", "src/dynamicprompts/samplers/base.py"]}
{"id": "C20", "title": "Cyclical sampling cycles with period n and stays in step", "statement": "The k-th value of a cyclical single-choice variant of n literal options is option k mod n, and several cyclical variants in one template advance together, one step per prompt. The k-th prompt of a template is likewise known with variables, wildcards (also missing ones), multi-choices, random choices with one option and random wraps of such parts.", "quantifier": "every k, every option lists", "why_tests_cant": "Periodicity is a claim about all k.", "anchors": ["src/dynamicprompts/samplers/cycle.py", "src/dynamicprompts/utils.py: next_sampler_next_value", "src/dynamicprompts/samplers/base.py: _get_sequence"]}
{"id": "C21", "title": "A finite sampler is never used inside an endless one", "statement": "Inside a random or cyclical part, a nested combinatorial mark is replaced by the surrounding method; elsewhere a command's own mark decides, and unmarked commands inherit.", "quantifier": "every context and command", "why_tests_cant": "Nesting depth is unbounded.", "anchors": ["src/dynamicprompts/sampling_context.py: get_sampler_and_context"]}
{"id": "C22", "title": "Random parts do not multiply combinatorial output", "statement": "In a combinatorial template containing random or cyclical variants directly in the sequence, the number of prompts is the product of the sizes of the combinatorial parts only.", "quantifier": "every such template and every random behaviour", "why_tests_cant": "Sizes and interleavings are unbounded.", "anchors": ["src/dynamicprompts/samplers/combinatorial.py: _get_sequence", "src/dynamicprompts/samplers/command_collection.py"]}
{"id": "C23", "title": "Immediate variables have one value everywhere", "statement": "An immediately evaluated variable has a single text: every access in every prompt of one generation yields the same text, whatever the random generator does.", "quantifier": "every value template, random behaviour and number of accesses", "why_tests_cant": "A deviation needs only one rare draw.", "anchors": ["src/dynamicprompts/sampling_context.py: process_variable_assignment", "src/dynamicprompts/samplers/base.py: _get_variable"]}
{"id": "C24", "title": "Assignment semantics", "statement": "In a sequence the last assignment to a name wins; a preserving assignment leaves an already defined name unchanged; names not assigned keep their meaning; assignments take effect for the whole sequence wherever they stand, and do not leak outside.", "quantifier": "every list of assignments and every variable environment", "why_tests_cant": "Orders and repetitions of assignments are unbounded.", "anchors": ["src/dynamicprompts/sampling_context.py: process_variable_assignments, process_variable_assignment, with_variables"]}
{"id": "C25", "title": "Undefined variables", "statement": "Accessing a variable that has neither value, default nor fallback raises KeyError before any prompt of that access is produced; a default or the configured fallback is used otherwise. A variable assigned an empty value counts as undefined (exhibited).", "quantifier": "every context and access", "why_tests_cant": "Quantifies over all environments.", "anchors": ["src/dynamicprompts/samplers/base.py: Sampler._get_variable"]}
{"id": "C26", "title": "Variable references never loop", "statement": "Resolving a variable access always terminates: cyclic definitions raise RecursionError instead of looping.", "quantifier": "every variable environment, including cyclic ones of any length", "why_tests_cant": "Cycle lengths are unbounded.", "anchors": ["src/dynamicprompts/sampling_context.py: for_sampling_variable", "src/dynamicprompts/samplers/base.py: _get_variable"]}
{"id": "C27", "title": "A missing wildcard falls back to its written form", "statement": "Sampling a wildcard without values yields the wrapped wildcard name, again and again, in every sampler. Combinatorial sampling therefore does not terminate on it without a limit (exhibited as a theorem).", "quantifier": "every wildcard name without values, every number of requests", "why_tests_cant": "Claims about infinitely many requests.", "anchors": ["src/dynamicprompts/samplers/utils.py: get_wildcard_not_found_fallback", "src/dynamicprompts/samplers/combinatorial.py", "src/dynamicprompts/samplers/random.py", "src/dynamicprompts/samplers/cycle.py"]}
{"id": "C28", "title": "Wildcard names are normalised safely", "statement": "A cleaned wildcard name contains no backslash and no '..' component, does not start or end with '/', and lookups only ever consult collections registered under the root; unsafe names are rejected.", "quantifier": "every wildcard string and wrap string", "why_tests_cant": "Attack strings are unbounded.", "anchors": ["src/dynamicprompts/wildcards/utils.py: clean_wildcard", "src/dynamicprompts/wildcards/wildcard_manager.py: match_collections"]}
{"id": "C29", "title": "Wrapping wildcard names", "statement": "to_wildcard always produces a recognised wildcard, is idempotent, and changes nothing but the missing wraps; cleaning a wrapped plain name gives the name back.", "quantifier": "every name and wrap string", "why_tests_cant": "All strings, including ones overlapping with the wrap.", "anchors": ["src/dynamicprompts/wildcards/wildcard_manager.py: to_wildcard, is_wildcard", "src/dynamicprompts/wildcards/utils.py: clean_wildcard"]}
{"id": "C30", "title": "Wildcard values are exactly the values of the matching collections", "statement": "get_values returns every value of every matching collection and nothing else; with sorting on and shuffling off it is sorted by text; with de-duplication on no item repeats; with it off multiplicities are the sums.", "quantifier": "every collection tree, pattern and flag setting", "why_tests_cant": "All trees and patterns.", "anchors": ["src/dynamicprompts/wildcards/wildcard_manager.py: get_values, _get_values, match_collections"]}
{"id": "C31", "title": "The wildcard cache is transparent", "statement": "After any history of lookups, flag changes and cache clears, a lookup returns what a fresh computation would, provided shuffling stayed off; if shuffling was on at some time, values may stay unsorted after it is switched off (exhibited).", "quantifier": "every history of operations", "why_tests_cant": "Histories are unbounded; a stale entry needs a particular order.", "anchors": ["src/dynamicprompts/wildcards/wildcard_manager.py: get_values, sort_wildcards, dedup_wildcards, shuffle_wildcards, clear_cache"]}
{"id": "C32", "title": "The wildcard cache is bounded", "statement": "The value cache never holds more than 101 entries after any history of operations.", "quantifier": "every history of operations", "why_tests_cant": "Unbounded histories.", "anchors": ["src/dynamicprompts/wildcards/wildcard_manager.py: get_values"]}
{"id": "C33", "title": "The wildcard tree lists exactly what was put in", "statement": "Building a tree from a name-to-collection mapping and walking it yields each (name, collection) pair exactly once, for names without empty path components; for other names the listed name can differ (exhibited). The tree finds for each name of the mapping its collection and lists the names in their order; its map made anew from the root finds the same collections. A name with an empty component is lost then (exhibited).", "quantifier": "every mapping", "why_tests_cant": "All mappings and depths.", "anchors": ["src/dynamicprompts/wildcards/tree/tree.py", "src/dynamicprompts/wildcards/tree/node.py"]}
{"id": "C34", "title": "Glob matching", "statement": "A wildcard without glob characters matches exactly the collection of that name; '*' matches any text including '/'; the fallback finds exactly the names ending in '/' + name.", "quantifier": "every pattern and every name", "why_tests_cant": "All strings.", "anchors": ["src/dynamicprompts/wildcards/tree/tree.py: match_collections?", "src/dynamicprompts/wildcards/wildcard_manager.py: match_collections, get_values"]}
{"id": "C35", "title": "Weighted wildcard items repeat by their integer weight", "statement": "In non-random sampling each wildcard item occurs floor(weight) times in file order; in particular items of weight below one never occur.", "quantifier": "every list of items and weights", "why_tests_cant": "All lists.", "anchors": ["src/dynamicprompts/wildcards/values.py: WildcardValues.iterate_string_values_weighted"]}
{"id": "C36", "title": "Weighted random wildcard values", "statement": "Random wildcard sampling only returns items of the wildcard; with differing weights an item of weight zero is never returned.", "quantifier": "every item list and every random behaviour", "why_tests_cant": "Absence of an outcome.", "anchors": ["src/dynamicprompts/wildcards/values.py: WildcardValues.get_weighted_random_generator"]}
{"id": "C37", "title": "Wildcard text files", "statement": "The values of a text file are its lines, trimmed, in order, without blank and comment lines; after write_text the file's values reflect the written text at once, for every interleaving of reads and writes through that object.", "quantifier": "every file content and every history", "why_tests_cant": "All contents and histories.", "anchors": ["src/dynamicprompts/wildcards/collection/text_file.py"]}
{"id": "C38", "title": "Structured wildcard files", "statement": "Every collection extracted from a structured file is named by the path of keys leading to its list, and its items are the list's entries with their weights, in order, skipping empty entries; unrelated parts of the file do not influence it.", "quantifier": "every JSON-like value", "why_tests_cant": "Unbounded nesting.", "anchors": ["src/dynamicprompts/wildcards/collection/structured.py"]}
{"id": "C39", "title": "Later roots override earlier ones", "statement": "When several roots define the same collection name, the one added last is used; names defined once are unaffected; prefixes are applied uniformly.", "quantifier": "every root map", "why_tests_cant": "All root maps.", "anchors": ["src/dynamicprompts/wildcards/tree/build.py", "src/dynamicprompts/wildcards/tree/tree.py"]}
{"id": "C40", "title": "Batched combinatorial generation is repetition", "statement": "The batched generator returns the concatenation of the underlying generator's results, batch by batch, in order, and calls it exactly `batches` times.", "quantifier": "every number of batches and every underlying generator", "why_tests_cant": "All batch counts.", "anchors": ["src/dynamicprompts/generators/batched_combinatorial.py"]}
{"id": "C41", "title": "One seed per prompt determines the prompt", "statement": "With one seed per prompt, prompt i of a template made of literals and random variants depends only on seed i, so equal seeds give equal prompts. False for weighted wildcards, whose draws are buffered (exhibited).", "quantifier": "every such template, seed list and random generator", "why_tests_cant": "Hidden generator state.", "anchors": ["src/dynamicprompts/generators/randomprompt.py", "src/dynamicprompts/samplers/random.py", "src/dynamicprompts/wildcards/values.py"]}
{"id": "C42", "title": "Seed arguments are validated and broadcast", "statement": "A single seed is used for all prompts; as many seeds as prompts are used in order; any other number raises ValueError; seed 0 given as an integer is silently ignored (exhibited).", "quantifier": "every seed list and prompt count", "why_tests_cant": "All lengths.", "anchors": ["src/dynamicprompts/generators/randomprompt.py: RandomPromptGenerator.generate"]}
{"id": "C43", "title": "Jinja prompt collection", "statement": "The jinja generator renders the template once per requested prompt; the prompts are the prompt blocks in order if there are any, otherwise the rendered texts; with the limit on, at most the requested number is returned.", "quantifier": "every rendering outcome and number of prompts", "why_tests_cant": "All outcomes.", "anchors": ["src/dynamicprompts/generators/jinjagenerator.py"]}
{"id": "C44", "title": "Blocked magic prompts are regenerated in place", "statement": "Regeneration keeps the number and order of prompts, never touches a prompt that is not blocked, and stops after at most the allowed number of attempts; if it stops early no prompt is blocked.", "quantifier": "every model behaviour, blocklist and prompt list", "why_tests_cant": "Model behaviour is arbitrary.", "anchors": ["src/dynamicprompts/generators/magicprompt.py"]}
{"id": "C45", "title": "Magic prompts keep the user's prompt", "statement": "If the model's continuation starts with the user's prompt, the cleaned-up text starts with the user's prompt unchanged.", "quantifier": "every prompt and every continuation", "why_tests_cant": "All strings.", "anchors": ["src/dynamicprompts/generators/magicprompt.py: clean_up_magic_prompt"]}
{"id": "C46", "title": "Attention marks existing text", "statement": "The attention generator returns one prompt per input prompt; each either is unchanged or has a phrase that occurs in it marked with a weight between the configured bounds, bounds being floats and put in order; float rounding in uniform() never leaves them.", "quantifier": "every prompt and random behaviour", "why_tests_cant": "All prompts.", "anchors": ["src/dynamicprompts/generators/attentiongenerator.py"]}
{"id": "C47", "title": "The alphanumeric shortcut agrees with the grammar", "statement": "For an alphanumeric text the shortcut result equals what the full grammar would return.", "quantifier": "every alphanumeric text", "why_tests_cant": "All strings.", "anchors": ["src/dynamicprompts/parser/parse.py: parse"]}
{"id": "C48", "title": "A lone wildcard inside a variant behaves like the list of its values", "statement": "A variant whose only option is a wildcard samples the wildcard's values as its options with the variant's bounds, capped by the number of values.", "quantifier": "every wildcard content and bounds", "why_tests_cant": "All sizes.", "anchors": ["src/dynamicprompts/samplers/utils.py: wildcard_to_variant"]}
{"id": "C49", "title": "Scanning a wildcard directory finds exactly the visible files", "statement": "Building the tree of a directory looks at every file below it that is not inside a directory whose name starts with a dot, and at no other; every .txt file found is registered under its path relative to the root without its suffix, and every text collection comes from such a file; of several files defining one name the last scanned counts.", "quantifier": "every directory tree", "why_tests_cant": "Directory trees are unbounded in depth and width; name clashes, hidden directories and suffix handling interact only for particular layouts.", "anchors": ["src/dynamicprompts/wildcards/tree/build.py: build_tree_from_path, _get_wildcard_collections_from_path, _get_wildcard_file_name_from_path"]}
{"id": "C50", "title": "Magic continuations contain no braces", "statement": "The text a cleaned-up magic prompt adds to the user's prompt contains no braces; if the continuation does not start with the user's prompt, the whole cleaned-up text contains none.", "quantifier": "every prompt, every continuation", "why_tests_cant": "All strings through eight rewriting steps.", "anchors": ["src/dynamicprompts/generators/magicprompt.py: clean_up_magic_prompt"]}
{"id": "C51", "title": "Template permutations are all selections in order", "statement": "permutations(items, low, high) lists exactly the selections at pairwise different positions whose size lies between low and high, each position list once, by size and then in lexicographic order of positions; negative sizes raise ValueError.", "quantifier": "every item list and all bounds", "why_tests_cant": "All lists and bounds.", "anchors": ["src/dynamicprompts/jinja_extensions.py: permutation"]}
{"id": "C52", "title": "Feeling lucky returns found prompts", "statement": "The feeling-lucky generator searches for the first prompt of the wrapped generator, or for a random number from 0 to 10000000 if that prompt is blank, and returns exactly the requested number of prompts, each among the results (of which there are at most 2^53); a failed or empty search raises GeneratorException.", "quantifier": "every query, search outcome, prompt count and random behaviour", "why_tests_cant": "The search service is arbitrary.", "anchors": ["src/dynamicprompts/generators/feelinglucky.py"]}
{"id": "C53", "title": "Template choices return listed items", "statement": "choice returns a listed item; weighted_choice returns an item of positive weight, succeeds whenever the total weight (the float sum) is positive, and otherwise raises ValueError.", "quantifier": "every item list, non-negative or negative weights, every random behaviour", "why_tests_cant": "All weights and random draws.", "anchors": ["src/dynamicprompts/jinja_extensions.py: choice, weighted_choice"]}
{"id": "C54", "title": "Generators return allowed prompts in the requested number", "statement": "A call of the random generator that returns gives the requested number of prompts (or none at all, without seeds), the combinatorial generator at most the limit, and every prompt is one the template allows.", "quantifier": "every template, wildcard collection, seed argument, limit and random behaviour", "why_tests_cant": "All templates.", "anchors": ["src/dynamicprompts/generators/randomprompt.py", "src/dynamicprompts/generators/combinatorial.py"]}
{"id": "C55", "title": "Endless sampling serves every request", "statement": "For a template whose random variants have positive weights and a non-negative maximum, whose cyclical variants have enough different options, whose variables are defined and acyclic and whose wildcards have something to draw, random and cyclical sampling never fails, never stops and never hangs: any number of prompts can be requested, with any usable seed argument, and exactly that many are returned. A cyclical variant with too few different options hangs; a negative maximum makes a random variant fail.", "quantifier": "all such templates (nested, with wildcards, variables and wrappers), contexts, random generators and states, numbers of prompts, seed arguments", "why_tests_cant": "Absence of failure and of hanging must hold for every draw sequence and every later request; tests observe a few prompts of a few seeds.", "anchors": ["src/dynamicprompts/samplers/random.py", "src/dynamicprompts/samplers/cycle.py", "src/dynamicprompts/generators/randomprompt.py:46-76", "src/dynamicprompts/utils.py:44-60"]}
{"id": "C56", "title": "Random sampling can draw every allowed prompt", "statement": "Every text that the template's language allows when every choice has a positive chance can come out first: there are random draws for which the first prompt is that text. For templates without variables whose options all have a fair share of the weight, the possible first prompts are exactly the allowed texts.", "quantifier": "all templates (nested variants, bounds, separators, wildcards, variables, wrappers), contexts and allowed texts", "why_tests_cant": "Unreachable options show up only as something never observed; sampling cannot prove that a rare option is possible.", "anchors": ["src/dynamicprompts/samplers/random.py", "src/dynamicprompts/utils.py", "src/dynamicprompts/wildcards/values.py:30-58", "src/dynamicprompts/sampling_context.py:60-135"]}
{"id": "C57", "title": "Parsed templates are well formed", "statement": "Whatever text the parser accepts, comments, tabs and odd spellings included, the command it returns is well formed: variants have at least one option, bounds with 0 <= low <= high and a non-empty separator; literals are never empty and never adjacent; a sequence never has exactly one part; assignments occur only at top level; variable names are names; wildcard variables are sorted and without duplicates; variables in a wildcard path always carry a text default.", "quantifier": "all texts, parser configurations and alphabets", "why_tests_cant": "Samplers rely on these invariants for every template a user can type; tests check the shape of a few parses.", "anchors": ["src/dynamicprompts/parser/parse.py", "src/dynamicprompts/commands/variant_command.py:24-60"]}
{"id": "C58", "title": "Everyday templates are served, from text to prompts", "statement": "A template text that parses into text, variants (positive weights; no repeated option if cyclical), random wraps, wildcards whose values are such templates, and variables assigned before use: the random generator, with the real parser for template and wildcard values, returns exactly the requested number of prompts for any usable seed argument, and each of them is allowed by the template. No condition on bounds, separators or nesting is needed, since the parser ensures them.", "quantifier": "all template texts and wildcard collections of this kind, parser configurations, random generators and states, numbers, seed arguments", "why_tests_cant": "It is a claim about every template of the documented kind and every random draw, through parser, wildcard lookup and samplers together.", "anchors": ["src/dynamicprompts/parser/parse.py", "src/dynamicprompts/samplers/random.py", "src/dynamicprompts/generators/randomprompt.py:46-76"]}
{"id": "C59", "title": "Plain text generates itself", "statement": "For a text without template characters that is not a comment, the random generator asked for n prompts returns that text n times (with whitespace squashed if the context says so), for any usable seeds; the combinatorial generator returns it once, or nothing for limit 0.", "quantifier": "all plain texts, configurations with non-empty marks, contexts, random generators and states, numbers, seeds, limits", "why_tests_cant": "All texts, including punctuation and Unicode, for every generator setting.", "anchors": ["src/dynamicprompts/parser/parse.py", "src/dynamicprompts/generators/randomprompt.py:46-76", "src/dynamicprompts/generators/combinatorial.py:30-38"]}
{"id": "C60", "title": "The combinatorial generator returns the whole list, in order", "statement": "For every template whose parts are finite, the combinatorial generator terminates and returns exactly the enumerated prompts in order, cut to the limit, without drawing random numbers. For a template of text and one-choice variants, nested to any depth, this is the list of all combinations, leftmost slowest, each alternative of a variant once.", "quantifier": "all finite templates, contexts, limits, random generators and states", "why_tests_cant": "Completeness, order and termination for every nesting of variants and every limit.", "anchors": ["src/dynamicprompts/generators/combinatorial.py:30-38", "src/dynamicprompts/samplers/combinatorial.py", "src/dynamicprompts/sampling_context.py:102-132"]}
{"id": "C61", "title": "The wildcard manager answers like a fixed function during sampling", "statement": "While no file and no setting changes, whatever lookups, file accesses, listings and cache resets happened before, a lookup of the wildcard manager returns what a newly made manager would return for that wildcard; so a sampler that asks the manager sees one fixed function from wildcards to values.", "quantifier": "all file systems, root maps, sort and dedup settings, histories of questions and wildcards", "why_tests_cant": "Every history of cached and uncached lookups, beyond the cache limit, over every file system.", "anchors": ["src/dynamicprompts/wildcards/wildcard_manager.py:159-211", "src/dynamicprompts/sampling_context.py:34-51", "src/dynamicprompts/samplers/utils.py:19-62"]}
{"id": "C62", "title": "A combinatorial run over a text file's wildcard lists the file's values", "statement": "For a wildcard folder with a text file of that name, the combinatorial generator applied to the wildcard (with or without combinatorial mark) returns the file's trimmed, non-comment lines sorted, each once, tidied, cut to the limit.", "quantifier": "all folders, files with plain lines, plain names, wraps, limits, contexts and random generators", "why_tests_cant": "All file contents and folder layouts through parser, manager, cache and sampler together.", "anchors": ["src/dynamicprompts/generators/combinatorial.py:30-38", "src/dynamicprompts/samplers/combinatorial.py:140-156", "src/dynamicprompts/wildcards/wildcard_manager.py:159-211", "src/dynamicprompts/wildcards/tree/build.py:28-75"]}
{"id": "C63", "title": "A random run over a text file's wildcard returns values of the file, and can return each", "statement": "For a wildcard folder with a text file of that name, the random generator applied to the wildcard returns exactly the requested number of prompts, each a tidied line of the file; and for every line there are random draws that make it the first prompt.", "quantifier": "all folders, files with plain lines, plain names, marks, wraps, seeds, numbers of prompts, random generators and states", "why_tests_cant": "A statistical test cannot show that nothing else is ever returned, nor that every value is reachable for every file.", "anchors": ["src/dynamicprompts/generators/randomprompt.py:46-76", "src/dynamicprompts/samplers/random.py:112-128", "src/dynamicprompts/wildcards/wildcard_manager.py:159-211"]}
{"id": "C64", "title": "A cyclical wildcard goes through a text file's values in order", "statement": "For a wildcard folder with a text file of that name, the k-th prompt of the cyclical wildcard is the tidied value number k modulo n of the file's n distinct values in sorted order, for every k, whatever the seeds and the random generator.", "quantifier": "all folders, files with plain lines, plain names, wraps, seeds, numbers of prompts, random generators and states", "why_tests_cant": "The whole infinite sequence of prompts, for every file.", "anchors": ["src/dynamicprompts/samplers/cycle.py:97-117", "src/dynamicprompts/generators/randomprompt.py:46-76"]}
{"id": "C65", "title": "Weighted choice under float rounding", "statement": "For non-negative weights with a positive float sum, random.choices as used by the samplers draws exactly the option whose stretch between consecutive running float sums contains the rounded product of random() and the total. So an option whose weight does not move the running sum is never drawn, although its weight is positive. This holds for every correct rounding, of which ties-to-even is one, with relative error at most 2^-53.", "quantifier": "every weight list, every random generator behaviour, every round-to-nearest function", "why_tests_cant": "Float corner cases at the ends of the ranges are never hit by sampling.", "anchors": ["src/dynamicprompts/utils.py: choose_without_replacement", "src/dynamicprompts/jinja_extensions.py: weighted_choice"]}
{"id": "C66", "title": "Endless parts of a combinatorial sequence advance once per prompt", "statement": "After its assignments, a combinatorial sequence with random or cyclical parts whose k-th values are known runs once through the product of its finite parts, leftmost slowest. In prompt number j each endless part shows its next value; equal endless parts share one stream of values and the rightmost of them takes first, so an endless part that occurs d times and has i equal parts to its right shows value j*d+i.", "quantifier": "all token lists, separators, contexts, wildcards, streams, numbers of prompts, random generators and states", "why_tests_cant": "The position in an endless stream has to be right for every prompt of every product, and with repeated parts the pattern shows only for particular combinations.", "anchors": ["src/dynamicprompts/samplers/combinatorial.py:49-108", "src/dynamicprompts/samplers/command_collection.py:16-37"]}
{"id": "C67", "title": "An option's share of the random numbers is its share of the weights", "statement": "For non-negative weights with a positive float sum the 2^53 values of random() are cut into one stretch per option, in option order. The cuts depend only on the weights; each lies within 9n+1 numbers (n options) of the exact share of the weights before it, and within 1 when the sums need no rounding. So option i is drawn by 2^53 * w_i / sum(w) of the numbers up to twice that error. In a run of a random single choice every prompt is the option whose stretch holds the number drawn for it.", "quantifier": "all weight lists of up to 2^48 options, all option texts with known value, contexts, numbers of prompts, random generators and states, all correct roundings", "why_tests_cant": "Frequencies measured by sampling cannot separate a share from one that is off by less than the statistical noise, and cannot cover all weight lists.", "anchors": ["src/dynamicprompts/utils.py: choose_without_replacement", "src/dynamicprompts/samplers/random.py: _get_variant"]}
{"id": "C68", "title": "Generators draw from their own random source, or all from the shared one", "statement": "In any program that makes and asks generators, a linked random generator (unlink_seed_from_prompt=False) answers every call from its own source, which starts from its seed and which no other call touches; so generators with equal seeds and equal calls answer equally in any two programs. All unlinked random generators and all combinatorial generators, also those inside Jinja generators, draw in turn from one shared source; an unlinked generator ignores its seed. A call with seeds and at least one prompt makes its result and everything after it independent of earlier draws. Independence of unlinked generators is refuted.", "quantifier": "all sequences of constructor and generate calls, all seeds, templates, initial states and random generators", "why_tests_cant": "Interference between generators depends on the interleaving of all calls of the program.", "anchors": ["src/dynamicprompts/generators/randomprompt.py:16-44", "src/dynamicprompts/sampling_context.py:43", "src/dynamicprompts/generators/jinjagenerator.py:42-55", "src/dynamicprompts/constants.py:8"]}
{"id": "C69", "title": "Generator functions of Jinja templates", "statement": "wildcard(name) returns the values of the text file of that name, in order, each once, and at most 1000; all_combinations(prompt) returns the whole enumeration of the prompt in order, at most 1000; random_sample(prompt) returns the single prompt that the random generator returns for it, which is an allowed one, answers for every everyday prompt, and raises StopIteration for the empty prompt.", "quantifier": "all folders, names, prompts, contexts, random generators and states", "why_tests_cant": "The cap and the order concern arbitrarily long lists; allowedness concerns all draws.", "anchors": ["src/dynamicprompts/jinja_extensions.py:40-66", "src/dynamicprompts/generators/combinatorial.py:30-38", "src/dynamicprompts/constants.py:7"]}
{"id": "C70", "title": "What is written to a wildcard file is what later lookups find", "statement": "write_text through get_file rewrites exactly the file of that name and no other, in every state of the manager; unsafe names raise ValueError, unknown names KeyError, collections that are not files AttributeError, and then no file changes. A wildcard not asked for since the cache was last cleared is answered from the files as they are now, so a lookup of a text file's name finds the values last written to it, whatever was read and written before. This needs that no file is registered under two names, which holds with one root folder; otherwise the other name can go on giving old values (exhibited).", "quantifier": "all file systems, root maps, histories of lookups, writes, listings, settings and cache resets, names, texts", "why_tests_cant": "Every interleaving of reads and writes with three layers of caches.", "anchors": ["src/dynamicprompts/wildcards/collection/text_file.py:42-47", "src/dynamicprompts/wildcards/wildcard_manager.py:108-211"]}
{"id": "C71", "title": "A new manager looks where it was told to, sorts and removes duplicates", "statement": "A manager made with a folder answers from the collections below that folder, one made with a root map from those roots, de-duplicated and stably sorted by text, not shuffled; giving both raises ValueError; one made with neither answers every wildcard with no values.", "quantifier": "all file systems, folders, root maps, wildcards and wraps", "why_tests_cant": "All folders and wildcards.", "anchors": ["src/dynamicprompts/wildcards/wildcard_manager.py:25-50"]}
{"id": "C72", "title": "Which language model and device a MagicPrompt generator uses", "statement": "In any history of making MagicPrompt generators and changing their models, a generator uses the pipeline loaded by the first of the consecutive calls asking for its model, on the device of the generator that made that call; if that load failed it has no pipeline and generate raises, although making it raised nothing (exhibited). If all models can be loaded, it uses the model it asked for last, whatever other generators asked for. There is one load for each change of the model asked for. model_name reports the model anybody asked for last, not the generator's own (exhibited), and the device asked for may be ignored (exhibited).", "quantifier": "all sequences of constructor and set_model calls, all outcomes of loading, all model names and devices", "why_tests_cant": "The pipeline is shared through class attributes, so the result depends on the whole history of the process; the tests replace the pipeline by a mock.", "anchors": ["src/dynamicprompts/generators/magicprompt.py:77-164", "src/dynamicprompts/generators/magicprompt.py:209-220"]}
{"id": "C73", "title": "Shuffling can give every order of the values, each in exactly one way", "statement": "Shuffling n values asks the random source for numbers below n, n-1, ..., 2 and nothing else. The result depends on the answers and the positions of the values only. Every order of different values comes from exactly one of the n! series of answers, so a fair source makes all orders equally likely. While shuffling is on, every lookup shuffles one list of the values found, so every order is an answer of some source.", "quantifier": "all lists of values, random sources and states, file systems, histories of the manager, wildcards", "why_tests_cant": "n! orders for every n; uniformity cannot be established by sampling.", "anchors": ["src/dynamicprompts/wildcards/values.py:77-83", "src/dynamicprompts/wildcards/wildcard_manager.py:159-168"]}
{"id": "C74", "title": "Earlier parses do not change later ones", "statement": "Whatever texts were parsed before under whatever parser configurations, and whichever configurations have been dropped from the cache of parsers, a text is parsed as by a parser newly made for its configuration.", "quantifier": "all sequences of parses and cache evictions, all configurations and texts", "why_tests_cant": "Depends on the whole history of the process and on garbage collection.", "anchors": ["src/dynamicprompts/parser/parse.py:526-566", "src/dynamicprompts/parser/config.py:6-14"]}
{"id": "C75", "title": "Commands made in code are those made by the parser", "statement": "VariantCommand.from_literals_and_weights makes exactly the command that parsing the same texts and weights written as a variant makes; without weights every option has weight 1; differing numbers of texts and weights are refused; bounds are put in order and made non-negative. Adding two literals gives the literal parsed from their texts with a blank in between, and nothing else can be added. cross gives all pairs of different values, each once.", "quantifier": "all lists of option texts that can stand for themselves, all ways to write their weights, all bounds, separators, literals", "why_tests_cant": "Two independent constructions are compared on all texts and weight notations.", "anchors": ["src/dynamicprompts/commands/variant_command.py:56-76", "src/dynamicprompts/commands/literal_command.py:14-17", "src/dynamicprompts/utils.py:58-62"]}
{"id": "C76", "title": "What the clean-up of magic prompts changes", "statement": "The text a language model adds to a prompt is changed exactly as the regular expressions of the clean-up say: braces become parentheses, the text is cut to run from its first to its last word character, and then from left to right blanks inside parentheses, blanks around hyphens between words, punctuation before words, lone underscores and empty phrases are replaced, and phrases with bangs get weights. The result is determined by these patterns; the prompt itself is not touched. Parentheses can lose their partner, bangs at the end are dropped, and a phrase with bangs can lose its weight to another one that is its end (all exhibited).", "quantifier": "all prompts, all continuations, all notions of letters and digits that exclude blanks and the marks used, all weights", "why_tests_cant": "Eight rewriting steps over arbitrary text; matches can overlap and steps can undo each other.", "anchors": ["src/dynamicprompts/generators/magicprompt.py:24-65"]}
{"id": "C77", "title": "The numbers that decide a random prompt", "statement": "For templates, wildcard values and variables without cyclical parts and negative weights, the first prompt given by the random sampler and the state in which it leaves the random source are those described number by number: assigned values first, in order; then the parts from left to right; for a choice first how many options, then one option after the other by the weights of those left, then their texts; for a wildcard first its name, then a value (one number if the weights are equal, ten picks in advance otherwise, values without text passed over), then the text of the value. The description is deterministic. If in addition the template keeps nothing between prompts, every prompt of a run is drawn like a first one from where the one before left the source.", "quantifier": "all templates of the class, random sources and states, contexts, wildcard collections, lengths of runs", "why_tests_cant": "Concerns the exact consumption of random numbers for every template and every state of the source.", "anchors": ["src/dynamicprompts/samplers/random.py:24-136", "src/dynamicprompts/samplers/utils.py:19-62", "src/dynamicprompts/samplers/base.py:26-107", "src/dynamicprompts/sampling_context.py:53-177"]}
{"id": "C78", "title": "The phrases the attention generator may mark", "statement": "The built-in chunker gives exactly the phrases of a prompt: the trimmed prompt is cut at every series of the marks ,;:.?!() together with all the whitespace around it, and the pieces that are neither a number nor made of ASCII punctuation only (the empty piece included) are kept, in order. So phrases contain no mark and have no whitespace at their ends. A prompt without phrases is left as it is by the attention generator; in any other one phrase is marked, wherever it occurs, also inside other phrases (exhibited).", "quantifier": "all prompts, all notions of digit, random sources and states, bounds", "why_tests_cant": "A regular expression split over arbitrary text; series of marks and blanks can be arranged in any way.", "anchors": ["src/dynamicprompts/generators/attentiongenerator.py:17-33", "src/dynamicprompts/generators/attentiongenerator.py:88-103"]}
{"id": "C79", "title": "A combinatorial run that ends has given exactly the allowed prompts", "statement": "For templates without random or cyclical parts, whose wildcards have plain names, whose immediate variables are plain text, and which never choose several options from a list with equal options: whenever the combinatorial run ends by itself, its prompts are exactly the allowed ones, so no combination of options, wildcard values and variable values is missing and two runs give the same prompts. Literals, sequences and variants (nested, multi-choice) always end. Without the conditions this is false: two equal options with different values, and variables evaluated once, allow prompts that the run never gives (exhibited).", "quantifier": "all such templates, wildcard files, variables, random sources and lengths of run", "why_tests_cant": "Completeness must be checked against everything that is allowed, for nested products, multi-choice variants and wildcards of any size.", "anchors": ["src/dynamicprompts/samplers/combinatorial.py:29-169", "src/dynamicprompts/samplers/utils.py:19-44", "src/dynamicprompts/sampling_context.py:102-177"]}
{"id": "C80", "title": "Other braces around variants", "statement": "With other single-character braces around variants that have no meaning of their own, a template of texts, variants (nested, weighted, with sampling mark) and plain wildcards is parsed exactly as the same template with the usual braces, and refused exactly when that one is refused. Templates with a $ are different: wherever option texts run over the closing mark of variables or of wraps (as } is run over when variants end with >), no accepted template assigns a value, gives a default or wraps anything; and separators of bounded variants run over the closing brace, so that two variants can become one (refuted, exhibited).", "quantifier": "all braces, wildcard wraps, alphabets and templates; for the last part all parser configurations", "why_tests_cant": "The tests parse four templates with other braces, none with variables, wraps or bounds; the agreement must hold for every template and every pair of braces.", "anchors": ["src/dynamicprompts/parser/parse.py:88-105", "src/dynamicprompts/parser/parse.py:145-271", "src/dynamicprompts/parser/config.py", "tests/parser/test_parser.py:393-416"]}
{"id": "C81", "title": "Every command that can be written down has a text", "statement": "Every command put together from literals of characters that are ordinary at their place, variants (any bounds lo <= hi, any printable separator, any decimal weights also negative or above one, any sampling mark), sequences without neighbouring literals, variables with or without default, assignments of all four kinds, wraps and wildcards (any computed path, any variables) is the result of parsing some text without comments: the template language can express all of these. Commands with neighbouring literals, marked literals, separators in sequences, or bounds in the wrong order are the result of no text.", "quantifier": "all such commands, all wildcard wraps without meaning of their own, all alphabets", "why_tests_cant": "For every command there must be a text; tests go from chosen texts to commands.", "anchors": ["src/dynamicprompts/parser/parse.py:54-271", "src/dynamicprompts/parser/parse.py:274-435", "src/dynamicprompts/parser/parse.py:545-566"]}
{"id": "C82", "title": "The number of combinatorial prompts", "statement": "A combinatorial run over a template of texts and variants with different texts as options gives, before it ends, exactly as many prompts as the product over its variants of the sum of n!/(n-k)! for k from the lower to the upper bound (bounds above the number n of options count as n). For a variant of any options that list disjoint texts it gives one prompt for each way to take so many options in order, none twice, and a text of each. If options share texts there are fewer (exhibited).", "quantifier": "all such templates, bounds, separators, random sources and lengths of run", "why_tests_cant": "The tests compare a handful of templates with written-out lists.", "anchors": ["src/dynamicprompts/samplers/combinatorial.py:29-169"]}
{"id": "C83", "title": "Which combinations cyclical variants go through", "statement": "In an endless template with two cyclical variants of n and m texts side by side, the prompts that ever appear are exactly those in which the numbers i and j of the options leave the same remainder modulo gcd(n, m), and the first lcm(n, m) prompts show them all; so all n*m combinations appear if n and m have no common divisor, and some never do otherwise. Any number of cyclical variants come back to the same prompt after every common multiple of their numbers of options.", "quantifier": "all numbers of options and texts, all lengths of run, all random sources", "why_tests_cant": "It is a number-theoretic statement about runs of any length; the tests show one pair of variants.", "anchors": ["src/dynamicprompts/samplers/cycle.py:26-117", "src/dynamicprompts/samplers/base.py:70-79", "src/dynamicprompts/sampling_context.py:102-177"]}
{"id": "C84", "title": "Only what is mentioned matters", "statement": "Two wildcard managers and two contexts that agree on the variables and wildcards that a template mentions (in its parts, defaults, paths and bound variables, and in the values of those wildcards and variables) give the same prompts in the same order, the same exceptions and the same use of the random source, whatever the other variables and wildcards are. Agreement on the wildcards named in the template alone is not enough (exhibited): their values are templates.", "quantifier": "all pairs of environments and contexts that agree so, all templates and commands, samplers, random sources, seeds and lengths of run", "why_tests_cant": "It compares all pairs of collections; a test has one collection.", "anchors": ["src/dynamicprompts/sampling_context.py:60-132", "src/dynamicprompts/samplers/base.py:28-112", "src/dynamicprompts/samplers/random.py:36-136", "src/dynamicprompts/generators/randomprompt.py:40-76", "src/dynamicprompts/generators/combinatorial.py:20-38"]}
{"id": "C85", "title": "Choosing several options, as the syntax guide describes it", "statement": "A lower bound left out is 1, an upper bound left out is the number of options, one number is both bounds and the bounds may be given in either order, each as an equality of parse results for any text after the bounds. Asking for more options than there are gives the same run as asking for all of them. When the options are texts, each prompt shows between the two bounds of them (as far as there are so many), each entry at most once, so that different texts are never repeated and asking for all shows all; likewise for the plain, unweighted, different values of a lone wildcard. Refuted as the guide states them: {1-$$a|b|c} is not {1-2$$a|b|c}; the separator is a comma without a space; {2$$a|a} and a lone wildcard with a value of weight 2 can repeat.", "quantifier": "all wrap texts, markers, numerals and rests of a text; all options, bounds, separators, contexts, samplers, random sources and lengths of run", "why_tests_cant": "Bounds and option lists are unbounded, and freedom from repeats is about every draw.", "anchors": ["src/dynamicprompts/parser/parse.py:144-194", "src/dynamicprompts/samplers/random.py:60-110", "src/dynamicprompts/samplers/combinatorial.py:60-120", "src/dynamicprompts/commands/variant_command.py:20-90"]}
{"id": "C86", "title": "A variable is its value written out", "statement": "A sequence with a lazy assignment ${x=value} among its parts gives the same prompts in the same order, the same exceptions and the same use of the random source as the sequence without the assignment and with the value in the place of each part ${x}, if nothing else mentions x. So the place of the assignment and its repetition do not matter. Refuted for a value with a marker of its own under the combinatorial sampler (${s={~hot|cold}}In ${s} is endless, In {~hot|cold} gives one prompt) and for immediate values.", "quantifier": "all values and sequences, contexts, wildcard managers, samplers, random sources and lengths of run", "why_tests_cant": "It is an equation between two runs for every value, every sequence around it and every draw.", "anchors": ["src/dynamicprompts/sampling_context.py:60-177", "src/dynamicprompts/samplers/base.py:51-112", "src/dynamicprompts/samplers/combinatorial.py:51-97"]}
{"id": "C87", "title": "Passing a value to a wildcard is assigning it before", "statement": "A sequence with a lazy assignment ${x=value} among its parts and the wildcard __name(vars)__ gives the same prompts in the same order, the same exceptions and the same use of the random source as the sequence without the assignment and with __name(x=value, vars)__ in the place of the wildcard, wherever in the list the new variable stands, if nothing else mentions x; what the values of the wildcard mention is not restricted. Refuted: the syntax guide's note that only a literal string can be passed; and, for wildcards alone in braces, the equation itself: {__name(x=value)__} loses the value with every sampler and raises KeyError where ${x=value}{__name__} does not.", "quantifier": "all values, wildcards (also with templates as paths, missing or with templates as values) and sequences around them, contexts, wildcard managers, samplers, random sources and lengths of run", "why_tests_cant": "It is an equation between two runs for every value, wildcard, sequence around it and every draw.", "anchors": ["docs/SYNTAX.md:435-457", "src/dynamicprompts/sampling_context.py:85-177", "src/dynamicprompts/samplers/random.py:112-136", "src/dynamicprompts/samplers/combinatorial.py:140-169", "src/dynamicprompts/samplers/cycle.py:97-117"]}
{"id": "C88", "title": "White space between the parts of a template", "statement": "With ignore_whitespace, two templates that differ only in the white space of the texts between their parts (other white space for white space; at the start and at the end also more or none) give the same prompts in the same order, the same exceptions and the same use of the random source. Refuted: the guide's statement that the parser ignores white space (without ignore_whitespace it stays, and inside an option it stays as a blank), and the guide's example, which is not accepted as printed.", "quantifier": "all sequences and texts, white-space characters, contexts, wildcard managers, samplers, random sources and lengths of run", "why_tests_cant": "It is an equation between two runs for every template, every spacing and every draw.", "anchors": ["docs/SYNTAX.md:500-517", "src/dynamicprompts/sampling_context.py:102-132", "src/dynamicprompts/utils.py:21-22"]}
{"id": "C89", "title": "How likely each prompt is", "statement": "When the raw numbers of the random source are equally likely, the part of all number sequences for which a template of texts, sequences and single choices gives a certain first prompt is exactly its chance: parts of a sequence multiply, options weigh with their share of the 2^53 values of random(), equal texts add up. The prompts of a run are independent: a list of k prompts has the product of their chances. Chances exist for every such template and add up to 1; the share of an option differs from its share of the weights by at most (18 n + 2) / 2^53 for n options. Refuted: options of equal weight are equally likely (three options are not).", "quantifier": "all templates of texts, sequences and single choices of any nesting and weights, contexts, managers, prompts, numbers of prompts, and lengths of the number sequence from some length on", "why_tests_cant": "It counts all (2^53)^n sequences of random numbers; a test samples a few.", "anchors": ["docs/SYNTAX.md:66-76", "src/dynamicprompts/samplers/random.py:63-112", "src/dynamicprompts/utils.py:65-99"]}
{"id": "C90", "title": "How likely each prompt is, for every kind of template", "statement": "When every raw random number is one of M equally likely ones, M a multiple of 2^53 and of the sizes of everything drawn evenly, the part of all number sequences for which a prompt comes first is exactly its chance, also with several options without repetition and a range of counts, wildcards with even and weighted values, computed names and missing wildcards, lone wildcards in a choice, lazy and immediate variables, defaults and wraps. Runs multiply as long as nothing is remembered, the chances add up to 1, and a wildcard of plain values of equal weight gives each exactly equally often.", "quantifier": "all templates, scopes, managers, prompts and M for which the chances are defined (every value of a wildcard has a text), numbers of prompts, and lengths of the number sequence from some length on", "why_tests_cant": "It counts all M^n sequences of random numbers; a test samples a few.", "anchors": ["docs/SYNTAX.md:66-76", "src/dynamicprompts/samplers/random.py:28-136", "src/dynamicprompts/utils.py:65-99"]}
{"id": "C91", "title": "Which templates have chances, and which prompts", "statement": "A template without cyclical parts that random sampling can always serve has chances in the sense of C90, for some number M of raw random numbers, and every prompt listed is allowed by the template. The chance of a prompt does not depend on M. Prompts with a chance are allowed, and prompts that can be drawn have a chance; with fair weights exactly the allowed prompts have one. An option whose weight is lost in rounding is allowed but has no chance.", "quantifier": "all templates, scopes, managers and prompts; every M and every list of outcomes for it", "why_tests_cant": "It says for every template that the count over all sequences of random numbers is never zero for a possible prompt; a prompt that a test does not see may still be possible.", "anchors": ["src/dynamicprompts/samplers/random.py:28-136", "src/dynamicprompts/utils.py:65-99"]}
{"id": "C92", "title": "Weights are relative, and matter only for choices at random", "statement": "Multiplying the weights of a variant by a power of two, a different one for each variant if wanted, changes no prompt, no order, no exception and no use of the random numbers, for any sampler, in the template, the variables of the context and the value for unknown variables. Where no part asks for choosing at random, any other weights give the same run as long as the same options remain the same. Both conditions are needed: 0.2 to 0.5 is not two to five for one random number in 2^53, and weights inside two options decide whether they are the same option. Floats have no smallest or largest exponent in the model.", "quantifier": "all templates, contexts, wildcard managers, random generators with IEEE rounding, numbers of prompts; all powers of two, all weights", "why_tests_cant": "The claim compares two programs on every sequence of random numbers; the factor that fails does so for a single random number in 2^53.", "anchors": ["docs/SYNTAX.md:74", "src/dynamicprompts/samplers/random.py:60-100", "src/dynamicprompts/utils.py:65-99", "src/dynamicprompts/commands/variant_command.py:1-92"]}
{"id": "C93", "title": "Every exception of sampling has its cause in the template", "statement": "Sampling a template raises no other exceptions than KeyError, RecursionError, NotImplementedError, ValueError, RuntimeError and those of the parser, and each of them, RuntimeError apart, only where its cause stands: KeyError where a variable is used that has no value, no default and no value for unknown variables (never if there is such a value); RecursionError where the variables cannot be put in layers so that each uses only lower ones; NotImplementedError for an assignment outside a sequence and for a wrap that is sampled cyclically; ValueError for a choice at random among options not all of positive weight or with a negative number of options, and for a wildcard without weight; exceptions of the parser for a template or value that it rejects. For any set of allowed exceptions, a template without the causes of the others raises only allowed ones, whenever in the run. The random generator adds StopIteration and ValueError for seeds.", "quantifier": "all templates and contexts, wildcard managers, parsers, samplers, random generators, numbers of prompts; all sets of allowed exceptions", "why_tests_cant": "The claim excludes an exception for every random choice and every later prompt of an endless run; a test sees the exceptions of the runs it makes.", "anchors": ["src/dynamicprompts/samplers/base.py:51-112", "src/dynamicprompts/sampling_context.py:60-177", "src/dynamicprompts/samplers/random.py:28-136", "src/dynamicprompts/samplers/command_collection.py:16-37", "src/dynamicprompts/samplers/utils.py:19-62", "src/dynamicprompts/utils.py:65-99"]}
{"id": "C94", "title": "Templates that are written differently list the same prompts", "statement": "In combinatorial sampling a template may be rewritten without changing the list of prompts or their order: a variant inside a variant may be replaced by its options ({a|{b|c}} and {a|b|c}), an option that occurs again may be dropped, weights may be changed, a sequence inside a sequence may be replaced by its parts, adjacent texts may be joined, and text around a variant may be moved into its options (a {b|c} d and {a b d|a c d}); any number of times and inside larger templates, beside wildcards, variables and random or cyclical parts. The generator returns the same prompts for both, whatever the limit. At random the chances differ ({a|{b|c}} gives a half of the time, {a|b|c} a third), and options may not be merged when several are chosen ({2$$a|{b|c}} and {2$$a|b|c}): both refuted.", "quantifier": "all templates, wildcard managers, parsers, contexts and variables; all limits; any number of rewriting steps at any place", "why_tests_cant": "An equivalence of infinitely many pairs of templates in all contexts; the order of the prompts and what is dropped as a repetition depend on the whole lists.", "anchors": ["src/dynamicprompts/samplers/combinatorial.py:20-169", "src/dynamicprompts/samplers/command_collection.py:16-45", "src/dynamicprompts/samplers/base.py:51-112"]}
{"id": "C95", "title": "Templates that are written differently allow the same prompts under every sampler", "statement": "A template may be rewritten without changing which prompts it allows, whether it is sampled at random, cyclically or combinatorially: a variant inside a variant may be replaced by its options, a repeated option dropped, positive weights changed, options reordered, a sequence inside a sequence without separator replaced by its parts, texts joined or split, and text around a variant moved into its options; any number of times, inside larger templates, in the values of variables (evaluated at each use or at once), in defaults, in the variables given to wildcards and in wraps. So no run of the one gives a prompt that the other does not allow, and at random a fair template can give every prompt of the templates it was rewritten from. The rules do not hold for options of weight 0, nor, for nested variants, where several options are chosen: both refuted.", "quantifier": "all templates, wildcard managers, parsers, contexts, samplers, variables and random sources; any number of rewriting steps at any place", "why_tests_cant": "An equivalence of infinitely many pairs of templates in all contexts and under all samplers; for random sampling the prompts compared are those of all possible runs.", "anchors": ["src/dynamicprompts/samplers/random.py:25-136", "src/dynamicprompts/samplers/cycle.py:20-117", "src/dynamicprompts/samplers/combinatorial.py:20-169", "src/dynamicprompts/samplers/base.py:51-112", "src/dynamicprompts/sampling_context.py:60-177"]}
{"id": "C96", "title": "Templates that are written differently give every prompt with the same chance", "statement": "A template made of texts, sequences and choices of one option may be rewritten so that, sampled at random, every prompt keeps exactly its chance, in spite of the rounding of weights: a choice inside a sequence without separator may be taken out of it (the parts before and after, which may be choices themselves, are repeated in each option, and the weights stay), a sequence inside a sequence without separator may be replaced by its parts, texts joined or split, empty texts dropped, a sequence of one part or a choice with one option replaced by it, and the separator of a choice of one option changed; any number of times and inside larger templates. Of all sequences of n raw random numbers, n large enough, equally many make the first prompt u, and equally many make the first k prompts any given list, for both templates, with or without squashing of white space. The chances of a template are determined by the template. Reordering options or dropping a repeated option does change the chances: both refuted.", "quantifier": "all templates of texts, sequences and single choices with any weights, all numbers k of prompts, all prompts, all large enough numbers of random numbers; any number of rewriting steps at any place", "why_tests_cant": "Chances cannot be observed by running the code; the claim counts all streams of random numbers exactly and holds for infinitely many pairs of templates.", "anchors": ["src/dynamicprompts/samplers/random.py:25-136", "src/dynamicprompts/samplers/base.py:51-112", "src/dynamicprompts/samplers/utils.py:1-62", "src/dynamicprompts/sampling_context.py:60-177"]}
{"id": "C97", "title": "Templates that are written differently make the same prompts of the same random numbers", "statement": "A template, wildcards and variables included, may be rewritten so that, sampled at random, the same state of the random source gives the same first prompt and leaves the source in the same state, whatever the source: a choice in a sequence without separator may be taken out of it when only text stands before it, a sequence inside a sequence replaced by its parts, texts joined or split, empty texts dropped, a sequence of one part or a choice with one option replaced by it, the separator of a choice of one option changed; any number of times, in parts of sequences, options of choices (where several may be chosen, only if the option neither was nor becomes equal to another, which is needed: refuted without), values of variables, defaults, variables given to wildcards, and both sides of a wrap. For templates that keep nothing between prompts and always succeed, all prompts of a run and the final state are the same. Having the same chances (C96) is not enough: refuted with a choice taken out from behind another choice.", "quantifier": "all templates, random sources, states of the source, values of wildcards and contexts without cyclical parts and negative weights; any number of rewriting steps at any place; all lengths of runs", "why_tests_cant": "The claim holds for infinitely many pairs of templates and all sources of random numbers; a test compares one pair for a few seeds.", "anchors": ["src/dynamicprompts/samplers/random.py:25-136", "src/dynamicprompts/samplers/base.py:51-112", "src/dynamicprompts/samplers/utils.py:1-62", "src/dynamicprompts/sampling_context.py:60-177"]}
{"id": "C98", "title": "The answers of the random prompt generator, random number by random number", "statement": "For templates, values and contexts without cyclical parts and negative weights that keep nothing between prompts and always succeed, a call of the random generator for num prompts answers exactly the prompts that the random numbers make of the template by the description of drawing in C77, and leaves the source as described: without seeds (no seeds, the seed 0 or an empty list) the prompts are drawn one after the other from the source; one seed is used for every prompt; a list of num seeds gives each prompt its own, drawn right after seeding. There is one answer to each request. For templates that may fail, every full answer is of this form. Templates rewritten by the rules of C97 get the same answer for the same seeds and leave the same state.", "quantifier": "all random sources, states, environments, contexts, templates, numbers of prompts and seed arguments meeting the conditions", "why_tests_cant": "Tests compare the prompts of a few seeds with recorded ones; the claim covers every seed, every source and every pair of templates related by the rules.", "anchors": ["src/dynamicprompts/generators/randomprompt.py:46-76", "src/dynamicprompts/samplers/random.py:25-136", "src/dynamicprompts/samplers/base.py:51-112", "src/dynamicprompts/sampling_context.py:60-177"]}
{"id": "C99", "title": "Prompts may be asked for all at once or portion by portion", "statement": "For templates, values and contexts without cyclical parts and negative weights that keep nothing between prompts and always succeed, a call of the random generator for a + b prompts without seeds answers the same and leaves the source in the same state as a call for a prompts followed by a call for b; a call with a list of seeds answers the same as two calls with the first and the remaining seeds. One seed other than 0 for a request of many prompts makes all of them the same. For templates with cyclical variants and with weighted wildcards splitting a request changes the prompts: refuted.", "quantifier": "all random sources, states, environments, contexts and templates meeting the conditions, all numbers a and b, all lists of seeds", "why_tests_cant": "The claim covers all sources and all ways to split a request; the existing tests make single calls with one recorded seed.", "anchors": ["src/dynamicprompts/generators/randomprompt.py:46-76", "src/dynamicprompts/samplers/random.py:25-136", "src/dynamicprompts/sampling_context.py:60-177"]}
{"id": "C100", "title": "Templates in which nothing is left to choose take no random number", "statement": "Templates made of texts, sequences, single options, variables, wraps and wildcards without values (and such variables in the context): the first prompt leaves the random source in the state it was in, and every other random source gives the same prompt. If such a template keeps nothing between prompts, all prompts of a request are the same whatever the seeds, and without seeds the source is left unchanged; if it also always succeeds, then a prompt of one request is every prompt of all other requests, with other sources, other numbers of prompts and other usable seeds. Two options written alike leave nothing to choose either but do take numbers: refuted.", "quantifier": "all pairs of random sources, states, environments, contexts and templates meeting the conditions, all numbers of prompts, all usable seeds", "why_tests_cant": "The claim compares arbitrary random sources; tests run with one generator and look at a few literal prompts.", "anchors": ["src/dynamicprompts/samplers/random.py:25-136", "src/dynamicprompts/samplers/base.py:1-112", "src/dynamicprompts/generators/randomprompt.py:46-76", "src/dynamicprompts/sampling_context.py:60-177"]}
{"id": "C101", "title": "Random sampling draws what combinatorial sampling lists", "statement": "Templates of texts and variants from which one option is chosen: whatever the sampling method, no run gives a prompt that the combinatorial generator does not list. If moreover no part is marked and every option has a fair share of the weights, the prompts the random sampler can draw are exactly those the combinatorial generator lists. For variants from which several options are chosen, and for single options with other bounds, the two sets differ: refuted.", "quantifier": "all environments, all contexts of any method, all such templates, all random sources, states, limits and lengths of runs", "why_tests_cant": "The claim compares all possible random runs with the whole combinatorial list for every such template; tests check one method at a time on a few templates.", "anchors": ["src/dynamicprompts/samplers/random.py:25-136", "src/dynamicprompts/samplers/combinatorial.py:20-169", "src/dynamicprompts/samplers/cycle.py:20-117", "src/dynamicprompts/generators/combinatorial.py:20-38"]}
