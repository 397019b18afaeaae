{
 "claims": [
  {
   "property": "C01",
   "status": "proved",
   "theorems": [
    "C01_collapse",
    "C01_collapse_unique",
    "C01_no_double_space",
    "C01_idempotent"
   ],
   "note": "Output is the run-collapse of the input (relation total and functional), no double space, idempotent; all inputs."
  },
  {
   "property": "C02",
   "status": "proved",
   "theorems": [
    "C02_detach_wellformed",
    "C02_detach_only_inserts"
   ],
   "note": "Exact output on every well-formed stream; on arbitrary bytes only markers after $ are inserted."
  },
  {
   "property": "C03",
   "status": "partial",
   "theorems": [
    "C03_flushed_input_kept_partial",
    "C03_no_loss_refuted",
    "C03_no_invention_refuted"
   ],
   "note": "FINDING: refuted for unclosed blanks / final backslash at end of input; holds for all inputs ending in a flush."
  },
  {
   "property": "C04",
   "status": "proved",
   "theorems": [
    "C04_attach_wellformed",
    "C04_escapes_kept_refuted"
   ],
   "note": "Exact output for every well-formed stream; FINDING: escapes inside word-bound blanks are dropped (refutation theorem)."
  },
  {
   "property": "C05",
   "status": "partial",
   "theorems": [
    "C05_attach_defined_partial",
    "C05_attach_defined_refuted",
    "C05_attach_defined_flush_partial"
   ],
   "note": "FINDING: refuted ([[a]] NUL [[/]] pops an empty vector); holds for all NUL-free inputs and when no blank is open at a flush."
  },
  {
   "property": "C06",
   "status": "proved",
   "theorems": [
    "C06_outside_unchanged",
    "C06_wblank_kept_refuted",
    "C06_escaped_dollar_refuted"
   ],
   "note": "Text outside lexical units is byte-identical for every well-formed stream; FINDINGS as refutation theorems (character after a lone ] in a word-bound blank is lost, escaped dollar)."
  },
  {
   "property": "C07",
   "status": "proved",
   "theorems": [
    "C07_split_unit",
    "C07_split_unit_wblank",
    "C07_surface_forms",
    "C07_second_queue_refuted"
   ],
   "note": "Split of + units and queue movement for every well-formed unit; FINDING: a second queue is moved to the first lemma."
  },
  {
   "property": "C08",
   "status": "proved",
   "theorems": [
    "C08_terminates_partial",
    "C08_terminates_refuted"
   ],
   "note": "Surface-form mode; FINDING: hang at end of input with surface forms."
  },
  {
   "property": "C09",
   "status": "proved",
   "theorems": [
    "C09_default",
    "C09_options",
    "C09_one_per_line",
    "C09_total"
   ],
   "note": "Exact output for every well-formed stream and option; terminates on every input."
  },
  {
   "property": "C10",
   "status": "proved",
   "theorems": [
    "C10_history",
    "C10_lookup",
    "C10_injective",
    "C10_stable"
   ],
   "note": "All observations of every history equal those of the list of distinct sets; index stable, injective, invertible."
  },
  {
   "property": "C11",
   "status": "proved",
   "theorems": [
    "C11_roundtrip",
    "C11_reuse_refuted"
   ],
   "note": "For every encoder satisfying the round-trip hypothesis; concrete encoder shown; reuse of a non-empty object refuted."
  },
  {
   "property": "C12",
   "status": "proved",
   "theorems": [
    "C12_roundtrip",
    "C12_portable",
    "C12_length",
    "C12_short_is_zero",
    "C12_short_big_refuted"
   ],
   "note": "All 8-byte images, both byte orders; FINDING: truncated file on a big-endian host gives uninitialised bytes."
  },
  {
   "property": "C13",
   "status": "proved",
   "theorems": [
    "C13_roundtrip",
    "C13_containers"
   ],
   "note": "All value types and containers, relative to lttoolbox number/string encoders."
  },
  {
   "property": "C14",
   "status": "proved",
   "theorems": [
    "C14_hmm_roundtrip",
    "C14_lsw_roundtrip",
    "C14_reread_refuted"
   ],
   "note": "HMM and LSW models, all well-formed values; FINDING: reading twice into one object accumulates rules."
  },
  {
   "property": "C15",
   "status": "partial",
   "theorems": [
    "C15_fields_partial",
    "C15_discard_refuted",
    "C15_collection_copy_alive",
    "C15_collection_copy_dangles_refuted"
   ],
   "note": "FINDING: refuted: discard rules are never copied and a copied Collection points into its source (dangles when the source dies). Proved: all other fields are copied."
  },
  {
   "property": "C16",
   "status": "proved",
   "theorems": [
    "C16_model1",
    "C16_model2",
    "C16_model3",
    "C16_succeeds",
    "C16_order"
   ],
   "note": "Three models; counts exact for every corpus, order independent."
  },
  {
   "property": "C17",
   "status": "proved",
   "theorems": [
    "C17_first_best",
    "C17_scorable",
    "C17_none",
    "C17_model1_score",
    "C17_model2_prefers_frequent",
    "C17_model2_score",
    "C17_model3_score"
   ],
   "note": "First analysis of maximal score, for every model state and every scorable list; every well-formed analysis is scorable."
  },
  {
   "property": "C18",
   "status": "proved",
   "theorems": [
    "C18_representation",
    "C18_add",
    "C18_sub",
    "C18_add_unary",
    "C18_sub_unary",
    "C18_of_unary",
    "C18_dot_unary",
    "C18_dot",
    "C18_dot_comm",
    "C18_constructor_collapses"
   ],
   "note": "Exact rationals; all operations equal the pointwise ones for all vectors; FINDING: the unary constructor collapses duplicates while += does not."
  },
  {
   "property": "C19",
   "status": "partial",
   "theorems": [
    "C19_mean_partial",
    "C19_weights",
    "C19_undefined_iff",
    "C19_undefined_refuted"
   ],
   "note": "FINDING: average() increments an erased iterator whenever a stored feature has zero sum (exact characterisation proved, occurs in ordinary training); otherwise the result is the mean, for every history."
  },
  {
   "property": "C20",
   "status": "proved",
   "theorems": [
    "C20_one_analysis_per_token",
    "C20_total",
    "C20_beam",
    "C20_optimal",
    "C20_unambiguous",
    "C20_width0_undefined"
   ],
   "note": "Every weight vector, feature function, beam width >= 1, sentence and tie breaking; width 0 is undefined (theorem). Optimality when the beam is at least the number of combinations."
  },
  {
   "property": "C21",
   "status": "proved",
   "theorems": [
    "C21_most_probable",
    "C21_words",
    "C21_all_words",
    "C21_own_tag",
    "C21_flush_on_ambiguous_refuted"
   ],
   "note": "Viterbi optimality for every stream of words and every non-negative model (exact arithmetic); every word output once; FINDING: flush on an ambiguous word loses a word (refutation theorem)."
  },
  {
   "property": "C22",
   "status": "proved",
   "theorems": [
    "C22_counts",
    "C22_transition_rows",
    "C22_emission_rows",
    "C22_kupiec_counts",
    "C22_kupiec_rows",
    "C22_ambiguous_word_counts_previous_tag"
   ],
   "note": "Supervised and Kupiec initialisation, every corpus and class system; FINDING: ambiguous tagged word counts with the previous tag."
  },
  {
   "property": "C23",
   "status": "proved",
   "theorems": [
    "C23_weights",
    "C23_result",
    "C23_relative_weights",
    "C23_empty_row",
    "C23_forbidden_still_possible"
   ],
   "note": "All matrices, rule sets and orders; forbidden transitions keep positive probability 1e-10/s (theorem)."
  },
  {
   "property": "C24",
   "status": "partial",
   "theorems": [
    "C24_valid",
    "C24_valid_allowed_partial",
    "C24_valid_allowed_refuted",
    "C24_init",
    "C24_train",
    "C24_window_unit",
    "C24_mass",
    "C24_choice",
    "C24_words",
    "C24_contexts",
    "C24_empty_first_document_stops",
    "C24_flush_order",
    "C24_unknown_neighbour"
   ],
   "note": "FINDING: refuted when an enforce rule lists its own tag (is_valid_seq skips the second bigram); proved for all other rule sets, with mass conservation over any number of training passes, argmax tagging, and further findings (empty first document stops the tagger, blanks after NUL, unknown neighbours)."
  },
  {
   "property": "C25",
   "status": "proved",
   "theorems": [
    "C25_language",
    "C25_match",
    "C25_dash_refuted",
    "C25_paren_refuted",
    "C25_no_items"
   ],
   "note": "Every list of items over plain characters; backtracking matcher semantics; FINDINGS as refutation theorems (unquoted - forms a range, ( makes it malformed, empty attribute matches <>)."
  },
  {
   "property": "C26",
   "status": "proved",
   "theorems": [
    "C26_rule",
    "C26_choices",
    "C26_acceptions",
    "C26_default_first",
    "C26_order_kept",
    "C26_default_second_refuted",
    "C26_acceptions_total",
    "C26_trailing_backslash_refuted"
   ],
   "note": "Every list of words, translations and blanks; FINDINGS: a default translation in second place of three or more is not moved to the front (refutation), an answer ending in a backslash is read out of bounds."
  },
  {
   "property": "C27",
   "status": "partial",
   "theorems": [
    "C27_all",
    "C27_unchunk_partial",
    "C27_last_char_refuted",
    "C27_dangling_reference",
    "C27_not_a_chunk"
   ],
   "note": "Proved for every well-formed chunk whose content does not end in a bare character; FINDING (theorem): such a final character is lost; dangling references and lexical units without braces print nothing (theorems)."
  },
  {
   "property": "C28",
   "status": "proved",
   "theorems": [
    "C28_neutral",
    "C28_contents",
    "C28_assoc",
    "C28_backslashes_refuted"
   ],
   "note": "All strings for neutrality and associativity (except backslashes followed by ]] alone: out-of-bounds read, refutation theorem); contents for all well-formed blanks."
  },
  {
   "property": "C29",
   "status": "proved",
   "theorems": [
    "C29_first_when",
    "C29_otherwise",
    "C29_nothing",
    "C29_cases",
    "C29_tests",
    "C29_connectives",
    "C29_comparisons"
   ],
   "note": "Every choose, every test (with <mlu> too), every cache content; test outcomes characterised for tests without units."
  },
  {
   "property": "C30",
   "status": "proved",
   "theorems": [
    "C30_unmatched_text_unchanged",
    "C30_prefix_unchanged"
   ],
   "note": "From text to text, for every matcher of word patterns and whatever the rules would do; also for an unmatched part followed by anything."
  },
  {
   "property": "C31",
   "status": "partial",
   "theorems": [
    "C31_longest_match_partial",
    "C31_ends",
    "C31_patterns",
    "C31_interchunk_tokens",
    "C31_transfer_tokens",
    "C31_transfer_wblank",
    "C31_shift_refuted",
    "C31_reject_duplicates_blanks_refuted"
   ],
   "note": "Equivalence with the longest-match specification, and termination, for every matcher of word patterns, every rules (which look only at their own words) and every token stream, if a rule rejecting itself with words used up uses up the words it matched; FINDINGS (theorems): otherwise a stale position loses words, and a rejected rule prints its blanks, which are printed again."
  },
  {
   "property": "C32",
   "status": "proved",
   "theorems": [
    "C32_read",
    "C32_readable",
    "C32_declared",
    "C32_generated",
    "C32_complete",
    "C32_every_step",
    "C32_files",
    "C32_empty_attribute_refuted"
   ],
   "note": "Every list of modes and every attribute value; FINDINGS as theorems: a mode that is already declared or untrimmed is kept, untrimmed modes get the trace option twice, an empty attribute value is a null dereference."
  },
  {
   "property": "C33",
   "status": "partial",
   "theorems": [
    "C33_training",
    "C33_class_exists",
    "C33_known_class",
    "C33_unknown_word",
    "C33_similar_class_partial",
    "C33_unchanged",
    "C33_model_unchanged_refuted",
    "C33_history_refuted",
    "C33_contains_refuted"
   ],
   "note": "Class exists for every word and history, known classes answered unchanged, unknown words get the open class, similar class is minimal among those containing the readings; FINDINGS (theorems): looking up an unknown ambiguity class overwrites the open class of the model, the answer depends on earlier look-ups, the class found need not contain the tags."
  },
  {
   "property": "C34",
   "status": "partial",
   "theorems": [
    "C34_tag_partial",
    "C34_sentences",
    "C34_nul_refuted",
    "C34_unigram_refuted"
   ],
   "note": "Text to text for every sequence of documents, sentence tagger that returns one analysis (or none) per unit, and options; NUL written per document, sentences partition the units. FINDINGS (theorems): a NUL directly after a unit is swallowed, the unigram tagger never writes the NUL."
  },
  {
   "property": "C35",
   "status": "proved",
   "theorems": [
    "C35_read_printed",
    "C35_print",
    "C35_reread",
    "C35_injective",
    "C35_queue",
    "C35_truncated_refuted",
    "C35_queue_moved"
   ],
   "note": "Every well-formed lexical unit is read back from its text, printing is injective, output re-reads as the chosen analysis. FINDINGS (theorems): a truncated unit loops for ever, a queue after the tags moves before them."
  },
  {
   "property": "C36",
   "status": "partial",
   "theorems": [
    "C36_restore_partial",
    "C36_chosen_unique",
    "C36_last_blank_refuted",
    "C36_alternatives_refuted",
    "C36_pieces_refuted",
    "C36_loose_wblank_refuted"
   ],
   "note": "Text to text for every machine, weighting and sequence of documents of units with at most one reading and word-bound blanks only before units; evidence per word specified separately from the loop. FINDINGS (theorems): a blank at the end counts the last votes again one word further, readings are glued together, pieces after the case note are lost, loose word-bound blanks are lost."
  },
  {
   "property": "C37",
   "status": "partial",
   "theorems": [
    "C37_one_rule",
    "C37_intended",
    "C37_keeps_one_partial",
    "C37_second_analysis_refuted",
    "C37_rule_length_refuted"
   ],
   "note": "Proved for every word and rule list that at least one analysis is left and exactly the matching ones are discarded if rules are long enough; FINDINGS (theorems): the pattern length is compared with the number of tags, and a rule matching the first analysis drops the tag of the second."
  },
  {
   "property": "C38",
   "status": "proved",
   "theorems": [
    "C38_history",
    "C38_roundtrip"
   ],
   "note": "All histories of setConstant; write/read round trip."
  },
  {
   "property": "C39",
   "status": "proved",
   "theorems": [
    "C39_rewritten",
    "C39_idempotent_partial",
    "C39_z_twice_refuted",
    "C39_z_newstyle_refuted",
    "C39_quotes_lines_refuted"
   ],
   "note": "Output determined by a relational specification for all mode files, with and without -z (if and only if). Idempotence without -z for new-style modes (C39_idempotent_partial). FINDINGS: bars inside quotes are split; lines are joined without a separator; with -z the helpers get no -z until a second run."
  },
  {
   "property": "C40",
   "status": "proved",
   "theorems": [
    "C40_range",
    "C40_exactly"
   ],
   "note": "All integers; message equals the enumeration of accepted numbers."
  },
  {
   "property": "C41",
   "status": "proved",
   "theorems": [
    "C41_updates_fix_violations",
    "C41_weight_change",
    "C41_no_update_means_correct",
    "C41_convergence"
   ],
   "note": "Exact arithmetic; feature extraction abstract; perceptron convergence bound proved for the actual update rule including early updates."
  },
  {
   "property": "C42",
   "status": "proved",
   "theorems": [
    "C42_longest_match",
    "C42_tokens",
    "C42_tokenise",
    "C42_unclosed_refuted",
    "C42_patterns"
   ],
   "note": "For every matcher with the listed closure properties, instantiated for every set of patterns; FINDING: an unclosed superblank at the end of the input is read forever."
  },
  {
   "property": "C43",
   "status": "partial",
   "theorems": [
    "C43_rule_view_partial",
    "C43_counts"
   ],
   "note": "Words, tags, case and inner blanks proved for every chunk; FINDINGS: text before the first word is moved behind the chunk, text after the last word is not available to the rule; dictionary case is ignored here."
  },
  {
   "property": "C44",
   "status": "partial",
   "theorems": [
    "C44_documents_partial",
    "C44_interchunk_documents",
    "C44_transfer_documents",
    "C44_postchunk_refuted",
    "C44_inword_refuted"
   ],
   "note": "Transfer and interchunk proved for every sequence of well-formed documents; FINDINGS (theorems): postchunk keeps the last blank of a document, a truncated lexical unit leaks into the next document, and one NUL too many is written."
  },
  {
   "property": "C45",
   "status": "partial",
   "theorems": [
    "C45_rules_partial",
    "C45_history_partial",
    "C45_no_mlu",
    "C45_initial",
    "C45_mlu_leak_refuted",
    "C45_copy_refuted",
    "C45_documents_refuted",
    "C45_reject_refuted",
    "C45_undefined_macro_refuted",
    "C45_mlu_null_refuted",
    "C45_queue_refuted",
    "C45_word_parts",
    "C45_mlu_words",
    "C45_unit_text"
   ],
   "note": "Sound and complete against a specification without cache and accumulators, for any sequence of applications of rules and macros, <mlu> included; the only flag in the specification is the one that an <mlu> fails to reset, and C45_no_mlu shows it never set in files without <mlu>. Missing: units inside units, units in tests and in values written into words (the DTD allows them). FINDINGS as theorems (mlu leaks the in-lu flag, copying a variable drops its blank, blanks of variables survive documents, reject in a macro ignored, undefined macro calls the first one, null dereference, modify-case loses the queue)."
  },
  {
   "property": "C46",
   "status": "partial",
   "theorems": [
    "C46_blanks_kept_partial",
    "C46_duplicated_refuted",
    "C46_case_from_refuted"
   ],
   "note": "Every rule and macro without <b/> inside <get-case-from>, including <mlu>; FINDINGS: <b/> outside <out> duplicates a blank, <b/> in get-case-from changes its text."
  },
  {
   "property": "C47",
   "status": "partial",
   "theorems": [
    "C47_words_partial",
    "C47_parts_join",
    "C47_longest",
    "C47_readings",
    "C47_defined",
    "C47_no_analysis_refuted",
    "C47_superblank_refuted",
    "C47_truncated_refuted",
    "C47_mixed_refuted"
   ],
   "note": "Every text of well-formed lexical units, every matcher, prefer and discard rules; parts join to the analysis, longest match characterised, readings characterised. Missing: analyses with a trailing plus or a rest without coarse tag after a cut at the end. FINDINGS (theorems): a unit without analyses swallows the next, carets in superblanks start units, a truncated unit gets the end mark as a reading, analyses with different numbers of parts are mixed."
  },
  {
   "property": "C48",
   "status": "partial",
   "theorems": [
    "C48_text_partial"
   ],
   "note": "Text to text for every model and text whose units have single-part analyses or a single analysis; other units are garbled by the program (C47_mixed_refuted)."
  },
  {
   "property": "C49",
   "status": "partial",
   "theorems": [
    "C49_strict",
    "C49_aligned",
    "C49_skip_partial",
    "C49_first_unit_refuted",
    "C49_previous_lost_refuted",
    "C49_shorter_refuted"
   ],
   "note": "Strict mode proved in full; alignment proved for every corpus made; skipping proved when no sentence diverges at its first unit and no tagged sentence ends early. FINDINGS (theorems): otherwise an uninitialised pointer is dereferenced, a good sentence is lost, or an exception is thrown in spite of skip-on-error."
  },
  {
   "property": "C50",
   "status": "partial",
   "theorems": [
    "C50_extract_partial",
    "C50_no_reading_refuted",
    "C50_parts_case_refuted"
   ],
   "note": "Text to text for every sequence of documents whose units have a reading. FINDINGS (theorems): a unit without reading loses its text; the case of a reading of several parts is taken of the whole text, tags included."
  },
  {
   "property": "C51",
   "status": "proved",
   "theorems": [
    "C51_roundtrip",
    "C51_exact",
    "C51_wellformed",
    "C51_txt",
    "C51_txt_wellformed",
    "C51_nodot_refuted",
    "C51_heading_refuted",
    "C51_invalid_byte",
    "C51_rtf_refuted",
    "C51_prefer_multibyte"
   ],
   "note": "Every format, document, file name source; txt-format.xml in full. Regular expressions are matching functions (flex trusted); context-dependent ones (^ in mediawiki-format.xml) not covered. FINDINGS (theorems): with -n a final period is lost, with -o the heading mark stays, an invalid byte swallows the text after it, the escape-chars of rtf-format-cp1250/1251.xml lack parentheses so that escaped characters are lost, preferred entities of multi-byte characters are never restored."
  },
  {
   "property": "C52",
   "status": "proved",
   "theorems": [
    "C52_rows",
    "C52_expected",
    "C52_textbook",
    "C52_iterate",
    "C52_train",
    "C52_tail",
    "C52_unknown_class"
   ],
   "note": "All corpora, matrices and numbers of passes, in exact arithmetic (doubles, NaN exits and the log-likelihood message are not modelled). The expected-count theorem asks for matrices without zeros on the corpus, which every pass leaves; with zeros rows are still distributions (C52_rows) but counts are floored (C52_zero_floor). FINDING (theorem C52_tail): words after the last unambiguous word are ignored."
  },
  {
   "property": "C53",
   "status": "partial",
   "theorems": [
    "C53_features_partial",
    "C53_deterministic",
    "C53_or_refuted",
    "C53_and_or_refuted",
    "C53_lt_refuted",
    "C53_empty_loop_refuted",
    "C53_slice_refuted",
    "C53_join_refuted",
    "C53_keys_refuted",
    "C53_constant_255_refuted",
    "C53_def_set_refuted",
    "C53_beam_width_refuted",
    "C53_lengths_refuted",
    "C53_slot_types_refuted"
   ],
   "note": "Compiler and machine correct for all documents without macros, with the results pinned down exactly (iff), when the values met avoid the defects below (safe_doc) and there are at most 255 string constants. Missing: def-macro and inst, reading the .tsx named by coarse-tags, integer overflow. FINDINGS (theorems): <or>/<and> leave operands on the stack (abort or wrong value), <lt> etc. depend on C++ evaluation order, a loop over nothing is the number 0, slices past the end give the last element, <join> drops separators, features 0 and 256 share a key, constant 255 is \".\", def-set, beam-width, toklen, strlen, arrlen are never accepted, slot types of earlier features are never forgotten."
  },
  {
   "property": "C54",
   "status": "proved",
   "theorems": [
    "C54_tokens",
    "C54_rule_sides",
    "C54_matched_side",
    "C54_default_unit",
    "C54_default_chunk",
    "C54_unmatched_text_translated",
    "C54_no_translation_refuted",
    "C54_disappears_iff",
    "C54_chunk_wblank_refuted",
    "C54_unclosed_tag_refuted",
    "C54_escaped_gt_refuted",
    "C54_wblank_escape_refuted"
   ],
   "note": "Text to text for every text of units with a non-empty target reading, any matcher and rules. Findings as theorems: a unit without translation disappears (iff), -n with default=chunk puts the word-bound blank inside the unit, an unclosed tag makes the default translation read beyond the unit, the three scanners disagree on escaped > in a tag."
  },
  {
   "property": "C55",
   "status": "proved",
   "theorems": [
    "C55_compiles",
    "C55_last_definition",
    "C55_first_matching_rule",
    "C55_no_rule",
    "C55_rejected_rules",
    "C55_seen",
    "C55_later_duplicate_dead",
    "C55_uppercase_lemma_refuted",
    "C55_lemma_without_tags_refuted",
    "C55_backslash_lemma_refuted",
    "C55_double_star_refuted",
    "C55_escaped_boundary_refuted",
    "C55_rejected_hides_refuted"
   ],
   "note": "Compiler, finals map and matcher input proved equivalent to the specification (iff) for all rule files and units; lttoolbox Transducer/MatchState primitives are modelled from their documented behaviour. Rejected rules: C55_rejected_rules (if and only if, for words without an escaped backslash). FINDINGS (theorems): a lemma with an upper-case letter never matches; lemma without tags is ignored and the item matches any untagged word; a backslash in a lemma prevents the match; ** means one or more; escaped $, space and ^ in a word match word boundaries; after reject-current-rule another matching rule whose stars match in the same places is not tried (C55_rejected_hides_refuted)."
  },
  {
   "property": "C56",
   "status": "proved",
   "theorems": [
    "C56_transfer"
   ],
   "note": "Composition of C54 (tokens, sides, default), C55 (compiled patterns) and C31 (loop): the compiled machine is executed (Model/TrxMachine.v) on the text and both sides have exactly one, equal, result. Assumes: patterns with at least one word, cat-items without ** or $ or backslash, words without an escaped $ (C55 shows what happens otherwise), rules that do not reject themselves (C31/C55 treat those)."
  },
  {
   "property": "C57",
   "status": "partial",
   "theorems": [
    "C57_reads_anything",
    "C57_reads_lines",
    "C57_alignment_partial",
    "C57_any_files_partial",
    "C57_sizes",
    "C57_small_books",
    "C57_lead_unpaired",
    "C57_nothing_lost_refuted",
    "C57_symmetry_refuted"
   ],
   "note": "Proved: totality, reading, similarity and lengths, optimality within the band (whole grid for small books), printed pieces consecutive and complete from the point where the trail meets the border. Refuted (FINDINGS, theorems): the first sentences of one book can be lost (C57_nothing_lost_refuted, exactly the leading unpaired ones by C57_lead_unpaired); pairing two source sentences with one target sentence is never considered, so swapping the files does not swap the columns (C57_symmetry_refuted). Beyond 2^31 sentence pairs the int products overflow (not covered). C++ doubles are modelled by exact rationals."
  },
  {
   "property": "C58",
   "status": "partial",
   "theorems": [
    "C58_tmx_partial",
    "C58_sizes",
    "C58_source_empty",
    "C58_unclosed_blank",
    "C58_segment_unique",
    "C58_trimmed",
    "C58_wellformed",
    "C58_placeholder_damaged",
    "C58_translation_refuted",
    "C58_last_sentence_refuted",
    "C58_wellformed_refuted",
    "C58_trimmed_refuted",
    "C58_characters_refuted"
   ],
   "note": "Exact output proved for all well-formed documents (basic plane, no newlines outside blanks, sizes within five-fold and 2^31 pairs): sentences, segments, alignment, units. FINDINGS (theorems): printTU prints a pair only if the source segment is EMPTY, so for any input no real translation pair is ever written (C58_source_empty, C58_translation_refuted); the text after the last sentence end is lost, also after a full stop at the end of the file; every target text begins with a tab, so a leading <ph/> becomes ph/> (C58_placeholder_damaged); <ph/> before trailing blanks becomes <ph/ and the TMX is ill-formed; characters outside the basic plane are cut to 16 bits; an unclosed blank ends the program. All command line options except the languages are dead."
  },
  {
   "property": "C59",
   "status": "partial",
   "theorems": [
    "C59_read_partial",
    "C59_comments",
    "C59_cut_short",
    "C59_tags",
    "C59_undefined_refuted",
    "C59_order_refuted",
    "C59_slash_refuted"
   ],
   "note": "Exactness and the accept/reject criterion proved for all documents in the order of sections the reader expects. FINDINGS (theorems): a label that is not defined anywhere is silently taken for LPAR (number 0, std::map operator[]): C59_undefined_refuted; a section before another one it should follow is silently ignored (C59_order_refuted); a def-label without items written <def-label/> swallows the next one (C59_slash_refuted); <forbid/> and label items with closing tags in a forbidden pair are rejected (C59_rejected)."
  },
  {
   "property": "C60",
   "status": "proved",
   "theorems": [
    "C60_interchunk",
    "C60_no_content_refuted",
    "C60_beyond_pattern_refuted",
    "C60_undefined_macro_refuted",
    "C60_chunk_parts",
    "C60_content",
    "C60_lit_tag",
    "C60_brace_in_head_refuted"
   ],
   "note": "Composition of the tokeniser (C31), compiled patterns (C55), loop (C31) and the interpreter, which is proved to compute the relational meaning of the rules (no cache, no flags) and never to abort. Assumes: rules name chunks of their pattern, macros exist, get as many chunks as they have parameters and are not recursive; no <reject-current-rule>; no element of the other modules; one node of the file is one instruction. FINDINGS (theorems): asking for the content of a chunk without content aborts (C60_no_content_refuted); a position beyond the pattern reads whatever was read ahead (C60_beyond_pattern_refuted); a call of an undefined macro calls the first one (C60_undefined_macro_refuted)."
  },
  {
   "property": "C61",
   "status": "partial",
   "theorems": [
    "C61_postchunk_partial",
    "C61_function",
    "C61_empty_chunk_macro_refuted",
    "C61_let_beyond_refuted",
    "C61_moved_refuted",
    "C61_brace_refuted",
    "C61_reject_refuted"
   ],
   "note": "C61_postchunk_partial: exact characterisation (if and only if) of the output for all texts of chunks and all files without reject-current-rule and without <lu> inside <lu>; words without unescaped { ] (escaped ones allowed); the interpreter is proved equal to the relational meaning. Missing: rules that reject themselves. FINDINGS (theorems): a macro called with a word the chunk has not got reads beyond an array if the chunk is empty (C61_empty_chunk_macro_refuted), an assignment to such a word always (C61_let_beyond_refuted); text before the first word moves behind the next blank and text after the last one is lost when a rule applies (C61_moved_refuted); a brace in a word-bound blank makes the blank part of the lemma (C61_brace_refuted); a rejecting rule prints the leading text twice (C61_reject_refuted)."
  },
  {
   "property": "C62",
   "status": "partial",
   "theorems": [
    "C62_transfer_partial",
    "C62_answers_partial",
    "C62_transfer_reject_partial",
    "C62_answers_reject_partial",
    "C62_lookahead_refuted",
    "C62_lookahead_write_refuted"
   ],
   "note": "C62_transfer_partial: exact characterisation (if and only if) and uniqueness of the output for all texts and all files in the scope of C45 whose rules name only words of their pattern and do not reject themselves; composition of tokens (C54), compiled patterns (C55), the loop (C31) and the interpreter (C45), with a proof that words read ahead do not matter; C62_answers_partial: if macros exist, are called with the words they need and not in a circle (defined_file), every text is answered. Covers <mlu> (with the flag it leaves set, C45_mlu_leak_refuted, as part of what passes from rule to rule). C62_transfer_reject_partial, C62_answers_reject_partial: the same for rules that reject themselves (<reject-current-rule>), with the rules that are tried instead characterised from the patterns (Spec/TrxReject.v), for words without an escaped backslash and shifting=\"no\" or as many words as the pattern has (C31_shift_refuted otherwise). Missing: units inside units or in tests. FINDING (theorems): a position beyond the pattern reads, and can change, a word that was only read ahead (C62_lookahead_refuted, C62_lookahead_write_refuted)."
  },
  {
   "property": "C63",
   "status": "partial",
   "theorems": [
    "C63_restore_partial",
    "C63_unique",
    "C63_compiles",
    "C63_tags_refuted",
    "C63_slash_refuted"
   ],
   "note": "C63_restore_partial: exact characterisation of the output of compiler and restorer together (with C63_unique: it determines the output), for all rule files that compile; the assumption of C36 that no vote reaches outside the words read is proved here. C63_compiles: if and only if. Missing: tags with ? or + directly after + or *, / in lemmas and surfaces. FINDINGS (theorems): \"*.?\" accepts a word without tags because insertSingleTransduction takes the loop (C63_tags_refuted); a rule for lemma a/b, surface x matches the word with lemma a, surface b/x (C63_slash_refuted); a match without conditions does not match a word without a form (ex_no_form)."
  },
  {
   "property": "C64",
   "status": "partial",
   "theorems": [
    "C64_accepted",
    "C64_compiled_file_partial",
    "C64_rule_of_state",
    "C64_undefined_macro_refuted",
    "C64_reserved_tag_refuted"
   ],
   "note": "C64_accepted (if and only if) and C64_compiled_file_partial: everything a transfer program reads, characterised from the declarations; C64_rule_of_state connects the rule numbers with the matcher of C55. Missing because false: FINDING a call of a macro that is not defined is not rejected, it calls the first macro of the file (C64_undefined_macro_refuted: macros[n] makes a new entry 0); FINDING a tag named RULE_NUMBER:n in a category makes rule n go before earlier rules (C64_reserved_tag_refuted)."
  },
  {
   "property": "C65",
   "status": "partial",
   "theorems": [
    "C65_runs_partial",
    "C65_unique",
    "C65_help",
    "C65_abort_refuted",
    "C65_order",
    "C65_flags_refuted",
    "C65_model_refuted",
    "C65_negative_refuted"
   ],
   "note": "C65_runs_partial (if and only if, action with all its files), C65_help, C65_order, C65_unique. Missing because false: FINDING the flags for -b and -e are not initialised by TaggerFlags(), so C65_runs_partial is stated for memory that happens to be zero and C65_flags_refuted shows the rest; FINDING -x with -r or -t aborts (C65_abort_refuted is the exact condition); FINDING -u 12 is model 1 (C65_model_refuted); FINDING -1 iterations are 2^64-1 (C65_negative_refuted). getopt_long itself is trusted."
  },
  {
   "property": "C66",
   "status": "partial",
   "theorems": [
    "C66_pipeline_partial",
    "C66_version",
    "C66_list",
    "C66_rejects",
    "C66_memory_direction_refuted",
    "C66_embedded_refuted",
    "C66_status_refuted",
    "C66_options_refuted",
    "C66_environment_refuted"
   ],
   "note": "C66_pipeline_partial: if and only if, with the whole pipeline, for the formats of the usage text and an environment without the script variables; C66_version, C66_list, C66_rejects for the other outcomes. Missing because false: FINDING the default direction of a translation memory is empty, not the direction (C66_memory_direction_refuted: PAIR is copied before it is set); FINDING without -u the command for embedded sheets has an empty argument and fails, and its empty output replaces the sheet (C66_embedded_refuted); FINDING exit status 0 for all but the plain formats (C66_status_refuted); FINDING -u is ignored with an unknown format, wxmlu calls apertium-deswxmlu, -H is ignored with line, -z does not reach lt-tmxproc (C66_options_refuted); FINDING the script reads UWORDS, REDIR, BORRAFICHERO etc. from the environment (C66_environment_refuted). The programs and bash itself are trusted."
  },
  {
   "property": "C67",
   "status": "partial",
   "theorems": [
    "C67_value_partial",
    "C67_value_base_partial",
    "C67_no_file",
    "C67_again_partial",
    "C67_wrap",
    "C67_told",
    "C67_wrap_nothing",
    "C67_unwrap",
    "C67_identity",
    "C67_off",
    "C67_again_refuted",
    "C67_zero_refuted",
    "C67_manual_refuted",
    "C67_left_refuted",
    "C67_echo_refuted"
   ],
   "note": "C67_value_partial (for well-formed lists), C67_value_base_partial, C67_again_partial, C67_no_file; C67_wrap, C67_unwrap, C67_identity, C67_off, C67_told. Missing because false: FINDING an exception that leaves no option becomes \"key=\" and, resolved again, \"key\" (C67_again_refuted); FINDING the value 0 is not told to the stages (C67_zero_refuted); FINDING commands of the user are removed although the comment promises to keep them (C67_manual_refuted); a command can be left over when another stood inside it (C67_left_refuted); -n as a value is lost in echo (C67_echo_refuted). bash, gawk and xmllint are trusted; backslashes are outside the model."
  },
  {
   "property": "C68",
   "status": "partial",
   "theorems": [
    "C68_printed",
    "C68_unit",
    "C68_classes_partial",
    "C68_discard_refuted",
    "C68_empty_refuted"
   ],
   "note": "C68_printed (every input) and C68_unit; C68_classes_partial for definitions without discard rules and analyses that are not empty (composed with the reader of C47). Missing because false: FINDING with discard rules the printed unit has forms that do not belong to the class, so the classes of the output differ (C68_discard_refuted); FINDING a unit with an empty analysis is printed without analysis and swallows the next one (C68_empty_refuted)."
  },
  {
   "property": "C69",
   "status": "partial",
   "theorems": [
    "C69_boundary",
    "C69_runs",
    "C69_only",
    "C69_text_partial",
    "C69_legal_partial",
    "C69_idempotent_partial",
    "C69_print",
    "C69_link_refuted",
    "C69_hyphen_refuted"
   ],
   "note": "C69_boundary, C69_runs, C69_only and C69_print for every input; C69_text_partial, C69_legal_partial and C69_idempotent_partial for tidy documents. Missing because false: FINDING the text of a link between two runs is overtaken by the text after it (C69_link_refuted); FINDING a comment inside the text makes the text after it appear twice (C69_comment_refuted); FINDING a run whose whole text moves is removed with its picture (C69_picture_refuted); FINDING text moves over a line break (C69_break_refuted); FINDING a final hyphen is moved although it may be cut off (C69_hyphen_refuted). Command line not modelled (the long options --pretty and --file act as --name)."
  },
  {
   "property": "C70",
   "status": "partial",
   "theorems": [
    "C70_variety_partial",
    "C70_again",
    "C70_written_partial",
    "C70_both_partial",
    "C70_reverse_refuted",
    "C70_attributes_refuted",
    "C70_quotes_refuted"
   ],
   "note": "C70_again for every document; C70_variety_partial and C70_both_partial for dictionaries made of the elements and attributes that the style sheet knows and, on the left side, without entries of another variety for generation only; C70_written_partial for documents without double quotes in attributes. Missing because false: FINDING an r=RL entry of another variety becomes r=LR on the left side instead of going (C70_reverse_refuted; on the right side the mirror case is handled); FINDING entries lose i, c, a, lm and other attributes, so ignored entries come alive (C70_attributes_refuted), and unknown elements lose their tags (C70_unknown); FINDING genvdix does not escape double quotes in attributes (C70_quotes_refuted)."
  },
  {
   "property": "C71",
   "status": "partial",
   "theorems": [
    "C71_default_partial",
    "C71_mark",
    "C71_rest",
    "C71_restriction_refuted",
    "C71_empty_refuted",
    "C71_ignored_refuted"
   ],
   "note": "C71_mark and C71_rest for every dictionary; C71_default_partial for those whose sections hold entries only, with marks that are not empty and no entry for one direction that is marked default for the other only. Missing because false: FINDING an r=LR entry with srl default comes out usable in both directions (C71_restriction_refuted); FINDING an entry whose mark is empty is lost (C71_empty_refuted); FINDING entries with marks lose i, lm, c and so on (C71_ignored_refuted)."
  },
  {
   "property": "C72",
   "status": "proved",
   "theorems": [
    "C72_rules",
    "C72_xml",
    "C72_tail_refuted"
   ],
   "note": "C72_rules, C72_xml for every document. FINDING the text after a removed element goes with it (C72_tail_refuted); the root's own list is not looked at (part of the statement)."
  },
  {
   "property": "C73",
   "status": "partial",
   "theorems": [
    "C73_roundtrip_partial",
    "C73_same",
    "C73_hang_refuted",
    "C73_lost_refuted",
    "C73_brace_refuted"
   ],
   "note": "C73_roundtrip_partial: for every text of the grammar Spec/Latex.v (tex), with the results it gives; C73_same: without accents, ligatures, marks and # the result is the text. FINDINGS: \\begin{my-env} and any name with another character than letters, digits or a final star hangs apertium-prelatex (C73_hang_refuted: for every such name and continuation); \\# becomes \\HASH, \\#1 becomes the text <HASH_1/>, # gains a backslash, accents not in the table (\\v{s}, \\=e, \\'i, \\c c) come back as tags, \\'\\i as j, \\emph{\\o} loses its braces, \\begin{CONTENTS} and \\BR become other things, \\begin {x} loses its space, a package option with a character that is not ASCII gains a bracket (C73_lost_refuted); the rule for \\} repeats the pattern of \\{ and never applies (C73_brace_refuted). MISSING: text outside the grammar otherwise, translated text in between."
  },
  {
   "property": "C74",
   "status": "partial",
   "theorems": [
    "C74_roundtrip_partial",
    "C74_invalid_refuted",
    "C74_lost_refuted"
   ],
   "note": "C74_roundtrip_partial: for every text of the grammar Spec/Latex.v (canon), with the results it gives, of the whole table of accents and of every character of two or three bytes. FINDINGS: a byte that belongs to no character makes apertium-postlatex swallow everything after it except letters, new lines and tags (C74_invalid_refuted: for every such continuation); characters beyond U+FFFF lose their upper bits; ł before a letter becomes another command; \\t{ab} loses its tie; accented letters in \\verb become commands; the other losses of C73 except those of # (C74_lost_refuted). The apertium script never calls apertium-postlatex: both latex and latex-raw use apertium-postlatex-raw. MISSING: text outside the grammar otherwise, translated text in between."
  },
  {
   "property": "C75",
   "status": "partial",
   "theorems": [
    "C75_complete",
    "C75_choices_partial",
    "C75_senses_partial",
    "C75_translated_partial",
    "C75_unique",
    "C75_ignored_refuted"
   ],
   "note": "C75_complete: every dictionary of the elements of the document type, paradigms and regular expressions included. C75_choices_partial: the same without entries to be ignored. C75_senses_partial and C75_translated_partial (if and only if): dictionaries whose entries are one pair of words, lemma before tags; C75_unique: sense and word can be told from the result if lemmas contain no __ and do not end in _. FINDINGS: lexchoice.xsl keeps the entries with i=yes, which lexchoicebil.xsl leaves out, so that their words get senses without a translation (C75_ignored_refuted); the parameter r2l=yes is the direction from left to right; varieties (v, vl, vr) are dropped without selecting. MISSING: soundness with paradigms, multiwords with tags before the rest of the lemma."
  }
 ]
}