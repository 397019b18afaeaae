# Formal model of apertium/apertium in Rocq (Coq 8.16.1)

## Layout

    rocq/theories/Model/X.v   executable Gallina model of one source file (each definition cites file:lines)
    rocq/theories/Spec/X.v    small independent specification (of the model it uses only data types and constants)
    rocq/theories/Proofs/X.v  lemmas
    rocq/theories/Props/Cxx.v the property theorems, Print Assumptions after each, and concrete non-trivial
                              cases that meet the hypotheses (Example ..._witness)

`properties.jsonl` lists the properties (generated by tools/props.py), `MANIFEST.json` maps them to theorems,
`seeded/LOG.jsonl` logs the mutation experiments (tools/mutate.py). This file is generated by tools/design.py from
MANIFEST.json, the header comments of the model files and tools/design_*.

Suffixes: `_partial` marks a main theorem whose English property is proved only in part (the note says what is missing),
`_refuted` a theorem that the property as a user would expect it is false of the code (a finding).

## Conventions

* Characters are abstract code units, `N` (bytes for the byte-level tools, UTF-16 units for UString).
* Streams are lists. lttoolbox's `InputFile` (not in /repo) is modelled by the list of the
  characters still to be read: `get` yields the next unit or EOF, `eof()` becomes true only after a read hit the end, `unget` pushes back.
* Loops are structural recursions where possible, otherwise fuelled recursions with a distinct out-of-fuel
  outcome; theorems prove that fuel bounded by the input length suffices (termination), or exhibit the hang.
* Undefined behaviour and `exit(EXIT_FAILURE)` are distinct outcomes.
* Floating point numbers are modelled by exact rationals (`Q`) wherever a property is about probabilities;
  so rounding is not modelled. Where only the order of operations matters, the score type is abstract.
* External code (ICU, libxml2, lttoolbox transducers and compression, PCRE) is a Section variable/parameter of
  the model with its assumed behaviour as explicit hypotheses in theorems.

## Trusted base

* Coq 8.16.1's kernel (and its virtual machine, for `vm_compute`).
* `Print Assumptions` of every theorem in MANIFEST.json answers "Closed under the global context": no theorem depends
  on any axiom. Merely loading stdlib files (QArith, Lia/Lra/Psatz, ssreflect pieces, Reals through Lra) brings the
  following axioms of the standard library into the environment, which is why vcheck lists them; no theorem uses them:
  `Coq.Reals.Rdefinitions.*` (R, R0, R1, Rplus, Rmult, Ropp, Rlt, Rinv, Rabst, Rrepr, Rquot1, Rquot2 and *_def),
  `Coq.Reals.ClassicalDedekindReals.sig_forall_dec`, `sig_not_dec`,
  `Coq.Logic.FunctionalExtensionality.functional_extensionality_dep`, `Coq.ssr.ssrunder.Under_rel.*`.
  No axioms, functors, module types, Admitted or disabled checks of our own; hypotheses are premises of theorems
  (section variables are generalised when the section is closed).
* The faithfulness of the hand transcription of C++ into Gallina. The code was not run; every definition cites its lines.
* The assumed behaviour of code outside /repo, stated in the model files: lttoolbox (InputFile, Compression, PatternList,
  Transducer/MatchExe/MatchState, Alphabet, State, FSTProcessor, StringUtils, XMLParseUtil), ICU (character classes, regular
  expressions), libxml2's reader and trees, flex, POSIX regex, utf8.h, the C++ standard library. Where possible it is an
  arbitrary parameter (theorem for all behaviours), otherwise a model of its documented behaviour or an explicit premise.
* Machine arithmetic: exact rationals for double, unbounded integers for int/size_t, except where a note says otherwise.


## Properties: what is modelled, how it is proved, what was found

### C01 apertium-posttransfer collapses runs of spaces and changes nothing else — proved

*Model and method:* processStream as a recursion on the stream; induction; independent spec: run-length collapse relation

*Result:* Output is the run-collapse of the input (relation total and functional), no double space, idempotent; all inputs.

*Theorems* (each closed under the global context): C01_collapse, C01_collapse_unique, C01_no_double_space, C01_idempotent

### C02 apertium-wblank-detach only inserts closing markers — proved

*Model and method:* byte state machine of wblank-detach.cc; simulation invariant; refutation for C03 by witness

*Result:* Exact output on every well-formed stream; on arbitrary bytes only markers after $ are inserted.

*Theorems* (each closed under the global context): C02_detach_wellformed, C02_detach_only_inserts

### C03 apertium-wblank-detach never loses input — partial

*Model and method:* byte state machine of wblank-detach.cc; simulation invariant; refutation for C03 by witness

*Result:* FINDING: refuted for unclosed blanks / final backslash at end of input; holds for all inputs ending in a flush.

*Theorems* (each closed under the global context): C03_flushed_input_kept_partial, C03_no_loss_refuted, C03_no_invention_refuted

### C04 apertium-wblank-attach keeps the text and places word-bound blanks only before lexical units — proved

*Model and method:* byte state machine of wblank-attach.cc with UB outcome; invariants; refutation for C05

*Result:* Exact output for every well-formed stream; FINDING: escapes inside word-bound blanks are dropped (refutation theorem).

*Theorems* (each closed under the global context): C04_attach_wellformed, C04_escapes_kept_refuted

### C05 apertium-wblank-attach has defined behaviour across NUL flushes — partial

*Model and method:* byte state machine of wblank-attach.cc with UB outcome; invariants; refutation for C05

*Result:* FINDING: refuted ([[a]] NUL [[/]] pops an empty vector); holds for all NUL-free inputs and when no blank is open at a flush.

*Theorems* (each closed under the global context): C05_attach_defined_partial, C05_attach_defined_refuted, C05_attach_defined_flush_partial

### C06 apertium-pretransfer leaves everything outside lexical units unchanged — proved

*Model and method:* functions of pretransfer.cc over InputFile; induction over well-formed stream grammar; hang by divergence theorem

*Result:* Text outside lexical units is byte-identical for every well-formed stream; FINDINGS as refutation theorems (character after a lone ] in a word-bound blank is lost, escaped dollar).

*Theorems* (each closed under the global context): C06_outside_unchanged, C06_wblank_kept_refuted, C06_escaped_dollar_refuted

### C07 apertium-pretransfer splits joined units and moves the lemma queue — proved

*Model and method:* functions of pretransfer.cc over InputFile; induction over well-formed stream grammar; hang by divergence theorem

*Result:* Split of + units and queue movement for every well-formed unit; FINDING: a second queue is moved to the first lemma.

*Theorems* (each closed under the global context): C07_split_unit, C07_split_unit_wblank, C07_surface_forms, C07_second_queue_refuted

### C08 apertium-pretransfer terminates on every input — proved

*Model and method:* functions of pretransfer.cc over InputFile; induction over well-formed stream grammar; hang by divergence theorem

*Result:* Surface-form mode; FINDING: hang at end of input with surface forms.

*Theorems* (each closed under the global context): C08_terminates_partial, C08_terminates_refuted

### C09 apertium-cleanstream emits only the lexical units — proved

*Model and method:* main loop of apertium_cleanstream.cc; grammar induction

*Result:* Exact output for every well-formed stream and option; terminates on every input.

*Theorems* (each closed under the global context): C09_default, C09_options, C09_one_per_line, C09_total

### C10 Collection assigns each tag set one stable index — proved

*Model and method:* Collection as (vector, map); invariant over histories; codec round trip

*Result:* All observations of every history equal those of the list of distinct sets; index stable, injective, invertible.

*Theorems* (each closed under the global context): C10_history, C10_lookup, C10_injective, C10_stable

### C11 Collection survives write and read — proved

*Model and method:* Collection as (vector, map); invariant over histories; codec round trip

*Result:* For every encoder satisfying the round-trip hypothesis; concrete encoder shown; reuse of a non-empty object refuted.

*Theorems* (each closed under the global context): C11_roundtrip, C11_reuse_refuted

### C12 Doubles survive the byte-order-neutral encoding — proved

*Model and method:* byte reversal read/write; list lemma on 8 bytes

*Result:* All 8-byte images, both byte orders; FINDING: truncated file on a big-endian host gives uninitialised bytes.

*Theorems* (each closed under the global context): C12_roundtrip, C12_portable, C12_length, C12_short_is_zero, C12_short_big_refuted

### C13 Serialised tagger structures survive write and read — proved

*Model and method:* Serialiser/Deserialiser instances as codecs; compositional codec round-trip

*Result:* All value types and containers, relative to lttoolbox number/string encoders.

*Theorems* (each closed under the global context): C13_roundtrip, C13_containers

### C14 A written HMM tagger model reads back identically — proved

*Model and method:* TaggerDataHMM::write/read on a symbol stream; compositional codec round-trip

*Result:* HMM and LSW models, all well-formed values; FINDING: reading twice into one object accumulates rules.

*Theorems* (each closed under the global context): C14_hmm_roundtrip, C14_lsw_roundtrip, C14_reread_refuted

### C15 Copying tagger data preserves all of it — partial

*Model and method:* TaggerData::copy; refutation by witness and characterisation

*Result:* FINDING: refuted: discard rules are never copied and a copied Collection points into its source (dangles when the source dies). Proved: all other fields are copied.

*Theorems* (each closed under the global context): C15_fields_partial, C15_discard_refuted, C15_collection_copy_alive, C15_collection_copy_dangles_refuted

### C16 Unigram training accumulates exact fractional counts — proved

*Model and method:* unigram training with occurrence coefficient; invariant over corpus in Q

*Result:* Three models; counts exact for every corpus, order independent.

*Theorems* (each closed under the global context): C16_model1, C16_model2, C16_model3, C16_succeeds, C16_order

### C17 Unigram tagging selects the first best analysis — proved

*Model and method:* unigram training with occurrence coefficient; invariant over corpus in Q

*Result:* First analysis of maximal score, for every model state and every scorable list; every well-formed analysis is scorable.

*Theorems* (each closed under the global context): C17_first_best, C17_scorable, C17_none, C17_model1_score, C17_model2_prefers_frequent, C17_model2_score, C17_model3_score

### C18 Feature vectors behave as sparse vectors — proved

*Model and method:* sparse maps over ordered keys; extensional equality, history invariant

*Result:* Exact rationals; all operations equal the pointwise ones for all vectors; FINDING: the unary constructor collapses duplicates while += does not.

*Theorems* (each closed under the global context): C18_representation, C18_add, C18_sub, C18_add_unary, C18_sub_unary, C18_of_unary, C18_dot_unary, C18_dot, C18_dot_comm, C18_constructor_collapses

### C19 Averaged perceptron weights are the true average — partial

*Model and method:* sparse maps over ordered keys; extensional equality, history invariant

*Result:* FINDING: average() increments an erased iterator whenever a stored feature has zero sum (exact characterisation proved, occurs in ordinary training); otherwise the result is the mean, for every history.

*Theorems* (each closed under the global context): C19_mean_partial, C19_weights, C19_undefined_iff, C19_undefined_refuted

### C20 The perceptron tagger picks one analysis per token — proved

*Model and method:* beam search; induction over sentence

*Result:* Every weight vector, feature function, beam width >= 1, sentence and tie breaking; width 0 is undefined (theorem). Optimality when the beam is at least the number of combinations.

*Theorems* (each closed under the global context): C20_one_analysis_per_token, C20_total, C20_beam, C20_optimal, C20_unambiguous, C20_width0_undefined

### C21 The HMM tagger's choice is the most probable tag sequence — proved

*Model and method:* Viterbi recurrence; optimality by induction over segment

*Result:* Viterbi optimality for every stream of words and every non-negative model (exact arithmetic); every word output once; FINDING: flush on an ambiguous word loses a word (refutation theorem).

*Theorems* (each closed under the global context): C21_most_probable, C21_words, C21_all_words, C21_own_tag, C21_flush_on_ambiguous_refuted

### C22 HMM initialisation from tagged text gives probability rows — proved

*Model and method:* matrices in Q; algebra

*Result:* Supervised and Kupiec initialisation, every corpus and class system; FINDING: ambiguous tagged word counts with the previous tag.

*Theorems* (each closed under the global context): C22_counts, C22_transition_rows, C22_emission_rows, C22_kupiec_counts, C22_kupiec_rows, C22_ambiguous_word_counts_previous_tag

### C23 Forbid/enforce rules hold after apply_rules — proved

*Model and method:* matrices in Q; algebra

*Result:* All matrices, rule sets and orders; forbidden transitions keep positive probability 1e-10/s (theorem).

*Theorems* (each closed under the global context): C23_weights, C23_result, C23_relative_weights, C23_empty_row, C23_forbidden_still_possible

### C24 The light sliding-window tagger distributes one unit of mass per window — partial

*Model and method:* matrices in Q; algebra

*Result:* FINDING: refuted when an enforce rule lists its own tag (is_valid_seq skips the second bigram); proved for all other rule sets, with mass conservation over any number of training passes, argmax tagging, and further findings (empty first document stops the tagger, blanks after NUL, unknown neighbours).

*Theorems* (each closed under the global context): C24_valid, C24_valid_allowed_partial, C24_valid_allowed_refuted, C24_init, C24_train, C24_window_unit, C24_mass, C24_choice, C24_words, C24_contexts, C24_empty_first_document_stops, C24_flush_order, C24_unknown_neighbour

### C25 attr-item lists compile to a regex that matches exactly the listed tags — proved

*Model and method:* trie and regex printing + a regex parser/denotation as specification; language equality; refutation for metacharacters

*Result:* Every list of items over plain characters; backtracking matcher semantics; FINDINGS as refutation theorems (unquoted - forms a range, ( makes it malformed, empty attribute matches <>).

*Theorems* (each closed under the global context): C25_language, C25_match, C25_dash_refuted, C25_paren_refuted, C25_no_items

### C26 multiple-translation expansion yields the full cartesian product — proved

*Model and method:* acceptions, writeMultiple; induction

*Result:* Every list of words, translations and blanks; FINDINGS: a default translation in second place of three or more is not moved to the front (refutation), an answer ending in a backslash is read out of bounds.

*Theorems* (each closed under the global context): C26_rule, C26_choices, C26_acceptions, C26_default_first, C26_order_kept, C26_default_second_refuted, C26_acceptions_total, C26_trailing_backslash_refuted

### C27 unchunking replaces each tag reference by the chunk's tag — partial

*Model and method:* unchunk, combineWblanks, processChoose; induction

*Result:* Proved for every well-formed chunk whose content does not end in a bare character; FINDING (theorem): such a final character is lost; dangling references and lexical units without braces print nothing (theorems).

*Theorems* (each closed under the global context): C27_all, C27_unchunk_partial, C27_last_char_refuted, C27_dangling_reference, C27_not_a_chunk

### C28 combining word-bound blanks keeps every blank's content — proved

*Model and method:* unchunk, combineWblanks, processChoose; induction

*Result:* All strings for neutrality and associativity (except backslashes followed by ]] alone: out-of-bounds read, refutation theorem); contents for all well-formed blanks.

*Theorems* (each closed under the global context): C28_neutral, C28_contents, C28_assoc, C28_backslashes_refuted

### C29 choose executes the first when whose test holds — proved

*Model and method:* unchunk, combineWblanks, processChoose; induction

*Result:* Every choose, every test (with <mlu> too), every cache content; test outcomes characterised for tests without units.

*Theorems* (each closed under the global context): C29_first_when, C29_otherwise, C29_nothing, C29_cases, C29_tests, C29_connectives, C29_comparisons

### C30 interchunk leaves unmatched text unchanged — proved

*Model and method:* token loop of interchunk/transfer with abstract matcher; partition invariant over executions

*Result:* From text to text, for every matcher of word patterns and whatever the rules would do; also for an unmatched part followed by anything.

*Theorems* (each closed under the global context): C30_unmatched_text_unchanged, C30_prefix_unchanged

### C31 structural transfer applies rules left-to-right longest-match — partial

*Model and method:* token loop of interchunk/transfer with abstract matcher; partition invariant over executions

*Result:* Equivalence with the longest-match specification, and termination, for every matcher of word patterns, every rules (which look only at their own words) and every token stream, if a rule rejecting itself with words used up uses up the words it matched; FINDINGS (theorems): otherwise a stale position loses words, and a rejected rule prints its blanks, which are printed again.

*Theorems* (each closed under the global context): C31_longest_match_partial, C31_ends, C31_patterns, C31_interchunk_tokens, C31_transfer_tokens, C31_transfer_wblank, C31_shift_refuted, C31_reject_duplicates_blanks_refuted

### C32 generated debug modes are prefixes of the original and never replace a declared mode — proved

*Model and method:* gen_modes.cc as functions on lists of modes; induction over lists, sorted-map lemmas

*Result:* Every list of modes and every attribute value; FINDINGS as theorems: a mode that is already declared or untrimmed is kept, untrimmed modes get the trace option twice, an empty attribute value is a null dereference.

*Theorems* (each closed under the global context): C32_read, C32_readable, C32_declared, C32_generated, C32_complete, C32_every_step, C32_files, C32_empty_attribute_refuted

### C33 tagging does not modify the tagger model — partial

*Model and method:* find_similar_ambiguity_class with state; refutation of purity; characterisation of the result

*Result:* Class exists for every word and history, known classes answered unchanged, unknown words get the open class, similar class is minimal among those containing the readings; FINDINGS (theorems): looking up an unknown ambiguity class overwrites the open class of the model, the answer depends on earlier look-ups, the class found need not contain the tags.

*Theorems* (each closed under the global context): C33_training, C33_class_exists, C33_known_class, C33_unknown_word, C33_similar_class_partial, C33_unchanged, C33_model_unchanged_refuted, C33_history_refuted, C33_contains_refuted

### C34 sentence-based taggers answer every flush — partial

*Model and method:* SentenceTagger over tokens; refutation and guarded theorem

*Result:* Text to text for every sequence of documents, sentence tagger that returns one analysis (or none) per unit, and options; NUL written per document, sentences partition the units. FINDINGS (theorems): a NUL directly after a unit is swallowed, the unigram tagger never writes the NUL.

*Theorems* (each closed under the global context): C34_tag_partial, C34_sentences, C34_nul_refuted, C34_unigram_refuted

### C35 analyses survive printing and parsing — proved

*Model and method:* printing and parsing; induction

*Result:* Every well-formed lexical unit is read back from its text, printing is injective, output re-reads as the chosen analysis. FINDINGS (theorems): a truncated unit loops for ever, a queue after the tags moves before them.

*Theorems* (each closed under the global context): C35_read_printed, C35_print, C35_reread, C35_injective, C35_queue, C35_truncated_refuted, C35_queue_moved

### C36 capitalisation restoring selects a best path and keeps all words — partial

*Model and method:* CapsRestorer lattice; dynamic programming invariant

*Result:* Text to text for every machine, weighting and sequence of documents of units with at most one reading and word-bound blanks only before units; evidence per word specified separately from the loop. FINDINGS (theorems): a blank at the end counts the last votes again one word further, readings are glued together, pieces after the case note are lost, loose word-bound blanks are lost.

*Theorems* (each closed under the global context): C36_restore_partial, C36_chosen_unique, C36_last_blank_refuted, C36_alternatives_refuted, C36_pieces_refuted, C36_loose_wblank_refuted

### C37 discard-on-ambiguity never removes the last analysis — partial

*Model and method:* discardOnAmbiguity; induction

*Result:* Proved for every word and rule list that at least one analysis is left and exactly the matching ones are discarded if rules are long enough; FINDINGS (theorems): the pattern length is compared with the number of tags, and a rule matching the first analysis drops the tag of the second.

*Theorems* (each closed under the global context): C37_one_rule, C37_intended, C37_keeps_one_partial, C37_second_analysis_refuted, C37_rule_length_refuted

### C38 constants survive write and read — proved

*Model and method:* ConstantManager as a map over histories; codec round trip

*Result:* All histories of setConstant; write/read round trip.

*Theorems* (each closed under the global context): C38_history, C38_roundtrip

### C39 apertium-wblank-mode adds attach/detach in the right positions — proved

*Model and method:* wblank-mode.cc (regex split of the pipeline) ; relational specification, iff, induction over lines

*Result:* Output determined by a relational specification for all mode files, with and without -z (if and only if). Idempotence without -z for new-style modes (C39_idempotent_partial). FINDINGS: bars inside quotes are split; lines are joined without a separator; with -z the helpers get no -z until a second run.

*Theorems* (each closed under the global context): C39_rewritten, C39_idempotent_partial, C39_z_twice_refuted, C39_z_newstyle_refuted, C39_quotes_lines_refuted

### C40 programs reject a wrong number of file arguments — proved

*Model and method:* expect_file_arguments; case analysis for all integers

*Result:* All integers; message equals the enumeration of accepted numbers.

*Theorems* (each closed under the global context): C40_range, C40_exactly

### C41 Perceptron training fixes violations and converges — proved

*Model and method:* trainSentence over the averager of C19 as a relation (ties unspecified); potential-function argument for convergence

*Result:* Exact arithmetic; feature extraction abstract; perceptron convergence bound proved for the actual update rule including early updates.

*Theorems* (each closed under the global context): C41_updates_fix_violations, C41_weight_change, C41_no_update_means_correct, C41_convergence

### C42 the multiple-translation module is left-to-right longest match — proved

*Model and method:* transfer_mult.cc token loop with abstract matcher and bilingual lookup; simulation against a longest-match specification

*Result:* For every matcher with the listed closure properties, instantiated for every set of patterns; FINDING: an unclosed superblank at the end of the input is read forever.

*Theorems* (each closed under the global context): C42_longest_match, C42_tokens, C42_tokenise, C42_unclosed_refuted, C42_patterns

### C43 a postchunk rule sees the words and blanks of its chunk — partial

*Model and method:* opening a chunk (postchunk.cc) on strings with an out-of-bounds outcome; induction over the chunk grammar

*Result:* Words, tags, case and inner blanks proved for every chunk; FINDINGS: text before the first word is moved behind the chunk, text after the last word is not available to the rule; dictionary case is ignored here.

*Theorems* (each closed under the global context): C43_rule_view_partial, C43_counts

### C44 in null-flush mode documents do not influence each other — partial

*Model and method:* tokenisers (readToken of the three modules) with null flush; document-by-document decomposition

*Result:* Transfer and interchunk proved for every sequence of well-formed documents; FINDINGS (theorems): postchunk keeps the last blank of a document, a truncated lexical unit leaks into the next document, and one NUL too many is written.

*Theorems* (each closed under the global context): C44_documents_partial, C44_interchunk_documents, C44_transfer_documents, C44_postchunk_refuted, C44_inword_refuted

### C45 the meaning of transfer rules does not depend on what was evaluated before — partial

*Model and method:* interpreter of transfer rules with its flags, accumulators, caches and pointers; bisimulation with a specification without them

*Result:* Sound and complete against a specification without cache and accumulators, for any sequence of applications of rules and macros, <mlu> included; the only flag in the specification is the one that an <mlu> fails to reset, and C45_no_mlu shows it never set in files without <mlu>. Missing: units inside units, units in tests and in values written into words (the DTD allows them). FINDINGS as theorems (mlu leaks the in-lu flag, copying a variable drops its blank, blanks of variables survive documents, reject in a macro ignored, undefined macro calls the first one, null dereference, modify-case loses the queue).

*Theorems* (each closed under the global context): C45_rules_partial, C45_history_partial, C45_no_mlu, C45_initial, C45_mlu_leak_refuted, C45_copy_refuted, C45_documents_refuted, C45_reject_refuted, C45_undefined_macro_refuted, C45_mlu_null_refuted, C45_queue_refuted, C45_word_parts, C45_mlu_words, C45_unit_text

### C46 a transfer rule loses no formatting between its words — partial

*Model and method:* the same interpreter; invariant: blanks written + blanks left = blanks given

*Result:* Every rule and macro without <b/> inside <get-case-from>, including <mlu>; FINDINGS: <b/> outside <out> duplicates a blank, <b/> in get-case-from changes its text.

*Theorems* (each closed under the global context): C46_blanks_kept_partial, C46_duplicated_refuted, C46_case_from_refuted

### C47 Words read by the statistical tagger — partial

*Model and method:* file_morpho_stream.cc with an abstract matcher; grammar induction on the text

*Result:* Every text of well-formed lexical units, every matcher, prefer and discard rules; parts join to the analysis, longest match characterised, readings characterised. Missing: analyses with a trailing plus or a rest without coarse tag after a cut at the end. FINDINGS (theorems): a unit without analyses swallows the next, carets in superblanks start units, a truncated unit gets the end mark as a reading, analyses with different numbers of parts are mixed.

*Theorems* (each closed under the global context): C47_words_partial, C47_parts_join, C47_longest, C47_readings, C47_defined, C47_no_analysis_refuted, C47_superblank_refuted, C47_truncated_refuted, C47_mixed_refuted

### C48 Tagging changes nothing but the choice of analysis — partial

*Model and method:* composition of C47, C33, C21 with output formatting; text-to-text theorem

*Result:* Text to text for every model and text whose units have single-part analyses or a single analysis; other units are garbled by the program (C47_mixed_refuted).

*Theorems* (each closed under the global context): C48_text_partial

### C49 a training corpus pairs equal sentences of the tagged and the untagged text — partial

*Model and method:* TrainingCorpus (sentence_stream.cc) over two token streams; induction on sentences

*Result:* Strict mode proved in full; alignment proved for every corpus made; skipping proved when no sentence diverges at its first unit and no tagged sentence ends early. FINDINGS (theorems): otherwise an uninitialised pointer is dereferenced, a good sentence is lost, or an exception is thrown in spite of skip-on-error.

*Theorems* (each closed under the global context): C49_strict, C49_aligned, C49_skip_partial, C49_first_unit_refuted, C49_previous_lost_refuted, C49_shorter_refuted

### C50 extracting capitalisation keeps every unit and notes its case — partial

*Model and method:* apertium_extract_caps.cc on texts; grammar induction

*Result:* Text to text for every sequence of documents whose units have a reading. FINDINGS (theorems): a unit without reading loses its text; the case of a reading of several parts is taken of the whole text, tags included.

*Theorems* (each closed under the global context): C50_extract_partial, C50_no_reading_refuted, C50_parts_case_refuted

### C51 deformatting and reformatting give back the document — proved

*Model and method:* the flex scanners generated by deformat.xsl and reformat.xsl, with regular expressions as matching functions; simulation of both on documents, composition is the identity

*Result:* Every format, document, file name source; txt-format.xml in full. Regular expressions are matching functions (flex trusted); context-dependent ones (^ in mediawiki-format.xml) not covered. FINDINGS (theorems): with -n a final period is lost, with -o the heading mark stays, an invalid byte swallows the text after it, the escape-chars of rtf-format-cp1250/1251.xml lack parentheses so that escaped characters are lost, preferred entities of multi-byte characters are never restored.

*Theorems* (each closed under the global context): C51_roundtrip, C51_exact, C51_wellformed, C51_txt, C51_txt_wellformed, C51_nodot_refuted, C51_heading_refuted, C51_invalid_byte, C51_rtf_refuted, C51_prefer_multibyte

### C52 a pass of unsupervised training is a Baum-Welch re-estimation — proved

*Model and method:* forward-backward of HMM::train in exact rationals; sums over all readings by induction over the corpus

*Result:* All corpora, matrices and numbers of passes, in exact arithmetic (doubles, NaN exits and the log-likelihood message are not modelled). The expected-count theorem asks for matrices without zeros on the corpus, which every pass leaves; with zeros rows are still distributions (C52_rows) but counts are floored (C52_zero_floor). FINDING (theorem C52_tail): words after the last unambiguous word are ignored.

*Theorems* (each closed under the global context): C52_rows, C52_expected, C52_textbook, C52_iterate, C52_train, C52_tail, C52_unknown_class

### C53 the perceptron tagger computes the features its .mtx file describes — partial

*Model and method:* compiler (mtx_reader.cc) and stack machine (perceptron_spec.cc); compiler-correctness proof against an evaluator of the documents

*Result:* Compiler and machine correct for all documents without macros, with the results pinned down exactly (iff), when the values met avoid the defects below (safe_doc) and there are at most 255 string constants. Missing: def-macro and inst, reading the .tsx named by coarse-tags, integer overflow. FINDINGS (theorems): <or>/<and> leave operands on the stack (abort or wrong value), <lt> etc. depend on C++ evaluation order, a loop over nothing is the number 0, slices past the end give the last element, <join> drops separators, features 0 and 256 share a key, constant 255 is ".", def-set, beam-width, toklen, strlen, arrlen are never accepted, slot types of earlier features are never forgotten.

*Theorems* (each closed under the global context): C53_features_partial, C53_deterministic, C53_or_refuted, C53_and_or_refuted, C53_lt_refuted, C53_empty_loop_refuted, C53_slice_refuted, C53_join_refuted, C53_keys_refuted, C53_constant_255_refuted, C53_def_set_refuted, C53_beam_width_refuted, C53_lengths_refuted, C53_slot_types_refuted

### C54 transfer takes the sides of a lexical unit apart and passes unmatched units on translated — proved

*Model and method:* three scanners of transfer.cc (applyRule, applyWord, default output); grammar induction with escapes

*Result:* Text to text for every text of units with a non-empty target reading, any matcher and rules. Findings as theorems: a unit without translation disappears (iff), -n with default=chunk puts the word-bound blank inside the unit, an unclosed tag makes the default translation read beyond the unit, the three scanners disagree on escaped > in a tag.

*Theorems* (each closed under the global context): C54_tokens, C54_rule_sides, C54_matched_side, C54_default_unit, C54_default_chunk, C54_unmatched_text_translated, C54_no_translation_refuted, C54_disappears_iff, C54_chunk_wblank_refuted, C54_unclosed_tag_refuted, C54_escaped_gt_refuted, C54_wblank_escape_refuted

### C55 transfer applies the first rule of the file whose pattern matches — proved

*Model and method:* trx_reader.cc building a transducer; language of the automaton = patterns, by invariants on the construction; numbering of finals

*Result:* Compiler, finals map and matcher input proved equivalent to the specification (iff) for all rule files and units; lttoolbox Transducer/MatchState primitives are modelled from their documented behaviour. Rejected rules: C55_rejected_rules (if and only if, for words without an escaped backslash). FINDINGS (theorems): a lemma with an upper-case letter never matches; lemma without tags is ignored and the item matches any untagged word; a backslash in a lemma prevents the match; ** means one or more; escaped $, space and ^ in a word match word boundaries; after reject-current-rule another matching rule whose stars match in the same places is not tried (C55_rejected_hides_refuted).

*Theorems* (each closed under the global context): C55_compiles, C55_last_definition, C55_first_matching_rule, C55_no_rule, C55_rejected_rules, C55_seen, C55_later_duplicate_dead, C55_uppercase_lemma_refuted, C55_lemma_without_tags_refuted, C55_backslash_lemma_refuted, C55_double_star_refuted, C55_escaped_boundary_refuted, C55_rejected_hides_refuted

### C56 structural transfer is left-to-right longest match of the rules of the file, text to text — proved

*Model and method:* composition of C31, C54, C55 with the compiled machine executed on the text

*Result:* Composition of C54 (tokens, sides, default), C55 (compiled patterns) and C31 (loop): the compiled machine is executed (Model/TrxMachine.v) on the text and both sides have exactly one, equal, result. Assumes: patterns with at least one word, cat-items without ** or $ or backslash, words without an escaped $ (C55 shows what happens otherwise), rules that do not reject themselves (C31/C55 treat those).

*Theorems* (each closed under the global context): C56_transfer

### C57 the sentence aligner prints a cheapest alignment of the two texts — partial

*Model and method:* the aligner: band matrix, dynamic programming, trail, ladder, printing, with double as Q; optimality by induction over the grid

*Result:* Proved: totality, reading, similarity and lengths, optimality within the band (whole grid for small books), printed pieces consecutive and complete from the point where the trail meets the border. Refuted (FINDINGS, theorems): the first sentences of one book can be lost (C57_nothing_lost_refuted, exactly the leading unpaired ones by C57_lead_unpaired); pairing two source sentences with one target sentence is never considered, so swapping the files does not swap the columns (C57_symmetry_refuted). Beyond 2^31 sentence pairs the int products overflow (not covered). C++ doubles are modelled by exact rationals.

*Theorems* (each closed under the global context): C57_reads_anything, C57_reads_lines, C57_alignment_partial, C57_any_files_partial, C57_sizes, C57_small_books, C57_lead_unpaired, C57_nothing_lost_refuted, C57_symmetry_refuted

### C58 apertium-tmxbuild writes a TMX of the aligned sentences of its two documents — partial

*Model and method:* tmx_builder.cc: sentence cutting, UTF-8, alignment (C57), cleaning, escaping, output; composition

*Result:* Exact output proved for all well-formed documents (basic plane, no newlines outside blanks, sizes within five-fold and 2^31 pairs): sentences, segments, alignment, units. FINDINGS (theorems): printTU prints a pair only if the source segment is EMPTY, so for any input no real translation pair is ever written (C58_source_empty, C58_translation_refuted); the text after the last sentence end is lost, also after a full stop at the end of the file; every target text begins with a tab, so a leading <ph/> becomes ph/> (C58_placeholder_damaged); <ph/> before trailing blanks becomes <ph/ and the TMX is ill-formed; characters outside the basic plane are cut to 16 bits; an unclosed blank ends the program. All command line options except the languages are dead.

*Theorems* (each closed under the global context): C58_tmx_partial, C58_sizes, C58_source_empty, C58_unclosed_blank, C58_segment_unique, C58_trimmed, C58_wellformed, C58_placeholder_damaged, C58_translation_refuted, C58_last_sentence_refuted, C58_wellformed_refuted, C58_trimmed_refuted, C58_characters_refuted

### C59 tagger definitions (.tsx) are read as written — partial

*Model and method:* tsx_reader.cc as a state machine over XML reader nodes; induction over the document grammar

*Result:* Exactness and the accept/reject criterion proved for all documents in the order of sections the reader expects. FINDINGS (theorems): a label that is not defined anywhere is silently taken for LPAR (number 0, std::map operator[]): C59_undefined_refuted; a section before another one it should follow is silently ignored (C59_order_refuted); a def-label without items written <def-label/> swallows the next one (C59_slash_refuted); <forbid/> and label items with closing tags in a forbidden pair are rejected (C59_rejected).

*Theorems* (each closed under the global context): C59_read_partial, C59_comments, C59_cut_short, C59_tags, C59_undefined_refuted, C59_order_refuted, C59_slash_refuted

### C60 apertium-interchunk replaces chunks as its rules say, text to text — proved

*Model and method:* interpreter of interchunk.cc with its cache, simulated by an interpreter on the specification state, proved equal to the relational meaning; total for well-formed rules; composed with tokens, machine and loop

*Result:* Composition of the tokeniser (C31), compiled patterns (C55), loop (C31) and the interpreter, which is proved to compute the relational meaning of the rules (no cache, no flags) and never to abort. Assumes: rules name chunks of their pattern, macros exist, get as many chunks as they have parameters and are not recursive; no <reject-current-rule>; no element of the other modules; one node of the file is one instruction. FINDINGS (theorems): asking for the content of a chunk without content aborts (C60_no_content_refuted); a position beyond the pattern reads whatever was read ahead (C60_beyond_pattern_refuted); a call of an undefined macro calls the first one (C60_undefined_macro_refuted).

*Theorems* (each closed under the global context): C60_interchunk, C60_no_content_refuted, C60_beyond_pattern_refuted, C60_undefined_macro_refuted, C60_chunk_parts, C60_content, C60_lit_tag, C60_brace_in_head_refuted

### C61 apertium-postchunk replaces every chunk by what its rule says, text to text — partial

*Model and method:* interpreter of postchunk.cc (cache, flags, blank accumulators) proved equal to a relational meaning; patterns of one item: nothing matches after the dollar; loop with pointers into the token buffer; induction over the chunks

*Result:* C61_postchunk_partial: exact characterisation (if and only if) of the output for all texts of chunks and all files without reject-current-rule and without <lu> inside <lu>; words without unescaped { ] (escaped ones allowed); the interpreter is proved equal to the relational meaning. Missing: rules that reject themselves. FINDINGS (theorems): a macro called with a word the chunk has not got reads beyond an array if the chunk is empty (C61_empty_chunk_macro_refuted), an assignment to such a word always (C61_let_beyond_refuted); text before the first word moves behind the next blank and text after the last one is lost when a rule applies (C61_moved_refuted); a brace in a word-bound blank makes the blank part of the lemma (C61_brace_refuted); a rejecting rule prints the leading text twice (C61_reject_refuted).

*Theorems* (each closed under the global context): C61_postchunk_partial, C61_function, C61_empty_chunk_macro_refuted, C61_let_beyond_refuted, C61_moved_refuted, C61_brace_refuted, C61_reject_refuted

### C62 apertium-transfer -b replaces units as its rules say, text to text — partial

*Model and method:* applyRule on the words read (also those ahead); locality of rules in the words of their pattern; soundness and completeness of the interpreter (C45) per rule; induction over the transferred text; composed with tokens, machine and loop (C56)

*Result:* C62_transfer_partial: exact characterisation (if and only if) and uniqueness of the output for all texts and all files in the scope of C45 whose rules name only words of their pattern and do not reject themselves; composition of tokens (C54), compiled patterns (C55), the loop (C31) and the interpreter (C45), with a proof that words read ahead do not matter; C62_answers_partial: if macros exist, are called with the words they need and not in a circle (defined_file), every text is answered. Covers <mlu> (with the flag it leaves set, C45_mlu_leak_refuted, as part of what passes from rule to rule). C62_transfer_reject_partial, C62_answers_reject_partial: the same for rules that reject themselves (<reject-current-rule>), with the rules that are tried instead characterised from the patterns (Spec/TrxReject.v), for words without an escaped backslash and shifting="no" or as many words as the pattern has (C31_shift_refuted otherwise). Missing: units inside units or in tests. FINDING (theorems): a position beyond the pattern reads, and can change, a word that was only read ahead (C62_lookahead_refuted, C62_lookahead_write_refuted).

*Theorems* (each closed under the global context): C62_transfer_partial, C62_answers_partial, C62_transfer_reject_partial, C62_answers_reject_partial, C62_lookahead_refuted, C62_lookahead_write_refuted

### C63 A capitalisation rule votes exactly where its pattern matches — partial

*Model and method:* the transducer of lttoolbox as a list of edges, the compiler function by function; every insertion adds a fragment with a known language (runs over streams of symbol alternatives); streams of words are split back at the boundaries; State as the set of runs; composed with C36

*Result:* C63_restore_partial: exact characterisation of the output of compiler and restorer together (with C63_unique: it determines the output), for all rule files that compile; the assumption of C36 that no vote reaches outside the words read is proved here. C63_compiles: if and only if. Missing: tags with ? or + directly after + or *, / in lemmas and surfaces. FINDINGS (theorems): "*.?" accepts a word without tags because insertSingleTransduction takes the loop (C63_tags_refuted); a rule for lemma a/b, surface x matches the word with lemma a, surface b/x (C63_slash_refuted); a match without conditions does not match a word without a form (ex_no_form).

*Theorems* (each closed under the global context): C63_restore_partial, C63_unique, C63_compiles, C63_tags_refuted, C63_slash_refuted

### C64 the compiled rule file carries what the rule file declares — partial

*Model and method:* declarations as data, the tables as sorted association lists, the file as bytes with encoders as parameters; the loop over the arcs by induction on the arcs of a state in symbol order (last one written wins; symbols are numbered downwards); decimal printing and parsing of rule numbers

*Result:* C64_accepted (if and only if) and C64_compiled_file_partial: everything a transfer program reads, characterised from the declarations; C64_rule_of_state connects the rule numbers with the matcher of C55. Missing because false: FINDING a call of a macro that is not defined is not rejected, it calls the first macro of the file (C64_undefined_macro_refuted: macros[n] makes a new entry 0); FINDING a tag named RULE_NUMBER:n in a category makes rule n go before earlier rules (C64_reserved_tag_refuted).

*Theorems* (each closed under the global context): C64_accepted, C64_compiled_file_partial, C64_rule_of_state, C64_undefined_macro_refuted, C64_reserved_tag_refuted

### C65 apertium-tagger does what a usage line of its help text says — partial

*Model and method:* the options as getopt_long returns them, state and loop as in the constructor, strtoul modelled on strings; the state after the loop is described from the multiset of options (an invariant of the loop), then the dispatch is compared with an inductive list of usage lines

*Result:* C65_runs_partial (if and only if, action with all its files), C65_help, C65_order, C65_unique. Missing because false: FINDING the flags for -b and -e are not initialised by TaggerFlags(), so C65_runs_partial is stated for memory that happens to be zero and C65_flags_refuted shows the rest; FINDING -x with -r or -t aborts (C65_abort_refuted is the exact condition); FINDING -u 12 is model 1 (C65_model_refuted); FINDING -1 iterations are 2^64-1 (C65_negative_refuted). getopt_long itself is trusted.

*Theorems* (each closed under the global context): C65_runs_partial, C65_unique, C65_help, C65_abort_refuted, C65_order, C65_flags_refuted, C65_model_refuted, C65_negative_refuted

### C66 the script apertium starts the pipeline its options ask for — partial

*Model and method:* the script as a function from arguments, environment and answers of the system to a pipeline (command lines as data); options as an inductive reading relation, the getopts loop by induction on the size of the arguments, the state described from the options by induction from the end, the case over formats by computation on the names

*Result:* C66_pipeline_partial: if and only if, with the whole pipeline, for the formats of the usage text and an environment without the script variables; C66_version, C66_list, C66_rejects for the other outcomes. Missing because false: FINDING the default direction of a translation memory is empty, not the direction (C66_memory_direction_refuted: PAIR is copied before it is set); FINDING without -u the command for embedded sheets has an empty argument and fails, and its empty output replaces the sheet (C66_embedded_refuted); FINDING exit status 0 for all but the plain formats (C66_status_refuted); FINDING -u is ignored with an unknown format, wxmlu calls apertium-deswxmlu, -H is ignored with line, -z does not reach lt-tmxproc (C66_options_refuted); FINDING the script reads UWORDS, REDIR, BORRAFICHERO etc. from the environment (C66_environment_refuted). The programs and bash itself are trusted.

*Theorems* (each closed under the global context): C66_pipeline_partial, C66_version, C66_list, C66_rejects, C66_memory_direction_refuted, C66_embedded_refuted, C66_status_refuted, C66_options_refuted, C66_environment_refuted

### C67 preferences reach every message and do not show in the translation — partial

*Model and method:* the filters as functions on texts split in records, the loop of bash as a fold over the texts between commas; gsub with a counter of skipped characters; a command cannot begin inside free text because its only [ is the first character; resolution by induction over the written list

*Result:* C67_value_partial (for well-formed lists), C67_value_base_partial, C67_again_partial, C67_no_file; C67_wrap, C67_unwrap, C67_identity, C67_off, C67_told. Missing because false: FINDING an exception that leaves no option becomes "key=" and, resolved again, "key" (C67_again_refuted); FINDING the value 0 is not told to the stages (C67_zero_refuted); FINDING commands of the user are removed although the comment promises to keep them (C67_manual_refuted); a command can be left over when another stood inside it (C67_left_refuted); -n as a value is lost in echo (C67_echo_refuted). bash, gawk and xmllint are trusted; backslashes are outside the model.

*Theorems* (each closed under the global context): C67_value_partial, C67_value_base_partial, C67_no_file, C67_again_partial, C67_wrap, C67_told, C67_wrap_nothing, C67_unwrap, C67_identity, C67_off, C67_again_refuted, C67_zero_refuted, C67_manual_refuted, C67_left_refuted, C67_echo_refuted

### C68 apertium-filter-ambiguity keeps one unit of every ambiguity class — partial

*Model and method:* the loop over the words of the reader of C47; positions by induction with the classes seen; the output is shown to be the text of a document of units again (a part that was matched inside an analysis is matched alone), to which the theorem of C47 applies

*Result:* C68_printed (every input) and C68_unit; C68_classes_partial for definitions without discard rules and analyses that are not empty (composed with the reader of C47). Missing because false: FINDING with discard rules the printed unit has forms that do not belong to the class, so the classes of the output differ (C68_discard_refuted); FINDING a unit with an empty analysis is printed without analysis and swallows the next one (C68_empty_refuted).

*Theorems* (each closed under the global context): C68_printed, C68_unit, C68_classes_partial, C68_discard_refuted, C68_empty_refuted

### C69 apertium-adapt-docx moves run boundaries to word ends and keeps the text — partial

*Model and method:* findBoundary is shown to return the least position that is not stuck, a property of the position alone; adjust by an invariant on the cumulative ends of the runs (those left of the current one are final, those between are equal to its end, those right are the old ones); documents by induction on the tree

*Result:* C69_boundary, C69_runs, C69_only and C69_print for every input; C69_text_partial, C69_legal_partial and C69_idempotent_partial for tidy documents. Missing because false: FINDING the text of a link between two runs is overtaken by the text after it (C69_link_refuted); FINDING a comment inside the text makes the text after it appear twice (C69_comment_refuted); FINDING a run whose whole text moves is removed with its picture (C69_picture_refuted); FINDING text moves over a line break (C69_break_refuted); FINDING a final hyphen is moved although it may be cut off (C69_hyphen_refuted). Command line not modelled (the long options --pretty and --file act as --name).

*Theorems* (each closed under the global context): C69_boundary, C69_runs, C69_only, C69_text_partial, C69_legal_partial, C69_idempotent_partial, C69_print, C69_link_refuted, C69_hyphen_refuted

### C70 The dictionary generated for a variety has the entries of that variety — partial

*Model and method:* per entry, the output's r is compared with the wanted directions by cases; documents by induction on the tree; the SAX handler's buffer by an invariant (everything buffered is start tags, and after any event sequence of a node the text written is the printed node); the printed text is related to the tree by an XML grammar given as an inductive relation

*Result:* C70_again for every document; C70_variety_partial and C70_both_partial for dictionaries made of the elements and attributes that the style sheet knows and, on the left side, without entries of another variety for generation only; C70_written_partial for documents without double quotes in attributes. Missing because false: FINDING an r=RL entry of another variety becomes r=LR on the left side instead of going (C70_reverse_refuted; on the right side the mirror case is handled); FINDING entries lose i, c, a, lm and other attributes, so ignored entries come alive (C70_attributes_refuted), and unknown elements lose their tags (C70_unknown); FINDING genvdix does not escape double quotes in attributes (C70_quotes_refuted).

*Theorems* (each closed under the global context): C70_variety_partial, C70_again, C70_written_partial, C70_both_partial, C70_reverse_refuted, C70_attributes_refuted, C70_quotes_refuted

### C71 translate-to-default-equivalent keeps the default translations — partial

*Model and method:* each entry by cases on its marks and r against an independent definition of usable and default; sections and the document by list lemmas

*Result:* C71_mark and C71_rest for every dictionary; C71_default_partial for those whose sections hold entries only, with marks that are not empty and no entry for one direction that is marked default for the other only. Missing because false: FINDING an r=LR entry with srl default comes out usable in both directions (C71_restriction_refuted); FINDING an entry whose mark is empty is lost (C71_empty_refuted); FINDING entries with marks lose i, lm, c and so on (C71_ignored_refuted).

*Theorems* (each closed under the global context): C71_default_partial, C71_mark, C71_rest, C71_restriction_refuted, C71_empty_refuted, C71_ignored_refuted

### C72 Filtering rule files by variety removes exactly the other varieties' elements — proved

*Model and method:* documents are flattened into the ways to their elements; induction on the tree shows that pruning subtrees is filtering ways

*Result:* C72_rules, C72_xml for every document. FINDING the text after a removed element goes with it (C72_tail_refuted); the root's own list is not looked at (part of the statement).

*Theorems* (each closed under the global context): C72_rules, C72_xml, C72_tail_refuted

### C73 LaTeX comes back from apertium-prelatex and apertium-postlatex-raw — partial

*Model and method:* flex rules as sequences of classes, longest match; each piece is one or more steps of the first scanner whose output is consumed by steps of the second that do not depend on what follows; induction on the grammar

*Result:* C73_roundtrip_partial: for every text of the grammar Spec/Latex.v (tex), with the results it gives; C73_same: without accents, ligatures, marks and # the result is the text. FINDINGS: \begin{my-env} and any name with another character than letters, digits or a final star hangs apertium-prelatex (C73_hang_refuted: for every such name and continuation); \# becomes \HASH, \#1 becomes the text <HASH_1/>, # gains a backslash, accents not in the table (\v{s}, \=e, \'i, \c c) come back as tags, \'\i as j, \emph{\o} loses its braces, \begin{CONTENTS} and \BR become other things, \begin {x} loses its space, a package option with a character that is not ASCII gains a bracket (C73_lost_refuted); the rule for \} repeats the pattern of \{ and never applies (C73_brace_refuted). MISSING: text outside the grammar otherwise, translated text in between.

*Theorems* (each closed under the global context): C73_roundtrip_partial, C73_same, C73_hang_refuted, C73_lost_refuted, C73_brace_refuted

### C74 LaTeX comes back from apertium-prelatex and apertium-postlatex as LaTeX — partial

*Model and method:* as C73, with the second scanner apertium-postlatex: UTF-8 decoding as a byte automaton in the scanner's state, whose buffer is empty between pieces

*Result:* C74_roundtrip_partial: for every text of the grammar Spec/Latex.v (canon), with the results it gives, of the whole table of accents and of every character of two or three bytes. FINDINGS: a byte that belongs to no character makes apertium-postlatex swallow everything after it except letters, new lines and tags (C74_invalid_refuted: for every such continuation); characters beyond U+FFFF lose their upper bits; ł before a letter becomes another command; \t{ab} loses its tie; accented letters in \verb become commands; the other losses of C73 except those of # (C74_lost_refuted). The apertium script never calls apertium-postlatex: both latex and latex-raw use apertium-postlatex-raw. MISSING: text outside the grammar otherwise, translated text in between.

*Theorems* (each closed under the global context): C74_roundtrip_partial, C74_invalid_refuted, C74_lost_refuted

### C75 Lexical choice dictionaries translate what the dictionary translates — partial

*Model and method:* templates as functions on trees as in C70; meaning of a dictionary as an inductive relation with paradigms; induction on derivations in the original and in the generated dictionary

*Result:* C75_complete: every dictionary of the elements of the document type, paradigms and regular expressions included. C75_choices_partial: the same without entries to be ignored. C75_senses_partial and C75_translated_partial (if and only if): dictionaries whose entries are one pair of words, lemma before tags; C75_unique: sense and word can be told from the result if lemmas contain no __ and do not end in _. FINDINGS: lexchoice.xsl keeps the entries with i=yes, which lexchoicebil.xsl leaves out, so that their words get senses without a translation (C75_ignored_refuted); the parameter r2l=yes is the direction from left to right; varieties (v, vl, vr) are dropped without selecting. MISSING: soundness with paradigms, multiwords with tags before the rest of the lemma.

*Theorems* (each closed under the global context): C75_complete, C75_choices_partial, C75_senses_partial, C75_translated_partial, C75_unique, C75_ignored_refuted

## Which code is modelled: one row per model file

| Model file | what it models, and simplifications |
|---|---|
| AMap.v | [std::map<K,V>] where only look-up, [insert]-or-update, [size] and order-independent folds are used: an association list with unique keys (kept by [upd]). Key equivalence under the C++ operator< is equality for all key types used here (morpheme.cc:40-45, analysis.cc:41-43, a.cc:26-31, i.cc:27, lemma.cc:29-31). |
| AdaptDocx.v | apertium-adapt-docx (apertium/adapt_docx.cc): moving the boundaries of text runs to the ends of words. Simplifications: characters are code points (the program works on UTF-8, where the end of a run is the end of a character); libxml's tree is an inductive type with the attribute xml:space and without the others, which the program does not touch; comments, CDATA sections and so on are [Other]. Paragraphs inside paragraphs are processed before the outer one, in the program after it: neither looks at what the other changes. u_isalpha is a parameter. Memory is not modelled. |
| ApertiumCmd.v | The script "apertium" (apertium/apertium-header.sh): options, checks, and the pipeline that is started for a format. Simplifications: what the script asks the system (which files exist, which commands are there, what mktemp answers) is a record [sys]; variables of the script that it does not set are read from the environment, a record [env]; programs are not run: the result is the pipeline, as command lines with all their arguments. The filters written in awk and sed are named, not modelled. The option loop is bash's getopts in silent mode. A "cat" in the middle or at the end of a pipeline is left out, and so are messages: the kind of exit is kept. |
| Base.v | Shared vocabulary of all models: characters, strings, streams. Characters are abstract code units ([N]). Byte-level tools (wblank-*.cc) use bytes, UString-level code uses UTF-16 code units; no model depends on the bound, except where said. |
| BaumWelch.v | apertium/hmm.cc:86-93, 444-669: unsupervised (Baum-Welch) training of the HMM tagger. Exact rationals; overflow, underflow, NaN checks (exits) and the log-likelihood printed on stderr are not modelled. A std::map<int, double> is a function that is 0 where no entry was made. |
| Caps.v | apertium/caps_restorer.cc (CapsRestorer) and apertium/apertium_extract_caps.cc. External (lttoolbox, not in the repository), assumed as follows. InputFile: get takes the next character and returns U_EOF at the end, unget and peek as usual; readBlank(false) reads up to a '^', a "[[" or a NUL outside superblanks [...], or the end, a backslash protecting the next character; finishWBlank reads up to the next "]]" and returns the text with "[[" and "]]"; readBlock up to the next '>' not escaped, exit at the end of the input. eof() may or may not be true after the last character was read and before a read failed ([late] = it is not). Alphabet, State and TransExe: an abstract machine (section variables). StringUtils::split/join: on "; "; tolower, totitle, toupper, getcase, merge_wblanks: arbitrary functions. double: an arbitrary type with + and >=. |
| CapsRules.v | apertium/caps_compiler.cc (apertium-compile-caps) and the machine of apertium/caps_restorer.cc. External (lttoolbox, not in the repository), modelled from its documented behaviour, without weights: Transducer (insertSingleTransduction, insertNewSingleTransduction, linkStates, setFinal, joinFinals, insertTransducer, optional), State (init, step, step_optional, merge, filterFinalsLRX), Alphabet::tokenize. Simplifications: XML is given as data (elements with their attributes; [cm_tags] is the attribute tags split at its dots by StringUtils::split_escaped, from and upto are the numbers stoi reads); minimize keeps the strings of symbol pairs accepted and is taken as the identity; writing and reading the file gives the same machine; a tag that the alphabet does not know is a symbol of its own, which no transition has; characters are code points. |
| ChunkLoop.v | The rule-application loop shared by apertium/transfer.cc (932-1237), apertium/interchunk.cc (454-588) and apertium/postchunk.cc (550-679); line numbers below are those of interchunk.cc. Simplifications: the pattern matcher (lttoolbox MatchState/MatchExe), the actions of rules and the default treatment of a word are parameters; the circular token buffer is an unbounded list of tokens (positions are indices into it, [l_hi] is the number of tokens read so far); tracing is omitted. Postchunk's rules change the blank after the chunk (see C43): omitted. |
| ChunkTokens.v | Tokenisers of the chunk modules. [None]: the code would read on for ever after the end of the input, or append U_EOF. [nf]: internal_null_flush. Result: the tokens of the document, and the rest of the input after its NUL, if there is one. |
| Cleanstream.v | apertium/apertium_cleanstream.cc:34-104 [main], options -n ([spaced = false]) and -b ([keepblank]). Error messages on stderr are not modelled. [InputFile::readBlock] is lttoolbox code (assumed: it returns "[" and everything up to and including the first unescaped "]", or up to the end of input). |
| Codec.v | Byte streams and the reader/writer style of the C++ code ([FILE*] or streams). The primitive encoders [Compression::multibyte_*] / [string_*] and [Serialiser<integral>] live in lttoolbox (not in /repo). They are parameters; a property theorem assumes only that reading what was written gives it back (hypothesis [RT]), and Proofs/Codec.v shows a concrete encoder that satisfies the hypothesis. |
| Collection.v | apertium/collection.cc:25-113, collection.h:30-35. [set<int>] is a sorted list of numbers; [index : map<set<int>,int>] an association list (its iteration order is never used); [element] points to the keys of [index] and is modelled by the keys themselves (aliasing is modelled separately in Model/TaggerDataCopy.v). |
| ConstantManager.v | apertium/constant_manager.cc:58-92: [map<UString,int> constants]. Values are the non-negative constants (a negative int is outside multibyte_write's range and aborts the program). |
| DictScripts.v | The scripts that cut a dictionary or a rule file down to one variety of a language: scripts/filter-dix.xslt, apertium-genvdix / -genvldix / -genvrdix, translate-to-default-equivalent.xslt, apertium-filter-rules, apertium-filter-xml. XML trees are an inductive type; comments and processing instructions are [Mk]. Namespaces, entities and the document type are not modelled. xsltproc, the SAX reader and ElementTree are replaced by what they do to such trees: templates by name, events in document order, and the text after an element (its tail) goes when the element is removed. The output is the tree the programs serialise, except for genvdix, which writes text itself. |
| EndianDouble.v | apertium/endian_double_util.cc:26-93. A [double] is its memory image: 8 bytes, lowest address first. |
| FeatureVec.v | apertium/feature_vec.cc:11-200, feature_vec_averager.cc:1-57. Weights are exact rationals (double rounding is not modelled). [std::map<FeatureKey,double,CompareFeatureKey>] is a list sorted by the comparison. |
| FilterAmb.v | apertium-filter-ambiguity (apertium/apertium_filter_ambiguity.cc): HMM::filter_ambiguity_classes, hmm.cc:424-443, with TaggerWord::outputOriginal, tagger_word.cc:325-340. The words are those of Model/MorphoStream.v, without null flush (file_morpho_stream.cc:33). The rest of the main program opens files. |
| Format.v | Deformatters and reformatters: the flex scanners generated by apertium/deformat.xsl (mode "apertium") and apertium/reformat.xsl from a format description (apertium/*-format.xml). Text is bytes. A regular expression is given by the function that returns the length of its longest match at the head of a text. The buffer is kept as UTF-8 (the code keeps UTF-16: bufferAppend and put convert); [usize] is its size in UTF-16 units. Not modelled: mode "matxin", command line, caseless (part of the matchers). |
| HMM.v | apertium/hmm.cc. Probabilities are exact rationals (double rounding, NaN and overflow are not modelled); matrices are functions on indices below N (tags) and M (ambiguity classes). |
| Interchunk.v | apertium-interchunk: chunks (apertium/interchunk_word.cc 62-137), the interpreter of its rules (apertium/interchunk.cc 28-360, apertium/transfer_base.cc 178-555), the application of a rule (interchunk.cc 590-631) and what the pattern matcher is fed (interchunk.cc 633-676). [None]: undefined behaviour, an exception, exit, or macro calls nested deeper than the fuel. Simplifications as in Model/TransferRules.v: rule files are syntax trees ([id] stands for the address of a node, on which the cache of compiled nodes depends); children are in the order of interchunk.dtd; regular expressions of attributes, case functions and lower-casing are parameters; messages and tracing are omitted; positions are those of the file minus one. |
| LSW.v | apertium/lswpost.cc (light sliding-window tagger). Exact rationals for double; the class lookups with their error exits (require_ambiguity_class) and warnings are not modelled. |
| Latex.v | apertium-prelatex, apertium-postlatex-raw, apertium-postlatex (the .l files of these names) and AccentsMap (latex_accentsmap.cc): LaTeX to tags and back. Characters are bytes; non-ASCII letters are written as UTF-8. A flex rule is a sequence of character classes, with +, * and ?, an alternative being written as two rules; every class that can repeat excludes what follows it, so that taking as much as possible is the longest match. The generated scanner is replaced by what it does: the longest match, of rules with equally long ones the first; the state that BEGIN sets. A match of length 0 is possible (219) and the scanner then goes on for ever. Not modelled: the command line, and accents whose letter is not ASCII (to_ustring sees half a character). |
| LexChoice.v | lexchoice.xsl and lexchoicebil.xsl: a dictionary with senses (srl, slr) is turned into one that adds the senses to its words and one that translates words with senses. Templates by element name on trees, as in DictScripts; the parameter r2l is true if it is given as yes. [pa] are the attributes of the element above, for ../@srl. |
| Modes.v | apertium-gen-modes: apertium/gen_modes.cc (33-340). Strings are bytes (here: [str]); std::map is a list sorted by name. [None]: a null pointer is followed (an attribute with an empty value has no text node). Not modelled: command line, directories (an absolute path is a parameter), error messages. |
| MorphoStream.v | apertium/file_morpho_stream.cc: reading the words of the tagger's input. The matcher (lttoolbox MatchState over the patterns of the model) is a parameter: state after a character, after a tag (by its name in angle brackets; the empty name stands for an unterminated tag), classification, and whether no state is alive. Words are allocated objects in C++; the queue [vwords] is a list of them. |
| Mtx.v | apertium/mtx_reader.cc, xml_reader.cc: the compiler from metatag (.mtx) files to the byte code of PerceptronVM.v. The XML document is the list of tags the libxml2 reader delivers; text, comments and the document type are dropped before ([stepToTag] skips them), so text inside an element that must be empty is not modelled. A tag carries the attributes of its element, also the closing one (libxml2 answers attribute queries there too; <slice> needs that). An element written [<a/>] is one opening tag. [None] is: the compiler does not accept the document (message and exit, failed assertion, undefined behaviour, or the fuel is exhausted). def-macro, macro and inst are not modelled (None), nor is reading the .tsx file of coarse-tags. |
| Perceptron.v | apertium/perceptron_tagger.cc: tagSentence (32-101), trainSentence (109-241), extendAgendaAll (279-287), operator< on agenda items (341-344). Scores are exact rationals. Abstracted, as parameters of the section: the type of analyses, the number of morphemes of an analysis, and PerceptronSpec::get_features as a pure function of the tagged prefix, the sentence, the token index and the wordoid index (its cache is not modelled). std::partial_sort_copy is modelled by its contract ([beam]): which of several equal-score hypotheses survive, and their order, is unspecified, so the tagger is a relation. |
| PerceptronTrain.v | apertium/perceptron_tagger.cc:109-241 trainSentence and the inner loop of train (245-264), over the averager of Model/FeatureVec.v. Same abstractions as Model/Perceptron.v. [trainSentence] is a relation because the order of equal-score hypotheses in std::partial_sort_copy is unspecified. |
| PerceptronVM.v | apertium/perceptron_spec.h, perceptron_spec.cc:109-700: the stack machine that computes the features of the perceptron tagger. Integers are unbounded. Opcodes that no <mtx> element compiles to (ADI, DUP, DUP2, SWAP, CLAMPTAGGEDTOKADDR, CLAMPTOKADDR, SENTLENTAGGEDTOK, ISVALID*, FILTERIN, SETHAS, HASSUBSTR, HASANYSUBSTR, CPYSTR, LOWER, LOWERARR) are not modelled: they are treated as unimplemented. |
| Postchunk.v | apertium/postchunk.cc: opening a chunk. Reading beyond the end of the string (undefined behaviour) is None. u_toupper, u_isalnum and StringUtils::getcase are parameters; u_isdigit is taken as ASCII digit, StringUtils::stoi as the value of the leading digits (without int overflow). |
| PostchunkRules.v | The interpreter of postchunk rules: apertium/postchunk.cc (28-453: evaluation, assignments, output, macros), apertium/interchunk_word.cc (62-137) and apertium/transfer_base.cc (201-570: evaluation of expressions, tests and instructions); the application of a rule to a chunk (postchunk.cc 681-729) and what the pattern matcher is fed (731-779). [None]: undefined behaviour, an exception, exit, or macro calls nested deeper than the fuel. Simplifications as in Model/TransferRules.v: rule files are syntax trees ([id] stands for the address of a node, on which the cache of compiled nodes depends); children are in the order of postchunk.dtd; the regular expressions of attributes, case functions, lower-casing and the printing of numbers are parameters; messages and tracing are omitted; the pointer stored in a cached get-case-from is taken from the node itself; operands whose order of evaluation C++ leaves open are evaluated from left to right. Position 0 is the chunk itself. |
| PostchunkRun.v | The loop of apertium-postchunk, apertium/postchunk.cc 548-729, with its rules. As in Model/ChunkLoop.v the circular token buffer is an unbounded list of tokens (positions are indices into it, [o_hi] is the number of tokens read so far) and tracing is omitted. Unlike there the contents of the buffer change: tmpblank holds pointers into it ([o_tb]: positions), and the text before the first word of a chunk is appended to what the last of them points to. [None]: undefined behaviour, an exception, exit, or the fuel is used up. A rule is applied with one blank in tmpblank; with more or fewer (patterns with several items, which postchunk.dtd excludes) the code deletes blanks it does not own: None. |
| Posttransfer.v | apertium/apertium_posttransfer.cc:44-61 [processStream]. [in.get()] on the list of remaining characters; end of list = U_EOF (break). Output buffer flushing on NUL (lines 54-56) is not observable in the text and is not modelled. |
| Pretransfer.v | apertium/pretransfer.cc:10-222. [InputFile] is the list of remaining characters; [get] at the end returns U_EOF and then [eof()] holds. [exit(EXIT_FAILURE)] is the outcome [Fail]; a run that has not ended after [fuel] loop rounds is [Fuel]. Flushing (null_flush, lines 207-210) does not change the text and is not modelled. |
| Regex.v | apertium/transfer_regex.cc and the matching part of apertium/apertium_re.cc. Characters outside the BMP are truncated by the code ([single += it->c] on UTF-16 strings); here a character is one unit. Heap nodes become an inductive tree. |
| Serialiser.v | apertium/serialiser.h:70-93 and deserialiser.h:64-97: field by field serialisation of the tagger's value types. [Serialiser<vector<T>>] and [Serialiser<UString>] are lttoolbox templates: a size and the items. |
| Setvar.v | Preferences of the user (AP_SETVAR) in the script "apertium": apertium/apertium-header.sh 85-156. Simplifications: the options of a preference, which the script asks xmllint for, are a function from keys to lists of names, one per preferences file; a file that is not readable is [None]. awk interprets backslashes in the values it is given by -v: values with a backslash are outside the model. Flushing is not modelled. |
| ShellUtils.v | apertium/shell_utils.cc:12-33 (expect_file_arguments). [num]: how a stream prints an int. |
| Similar.v | apertium/tagger_utils.cc:125-211: ambiguity classes of a tagger model. |
| Stream.v | apertium/stream.cc, morpheme.cc, analysis.cc (reading and printing), sentence_stream.cc (SentenceTagger::tag, TrainingCorpus), unigram_tagger.cc:242-266 (tag). [InputFile] is lttoolbox code (external); assumed: get takes the next character or returns U_EOF at the end, unget puts it back; readBlock(a, b) reads up to the next b not escaped by a backslash and fails at the end of the input; readBlank(true) as [read_blank] below. An input is the list of its remaining characters. |
| TaggerData.v | apertium/tagger_data.h, tagger_data_hmm.cc:161-401, tagger_data_lsw.cc:120-322 (read and write). Parameters: lttoolbox's Compression and PatternList I/O. [std::set]/[std::map] are sorted lists. |
| TaggerDataCopy.v | Copying tagger data: apertium/tagger_data.cc:23-60, and the (compiler-generated) copy of a Collection, apertium/collection.h:31-33, whose [element] vector holds pointers into its own [index] map. |
| TaggerMain.v | The command line of apertium-tagger: apertium/tagger.cc:53-290 (options, dispatch), 423-528 (checks and arguments), 553-767 (which files play which role), apertium/tagger_flags.cc:19-22, shell_utils.cc expect_file_arguments. Simplifications: the options are given in the order in which getopt_long returns them (an option it does not know is [OBad]); the effect of the tagger itself is the action [Run]; opening of files is left out. The bit-fields SentSeg and SkipErrors are not initialised by TaggerFlags(): what they hold at the start are parameters. |
| TaggerText.v | apertium/hmm.cc:672-784 from words to text: the Viterbi part is Model/HMM.v, the class of a word Model/Similar.v, the words come from Model/MorphoStream.v. Tags are numbers of type nat here and N in Model/Similar.v. |
| TaggerWord.v | apertium/tagger_word.cc. Sets and maps over tags are sorted lists. [mt form pattern] is [TaggerWord::match] (68-96: a regular expression search; the cache of compiled patterns is not observable). |
| TmxAlign.v | The sentence aligner of apertium-tmxbuild (taken from hunalign): similarity matrix, dynamic programming over a quasi-diagonal band, ladder, spacing out, printing. Files: apertium/tmx_quasi_diagonal.h, tmx_alignment.cc, tmx_book_to_matrix.cc, tmx_trail_postprocessors.cc, tmx_aligner_tool.cc, tmx_dictionary.cc, tmx_translate.cc. Simplifications, for the whole file: C++ [double] is modelled by exact rationals [Q]; a C++ exception, an out-of-range index and any other undefined behaviour is [None]. |
| TmxBuild.v | apertium-tmxbuild: cutting the two documents into sentences, aligning them, writing the TMX. File: apertium/tmx_builder.cc. The options of the program (percent, edit distance, window ...) only set fields that no live code reads: similar, editDistance, levenshteinTable, printTUCond, extractFragment, reverseList, argmin, weight and printTable are called by the commented-out part of outputTU (or by each other) only, check and compatible by nothing. [None]: the program ends (exception). |
| TransferAct.v | apertium-transfer -b (readings already in the input): what applying a rule does, apertium/transfer.cc 1242-1368, from the texts of the words read so far (the rule's words and those read beyond them) and the blanks between the rule's words. [None] as state: the program has stopped (undefined behaviour, exit, or macros nested deeper than [fuel]). |
| TransferData.v | The compiled rule file of structural transfer: what TRXReader collects from the declarations of the rule file (apertium/trx_reader.cc:121-131, 250-295, 345-460), how TransferData writes it (transfer_data.cc:43-56, 117-245) and how the transfer programs read it (transfer_base.cc:44-108, apertium_re.cc:33-41). Simplifications: XML is given as data; weights of transitions and final states are left out (the compiler never sets one); lttoolbox's Compression, Alphabet::write/read, Transducer::write/read and ICU's regex compiler are parameters; Transducer::minimize has been applied (the machine given is its result). |
| TransferMult.v | apertium/transfer_mult.cc. The bilingual lookup (fstp.biltransWithQueue, first component) and the pattern matcher (lttoolbox MatchState) are parameters; the token buffer (lttoolbox Buffer) is a list with a position. |
| TransferRules.v | The interpreter of transfer rules: apertium/transfer_base.cc (137-176, 201-272, 275-420, 462-570), apertium/transfer.cc (76-232, 233-300, 302-409, 411-497, 499-645, 647-742, 744-788) and apertium/transfer_word.cc (75-180). The state is that of the C++ objects: the words (TransferWord objects, reached through the pointer array [word], which a macro call replaces), the variables, the flags in_lu / in_let_var / in_out, the accumulators for word-bound blanks and the cache of compiled nodes (evalStringCache). [None]: undefined behaviour, exit, or macro calls nested deeper than the fuel. Simplifications: rule files are syntax trees instead of libxml nodes ([id] stands for the address of a node); element orders are those of transfer.dtd (test first in when, tags first in chunk); the regular expressions of attributes, case functions and lower-casing are parameters; error messages and tracing are omitted; the pointer stored in a cached get-case-from is taken from the node itself; operands whose order of evaluation C++ leaves open are evaluated from left to right. |
| TransferUnit.v | What apertium-transfer does with one lexical unit (the text of a word token, C31): how a rule gets its source, target and reference side, how the unit is matched, and what is printed when no rule matches. [None]: the code reads beyond the end of the string. Strings are suffixes still to be read; iterators that look back (it-1), (it-2) are modelled by the characters already read. |
| TrxMachine.v | The compiled patterns at work: lttoolbox's MatchExe / MatchState (not in the repository; modelled from their use in apertium/transfer.cc 1129-1140, 1206-1230 and transfer_data.cc:117-175): the machine is deterministic over symbols, a state of the matcher is a list of its states, reading a symbol follows the transitions with that symbol and those with any_char / any_tag. |
| TrxPatterns.v | Compiling the patterns of a transfer rule file: trx_reader.cc (insertCatItem, procDefCats, procRules), transfer_data.cc (countToFinalSymbol, write), and the primitives of lttoolbox's Transducer they call (not in the repository: modelled from their documented behaviour, weights omitted). Simplifications: XML is given as data (def-cats with their items, the pattern of each rule); [ci_tags] is the attribute tags split at its dots (StringUtils::split_escaped), an absent or empty attribute being []. |
| Tsx.v | apertium/tsx_reader.cc (with xml_reader.cc 34-48): reading a tagger definition (.tsx). The XML document is the list of nodes the libxml2 reader delivers. Every [step()] of the reader takes one node, and what is done with it depends on the loop that called [step]: [mode] names that loop, [on_node] is one [step()] and the rest of the loop's body (and the loops that begin or end there). [None]: message and exit. Node types other than elements, text, comments and document types are elements of another name here. |
| Unigram.v | apertium/unigram_tagger.cc:91-415. Counts are exact naturals (size_t overflow not modelled), scores exact rationals (long double rounding not modelled). An exception is [None]. Debug output is not modelled. |
| WblankAttach.v | apertium/wblank-attach.cc:25-190: byte-level state machine. Not modelled: the argument check (lines 37-42), warnings on stderr and the line counter, stream buffering/flushing. |
| WblankDetach.v | apertium/wblank-detach.cc:24-112 [main]: byte-level state machine. Input is the list of bytes of stdin; output the bytes written to stdout. Not modelled: the argument check (lines 26-30), stream buffering and flushing. |
| WblankMode.v | apertium-wblank-mode: apertium/wblank-mode.cc (28-111). Bytes. Not modelled: opening the file, and the recursion depth of std::regex on very long modes. |

## Which code is not modelled

* Command line handling and opening files of all programs (getopt loops, usage texts, locale setting), except C40, C65, C66 and
  what a property mentions; stderr output; stream buffering.
* The style sheets other than deformat.xsl, reformat.xsl (C51), lexchoice.xsl, lexchoicebil.xsl (C75) and those of C70 and C71.
* Dead code of tmx_builder.cc and the unused parts of the aligner (tmx_translate.cc, tmx_arguments_parser.cc, dictionary
  handling of tmx_dictionary.cc, most trail postprocessors).
* Tracing (apertium_perceptron_trace.cc, trace options of transfer), exception plumbing.
* Memory management, except where a property is about it (C15, C19, C05, out-of-bounds reads).
