s('C01','proved','Output is the run-collapse of the input (relation total and functional), no double space, idempotent; all inputs.')
s('C02','proved','Exact output on every well-formed stream; on arbitrary bytes only markers after $ are inserted.')
s('C03','partial','FINDING: refuted for unclosed blanks / final backslash at end of input; holds for all inputs ending in a flush.')
s('C04','proved','Exact output for every well-formed stream; FINDING: escapes inside word-bound blanks are dropped (refutation theorem).')
s('C05','partial','FINDING: refuted ([[a]] NUL [[/]] pops an empty vector); holds for all NUL-free inputs and when no blank is open at a flush.')
s('C06','proved','Text outside lexical units is byte-identical for every well-formed stream; FINDINGS as refutation theorems (character after a lone ] in a word-bound blank is lost, escaped dollar).')
s('C07','proved','Split of + units and queue movement for every well-formed unit; FINDING: a second queue is moved to the first lemma.')
s('C08','proved','Surface-form mode; FINDING: hang at end of input with surface forms.')
s('C09','proved','Exact output for every well-formed stream and option; terminates on every input.')
s('C10','proved','All observations of every history equal those of the list of distinct sets; index stable, injective, invertible.')
s('C11','proved','For every encoder satisfying the round-trip hypothesis; concrete encoder shown; reuse of a non-empty object refuted.')
s('C12','proved','All 8-byte images, both byte orders; FINDING: truncated file on a big-endian host gives uninitialised bytes.')
s('C13','proved','All value types and containers, relative to lttoolbox number/string encoders.')
s('C14','proved','HMM and LSW models, all well-formed values; FINDING: reading twice into one object accumulates rules.')
s('C15','partial','FINDING: refuted: discard rules are never copied and a copied Collection points into its source (dangles when the source dies). Proved: all other fields are copied.')
s('C39','proved','Output determined by a relational specification for all mode files, with and without -z (if and only if). Idempotence without -z for new-style modes (C39_idempotent_partial). FINDINGS: bars inside quotes are split; lines are joined without a separator; with -z the helpers get no -z until a second run.')
s('C40','proved','All integers; message equals the enumeration of accepted numbers.')
s('C38','proved','All histories of setConstant; write/read round trip.')
s('C16','proved','Three models; counts exact for every corpus, order independent.')
s('C17','proved','First analysis of maximal score, for every model state and every scorable list; every well-formed analysis is scorable.')
s('C18','proved','Exact rationals; all operations equal the pointwise ones for all vectors; FINDING: the unary constructor collapses duplicates while += does not.')
s('C19','partial','FINDING: average() increments an erased iterator whenever a stored feature has zero sum (exact characterisation proved, occurs in ordinary training); otherwise the result is the mean, for every history.')
s('C20','proved','Every weight vector, feature function, beam width >= 1, sentence and tie breaking; width 0 is undefined (theorem). Optimality when the beam is at least the number of combinations.')
s('C41','proved','Exact arithmetic; feature extraction abstract; perceptron convergence bound proved for the actual update rule including early updates.')
s('C21','proved','Viterbi optimality for every stream of words and every non-negative model (exact arithmetic); every word output once; FINDING: flush on an ambiguous word loses a word (refutation theorem).')
s('C22','proved','Supervised and Kupiec initialisation, every corpus and class system; FINDING: ambiguous tagged word counts with the previous tag.')
s('C23','proved','All matrices, rule sets and orders; forbidden transitions keep positive probability 1e-10/s (theorem).')
s('C24','partial','FINDING: refuted when an enforce rule lists its own tag (is_valid_seq skips the second bigram); proved for all other rule sets, with mass conservation over any number of training passes, argmax tagging, and further findings (empty first document stops the tagger, blanks after NUL, unknown neighbours).')
s('C25','proved','Every list of items over plain characters; backtracking matcher semantics; FINDINGS as refutation theorems (unquoted - forms a range, ( makes it malformed, empty attribute matches <>).')
s('C26','proved','Every list of words, translations and blanks; FINDINGS: a default translation in second place of three or more is not moved to the front (refutation), an answer ending in a backslash is read out of bounds.')
s('C42','proved','For every matcher with the listed closure properties, instantiated for every set of patterns; FINDING: an unclosed superblank at the end of the input is read forever.')
s('C27','partial','Proved for every well-formed chunk whose content does not end in a bare character; FINDING (theorem): such a final character is lost; dangling references and lexical units without braces print nothing (theorems).')
s('C43','partial','Words, tags, case and inner blanks proved for every chunk; FINDINGS: text before the first word is moved behind the chunk, text after the last word is not available to the rule; dictionary case is ignored here.')
s('C30','proved','From text to text, for every matcher of word patterns and whatever the rules would do; also for an unmatched part followed by anything.')
s('C31','partial','Equivalence with the longest-match specification, and termination, for every matcher of word patterns, every rules (which look only at their own words) and every token stream, if a rule rejecting itself with words used up uses up the words it matched; FINDINGS (theorems): otherwise a stale position loses words, and a rejected rule prints its blanks, which are printed again.')
s('C44','partial','Transfer and interchunk proved for every sequence of well-formed documents; FINDINGS (theorems): postchunk keeps the last blank of a document, a truncated lexical unit leaks into the next document, and one NUL too many is written.')
s('C28','proved','All strings for neutrality and associativity (except backslashes followed by ]] alone: out-of-bounds read, refutation theorem); contents for all well-formed blanks.')
s('C29','proved','Every choose, every test (with <mlu> too), every cache content; test outcomes characterised for tests without units.')
s('C45','partial','Sound and complete against a specification without cache and accumulators, for any sequence of applications of rules and macros, <mlu> included; the only flag in the specification is the one that an <mlu> fails to reset, and C45_no_mlu shows it never set in files without <mlu>. Missing: units inside units, units in tests and in values written into words (the DTD allows them). FINDINGS as theorems (mlu leaks the in-lu flag, copying a variable drops its blank, blanks of variables survive documents, reject in a macro ignored, undefined macro calls the first one, null dereference, modify-case loses the queue).')
s('C46','partial','Every rule and macro without <b/> inside <get-case-from>, including <mlu>; FINDINGS: <b/> outside <out> duplicates a blank, <b/> in get-case-from changes its text.')
s('C32','proved','Every list of modes and every attribute value; FINDINGS as theorems: a mode that is already declared or untrimmed is kept, untrimmed modes get the trace option twice, an empty attribute value is a null dereference.')
s('C47','partial','Every text of well-formed lexical units, every matcher, prefer and discard rules; parts join to the analysis, longest match characterised, readings characterised. Missing: analyses with a trailing plus or a rest without coarse tag after a cut at the end. FINDINGS (theorems): a unit without analyses swallows the next, carets in superblanks start units, a truncated unit gets the end mark as a reading, analyses with different numbers of parts are mixed.')
s('C48','partial','Text to text for every model and text whose units have single-part analyses or a single analysis; other units are garbled by the program (C47_mixed_refuted).')
s('C33','partial','Class exists for every word and history, known classes answered unchanged, unknown words get the open class, similar class is minimal among those containing the readings; FINDINGS (theorems): looking up an unknown ambiguity class overwrites the open class of the model, the answer depends on earlier look-ups, the class found need not contain the tags.')
s('C37','partial','Proved for every word and rule list that at least one analysis is left and exactly the matching ones are discarded if rules are long enough; FINDINGS (theorems): the pattern length is compared with the number of tags, and a rule matching the first analysis drops the tag of the second.')
s('C34','partial','Text to text for every sequence of documents, sentence tagger that returns one analysis (or none) per unit, and options; NUL written per document, sentences partition the units. FINDINGS (theorems): a NUL directly after a unit is swallowed, the unigram tagger never writes the NUL.')
s('C35','proved','Every well-formed lexical unit is read back from its text, printing is injective, output re-reads as the chosen analysis. FINDINGS (theorems): a truncated unit loops for ever, a queue after the tags moves before them.')
s('C49','partial','Strict mode proved in full; alignment proved for every corpus made; skipping proved when no sentence diverges at its first unit and no tagged sentence ends early. FINDINGS (theorems): otherwise an uninitialised pointer is dereferenced, a good sentence is lost, or an exception is thrown in spite of skip-on-error.')
s('C36','partial','Text to text for every machine, weighting and sequence of documents of units with at most one reading and word-bound blanks only before units; evidence per word specified separately from the loop. FINDINGS (theorems): a blank at the end counts the last votes again one word further, readings are glued together, pieces after the case note are lost, loose word-bound blanks are lost.')
s('C50','partial','Text to text for every sequence of documents whose units have a reading. FINDINGS (theorems): a unit without reading loses its text; the case of a reading of several parts is taken of the whole text, tags included.')
s('C51','proved','Every format, document, file name source; txt-format.xml in full. Regular expressions are matching functions (flex trusted); context-dependent ones (^ in mediawiki-format.xml) not covered. FINDINGS (theorems): with -n a final period is lost, with -o the heading mark stays, an invalid byte swallows the text after it, the escape-chars of rtf-format-cp1250/1251.xml lack parentheses so that escaped characters are lost, preferred entities of multi-byte characters are never restored.')
s('C52','proved','All corpora, matrices and numbers of passes, in exact arithmetic (doubles, NaN exits and the log-likelihood message are not modelled). The expected-count theorem asks for matrices without zeros on the corpus, which every pass leaves; with zeros rows are still distributions (C52_rows) but counts are floored (C52_zero_floor). FINDING (theorem C52_tail): words after the last unambiguous word are ignored.')
s('C53','partial','Compiler and machine correct for all documents without macros, with the results pinned down exactly (iff), when the values met avoid the defects below (safe_doc) and there are at most 255 string constants. Missing: def-macro and inst, reading the .tsx named by coarse-tags, integer overflow. FINDINGS (theorems): <or>/<and> leave operands on the stack (abort or wrong value), <lt> etc. depend on C++ evaluation order, a loop over nothing is the number 0, slices past the end give the last element, <join> drops separators, features 0 and 256 share a key, constant 255 is ".", def-set, beam-width, toklen, strlen, arrlen are never accepted, slot types of earlier features are never forgotten.')
s('C54','proved','Text to text for every text of units with a non-empty target reading, any matcher and rules. Findings as theorems: a unit without translation disappears (iff), -n with default=chunk puts the word-bound blank inside the unit, an unclosed tag makes the default translation read beyond the unit, the three scanners disagree on escaped > in a tag.')

s('C55','proved','Compiler, finals map and matcher input proved equivalent to the specification (iff) for all rule files and units; lttoolbox Transducer/MatchState primitives are modelled from their documented behaviour. Rejected rules: C55_rejected_rules (if and only if, for words without an escaped backslash). FINDINGS (theorems): a lemma with an upper-case letter never matches; lemma without tags is ignored and the item matches any untagged word; a backslash in a lemma prevents the match; ** means one or more; escaped $, space and ^ in a word match word boundaries; after reject-current-rule another matching rule whose stars match in the same places is not tried (C55_rejected_hides_refuted).')

s('C56','proved','Composition of C54 (tokens, sides, default), C55 (compiled patterns) and C31 (loop): the compiled machine is executed (Model/TrxMachine.v) on the text and both sides have exactly one, equal, result. Assumes: patterns with at least one word, cat-items without ** or $ or backslash, words without an escaped $ (C55 shows what happens otherwise), rules that do not reject themselves (C31/C55 treat those).')

s('C57','partial','Proved: totality, reading, similarity and lengths, optimality within the band (whole grid for small books), printed pieces consecutive and complete from the point where the trail meets the border. Refuted (FINDINGS, theorems): the first sentences of one book can be lost (C57_nothing_lost_refuted, exactly the leading unpaired ones by C57_lead_unpaired); pairing two source sentences with one target sentence is never considered, so swapping the files does not swap the columns (C57_symmetry_refuted). Beyond 2^31 sentence pairs the int products overflow (not covered). C++ doubles are modelled by exact rationals.')

s('C58','partial','Exact output proved for all well-formed documents (basic plane, no newlines outside blanks, sizes within five-fold and 2^31 pairs): sentences, segments, alignment, units. FINDINGS (theorems): printTU prints a pair only if the source segment is EMPTY, so for any input no real translation pair is ever written (C58_source_empty, C58_translation_refuted); the text after the last sentence end is lost, also after a full stop at the end of the file; every target text begins with a tab, so a leading <ph/> becomes ph/> (C58_placeholder_damaged); <ph/> before trailing blanks becomes <ph/ and the TMX is ill-formed; characters outside the basic plane are cut to 16 bits; an unclosed blank ends the program. All command line options except the languages are dead.')

s('C59','partial','Exactness and the accept/reject criterion proved for all documents in the order of sections the reader expects. FINDINGS (theorems): a label that is not defined anywhere is silently taken for LPAR (number 0, std::map operator[]): C59_undefined_refuted; a section before another one it should follow is silently ignored (C59_order_refuted); a def-label without items written <def-label/> swallows the next one (C59_slash_refuted); <forbid/> and label items with closing tags in a forbidden pair are rejected (C59_rejected).')
s('C60','proved','Composition of the tokeniser (C31), compiled patterns (C55), loop (C31) and the interpreter, which is proved to compute the relational meaning of the rules (no cache, no flags) and never to abort. Assumes: rules name chunks of their pattern, macros exist, get as many chunks as they have parameters and are not recursive; no <reject-current-rule>; no element of the other modules; one node of the file is one instruction. FINDINGS (theorems): asking for the content of a chunk without content aborts (C60_no_content_refuted); a position beyond the pattern reads whatever was read ahead (C60_beyond_pattern_refuted); a call of an undefined macro calls the first one (C60_undefined_macro_refuted).')

s('C61','partial','C61_postchunk_partial: exact characterisation (if and only if) of the output for all texts of chunks and all files without reject-current-rule and without <lu> inside <lu>; words without unescaped { ] (escaped ones allowed); the interpreter is proved equal to the relational meaning. Missing: rules that reject themselves. FINDINGS (theorems): a macro called with a word the chunk has not got reads beyond an array if the chunk is empty (C61_empty_chunk_macro_refuted), an assignment to such a word always (C61_let_beyond_refuted); text before the first word moves behind the next blank and text after the last one is lost when a rule applies (C61_moved_refuted); a brace in a word-bound blank makes the blank part of the lemma (C61_brace_refuted); a rejecting rule prints the leading text twice (C61_reject_refuted).')

s('C62','partial','C62_transfer_partial: exact characterisation (if and only if) and uniqueness of the output for all texts and all files in the scope of C45 whose rules name only words of their pattern and do not reject themselves; composition of tokens (C54), compiled patterns (C55), the loop (C31) and the interpreter (C45), with a proof that words read ahead do not matter; C62_answers_partial: if macros exist, are called with the words they need and not in a circle (defined_file), every text is answered. Covers <mlu> (with the flag it leaves set, C45_mlu_leak_refuted, as part of what passes from rule to rule). C62_transfer_reject_partial, C62_answers_reject_partial: the same for rules that reject themselves (<reject-current-rule>), with the rules that are tried instead characterised from the patterns (Spec/TrxReject.v), for words without an escaped backslash and shifting="no" or as many words as the pattern has (C31_shift_refuted otherwise). Missing: units inside units or in tests. FINDING (theorems): a position beyond the pattern reads, and can change, a word that was only read ahead (C62_lookahead_refuted, C62_lookahead_write_refuted).')

s('C63','partial','C63_restore_partial: exact characterisation of the output of compiler and restorer together (with C63_unique: it determines the output), for all rule files that compile; the assumption of C36 that no vote reaches outside the words read is proved here. C63_compiles: if and only if. Missing: tags with ? or + directly after + or *, / in lemmas and surfaces. FINDINGS (theorems): "*.?" accepts a word without tags because insertSingleTransduction takes the loop (C63_tags_refuted); a rule for lemma a/b, surface x matches the word with lemma a, surface b/x (C63_slash_refuted); a match without conditions does not match a word without a form (ex_no_form).')
s('C64','partial','C64_accepted (if and only if) and C64_compiled_file_partial: everything a transfer program reads, characterised from the declarations; C64_rule_of_state connects the rule numbers with the matcher of C55. Missing because false: FINDING a call of a macro that is not defined is not rejected, it calls the first macro of the file (C64_undefined_macro_refuted: macros[n] makes a new entry 0); FINDING a tag named RULE_NUMBER:n in a category makes rule n go before earlier rules (C64_reserved_tag_refuted).')
s('C65','partial','C65_runs_partial (if and only if, action with all its files), C65_help, C65_order, C65_unique. Missing because false: FINDING the flags for -b and -e are not initialised by TaggerFlags(), so C65_runs_partial is stated for memory that happens to be zero and C65_flags_refuted shows the rest; FINDING -x with -r or -t aborts (C65_abort_refuted is the exact condition); FINDING -u 12 is model 1 (C65_model_refuted); FINDING -1 iterations are 2^64-1 (C65_negative_refuted). getopt_long itself is trusted.')
s('C66','partial','C66_pipeline_partial: if and only if, with the whole pipeline, for the formats of the usage text and an environment without the script variables; C66_version, C66_list, C66_rejects for the other outcomes. Missing because false: FINDING the default direction of a translation memory is empty, not the direction (C66_memory_direction_refuted: PAIR is copied before it is set); FINDING without -u the command for embedded sheets has an empty argument and fails, and its empty output replaces the sheet (C66_embedded_refuted); FINDING exit status 0 for all but the plain formats (C66_status_refuted); FINDING -u is ignored with an unknown format, wxmlu calls apertium-deswxmlu, -H is ignored with line, -z does not reach lt-tmxproc (C66_options_refuted); FINDING the script reads UWORDS, REDIR, BORRAFICHERO etc. from the environment (C66_environment_refuted). The programs and bash itself are trusted.')
s('C67','partial','C67_value_partial (for well-formed lists), C67_value_base_partial, C67_again_partial, C67_no_file; C67_wrap, C67_unwrap, C67_identity, C67_off, C67_told. Missing because false: FINDING an exception that leaves no option becomes "key=" and, resolved again, "key" (C67_again_refuted); FINDING the value 0 is not told to the stages (C67_zero_refuted); FINDING commands of the user are removed although the comment promises to keep them (C67_manual_refuted); a command can be left over when another stood inside it (C67_left_refuted); -n as a value is lost in echo (C67_echo_refuted). bash, gawk and xmllint are trusted; backslashes are outside the model.')
s('C68','partial','C68_printed (every input) and C68_unit; C68_classes_partial for definitions without discard rules and analyses that are not empty (composed with the reader of C47). Missing because false: FINDING with discard rules the printed unit has forms that do not belong to the class, so the classes of the output differ (C68_discard_refuted); FINDING a unit with an empty analysis is printed without analysis and swallows the next one (C68_empty_refuted).')
s('C69','partial','C69_boundary, C69_runs, C69_only and C69_print for every input; C69_text_partial, C69_legal_partial and C69_idempotent_partial for tidy documents. Missing because false: FINDING the text of a link between two runs is overtaken by the text after it (C69_link_refuted); FINDING a comment inside the text makes the text after it appear twice (C69_comment_refuted); FINDING a run whose whole text moves is removed with its picture (C69_picture_refuted); FINDING text moves over a line break (C69_break_refuted); FINDING a final hyphen is moved although it may be cut off (C69_hyphen_refuted). Command line not modelled (the long options --pretty and --file act as --name).')
s('C70','partial','C70_again for every document; C70_variety_partial and C70_both_partial for dictionaries made of the elements and attributes that the style sheet knows and, on the left side, without entries of another variety for generation only; C70_written_partial for documents without double quotes in attributes. Missing because false: FINDING an r=RL entry of another variety becomes r=LR on the left side instead of going (C70_reverse_refuted; on the right side the mirror case is handled); FINDING entries lose i, c, a, lm and other attributes, so ignored entries come alive (C70_attributes_refuted), and unknown elements lose their tags (C70_unknown); FINDING genvdix does not escape double quotes in attributes (C70_quotes_refuted).')
s('C71','partial','C71_mark and C71_rest for every dictionary; C71_default_partial for those whose sections hold entries only, with marks that are not empty and no entry for one direction that is marked default for the other only. Missing because false: FINDING an r=LR entry with srl default comes out usable in both directions (C71_restriction_refuted); FINDING an entry whose mark is empty is lost (C71_empty_refuted); FINDING entries with marks lose i, lm, c and so on (C71_ignored_refuted).')
s('C72','proved',"C72_rules, C72_xml for every document. FINDING the text after a removed element goes with it (C72_tail_refuted); the root's own list is not looked at (part of the statement).")
s('C73','partial',"C73_roundtrip_partial: for every text of the grammar Spec/Latex.v (tex), with the results it gives; C73_same: without accents, ligatures, marks and # the result is the text. FINDINGS: \\begin{my-env} and any name with another character than letters, digits or a final star hangs apertium-prelatex (C73_hang_refuted: for every such name and continuation); \\# becomes \\HASH, \\#1 becomes the text <HASH_1/>, # gains a backslash, accents not in the table (\\v{s}, \\=e, \\'i, \\c c) come back as tags, \\'\\i as j, \\emph{\\o} loses its braces, \\begin{CONTENTS} and \\BR become other things, \\begin {x} loses its space, a package option with a character that is not ASCII gains a bracket (C73_lost_refuted); the rule for \\} repeats the pattern of \\{ and never applies (C73_brace_refuted). MISSING: text outside the grammar otherwise, translated text in between.")
s('C74','partial','C74_roundtrip_partial: for every text of the grammar Spec/Latex.v (canon), with the results it gives, of the whole table of accents and of every character of two or three bytes. FINDINGS: a byte that belongs to no character makes apertium-postlatex swallow everything after it except letters, new lines and tags (C74_invalid_refuted: for every such continuation); characters beyond U+FFFF lose their upper bits; ł before a letter becomes another command; \\t{ab} loses its tie; accented letters in \\verb become commands; the other losses of C73 except those of # (C74_lost_refuted). The apertium script never calls apertium-postlatex: both latex and latex-raw use apertium-postlatex-raw. MISSING: text outside the grammar otherwise, translated text in between.')
s('C75','partial','C75_complete: every dictionary of the elements of the document type, paradigms and regular expressions included. C75_choices_partial: the same without entries to be ignored. C75_senses_partial and C75_translated_partial (if and only if): dictionaries whose entries are one pair of words, lemma before tags; C75_unique: sense and word can be told from the result if lemmas contain no __ and do not end in _. FINDINGS: lexchoice.xsl keeps the entries with i=yes, which lexchoicebil.xsl leaves out, so that their words get senses without a translation (C75_ignored_refuted); the parameter r2l=yes is the direction from left to right; varieties (v, vl, vr) are dropped without selecting. MISSING: soundness with paradigms, multiwords with tags before the rest of the lemma.')
