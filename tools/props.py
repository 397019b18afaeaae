#!/usr/bin/env python3
# Source of properties.jsonl (run: python3 tools/props.py > properties.jsonl)
import json
P=[]
def p(i,t,s,q,w,*a): P.append(dict(id=i,title=t,statement=s,quantifier=q,why_tests_cant=w,anchors=list(a)))

p("C01","apertium-posttransfer collapses runs of spaces and changes nothing else",
"For every input text, the output of apertium-posttransfer contains no two consecutive space characters, is obtained from the input by replacing each maximal run of spaces with exactly one space (every other character, including newlines, NULs, tabs, is kept, in order), and running it a second time changes nothing.",
"every finite character stream","Any finite set of examples samples runs of a few lengths/positions; the claim is about every stream and about absence of any other edit.",
"apertium/apertium_posttransfer.cc:processStream")
p("C02","apertium-wblank-detach only inserts closing markers",
"For every input stream in which no escape is cut by the end of input and no blank is left open, the output of apertium-wblank-detach is the input with the marker [[/]] inserted after the closing $ of precisely those lexical units that directly follow a word-bound blank; deleting the inserted markers gives back the input byte for byte.",
"every byte stream (with guard: complete escapes, closed blanks)","Quantifies over all byte streams, with nested brackets, escapes and NULs in any order.",
"apertium/wblank-detach.cc:main")
p("C03","apertium-wblank-detach never loses input",
"For every input stream, including those which end inside a blank or after a lone backslash, every input byte is present in the output of apertium-wblank-detach in order.",
"every byte stream","The failing cases are at end-of-input states reachable from any prefix.",
"apertium/wblank-detach.cc:main")
p("C04","apertium-wblank-attach keeps the text and places word-bound blanks only before lexical units",
"For every stream, apertium-wblank-attach outputs all characters that are not word-bound blank markup, in their order, and a word-bound blank is emitted only immediately before the ^ of a lexical unit.",
"every byte stream whose escapes are complete","All nestings of blanks, superblanks, word-bound blanks, units and escapes have to be covered.",
"apertium/wblank-attach.cc:main")
p("C05","apertium-wblank-attach has defined behaviour across NUL flushes",
"For every stream containing flush characters, the open word-bound blank bookkeeping of apertium-wblank-attach stays consistent: a closing [[/]] never removes an element from an empty list.",
"every byte stream with NULs","The failure needs a flush between the opening and the closing marker; it is undefined behaviour that a test run may silently survive.",
"apertium/wblank-attach.cc:main")
p("C06","apertium-pretransfer leaves everything outside lexical units unchanged",
"For every stream, the text outside lexical units (blanks, superblanks, escaped characters, word-bound blanks, flush characters) is output unchanged and in order, and each lexical unit is replaced by a non-empty sequence of lexical units.",
"every well-formed stream of blanks, word-bound blanks and lexical units","Structure is recursive and unbounded: any number of units, nested brackets, escapes.",
"apertium/pretransfer.cc:processStream","apertium/pretransfer.cc:readAndWriteUntil")
p("C07","apertium-pretransfer splits joined units and moves the lemma queue",
"For every lexical unit l1 T1 + l2 T2 + ... # q (Ti tag sequences), apertium-pretransfer outputs the units of each part, separated by one space and each carrying the same word-bound blank, with the queue '# q' placed directly after the first lemma, before its tags; the tags and lemmas themselves are unchanged.",
"every lexical unit of the documented shape: any number of parts, any lemmas, tags, queue, blank","Unbounded number of parts and unbounded strings.",
"apertium/pretransfer.cc:procWord")
p("C08","apertium-pretransfer terminates on every input",
"For every finite input and every option, apertium-pretransfer reaches the end of input and stops.",
"every finite character stream x options","Non-termination cannot be observed by a finite test.",
"apertium/pretransfer.cc:procWord")
p("C09","apertium-cleanstream emits only the lexical units",
"For every stream, apertium-cleanstream's output is a sequence of complete lexical units, exactly those of the input in order, verbatim, with the blanks between them dropped and separators as selected by the options.",
"every character stream","All mixtures of escapes, brackets and units.",
"apertium/apertium_cleanstream.cc:main")
p("C10","Collection assigns each tag set one stable index",
"After any sequence of insertions, a Collection gives each distinct tag set exactly one index in 0..size-1, the index never changes, looking an index up returns the set that was given it, and size equals the number of distinct sets inserted.",
"every history of add/operator[] calls","Histories are unbounded.",
"apertium/collection.cc:Collection","apertium/collection.h:Collection")
p("C11","Collection survives write and read",
"Writing a Collection of tag sets and reading the bytes into a fresh Collection gives the same index for the same set and the same size, leaving the rest of the stream unread; this is independent of the contents.",
"every collection whose numbers fit in the encoding","All collections, all following bytes.",
"apertium/collection.cc:write","apertium/collection.cc:read")
p("C12","Doubles survive the byte-order-neutral encoding",
"For every double and both host byte orders, EndianDoubleUtil::write followed by read restores the same 8 bytes, and the bytes on the wire do not depend on the host's byte order.",
"every 64-bit pattern (NaN payloads and -0 included), both byte orders","2^64 patterns.",
"apertium/endian_double_util.cc:EndianDoubleUtil")
p("C13","Serialised tagger structures survive write and read",
"For every value of the tagger's serialised types (integers, strings, vectors, sets, maps, morphemes, analyses, lemmas), serialising and deserialising gives back the value and consumes exactly the bytes written.",
"every value of the type","Recursive, unbounded values.",
"apertium/serialiser.h:Serialiser","apertium/deserialiser.h:Deserialiser")
p("C14","A written HMM tagger model reads back identically",
"Reading the bytes written by TaggerDataHMM::write into a fresh object gives the same open class, forbid rules, tag index, array of tags, enforce rules, preferences, constants, ambiguity classes, transition matrix, the emission entries of every (tag, class containing it), patterns and discard rules.",
"every well-formed HMM tagger model","All models; sparse matrices, delta-coded sets.",
"apertium/tagger_data_hmm.cc:read","apertium/tagger_data_hmm.cc:write")
p("C15","Copying tagger data preserves all of it",
"A TaggerData object copied or assigned from another has the same open class, rules, tags, preferences, constants and discard list.",
"every TaggerData value","Quantifies over all values; the omitted field is invisible unless the test sets it.",
"apertium/tagger_data.cc:copy")
p("C16","Unigram training accumulates exact fractional counts",
"After training on any tagged corpus each analysis's stored integer count divided by the occurrence coefficient equals the exact rational sum over tokens containing it of (occurrences of the analysis in the token)/(number of analyses of the token), whatever the order of the corpus.",
"every corpus (sequence of non-empty lists of analyses)","Rescaling happens at data dependent points; all histories are needed. Machine-word overflow is excluded by a stated bound.",
"apertium/unigram_tagger.cc:train","apertium/unigram_tagger.cc:multiplyModel")
p("C17","Unigram tagging selects the first best analysis",
"For every trained model and every lexical unit with at least one analysis, the tagger outputs an analysis of that unit whose score is maximal and which is the first such in order.",
"every model, every list of analyses","All score ties and orders.",
"apertium/unigram_tagger.cc:tag")
p("C18","Feature vectors behave as sparse vectors",
"For all feature vectors, +=, -=, assignment of scaled unary vectors and dot product equal the pointwise operations on the total functions (absent = 0) they stand for.",
"all pairs of feature vectors","Merge join over two ordered maps with arbitrary key interleavings.",
"apertium/feature_vec.cc:FeatureVec")
p("C19","Averaged perceptron weights are the true average",
"For every sequence of weight updates and iteration increments the lazily averaged vector equals, for each feature, the arithmetic mean over all iterations of the weight the feature had at the end of that iteration.",
"every history of addUpdate/incIteration calls","Lazy timestamps only coincide with the definition by an invariant over histories.",
"apertium/feature_vec_averager.cc:FeatureVecAverager")
p("C20","The perceptron tagger picks one analysis per token",
"For every sentence and model, tagging returns one analysis for each lexical unit, each from that unit's own analyses; the beam never exceeds its width; when no hypothesis is ever pruned the result has maximal total score among all analysis sequences.",
"every sentence, every score function, every beam width >= 1","Exponentially many sequences.",
"apertium/perceptron_tagger.cc:tagSentence")
p("C21","The HMM tagger's choice is the most probable tag sequence",
"For every ambiguous segment and every model with non-negative probabilities, the tag sequence chosen by the Viterbi recurrence has maximal product of transition and emission probabilities among all sequences compatible with the ambiguity classes.",
"every segment length, class and model (exact arithmetic)","Exponentially many sequences of any length.",
"apertium/hmm.cc:tagger")
p("C22","HMM initialisation from tagged text gives probability rows",
"For every tagged corpus the counts are the bigram and emission counts of the text, each row of the transition matrix computed sums to exactly 1 and all entries are positive, and each row of the emission matrix sums to 1 over the classes containing the tag; the same for Kupiec initialisation.",
"every count matrix (exact arithmetic)","All counts.",
"apertium/hmm.cc:init_probabilities_from_tagged_text_")
p("C23","Forbid/enforce rules hold after apply_rules",
"After apply_rules every forbidden transition, and every transition from an enforced tag to a tag not listed, has the near-zero weight 1e-10 before normalisation (so it is made negligible, not impossible); every other transition keeps its relative weight; every row with mass sums to 1.",
"every matrix and every rule set (exact arithmetic)","All matrices and rule sets, order of rules.",
"apertium/hmm.cc:apply_rules")
p("C24","The light sliding-window tagger distributes one unit of mass per window",
"For every window of ambiguity classes of a training corpus the LSW initialisation adds total weight exactly 1 spread equally on the sequences allowed by the forbid/enforce rules and 0 when none is allowed.",
"every window, every rule set (exact arithmetic)","All windows.",
"apertium/lswpost.cc:init_probabilities","apertium/lswpost.cc:is_valid_seq")
p("C25","attr-item lists compile to a regex that matches exactly the listed tags",
"For every non-empty list of attribute items whose tags contain no unquoted regular-expression metacharacter, the regular expression produced is well formed, matches exactly the strings <t1><t2>... for the listed items t1.t2..., and reading (writing) the attribute finds (replaces) the leftmost longest listed tags.",
"every list of tag strings","The trie is recursive; the regular language equality ranges over all strings.",
"apertium/transfer_regex.cc:optimize_regex")
p("C26","multiple-translation expansion yields the full cartesian product",
"For every sequence of lexical units matched by a rule the expansion contains exactly one alternative per combination of the units' translations, in lexicographic order, with the blanks of the source.",
"every number of units, translations and blanks","Exponentially many combinations.",
"apertium/transfer_mult.cc:writeMultiple","apertium/transfer_mult.cc:acceptions")
p("C27","unchunking replaces each tag reference by the chunk's tag",
"For every chunk, unchunk outputs its content with every reference <n> replaced by the n-th tag of the chunk and everything else unchanged up to case.",
"every chunk text","Unbounded text and references; references out of range.",
"apertium/postchunk.cc:unchunk")
p("C28","combining word-bound blanks keeps every blank's content",
"combineWblanks of two word-bound blanks yields one word-bound blank with the contents of the first followed by those of the second, and an empty blank is neutral; combining is associative.",
"all pairs/triples of blanks","All strings.",
"apertium/transfer_base.cc:combineWblanks")
p("C29","choose executes the first when whose test holds",
"For every choose instruction, the body of precisely the first when with a true test is executed; otherwise is executed iff no test holds; no other body runs.",
"every sequence of whens and every evaluation","All sequences of test outcomes.",
"apertium/transfer_base.cc:processChoose")
p("C30","interchunk leaves unmatched text unchanged",
"If no rule matches any prefix, interchunk outputs each chunk and each blank unchanged and in order.",
"every token stream","All streams.",
"apertium/interchunk.cc:interchunk")
p("C31","structural transfer applies rules left-to-right longest-match",
"For every token stream and rule set, the transfer loop partitions the token sequence: at each point the longest pattern match that is not rejected is applied to exactly the words it covers, otherwise one word is translated by default; no word is skipped or processed twice.",
"every token stream, every matcher","Backtracking over the buffer for arbitrary matchers and rejections.",
"apertium/transfer.cc:transfer","apertium/interchunk.cc:interchunk")
p("C32","generated debug modes are prefixes of the original and never replace a declared mode",
"For every modes file, generating debug modes keeps each declared mode as it was, adds modes whose program list is a prefix of a declared mode's and whose name is the declared name plus the step suffix.",
"every modes file","All pipelines and name collisions.",
"apertium/gen_modes.cc:gen_debug_modes")
p("C33","tagging does not modify the tagger model",
"Looking up an unseen ambiguity class returns a class of the model that contains all tags of the word and is smallest possible, and leaves the model (open class included) unchanged.",
"every model, every set of tags","History dependence: the effect shows only in later words.",
"apertium/tagger_utils.cc:find_similar_ambiguity_class")
p("C34","sentence-based taggers answer every flush",
"In null-flush mode the sentence-based tagger writes every lexical unit once in order, and one NUL for every NUL read, after the text preceding it.",
"every token stream with flush marks","A client waits forever for a missing NUL; the case depends on adjacency of tokens and flushes.",
"apertium/sentence_stream.cc:tag")
p("C35","analyses survive printing and parsing",
"For every analysis (sequence of morphemes with lemma and tags) over ordinary characters, parsing its printed form gives back the same analysis.",
"every well-formed analysis","Unbounded strings.",
"apertium/analysis.cc:operator UString","apertium/morpheme.cc:read","apertium/stream.cc:get")
p("C36","capitalisation restoring selects a best path and keeps all words",
"For every input and weighting, the caps restorer outputs each word exactly once, in order, changing only case, and the case chosen is the one the rules give most weight, with the priority of the code on ties.",
"every word sequence and weights","All sequences.",
"apertium/caps_restorer.cc:CapsRestorer")
p("C37","discard-on-ambiguity never removes the last analysis",
"Applying any sequence of discard rules to a word leaves at least one lexical form if it had one, and removes only forms matched by a rule.",
"every word, every list of rules","All combinations.",
"apertium/tagger_word.cc:discardOnAmbiguity")
p("C38","constants survive write and read",
"Writing a ConstantManager and reading it into a fresh object gives the same value for every constant.",
"every set of constants","All maps.",
"apertium/constant_manager.cc:ConstantManager")
p("C39","apertium-wblank-mode adds attach/detach in the right positions",
"For every pipeline, the rewritten pipeline contains the original programs in their order with -z added as documented and attach/detach inserted only at the documented positions.",
"every pipeline string","All strings.",
"apertium/wblank-mode.cc:main")
p("C40","programs reject a wrong number of file arguments",
"expect_file_arguments returns iff the number of remaining arguments is the expected number, and otherwise throws stating expected and actual.",
"all argument counts","All counts.",
"apertium/shell_utils.cc:expect_file_arguments")
p("C41","Perceptron training fixes violations and converges",
"Each training update subtracts the features of the predicted prefix and adds those of the gold prefix, is made only when the gold prefix did not outscore the predicted one, and if the updates are linearly separable with margin g the number of updates is at most R|u|^2/g^2; no update is made when the best hypothesis is the gold one.",
"every corpus, order, number of passes, beam width and tie breaking (exact arithmetic)","Ranges over all weight histories.",
"apertium/perceptron_tagger.cc:trainSentence","apertium/feature_vec_averager.cc")
p("C42","the multiple-translation module is left-to-right longest match",
"For every input and rule set the multi-translation transfer writes each blank unchanged, applies at each word the rule matching the longest sequence of words and blanks starting there to exactly these words, translates a word by default only when no rule matches there, and processes every word exactly once; it terminates on every input without an unclosed superblank.",
"every token stream, every set of patterns, every dictionary","Backtracking over a buffer with reused state; all streams.",
"apertium/transfer_mult.cc:transfer","apertium/transfer_mult.cc:readToken","apertium/transfer_mult.cc:applyRule")
p("C43","a postchunk rule sees the words and blanks of its chunk",
"For every chunk handed to a postchunk rule, the rule's words are the lexical units of the chunk's content in order with the chunk's tags filled in for references and the chunk's case applied, and its blanks are exactly the texts between consecutive words, one fewer than the words.",
"every chunk text and every following blank","Unbounded text; the effect of text outside words depends on buffer aliasing.",
"apertium/postchunk.cc:splitWordsAndBlanks","apertium/postchunk.cc:applyRule")
p("C44","in null-flush mode documents do not influence each other",
"With null flush, transfer, interchunk and postchunk give for each NUL-terminated document exactly what they give for that document alone, followed by a NUL: no word, blank, variable or partial match of one document reaches another.",
"every sequence of documents, every rule set","State surviving between calls depends on the whole history of documents.",
"apertium/transfer.cc:transfer_wrapper_null_flush","apertium/interchunk.cc:interchunk_wrapper_null_flush","apertium/postchunk.cc:postchunk_wrapper_null_flush")
p("C45","the meaning of transfer rules does not depend on what was evaluated before",
"Every sequence of rule applications has the effect the rule language describes (values of expressions, assignments to words and variables with the word-bound blanks they carry, appends, case changes, macro calls on the words passed, choose, output, rejection), determined by the words, blanks and variables alone: the interpreter's node cache, flags and accumulators never change the result, and every defined behaviour is reached.",
"every rule file, every sequence of matched words and blanks","Cached nodes and flags make each evaluation depend on the whole history.",
"apertium/transfer_base.cc:evalString","apertium/transfer.cc:evalCachedString","apertium/transfer.cc:processLet","apertium/transfer.cc:processCallMacro","apertium/transfer_base.cc:processRule")
p("C46","a transfer rule loses no formatting between its words",
"Whatever a rule outputs, reorders or rejects, every blank between the words it has matched, except single spaces, occurs in its output, in the order of the input and without overlap, and none is left over for the next rule.",
"every rule, macro set and queue of blanks","All rules and all blanks.",
"apertium/transfer_base.cc:processRule","apertium/transfer.cc:processOut","apertium/transfer.cc:evalCachedString")
p('C47','Words read by the statistical tagger',
  'Reading a text of lexical units yields exactly one word per part of its units, in order, with the blanks before them, the surface form, every reading of every coarse tag (first reading, or the last one matching a prefer rule), parts cut by leftmost longest match at plus signs, and one end mark per document; nothing is lost, invented or read past an end.',
  'all sequences of documents, lexical units, blanks, analyses, sets of tag patterns, prefer and discard rules',
  'the space of texts and tag pattern sets is unbounded; tests cover a few sentences',
  'apertium/file_morpho_stream.cc: FileMorphoStream::get_next_word, lrlmClassify, readRestOfWord','apertium/tagger_word.cc: TaggerWord::add_tag')
p('C48','Tagging changes nothing but the choice of analysis',
  'For every input text and every model the tagger writes the same text with each lexical unit reduced to exactly one of its own analyses (unknown words as *form), blanks and order unchanged, the surface form kept if asked, and a NUL after every document under null flush.',
  'all sequences of documents, all models with non-negative matrices, all tag patterns and rules',
  'depends on every word sequence and every probability table; a finite set of sentences cannot exclude a lost or altered word',
  'apertium/hmm.cc: HMM::tagger','apertium/file_morpho_stream.cc','apertium/tagger_word.cc: TaggerWord::get_lexical_form','apertium/tagger_utils.cc')
p("C49","a training corpus pairs equal sentences of the tagged and the untagged text",
"Building a training corpus from a tagged and an untagged text gives one training sentence per sentence, whose i-th reading and i-th unit come from units with the same surface form; diverging texts give an exception, or with skip-on-error exactly the diverging sentences are left out.",
"every pair of texts","All lengths and all places of divergence.",
"apertium/sentence_stream.cc:TrainingCorpus")
p("C50","extracting capitalisation keeps every unit and notes its case",
"For every sequence of documents, apertium-extract-caps writes every unit once with the blank before it and its first reading, adds to its word-bound blank a note of the case of the surface form and of the lemma, and answers every NUL.",
"every sequence of documents","All texts.",
"apertium/apertium_extract_caps.cc:main","apertium/apertium_extract_caps.cc:read_lu","apertium/apertium_extract_caps.cc:lemma_case")
p("C51","deformatting and reformatting give back the document",
"For every format description and every UTF-8 document without NULs, running the generated reformatter on the output of the generated deformatter (default and -i style sentence marks, including the files written for large blocks) gives the document back, up to the spelling of its character entities and exactly if the format has none; and whatever bytes and options it is given, a deformatter writes a stream in which reserved characters are escaped or are the brackets of a blank.",
"every format description whose expressions match whole characters, every document, every option of the deformatter","Unbounded documents; the scanner state is a buffer, a partial character and a stack of comments.",
"apertium/deformat.xsl","apertium/reformat.xsl","apertium/txt-format.xml","apertium/html-format.xml")
p("C52","a pass of unsupervised training is a Baum-Welch re-estimation",
"For every corpus whose ambiguity classes are known, every pass of unsupervised training (-t, -r, -s with iterations) replaces the transition and emission matrices by the relative expected numbers of moves and emissions over all readings of the corpus up to its last unambiguous word, weighted by the matrices before the pass (with a small floor for what cannot occur); the rows are probability distributions without zeros after every pass, and an unknown ambiguity class ends the program.",
"every corpus, every pair of matrices, every number of passes","The sums range over exponentially many readings; tests can only compare a few numbers.",
"apertium/hmm.cc:HMM::train","apertium/tagger_utils.cc:require_ambiguity_class")
p("C53","the perceptron tagger computes the features its .mtx file describes",
"For every metatag (.mtx) document without macros that the compiler accepts, every sentence, every position in it and every partial tagging, running the compiled byte code gives exactly the features the document describes - the conditions, string, boolean, integer and multiple outputs, loops, slices, lookups of words relative to the position, comparisons and set memberships evaluated by the rules of the language - and neither aborts nor reads out of bounds.",
"every document, sentence, tagging and position","Programs of any size and nesting run on sentences of any length; the compiled jumps, slots and stack discipline must hold for all of them.",
"apertium/mtx_reader.cc","apertium/perceptron_spec.cc:PerceptronSpec::get_features","apertium/perceptron_spec.cc:PerceptronSpec::Machine","apertium/xml_reader.cc")
p('C54','transfer takes the sides of a lexical unit apart and passes unmatched units on translated',
"For every text of lexical units [[blank]]^source/target/.../reference$ (readings with tags, slashes in tags, escaped characters): apertium-transfer -b delivers to its rules exactly the source (first reading), target (second reading), reference (last of three or more) and word-bound blank of each unit; patterns are matched against the source reading only, in lower case; and where no rule matches, each unit is replaced by its target reading with its word-bound blank (as a unit, or wrapped in a chunk named default or unknown), all text between the units being kept.",
"every text of well-formed units and blanks, matcher and rule set","Readings have any length and any mixture of escapes, tags and slashes; three hand-written scanners must agree on all of them.",
"apertium/transfer.cc:Transfer::applyRule","apertium/transfer.cc:Transfer::applyWord","apertium/transfer.cc:Transfer::transfer","apertium/transfer.cc:Transfer::readToken")
p('C55','transfer applies the first rule of the file whose pattern matches',
"For every set of categories and rules and every sequence of lexical units: if the rule file compiles (exactly if every category used is defined and not empty), the compiled patterns choose for the units the first rule in the file whose pattern items match the source readings one by one - the lemma in lower case with * standing for one or more characters, the tags exactly with * standing for one or more tags, one alternative of the category sufficing - and no rule exactly if none matches. Categories are without $, backslash and adjacent stars, words without escaped $. A rule that is tried after others were rejected matches, too.",
"every category and rule set, every sequence of units","Patterns share states in a trie of automata with loops, and the words are unbounded.",
"apertium/trx_reader.cc:insertCatItem","apertium/trx_reader.cc:TRXReader::procDefCats","apertium/trx_reader.cc:TRXReader::procRules","apertium/transfer_data.cc:TransferData::write","apertium/transfer.cc:Transfer::applyWord")
p("C56","structural transfer is left-to-right longest match of the rules of the file, text to text",
"For every rule file and every text of lexical units from the bilingual dictionary, apertium-transfer (rules that do not reject themselves) writes exactly one output: going from left to right, the text before each unit unchanged, then for the longest sequence of units starting there that the pattern of some rule matches, the output of the first such rule of the file applied to exactly these units and the blanks between them, followed by the blanks it did not print, or, if no rule matches, the default translation of the unit; every unit is processed once and the rule variables pass from rule to rule.",
"every rule file, every text, every behaviour of the rules, every assignment of the variables","Tokeniser, compiled automaton and backtracking loop interact; rule files and texts are unbounded.",
"apertium/transfer.cc:Transfer::transfer","apertium/transfer.cc:readToken","apertium/transfer.cc:applyWord","apertium/trx_reader.cc:procRules","apertium/transfer_data.cc:write")
p("C57","the sentence aligner prints a cheapest alignment of the two texts",
"For every two files of sentences (lines of words) whose numbers of sentences differ less than five-fold, the aligner of apertium-tmxbuild succeeds and prints lines that cut both texts, in order, into consecutive pieces; the cuts are points of an alignment whose cost - shared words and numbers, lengths, unpaired sentences - is the least of all alignments within the band searched (for texts of at most 249 target sentences, of all alignments), and every sentence is printed exactly once. For other files nothing is printed.",
"every two files, every quality threshold, every logarithm and number printer","Alignments are exponentially many, files unbounded; the search must be optimal for all.",
"apertium/tmx_alignment.cc","apertium/tmx_quasi_diagonal.h","apertium/tmx_book_to_matrix.cc","apertium/tmx_trail_postprocessors.cc","apertium/tmx_aligner_tool.cc:alignerToolWithFilenames","apertium/tmx_dictionary.cc:SentenceList::readNoIds")
p("C58","apertium-tmxbuild writes a TMX of the aligned sentences of its two documents",
"For every two deformatted documents of comparable size, apertium-tmxbuild writes a well-formed TMX whose units are the pairs of an optimal alignment of the two texts' sentences (cut after ? and !, and after a full stop before a blank), each as a segment: blanks as <ph/>, markup characters escaped, blanks, placeholders and full stops at the ends removed; pairs without enough text are left out. A document with an unclosed blank ends the program; documents of very different sizes give no units.",
"every two documents, every pair of language names, every ICU character classification","Documents are unbounded, and several stages - cutting, UTF-8, reading back, aligning, cleaning, escaping - interact.",
"apertium/tmx_builder.cc:TMXBuilder::generateTMX","apertium/tmx_builder.cc:TMXBuilder::nextTU","apertium/tmx_builder.cc:TMXBuilder::xmlize","apertium/tmx_builder.cc:TMXBuilder::filter","apertium/tmx_builder.cc:TMXBuilder::printTU","apertium/tmx_builder.cc:TMXBuilder::outputTU")
p("C59","tagger definitions (.tsx) are read as written",
"For every .tsx document with any text and comments in between: it is accepted exactly if no coarse tag is defined twice, is named like a reserved one, or is referred to by a multiword definition before its own; then the coarse tags are numbered in the order of their definitions after the seven reserved ones, the open class is exactly the definitions not marked closed, the fine-tag patterns, forbid, enforce, prefer and discard rules are exactly those written, in order, with labels replaced by numbers and dotted tags by tags in angle brackets, and every label mentioned is defined.",
"every document, any comments, any mixture of short and long element forms","Documents are unbounded and read by a dozen nested hand-written loops over a pull parser; tests cover only a few files.",
"apertium/tsx_reader.cc","apertium/xml_reader.cc:XMLReader::step")
p("C60","apertium-interchunk replaces chunks as its rules say, text to text",
"For every well-formed interchunk rule file (patterns, macros, variables, attribute and list definitions) and every text of chunks ^name<tags>{content}$, apertium-interchunk writes exactly one output: from left to right, the longest sequence of chunks some rule matches is replaced by what the first such rule of the file means - the values of its clips, literals, variables, blanks and case expressions, its tests, assignments, macro calls on the chunks passed, and its output - followed by the blanks it did not print; other chunks are copied. Variables pass from rule to rule, nothing else does; no rule aborts, if chunks whose content is asked for have one.",
"every rule file, text, assignment of the variables, and behaviour of attribute expressions and case functions","Rule files and texts are unbounded; a cache of compiled nodes, shared buffers and lookahead must never show.",
"apertium/interchunk.cc:Interchunk::interchunk","apertium/interchunk.cc:Interchunk::evalCachedString","apertium/interchunk.cc:Interchunk::processLet","apertium/interchunk.cc:Interchunk::processCallMacro","apertium/interchunk.cc:Interchunk::applyRule","apertium/interchunk.cc:Interchunk::applyWord","apertium/interchunk_word.cc:InterchunkWord::init","apertium/interchunk_word.cc:InterchunkWord::chunkPart","apertium/transfer_base.cc:TransferBase::evalString","apertium/transfer_base.cc:TransferBase::processInstruction")
p("C61","apertium-postchunk replaces every chunk by what its rule says, text to text",
"For every postchunk rule file and every text of chunks ^name<tags>{content}$, apertium-postchunk replaces each chunk, from left to right, by what the first rule of the file whose category has the chunk's name means for the words of the chunk (tag references resolved, case of the chunk applied, word-bound blanks with the words whose lemma is used) - or, if there is none, by its content - and keeps the text between chunks; text before the first word of a chunk that a rule replaces is moved behind the text after the chunk. The program gives an output exactly if the rules have a meaning for the chunks. Variables and the blanks they carry pass from rule to rule, nothing else does.",
"every rule file (no rule rejecting itself, no unit inside a unit), text of chunks, assignment of the variables, and behaviour of attribute expressions and case functions","Rule files, chunks and texts are unbounded; a cache, three flags, accumulators for blanks, and pointers into the token buffer must never show.",
"apertium/postchunk.cc:Postchunk::postchunk","apertium/postchunk.cc:Postchunk::evalCachedString","apertium/postchunk.cc:Postchunk::processLu","apertium/postchunk.cc:Postchunk::processMlu","apertium/postchunk.cc:Postchunk::processLet","apertium/postchunk.cc:Postchunk::processCallMacro","apertium/postchunk.cc:Postchunk::applyRule","apertium/postchunk.cc:Postchunk::applyWord","apertium/interchunk_word.cc:InterchunkWord::init","apertium/transfer_base.cc:TransferBase::processInstruction")
p("C62","apertium-transfer -b replaces units as its rules say, text to text",
"For every transfer rule file and every text of lexical units ^source/target/reference$ with blanks, formatting and word-bound blanks between and on them, apertium-transfer -b answers with exactly what the rules describe: from left to right, the longest sequence of units some rule matches is replaced by what the first such rule of the file means for those units and no others - its assignments, tests, macro calls, output units and chunks, with the word-bound blanks of the words whose lemma is used - followed by the blanks it did not print; other units are replaced by their target, as a unit or as a chunk of one. The program gives an output exactly if the rules have a meaning for the units, and then only one. Variables and the blanks they carry pass from rule to rule, nothing else does: not the cache of compiled nodes, not flags and accumulators, not words read ahead in search of a longer match.",
"every rule file (no rule rejecting itself, no unit inside a unit or in a test, positions within the pattern), text of lexical units, assignment of the variables, and behaviour of attribute expressions and case functions","Rule files and texts are unbounded; a cache, flags, accumulators for blanks, and the words read ahead must never show.",
"apertium/transfer.cc:Transfer::transfer","apertium/transfer.cc:Transfer::applyRule","apertium/transfer.cc:Transfer::evalCachedString","apertium/transfer.cc:Transfer::processOut","apertium/transfer.cc:Transfer::processChunk","apertium/transfer.cc:Transfer::processLet","apertium/transfer.cc:Transfer::processCallMacro","apertium/transfer.cc:Transfer::applyWord","apertium/transfer_base.cc:TransferBase::processRule","apertium/transfer_base.cc:TransferBase::processInstruction")
p("C63","A capitalisation rule votes exactly where its pattern matches",
"For every capitalisation rule file (.crx), apertium-compile-caps accepts it exactly if no match gives both a lemma and a case of the lemma (or both for the surface), every select is AA, Aa, aa or dix, and every repetition has 0 <= from <= upto; and apertium-restore-caps with the compiled file writes every word of every document with the case that has most evidence, where a rule votes once at every word that ends a sequence of words its pattern matches: alternatives, repetitions between from and upto, the beginning of the document, and for every word the noted source case, lemma or its case, tags, surface or its case. What is written is determined by that. No vote reaches outside the words read.",
"every rule file (no / in lemmas and surfaces, no ? or + directly after + or * in tags), weights, notion of upper case, case functions and sequence of well-formed documents","Patterns nest without bound and are turned into one machine by graph surgery (shared transitions, loops, copies, optional parts); documents and repetitions are unbounded.",
"apertium/caps_compiler.cc:CapsCompiler::compile_rule","apertium/caps_compiler.cc:CapsCompiler::compile_match","apertium/caps_compiler.cc:CapsCompiler::compile_or","apertium/caps_compiler.cc:CapsCompiler::compile_repeat","apertium/caps_compiler.cc:CapsCompiler::compile_caps_specifier","apertium/caps_restorer.cc:CapsRestorer::process","apertium/caps_restorer.cc:CapsRestorer::read_word","apertium/caps_restorer.cc:CapsRestorer::load")
p("C64","the compiled rule file carries what the rule file declares",
"For every transfer rule file, apertium-preprocess-transfer accepts its declarations exactly if every def-attr makes a valid expression, no macro is defined twice and every clip of a rule names a part that is built in or defined; and a transfer program that reads the written file has: for every part the expression of its last definition (or the built-in one), for every variable the initial value of its last declaration, in every list exactly the items of all its definitions (and their lower-case forms), for every macro name the macro of the file with that name (a name that is not defined being rejected), and for every state of the pattern machine the first rule of the file that ends there; the final states are those where a rule ends.",
"every set of declarations, every pattern machine in which final states have no arcs, every increasing list of rule numbers, every encoder of numbers, strings, alphabets and machines that reads back what it wrote","Declarations, items, states and rules are unbounded; the choice of the rule depends on the order in which symbols were numbered and arcs are visited.",
"apertium/trx_reader.cc:TRXReader::procDefAttrs","apertium/trx_reader.cc:TRXReader::procDefVars","apertium/trx_reader.cc:TRXReader::procDefLists","apertium/trx_reader.cc:TRXReader::procDefMacros","apertium/trx_reader.cc:TRXReader::checkClip","apertium/transfer_data.cc:TransferData::write","apertium/transfer_data.cc:TransferData::countToFinalSymbol","apertium/transfer_data.cc:TransferData::writeRegexps","apertium/transfer_base.cc:TransferBase::read","apertium/apertium_re.cc:ApertiumRE::read")
p("C65","apertium-tagger does what a usage line of its help text says",
"For every sequence of options and file names, apertium-tagger tags, retrains or trains exactly if every option is known, no flag, no kind of tagger and no function is given twice, the numbers are numbers below 2^64, the unigram model is 1, 2 or 3 and one of the usage lines fits the function, the tagger and the number of files; it then uses exactly the files in the roles of the usage line, exactly the flags given and the number of iterations written; the order of the options has no effect; the help text is printed exactly if it is asked for or no function is given; all else is rejected with a message (and the program never aborts).",
"every sequence of options, arguments and files","Options can be combined and ordered in unboundedly many ways, and the arguments are arbitrary strings.",
"apertium/tagger.cc:apertium_tagger::apertium_tagger","apertium/tagger.cc:apertium_tagger::flagOptionCase","apertium/tagger.cc:parse_unsigned_long","apertium/tagger.cc:apertium_tagger::get_file_arguments","apertium/tagger.cc:apertium_tagger::g_FILE_Tagger","apertium/tagger_flags.cc:TaggerFlags::TaggerFlags")
p("C66","the script apertium starts the pipeline its options ask for",
"For every list of arguments, the script apertium starts a pipeline exactly if the arguments are options of the usage text (in clusters, with joined or separate values, mixed with at most one group of other arguments before them) and a direction with at most an input and an output file, the input is readable, the translation memory compiles in the direction given with -o (by default the translation direction), the mode exists in the data directory, and the programs the format needs are there. The pipeline is: the deformatter of the format with -n and -H handed on, the translation memory if given, the mode with -u and -a handed on, the reformatter, writing to the output file if given; a failure of any part is the exit status, sheets embedded in documents are translated the same way, and only the arguments matter.",
"every list of arguments, every state of the file system and every environment","Arguments are arbitrary strings in any number and order; the system can answer in any way.",
"apertium/apertium-header.sh:getopts","apertium/apertium-header.sh:check_transfuse","apertium/apertium-header.sh:run_mode_wblank","apertium/apertium-header.sh:translate_docx","apertium/apertium-header.sh:translate_html","apertium/apertium-header.sh:translate_latex","apertium/apertium-header.sh:translate_line")
p("C67","preferences reach every message and do not show in the translation",
"For every list of preferences in AP_SETVAR (keys, key=options, key=-options) the script apertium hands the stages the same list with every key=-options replaced by the options of the preferences file that are not named, in the order of the file; doing this twice is doing it once; without a file nothing changes. The stages read a command with the list before the first message and after every NUL, and otherwise the text as it was. In the output every command the script inserted is removed, wherever the stages put it, and nothing else; commands the user put into the text stay.",
"every list of preferences, every preferences file, every text and every placement of commands by the stages","Lists, option names and streams are unbounded, and texts can contain anything, including parts of commands.",
"apertium/apertium-header.sh:invert_setvar","apertium/apertium-header.sh:apply_invert_setvars","apertium/apertium-header.sh:setvar_wrap","apertium/apertium-header.sh:setvar_unwrap")
p("C68","apertium-filter-ambiguity keeps one unit of every ambiguity class",
"For every tagger definition and every analysed text, apertium-filter-ambiguity prints exactly the words that are the first with their set of coarse tags, in the order of the text, each as a lexical unit with its surface form and one form per tag. The printed text, read with the same definition, has exactly the ambiguity classes of the original, each once, and filtering it again prints the same text.",
"every text, every set of patterns, prefer and discard rules","Texts and numbers of classes are unbounded; that the output has the same classes depends on every part of every analysis being classified alone as it was inside a longer analysis.",
"apertium/hmm.cc:filter_ambiguity_classes","apertium/tagger_word.cc:outputOriginal","apertium/apertium_filter_ambiguity.cc:main","apertium/file_morpho_stream.cc:get_next_word")
p("C69","apertium-adapt-docx moves run boundaries to word ends and keeps the text",
"In every paragraph the text runs keep their text together and each run ends at the first position, from its old end on, that is not between two letters, inside a hyphenated pair of letters or inside l·l. Nothing but the text and xml:space of t elements and the runs that became empty changes. If in each paragraph nothing that shows text stands between the runs and a t element holds one piece of text, the text shown by the document is the same, no run ends inside a word and adapting again changes nothing. The document is printed on one line, with each sequence of line ends replaced by one space.",
"every XML document, every notion of letter","The number of runs, their lengths and where words are split are unbounded, and text moves over several runs at once.",
"apertium/adapt_docx.cc:findBoundary","apertium/adapt_docx.cc:adjust","apertium/adapt_docx.cc:process","apertium/adapt_docx.cc:TextRun","apertium/adapt_docx.cc:printNl2spc")
p("C70","The dictionary generated for a variety has the entries of that variety",
"In each direction of use, the dictionary apertium-filter-dix generates for a variety has, in place and with the same content, the entries of the old one that can be used in that direction and either belong to the variety or name none; in the direction of the given side (left: analysis of the left side) also those of other varieties. Filtering again changes nothing. apertium-genvdix and its sisters write XML that is the same document with each entry's list of varieties replaced by the wanted one if it is in the list and by another name if not, so that both scripts one after the other select the entries whose list has the variety.",
"every dictionary, variety, side and direction","Dictionaries have hundreds of thousands of entries; the interplay of r, v and the side has many cases and content is nested without bound.",
"scripts/filter-dix.xslt:template match=e","scripts/apertium-genvdix:DixHandler","scripts/apertium-genvdix:printAttrs","scripts/apertium-genvldix:DixHandler","scripts/apertium-genvrdix:DixHandler")
p("C71","translate-to-default-equivalent keeps the default translations",
"In each direction, the dictionary without multiple translations has, section by section and in order, exactly the entries of the old one that can be used in that direction and whose mark for it, if any, says default (ends in a space and D). Alphabet, symbols and paradigms are copied.",
"every dictionary and direction","The combinations of slr, srl and r are many and the two directions interact in one attribute r; the number of entries is unbounded.",
"scripts/translate-to-default-equivalent.xslt:template match=e[@slr|@srl]","scripts/translate-to-default-equivalent.xslt:template match=section","scripts/translate-to-default-equivalent.xslt:template match=dictionary")
p("C72","Filtering rule files by variety removes exactly the other varieties' elements",
"apertium-filter-rules leaves exactly the elements for which no element on the way from below the root to them lists varieties without listing all those asked for, in order, with the text at their start, without the attribute v; values (lit, list-item, with-param and so on) are spared with all they contain. apertium-filter-xml does the same with the given attribute, comma-separated lists, the given elements to spare, and one variety in common being enough.",
"every XML document, every list of varieties, every attribute and set of spared elements","Elements nest without bound and the decision depends on the whole way to the root.",
"scripts/apertium-filter-rules:process_node","scripts/apertium-filter-xml:filter_node","scripts/apertium-filter-xml:should_keep")
p("C73","LaTeX comes back from apertium-prelatex and apertium-postlatex-raw",
"Apart from what is translated, LaTeX text that goes through apertium-prelatex and then apertium-postlatex-raw comes back as it was: plain text, escaped characters, groups, commands with and without star, environments with and without star, bracketed parameters, inline and display mathematics, comments up to the end of the line, \\verb, packages; accent commands, ligatures and (with an ngerman package) German shorthands come back as the letters they stand for. Both filters end on it.",
"every text, of any length and nesting, put together from these pieces","The two scanners choose the longest of some sixty overlapping patterns at each position and keep state; whether one's output is read back as the same pieces depends on what is next to what, for texts of any length.",
"apertium/apertium-prelatex.l","apertium/apertium-postlatex-raw.l","apertium/latex_accentsmap.cc:AccentsMap")
p("C74","LaTeX comes back from apertium-prelatex and apertium-postlatex as LaTeX",
"Apart from what is translated, LaTeX text that goes through apertium-prelatex and then apertium-postlatex comes back as LaTeX for the same document: plain text, escapes, groups, commands, environments, parameters, mathematics, comments and packages unchanged; every accented letter, whether written as a command, with or without braces, or as a character, as the command with braces; ligatures, the sharp s and the inverted marks as their commands; other characters of UTF-8 as themselves; # and \\# with or without a number as they were. Both filters end on it.",
"every text, of any length and nesting, put together from these pieces","apertium-postlatex collects bytes until they are a character and keeps what it could not decode; whether each piece is read back as itself depends on all the bytes around it, for texts of any length.",
"apertium/apertium-prelatex.l","apertium/apertium-postlatex.l","apertium/latex_accentsmap.cc:AccentsMap")
p("C75","Lexical choice dictionaries translate what the dictionary translates",
"From a bilingual dictionary with senses (srl, slr) lexchoice.xsl makes a dictionary that adds the sense to a word, and lexchoicebil.xsl one that translates words with their senses. Every translation of the dictionary in that direction can be reached through the two; every choice that the first offers has a translation by the second that the original dictionary gives for the word; and the sense and the word can be read from the word with its sense.",
"every dictionary, with any number of entries, paradigms in paradigms and regular expressions, both directions, and every word","The two outputs must fit together for every word of dictionaries whose paradigms generate unboundedly many words.",
"apertium/lexchoice.xsl","apertium/lexchoicebil.xsl")
for x in P: print(json.dumps(x,ensure_ascii=False))
