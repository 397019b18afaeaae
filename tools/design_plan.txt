C01 processStream as a recursion on the stream; induction; independent spec: run-length collapse relation
C02 byte state machine of wblank-detach.cc; simulation invariant; refutation for C03 by witness
C03 byte state machine of wblank-detach.cc; simulation invariant; refutation for C03 by witness
C04 byte state machine of wblank-attach.cc with UB outcome; invariants; refutation for C05
C05 byte state machine of wblank-attach.cc with UB outcome; invariants; refutation for C05
C06 functions of pretransfer.cc over InputFile; induction over well-formed stream grammar; hang by divergence theorem
C07 functions of pretransfer.cc over InputFile; induction over well-formed stream grammar; hang by divergence theorem
C08 functions of pretransfer.cc over InputFile; induction over well-formed stream grammar; hang by divergence theorem
C09 main loop of apertium_cleanstream.cc; grammar induction
C10 Collection as (vector, map); invariant over histories; codec round trip
C11 Collection as (vector, map); invariant over histories; codec round trip
C12 byte reversal read/write; list lemma on 8 bytes
C13 Serialiser/Deserialiser instances as codecs; compositional codec round-trip
C14 TaggerDataHMM::write/read on a symbol stream; compositional codec round-trip
C15 TaggerData::copy; refutation by witness and characterisation
C16 unigram training with occurrence coefficient; invariant over corpus in Q
C17 unigram training with occurrence coefficient; invariant over corpus in Q
C18 sparse maps over ordered keys; extensional equality, history invariant
C19 sparse maps over ordered keys; extensional equality, history invariant
C20 beam search; induction over sentence
C21 Viterbi recurrence; optimality by induction over segment
C22 matrices in Q; algebra
C23 matrices in Q; algebra
C24 matrices in Q; algebra
C25 trie and regex printing + a regex parser/denotation as specification; language equality; refutation for metacharacters
C26 acceptions, writeMultiple; induction
C27 unchunk, combineWblanks, processChoose; induction
C28 unchunk, combineWblanks, processChoose; induction
C29 unchunk, combineWblanks, processChoose; induction
C30 token loop of interchunk/transfer with abstract matcher; partition invariant over executions
C31 token loop of interchunk/transfer with abstract matcher; partition invariant over executions
C32 gen_modes.cc as functions on lists of modes; induction over lists, sorted-map lemmas
C33 find_similar_ambiguity_class with state; refutation of purity; characterisation of the result
C34 SentenceTagger over tokens; refutation and guarded theorem
C35 printing and parsing; induction
C36 CapsRestorer lattice; dynamic programming invariant
C37 discardOnAmbiguity; induction
C38 ConstantManager as a map over histories; codec round trip
C39 wblank-mode.cc (regex split of the pipeline) ; relational specification, iff, induction over lines
C40 expect_file_arguments; case analysis for all integers
C41 trainSentence over the averager of C19 as a relation (ties unspecified); potential-function argument for convergence
C42 transfer_mult.cc token loop with abstract matcher and bilingual lookup; simulation against a longest-match specification
C43 opening a chunk (postchunk.cc) on strings with an out-of-bounds outcome; induction over the chunk grammar
C44 tokenisers (readToken of the three modules) with null flush; document-by-document decomposition
C45 interpreter of transfer rules with its flags, accumulators, caches and pointers; bisimulation with a specification without them
C46 the same interpreter; invariant: blanks written + blanks left = blanks given
C47 file_morpho_stream.cc with an abstract matcher; grammar induction on the text
C48 composition of C47, C33, C21 with output formatting; text-to-text theorem
C49 TrainingCorpus (sentence_stream.cc) over two token streams; induction on sentences
C50 apertium_extract_caps.cc on texts; grammar induction
C51 the flex scanners generated by deformat.xsl and reformat.xsl, with regular expressions as matching functions; simulation of both on documents, composition is the identity
C52 forward-backward of HMM::train in exact rationals; sums over all readings by induction over the corpus
C53 compiler (mtx_reader.cc) and stack machine (perceptron_spec.cc); compiler-correctness proof against an evaluator of the documents
C54 three scanners of transfer.cc (applyRule, applyWord, default output); grammar induction with escapes
C55 trx_reader.cc building a transducer; language of the automaton = patterns, by invariants on the construction; numbering of finals
C56 composition of C31, C54, C55 with the compiled machine executed on the text
C57 the aligner: band matrix, dynamic programming, trail, ladder, printing, with double as Q; optimality by induction over the grid
C58 tmx_builder.cc: sentence cutting, UTF-8, alignment (C57), cleaning, escaping, output; composition
C59 tsx_reader.cc as a state machine over XML reader nodes; induction over the document grammar
C60 interpreter of interchunk.cc with its cache, simulated by an interpreter on the specification state, proved equal to the relational meaning; total for well-formed rules; composed with tokens, machine and loop
C61 interpreter of postchunk.cc (cache, flags, blank accumulators) proved equal to a relational meaning; patterns of one item: nothing matches after the dollar; loop with pointers into the token buffer; induction over the chunks
C62 applyRule on the words read (also those ahead); locality of rules in the words of their pattern; soundness and completeness of the interpreter (C45) per rule; induction over the transferred text; composed with tokens, machine and loop (C56)
C63 the transducer of lttoolbox as a list of edges, the compiler function by function; every insertion adds a fragment with a known language (runs over streams of symbol alternatives); streams of words are split back at the boundaries; State as the set of runs; composed with C36
C64 declarations as data, the tables as sorted association lists, the file as bytes with encoders as parameters; the loop over the arcs by induction on the arcs of a state in symbol order (last one written wins; symbols are numbered downwards); decimal printing and parsing of rule numbers
C65 the options as getopt_long returns them, state and loop as in the constructor, strtoul modelled on strings; the state after the loop is described from the multiset of options (an invariant of the loop), then the dispatch is compared with an inductive list of usage lines
C66 the script as a function from arguments, environment and answers of the system to a pipeline (command lines as data); options as an inductive reading relation, the getopts loop by induction on the size of the arguments, the state described from the options by induction from the end, the case over formats by computation on the names
C67 the filters as functions on texts split in records, the loop of bash as a fold over the texts between commas; gsub with a counter of skipped characters; a command cannot begin inside free text because its only [ is the first character; resolution by induction over the written list
C68 the loop over the words of the reader of C47; positions by induction with the classes seen; the output is shown to be the text of a document of units again (a part that was matched inside an analysis is matched alone), to which the theorem of C47 applies
C69 findBoundary is shown to return the least position that is not stuck, a property of the position alone; adjust by an invariant on the cumulative ends of the runs (those left of the current one are final, those between are equal to its end, those right are the old ones); documents by induction on the tree
C70 per entry, the output's r is compared with the wanted directions by cases; documents by induction on the tree; the SAX handler's buffer by an invariant (everything buffered is start tags, and after any event sequence of a node the text written is the printed node); the printed text is related to the tree by an XML grammar given as an inductive relation
C71 each entry by cases on its marks and r against an independent definition of usable and default; sections and the document by list lemmas
C72 documents are flattened into the ways to their elements; induction on the tree shows that pruning subtrees is filtering ways
C73 flex rules as sequences of classes, longest match; each piece is one or more steps of the first scanner whose output is consumed by steps of the second that do not depend on what follows; induction on the grammar
C74 as C73, with the second scanner apertium-postlatex: UTF-8 decoding as a byte automaton in the scanner's state, whose buffer is empty between pieces
C75 templates as functions on trees as in C70; meaning of a dictionary as an inductive relation with paradigms; induction on derivations in the original and in the generated dictionary
