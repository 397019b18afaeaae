## Which code is not modelled

* Command line handling and opening files of all programs (getopt loops, usage texts, locale setting), except C40, C65, C66 and
  what a property mentions; stderr output; stream buffering.
* The style sheets other than deformat.xsl, reformat.xsl (C51), lexchoice.xsl, lexchoicebil.xsl (C75) and those of C70 and C71.
* Dead code of tmx_builder.cc and the unused parts of the aligner (tmx_translate.cc, tmx_arguments_parser.cc, dictionary
  handling of tmx_dictionary.cc, most trail postprocessors).
* Tracing (apertium_perceptron_trace.cc, trace options of transfer), exception plumbing.
* Memory management, except where a property is about it (C15, C19, C05, out-of-bounds reads).
