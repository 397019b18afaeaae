# Formal model of apertium/apertium in Rocq (Coq 8.16.1)

## Layout

    rocq/theories/Model/X.v   executable Gallina model of one source file (each definition cites file:lines)
    rocq/theories/Spec/X.v    small independent specification (of the model it uses only data types and constants)
    rocq/theories/Proofs/X.v  lemmas
    rocq/theories/Props/Cxx.v the property theorems, Print Assumptions after each, and concrete non-trivial
                              cases that meet the hypotheses (Example ..._witness)

`properties.jsonl` lists the properties (generated by tools/props.py), `MANIFEST.json` maps them to theorems,
`seeded/LOG.jsonl` logs the mutation experiments (tools/mutate.py). This file is generated by tools/design.py from
MANIFEST.json, the header comments of the model files and tools/design_*.

Suffixes: `_partial` marks a main theorem whose English property is proved only in part (the note says what is missing),
`_refuted` a theorem that the property as a user would expect it is false of the code (a finding).

## Conventions

* Characters are abstract code units, `N` (bytes for the byte-level tools, UTF-16 units for UString).
* Streams are lists. lttoolbox's `InputFile` (not in /repo) is modelled by the list of the
  characters still to be read: `get` yields the next unit or EOF, `eof()` becomes true only after a read hit the end, `unget` pushes back.
* Loops are structural recursions where possible, otherwise fuelled recursions with a distinct out-of-fuel
  outcome; theorems prove that fuel bounded by the input length suffices (termination), or exhibit the hang.
* Undefined behaviour and `exit(EXIT_FAILURE)` are distinct outcomes.
* Floating point numbers are modelled by exact rationals (`Q`) wherever a property is about probabilities;
  so rounding is not modelled. Where only the order of operations matters, the score type is abstract.
* External code (ICU, libxml2, lttoolbox transducers and compression, PCRE) is a Section variable/parameter of
  the model with its assumed behaviour as explicit hypotheses in theorems.

## Trusted base

* Coq 8.16.1's kernel (and its virtual machine, for `vm_compute`).
* `Print Assumptions` of every theorem in MANIFEST.json answers "Closed under the global context": no theorem depends
  on any axiom. Merely loading stdlib files (QArith, Lia/Lra/Psatz, ssreflect pieces, Reals through Lra) brings the
  following axioms of the standard library into the environment, which is why vcheck lists them; no theorem uses them:
  `Coq.Reals.Rdefinitions.*` (R, R0, R1, Rplus, Rmult, Ropp, Rlt, Rinv, Rabst, Rrepr, Rquot1, Rquot2 and *_def),
  `Coq.Reals.ClassicalDedekindReals.sig_forall_dec`, `sig_not_dec`,
  `Coq.Logic.FunctionalExtensionality.functional_extensionality_dep`, `Coq.ssr.ssrunder.Under_rel.*`.
  No axioms, functors, module types, Admitted or disabled checks of our own; hypotheses are premises of theorems
  (section variables are generalised when the section is closed).
* The faithfulness of the hand transcription of C++ into Gallina. The code was not run; every definition cites its lines.
* The assumed behaviour of code outside /repo, stated in the model files: lttoolbox (InputFile, Compression, PatternList,
  Transducer/MatchExe/MatchState, Alphabet, State, FSTProcessor, StringUtils, XMLParseUtil), ICU (character classes, regular
  expressions), libxml2's reader and trees, flex, POSIX regex, utf8.h, the C++ standard library. Where possible it is an
  arbitrary parameter (theorem for all behaviours), otherwise a model of its documented behaviour or an explicit premise.
* Machine arithmetic: exact rationals for double, unbounded integers for int/size_t, except where a note says otherwise.

