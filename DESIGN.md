# Formal model of thpronun: design

The model is written in Rocq (Coq 8.16.1) under `rocq/theories`, standard
library only.  /repo is read as text; nothing in it is built or run.

## Conventions

* **Outcomes.** Code that can fail returns `Res A := Ok a | Throw | UB | NoFuel`.
  `Throw` is a C++ exception leaving the function (`std::out_of_range` from
  `.at`, `std::invalid_argument`/`out_of_range` from `stoi`, `range_error` from
  the UTF converters), `UB` is undefined behaviour (dereferencing `end()`, using
  an erased iterator, indexing past the end of a buffer, null pointer), `NoFuel`
  is exhaustion of the recursion fuel and is never confused with a result:
  termination theorems say that it does not occur.
* `assert` is a no-op: `configure` builds with `-DNDEBUG` unless debugging is
  requested. The parser with its assertions is `ParserDebug.v` (C90), the program on it `CliDebug.v` (C93).
* Text positions are `nat` (C++ `int`, always >= 0 here); graph nodes are `Z`
  (C++ `int`, negative for encoded pre-syllable nodes). 32-bit overflow of node
  numbers is not modelled; by C63 it needs texts of over 21 million characters.
* `char16_t` is `N`; `std::u16string` is `list N`; `std::string` is Coq
  `string` (bytes).
* `std::multimap<int, E>` is a key-sorted association list; `emplace` inserts at
  the end of the equal range (C++11 guarantee).
* `std::list` is `list`; `unordered_map::at` is a total match returning `Throw`
  on a missing key; `unordered_set` is a list tested by membership.
* Parser functions add states to the pool only through `pool.add` and never read
  the pool, so they are modelled as returning the list of additions in order.

## Trusted base

* The Coq kernel (and `vm_compute`), no axioms: every property theorem is
  followed by `Print Assumptions`, which must print "Closed under the global
  context".
* The reading of the C++ text into Gallina (each definition cites file/lines).
* Library behaviour, modelled not verified: libthai character classes
  (`th_wcis*`, one record of predicates, concrete instance `libthai_ct`),
  libthai word breaking (`th_brk_wc_find_breaks`: an arbitrary list of positions; C74 states what is assumed of it), libdatrie
  (a finite map from key strings to offsets, with prefix walking), C stdio as
  byte lists, `wstring_convert` as the UTF-8/UTF-16 transcoding.
* What the theorems assume of libthai's classes is the record `ctype_ok`
  (consonants are in U+0E01..U+0E2E, leading vowels are the five signs, and so
  on); `libthai_ok` checks it of the concrete classes `libthai_ct`.
* Not modelled: memory exhaustion (`malloc`/`realloc` always succeed), I/O errors
  while writing, locale, 32-bit overflow.  A NUL inside a dictionary walk ends
  the key as in libdatrie.

## Where the code is modelled

| Source | Model | Notes |
| --- | --- | --- |
| thortho/thuni.h, thcons.* | ThUni.v, ThCons.v | tables as lists |
| sylstring/* | Syl.v | syllables, strings, comparison, raw reader, positions |
| lattice/dag.*, lattice.*, pron-dag.* | Dag.v, Lattice.v, PronDag.v | generic graph, fractions, grouping, flat listing (output/ioutput.cxx) |
| output/sylout-*.cxx, isyl-output.cxx | SylOut.v, ThaiOut.v | the five notations |
| output/output-*.cxx | Output.v | delimited, JSON, grouped JSON, romanized |
| dict/dict.* , gen-lookup-dict.c | Dict.v, GenDict.v, GenMain.v | prefix search, generator, file format, loading; the generator's messages and exit status |
| data/*.tsv, data/Makefile.am | Data.v | the shipped exception dictionary |
| parser/parser.* | Parser.v | every rule function, the pool, the main loop |
| the assertions of parser/parser.cxx, thortho/thcons.cxx | ParserDebug.v | the parser of a build with --enable-debug |
| the assertions of output/sylout-thai.cxx, and the program on the parser with assertions | CliDebug.v | thpronun of a build with --enable-debug |
| thpronun/thpronun.cxx | Cli.v | main, options, reading of words, usage and version texts |
| UTF-8/UTF-16 conversion | Utf.v | library behaviour |

Tests of the transcription (not proofs): `Checks.v` evaluates the expectations
of the project's own test programs on the model, `Checks2.v` runs its shell
tests through the modelled `main`.

Proof files: `Spec.v`, `ParserSpec.v`, `Grammar.v` hold specification vocabulary only;
`*Proofs.v`, `Parser{Rules,Acts,Facts,Loop,Inv,Pool,Result,Listed,Dict,Literal}.v`
the invariants; `ParserShift.v`, `ParserLocal.v`, `ParserProduct.v` the locality
of the rules and the independence of words; `Grammar{Run,Iff,Word}.v` the equivalence
with the spelling grammar; `Prop_*.v` the property theorems.

## Properties

See `properties.jsonl` for statements; one line each on how they are handled.

* **C01 Spoken tone follows the Thai tone rules.** `ToneFromWritten` as written vs. an independent tone table; exhaustive case split.
* **C02 Consonant tables are total and right for every Thai consonant.** 46-entry tables as lists; independent letter groups transcribed from the header comments; finite sweep over the 44 letters.
* **C03 Syllable ordering is a strict total order.** Comparison functions as written; generic lemmas on lexicographic composition; induction on strings.
* **C04 Syllable equality ignores positions and is an equivalence.** Equality as written vs. equality of spoken content; counterexample by computation.
* **C05 Raw notation round-trips.** `Raw` printer, decimal printer/reader, `Syl(desc)`, `SylString(desc)`; induction on digits and list.
* **C06 Shifting a dictionary pronunciation relocates it faithfully.** Arithmetic on the encoding; induction on strings.
* **C07 Alternatives of a fraction stay sorted and complete.** List insertion; invariant by induction on the insertion history; counterexample for uniqueness.
* **C08 Graph indexes stay consistent under every edit history.** Generic multimap pair; invariant (mirror + no duplicates + sorted) over an inductive set of histories; refinement to an abstract edge set.
* **C09 Graph edit return values and frame.** Corollaries of the same refinement.
* **C10 Flat enumeration lists exactly the complete paths.** Fuelled recursion; acyclicity given by a rank function; relation to an inductive path predicate.
* **C11 Grouping preserves the set of pronunciations.** Language of a graph (inductive), preserved by each rewriting step up to ==; lattice denotation defined independently.
* **C12 Grouping terminates and is memory safe on acyclic graphs.** Merge loops with erased-iterator detection; measure = number of edges; witness for the self loop.
* **C13 Grouping result is reduced.** Postcondition of the loops by invariants.
* **C14 Building a graph from a list of strings keeps every string.** Path lemmas over `addSylString`; counterexample for mixing.
* **C15 Every notation is total on well-formed syllables.** Finite sweep / case analysis over component values.
* **C16 Phonetic notation is unambiguous.** Left inverse (decoder) plus sweep over the component product.
* **C17 Soundex merges exactly the intended distinctions.** Case analysis on table rows.
* **C18 Thai respelling carries the right tone.** Independent reader of Thai spelling classes and marks + tone table; finite sweep.
* **C19 Delimited output structure.** Independent join/split specification; induction.
* **C20 JSON output decodes to the pronunciation list.** Independent JSON reader; parse-of-print by induction; counterexample with a quote.
* **C21 JSON output is safe to call on any parse result.** Characterisation theorem + witness.
* **C22 Romanization hyphens follow the Royal Institute rule.** Independent hyphen specification; induction; witness after blank. `C22_literals` (`Prop_Literal.v`) adds hyphens next to text that is not Thai in parser results, by C71 and the shape of literals (`canon`).
* **C23 Parsing always terminates.** Fuelled pool loop; lexicographic measure; fuel sufficiency.
* **C24 Parsing never reads outside the text.** Case analysis of every look-ahead with bounds; witness word.
* **C25 Every pronunciation covers the whole input.** Invariant on parse states (sink/source/rank), preserved by every step.
* **C26 The result graph is acyclic and starts at the beginning.** Rank function on node numbers, strictly increasing along edges; same invariant.
* **C27 Pre-syllable nodes never collide.** Arithmetic on the encoding + bound on the span of every emission.
* **C28 Non-Thai text passes through verbatim.** Per-edge invariant over the whole parse.
* **C29 A text without Thai is returned unchanged.** Direct evaluation of the loop for a symbolic text.
* **C30 Every spoken syllable is well-formed.** Per-emission postcondition of every parsing function.
* **C31 Initial sounds are never invented.** Per-emission postcondition of every parsing function.
* **C32 Pooling partial analyses loses and adds nothing.** Nondeterministic derivation relation without pool; both inclusions by induction.
* **C33 The pool serves states in text order.** List induction; witness for the duplicate.
* **C34 Exception dictionary takes precedence.** Characterisation of one parser step.
* **C35 Dictionary prefix search is exact.** Trie as finite map; loop specification.
* **C36 Dictionary data bank round-trips.** Bank as byte list; induction on additions.
* **C37 Dictionary generator reads UTF-8 keys correctly.** Independent UTF-8 encoder; arithmetic on bit fields.
* **C38 Dictionary generator keeps every entry or fails.** Line reader on byte lists; characterisation and witness.
* **C39 A dictionary that fails to load is not used.** Load function on file contents; witness.
* **C40 Abbreviations are spelled out.** Induction on the groups with symbolic evaluation of the loop.
* **C41 Syllables do not cross word breaks.** Per-edge/per-state invariant.
* **C42 Command-line options.** Two-pass option loop on argument lists; independent specification.
* **C43 Help option is recognised anywhere.** Witnesses and characterisation.
* **C44 Text encoding round-trips.** UTF-8/UTF-16 codecs on lists; literal spans end at non-surrogates.
* **C45 Karan matching is exact.** Independent pattern specification; case analysis.
* **C46 Simple syllables have exactly one reading.** Finite sweep of the whole parser.
* **C47 The shipped exception dictionary is well-formed.** Data transcribed from data/*.tsv, parsed by the modelled reader, checked by computation.
* **C48 Final consonants are written.** Per-emission postcondition of the rules; restated for listed syllables.
* **C49 Tones follow the tone rules.** Per-emission postcondition; independent tone table.
* **C50 Textbook closed syllables are read.** Complete sweep over the finite domain of spellings, which also determines for which of them there is no other reading (`clear`).
* **C51 Clusters and led consonants are read.** Complete sweep over the finite domain of spellings.
* **C52 One bad word does not cost the others.** Model of main; characterisation of the failure and witness.
* **C53 The program succeeds on sensible words.** Composition of the parser, notation and output theorems through main.
* **C54 A word boundary divides a text into independent parts.** Locality lemma for every rule function (same result in any context, moved), simulation of derivations in both directions, path splitting at the boundary node.
* **C55 A sentence is read word by word.** Induction on the words with C54.
* **C56 A word is read exactly as the spelling grammar says.** Grammar.v is an inductive grammar on the remaining letters, without positions and without the parser model. GrammarRun.v rewrites the rule functions as list-valued functions on letters, GrammarIff.v proves that these derive exactly the grammar (both inclusions), GrammarWord.v lifts this to the state pool and the listed paths.
* **C57 Dictionary words and grammar readings together determine the pronunciations.** Same, with the moves of dictionary words.
* **C58 Only the dictionary entries written in the text matter.** Equality of the two runs; the matches at a position are a sorted list determined by its elements.
* **C59 The pronunciations of a text, piece by piece.** Composition of C55 with C57 (words), C29 (foreign), C40 and C58 (letter names).
* **C60 Romanization follows the Royal Institute table.** The table is written again by Thai letters (`royalInitial`, `royalFinal`) and composed with the letter groups of C02 (`Royal`); the program's tables are swept against it. The merging theorem splits onset and rime at the first vowel letter as in C16.
* **C61 The phonetic text.** Given relative to the Royal Institute table (`Voice`); tables swept.
* **C62 The Thai respelling is read back.** For each of the 90720 well-formed syllables the respelling is parsed without dictionary inside Coq (`back_ok`), and the listing is compared with an independent description of what is heard (`heard`) or of why it cannot be (`odd`). C56 carries the result over to every dictionary without an entry inside the word. The domain of components is finite and swept completely; positions and dictionaries are handled by proof.
* **C63 Node numbers fit.** From the rank bound of the parser invariant (`gi_rank`): a node is at most 101 times the length of the text in absolute value, whatever rules produced it, so the `int` arithmetic of the encoding does not overflow below 2^31/101 characters.
* **C64 No repeated listing.** Two paths of the graph with equal syllables and equal end positions have the same nodes (the target of an edge is the end position of its syllable) and then the same edges (`addEdge` keeps no equal parallel edges); the enumeration lists no path twice. The stronger claim, that no reading is listed twice, is refuted by a concrete word.
* **C65 The program, end to end.** Composes C42 (the command line), C54-C57 (the readings of pieces and texts), C64 (no reading over the same boundaries twice) and the exact texts of the notations (C60, C61, C66, C67) with the line layout of C19/C45. `answer` says what is printed for one text without any function of the model except the splitting of the text into pieces; its list of readings is characterised by the grammar (`Spoken`). The length bound is that of C63.
* **C66 Simplest respelling.** `Respelled` minimises `cost` over all onsets and marks that give the tone by `ReadTone` (the school rules). `textsGood` compares the one minimal text with the model's pair of onset and mark for every initial, second consonant, tone, liveness and length (a full sweep of finite types), the frame is that of `Prop_Notation.spelled`.
* **C67 Raw and soundex.** `Coded` goes through the letters of the alphabet (`initialSound`), not through the enumeration; `Numeral` is the decimal notation defined by its last digit, related to the model's `to_string` for every `int`.
* **C68 Dictionary source to pronunciation.** The source is described from the pronunciations (`codeOf`, `dataOf` join the codes of C67), not from what the reader accepts. Composes C67 (codes), C05 (reading them back), C38 (generator and loader) and C57 (walks). C38 gained a conjunct for this: the data of every key the file holds can be read.
* **C69 JSON end to end.** As C65 with the structures of `-j` and `-g`. The value is described by relations over the syllables of the readings (`ListValue`, `GroupValue`) and read from the printed text by the JSON reader `decode` of C20; `Choice` picks one alternative per group. Without any reading `-j` is undefined behaviour (C21), hence the hypothesis `speakable`.
- **C70** (`Prop_Breaks.v`): `C70_breaks_that_matter` - break lists that agree on the
  positions between two characters of one Thai stretch (`sameBreaks`) give equal
  parses.  C65 and C69 use it, so that the word breaker may put breaks anywhere in
  the foreign stretches of a text.
- **C71** (`Prop_Every.v`, specification in `TextGrammar.v`, proof in `TextProof.v`):
  `C71_every_text` and `C71_outcome` - the general form of C56, C57 and C59, without
  conditions on where words, names and foreign stretches meet.  `Step` moves from
  position to position over the text; `Reading` are the paths made of moves that lie on
  some complete reading (the state pool merges graphs, so paths may change over between
  readings at a shared boundary).  `stuck` makes the condition of C24 exact.
- **C72** (`Prop_ProgramEvery.v`): `C72_program`, `C72_json`, `C72_grouped` - C65 and C69
  for every text.  C71 decides for each word whether it is answered or ends the program
  (`hopeless`); `program_total` goes through the word list.  The answers contain
  `~ hopeless`, so the answered prefix is unique.
- **C73** (`Prop_Pool.v`, `PoolGrowth.v`). The fuel of `ParseU16F` counts the iterations of the main loop (one `StatePool::pop` each).
  `C73_unlinked_linear`: if no reading (`Comes` of `TextGrammar.v`) arrives anywhere with a shared consonant, `2m+1` iterations suffice; the pool then
  has strictly ascending positions and `2*pos + (stop > pos)` of its front grows. `C73_doubling`: for "กา" repeated `n` times the loop
  needs exactly `2^n + n - 1` iterations. `C73_polynomial_refuted`: hence no polynomial bound. The cause is `StatePool::add`
  (parser/parser.cxx:124-138), which inserts as soon as the state under the iterator has the new position, even if a state with the same position
  and flag stands behind it; linked and unlinked additions then alternate and double.
- **C74** (`FindBreaks.v`, `Prop_FindBreaks.v`). `FindBreaks` with its buffer, the C string passed to libthai and the final `resize`;
  libthai is a function `lib` from string and buffer size to stored positions and count. Under `properBreaks`/`findsBreaks` the result is
  the list of breaks of the text before a NUL (`C74_breaks_found`), `parseWordB` is the `parseWordF` of the other properties
  (`C74_parse_word`), and C72 loses its hypothesis on breaks (`C74_program`).
- **C75** (`Prop_Shipped.v`). The words of the shipped lists. One sweep over the 105 lines computes for each the listing of
  its word with the generated dictionary; it is lifted to a statement over the lines (`shippedLine`: word and raw notation of
  the pronunciations, by `RawText` of C67). `C75_covered`: every line is one; `C75_as_listed`: the listing is a permutation of
  the line; `C75_extra_refuted`: the exception; `C75_sentence` (with C55) sequences of words and blanks of any length;
  `C75_program` the program on them.
- **C76** (`Prop_RespellLine.v`). C62 for whole lines. `respelt` collects the hypotheses of C62; a second sweep over the syllables gives
  the shape of a respelling (at least two Thai characters, no full stop, no leading vowel at the end); hyphens make a sentence of the
  line (C55), and the breaks around them do not matter (C70).
- **C77** (`Prop_Order.v`). C08-C10 compare sets; this pins the order. `Timeline` runs an edit history together with one plain list of
  (target, value) pairs per node (`arrive` appends unless alike, removal filters, union appends the unknown ones), and
  `C77_order_of_arrival` says that the outgoing edges are that list. `C77_every_history`: every history has a timeline.
  `earlier d root p q`: where the paths part, p takes the edge standing first among the edges of the node. `C77_listing_order`: listed
  paths at increasing places are `earlier`, which with the set of complete paths determines the listing.
- **C78** (`GenMain.v`, `Prop_GenMain.v`). `genMain` adds the messages, the files and the exit status to the generator of `GenDict.v`.
  Files are three functions: bytes that can be read, paths that can be written, paths that lead to the same file; opening for writing
  empties the file before reading starts. `ready` says that source and target can be opened and differ. `C78_refused`, `C78_success`
  (`madeOf`: the dictionary of the lines, from C38), `C78_cut_short_refuted` (`complaint`: the message), `C78_stopped_refuted` (`notStored`: the message),
  `C78_in_place_refuted`; `C78_both_programs` composes it with C68 and C72, the readings being those of `TextGrammar` with the words of
  the source as dictionary. Writing is taken not to fail; the program would not notice (the results are ignored, lines 264-265).
- **C79** (`Prop_RawRead.v`). The notation is stated again as `Reads` (codes by letter, `SignedByte`, `IntText` for what `stoi`
  takes, `EndMark`), `TooShort` and, for entries, `Codes`/`FirstBad` over texts joined by separators. `C79_one_syllable` gives all three
  outcomes of `SylOfDesc` as equivalences, `C79_entry` those of `MakeSylStrings`, `C79_parser` the consequence for the parser,
  `C79_writable_refuted` a code that is read but cannot be written.
- **C80** (`Prop_Cycle.v`). `CycleFree` is stated with `Path` of `Spec.v`. `C80_listing_ends` and `C80_lattice_ends` drop the hypothesis
  `Acyclic` of C10 and C12: ending and cycle-freedom are equivalent. `NoFuel` for every fuel models unbounded recursion. `C80_entry_loops`
  follows one dictionary step through the main loop (`loop_keeps`: edges of a finished state reach the result);
  `C80_ends_refuted` and `C80_rest_kept_refuted` exhibit the two kinds of careless entry.
- **C81** (Prop_Usage.v: `C81_letters`, `C81_names`, `C81_same`, `C81_case`): the help text (the real output of the program run with `--help`) has a line `  -c...` exactly for the letters which the option loop does not reject as unknown, with anything after the letter; a long name is documented exactly when it is known as the only argument, and in first place acts as the letter on its line. "Line" is defined on strings (`LineIn`), not through the model of `Usage`; "unknown" is the text of the error stream. That `--help` is only recognised in first place is C43. `C81_version` is what is printed for the version.
- **C82** (`Prop_FracEnd.v`). `C82_positions` is an invariant of the two merge loops (no acyclicity needed; termination is C12): a fraction of
  one reading has the end of its edge, a fraction of several has -1. The natural claim "endPos() is where the fraction ends" is refuted for the
  graph (`C82_graph_refuted`) and, even when it holds for the graph, for the lattice (`C82_lattice_refuted`).
* **C83** (`Prop_Package.v`): `C83_package` chains the build of the package data (join, `LC_ALL=C sort -u`, `gen-lookup-dict`) with the program: `SortedUnique` describes the sorted file without the model's `sortU` (strictly ascending by bytes, the same lines), and the answer is stated with `Reading shippedEntry`, the text grammar with the lines of the shipped lists as dictionary. The proof turns the lines of the lists into a source for `C78_both_programs` (line shapes by `C75_covered`, lengths and one line per word by a sweep over the shipped lines). `C83_sorted`: exactly one such file, and it is `except_tsv`. `C83_one_line`: a word has one line.
* **C84** (`Prop_CodeOrder.v`): `Precedes` spells out the order of two syllables with lists of the sounds, finals and tones in order (`Earlier`), `StringPrecedes` that of strings; `C84_syllables` and `C84_strings` say that `operator<` is exactly this. `C84_groups`: the alternatives of every fraction of the lattice are strictly ascending in it. `groupAnswer` and `groupValues` (C69, C72) demand the same of the printed groups, and that no two neighbouring groups both have a single alternative.
* **C85** (`Prop_Regular.v`): `RegularSyl next t x` states the textbook spelling of one syllable before the text `next` (initials of C46/C51, spellings of C46/C50, every mark and every final); `Regular D l` is a list of such syllables and of listed words. `C85_regular_words` proves that the concatenation is listed with the readings in order, by building a complete way of the grammar of C57, so the length is unbounded; `C85_sentences` adds word breaks by C55. The two exclusions are shown to be necessary in `C85_case`.
* **C86 grouped output of a list** (`Prop_GroupList.v`): `groupsJson` is the JSON value of a list of chains and `apart` says that no two different strings share an interior position. `C86_grouped_list` combines the list graph (C14), grouping (C11), order (C84) and the JSON decoder (C20) into a statement on the printed text of `GroupedJsonOutput::output(list)`. `C86_mixing_refuted` shows that without `apart` pronunciations that were not given are offered.
* **C87 regular spelling, end to end** (`Prop_RegularOut.v`): `regularly` says that a word of the command line is the UTF-8 text of words of regular spelling (C85) and names the reading; `onLine`, `inList`, `inGroups` say what it means that the three forms of output have a reading, on the decoded text. `C87_lines`, `C87_json`, `C87_grouped` combine C85 with the total description of the program (C72); in particular such texts never end the program early, and never reach the undefined behaviour of the flat JSON form.
* **C88 spans** (`Prop_Span.v`): `ends s` are the letters at which syllables end (places inside a letter group are left out) and `steps 1 12 0 (ends s)` bounds each stretch. `C88_syllable_count` is proved by measuring every rule of the grammar and induction along the reading, so by C56 it holds of the parser. `C88_case` shows that both bounds are reached.
* **C89 clear texts** (`Prop_Clear.v`): `Clear w v` says in the terms of C46 and C50 that `w` is a clear spelling with the textbook syllable `v` (which is unique); `C89_clear_texts` joins the words by C55 and C58, so it holds for any length; `C89_lines`, `C89_json` and `C89_grouped` carry it to the program by C72. `C89_unclear` shows that the condition cannot be dropped ("เกน").
* **C90 assertions** (`ParserDebug.v`, `DebugProofs.v`, `DebugText.v`, `Prop_Debug.v`): `ParserDebug.v` is the parser with its assertions and those of `thortho/thcons.cxx`; an outcome is that of the normal build or the place of the failed assertion. `DebugProofs.v` shows function by function that the assertions hold under what the callers know. `C90_assertions` is exact for libthai: `bareVowel` (stated with the positions the readings of `TextGrammar` come to) decides between line 293 and agreement with the normal build; `C90_no_bare_vowel` is the case without such a vowel, `C90_one_place` says for any letter classification that nothing else fails, `C90_words` is the same for UTF-8 input, `C90_no_assertion_fails_refuted` the counterexample. The three assertions of `output/sylout-thai.cxx` repeat the keys of the table used right after them, whose `.at` is modelled (by C66 it does not throw).
* **C91 size of the result** (`Prop_Size.v`): the edges are those on a reading (`TextGrammar`), each of them is in an explicit list of candidates per position (spoken syllables over at most 13 letters by `reads_len`, the literal of the foreign stretch, what the dictionary lists), and the graph holds no edge twice (`C91_linear_graph`). `C91_exponential_bound`: a pronunciation is decided by the set of its edges (the ranks of the nodes go up along it, `steps_same`), so there are at most as many as sublists of the edges. `C91_repeated` counts the pronunciations of a repeated word with C55 (no pronunciation begins with another, `no_prefix`); `C91_polynomial_listing_refuted` follows with a word of four readings and no dictionary. The bound is on the result: the number of rounds of the main loop is C73.
* **C92 vowels are written** (`Prop_Vowel.v`): the specification is a table of vowels with the signs that write them (`vowelTable`) and, as its converse, of signs with the vowels they are heard as (`heardAs`); neither mentions the parser or the grammar. Each rule of the grammar (`Grammar`) is checked against the table by a tactic (`rime_spelt`, `rimeE_spelt`, `rimeL_spelt`, `rimeRu_spelt`, `implied_spelt`), and the readings of any text carry it to all listed syllables (`edges_way` of C91). `C92_vowels_written` is the general statement, `C92_signs_heard` says it for one sign at a position. The signs of short I and U are no part of the comparison, as they are silent under a THANTHAKHAT or after a final consonant; where the vowel is I or U the table asks for them.
* **C93 the program with assertions** (`CliDebug.v`, `Prop_DebugMain.v`): `CliDebug.v` is the program of `Cli.v` on the parser of `ParserDebug.v`, and the Thai notation with its three assertions. `C93_respelling`: these never fail, so the output classes are shared with `Cli.v`. `C93_same_or_stops` compares the two builds on every run; `C93_no_bare_vowel` and `C93_bare_vowel` say which words stop the one with assertions (from C90). The text the C library prints for a failed assertion is not modelled.
- **C94** (`Prop_ThaiSame.v`): `C94_thai_merges`: `ThaiOutput a = ThaiOutput b <-> said a = said b` for well-formed syllables. `said` is written from the phonology (letter classes, live/dead, length), not from the output code. The text is cut into what stands before the first consonant, the chain of dotted consonants and the rest (`cut_app`), so onsets and frames can be compared separately; both finite tables are swept completely (all pairs). Every way to merge is shown in `C94_case`.
- **C95** (`Prop_Lines.v`): `C95_pages`, `C95_json`, `C95_groups`: equality of the printed texts iff `Forall2 (Forall2 (looksAs R))` with the relation `R` of the notation (`said`, `soundexSame`, `eq`, `soundsAs`, `romanSame`). One section proves it for any faithful notation (no text with blank, delimiter, line end or quote): lines by cutting at the first separator (`free_split`), brackets by texts that end by themselves (`Closed`, `bracket_closed`, used three times for groups). `C95_printed` states it for what each option of the program prints for a result graph. `C95_roman_lines_refuted` shows the romanized lines are ambiguous. Literals are excluded: they may contain any character.
- **C96** (`Prop_Head.v`): sharpens C31 and C49, which only ask for *some* consonant, class and mark of the group. `Head` lists how the first letters give sound, second sound and class; `MarkedBy` says that the letters have no tone mark or exactly the one heard; neither uses the parser. Each rule of `Grammar` is checked (`initial_head`, `rime_marks`, `rimeE_marks`, `rimeL_marks`, `rimeRu_marks`, `implied_headed`). `origin_lemma` is the general step from the readings of a letter sequence to the syllables of any text (also usable for other properties): every listed syllable outside the dictionary is the pre-syllable or the syllable of a reading at its group, or the name of a letter. `C96_heads_written` is the general statement, `C96_marks_heard` the one for a mark at a position.
- **C97** (`Prop_Orthography.v`): the specification is the table of Thai vowels (`spellings`: sign before, letters after, vowel, letters the initial must have, how it ends), the initials (`Onset`), the endings (`Closes`) and the removal of silenced letters (`Strip`); none of them uses the parser or the rules of `Grammar`. `Takes t r ls` ("from `t` to `r` the letters `ls` remain") composes along the rules, so each rule of the grammar is matched with a row by a tactic (`rows`). `C97_spelt` carries it to any text with `origin_lemma` of C96. It contains the sharp forms of C31, C48, C49 and C92. `C88_any_text` extends the bound of twelve letters from single words to every text.
- **C98** (`Prop_Neighbours.v`): the specification is the table `neighbours` (rows of letters and their followers), the first letters `Opens` and last letters `Stops`. `Chain a t r` ("after `a` the letters from `t` to `r` are in the table and what may come next goes with the last") composes along the rules of the grammar; letters after which every start of a syllable may follow (`freeL`) end a chain at once. `ends_seams` adds the steps of a text: foreign stretches, dictionary words, names of letters, and the vowels that take a consonant across a break. `C98_text` is the text theorem; `C98_pairs` and `C98_edges` show that every entry occurs, by a word for each pair (finite sweep), and no other.
- **C99** (`Prop_NoBreak.v`): `Seam u v` lists what the letters before and after a break must not be, `Spare` adds the letter names and the dictionary. `Reads_app`: whatever is read from `u` is read the same from `u ++ v`, by induction over the rules of the grammar with the look-ahead of each rule. `pass_drop` lifts this to a step in a text (words end at a break, at the end of the stretch, or now further on), `drop_all` removes the breaks one after the other, and C71 turns readings into listings (`C99_breaks`) and answers of the program (`C99_answers`). `C99_conditions_needed` has a text for each condition, `C99_breaks_only_remove_refuted` is the general claim.
- **C100** (`Prop_Alike.v`): `alikeGroups` lists the groups as letters, `Alike ex` relates two characters, `SylAlike ex` two syllables (with the tone only if `ex = true`), `TextAlike` and `ListsAlike` lift them. `Reads_like` shows by induction over the rules of the grammar that a reading of one text is a reading of the other, every look-ahead included; `reading_like`/`stuck_like` lift it to texts with words and breaks, and C71 turns it into listings (`C100_alike`, `C100_same`; `C100_free_words` gives the dictionary condition for dictionaries whose words avoid the groups, `C100_dictionary_matters` shows that it is needed). `C100_exactly`: `Interchangeable ex x y <-> Alike ex x y` for all characters; Thai letters are told apart by a sweep over six surroundings (two more for tones), any other character by C29.
- **C101** (`Prop_Sayable.v`): `onsets`, `ruOnsets`, `rime`, `ruRime` are tables of what can be said, `CanSay` puts them together with the tone rules of C01. `reads_can` shows, rule by rule, that every reading says such syllables, and `origin_lemma` of C96 that every syllable of a listing comes from a reading, a letter's name or the dictionary (`C101_with_dictionary`). For the converse `tails` and `onset_text`/`ru_text` give a spelling for each rime and each initial, `can_read` puts them together to a text, and C56 and C71 show that this text is pronounced so (`C101_exactly`). `C101_count` lists the syllables without repetition; the length of the list is computed.
- **C102** (`Prop_Sequence.v`): `Sequence` says it: units are single syllables other than "riy", or a pair with "riy" as `MayPrecede` allows. `reads_riy` shows that only a consonant and RU with a short "a" before it is read "riy"; by the origin of syllables (C96) and the node numbers (C27) the syllable before it comes from the same letters (`riy_before`). Conversely `can_read` (C101) gives each other syllable a word of its own, `riy_text` writes the pairs, and C55 puts the words together.
- **C103** (`Prop_Range.v`): `Result` describes the outputs, `Item` a syllable's sounds or its text. Every listing is of this form: literals come from foreign stretches or full stops (`way_literal`), and after a stretch that ends in a blank a full stop is never passed over in silence, so the next stretch cannot follow at once. Conversely `build` writes a text unit by unit: a word for each syllable or pair, the foreign text itself, and between two foreign texts (or before a full stop of its own) a full stop that the reading passes over (`unit_step`); `Chain` collects the steps into a reading in the sense of C71.
- **C104** (`Prop_Json.v`): `JsonText` is the grammar of RFC 8259 for strings and arrays, with at most one value per text (`json_fun`). A reading never has more characters than its source, and as many only without escapes and white space (`denotes_len`), so a value written without escapes is JSON for that value only if nothing in it needs escaping (`json_enc`). Special characters are foreign, so each pronunciation shows all of them (`plain_one`, from C28). `C104_program` and `C104_program_grouped` are C72 for -j and -g without a condition on the characters (`listing_by` in `Prop_ProgramJson.v` is shared with C69 and C72). The refuted theorem says that one text can forge any list of plain answers.
- **C105** (`Prop_Tells.v`): `tells out out'` says that pronunciations alike in `out` are alike in `out'`; `C105_lines` and `C105_json` give for each of the 25 pairs of notations exactly whether it holds. The positive part follows from C95 (pages split into syllables) and C16, C60 (`sounds_roman`: what sounds alike is romanized alike). The negative part has one pair of Thai texts per notation, parsed and printed by evaluation (`witness`, `apart_not`).
- **C106** (`Prop_Silenced.v`): for the word grammar of C56, `Reads_join` moves each reading of `t` to one of `t` with the silenced consonant and `Reads_cut` moves it back, rule by rule; `Says_join` and `Says_cut` lift this to pronunciations. Theorems `C106_kept` and `C106_none_added`; `Quiet` names the endings left out, and `C106_conditions_needed` gives a word for each of them.
- **C107** (`Prop_Silenced2.v`): as C106, one way: `Reads_join` adds the silenced pair to each rule of the word grammar whose rest is empty, under `Good` (the last letter is the final consonant and no syllable starts right before it), `Says_join` lifts it to pronunciations. Section `Cutting` goes the other way when the word ends in MAI HAN AKAT, a mark or none, and the final: `Reads_cutH` takes the silenced pair off every reading, `Says_cut` off every pronunciation. Theorems `C107_kept`, `C107_none_added`; `C107_conditions_needed` gives a word for each ending left out and one where pronunciations are gained.
- **C108** (`Prop_SilentRo.v`): as C107, with the silent letter read by the wider rule for finals (`FS_join` turns the last plain final into `FS_ro` or `FS_iu`); `Mid` says that the letters stand after a letter that is no wide vowel, so that the narrow rules never end in the last final. Theorem `C108_kept`; `C108_conditions_needed` gives a word for each condition and one where pronunciations are gained.
- **C109** (`Prop_Exchange.v`): from C55, since `inTurn` only shifts positions and `spoken` does not see them (`heard_turn`). `heard_text` and `heard_line`: the four notations are functions of what is spoken. Theorems `C109_exchange`, `C109_lines`, `C109_silent` (with `SilentLetters` collecting C106 to C108); `C109_raw_refuted` for raw notation.
- **C110** (`Prop_Relist.v`): on the walks of C57. `relists` says that one dictionary lists the word with given pronunciations and is otherwise the other. A proper rest of the word is too short to begin with it, so every way from there is the same (`way_same`, `fin_same`, `reached_same`); from the start, `way_first`, the new ways are those of the entry, whose moves are old ones because the pronunciations are walks. `pron_good` shows that pronunciations of a word can be listed, C68 gives the dictionary of a source list. Theorems `C110_relisted`, `C110_source`; `C110_longer_refuted` for longer words.
- **C111** (`Prop_SameRun.v`): `asks` says what the options ask for, with the vocabulary of C42 and the last `-d`. `main_whole` brings every run of an accepted command line into one form, `whole`, that mentions only what is asked for and the words, without supposing that the dictionary can be read or the words parsed. Theorems `C111_same`, `C111_moved`, `C111_input` follow. `all_err` shows that saying words writes no message, so that a run for a list of words splits (`C111_together`). `C111_default_refuted` for `-d` with the default path.
- **C112** (`Prop_Toneless.v`): C100 pairs the pronunciations of both texts syllable by syllable up to tone. The syllables are never blanks (`pron_blank`, from C30), so romanization and soundex look only at fields that agree (`text_like`), and so do the line, JSON and romanization loops (`line_like`, `texts_like`, `roman_like`). Theorem `C112_same_lines`; `C112_tones_shown_refuted` for the other notations.
- **C113** (`Prop_Source.v`): C38 gives the dictionary of a source; `source_answers` says that it answers for a word exactly what the last line for the word says, whatever the numbering. C58 then gives equal parses of all texts, and `like_main` follows the parser object through the program, also for arguments that are not accepted. Theorems `C113_same_program`, `C113_order`, `C113_later`; `C113_order_refuted` for two lines of one word.
- **C114** (`Prop_Crlf.v`): `cr_lines` gives the lines of such an input, C111 the equal run with arguments (`C114_input`). `cr_bytes` decodes the word with its carriage return, C29 reads the carriage return alone and C54 divides the text before it (`C114_heard`). `C114_same_refuted` for the expectation. `getline` keeps the carriage return because the stream is read as bytes.
- **C115** (`Prop_Bracket.v`): `alone_silent` shows that the grammar has no reading for a consonant alone; no step of the reading rules (C71) starts at such a place and none before it leads beyond it (`step_stays`), so no reading ends (`C115_lost`). `C115_kept` from C29 and C54. `C115_foreign_refuted` with "(พ.ศ.)", for which the program prints nothing and reports success.
- **C116** (`Prop_Point.v`): by the reading rules (C71) the only step from the start of a piece copies it and passes over the full stop (`u_step`, `piece_step`, `last_step`); all positions reached are starts of pieces (`comes_at`), so the path is unique (`path_only`) and exists (`path_made`). `C116_copied_refuted` with "3.5".
- **C117** (`Prop_Repeat.v`): a word ends before such signs (`signs_boundary`), so C54 divides the text there and C29 reads the signs (`C117_copied`); with C115 also the text after them (`C117_between`). `C117_not_repeated` from C28: the mark is in some literal of every pronunciation, and the literals of the word are parts of the word, which has no such mark. `C117_repeated_refuted` with "มากๆ". `C117_and_so_on_lost` from C115: the consonant of "ฯลฯ" is alone after foreign text.
- **C118** (`Prop_Typed.v`): from C98; `mistyped_bad` goes through the finite table of pairs: none of them is in the table of neighbours, and none can end and begin a stretch at a word break. NIKHAHIT is not a letter for the parser, so SARA AA would have to begin a stretch. Theorems `C118_lost`, `C118_retyped_lost`; `C118_alike_refuted` with "น้ำ".

## Mutation testing

`seeded/LOG.jsonl` has one line per attempt: the definition of the model that
was edited in a scratch copy, the edit, the claim it breaks, the lemmas at which
the build stopped (`failing_lemmas`, the first per file), the property theorems
whose proofs use one of them (`theorems_failed`, found by following names in the
tree used for the attempt), and the theorems added or strengthened because of
it.  An empty `theorems_failed` means that no theorem noticed the edit at the
time, even if an Example or a test computed in `Checks.v` did.  `/retest`
attempts repeat an edit after the tightening.  A failing proof script shows that
the edit is noticed, not by itself that the statement became false.  Where a line
has a `counterexample`, a text was computed under the edit on which the theorem is
false.

## Findings

Behaviour of the code met while proving, most of it stated by a theorem whose
name ends in `_refuted` or exhibited by an Example:

* A word ending in one of the leading vowels แ โ ไ ใ makes the parser throw; in
  the program the exception leaves main and the remaining words are lost (C24, C52).
* `ParseOtherLV` calls `MatchInitCons` without the check `ParseSaraE` has, so a build with assertions ends
  with a failed assertion at แ โ ไ ใ before a word break, a foreign character or the end (C90).
* The shipped entry for สิริกิติ์ does not suppress a second reading (without the listed ending), made of the
  entry for สิริ and the rules for the rest (C75).
* A leading vowel before a word break reads the first consonant of the next word (C41).
* An abbreviation or single letter directly after a bracket, quotation mark or digit is not spelled out and leaves the whole
  text without a pronunciation: nothing is printed for "(พ.ศ.)" (C115).
* Full stops between foreign characters are lost: "3.5" is given as 3 and 5 (C116).
* The repetition mark does not repeat: "มากๆ" is given as มาก and the mark copied (C117).
* A text with "ฯลฯ" (and so on) has no pronunciation (C117).
* Text in a Unicode compatibility normal form (NFKC, NFKD) has no pronunciation where SARA AM was: it is decomposed there and
  not accepted by the parser; the same for other spellings that look right but are typed out of order (C118).
* Two pre-syllable readings of the same span share a node, so their halves mix ("บริกา").
* The state pool does not merge every pair of states alike in position and link flag (C33);
  on "กา" repeated n times without a dictionary the main loop takes 2^n + n - 1 iterations (C73).
* A syllable string without positions makes a self loop at node -1; grouping such
  a graph is undefined behaviour (C12). A merged fraction gets end position -1.
* Equality of syllables ignores positions, ordering does not (C04); a fraction can
  keep two equal alternatives (C07); a text can list the same pronunciation twice,
  over different syllable boundaries (มรกต, กกกก; C64).
* Thai respelling is not injective (EE+KOEY and OEE+KOEY are both "เกย"), and a dead
  syllable with mid tone has no faithful respelling (C18).
* JSON output does not escape its text (C20); flat JSON of an empty list is
  undefined behaviour (C21).
* Romanized output never resets its begin-of-word flag; a leading blank yields " -a" (C22).
* Dictionary files: a truncated data bank leaves a trie without data (then undefined
  behaviour on use), a bad size field throws, an empty bank fails to load although
  the generator reports success (C36, C39).
* Dictionary generator program: the target is emptied before the source is read, so a failed run
  destroys the previous dictionary, and naming one file twice destroys the source with status 0; the
  results of writing are ignored; `%08lx` is given a 32-bit argument (C78).
* A dictionary entry that is an onset code alone or with one more letter makes the `Syl` constructor read past the end of the
  string; an unknown letter for second consonant or vowel is accepted and kills the program when it is written (C79).
* A dictionary entry that gives a position twice makes the listing recurse without end; an entry without positions silently cuts
  off the rest of the text (C80).
* `PronunFrac::endPos()` is -1 for merged alternatives and stale after series are joined; nothing in the program reads it (C82).
* Dictionary generator: a malformed line ends the input with success status; lines are
  cut at 255 bytes; a line that starts with NUL is undefined behaviour; overlong,
  surrogate and out-of-range UTF-8 is accepted; the last of duplicate keys wins; keys
  outside the alphabet fail; bank growth overflows at 2^30 bytes (C37, C38).
* Command line: only the first argument is inspected for --help, by a comparison that
  can read past its end; "-thelp --x" prints usage; -h and -V exit with status 1; only
  the first letter of combined options counts (C42, C43); a carriage return before the
  newline of an input line is read as part of the word (C114).
