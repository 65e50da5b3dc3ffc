{"id": "C01", "title": "Spoken tone follows the Thai tone rules", "statement": "For every consonant class, written tone mark, live/dead ending and vowel length, the spoken tone computed from the spelling is the one prescribed by the textbook Thai tone table, and it is never the invalid tone when the written tone is valid.", "quantifier": "all valid consonant classes x written tones x dead/live x short/long", "why_tests_cant": "Unit tests sample a few words; a wrong cell of the table only shows on words that use exactly that combination.", "anchors": ["thortho/thcons.cxx:ToneFromWritten", "thortho/thcons.inl:IsDeadEndConsClass"]}
{"id": "C02", "title": "Consonant tables are total and right for every Thai consonant", "statement": "Every Thai consonant letter has a valid class and a valid initial sound, exactly the letters with no final value (ho hip, o ang, ho nokhuk) have no ending class, and the letter-to-sound/class/ending grouping is the one documented in the header.", "quantifier": "all 44 consonant letters (0x0E01-0x0E2E except the two independent vowels)", "why_tests_cant": "Table-index slips affect single letters; tests do not enumerate every letter.", "anchors": ["thortho/thcons.cxx:InitConsClass", "thortho/thcons.cxx:InitConsSound", "thortho/thcons.cxx:EndConsClass"]}
{"id": "C03", "title": "Syllable ordering is a strict total order", "statement": "operator< on syllables and on syllable strings is irreflexive, transitive and total on distinct values (content and end position), operator> is exactly its converse and <=, >= are the complements; on strings the order is lexicographic with proper prefixes first.", "quantifier": "all syllables (literal or not, any component values) and all finite syllable strings", "why_tests_cant": "An ordering law quantifies over triples of unbounded strings; tests compare a handful of pairs.", "anchors": ["sylstring/syl.cxx:Syl::operator<", "sylstring/syl.cxx:Syl::operator>", "sylstring/sylstring.cxx:SylString::operator<", "sylstring/sylstring.cxx:SylString::operator>"]}
{"id": "C04", "title": "Syllable equality ignores positions and is an equivalence", "statement": "operator== on syllables and strings is reflexive, symmetric and transitive, holds iff the spoken contents (or literal texts) coincide, and does not depend on end positions. The stronger expectation that == is consistent with the sort order (equal values are never ordered) does not hold and a counterexample is exhibited.", "quantifier": "all pairs/triples of syllables and syllable strings", "why_tests_cant": "The law is universal; the inconsistency only shows for equal content with different positions, which tests never compare.", "anchors": ["sylstring/syl.cxx:Syl::operator==", "sylstring/sylstring.cxx:SylString::operator=="]}
{"id": "C05", "title": "Raw notation round-trips", "statement": "Writing a syllable in raw notation and constructing a syllable from the text gives back the identical syllable including its end position; likewise for comma-separated raw strings of any length.", "quantifier": "all valid non-literal syllables with any end position in int range; all non-empty lists of them", "why_tests_cant": "The decimal position and list length are unbounded; tests cover a few literals.", "anchors": ["output/sylout-raw.cxx:RawSylOutput::output", "sylstring/syl.cxx:Syl::Syl(desc)", "sylstring/sylstring.cxx:SylString::SylString(desc)", "output/output-delim.cxx:DelimOutput::output"]}
{"id": "C06", "title": "Shifting a dictionary pronunciation relocates it faithfully", "statement": "Shifting a syllable string by an offset maps every plain end position p to p+offset and every encoded pre-syllable position for span (b,e) to the encoding of (b+offset,e+offset); shifts compose additively and never change the spoken content or the length.", "quantifier": "all syllable strings, all non-negative offsets, all spans", "why_tests_cant": "Arithmetic identity over unbounded integers and strings.", "anchors": ["sylstring/sylstring.cxx:SylString::shiftEndPos", "parser/parser.cxx:AddSyl", "parser/parser.cxx:FindExceptions"]}
{"id": "C07", "title": "Alternatives of a fraction stay sorted and complete", "statement": "After any sequence of insertions into a pronunciation fraction, its alternatives are in ascending order, every inserted string is represented (up to ==) and nothing else is present. The documented uniqueness (no two equal alternatives) is refuted in general and holds when equal strings carry equal positions.", "quantifier": "all insertion histories", "why_tests_cant": "Insertion-order-dependent duplicate only shows for particular histories.", "anchors": ["lattice/lattice.cxx:PronunFrac::operator+="]}
{"id": "C08", "title": "Graph indexes stay consistent under every edit history", "statement": "After any sequence of addEdge/removeEdge/removeDirectEdges/unionDAG, the incoming-edge view is exactly the mirror of the outgoing-edge view, no edge is stored twice, degrees count the stored edges and the edge set is the one obtained by performing the same operations on a mathematical set.", "quantifier": "all finite histories of edit operations with any node numbers and any edge values", "why_tests_cant": "Histories are unbounded; an index mismatch appears only for specific interleavings.", "anchors": ["lattice/dag.inl:DAG::addEdge", "lattice/dag.inl:DAG::removeEdge", "lattice/dag.inl:DAG::removeDirectEdges", "lattice/dag.inl:DAG::unionDAG", "lattice/dag.inl:DAG::isEdgeExist"]}
{"id": "C09", "title": "Graph edit return values and frame", "statement": "addEdge returns true iff the edge was absent and removeEdge/removeDirectEdges return true iff something was removed; every operation leaves all other edges untouched; union is idempotent, commutative and associative on edge sets.", "quantifier": "all graphs reachable by edit histories, all arguments", "why_tests_cant": "Frame conditions quantify over all other edges.", "anchors": ["lattice/dag.inl"]}
{"id": "C10", "title": "Flat enumeration lists exactly the complete paths", "statement": "On every acyclic graph the flat listing terminates and returns exactly the syllable strings of the maximal paths from the start node, one entry per path.", "quantifier": "all acyclic pronunciation graphs and start nodes", "why_tests_cant": "Graph shape and size are unbounded.", "anchors": ["output/ioutput.cxx:IOutput::DAGSylStrings"]}
{"id": "C11", "title": "Grouping preserves the set of pronunciations", "statement": "For every acyclic graph whose start node has no incoming edge, the grouped lattice (choose one chain, then one alternative per fraction, concatenate) denotes exactly the same set of syllable strings, up to ==, as the flat listing.", "quantifier": "all acyclic pronunciation graphs", "why_tests_cant": "The grouping is a graph rewriting run to a fixpoint with iterator resets; tests check two example words.", "anchors": ["lattice/pron-dag.cxx:FracDAG::mergeSingles", "lattice/pron-dag.cxx:FracDAG::mergeParallels", "lattice/pron-dag.cxx:FracDAG::nodeLattice", "lattice/pron-dag.cxx:PronunDAG::fracDAG", "lattice/lattice.cxx:PronunChain::mergeSingles"]}
{"id": "C12", "title": "Grouping terminates and is memory safe on acyclic graphs", "statement": "On every acyclic graph the merging loops terminate without touching an erased element or an empty alternative list. On a graph with a self loop the series merge does use an erased element (undefined behaviour), exhibited by a witness.", "quantifier": "all acyclic pronunciation graphs", "why_tests_cant": "Iterator validity after in-loop erasure depends on graph shape.", "anchors": ["lattice/pron-dag.cxx:FracDAG::mergeSingles", "lattice/pron-dag.cxx:FracDAG::mergeParallels"]}
{"id": "C13", "title": "Grouping result is reduced", "statement": "After merging, no two edges connect the same pair of nodes and no chain of the lattice contains two adjacent single-alternative fractions.", "quantifier": "all acyclic pronunciation graphs", "why_tests_cant": "The merge loop restarts after skipping the first edge; correctness of that skip is a global argument.", "anchors": ["lattice/pron-dag.cxx:FracDAG::mergeParallels", "lattice/lattice.cxx:PronunChain::mergeSingles"]}
{"id": "C14", "title": "Building a graph from a list of strings keeps every string", "statement": "A graph built from position-annotated strings contains each string as a path; strings sharing interior positions additionally generate mixed pronunciations that were never listed (exhibited), and when interior positions are not shared the graph denotes exactly the listed strings.", "quantifier": "all lists of position-increasing strings with a common final position", "why_tests_cant": "Depends on which positions coincide across an unbounded list.", "anchors": ["lattice/pron-dag.cxx:PronunDAG::PronunDAG", "lattice/pron-dag.cxx:PronunDAG::addSylString"]}
{"id": "C15", "title": "Every notation is total on well-formed syllables", "statement": "For every well-formed syllable each of the five notations yields a non-empty text without throwing.", "quantifier": "all well-formed syllables (21 x 4 x 24 x 9 x 5 component combinations, any end position)", "why_tests_cant": "A missing table row throws only for the syllables that need it.", "anchors": ["output/sylout-raw.cxx", "output/sylout-phonetic.cxx", "output/sylout-roman.cxx", "output/sylout-soundex.cxx", "output/sylout-thai.cxx"]}
{"id": "C16", "title": "Phonetic notation is unambiguous", "statement": "Two well-formed syllables have the same phonetic text iff they sound the same (equal components), except for the documented collision of a glottal initial with a cluster and the bare cluster consonant.", "quantifier": "all pairs of well-formed syllables", "why_tests_cant": "Quantifies over pairs from a 90720-element set.", "anchors": ["output/sylout-phonetic.cxx:PhoneticSylOutput::output"]}
{"id": "C17", "title": "Soundex merges exactly the intended distinctions", "statement": "Two well-formed syllables have the same soundex iff they agree on initial sound up to r/l, on vowel up to length and on ending class.", "quantifier": "all pairs of well-formed syllables", "why_tests_cant": "Quantifies over pairs.", "anchors": ["output/sylout-soundex.cxx:SoundexSylOutput::output"]}
{"id": "C18", "title": "Thai respelling carries the right tone", "statement": "Reading the Thai respelling back by the Thai tone rules (class of the written initial, written tone mark, live/dead, vowel length) gives the tone of the syllable, for every syllable whose tone is possible in that syllable shape.", "quantifier": "all well-formed syllables except mid tone on dead syllables", "why_tests_cant": "Three tables and eleven vowel cases interact.", "anchors": ["output/sylout-thai.cxx"]}
{"id": "C19", "title": "Delimited output structure", "statement": "Delimited output of a pronunciation list is one line per pronunciation, each line being the syllable texts joined by the delimiter, blanks written as a single space with no delimiter around them.", "quantifier": "all lists of syllable strings, all syllable notations and delimiters", "why_tests_cant": "List lengths are unbounded; separators around blanks depend on history.", "anchors": ["output/output-delim.cxx:DelimOutput::output"]}
{"id": "C20", "title": "JSON output decodes to the pronunciation list", "statement": "For a non-empty list of non-empty strings whose syllable texts contain no quote, backslash or control character, parsing the JSON output yields exactly the list of lists of syllable texts; the same for the grouped output and the four-level nested structure. Without that restriction the output can be invalid JSON (witness: a literal containing a quote).", "quantifier": "all such lists / lattices", "why_tests_cant": "Structure is unbounded and tests compare fixed strings; special characters are never tried.", "anchors": ["output/output-json.cxx:JsonOutput::output", "output/output-gjson.cxx:GroupedJsonOutput::output", "output/isyl-output.cxx:ISylOutput::outputLiteral"]}
{"id": "C21", "title": "JSON output is safe to call on any parse result", "statement": "Expected: the flat JSON output of any pronunciation graph is defined. Refuted: with no pronunciation at all it dereferences the end of the list (undefined behaviour); it is defined iff there is at least one pronunciation. Grouped JSON gives [] in that case.", "quantifier": "all pronunciation graphs", "why_tests_cant": "Only the empty result triggers it.", "anchors": ["output/output-json.cxx:JsonOutput::output", "output/output-gjson.cxx:GroupedJsonOutput::output"]}
{"id": "C22", "title": "Romanization hyphens follow the Royal Institute rule", "statement": "Between two syllables of the same word a hyphen is written iff the second starts with a vowel, or the first has no ending and the second starts with ng. Holds for every string without blanks; refuted after a blank, where all later hyphens are lost. In what the parser returns no hyphen is written before text that is not Thai, and after such text it is written exactly before a syllable that starts with a vowel or ng.", "quantifier": "all non-empty syllable strings", "why_tests_cant": "The loop state is history dependent.", "anchors": ["output/output-roman.cxx:RomanOutput::output"]}
{"id": "C23", "title": "Parsing always terminates", "statement": "For every input text, every list of word-break positions and every exception dictionary the parser stops.", "quantifier": "all UTF-16 texts, all break lists, all dictionaries", "why_tests_cant": "Termination over all inputs.", "anchors": ["parser/parser.cxx:ParseU16", "parser/parser.cxx:StatePool"]}
{"id": "C24", "title": "Parsing never reads outside the text", "statement": "With a well-formed dictionary and breaks inside the text, parsing raises no out-of-range exception and makes no out-of-bounds table access for every text that does not end with one of the leading vowels AE, O, AI MAIMUAN, AI MAIMALAI. For texts that end with one of them the unhandled exception is exhibited.", "quantifier": "all UTF-16 texts, all break lists within the text, all well-formed dictionaries", "why_tests_cant": "Thousands of branches of look-ahead; the failing input is a single trailing character that the test list lacks.", "anchors": ["parser/parser.cxx:ParseOtherLV", "parser/parser.cxx:MatchInitCons", "parser/parser.cxx:ParseThCons", "parser/parser.cxx:ParseSaraE"]}
{"id": "C25", "title": "Every pronunciation covers the whole input", "statement": "Every pronunciation returned by the parser is a chain of syllables whose spans start at 0, adjoin, and end at the length of the text: no part of the input is dropped and no dead-end partial analysis is listed.", "quantifier": "all texts, breaks and well-formed dictionaries", "why_tests_cant": "Dead ends appear only for particular combinations of partial analyses merged in the state pool.", "anchors": ["parser/parser.cxx:ParseU16", "parser/parser.cxx:AddSyl", "parser/parser.cxx:StatePool::add"]}
{"id": "C26", "title": "The result graph is acyclic and starts at the beginning", "statement": "The parser's result graph has no cycle and no edge into the start node, so listing and grouping it terminate.", "quantifier": "all texts, breaks and well-formed dictionaries", "why_tests_cant": "Node numbers mix text offsets with a decimal encoding of pre-syllable spans.", "anchors": ["parser/parser.cxx:AddSyl", "sylstring/sylstring.cxx:SylString::shiftEndPos"]}
{"id": "C27", "title": "Pre-syllable nodes never collide", "statement": "Two different spans get the same encoded pre-syllable node only if a single syllable group is longer than 100 characters; the parser's own groups are never that long, so distinct spans get distinct nodes.", "quantifier": "all texts of any length", "why_tests_cant": "Needs words longer than 100 characters to fail.", "anchors": ["parser/parser.cxx:AddSyl"]}
{"id": "C28", "title": "Non-Thai text passes through verbatim", "statement": "Every literal in the result is the exact text of its span (minus at most one trailing full stop), and no spoken syllable covers a character that is not Thai text or a full stop.", "quantifier": "all texts, breaks and well-formed dictionaries", "why_tests_cant": "Arbitrary mixtures of scripts.", "anchors": ["parser/parser.cxx:SkipNonThai", "parser/parser.cxx:NextWordStop", "parser/parser.cxx:ParseU16", "parser/parser.cxx:FindAbbr"]}
{"id": "C29", "title": "A text without Thai is returned unchanged", "statement": "For every non-empty text containing no Thai letter and no full stop the result has exactly one pronunciation: one literal equal to the text.", "quantifier": "all such texts, any breaks and dictionary", "why_tests_cant": "Unbounded text.", "anchors": ["parser/parser.cxx:ParseU16", "parser/parser.cxx:SkipNonThai"]}
{"id": "C30", "title": "Every spoken syllable is well-formed", "statement": "Every non-literal syllable in a parse result has a valid initial, second consonant, vowel, ending and tone, hence every output notation of the result succeeds.", "quantifier": "all texts, breaks and dictionaries with well-formed pronunciations", "why_tests_cant": "Many branches fill the fields separately.", "anchors": ["parser/parser.cxx:PartialSyl", "parser/parser.cxx:AddSyl"]}
{"id": "C31", "title": "Initial sounds are never invented", "statement": "The initial sound of every rule-derived syllable (including pre-syllables) is the sound of a consonant letter inside the span of text the syllable group covers, or r/l for the independent vowels RU/LU.", "quantifier": "all texts and breaks without dictionary", "why_tests_cant": "Hundreds of branches of cluster analysis.", "anchors": ["parser/parser.cxx:MatchInitCons", "parser/parser.cxx:ParseRuLu"]}
{"id": "C32", "title": "Pooling partial analyses loses and adds nothing", "statement": "The edges of the result graph are exactly (up to ==) the union of the edges of all individually traced successful derivations; merging partial analyses in the pool, in whatever order, neither loses nor invents an edge.", "quantifier": "all texts, breaks and dictionaries", "why_tests_cant": "Quantifies over all derivations.", "anchors": ["parser/parser.cxx:StatePool::add", "parser/parser.cxx:StatePool::pop", "parser/parser.cxx:ParseU16"]}
{"id": "C33", "title": "The pool serves states in text order", "statement": "For every sequence of additions the pool hands out states by non-decreasing position and its total content is preserved. The intended invariant of one state per (position, linked) is refuted by a witness sequence.", "quantifier": "all sequences of add/pop", "why_tests_cant": "Depends on insertion order of linked/unlinked states.", "anchors": ["parser/parser.cxx:StatePool::add", "parser/parser.cxx:StatePool::pop"]}
{"id": "C34", "title": "Exception dictionary takes precedence", "statement": "At any analysis position where at least one dictionary word matches up to a permissible boundary, the analyses from that position are exactly the dictionary's pronunciations for the matching words; otherwise exactly the rule-based ones.", "quantifier": "all texts, breaks, dictionaries, positions", "why_tests_cant": "Overlapping dictionary words and boundaries are unbounded.", "anchors": ["parser/parser.cxx:FindExceptions", "parser/parser.cxx:ParseU16"]}
{"id": "C35", "title": "Dictionary prefix search is exact", "statement": "Iterating matches at a position yields exactly the dictionary words that are prefixes of the text there, shortest first, each once, each with its stored data.", "quantifier": "all dictionaries, texts and positions", "why_tests_cant": "Arbitrary key sets and nested prefixes.", "anchors": ["dict/dict.cxx:Match::findNext", "dict/dict.inl"]}
{"id": "C36", "title": "Dictionary data bank round-trips", "statement": "Every data string added to the bank is read back intact at its returned offset from the written file, for any number of additions; the big-endian length field round-trips for every non-negative 32-bit value. The empty bank does not round-trip (the reader rejects it).", "quantifier": "all sequences of NUL-free data strings", "why_tests_cant": "Buffer growth happens only past the first allocation block.", "anchors": ["dict/gen-lookup-dict.c:DataBankAdd", "dict/gen-lookup-dict.c:DataBankWrite", "dict/dict.cxx:ReadDataBank", "dict/dict.cxx:ReadInt32"]}
{"id": "C37", "title": "Dictionary generator reads UTF-8 keys correctly", "statement": "Decoding any well-formed UTF-8 key yields its code points and consumes exactly its bytes; a malformed continuation is rejected; overlong forms are accepted (exhibited).", "quantifier": "all Unicode code point sequences", "why_tests_cant": "1.1 million code points and unbounded strings.", "anchors": ["dict/gen-lookup-dict.c:GetUTF8"]}
{"id": "C38", "title": "Dictionary generator keeps every entry or fails", "statement": "Expected: a successful run stores every input line. Refuted: a malformed line is treated as end of file and all later lines are silently dropped with a success status; for inputs whose lines are all well-formed and within the line limit every line is stored.", "quantifier": "all input files", "why_tests_cant": "Needs a malformed line in the middle of the source.", "anchors": ["dict/gen-lookup-dict.c:ReadInput", "dict/gen-lookup-dict.c:GenDict"]}
{"id": "C39", "title": "A dictionary that fails to load is not used", "statement": "Expected: after a reported load failure the parser works as without dictionary. Refuted for a file with a good index and a truncated data bank: the index stays active with no data, and the next match dereferences a null pointer.", "quantifier": "all file contents", "why_tests_cant": "Needs fault injection at a specific byte offset.", "anchors": ["dict/dict.cxx:Dict::open", "dict/dict.cxx:ReadDataBank", "parser/parser.cxx:Parser::loadExceptDict", "thpronun/thpronun.cxx"]}
{"id": "C40", "title": "Abbreviations are spelled out", "statement": "A text made of groups of one to four consonants each followed by a full stop is read letter by letter: exactly one pronunciation, each consonant with the long au vowel, rising tone for high-class letters and mid tone otherwise.", "quantifier": "all sequences of such groups of any length, no dictionary, no interior break", "why_tests_cant": "Unbounded sequences.", "anchors": ["parser/parser.cxx:FindAbbr", "parser/parser.cxx:ParseU16"]}
{"id": "C41", "title": "Syllables do not cross word breaks", "statement": "With word breaking on, no spoken syllable spans a break position strictly inside it (except absorbing a following full stop), provided no break directly follows a leading vowel.", "quantifier": "all texts and sorted break lists", "why_tests_cant": "All combinations of breaks and texts.", "anchors": ["parser/parser.cxx:NextWordStop", "parser/parser.cxx:ParseU16"]}
{"id": "C42", "title": "Command-line options", "statement": "The choice of output formats depends only on the option letters present: -j and -g act wherever they occur, notations are listed in command-line order (Thai, romanization and phonetic when none is given), the last -d names the dictionary, -n turns word breaking off, text arguments are processed in order and standard input is read line by line iff there are none; the first option that is not accepted ends the program with status 1 before any file is opened, any input read or any word printed.", "quantifier": "all argument vectors", "why_tests_cant": "Unbounded argument lists and orders.", "anchors": ["thpronun/thpronun.cxx:main"]}
{"id": "C43", "title": "Help option is recognised anywhere", "statement": "Expected: --help at any position prints usage. Refuted: only the first argument is inspected, so a later --help is reported as unknown, or, when the first argument is shorter than two characters, memory past its end is read; and after a first argument such as -thelp any unknown long option prints usage.", "quantifier": "all argument vectors", "why_tests_cant": "Depends on argument position.", "anchors": ["thpronun/thpronun.cxx:main"]}
{"id": "C44", "title": "Text encoding round-trips", "statement": "Converting valid UTF-8 input to UTF-16 and a literal back to UTF-8 is lossless, and literals never split a surrogate pair, so literal output of any valid input succeeds.", "quantifier": "all valid UTF-8 texts", "why_tests_cant": "All of Unicode.", "anchors": ["parser/parser.cxx:Parser::parseWord", "output/isyl-output.cxx:ISylOutput::outputLiteral"]}
{"id": "C45", "title": "Karan matching is exact", "statement": "The silent-consonant matcher consumes a final group iff it is one of the documented patterns followed by the cancellation mark within the word, and otherwise consumes nothing.", "quantifier": "all texts, positions and stops", "why_tests_cant": "Arbitrary look-ahead.", "anchors": ["parser/parser.cxx:MatchKaranSimple", "parser/parser.cxx:MatchKaranIU", "parser/parser.cxx:MatchKaranComplex"]}
{"id": "C46", "title": "Simple syllables have exactly one reading", "statement": "For every consonant and tone mark, the open syllable consonant(+mark)+long vowel is read in exactly one way, with the consonant's sound, the vowel and the tone given by the tone rules.", "quantifier": "all 44 consonants x 5 tone marks x the simple vowels", "why_tests_cant": "Exhaustive over letters, marks and vowels.", "anchors": ["parser/parser.cxx:ParseThCons", "parser/parser.cxx:ParseU16"]}
{"id": "C47", "title": "The shipped exception dictionary is well-formed", "statement": "Every entry of the shipped exception lists consists of well-formed syllables whose positions increase and end at the length of the word, so the parser guarantees hold for the shipped data.", "quantifier": "all entries of data/*.tsv", "why_tests_cant": "No test validates the data file.", "anchors": ["data/ex-elong.tsv", "data/ex-karan.tsv", "data/ex-misc.tsv", "data/ex-montho-d.tsv", "data/ex-multi-end.tsv", "data/ex-short.tsv", "data/ex-tone.tsv", "data/ex-tr-so.tsv"]}
{"id": "C48", "title": "Final consonants are written", "statement": "Every spoken syllable whose final sound is not none has a written source: the final comes from a letter of the text span that has that final sound, or from the vowel sign itself (am, ai, ao), or from an exception entry.", "quantifier": "all texts, break lists, dictionaries", "why_tests_cant": "Quantifies over every path of every reading.", "anchors": ["parser/parser.cxx:ParseSara", "parser/parser.cxx:MatchEndConsSound"]}
{"id": "C49", "title": "Tones follow the tone rules", "statement": "The tone of every syllable not taken from the exception list is the one the tone table gives for a consonant class and tone mark of the text span and the syllable's live/dead and length status.", "quantifier": "all texts, break lists, dictionaries", "why_tests_cant": "Quantifies over every path of every reading.", "anchors": ["parser/parser.cxx:ToneFromWritten"]}
{"id": "C50", "title": "Textbook closed syllables are read", "statement": "For every consonant, vowel spelling and final letter with a final sound (except the listed spelling/final combinations that Thai writes otherwise), unmarked or, for the plain finals, with any tone mark, the parse of the syllable lists the textbook reading: the consonant's sound, the vowel, the final's class and the tone from class, mark, dead/live and length. It is the only reading exactly if the syllable has a tone mark, or its vowel is written otherwise than with \"เ\", \"แ\", \"โ\", \"อ\" or \"ว\" alone, or the letter after \"อ\" or \"ว\" is \"ย\" or \"ว\".", "quantifier": "20 vowel spellings x 44 initials x (all finals unmarked + 8 finals x 5 marks)", "why_tests_cant": "Tens of thousands of spellings.", "anchors": ["parser/parser.cxx:ParseThCons", "parser/parser.cxx:ToneFromWritten"]}
{"id": "C51", "title": "Clusters and led consonants are read", "statement": "For every true cluster, false cluster and consonant led by HO HIP, with every open vowel or closed spelling and tone mark, the parse lists the textbook one-syllable reading with the cluster's two sounds and the tone of the governing class.", "quantifier": "35 double initials x open vowels x marks; x closed spellings x plain finals x marks", "why_tests_cant": "Tens of thousands of spellings.", "anchors": ["parser/parser.cxx:ParseThCons"]}
{"id": "C52", "title": "One bad word does not cost the others", "statement": "Expected: a word that cannot be analysed (invalid UTF-8, or ending in a leading vowel) is reported and the following words are still processed. Refuted: the exception leaves main, so the words before it are printed, its own heading is printed, and nothing after it.", "quantifier": "all argument vectors, inputs and word lists", "why_tests_cant": "Depends on where in an unbounded list the bad word stands.", "anchors": ["thpronun/thpronun.cxx:main", "thpronun/thpronun.cxx:DoParse"]}
{"id": "C53", "title": "The program succeeds on sensible words", "statement": "With accepted options, an openable well-formed dictionary and words that are valid UTF-8 and do not end in a leading vowel, the program terminates with status 0 having printed, for each word in order, the heading and one rendering per requested notation; flat JSON additionally needs every word to have a pronunciation.", "quantifier": "all argument vectors, inputs, word lists, break functions, well-formed dictionaries", "why_tests_cant": "End-to-end claim over unbounded word lists.", "anchors": ["thpronun/thpronun.cxx:main", "parser/parser.cxx:Parser::parseWord"]}
{"id": "C54", "title": "A word boundary divides a text into independent parts", "statement": "Where a word break, a blank or a change between Thai and other characters divides a text in two, the pronunciations listed for the text are exactly every pronunciation of the first part followed by every pronunciation of the second, nothing lost, nothing invented. (The second part must not begin with a full stop, nor be an abbreviation or single letter that is spelled out only at the start of a text.)", "quantifier": "all texts, division points, dictionaries and sorted word-break lists", "why_tests_cant": "Relates three runs of the parser on unbounded texts.", "anchors": ["parser/parser.cxx:ParseU16", "parser/parser.cxx:NextWordStop", "parser/parser.cxx:StatePool"]}
{"id": "C55", "title": "A sentence is read word by word", "statement": "The pronunciations of a text that is divided into words by the word breaker are exactly the combinations of one pronunciation of each word parsed on its own, in order, with positions moved to the word's place.", "quantifier": "all finite sequences of words (Thai words, blanks, foreign text), all dictionaries", "why_tests_cant": "Unbounded number of words; the combinations grow exponentially.", "anchors": ["parser/parser.cxx:ParseU16", "parser/parser.cxx:NextWordStop", "lattice/pron-dag.cxx:PronunDAG"]}
{"id": "C56", "title": "A word is read exactly as the spelling grammar says", "statement": "For a word of Thai letters in which no dictionary entry is found, the pronunciations listed by the parser are exactly the sequences of readings that the declarative spelling grammar derives for the whole word: every reading the grammar allows is listed and nothing else is. The grammar states initials, clusters, led consonants, RU, vowels, finals, shared finals, silenced letters, implied vowels and tones on the letters alone.", "quantifier": "all words of two or more Thai letters, all dictionaries, all word-break lists without an inner break", "why_tests_cant": "Unbounded words, and the absence of a reading cannot be tested.", "anchors": ["parser/parser.cxx:MatchInitCons", "parser/parser.cxx:ParseThCons", "parser/parser.cxx:ParseSaraE", "parser/parser.cxx:ParseOtherLV", "parser/parser.cxx:ParseRuLu", "parser/parser.cxx:EatEndConsComplex", "parser/parser.cxx:ParseU16"]}
{"id": "C57", "title": "Dictionary words and grammar readings together determine the pronunciations", "statement": "For a word of Thai letters, the pronunciations listed are exactly the walks from its start to its end through the syllables of listed words (where one is found) and of grammar readings (where none is found) that lie on a complete way through the word.", "quantifier": "all words of two or more Thai letters, all well-formed dictionaries, all word-break lists without an inner break", "why_tests_cant": "Unbounded words and dictionaries.", "anchors": ["parser/parser.cxx:FindExceptions", "parser/parser.cxx:ParseU16", "dict/dict.cxx:Dict"]}
{"id": "C58", "title": "Only the dictionary entries written in the text matter", "statement": "Two dictionaries (or a dictionary and none) that give the same answers for every word written somewhere in the text lead to the same parse of that text, step by step: adding, removing or changing other entries changes nothing.", "quantifier": "all texts, word-break lists and pairs of dictionaries", "why_tests_cant": "Relates runs with arbitrary different dictionaries.", "anchors": ["parser/parser.cxx:FindExceptions", "dict/dict.cxx:Dict::Match", "parser/parser.cxx:ParseU16"]}
{"id": "C59", "title": "The pronunciations of a text, piece by piece", "statement": "A text of Thai words, stretches without Thai, groups of consonants closed by full stops, and single consonants, divided by the word breaker, always has a result, and the listed pronunciations are exactly the sequences of one pronunciation per piece: a walk through dictionary words and grammar readings for a word, the text itself for a foreign stretch, the letter names for groups and single consonants.", "quantifier": "all finite sequences of pieces, all well-formed dictionaries", "why_tests_cant": "Unbounded texts; exact set of results.", "anchors": ["parser/parser.cxx:ParseU16", "parser/parser.cxx:FindAbbr", "parser/parser.cxx:NextWordStop"]}
{"id": "C60", "title": "Romanization follows the Royal Institute table", "statement": "The romanization of a well-formed syllable is exactly what the Royal Institute table gives for a Thai letter of its initial sound, the second consonant, the vowel and a final letter of its class; two well-formed syllables are romanized alike iff they agree in onset (JA and CHA merged, glottal plus consonant read as the consonant), vowel quality (O and AU merged) and ending.", "quantifier": "all well-formed syllables, all pairs of them", "why_tests_cant": "Pairs from a 90720-element set; one wrong row shows only for the syllables that need it.", "anchors": ["output/sylout-roman.cxx:RomanSylOutput::output"]}
{"id": "C61", "title": "The phonetic text", "statement": "The phonetic text of a well-formed syllable is the romanized onset (with j for JA), the vowel with a mark of its length, the romanized ending (with y and w for the glides) and the digit of the tone.", "quantifier": "all well-formed syllables", "why_tests_cant": "A wrong row shows only for the syllables that need it.", "anchors": ["output/sylout-phonetic.cxx:PhoneticSylOutput::output"]}
{"id": "C62", "title": "The Thai respelling is read back", "statement": "Parsing the Thai respelling of a syllable, without its dots, lists the syllable again: same onset, ending and tone, and the same vowel, except that the length is lost exactly where Thai writes no short form. The only syllables not read back are those whose respelling does not follow Thai spelling: i, e, o before a glide, short ua before an ending, o after a cluster with w, and clusters that Thai does not have.", "quantifier": "all well-formed syllables except mid tone on dead syllables, all dictionaries that list no part of the respelling", "why_tests_cant": "Ties the output tables to the whole parser for 90720 syllables; exact set of exceptions.", "anchors": ["output/sylout-thai.cxx:ThaiSylOutput::output", "parser/parser.cxx:ParseU16"]}
{"id": "C63", "title": "Node numbers fit", "statement": "Every node of the graph of a text, also the negative nodes that encode pre-syllables, lies strictly between -2^31 and 2^31 as long as the text has fewer than 2^31/101 characters, and every edge ends at the node that its syllable records.", "quantifier": "all texts below that length, all dictionaries, all break positions, all fuel", "why_tests_cant": "Overflow needs texts of 21 million characters; the bound is on every intermediate encoding.", "anchors": ["parser/parser.cxx:MatchApprPronClass", "parser/parser.cxx:ParseU16"]}
{"id": "C64", "title": "No repeated listing", "statement": "The list of pronunciations of a text contains no two equal strings with the same syllable boundaries. Over different boundaries the same pronunciation does come twice, so the reading alone is not unique.", "quantifier": "all texts, dictionaries and break positions", "why_tests_cant": "A duplicate edge appears only when two rules meet at the same place.", "anchors": ["lattice/dag.inl:DAG::addEdge", "parser/parser.cxx:ParseU16"]}
{"id": "C65", "title": "The program from command line to output", "statement": "Run with accepted arguments, in any choice of its five notations and with one line per pronunciation, on texts composed of Thai words, stretches without Thai, abbreviations with full stops and single consonants, whose boundaries are the given word breaks, the program prints for every text the text itself and a colon, then for every notation exactly one line for each way to read the pieces in turn, no line twice, each line being the notation's text of that reading; it prints nothing else on standard output, warns only about a missing dictionary and exits with 0.", "quantifier": "all argument lists accepted, all dictionaries, all break functions, all texts made of such pieces", "why_tests_cant": "The claim compares the complete output with an independent grammar of spellings and independent tables of the notations for every text and option combination.", "anchors": ["thpronun/thpronun.cxx:main", "parser/parser.cxx:ParseU16", "output/output-delim.cxx:DelimOutput::output", "output/output-roman.cxx:RomanOutput::output"]}
{"id": "C66", "title": "Thai respelling is the simplest one", "statement": "The Thai respelling of a well-formed syllable is the frame of its vowel and final filled with an onset letter and a tone mark that, by the tone rules, give the tone of the syllable, and among all such onsets and marks it is the one with the least mark, a high-class letter only if no other letter does with that mark; a tone that cannot be written is left unmarked.", "quantifier": "all well-formed syllables, all texts (equivalence)", "why_tests_cant": "A table entry with a redundant mark or the wrong class letter still reads back; only the comparison with every other way to write the tone shows it.", "anchors": ["output/sylout-thai.cxx:ThaiSylOutput::output"]}
{"id": "C67", "title": "Raw and soundex codes", "statement": "The raw text of a well-formed syllable is the code of its initial, second consonant, vowel, final and tone, an @ and the end position in decimal; the soundex text is the code of the initial with r written as l, the code of the short form of the vowel and the code of the final. The codes are those of independent tables over the letters of the alphabet.", "quantifier": "all well-formed syllables, all positions in the range of int, all texts (equivalence)", "why_tests_cant": "One wrong entry of a table appears only for the syllables that use it; the sweep covers every syllable.", "anchors": ["output/sylout-raw.cxx:RawSylOutput::output", "output/sylout-soundex.cxx:SoundexSylOutput::output"]}
{"id": "C68", "title": "From the dictionary source to the pronunciations", "statement": "Take a list of words of the alphabet, each with at least one pronunciation made of well-formed syllables whose positions go up to the length of the word, written as a source file with the syllables of a pronunciation as raw codes joined by commas and the pronunciations joined by semicolons, no line longer than 254 bytes. The generator produces a file, the file opens, and the words the parser finds in it are exactly the words of the list, each with exactly the pronunciations of its last line. A word of Thai letters is then pronounced by exactly the walks through the readings of the grammar and the words of the list.", "quantifier": "all word lists, all source files of less than 2^30 bytes written from them, all words of at least two Thai letters", "why_tests_cant": "Writer, generator, file format, loader, lookup and code reader must agree on every code and every list; a fault of one of them appears only for some entry or combination of entries.", "anchors": ["dict/gen-lookup-dict.c:GenDict", "dict/dict.cxx:Dict::open", "dict/dict.cxx:Match::getData", "parser/parser.cxx:MakeSylStrings", "parser/parser.cxx:Parser::parseWord"]}
{"id": "C69", "title": "The program in JSON, end to end", "statement": "Run with -j on texts of words, letter names and foreign stretches without quotes, backslashes and control characters that can be read in some way, the program prints for every text and every notation asked for a line that decodes to the list of its readings, each once, each the list of the texts of its syllables, and exits with 0. Run with -g the line decodes to chains of non-empty groups of alternatives, each group in ascending order (C84) and no two neighbouring groups with one alternative each: choosing one alternative from every group of a chain gives the sounds of a reading, and every reading is given by some choice.", "quantifier": "all accepted command lines with -j or -g, all dictionaries whose entries are well-formed, all readable texts", "why_tests_cant": "The value depends on the graph of the text and its grouping; a lost or mixed alternative needs a text whose readings share only some boundaries.", "anchors": ["thpronun/thpronun.cxx:main", "output/output-json.cxx:JsonOutput::output", "output/output-gjson.cxx:GroupedJsonOutput::output"]}
{"id": "C70", "title": "Only word breaks inside Thai stretches matter", "statement": "Two lists of word breaks in ascending order within the text that agree on every position lying between two characters of one stretch of Thai characters and full stops give the same parse, the same result graph included: breaks inside foreign text, at the edge between foreign text and Thai, and at the two ends of the text have no influence.", "quantifier": "all texts, dictionaries, character classifications satisfying the assumed facts, and pairs of break lists that agree inside Thai stretches", "why_tests_cant": "The set of texts and of break lists is unbounded, and a word breaker may place breaks anywhere in foreign text.", "anchors": ["parser/parser.cxx:NextWordStop", "parser/parser.cxx:SkipNonThai"]}
{"id": "C71", "title": "Every text is read exactly as the reading rules say", "statement": "For every text, ascending word breaks within it and every dictionary with well-formed entries, the parser either lists exactly the complete paths of the reading rules for that text - foreign stretches copied, listed words as listed, consonants before a full stop by name, everything else by the spelling rules, the vowels แโใไ reaching over a word break, and a full stop that is not read extending the syllable before it - or it throws, and it throws exactly if some reading comes to one of these four vowels, not listed as a word, as the last character of the text.", "quantifier": "all texts, all ascending break lists within the text, all dictionaries with well-formed entries", "why_tests_cant": "The texts are unbounded and mix all kinds of stretches; the claim excludes extra pronunciations as well as lost ones and gives the exact set of failing texts.", "anchors": ["parser/parser.cxx:ParseU16", "parser/parser.cxx:SkipNonThai", "parser/parser.cxx:NextWordStop", "parser/parser.cxx:FindExceptions"]}
{"id": "C72", "title": "The program on every text, end to end", "statement": "Run with accepted arguments, one line per pronunciation and any choice of notations, on any words whatsoever, the program answers them in order with exactly their readings, each once, in every notation asked for; it exits with 0 if no word is hopeless, and otherwise stops with an exception after the heading of the first word that is not UTF-8 or on which a reading comes to one of the vowels แโใไ at the end. With -g the same holds for the grouped value; with -j also, except that a word without any reading is undefined behaviour.", "quantifier": "all accepted command lines, all word lists (for -j and -g without quotes, backslashes and control characters), all dictionaries whose entries are well-formed, all ascending breaks within the text, texts below 2^31/101 characters", "why_tests_cant": "All texts are covered, including those without readings, and the claim fixes the complete output and the way the program ends.", "anchors": ["thpronun/thpronun.cxx:main", "thpronun/thpronun.cxx:DoParse", "parser/parser.cxx:ParseU16", "output/output-json.cxx:JsonOutput::output"]}
{"id": "C73", "title": "How long the main loop runs", "statement": "On a text none of whose readings uses a consonant both as the end of one syllable and as the start of the next, the main loop ends within 2m+1 iterations for m characters. On the word กา written n times without breaks and dictionary it takes exactly 2^n+n-1 iterations, because the state pool merges a new state only with the first state at its position; so the number of iterations is not bounded by any polynomial in the length of the text.", "quantifier": "all texts, ascending breaks within them and well-formed dictionaries without linked readings; all n >= 1", "why_tests_cant": "The linear bound ranges over unbounded texts and every dictionary; the exact exponential count is out of reach of any test that would run it.", "anchors": ["parser/parser.cxx:StatePool::add", "parser/parser.cxx:StatePool::pop", "parser/parser.cxx:ParseU16"]}
{"id": "C74", "title": "The parser gets every word break libthai finds before the first NUL", "statement": "If libthai's breaks of a string are ascending, behind its start and not behind its end, and libthai stores and counts as many as fit into the buffer, then the parser works with exactly the breaks of the text before its first NUL: the buffer always suffices, none is lost or made up, and nothing is stored outside it. Without a breaker there are none. Consequently the claim about the whole program on every text needs no assumption about the breaks other than this one on libthai.", "quantifier": "all texts, all break functions with these properties, all dictionaries, all accepted command lines", "why_tests_cant": "The buffer size must suffice for every text and every conforming breaker, whatever breaks it chooses.", "anchors": ["parser/parser.cxx:FindBreaks", "parser/parser.cxx:parseWord", "parser/parser.h:isBreakWords"]}
{"id": "C75", "title": "The words of the shipped exception lists are pronounced as listed", "statement": "With the dictionary generated from the shipped lists, every listed word given to the parser gets exactly the pronunciations of its line, each once, except สิริกิติ์, which gets one more because สิริ is listed as well. A text of these words and single blanks, broken at their ends, gets exactly the ways to say its words in turn. The program, run with that dictionary on such texts, prints these and nothing else, gives no warning and exits with 0.", "quantifier": "all lines of the shipped lists, all sequences of listed words and single blanks, all notations and accepted command lines", "why_tests_cant": "Listed words can stand in sequences of any length; a test can only try single words.", "anchors": ["data/Makefile.am:except.dic", "parser/parser.cxx:FindExceptions", "parser/parser.cxx:ParseU16", "thpronun/thpronun.cxx:main"]}
{"id": "C76", "title": "A line of Thai respelling is read back", "statement": "Take any pronunciation whose syllables have respellings that follow Thai spelling, and the line the program prints for it in Thai notation. Parsed again without its dots, with no word breaks or any breaks outside the syllables, the line gets a pronunciation made of the same syllables in the same order, up to the vowel lengths Thai cannot write, with a literal hyphen between neighbours and the positions of the line.", "quantifier": "all non-empty sequences of respellable syllables, all dictionaries that list no part of a respelled syllable, all breaks outside the syllables", "why_tests_cant": "Sequences have any length and any of the 90720 syllables at each place; the parser could join neighbours, treat them as abbreviations, or lose a hyphen in some combination.", "anchors": ["output/sylout-thai.cxx:ThaiSylOutput::output", "output/output-delim.cxx:DelimOutput::output", "parser/parser.cxx:ParseU16", "parser/parser.cxx:SkipNonThai"]}
{"id": "C77", "title": "Edges keep their order of arrival and the listing follows it", "statement": "After any sequence of additions, removals and unions the edges leaving a node are given oldest first: an edge already present keeps its place when it is added again, a removed edge that is added again comes last, and a union puts the other graph's new edges behind the present ones in the other graph's order. The flat listing of an acyclic graph gives its complete paths in that order at every fork: of two listed paths the earlier one follows the edge that arrived first where they part.", "quantifier": "all edit histories of graphs with any edge values compared by an equivalence; all acyclic syllable graphs and all roots", "why_tests_cant": "Histories and graphs are unbounded; a test on a small graph can see the right order by chance, and set comparisons of the listing do not see the order at all.", "anchors": ["lattice/dag.inl:addEdge", "lattice/dag.inl:removeEdge", "lattice/dag.inl:unionDAG", "output/ioutput.cxx:DAGSylStrings"]}
{"id": "C78", "title": "The dictionary generator as a program", "statement": "gen-lookup-dict prints its usage or the file that cannot be opened and exits with 1 without touching the output file. For a source of well-formed lines it prints nothing, exits with 0 and writes a dictionary that holds for every word what its last line says and nothing else; thpronun run with that file prints exactly the readings of its arguments with the words of the source as dictionary. Refuted: that a failure is reported (a line that cannot be taken apart is complained about, all later lines are lost, and the status is 0), that a failed run leaves the previous dictionary (a word with a foreign character empties it), and that the source is safe (the same file as source and target is destroyed with status 0).", "quantifier": "all argument lists and file systems; all sources of well-formed lines; all positions of the bad line; all runs of thpronun with the dictionary written", "why_tests_cant": "The failures depend on the position of a line in an arbitrarily long source and on the state of the file system, and the end-to-end claim ranges over all dictionaries, texts and options.", "anchors": ["dict/gen-lookup-dict.c:main", "dict/gen-lookup-dict.c:GenDict", "dict/gen-lookup-dict.c:ReadInput", "dict/gen-lookup-dict.c:Usage", "thpronun/thpronun.cxx:main"]}
{"id": "C79", "title": "What raw notation accepts", "statement": "A raw code is read exactly when it starts with an onset code, any two letters, an ending code and a tone code; what follows is ignored unless it is '@' and at least one more letter, which then must begin like an integer that fits an int (blanks, sign, digits, any rest). An onset code alone or with one more letter is undefined behaviour; every other text throws. A dictionary entry is read exactly when all its codes are, otherwise the first bad code decides between exception and undefined behaviour. Parsing a text that begins with a listed word whose entry is not readable never succeeds. Second letter and vowel are not checked: a code can be read that raw, phonetic, roman and soundex output cannot write and Thai output writes as a space.", "quantifier": "all byte strings, all entries, all texts, break lists and dictionaries", "why_tests_cant": "Tests feed well-formed codes only; the outcome on every malformed text, including reads past the end, is a statement about all strings.", "anchors": ["sylstring/syl.cxx:Syl::Syl(desc)", "sylstring/sylcomp.cxx:InitConsCodeToSound", "sylstring/sylstring.cxx:SylString::SylString(desc)", "parser/parser.cxx:MakeSylStrings", "parser/parser.cxx:FindExceptions"]}
{"id": "C80", "title": "The listing ends exactly when no cycle can be reached", "statement": "For every graph, with cycles or not, the flat listing from a node ends exactly when no cycle can be reached from that node; it then gives exactly the complete paths, and otherwise recurses deeper than any bound. The same holds for the grouped listing. Consequence for dictionaries: if a word is the whole text and one of its listed readings comes back to a position it has left, then a successful parse gives a graph whose listing never ends. An entry without positions ends in a place of its own, so the rest of the text is silently not pronounced.", "quantifier": "all graphs and roots; all texts, breaks and dictionaries", "why_tests_cant": "Termination for every graph, and non-termination for every bound, cannot be observed by running; dictionaries with careless positions are not in the test data.", "anchors": ["output/ioutput.cxx:IOutput::DAGSylStrings", "lattice/pron-dag.cxx:FracDAG::nodeLattice", "parser/parser.cxx:FindExceptions", "lattice/pron-dag.cxx:PronunDAG::addSylString"]}
{"id": "C81", "title": "The help text names exactly the options the program takes", "statement": "For every program name without a newline, every letter c other than '-' and every text t after it: the text printed by --help has a line that begins with two blanks, '-' and c if and only if running the program with the single argument -c followed by t does not complain 'Unknown option'. For every long name: the help text gives --name as the long form of some letter if and only if --name as the only argument is not complained about as unknown, and then --name in first place gives the same output, the same messages and the same exit status as that letter in first place. If the version is asked for by -V or --version after accepted arguments, the first line printed is the program name, a blank and the version, nothing goes to the error stream, and the exit status is 1.", "quantifier": "all program names without newline, all letters, all texts after the letter, all long names, all libraries, dictionary files, standard inputs and further arguments", "why_tests_cant": "The claim is an equivalence over every letter and every long name (and what follows the letter), for any files and input; tests try a few options and do not compare the help text with the option loop.", "anchors": ["thpronun/thpronun.cxx:Usage", "thpronun/thpronun.cxx:main", "thpronun/thpronun.cxx:Version"]}
{"id": "C82", "title": "The end position carried by a fraction", "statement": "For every pronunciation graph whose grouped graph is computed: an edge of the grouped graph with one reading carries the position where the edge ends, and an edge with several readings always carries -1 (so endPos() does not say where it ends). In the lattice made from it, a series of single readings that was joined carries the end of its first part, not of the whole: there are graphs where every edge of the grouped graph carries its end but a fraction of the lattice does not.", "quantifier": "all pronunciation graphs (acyclic or not) for which grouping ends", "why_tests_cant": "PronunFrac::operator== ignores the position, so the tests that compare lattices cannot see it; the claim is about every graph.", "anchors": ["lattice/pron-dag.cxx:FracDAG::mergeParallels", "lattice/pron-dag.cxx:FracDAG::mergeSingles", "lattice/lattice.cxx:PronunChain::mergeSingles", "lattice/lattice.inl:PronunFrac::endPos"]}
{"id": "C83", "title": "From the shipped lists to what the installed program prints", "statement": "Join the shipped exception lists, sort them by bytes keeping every line once (there is exactly one such file), give it to gen-lookup-dict and run thpronun with the dictionary it wrote: the generator reports nothing and exits with 0, and thpronun, asked for any notations one line each, answers every text with exactly its readings under the grammar with the words of the lists as exceptions, each once, stopping with an exception at the first text that is not UTF-8 or ends where nothing can be read. No word of the lists has two lines that differ.", "quantifier": "all texts, notations, options, word breakers, names of programs and files", "why_tests_cant": "A test runs the package on some texts; the claim joins four steps of the build and covers every text and every word breaker.", "anchors": ["data/Makefile.am:except.tsv", "data/Makefile.am:except.dic", "dict/gen-lookup-dict.c:main", "thpronun/thpronun.cxx:main", "parser/parser.cxx:FindExceptions"]}
{"id": "C84", "title": "The order of syllables and of the alternatives in a group", "statement": "operator< orders any two syllables thus: literal text before syllables, texts by their UTF-16 units with a beginning before the whole, syllables by initial sound in the order of the Thai alphabet (so sala standing for s), then by the code of the second consonant, the code of the vowel, the final (none, k, t, p, ng, n, m, y, w), the tone (mid, low, falling, high, rising), and last by end position; strings by their first syllables not in the same place, a beginning before the whole. In the grouped lattice of every acyclic graph, and so in the grouped output of the program, the alternatives of every group stand in this order.", "quantifier": "all syllables, strings and acyclic graphs", "why_tests_cant": "There are too many pairs of syllables and strings, and the order in the groups is the outcome of merging in arbitrary graphs.", "anchors": ["sylstring/syl.cxx:Syl::operator<", "sylstring/sylstring.cxx:SylString::operator<", "lattice/lattice.cxx:PronunFrac::operator+=", "lattice/pron-dag.cxx:FracDAG::mergeParallels"]}
{"id": "C85", "title": "Words in regular spelling are read, however long", "statement": "A text made of any number of syllables in regular spelling (one consonant, cluster or led consonant; any open or closed vowel spelling; any tone mark; any final letter) and of listed words between them, divided into words by breaks or not, has among its listed pronunciations the one that puts the textbook readings of its pieces in order, with the positions of the pieces. Two neighbourhoods are excluded, where the program does not list it: an open syllable with SARA E before YO YAK that ends the text or stands before a syllable, and a cluster or led consonant ending in RO RUA with no letter between it and a RO RUA.", "quantifier": "all lists of regular syllables and listed words, all dictionaries with well-formed entries, all breaks between words", "why_tests_cant": "The number of pieces is unbounded and every neighbourhood matters: a piece may be read wrongly because of what follows it.", "anchors": ["parser/parser.cxx:ParseThCons", "parser/parser.cxx:ParseSaraE", "parser/parser.cxx:ParseOtherLV", "parser/parser.cxx:MatchInitCons", "parser/parser.cxx:EatEndConsSimple", "parser/parser.cxx:ParseU16"]}
{"id": "C86", "title": "Grouped output of a list of pronunciations", "statement": "The grouped form of a list of pronunciations of the same text is a valid JSON value: chains of groups of alternatives, in order, with no empty alternative and not divided more than needed. Every given pronunciation can be chosen from one of the chains, and if no two different pronunciations of the list share a position inside, only the given ones can be chosen. Two that do share one also offer their mixtures.", "quantifier": "all lists of pronunciations with increasing positions and a common end, all notations that write the syllables without characters needing escape", "why_tests_cant": "The lists are unbounded in number and length, and the grouping depends on how all of them share positions.", "anchors": ["output/output-gjson.cxx:output", "lattice/pron-dag.cxx:PronunDAG", "lattice/pron-dag.cxx:fracDAG"]}
{"id": "C87", "title": "The program prints the reading of texts in regular spelling", "statement": "Run thpronun with any accepted options on texts written in words of regular spelling and listed words, with word breaks at the ends of the words: it ends with status 0, and for every text and every notation asked for, the output has the reading piece by piece. In plain form it is a line of its own, with -j an element of the decoded JSON list, with -g a choice from one of the decoded chains of groups.", "quantifier": "all command lines with accepted options, all lists of texts in regular spelling of any length, all dictionaries with well-formed entries, all versions and contents of standard input", "why_tests_cant": "The texts are unbounded and every combination of notation, output form, dictionary and neighbouring pieces matters.", "anchors": ["thpronun/thpronun.cxx:main", "parser/parser.cxx:ParseU16", "output/output-delim.cxx:output", "output/output-json.cxx:output", "output/output-gjson.cxx:output"]}
{"id": "C88", "title": "Syllables never outnumber letters, and take twelve at most", "statement": "In every listed pronunciation of a Thai word of at least two letters without listed words in it, there are at most as many syllables as letters, and every stretch of letters read at once (one syllable, or two with the first letter as a syllable of its own) has at least one and at most twelve letters. Both bounds are reached.", "quantifier": "all words of Thai letters of any length, all dictionaries without an entry in the word, all breaks at the ends of the word", "why_tests_cant": "Words are unbounded, and the longest stretches need rare combinations of silenced letters that no test has.", "anchors": ["parser/parser.cxx:ParseThCons", "parser/parser.cxx:ParseSaraE", "parser/parser.cxx:ParseOtherLV", "parser/parser.cxx:ParseRuLu", "parser/parser.cxx:MatchKaranComplex", "parser/parser.cxx:AddSyl"]}
{"id": "C89", "title": "Clearly spelled texts have one pronunciation", "statement": "A text made of any number of words, each one consonant with a vowel, a tone mark or none and a final or none in a spelling that leaves no choice, with the breaks between them and no dictionary entry inside a word, has exactly one pronunciation: the textbook syllables one after the other. The program prints one line for it in every notation; with -j the list has that one element; with -g every choice from the groups is that pronunciation.", "quantifier": "all texts of any length built from the spellings of C46 and the clear ones of C50, all dictionaries, all files, standard inputs and accepted argument lists", "why_tests_cant": "Texts are unbounded; that nothing else is printed needs all ways through the parser to be known.", "anchors": ["parser/parser.cxx:ParseU16", "parser/parser.cxx:ParseThCons", "parser/parser.cxx:NextWordStop", "thpronun/thpronun.cxx:main"]}
{"id": "C90", "title": "Which assertions of the parser hold", "statement": "In a build with assertions (--enable-debug) the parser does exactly what it does in the normal build, on every text, unless a reading comes to one of the vowels แ โ ใ ไ with its word ending right behind it (end of the text, a word break, or a foreign character); then, and only then, it ends at the assertion pos < stopPos of MatchInitCons (line 293). No other assertion of the parser can fail, whatever the text, the breaks and the dictionary. In particular the normal build throws only where the other one ends at this assertion. That no assertion fails at all is refuted by the text แ.", "quantifier": "all texts of any length, all sorted break lists within the text, all well-formed dictionaries; for the one place also all breaks, dictionaries and letter classifications within the ranges of libthai", "why_tests_cant": "There are 34 assertions in mutually calling rules with positions from unbounded texts; which of them can fail needs all ways through the parser.", "anchors": ["parser/parser.cxx:MatchInitCons", "parser/parser.cxx:ParseOtherLV", "parser/parser.cxx:EatEndConsComplex", "parser/parser.cxx:MatchKaranComplex", "parser/parser.cxx:ParseU16", "thortho/thcons.cxx:InitConsClass"]}
{"id": "C91", "title": "The result graph grows linearly, the number of pronunciations exponentially", "statement": "For every well-formed dictionary there is a number K such that the graph the parser returns has at most K edges per letter of the text, for every text and every list of word breaks, and at most K^n pronunciations for n letters (with another K). The number of pronunciations is not bounded by any power of the length, not even without a dictionary: a word with k pronunciations written n times with the breaks between has exactly k^n.", "quantifier": "all well-formed dictionaries, all texts of any length, all sorted break lists within the text", "why_tests_cant": "A growth rate is a statement about all lengths; the number of paths, and the time of a run, grow exponentially, so long texts cannot be tried.", "anchors": ["parser/parser.cxx:ParseU16", "parser/parser.cxx:AddSyl"]}
{"id": "C92", "title": "The vowel of every syllable is written in its letters, and no vowel sign is passed over", "statement": "Whatever the text: every spoken syllable that is not taken from the dictionary is (a) the weak first syllable of a pair, with vowel A or AU, (b) the name of a single consonant, with vowel AU, or (c) a syllable whose vowel is one of those that the vowel signs standing in its group of letters write, in that order and all of them (short I and U, which may be silent, excepted), together with the consonant the spelling needs (WO for UA, YO for IA, O ANG for UEA and OE, ...). In particular the syllable over a vowel sign is always heard with one of the vowels of this sign.", "quantifier": "all texts of any length, all sorted break lists within the text, all well-formed dictionaries, all syllables of all pronunciations, all vowel signs", "why_tests_cant": "The claim excludes every wrong vowel in every context: the vowel rules branch on the letters before and after the sign, and a rule that drops a sign or takes a wrong one shows only on the combination it was written for.", "anchors": ["parser/parser.cxx:ParseThCons", "parser/parser.cxx:ParseSaraE", "parser/parser.cxx:ParseOtherLV", "parser/parser.cxx:ParseRuLu"]}
{"id": "C93", "title": "The program built with assertions does the same or stops at one place", "statement": "The program configured with --enable-debug (assertions on) behaves on every command line, input and set of files exactly as the normal program, or it stops at the assertion of parser/parser.cxx:293 right after printing one of its words and a colon, having written a beginning of what the normal program writes and the same messages. With the libthai classes it stops exactly at the first word on which a reading comes to one of the vowels SARA AE, SARA O, MAI MUAN, MAI MALAI with its word ending right behind it (the words before it being answered); if no word is such, the two programs do the same. No assertion of the Thai notation can fail on any syllable.", "quantifier": "all command lines, inputs, files, dictionaries, break functions, words; all syllables", "why_tests_cant": "Tests run one of the two builds on chosen words; the claim relates the two builds on every run, and the assertion fails only for texts a test author does not write.", "anchors": ["thpronun/thpronun.cxx:main", "thpronun/thpronun.cxx:DoParse", "output/sylout-thai.cxx:ThaiSylBelowAbove", "parser/parser.cxx:MatchInitCons"]}
{"id": "C94", "title": "Which syllables share a Thai respelling", "statement": "Two well-formed syllables get the same Thai respelling exactly if they agree in what the respelling says: the ending; the tone, where the common tone in a dead syllable counts as the tone its letter has without a mark; the onset, where r, l, w in the tones of the high letters (EK, and CHATTAWA in a live syllable) are the clusters hr, hl, hw; and the vowel, where before an ending ia, uea, oe are always long, e, ae, au, ua are long in the tones that take the same mark over short and long vowels, and long e before y is oe. All other syllables are told apart.", "quantifier": "all pairs of well-formed syllables, whatever their positions", "why_tests_cant": "There are 8 billion pairs of syllables, and the exceptions depend on the class of the letter, the ending, the length and the tone together.", "anchors": ["output/sylout-thai.cxx:output", "output/sylout-thai.cxx:ThaiLiveIConsTonePair", "output/sylout-thai.cxx:ThaiDeadShortIConsTonePair", "output/sylout-thai.cxx:ThaiDeadLongIConsTonePair", "output/sylout-thai.cxx:ThaiSylOE"]}
{"id": "C95", "title": "What a printed page tells apart", "statement": "Two lists of pronunciations give the same page of Thai, soundex, raw or phonetic lines exactly if they have the same number of pronunciations and, line by line and syllable by syllable, the same syllables up to what the notation merges within one syllable (Thai: C94, soundex: C17, raw: nothing, phonetic: C16). So no line end, delimiter or text of a syllable can be taken for another. The same holds for the JSON list and for the grouped JSON list, with the romanization (C60) included and down to the alternatives of every group. For the romanized lines it is refuted: ta-kra and tak-ra are one line. Blanks are seen in all but the phonetic lines, where they look like the delimiter.", "quantifier": "all pairs of lists of strings of well-formed syllables and blanks, of any lengths; all lattices of groups", "why_tests_cant": "Ambiguity is a statement about all pairs of pages of any size; a test compares a page with one expected text.", "anchors": ["output/output-delim.cxx:DelimOutput::output", "output/output-json.cxx:JsonOutput::output", "output/output-gjson.cxx:GroupedJsonOutput::output", "output/output-roman.cxx:RomanOutput::output"]}
{"id": "C96", "title": "First letters and tone mark decide initial sound and tone", "statement": "In every text, each spoken syllable that is not from the dictionary gets its initial sound, its second sound and its consonant class from the first one or two letters after the vowel sign written before them (one consonant; a true cluster or RU; a leading HO HIP; a first letter that is a weak syllable of its own and lends its class to a sonorant; RU and LU). Its letters contain at most one tone mark, and its tone is the textbook tone for that class, that mark (none if there is none) and the vowel and final heard. Weak first syllables and letters read by name have the tone of their consonant without a mark. So no tone mark goes unheard, and none is heard in a neighbouring syllable.", "quantifier": "all texts, break lists and dictionaries; all syllables of all listed pronunciations", "why_tests_cant": "It relates every letter of any text to every alternative analysis; a test has one text and its expected list.", "anchors": ["parser/parser.cxx:MatchInitCons", "parser/parser.cxx:ThCharToTone", "parser/parser.cxx:ParseThCons", "parser/parser.cxx:ParseSaraE", "parser/parser.cxx:ParseOtherLV", "parser/parser.cxx:ParseRuLu"]}
{"id": "C97", "title": "The letters of a syllable are a spelling of it", "statement": "In every text, each spoken syllable that is neither from the dictionary nor a weak first syllable nor the name of a letter is spelt by exactly the letters it covers: after removing the tone mark and the silenced letters (each silencer takes one consonant, one with short I or U, or two, and none remains), the letters are a sign before the initial, the initial letters, the vowel letters after them and the letters of the final, in this order, as in the printed table of Thai vowels; the initial letters give sound, second sound and class, the table row gives the vowel and whether a final follows, the final letter (possibly with a silent RO RUA, I or U after it, or shared with the next syllable) gives the final sound, and class and mark give the tone. No letter is left over. In any text at most twelve letters are read at once (C88).", "quantifier": "all texts, break lists and dictionaries; all syllables of all listed pronunciations", "why_tests_cant": "It accounts for every letter of every syllable in every analysis of any text; a test sees the analyses of one word.", "anchors": ["parser/parser.cxx:MatchInitCons", "parser/parser.cxx:EatEndConsSimple", "parser/parser.cxx:EatEndConsComplex", "parser/parser.cxx:ParseThCons", "parser/parser.cxx:ParseSaraE", "parser/parser.cxx:ParseOtherLV", "parser/parser.cxx:ParseRuLu", "parser/parser.cxx:MatchKaranComplex"]}
{"id": "C98", "title": "Which letters stand next to each other", "statement": "A table of letters and the letters that may follow them says which two Thai letters can be neighbours. In every text that has a pronunciation, whatever breaks and dictionary, at every place the letters before and after it are in the table, and a stretch of Thai letters begins with a consonant, RU, LU or a leading vowel and does not end with a leading vowel, MAI HAN AKAT or MAITAIKHU; the only exceptions are places at a word break, where the letters on both sides must still be able to end and begin a stretch, and places beside a letter of a dictionary word that stands in the text. So a text with any other pair has no pronunciation at all. The table is exact: without dictionary and breaks a pair occurs in some word of Thai letters with a pronunciation if and only if it is in the table, and likewise for first and last letters.", "quantifier": "all texts, break lists, dictionaries and places; all pairs of letters", "why_tests_cant": "It says of infinitely many texts that nothing can be read, and excludes over a thousand pairs in every context; a test tries a pair in a few words.", "anchors": ["parser/parser.cxx:ParseU16", "parser/parser.cxx:MatchInitCons", "parser/parser.cxx:EatEndConsComplex", "parser/parser.cxx:ParseThCons", "parser/parser.cxx:ParseSaraE", "parser/parser.cxx:ParseOtherLV", "parser/parser.cxx:ParseRuLu"]}
{"id": "C99", "title": "Which word breaks can be left out without losing a pronunciation", "statement": "A word break inside a Thai stretch is spare if the letter after it can begin a syllable and neither it nor the next is silenced, no abbreviation stop follows within four letters, the letters before it are not RU or LU, long UE without O ANG before anything but a leading vowel, a tone-marked O ANG after SARA E, or one of the vowels that take a consonant across a break; RO RUA does not meet RO RUA, YO YAK does not follow a SARA E at most four letters back, no single letter is cut off to be read by its name, and no dictionary word is written across. If breaks that are spare or outside Thai stretches are left out (all of them, as option -n does, or some), then whenever the text is answered without them it is answered with them, and every pronunciation listed with them is listed without them. Every one of these conditions is needed: for each there is a text, a break and possibly a dictionary such that only the segmented text has a certain pronunciation. So the claim that breaks only take pronunciations away is false in general.", "quantifier": "all texts, dictionaries, break lists and sublists of them that keep every break that is not spare", "why_tests_cant": "It compares two parses of every text for every way to leave out breaks; that a rule of the parser looks past the end of a word shows only in words with the right letters on both sides of a break.", "anchors": ["parser/parser.cxx:ParseU16", "parser/parser.cxx:NextWordStop", "parser/parser.cxx:MatchKaranComplex", "parser/parser.cxx:EatEndConsComplex", "parser/parser.cxx:ParseSaraE", "parser/parser.cxx:ParseRuLu", "parser/parser.cxx:FindAbbr", "parser/parser.cxx:Parser::parseWord"]}
{"id": "C100", "title": "Exactly which letters can take each other's place, and what changing a tone mark changes", "statement": "If letters of a text are replaced by others of the same group - the groups are KHO KHUAT, KHO KHON, KHO RAKHANG; THO THAN, THO THUNG, THO MONTHO; CHO CHING, CHO CHOE; the four tone marks - then, with any word breaks and with any dictionary that has the same entries at the same places of both texts, the one text is answered if and only if the other is, and their lists of pronunciations agree syllable by syllable in initial consonants, vowel, final, literal text and end position: at most tones change. With only KHO KHON and KHO RAKHANG, or THO THAN and THO THUNG, exchanged the pronunciations are the same including tones. These are all: for any other two different characters there is a text without dictionary and breaks in which putting the one in place of the other changes more (other homophones, like KHO KHWAI and KHO RAKHANG or the two signs of AI, are therefore not interchangeable). The condition on the dictionary is needed.", "quantifier": "all texts, break lists, dictionaries; all pairs of 16-bit or other characters for the converse", "why_tests_cant": "It relates the parses of every pair of texts that differ in the given letters; one rule that names a single letter of a group, anywhere in the grammar, breaks it only for texts that reach that rule.", "anchors": ["parser/parser.cxx:ParseU16", "parser/parser.cxx:ParseThCons", "parser/parser.cxx:MatchInitCons", "parser/parser.cxx:EatEndConsComplex", "parser/parser.cxx:ParseSaraE", "parser/parser.cxx:ParseOtherLV", "parser/parser.cxx:ParseRuLu", "parser/parser.cxx:ThCharToTone"]}
{"id": "C101", "title": "Exactly which syllables the parser can say", "statement": "Without a dictionary, a syllable (initial sound, second sound, vowel, final, tone) is part of some pronunciation of some text with some word breaks if and only if it is described by the tables: an initial sound with a consonant class that can write it (38 plain initials and clusters, 23 with RU), a vowel and final that go together (no final after the short diphthongs and short OE, no Y after I, II or O, no W after O, no tone mark with closed short E and AU; no closed O after a WO WAEN cluster or RU; AA and short AU after RU only with a tone mark; Y after 'ri'), and the tone of that class with some tone mark. There are exactly 37074 such syllables. With a dictionary, every syllable of a pronunciation of any text is one of these or one that the dictionary lists.", "quantifier": "all syllables; all texts, break lists and dictionaries", "why_tests_cant": "That no text at all yields a syllable outside the tables cannot be tested; and a rule lost or added for one vowel, final, cluster or tone changes the set only at a few of the 90720 combinations.", "anchors": ["parser/parser.cxx:ParseU16", "parser/parser.cxx:MatchInitCons", "parser/parser.cxx:ParseThCons", "parser/parser.cxx:ParseSaraE", "parser/parser.cxx:ParseOtherLV", "parser/parser.cxx:ParseRuLu", "parser/parser.cxx:EatEndConsSimple", "parser/parser.cxx:EatEndConsComplex"]}
{"id": "C102", "title": "Exactly which sequences of syllables are pronunciations", "statement": "Without a dictionary, a non-empty sequence of syllables is a pronunciation of some text with some word breaks if and only if each of its syllables can be said at all (as in C101) and every syllable 'riy' (initial R, short I, final Y, any tone) directly follows a short open syllable 'a' whose initial sound and tone are among 25 combinations (none with the initials K, P or W); 'riy' in the low tone only follows 'sa' in the low tone. All other syllables combine freely, in any number and order.", "quantifier": "all sequences of syllables, of any length; all texts and break lists", "why_tests_cant": "That no text of any length has a pronunciation with a forbidden neighbour, and that each of the infinitely many allowed sequences has a text, are statements about all texts and all sequences.", "anchors": ["parser/parser.cxx:ParseU16", "parser/parser.cxx:MatchInitCons", "parser/parser.cxx:ParseThCons", "parser/parser.cxx:ParseRuLu", "parser/parser.cxx:EatEndConsComplex"]}
{"id": "C103", "title": "Exactly which pronunciations the parser lists, copied text included", "statement": "Without a dictionary, a non-empty sequence of syllables and pieces of copied text is what some pronunciation of some text with some word breaks says if and only if: its syllables can be said and 'riy' stands only directly after a short 'a' as in C102; each piece of copied text is a single full stop or a non-empty text without Thai letters and without full stops; and a piece that ends in a blank is not directly followed by another piece other than a full stop. In every other respect syllables and pieces of text follow each other freely, in any number.", "quantifier": "all sequences of syllables and texts, of any length; all texts and break lists", "why_tests_cant": "Tests show single outputs; that no input of any length gives another shape of output, and that every output of this shape has an input, are statements about all texts and all sequences.", "anchors": ["parser/parser.cxx:ParseU16", "parser/parser.cxx:NextWordStop", "parser/parser.cxx:FindAbbr", "parser/parser.cxx:MatchInitCons", "parser/parser.cxx:ParseThCons"]}
{"id": "C104", "title": "JSON output is right exactly for texts without quotes, backslashes and control characters", "statement": "For every text that can be parsed, the JSON output is the list of its pronunciations, each a list of quoted syllable texts, written without any escaping; this is a JSON text (white space, short escapes and \\u escapes of RFC 8259 included) for that list if and only if the text contains no quotation mark, backslash or control character. The grouped output likewise (an empty result is always right). So run with -j or -g on any words at all the program prints these lines. Any foreign texts without such characters can be put together into one text with one pronunciation whose JSON output says that it has each of them as a pronunciation.", "quantifier": "all texts, dictionaries whose entries are well-formed, break lists and notations; all accepted command lines with -j or -g", "why_tests_cant": "That no text with a special character is ever written correctly, and that every text without one is, concerns all texts and all JSON readers; tests look at single outputs without special characters.", "anchors": ["output/output-json.cxx:JsonOutput::output", "output/output-gjson.cxx:GroupedJsonOutput::output", "output/isyl-output.cxx:ISylOutput::outputLiteral", "thpronun/thpronun.cxx:main"]}
{"id": "C105", "title": "What one notation tells of another", "statement": "Take pronunciations without foreign text that the parser lists for any texts. If two are printed as the same raw line (or the same raw JSON element) they are the same and are printed alike in every notation. Between different notations nothing else carries over in lines: for each of the other 16 pairs of notations there are two pronunciations of Thai texts with the same line in the one and different lines in the other. In JSON there is one more: the phonetic element determines the romanized one, while the romanized line, which marks a glottal with a hyphen, is not determined by the phonetic line. The same holds of whole answers: a raw page or raw JSON list determines the list of pronunciations, a phonetic JSON list the romanized JSON list.", "quantifier": "all pairs of pronunciations of all texts, under all dictionaries with well-formed entries and all break lists; all pairs of notations", "why_tests_cant": "That a notation never confuses what another tells apart concerns all pairs of pronunciations of any length; tests compare single outputs with expected texts.", "anchors": ["output/output-delim.cxx:DelimOutput::output", "output/output-roman.cxx:RomanOutput::output", "output/output-json.cxx:JsonOutput::output", "output/sylout-phonetic.cxx:PhoneticSylOutput::output", "output/sylout-roman.cxx:RomanSylOutput::output"]}
{"id": "C106", "title": "A silenced consonant at the end of a word is not heard", "statement": "Let a word of Thai letters be pronounced once as it stands and once with a consonant and THANTHAKHAT added at its end. Every pronunciation of the word is then, syllable by syllable, also a pronunciation of the longer word; and if the word does not end in two consonants, the longer word has no others. The word must not end in another silenced letter, in a silent I or U after one of four consonants, in a long UE without O ANG, in RU or LU, in YO YAK after MAIMALAI, in a mark on an O ANG after SARA E and a consonant, nor in RO RUA if the added consonant is RO RUA. Each of these conditions is needed: without it some word loses a pronunciation, and after two consonants some word gains one.", "quantifier": "all words of two or more letters with any ending but those named, all silenced consonants, all dictionaries that list no part of the word, all break lists without breaks inside the word", "why_tests_cant": "A silencer can be swallowed by any of some sixty rules for vowels and finals, and the effect on the whole list of pronunciations depends on every way through the word; tests spell out a few words.", "anchors": ["parser/parser.cxx:MatchKaranSimple", "parser/parser.cxx:MatchKaranComplex", "parser/parser.cxx:MatchKaranIU", "parser/parser.cxx:EatEndConsSimple"]}
{"id": "C107", "title": "Two silenced letters after a final consonant are not heard", "statement": "Let a word of Thai letters end in a consonant other than WO WAEN, YO YAK, O ANG and RO RUA, right after a letter with which no syllable starts (neither a consonant nor a leading vowel). Pronounce it once as it stands and once with a consonant, a second consonant or I or U, and THANTHAKHAT added at its end, as in จันทร์, สิทธิ์, พันธุ์. Every pronunciation of the word is then, syllable by syllable, also a pronunciation of the longer word. Words ending in an open syllable, in a consonant after a consonant or leading vowel, or in one of the four consonants can lose pronunciations. The longer word can have further ones; but when the last vowel is MAI HAN AKAT, perhaps with a tone mark, and the final follows it, as in จันทร์ and พันธุ์, it has no others.", "quantifier": "all words that end in such a consonant, all first silenced consonants, all second ones including I and U, all dictionaries that list no part of the longer word, all break lists without breaks inside the word", "why_tests_cant": "The silenced pair must be skipped by every rule that can read the final consonant, also where the consonant doubles as the start of another syllable; tests have only a handful of words such as จันทร์.", "anchors": ["parser/parser.cxx:MatchKaranComplex", "parser/parser.cxx:MatchKaranIU", "parser/parser.cxx:EatEndConsSimple"]}
{"id": "C108", "title": "A silent RO RUA, I or U after a final consonant is not heard", "statement": "Let a word of Thai letters end in one of the vowels MAI HAN AKAT, long A, I, II, U, UU followed by a consonant, where I does not stand after SARA E and one or two letters. If the consonant is KO KAI, KHO KHWAI, CHO CHANG, TO TAO or THO THAHAN and RO RUA is added at the end, or if it is THO PHUTHAO, TO TAO, THO THONG or RO RUA and I or U is added, as in จักร, บัตร, ชาติ, ธาตุ, then every pronunciation of the word is, syllable by syllable, also a pronunciation of the longer word. With other vowels, with a tone mark between vowel and final, after SARA E and I, and with other finals pronunciations can be lost; and the longer word can have further ones.", "quantifier": "all words with such an ending, all silent letters for it, all dictionaries that list no part of either word, all break lists without breaks inside the word", "why_tests_cant": "Whether the letter is silent depends on which of the rules for finals applies after the vowel, and every way through the rest of the word must survive; tests have single words such as จักร and ชาติ.", "anchors": ["parser/parser.cxx:EatEndConsComplex", "parser/parser.cxx:EatEndConsSimple"]}
{"id": "C109", "title": "Words that sound alike can take each other's place in a sentence", "statement": "Take two sentences of equally many words, divided at their word breaks. If, place by place, every pronunciation of the word of the first sentence is, syllable by syllable, also one of the word of the second, then every pronunciation of the first sentence is also one of the second, and every line printed for the first in Thai, phonetic or soundex notation is printed for the second; the romanization of the syllables is the same too. In particular a sentence keeps all its pronunciations when any of its words take on silent letters as in C106, C107 and C108. Raw notation is excepted, since it also shows positions.", "quantifier": "all sentences of any number of Thai words and pieces of other text that can follow one another, all dictionaries (also different ones for the two sentences), all notations but the raw one, all delimiters", "why_tests_cant": "The claim relates two whole sentences of any length through all combinations of the pronunciations of their words; a test compares single outputs.", "anchors": ["parser/parser.cxx:NextWordStop", "parser/parser.cxx:ParseU16", "parser/parser.cxx:MatchKaranComplex", "output/output-delim.cxx:DelimOutput::output"]}
{"id": "C110", "title": "A word listed with the pronunciations it has anyway keeps them", "statement": "Take a word of Thai letters and the pronunciations it has with some exception dictionary or with none. List the word with exactly these pronunciations, in any order, and leave the other entries as they are. The word then has the same pronunciations, no more and no fewer, also when parts of it are listed. In particular, appending a line with the word and the raw codes printed for it to the source list, and running the dictionary generator, changes nothing for the word. Longer words that begin with it can lose pronunciations: with ตา listed just as it is said, ตากลม is no longer read ตาก-ลม.", "quantifier": "all words of two or more Thai letters with at least one pronunciation, all well-formed dictionaries, all source lists, all break lists without breaks inside the word", "why_tests_cant": "The alternatives of an entry share the nodes of the graph, so that listing a word could bring forth mixed pronunciations; that this never happens for the pronunciations of a parse is a statement about all words and all dictionaries.", "anchors": ["parser/parser.cxx:FindExceptions", "parser/parser.cxx:ParseU16", "sylstring/sylstring.cxx:SylString::shiftEndPos", "output/sylout-raw.cxx:RawSylOutput::output", "dict/gen-lookup-dict.c:GenDict"]}
{"id": "C111", "title": "What a run of the program depends on", "statement": "Two accepted command lines that ask for the same structure, the same notations in the same order, the same dictionary and the same word breaking, and that have the same words, run alike: the output, the messages and the result are the same, also when the run fails. So texts can be moved before or after options, and texts without newlines can be given as lines of standard input instead, and nothing changes. One run for two lists of words writes what the runs for the one and for the other list write, one after the other, with the messages of a single run; when the first list fails, the run is that of the first list. Naming the default dictionary with -d is not the same as naming none when it cannot be loaded.", "quantifier": "all accepted argument vectors, all inputs, all files, all word breakers", "why_tests_cant": "Compares two runs for all argument orders and all words, failing runs included.", "anchors": ["thpronun/thpronun.cxx:main", "thpronun/thpronun.cxx:DoParse", "thpronun/thpronun.cxx:LoadExceptDict"]}
{"id": "C112", "title": "Romanization and soundex do not depend on which tone mark is written", "statement": "Let two texts differ only in letters of the groups of C100, the four tone marks among them, with the same word breaks and with a dictionary that has the same entries at the same places. Then the texts of the romanized lines, of the soundex lines and of the romanized and soundex JSON elements are the same for both, for every delimiter and with or without capitals: whatever is printed for the one is printed for the other. This holds of no other notation: with one tone mark in place of another the Thai respelling, the phonetic line and the raw line change.", "quantifier": "all pairs of texts of any length that differ in the given letters, all break lists, all dictionaries with well-formed entries", "why_tests_cant": "It compares the whole answers to all pairs of texts; a rule of the parser or an entry of a table that lets the tone mark through shows only for texts that reach it.", "anchors": ["output/output-roman.cxx:RomanOutput::output", "output/sylout-roman.cxx:RomanSylOutput::output", "output/sylout-soundex.cxx:SoundexSylOutput::output", "output/output-json.cxx:JsonOutput::output", "parser/parser.cxx:ThCharToTone"]}
{"id": "C113", "title": "What of a dictionary source matters", "statement": "Take two source files for the dictionary generator with well-formed lines. If the last line for each word is the same in both, the generator takes both, and with the file made from the one in place of the file made from the other the program does exactly the same, whatever its arguments, its input, the other files and the word breaker. So the order of the lines does not matter if no word has two; a line does not matter if a later one has the same word; nor does it matter whether the last line ends with a newline. The order of two lines for one word does matter.", "quantifier": "all pairs of source files of less than 2^30 bytes, all argument vectors, inputs, files and word breakers", "why_tests_cant": "Compares whole runs of generator and program for arbitrary pairs of sources; the numbering of the data in the file differs between them and must never show.", "anchors": ["dict/gen-lookup-dict.c:GenDict", "dict/dict.cxx:Dict::open", "dict/dict.cxx:Match::getData", "parser/parser.cxx:FindExceptions", "thpronun/thpronun.cxx:main"]}
{"id": "C114", "title": "Input lines that end with carriage return and newline", "statement": "Expected: lines of standard input that end with carriage return and newline are read as lines that end with a newline. Refuted: the carriage return stays with the word. Such an input is treated exactly as text arguments that end with a carriage return. The heading of the word contains it, and after a Thai letter it is read as foreign text, so that the pronunciations are those of the word, each followed by the carriage return as a piece of its own.", "quantifier": "all inputs of such lines, all accepted options, all words in valid UTF-8 that end with a Thai letter, all dictionaries with well-formed entries, all break lists", "why_tests_cant": "The program is tested with inputs that end lines with a newline only; that the rest of the reading is untouched is a statement about all words.", "anchors": ["thpronun/thpronun.cxx:main", "thpronun/thpronun.cxx:DoParse", "parser/parser.cxx:ParseU16"]}
{"id": "C115", "title": "Letters read by name after a bracket or a quotation mark", "statement": "Expected: foreign text before a word (an opening bracket, a quotation mark, digits) leaves the reading of the word as it is. Refuted for letters read by name: an abbreviation or a single letter directly after a foreign character other than a blank is not spelled out. If a consonant stands there alone, that is before a full stop, a foreign character, a word break or the end, and no listed word begins with it, the whole text has no pronunciation at all. After foreign text that ends with a blank, and before a first word that is not a letter alone or one to four consonants and a full stop, the expectation holds: the pronunciations are those of the rest by itself, each after the foreign text.", "quantifier": "all texts, all places in them, all dictionaries with well-formed entries, all break lists", "why_tests_cant": "The abbreviation tests start with the abbreviation; that nothing before or after can save the text is a statement about all texts and all ways of reading the rest.", "anchors": ["parser/parser.cxx:FindAbbr", "parser/parser.cxx:ParseU16"]}
{"id": "C116", "title": "Full stops between pieces of foreign text", "statement": "Expected: a text without Thai letters is copied whole. Refuted for texts with full stops: in a number such as 3.5, an address such as 192.168.0.1 or a shortened word such as etc., that is in pieces of foreign text without blanks with full stops after them, the one pronunciation consists of the pieces, each as text of its own, and the full stops are not in it. Whatever the number of pieces, the dictionary and the word breaks.", "quantifier": "all non-empty lists of pieces of any length, with or without a last piece that no full stop follows; all dictionaries with well-formed entries, all break lists", "why_tests_cant": "The tests have no number with a decimal point; that no full stop between foreign pieces survives, in any position of any text, is a statement about all such texts.", "anchors": ["parser/parser.cxx:ParseU16", "parser/parser.cxx:FindAbbr", "parser/parser.cxx:NextWordStop"]}
{"id": "C117", "title": "The repetition mark and other signs after a word", "statement": "Expected: a word with the repetition mark (mai yamok, as in มากๆ) is said twice. Refuted: the mark, like paiyannoi, Thai digits and all other text without Thai letters and full stops, is copied as text after each pronunciation of the word, the pronunciations of the word are otherwise those it has by itself, and those of more text after the mark are the ones that text has by itself, unless it starts with letters read by name. No pronunciation of a word with such a mark says the word any number of times, whichever of its pronunciations are taken. The sign for \"and so on\" (ฯลฯ) leaves every text it stands in without a pronunciation, unless a dictionary word begins with its consonant there.", "quantifier": "all texts ending with a Thai letter, all non-empty signs after them, all texts after these; all dictionaries with well-formed entries, all sorted break lists within the text", "why_tests_cant": "The tests have three texts with such signs and look only at whether there is a pronunciation, not at which; that nothing about any word changes before any sign is a statement about all texts.", "anchors": ["parser/parser.cxx:ParseU16", "parser/parser.cxx:NextWordStop"]}
{"id": "C118", "title": "Spellings that look alike but are typed differently", "statement": "Expected: spellings that are displayed alike are read alike. Refuted: a text with SARA E typed twice for SARA AE, with NIKHAHIT and SARA AA for SARA AM (its compatibility decomposition in Unicode, so every such word of a text in a compatibility normal form), with a tone mark before the vowel sign above or below, with a tone mark after SARA AM, or with a tone mark twice has no pronunciation at all, whatever stands before and after these characters and whatever word breaks are found, unless one of the two characters belongs to a dictionary word that stands in the text; the program prints nothing for it and reports success, while the spelling in order is read.", "quantifier": "all texts with such a pair of characters at any place, all sorted break lists within the text, all dictionaries with well-formed entries", "why_tests_cant": "The tests have no text typed in another way; that no context, word break or dictionary (beyond words spelled so) gives such a text a pronunciation is a statement about all texts.", "anchors": ["parser/parser.cxx:ParseU16", "parser/parser.cxx:MatchInitCons", "parser/parser.cxx:EatEndConsComplex", "parser/parser.cxx:ParseThCons", "parser/parser.cxx:ParseSaraE", "parser/parser.cxx:ParseOtherLV", "parser/parser.cxx:ParseRuLu"]}
