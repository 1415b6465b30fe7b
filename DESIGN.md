# Formal model of ngram-movers-distance

Prover: Rocq/Coq 8.16.1.  Sources: `/verif/rocq/theories`.  The code in `/repo` was only read as text.

## Trusted base

* Coq's kernel (and `coqchk`, which re-checks the compiled files).
* What `Print Assumptions` lists for each theorem.  Every theorem in the `Props_*.v` files is followed by
  `Print Assumptions`.  The target is "Closed under the global context" everywhere; any standard-library axiom
  that does turn up is listed in the section "Assumptions per theorem" below.
* The faithfulness of the hand translation from Python to Gallina.  Every definition of a `*Model.v` file carries
  a comment with the file and lines it models, and says where it simplifies.

## Modelling conventions

| Python | Model |
|---|---|
| `float`, `int` positions | `Qc` (canonical rationals, Leibniz equality).  Each float operation is `rnd (exact operation)` for a parameter `rnd : Qc -> Qc`.  `rnd = id` is exact arithmetic; `rnd64` is round-to-nearest-even with 53 bits of precision (unbounded exponent); `ieee64` has gradual underflow as well, see C106.  inf/nan are not modelled |
| `str` | `list N` of code points, `\2` is 2, `\3` is 3 |
| `dict` | association list in insertion order with unique keys |
| `set` | list without duplicates; wherever the code iterates over a set the order is an arbitrary parameter (an oracle constrained only to be a permutation) |
| `sorted`, `.sort` | stable insertion sort with the same comparison |
| exceptions | `result A := Ok a | Err e` |
| mutable object | record threaded through a state-passing function; an operation returns the new state also when it raises |
| `isinstance` checks | `pyval` sum type for the arguments that are checked |
| `lru_cache` | not modelled (pure function of its arguments); purity is what makes this sound |
| `str.casefold`, unicode normalizer | Section variables (functions on strings), with the hypotheses needed (idempotence) stated in the theorem |
| scipy `linear_sum_assignment` | oracle constrained by its documented specification |

## Files

Common: `Num.v` (Qc arithmetic), `Py.v` (exceptions, indexing, ranges, sorting), `ListAux.v`, `PyDict.v`, `Float64.v`
(rounding), `Ex.v` (notation for examples).

Per part of the code: `*Spec.v` is an independent specification, `*Model.v` the transliteration with line references,
the files in between are proofs, and `Props_*.v` has the theorems named in MANIFEST.json, each with `Print Assumptions`
and concrete cases.

| code | files |
|---|---|
| nmd/emd_1d.py `emd_1d_dp`, `emd_1d_slow` | EmdSpec, EmdModel, EmdProofs, EmdFloatProofs, EmdSlowProofs, Props_Emd |
| nmd/emd_1d.py `emd_1d_hybrid`, `emd_1d_old` and helpers | HybridModel, FlowProofs, GreedyProofs, HybridProofs, HybridFloatProofs, Props_Hybrid |
| nmd/nmd_core.py / nmd `ngram_movers_distance` | NmdSpec, NmdModel, NmdProofs, NmdFloatProofs, Props_Nmd |
| nmd/nmd_index.py `ApproxWordListV5`, `V6` | IndexSpec, IndexModel, IndexProofs, IndexLoops, IndexLookupProofs, IndexResult, IndexTop, IndexScore, IndexFacts, Props_Index |
| (accuracy of the above in binary64) | Accuracy, NmdAccuracy, LookupFloat, SelfFloat, Props_Accuracy |
| (accuracy of `emd_1d_hybrid`, `emd_1d_old`) and experiments/correctness-test.py `emd_1d_dp_optimized`, `check_correct_emd_1d` | HybridAccuracy, CheckModel, CheckProofs, Props_HybridAccuracy |
| nmd/nmd_index.py `ApproxWordListV3` | V3Model, V3Proofs, Props_V3 |
| experiments/gemini_optimized_v5.py `ApproxWordListV5b` | V5bSpec, V5bModel, V5bProofs, V5bLookup, V5bFacts, Props_V5b |
| nmd/nmd_bow.py `bow_ngram_movers_distance` | BowSpec, BowModel, BowProofs, Props_Bow |
| nmd/nmd_word_set.py `WordSet` | WordSetSpec, WordSetModel, WordSetProofs, WordSetScore, Props_WordSet, WordSetOpsModel, Props_WordSetOps |
| experiments/find_replace_trie.py `Trie` | TrieSpec, TrieModel, TrieProofs, TrieScan, Props_Trie, TrieFind, TrieLongest, Props_Find |
| experiments/find_replace_trie.py `Trie.to_regex`, `Trie.fromkeys`, `to_regex` | RegexSpec, RegexModel, RegexTree, RegexPasses, RegexSimplify, RegexParse, RegexLang, RegexOrder, RegexSpaces, Props_Regex |
| experiments/find_replace_trie.py `Trie.process_file`, `_yield_tokens` (as used there) | FileModel, FileProofs, FileOk, FileText, Props_File |
| experiments/find_replace_trie.py `format_bytes`, `format_seconds` | FormatModel, FormatProofs, Props_Format |
| relations between calls of nmd/nmd_core.py and nmd/emd_1d.py (no new model) | NmdEdit, NmdMeta, Props_Meta |
| experiments/edit_distance.py `edit_distance`, `damerau_levenshtein_distance`; experiments/automata.py `levenshtein`, `BKNode` | EditSpec, EditProofs, EditModel, EditDp, EditBk, Props_Edit |
| experiments/edit_distance.py `extended_edit_distance` | EedSpec, EedModel, EedProofs, EedCost, Props_Eed |
| experiments/find_replace_trie.py `levenshtein_lookup`, `damerau_levenshtein_lookup` | LookupModel, LookupProofs, Props_Lookup |
| experiments/automata.py `NFA`, `DFA`, `levenshtein_automaton`, `find_all_matches`, `Matcher` | AutoModel, AutoProofs, AutoLev, AutoNext, Props_Auto |
| experiments/emd_1d_cython.pyx `emd_1d_dp_cython` | CyModel, CyProofs, Props_Cy |
| experiments/dawg.py `DAWG`, `DAWGNode` | DawgModel, DawgRepr, DawgProofs, DawgFinal, DawgAsk, DawgQuery, DawgLate, Props_Dawg |
| experiments/dawg-orig.py `Dawg`, `DawgNode` and the script at its end | OrigModel, OrigProofs, OrigFinish, Props_Orig |
| (gradual underflow in `emd_1d_dp`, `ngram_movers_distance`, `bow_ngram_movers_distance`) | Ieee, NmdIeee, Props_Ieee |
| (gradual underflow in the word lists `ApproxWordListV5`, `ApproxWordListV6`) | IndexIeee, Props_IndexIeee |
| (triangle inequality up to a factor, growth of word lists, accuracy of the bag-of-words distance; no new model) | RelaxedProofs, RelaxedSharp, Props_Relaxed, Props_Growth, Props_BowAccuracy |
| nmd/nmd_word_set.py lines 300-447 again: rounding errors, underflow and change of the set | WordSetFloat, WordSetIeee, Props_WordSetFloat, Props_WordSetGrowth |
| WordSet compared with WordList and with nmd/nmd_core.py (no new model) | Props_Agree |
| Trie.levenshtein_lookup, BKNode.search and find_all_matches compared (no new model) | Props_Near |
| nmd/nmd_word_set.py `normalize_nfc`, `normalize_nfkc`, `normalize_nfd_strip_marks`, with `str.casefold` | UniModel, UniProofs, Props_Uni |
| `sum` of CPython 3.12 and later, and its callers: nmd/emd_1d.py lines 8-25, 101-332, 335-540, nmd/nmd_index.py lines 36-37 and 153, tests/test_emd_correctness.py lines 91-121 | SumExact, SumModel, SumLookup, SumAccuracy, SumMean, Props_Sum, Props_SumLookup (HybridAccuracy is generic in the summation, LookupFloat in the mean) |
| experiments/sizeof.py `deep_sizeof` | SizeofModel, SizeofProofs, Props_Sizeof |
| experiments/find_replace_trie.py slices with steps, `del` of slices, `Trie.fromkeys`, `Match` | TrieSliceModel, TrieSliceProofs, Props_TrieSlice |
| tests/test_emd_correctness.py, loops of experiments/correctness-test.py | TestSuiteModel, TestSuiteProofs, Props_TestSuite |
| tests/test_find_replace_trie.py (all but `test_unicode_spaces`, a test of `re`), `self_test` of experiments/find_replace_trie.py | TrieTestModel, Props_TrieTest |
| experiments/tokenizer.py (all but `is_word_char`, `is_punctuation_char`, which nothing uses) | TokModel, TokProofs, TokSent, Props_Tok |
| `Matcher.probes` and the counter of `BKNode._search` (`limited` in Props_Probes) | Props_Probes |
| (no new code) the two word graphs beside each other and beside the trie | Props_Same |
| experiments/find_replace_trie.py `Trie.nbytes` | NbytesModel, Props_Nbytes |
| (no new code) `Trie.translate` and `Trie.finditer` on pieces of a text | Props_Pieces |
| (no new code) two `ApproxWordListV5b` lists compared | Props_V5bGrowth |
| (no new code) edit distance of query and word against `WordList.lookup`, `WordSet.find_similar`, `ApproxWordListV5b.lookup` and `ApproxWordListV3.lookup` | Props_Typo, Props_TypoV5b, Props_TypoV3 |
| nmd/nmd_word_set.py 460-496 (read-only properties, `__repr__`) | ReprModel, Props_Repr |
| experiments/dawg.py 182-192 (`step` with the list it changes) | Props_DawgStep (model and theorems) |
| experiments/dawg.py 52-56, 74-83 (`__eq__`, `clone`) | Props_DawgNode (model and theorems) |

## Assumptions per theorem

`Print Assumptions` answers "Closed under the global context" for every theorem: no axiom, not even one of the
standard library.  (`coqchk` also names `Coq.ssr.ssrunder.Under_rel.*`: these live in a standard library file that is
loaded transitively; no theorem here depends on them.)

## Simplifications to know about

* `sum()` is a left fold of rounded additions, as in CPython before 3.12.  The compensated summation of newer versions is
  modelled in SumModel (C117, C118); other theorems that use monotonicity of the mean of more than two scores are about the older one.
* WordList: `n` is an int or an iterable of ints, `filter_n` an int; `mean` is a parameter (any function agreeing with
  the single power for one size); `casefold` is assumed idempotent.
* ApproxWordListV3: as for V5/V6; the theorems take positive, distinct sizes (the class checks neither); `top_k` is an int;
  the recursion of `vocabulary` is cut off at any given depth.
* ApproxWordListV5b: as for V5; `filter_n` may be any value; a BitMap is a list; debugging output and timing are left out.
* WordSet: nothing is assumed of `casefold`; the normalizer is a pure function that returns a string or raises (its
  non-string results are a raise); a BitMap is an ascending list and the 2^32 limit on ids is not modelled; `__repr__`
  and the demo are not modelled.  The operators inherited from `collections.abc` follow the text of CPython's
  _collections_abc.py; an operand that is neither a set nor iterable is taken to have no reflected operators.
* Trie: the tokenizer is a total function from keys to lists of hashable tokens and the detokenizer a total function
  back; values are not `_NOTHING`; stack loops run with fuel shown to suffice; `sort_keys` (a stack loop) is a structural
  recursion; generators are run to the end without the trie changing meanwhile; `bisect` on the ends of the chosen matches
  is a linear search; printing, `nbytes`
  and `lowercase` other than as a tokenizer are not modelled.
* `to_regex`: tokens are strings; `\s` and `\w` are any two sets of characters; `str.lower` of a character is any function.
  `re` is modelled in RegexSpec.v: the syntax that occurs in the results (anything else does not compile in the model) and
  backtracking matching as the list of all ways to match in order of preference; `finditer` for expressions that do not
  match the empty string.  The five simplification patterns are expression trees built by hand from the pattern texts
  instead of being parsed, and `re.sub` takes a function from the matched group.  `re.escape` is the one of Python 3.7 and
  later.  The branch `char == ''` in `char_group`, which no character reaches, is left out.  `Trie.fromkeys` is modelled
  without `sort`.
* `process_file`: a file system is a map from path strings to directories and files with their bytes; a path is its string
  (no `a//b`, `./`, `..`, links or case folding), the empty path names nothing and a bare name lies in the current
  directory.  Each call to the operating system is a step which may also be refused, and a write may stop anywhere; there
  is no other process.  The input is read completely when it is opened, and decoding delivers the characters before a bad
  byte (Python decodes in blocks).  Buffering is left out: a chunk is written when `write` is called.  `os.linesep` is a newline.
  Printing is left out except that `format_seconds` may raise.
* `format_bytes`, `format_seconds`: sizes are ints up to 2^53, durations rationals; `math.floor(math.log10(x))` is a parameter.
* Edit distances: costs in `edit_distance` and relatives are the ints of the code; `extended_edit_distance` takes
  finite costs, fills its row by appending instead of overwriting infinities, and its `debug` output is left out.  `BKNode.search` fills a set passed along: the model returns the list of additions.
* Automata: a Python set is a list without duplicates whose order of iteration is an arbitrary rearrangement; loops run with
  fuel and the theorems hold for all large enough fuel; `find_all_matches` is run to the end; NFA states are the pairs of
  ints of the type alias `State`; `intersect`, `probes` and the printing code are not modelled.
* Tokenizer: generators are run to the end; `unicodedata` and `str.isspace` are arbitrary functions of one character.
* Cython: C memory is a map from block numbers to blocks of possibly unwritten cells, with an outcome `Undefined`; every
  `malloc` may fail (this covers `malloc(0)` giving NULL); an element of an argument is a number or something whose access
  raises; the Python lists made on the way are always allocated; sizes do not overflow and `<double_t> j` is exact; the
  arguments keep their length.
* DAWG: nodes are positions in a heap; their ids are any distinct numbers (the counter is shared by all graphs); `repr` of a
  character is CPython's, for any notion of printable; recursion is cut off at an arbitrary limit, which the theorems take
  to be greater than the length of the words; generators are run to the end; `clone`, `__hash__`, `__eq__` and the
  demo are not modelled.
* dawg-orig.py: as for DAWG; the hash of a string is any function, and the dictionary whose keys are nodes is an
  association list with stored hashes, looked up as CPython does; printing and `display` are not modelled.  A dictionary file
  is the list of its words.
* deep_sizeof: an object is a record of what the function asks of it (`pyobj`); the graph is fixed, so an attribute computed anew
  at each access is one object per place, and an `id` is not reused by another object during the run (the code does not keep
  objects alive once they are counted).  Reading `nbytes`, `__dict__` or slots and iterating does not raise.
* Unicode normalization (C123): `unicodedata.normalize` is modelled from the Unicode Standard over an arbitrary character database;
  `sound` lists the four facts used of it, which hold for all characters of Unicode 14 (checked with Python's tables, not in Coq).
  `excerpt` copies 14 rows of the real database and satisfies `sound` (proved).  Elsewhere `casefold` and normalizers are arbitrary.
`WordSet.__repr__` asks which object the normalizer is; the model is given that as an argument (`nz_kind`), with the `__name__` or `repr` of any other object as a free text.
`DAWG.step` changes its list in place; the model returns the list after the call with a flag for None.
`DAWGNode.clone` copies a dict item by item; the model takes the copy as the dict itself, with the same items in the same order.
* Other than for dawg-orig.py, nothing here models hash collisions, threads, memory, or (other than for DAWG and V3) recursion limits.
* `check_correct_emd_1d`: the `isinstance` checks are taken to pass (lists of floats), `math.isclose` is modelled for
  finite numbers, and the literal `1e-9` is the rounded number `nano`.

## Per property: what is modelled and how it is proved

* C01 `emd_1d_dp` is transliterated with its two row buffers, swap and indexing; refined to a structural recursion;
  optimality against partial matchings by induction (upper bound: every table value is realized by a matching; lower
  bound: uncrossing exchange argument on sorted lists).
* C02, C03, C04 follow from C01 through the matching specification (composition of matchings for the triangle).
* C05 the same model instantiated with any lawful rounding; monotonicity induction over the table; `rnd64` is shown lawful.
* C06 `emd_1d_slow` modelled through `itertools.combinations`; minimum over sub-lists of sorted matchings compared with
  the matching specification restricted to maximal matchings.
* C07, C08 `emd_1d_hybrid`, `emd_1d_old` modelled function by function; each simplification stage (common points,
  components, greedy ends, forced single points) is shown to preserve the optimal cost.
* C09-C18 `ngram_movers_distance` modelled with its argument checks; per-gram sums as a fold over the location dict;
  the metric properties lifted from C02 gram by gram; separation by reconstructing the word from (gram, position).
* C19-C29 `ApproxWordListV6`/`V5`: state record with vocabulary, per-word data and inverted index; an index invariant preserved by
  every operation; lookup proved equal to a specification that scores every vocabulary word; pruning proved lossless.
* C30-C36 `WordSet`: state machine with histories as lists of operations, refinement to an abstract ordered map;
  `min_similarity` refuted with a witness.
* C37, C51 bow: the assignment solver is an oracle with its documented specification (every row and column at most once,
  as many pairs as fit, least total); `brute_solver` shows the specification can be met.  scipy minimises in floats, so the
  least total is an idealisation; the range theorem C51 only uses validity of the assignment.
* C38, C39, C52, C53 `Trie`: histories as lists of operations against a specification of a dict from token lists; the
  invariant is unique children, no dead branch, and `length` equal to the number of keys.
* C40, C41, C55 scanning: the loop of `_translate_tokens` and `finditer` with its dicts of pending nodes and spans, the
  token buffer and the "minimum pending index" logic is transliterated; the loop invariant says which keys are pending and
  which matches recorded, and the output so far is the leftmost-longest rewriting of the text before the first pending index.
  The specification (`rewritten`, `scanned`, `occurs` in TrieSpec) mentions only the dict of keys and the text.
* C54 `findall_longest`: clusters of overlapping matches and the bisect-based dynamic program, proved optimal for the
  number of tokens covered.
* C43, C44 edit distances: the row loops, with their negative-index trick, are transliterated and every cell proved to be
  the least cost of a script for the two prefixes; least script cost is then shown equal to the least number of
  one-element edits made one after the other (`least_steps`), from which the metric properties follow.  That the
  Damerau variant is neither the unrestricted distance nor a metric is shown by witnesses.
* C42, C56 the two lookups: rows are proved to hold the distances of the prefixes of the word to the current path (in place
  or with the first cell moved to the end), the walk is run in step with the enumeration of `items()`, and cutting a branch
  is justified by a script for an extension containing one for the branch.  The two loops are related by simulation, for
  all costs.  Costs are exact numbers; the check that the tokenizer splits into characters is a boolean argument.
* C45 BK-tree: every build by inserts keeps the distance invariant of child buckets; pruning is lossless by the triangle
  inequality.
* C46 automata: `to_dfa` with its dict of frozen sets, counter and frontier is transliterated; the invariant says which
  transitions of which subset are entered so far; at most 2^n subsets bound the loop.  `reaches`/`path` give the language
  by paths.  State (i, d) of the Levenshtein automaton is reached by s exactly if a script of cost d turns the first i
  characters of the word into s.
* C57 the stack of `next_valid_string`: each entry stands for the strings above a bound below a path, entries nearer the
  top for the smaller strings; a live state is followed down without backtracking.
* C58 the loop alternates between automaton and `bisect_left`; the entries below the candidate are exhausted.
* C47 each of the four loops by an invariant over the prefix read; the conditions on tokens (`tokenized`) and the rule for
  merging (`merged`) are shown to have one solution, which the loops produce.
* C59, C60 the sentence loop: its flag holds exactly after closing punctuation and closers (`shut`); splitting, stripping and
  `zip` of shifted lists by induction.
* C47 tokenizer: character classification is a parameter.
* C61-C64 `ApproxWordListV3`: `add_word` is run in step with the one of V6 (`add_as6`), so the index invariant carries over;
  the accumulation of scores per word (`matches3`) is proved to be a sum over shared n-grams by induction over events.
* C65 by induction on the recursion limit.
* C66, C67 the C code is run in a monad of memory states; the invariant names the four live blocks and their contents, and the
  row loop is shown to compute the rows of the model of `emd_1d_dp`.
* C68-C71 DAWG: the invariant of construction (`built`) gives every live node a prefix, says that its edges spell the
  continuations of that prefix, that the stack is the path of the last word, and that checked nodes have no two equal sets of
  continuations.  For this the text of a node must determine its edges: `repr` is shown to be uniquely readable
  (`repr_free`).  `finalize` is shown to fill in the numbers of words; minimality is the Myhill-Nerode argument.
* C72 the nodes reachable when `finalize` is called are never changed in what `index` reads of them (`late`).
* C73, C74, C76 `extended_edit_distance`: each row is described cell by cell (`next_of`, `first_least`, `round`); for any lawful
  rounding a cell is 0 only on the diagonal of equal prefixes, and the visit counts of a string against itself are computed.
* C75 rows hold the least cost of an alignment (`aligned` in EedSpec: insertions, deletions, substitutions and jumps after
  white space of the reference), by induction over rows with the jump taken at most once per row.
* C77-C80 `ApproxWordListV5b`: its `add_word` is run in step with the one of V5 (with the folding done beforehand), so the
  index invariant carries over; both passes of lookup are proved to compute sums over shared n-grams (`vec`), each full
  score lies between its bound and twice its bound also after rounding (a rounding commuting with doubling), and the top
  `k` by a stable sort are unaffected by removing entries below the threshold (`cut_best`).
* C81-C84: one rounding has relative error at most 2^-53 (`rnd64_accurate`); errors of sums of non-negative terms and of
  minima are followed as factors (1-u)^k and (1+u)^k (`near`).  For n >= 2 a shared n-gram is never at opposite ends of two
  words (the start marker is only in the first), so the exact score exceeds the lower bound used for pruning by a factor
  1+1/W, far more than all rounding errors (`separated_accurate`).  The exact similarity is a fraction with denominator at
  most W^2, so another word's score is below 1 by at least 1/W^3 (`score_below`).
* C85-C89 `to_regex`: the text built by the stack loop is shown to be the printed form of a tree of characters, groups, sets and
  optional parts; each of the five textual rules is shown, by running the matcher of `re.sub` over the printed form, to be a
  transformation of that tree (two of them never apply); the printed tree is parsed back by the model of `re.compile`.  The
  language of the tree is the set of keys, preserved by the rules; ways to match come in order of decreasing length because
  alternatives start with different characters; the loop on `\s\s` finds nothing under the stated
  conditions (besides two white space characters, only a backslash, an `s` and white space next to each other can make one).
* C90-C93 `process_file`: the calls to the operating system form a tree of actions with continuations for success and
  failure (`prog`); a small-step semantics adds refusals and short writes.  An invariant (`always`) is shown for the tree
  once and transferred to all reachable states and to the failure-free execution; the text written is that of the
  translation theorem of the trie, UTF-8 decoding being inverse to encoding.
* C94, C95 the formatting loops are followed with rounded divisions; a parser for decimal numbers reads the text back.
* C96 the branches of the hybrid are followed with an absolute error: a greedy step on nearly equal sums may match the wrong
  point, but then the right one is as good up to the error (`head_match_t`), so every state of the loop keeps "distance
  collected plus true distance of the rest" within the budget (`inv`).
* C97 from the bounds of C81 and C96: all results are within the tolerance of each other.
* C98 an edit leaves all but n (transposition: n+1) n-grams of each word in place up to a shift; matching the kept ones costs
  at most 1 in all for an insertion, which moves positions, and nothing otherwise (`replace_bound`); triangle inequality.
* C99 the dictionaries of positions of the replaced words are those of the words with replaced keys, in the same order.
* C100 reversal maps n-grams to n-grams read backwards with exchanged markers, and positions q to 1-q (to 0 for a single
  n-gram, which can be shared only by words that both are one n-gram); the earth mover's distance is unchanged by reflection.
* C101 on the specification: optimal matchings are carried over.
* C102-C104 lock-step with the model of dawg.py (`rel`): the two node texts identify the same nodes although one of them
  depends on the order of insertion of the edges, since edges come in ascending order; the counts are followed separately
  (`num_reachable_spec`) and the finished graph is presented as a finalized one (`stands`), so that C69 and C71 carry over.
* C105 from C102 and C103.
* C106 `ieee64` is shown to round to the nearest double.  It agrees with `rnd64` on multiples of 2^-1074, to which sums and
  differences of doubles belong, and from 2^-1022 on, where the quotients that occur lie; both are kept as invariants of the
  loops.  The lookups of the word lists follow in C111.
* C107 the counted objects and the stack never overlap, contain the argument and everything counted objects refer to; when the
  stack is empty they are the reachable ones.  Each round counts one object more.
* C108 removing a key filters the list of paths (`remove_paths`); the loop of `del` over the selected items, each of which is
  still there when its turn comes.
* C109 by induction over the keys; from C41 for `Match` (its attributes are those of the triple used there; `repr` is left out).
* C110 from C96 and C97; a combination of a sample is a part of it.
* C111 the counting and matching loops are runs of events on one entry of one list each; two runs agree when the events agree on
  the values that occur.  Those are multiples of 2^-105 up to about 2^32; the normalized scores of 2^-210 and the means of 2^-315.
  The consequences are C28, C83 and C84 carried over.
* C112 from C87: among words none of which occurs in another, an occurrence of a chosen word in the joined text is that word;
  the word list of the test is such a list because its two halves use different characters and one length each.
* C113 from C30 and C50; `^=` by induction over the other set's words, each toggled once because their normal forms differ.
* C114 the unnormalized distance obeys the triangle inequality (C13) and is at least the difference of the n-gram counts; the
  bound for the quotients follows by arithmetic.  For bags the two optimal pairings are composed to a pairing of the outer bags.
  That 3/2 is best: two words of one letter each and a word in which m blocks of m of each alternate; m grows.
* C115 from C22: both results are the best of their candidates; two such selections are compared place by place.
* C116 the costs by C82, the sums by induction; a pairing that is optimal for the rounded costs is nearly optimal for the true
  ones.  `rnd64` has an unbounded exponent; C106 says that this makes no difference.
* C117 the error of a rounded addition of doubles is a double and the corrections are computed exactly (`fast_two_sum`), so the
  result is the rounded sum of the rounded total and the collected errors; two summands leave an error below half a unit.
* C118 the compensated sum is one rounding of a value within half a unit, so the mean is as accurate as C83 and C84 need;
  doubling commutes with it, and sums of whole numbers are exact.  C83's lemmas take the mean as a parameter.
* C119 the running total never exceeds the number of shared n-grams and each distance has the error bound of C83, so the errors add up
  to `wscore_acc`; true scores of other words stay further below 1 than that (`wscore_margin`).  All values in between are
  zero or large enough not to underflow (`wscore_double`).
* C120 `find_similar` is a prefix of one stable ranking (`full`); adding inserts into it (`isort_snoc`), discarding filters it
  (`isort_filter`).
* C121 both are the best entries of one candidate list under one score (`wscore_public`, `best_values`).
* C122 from C42, C45 and C58: each result is described by the same distance.
* C123 a mark is moved past marks only, so stripping works character by character (`strip_bare`); canonical ordering is decided by
  swaps of neighbours (`reorder_eq`), which folding respects if it leaves marks alone (`nfd_casefold`).
* C124 every call either moves to a later entry or reports the entry it is at (`ahead` falls with each call, `loop_probes`); for the
  BK-tree by induction over the tree.
* C125 both graphs have one node for every different set of continuations (the minimality theorem of each), so the counts are lengths of
  permuted lists; the trie is an automaton for the same words, so minimality bounds its nodes from below.
* C126 loop invariant: what was counted is a list without repetitions, with sum the total, and the rest is below the nodes on the stack
  (`loop_spec`); a node exists iff some key goes through it, so equal contents give equal nodes (`nbytes_order`).
* C127 induction over the leftmost-longest rewriting of the first part (`rewritten_pieces`, `scanned_pieces`); the longest key at a position
  stays the longest when text is added behind, because a longer one would go across the cut.
* C128 the result is the `k` best candidates by a value that depends on the settings, the query and the word only (`v5b_best`), and the best
  of more candidates dominate place by place (`best_dominates` from C115). The result must be for a query that is not empty and `sane`.
* C129 one edit moves the distance by at most 2n, a transposition by at most 2n+2 (C98), so a small number of edits leaves a positive similarity, hence a shared n-gram, hence
  a candidate; C22, C33 and C83 say that candidates are only left out for better ones.
* C130 the text is taken apart again: the tuple ends at the first closing bracket, numbers end at the first character that is no digit, the
  size is read from the end.
* C131 `follow` with the list agrees with `walk` of DawgModel, of which `walk_spec` is known; a failed step sums the leaf counts of all edges.
  In an ascending list the smaller words come first and those that begin with p follow (`sorted_blocks`).
* C132 equal texts have equal edges (`node_str_inj`), hence equal languages; the languages of minimized nodes differ, and the root has a
  longer word than any of them.

Not modelled: docstrings, printing, file IO and gzip loading of word lists, benchmarks and plotting scripts, the Cython
build, timing, memory use, float inf/nan, strings containing surrogates.
