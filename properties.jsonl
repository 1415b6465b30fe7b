{"id": "C01", "title": "emd_1d_dp is the optimal partial matching", "statement": "emd_1d_dp(xs, ys) never raises and returns exactly the minimum, over all ways of pairing some points of xs with distinct points of ys, of the summed |x-y| of the pairs plus 1 for every unpaired point (exact arithmetic).", "quantifier": "all finite lists of (rational) positions, of any lengths, in any order, with duplicates, inside or outside [0,1]", "why_tests_cant": "minimality ranges over exponentially many matchings of unboundedly many inputs", "anchors": ["nmd/emd_1d.py:emd_1d_dp"]}
{"id": "C02", "title": "emd_1d_dp is a metric on multisets of points", "statement": "emd_1d_dp is symmetric, is 0 exactly when the two arguments are the same multiset, and satisfies the triangle inequality (the docstring of emd_1d_old promises this).", "quantifier": "all triples of finite lists of positions", "why_tests_cant": "triangle inequality and identity of indiscernibles are universally quantified over triples of inputs", "anchors": ["nmd/emd_1d.py:emd_1d_dp", "nmd/emd_1d.py:emd_1d_old docstring"]}
{"id": "C03", "title": "emd_1d_dp depends only on the multisets", "statement": "Reordering either argument never changes the result of emd_1d_dp.", "quantifier": "all lists and all permutations of them", "why_tests_cant": "n! reorderings of arbitrary inputs", "anchors": ["nmd/emd_1d.py:emd_1d_dp"]}
{"id": "C04", "title": "emd_1d_dp bounds", "statement": "| len(xs)-len(ys) | <= emd_1d_dp(xs,ys) <= len(xs)+len(ys); when all positions are within [0,1] it is at most max(len(xs),len(ys)).", "quantifier": "all finite lists of positions", "why_tests_cant": "bound over an infinite input space", "anchors": ["nmd/emd_1d.py:emd_1d_dp"]}
{"id": "C05", "title": "emd_1d_dp is robust under floating point rounding", "statement": "With every +,-,/ rounded to binary64 (round to nearest even), emd_1d_dp is still >= 0, still <= len(xs)+len(ys), still exactly 0 on equal multisets, still at most max of the lengths for positions in [0,1], and still exactly (bit for bit) symmetric.", "quantifier": "all lists of positions and every monotone, sign-symmetric rounding that is exact on small integers, binary64 being one", "why_tests_cant": "rounding behaviour over all inputs cannot be sampled", "anchors": ["nmd/emd_1d.py:emd_1d_dp"]}
{"id": "C06", "title": "emd_1d_slow agrees with emd_1d_dp", "statement": "When no x is farther than 1 from any y (in particular on [0,1]), emd_1d_slow returns the same number as emd_1d_dp; outside this domain it is the best matching of the whole shorter list capped by the length of the longer, and the two can differ.", "quantifier": "all finite lists of positions with pairwise distance at most 1 (agreement); all lists (meaning)", "why_tests_cant": "emd_1d_slow enumerates exponentially many combinations; tests only sample tiny lists", "anchors": ["nmd/emd_1d.py:emd_1d_slow"]}
{"id": "C07", "title": "emd_1d_hybrid agrees with emd_1d_dp", "statement": "For positions within [0,1], emd_1d_hybrid (duplicate removal, connected components, greedy ends, DP fallback) returns the same number as emd_1d_dp and never raises.", "quantifier": "all finite lists of positions within [0,1]", "why_tests_cant": "the test-suite compares them on a handful of lists only", "anchors": ["nmd/emd_1d.py:emd_1d_hybrid", "tests/test_emd_correctness.py:check_emd_implementations"]}
{"id": "C08", "title": "emd_1d_old agrees with emd_1d_dp", "statement": "For positions within [0,1], emd_1d_old returns the same number as emd_1d_dp and never raises.", "quantifier": "all finite lists of positions within [0,1]", "why_tests_cant": "the test-suite compares them on a handful of lists only", "anchors": ["nmd/emd_1d.py:emd_1d_old", "tests/test_emd_correctness.py:check_emd_implementations"]}
{"id": "C09", "title": "ngram_movers_distance input contract", "statement": "ngram_movers_distance raises TypeError exactly when a word is not a str or n is not an int, ValueError exactly when a str word contains \\2 or \\3 or n < 2 (checked in the documented order), ZeroDivisionError exactly when normalize is set and the two n-gram counts sum to zero, and otherwise returns a number.", "quantifier": "all python arguments (any type), all strings, all integers n, all flags", "why_tests_cant": "the argument space is infinite and the ZeroDivisionError corner depends on lengths and n", "anchors": ["nmd/nmd_core.py:ngram_movers_distance"]}
{"id": "C10", "title": "ngram_movers_distance is the sum of per-n-gram EMDs", "statement": "The distance equals the documented equation: the sum over every n-gram occurring in either word of the 1-d EMD between its normalized positions in the two words.", "quantifier": "all words and every n >= 2 not longer than the padded words", "why_tests_cant": "the code computes it indirectly through similarity; equality must hold for every pair of words", "anchors": ["nmd/nmd_core.py:ngram_movers_distance"]}
{"id": "C11", "title": "ngram_movers_distance is symmetric", "statement": "Swapping the two words never changes the result, for every n, invert and normalize (including which exception is raised), in exact arithmetic.", "quantifier": "all pairs of words, n, flags", "why_tests_cant": "infinite input space; dict iteration order differs between the two calls", "anchors": ["nmd/nmd_core.py:ngram_movers_distance"]}
{"id": "C12", "title": "ngram_movers_distance separates words", "statement": "The distance of a word to itself is 0 and, when both padded words are at least n long, distance 0 implies the words are equal.", "quantifier": "all pairs of words and all n <= len+2", "why_tests_cant": "needs an injectivity argument over all words", "anchors": ["nmd/nmd_core.py:ngram_movers_distance"]}
{"id": "C13", "title": "ngram_movers_distance satisfies the triangle inequality", "statement": "d(a,c) <= d(a,b) + d(b,c) for the un-normalized distance.", "quantifier": "all triples of words and every n not longer than the padded words", "why_tests_cant": "quantifies over triples of words", "anchors": ["nmd/nmd_core.py:ngram_movers_distance"]}
{"id": "C14", "title": "ngram_movers_distance ranges", "statement": "Distance and similarity lie in [0, N1+N2] (N = number of n-grams), the normalized ones in [0,1]; the distance is maximal exactly when the words share no n-gram, and 0 exactly when they are equal.", "quantifier": "all pairs of words with len+2 >= n", "why_tests_cant": "README promises the range for every input", "anchors": ["nmd/nmd_core.py:ngram_movers_distance", "README.md"]}
{"id": "C15", "title": "distance and similarity are complements", "statement": "distance + similarity == N1 + N2, and normalized distance + normalized similarity == 1.", "quantifier": "all pairs of words, all n for which the call returns", "why_tests_cant": "identity over all inputs", "anchors": ["nmd/nmd_core.py:ngram_movers_distance"]}
{"id": "C16", "title": "similarity is pinched by shared n-gram counts", "statement": "Let m be the sum over shared n-grams of min(count1,count2). Then m <= similarity <= 2m. (The index prunes candidates relying on exactly this.)", "quantifier": "all pairs of words and n", "why_tests_cant": "pruning correctness for every dictionary depends on it", "anchors": ["nmd/nmd_core.py:ngram_movers_distance", "nmd/nmd_index.py:__lookup_similarity"]}
{"id": "C17", "title": "n longer than the padded word", "statement": "For n > len(word)+2 the distance ought still to be non-negative and 0 for identical words (refuted by the code: it returns negative numbers, and normalized distance 1.0 for identical words).", "quantifier": "all words and n > len+2", "why_tests_cant": "corner of the input space that tests do not visit", "anchors": ["nmd/nmd_core.py:ngram_movers_distance"]}
{"id": "C18", "title": "ngram_movers_distance under binary64", "statement": "With all arithmetic rounded to binary64, distance and similarity still lie in [0,N1+N2] (normalized: in [0,1]) and d(w,w) is exactly 0.", "quantifier": "all words and n with fewer than 2^52 n-grams", "why_tests_cant": "rounding errors accumulate over arbitrarily long sums", "anchors": ["nmd/nmd_core.py:ngram_movers_distance"]}
{"id": "C19", "title": "WordList vocabulary", "statement": "After any sequence of add_word calls, vocabulary is the sorted list, without duplicates, of the casefolded (or verbatim, if case sensitive) accepted words, independent of call order and repetition.", "quantifier": "all histories of add_word calls including rejected ones", "why_tests_cant": "histories are unbounded", "anchors": ["nmd/nmd_index.py:ApproxWordListV6.add_word", "nmd/nmd_index.py:ApproxWordListV6.vocabulary"]}
{"id": "C20", "title": "rejected add_word calls have no effect", "statement": "If add_word raises (TypeError, ValueError for an empty word, AssertionError for \\2/\\3), every later observation is the same as if the call had not been made; adding a present word also changes nothing.", "quantifier": "all histories and all rejected inputs", "why_tests_cant": "needs all histories", "anchors": ["nmd/nmd_index.py:ApproxWordListV6.add_word"]}
{"id": "C21", "title": "WordList scores are the public similarity", "statement": "Every (word, (score, s2)) returned by WordList.lookup has score = mean over the configured n of the (optionally normalized) n-gram mover's similarity of query and word as computed by ngram_movers_distance(..., n, invert=True), and s2 = the same for n=2.", "quantifier": "all vocabularies (any history), queries, n-lists with every n >= 2, top_k", "why_tests_cant": "ties together an inverted index and a pairwise function over all histories", "anchors": ["nmd/nmd_index.py:ApproxWordListV6.lookup", "nmd/nmd_index.py:ApproxWordListV6.__lookup_similarity"]}
{"id": "C22", "title": "WordList lookup loses nothing by pruning", "statement": "Every vocabulary word that passes the filter and shares an n-gram with the query but is missing from the result of lookup(word, top_k) has a score no greater than every returned score; fewer than top_k results are returned only if there are fewer candidates.", "quantifier": "all vocabularies, queries, top_k, filter settings, normalize flag", "why_tests_cant": "the two-stage min/max pruning must be lossless for every dictionary", "anchors": ["nmd/nmd_index.py:ApproxWordListV6.__lookup_similarity"]}
{"id": "C23", "title": "WordList lookup result shape", "statement": "lookup returns at most top_k entries, all in the vocabulary, without repetition, in non-increasing order of (score, 2-gram similarity).", "quantifier": "all vocabularies, queries and top_k >= 1", "why_tests_cant": "all histories", "anchors": ["nmd/nmd_index.py:ApproxWordListV6.lookup"]}
{"id": "C24", "title": "WordList filter semantics", "statement": "With filter_n = 0 the candidates are exactly the vocabulary words sharing an n-gram with the query; with filter_n > 0 exactly those which also share a filter_n-gram. Every candidate has a positive score and every non-candidate is never returned.", "quantifier": "all vocabularies, queries, filter_n", "why_tests_cant": "all histories", "anchors": ["nmd/nmd_index.py:ApproxWordListV6.__lookup_similarity"]}
{"id": "C25", "title": "WordList exact match wins", "statement": "If the query is in the vocabulary then no word has a higher score; with normalize=True it is the unique best and is returned first. (Without normalize ties are possible and another word can be returned instead: refuted.)", "quantifier": "all vocabularies and in-vocabulary queries, n-lists with every n between 2 and len+2", "why_tests_cant": "requires strictness over all other words", "anchors": ["nmd/nmd_index.py:ApproxWordListV6.lookup"]}
{"id": "C26", "title": "WordList lookup totality", "statement": "lookup with acceptable arguments (non-empty string free of markers after folding, positive integer top_k) returns [] if no word is a candidate; raises ZeroDivisionError if some word is and the query has exactly one n-gram for some configured n; otherwise returns normally unless normalize is set and some candidate's n-gram count plus the query's is zero, and never raises anything else. When top_k covers the vocabulary this is an exact characterization. Plain totality is refuted (any two-letter query with the default n=(2,4)), and so is that the error does not depend on top_k.", "quantifier": "all vocabularies, queries, top_k and flags", "why_tests_cant": "data dependent crash", "anchors": ["nmd/nmd_index.py:ApproxWordListV6.lookup", "nmd/nmd_index.py:ApproxWordListV6.__lookup_similarity"]}
{"id": "C27", "title": "WordList results do not depend on hash seeds", "statement": "The set iteration orders used while building and querying (hash randomization) never influence the vocabulary or any lookup result.", "quantifier": "all iteration orders of every set used, all histories and queries", "why_tests_cant": "PYTHONHASHSEED space times histories", "anchors": ["nmd/nmd_index.py:ApproxWordListV6.add_word", "nmd/nmd_index.py:ApproxWordListV6.__lookup_similarity"]}
{"id": "C28", "title": "normalized scores lie in [0,1]", "statement": "With normalize=True every score returned by WordList.lookup is in [0,1], and a query that is itself indexed scores 1 (refuted when 1 is one of the n-gram sizes, where self-similarity is below 1).", "quantifier": "all vocabularies, queries, n-lists", "why_tests_cant": "all inputs", "anchors": ["nmd/nmd_index.py:num_grams", "nmd/nmd_index.py:get_n_grams", "nmd/nmd_index.py:ApproxWordListV6.lookup"]}
{"id": "C29", "title": "ApproxWordListV5 lookup", "statement": "V5.lookup returns the top 2*top_k candidates by score in non-increasing score order with the same scores as WordList; invert=False returns (1 if normalize else 0) - score, largest first.", "quantifier": "all vocabularies, queries, top_k, flags", "why_tests_cant": "all histories", "anchors": ["nmd/nmd_index.py:ApproxWordListV5.lookup"]}
{"id": "C30", "title": "WordSet is a set of normalized words", "statement": "Any history of add/discard/remove/clear/pop behaves like a finite map from normalized word to the first original spelling added since it was last absent: in, len, iteration order and exceptions (TypeError, ValueError, KeyError) agree with that map.", "quantifier": "all histories of operations, every normalizer function (total or raising)", "why_tests_cant": "unbounded histories", "anchors": ["nmd/nmd_word_set.py:WordSet"]}
{"id": "C31", "title": "WordSet failed operations have no effect", "statement": "An operation that raises leaves the set and all later query results unchanged.", "quantifier": "all histories and failing inputs", "why_tests_cant": "unbounded histories", "anchors": ["nmd/nmd_word_set.py:WordSet.add", "nmd/nmd_word_set.py:WordSet.remove"]}
{"id": "C32", "title": "WordSet index stays consistent", "statement": "After any history the filter index lists, for each filter n-gram, exactly the ids of the present words containing it, with no empty entries, so that find_similar never raises KeyError.", "quantifier": "all histories", "why_tests_cant": "deletions interleaved with insertions over unbounded histories", "anchors": ["nmd/nmd_word_set.py:WordSet.add", "nmd/nmd_word_set.py:WordSet.discard", "nmd/nmd_word_set.py:WordSet.find_similar"]}
{"id": "C33", "title": "find_similar returns the k best candidates", "statement": "find_similar(q,k) returns min(k, #candidates) distinct present words in non-increasing score order, ties in insertion order; each score is the combined n-gram similarity divided by the total number of n-grams, lies in [0,1], and no omitted candidate scores higher than a returned one.", "quantifier": "all histories, queries, k", "why_tests_cant": "all histories", "anchors": ["nmd/nmd_word_set.py:WordSet.find_similar"]}
{"id": "C34", "title": "find_similar finds exact members first", "statement": "If the normalized query is in the set and is long enough for the filter, the first result is that word with score exactly 1, and all other results score strictly less.", "quantifier": "all histories and member queries", "why_tests_cant": "strictness against all other words", "anchors": ["nmd/nmd_word_set.py:WordSet.find_similar"]}
{"id": "C35", "title": "min_similarity is ignored", "statement": "A valid min_similarity never changes the result of find_similar, so results below the threshold are returned (that every result of find_similar(q, min_similarity=t) scores at least t is refuted).", "quantifier": "all histories, queries and thresholds", "why_tests_cant": "universally quantified", "anchors": ["nmd/nmd_word_set.py:WordSet.find_similar"]}
{"id": "C36", "title": "WordSet removal is complete", "statement": "After discarding a word, every query answers exactly as if the word had never been added (up to internal ids).", "quantifier": "all histories", "why_tests_cant": "unbounded histories", "anchors": ["nmd/nmd_word_set.py:WordSet.discard"]}
{"id": "C37", "title": "bow distance is an optimal assignment", "statement": "bow_ngram_movers_distance returns |len1-len2| plus the minimum total normalized n-gram distance over all one-to-one assignments of the smaller bag into the larger; it is symmetric, invariant under reordering either bag, 0 for permuted bags (n=2), at most max(len1,len2), complementary to the inverted result, and raises ZeroDivisionError only for normalize with two empty bags.", "quantifier": "all bags of words, any assignment solver that returns an optimal assignment", "why_tests_cant": "minimum over all assignments, all inputs", "anchors": ["nmd/nmd_bow.py:bow_ngram_movers_distance"]}
{"id": "C38", "title": "Trie behaves like a dict", "statement": "Any history of item assignment, setdefault, pop/del and lookups on a Trie behaves like a dict from token sequences to values (membership, values, KeyError); items() enumerates each non-empty key once.", "quantifier": "all histories, all keys", "why_tests_cant": "unbounded histories", "anchors": ["experiments/find_replace_trie.py:Trie.__setitem__", "experiments/find_replace_trie.py:Trie.pop", "experiments/find_replace_trie.py:Trie.items"]}
{"id": "C39", "title": "Trie length and pruning", "statement": "After any history len(trie) is the number of keys and no dead branch remains (every leaf carries a value). (Refuted for the empty key: len() fails its own assertion.)", "quantifier": "all histories", "why_tests_cant": "unbounded histories", "anchors": ["experiments/find_replace_trie.py:Trie.__len__", "experiments/find_replace_trie.py:Trie.pop"]}
{"id": "C40", "title": "Trie.translate is leftmost-longest replacement", "statement": "translate(text) equals scanning left to right, replacing at each position the longest key that starts there and copying the token otherwise.", "quantifier": "all tries, all texts", "why_tests_cant": "streaming algorithm with pending partial matches over unbounded text", "anchors": ["experiments/find_replace_trie.py:Trie._translate_tokens"]}
{"id": "C41", "title": "Trie.finditer", "statement": "finditer without overlap yields exactly the leftmost-longest matches with correct spans; with allow_overlapping it yields every occurrence of every key exactly once.", "quantifier": "all tries, all texts", "why_tests_cant": "unbounded texts", "anchors": ["experiments/find_replace_trie.py:Trie.finditer"]}
{"id": "C42", "title": "Trie.levenshtein_lookup is exact", "statement": "levenshtein_lookup(word, k) yields exactly the non-empty keys that can be made from the word by edits of total cost at most k, each once, in the order of items(). With the default costs these are the keys with edit_distance at most k. If a transposition is cheaper than both an insertion and a substitution a key can be missed.", "quantifier": "all tries and histories, words, k and non-negative costs with transposition not cheaper than both insertion and substitution; a witness for the negative claim", "why_tests_cant": "branch pruning must never lose a key", "anchors": ["experiments/find_replace_trie.py:Trie.levenshtein_lookup"]}
{"id": "C43", "title": "edit_distance is the Levenshtein metric", "statement": "edit_distance and automata.levenshtein always return, and both return the minimum number of single-character insertions, deletions and substitutions turning one sequence into the other. This number is a metric, lies between the difference of the lengths and the greater length, and a script of that cost exists.", "quantifier": "all pairs (triples) of sequences over any alphabet, empty ones included", "why_tests_cant": "minimum over all edit scripts", "anchors": ["experiments/edit_distance.py:edit_distance", "experiments/automata.py:levenshtein"]}
{"id": "C44", "title": "damerau_levenshtein_distance", "statement": "damerau_levenshtein_distance returns the optimal string alignment distance (adjacent transpositions, no substring edited twice), for all sequences including empty ones. It is symmetric, zero exactly on equal sequences, at most edit_distance and at least half of it. It is not the unrestricted Damerau-Levenshtein distance and it breaks the triangle inequality.", "quantifier": "all pairs of sequences; witnesses for the two negative claims", "why_tests_cant": "negative index tricks over all lengths", "anchors": ["experiments/edit_distance.py:damerau_levenshtein_distance"]}
{"id": "C45", "title": "BK-tree search is exact", "statement": "After any sequence of inserts, BKNode.search(term,k) returns exactly the inserted words (and root) within edit distance k.", "quantifier": "all insertion sequences, terms, k", "why_tests_cant": "pruning relies on the triangle inequality for all words", "anchors": ["experiments/automata.py:BKNode"]}
{"id": "C46", "title": "Levenshtein automaton", "statement": "levenshtein_automaton(word,k).to_dfa() accepts exactly the non-empty strings within edit distance k of word. In general NFA.to_dfa terminates, whatever the order in which sets are iterated, with a DFA that accepts exactly the strings of the NFA's language that do not lead back to the set of start states; those (the empty string among them) are lost, because the start state is never made final (refuted: to_dfa preserves the language).", "quantifier": "all words, k, strings; all NFAs built by add_transition and add_final_state; all iteration orders", "why_tests_cant": "language equality is over infinitely many strings", "anchors": ["experiments/automata.py:levenshtein_automaton", "experiments/automata.py:NFA.to_dfa"]}
{"id": "C47", "title": "tokenizer is lossless", "statement": "Concatenating the strings yielded by unicode_tokenize (not words_only), with or without apostrophe merging, gives back the text; start positions are correct; word tokens are the maximal runs of text characters; its internal assertions never fail.", "quantifier": "all texts, every character classification", "why_tests_cant": "all texts", "anchors": ["experiments/tokenizer.py:unicode_tokenize", "experiments/tokenizer.py:_merge_apostrophes_into_words"]}
{"id": "C48", "title": "hybrid/old EMD in floating point", "statement": "emd_1d_hybrid and emd_1d_old computed in binary64 never raise, never return a negative number, give bit-identical results when the two arguments are exchanged or either list is reordered, and give exactly 0 for rearrangements of the same list, for positions anywhere on the line. (That 0 is returned only for rearrangements is refuted.)", "quantifier": "all finite lists of numbers with at most 2^53 points", "why_tests_cant": "roundings differ for every input; index arithmetic of the component scan must stay in range for every arrangement", "anchors": ["nmd/emd_1d.py:emd_1d_hybrid", "nmd/emd_1d.py:emd_1d_old"]}
{"id": "C49", "title": "WordSet construction", "statement": "WordSet(...) succeeds exactly for a bool flag, a normalizer that is None or callable, and one or more positive int sizes; the sizes are then kept sorted without repetition and the set is empty. Otherwise it raises TypeError, or ValueError for a single int that is not positive.", "quantifier": "all arguments", "why_tests_cant": "argument space is infinite", "anchors": ["nmd/nmd_word_set.py:WordSet.__init__"]}
{"id": "C50", "title": "WordSet comparison and in-place operators", "statement": "For two WordSets with the same flag and normalizer (any sizes), <=, == and isdisjoint compare the sets of normalized words and never raise, and |= and -= give the union and the difference. (For sets with different flags == is not symmetric: refuted.)", "quantifier": "all pairs of histories", "why_tests_cant": "all pairs of sets", "anchors": ["nmd/nmd_word_set.py:WordSet.__contains__", "nmd/nmd_word_set.py:WordSet.add", "nmd/nmd_word_set.py:WordSet.discard"]}
{"id": "C51", "title": "bow distance stays in range in floats", "statement": "For words long enough for n, bow_ngram_movers_distance never leaves [0, max(len1,len2)] ([0,1] normalized) in floating point, in either invert mode and for any valid assignment; the same words in another order give exactly 0 (normalized similarity exactly 1).", "quantifier": "all bags of comparable words, all n >= 2, both modes, any lawful rounding including binary64, any valid (optimal for the second part) solver", "why_tests_cant": "float rounding over unboundedly many words", "anchors": ["nmd/nmd_bow.py:bow_ngram_movers_distance"]}
{"id": "C52", "title": "Trie.sort_keys", "statement": "After any history, sort_keys() keeps every key and value, and items() then lists the keys in lexicographic order of their tokens. (sort_keys(ascending=False) does not list them in descending order: refuted.)", "quantifier": "all histories, all total token orders", "why_tests_cant": "all tries", "anchors": ["experiments/find_replace_trie.py:Trie.sort_keys", "experiments/find_replace_trie.py:Trie.items"]}
{"id": "C53", "title": "Trie slices", "statement": "On a character trie sorted with sort_keys(case_sensitive=False), trie[start:stop] gives the values of exactly the keys k with start <= k < stop, in ascending order. (On an unsorted trie, and after sort_keys() with its default arguments, keys in the range can be missing: refuted.)", "quantifier": "all histories, all start and stop", "why_tests_cant": "all tries and bounds", "anchors": ["experiments/find_replace_trie.py:Trie.__getitem__", "experiments/find_replace_trie.py:Trie._item_slice", "experiments/find_replace_trie.py:Trie.sort_keys"]}
{"id": "C54", "title": "Trie.findall_longest", "statement": "findall_longest(text) returns occurrences of keys that do not overlap, in increasing order of position, and no set of non-overlapping occurrences of keys covers more tokens of the text.", "quantifier": "all tries, all texts", "why_tests_cant": "optimum over exponentially many sets of occurrences", "anchors": ["experiments/find_replace_trie.py:Trie.findall_longest", "experiments/find_replace_trie.py:longest_increasing_subsequence"]}
{"id": "C55", "title": "Trie.search", "statement": "search(text) returns the first leftmost-longest match, and None exactly if no key occurs in the text.", "quantifier": "all tries, all texts", "why_tests_cant": "all texts", "anchors": ["experiments/find_replace_trie.py:Trie.search"]}
{"id": "C56", "title": "Trie.damerau_levenshtein_lookup", "statement": "damerau_levenshtein_lookup gives the same answers and errors as levenshtein_lookup for all arguments it accepts. With transposition_cost=1 it yields exactly the keys with damerau_levenshtein_distance at most k. With its default costs it can miss such a key. Both raise an AssertionError for an empty word, a negative distance or a negative cost.", "quantifier": "all tries, words, distances, costs; a witness for the negative claim", "why_tests_cant": "two different table layouts must agree on every trie", "anchors": ["experiments/find_replace_trie.py:Trie.damerau_levenshtein_lookup"]}
{"id": "C57", "title": "DFA.next_valid_string", "statement": "On the DFA of levenshtein_automaton(word,k), next_valid_string(s) returns the smallest (in the order of Python strings) non-empty string that is not smaller than s and within edit distance k of word, and None exactly if there is none.", "quantifier": "all words, k, and input strings without the last code point U+10FFFF; all iteration orders of sets", "why_tests_cant": "least element of an infinite set of strings", "anchors": ["experiments/automata.py:DFA.next_valid_string", "experiments/automata.py:DFA.find_next_edge"]}
{"id": "C58", "title": "find_all_matches", "statement": "find_all_matches(word, k, Matcher(entries)) on sorted entries yields, in ascending order and once each, exactly the non-empty entries within edit distance k of word. It can raise a ValueError if an entry contains U+10FFFF, and can miss matches if the entries are not sorted.", "quantifier": "all words, k, sorted lists of entries without U+10FFFF; witnesses for the negative claims", "why_tests_cant": "all dictionaries", "anchors": ["experiments/automata.py:find_all_matches", "experiments/automata.py:Matcher"]}
{"id": "C59", "title": "sentence splitting", "statement": "sentence_split_tokens never fails: each paragraph of the text, stripped, is cut into non-empty lists of its tokens right after every white space that follows closing punctuation with only closing quotes or brackets in between, and nowhere else. sentence_split yields non-empty stripped strings that together have all the characters of the text that are not white space, in order (outside the separators, if one is given). The start positions of the tokens are relative to the stripped paragraph, not to the text (refuted).", "quantifier": "all texts, character classifications, separators, with and without apostrophe merging", "why_tests_cant": "all texts", "anchors": ["experiments/tokenizer.py:sentence_split_tokens", "experiments/tokenizer.py:sentence_split"]}
{"id": "C60", "title": "n-grams of words and characters", "statement": "For n >= 2, word_n_grams yields, for each sentence (or for the whole text), every stretch of n successive words once, in order; for n < 2 it raises an AssertionError. text_n_grams lists for n >= 1 every substring of length n by position.", "quantifier": "all texts and n", "why_tests_cant": "all texts", "anchors": ["experiments/tokenizer.py:word_n_grams", "experiments/tokenizer.py:text_n_grams"]}
{"id": "C61", "title": "ApproxWordListV3.lookup: what is listed", "statement": "A lookup that returns lists, without repetition and by descending score, only words that were added and share an n-gram with the query, with their score and their n=2 similarity; at most top_k of them if top_k > 0; and a word sharing an n-gram that is missing from the list does not score more than any listed word (nothing is missing for top_k <= 0).", "quantifier": "all histories of add_word, all queries and top_k, all orders of iteration over sets, any lawful rounding including binary64", "why_tests_cant": "all word lists and queries", "anchors": ["nmd/nmd_index.py:ApproxWordListV3.lookup", "nmd/nmd_index.py:ApproxWordListV3.add_word"]}
{"id": "C62", "title": "ApproxWordListV3.lookup: when it raises", "statement": "lookup raises a TypeError for a non-string, a ValueError for '', an AssertionError for a word with start or end markers, a ZeroDivisionError if a size greater than 1 equals the length of the query plus 2, an IndexError if no added word shares an n-gram with the query, a ZeroDivisionError if there is such a word but a size equals the length of the query plus 3, and otherwise returns.", "quantifier": "all histories, all queries", "why_tests_cant": "all word lists, sizes and queries", "anchors": ["nmd/nmd_index.py:ApproxWordListV3.lookup"]}
{"id": "C63", "title": "ApproxWordListV3.lookup: scores", "statement": "Scores are in [0,1], also in floating point; if the query is itself in the list and all sizes are between 2 and its length plus 1, it scores exactly 1 and so does the first entry. (It need not be the first entry, nor be listed for a small top_k, and with size 1 it can score less than 1: refuted.)", "quantifier": "all histories and queries, any averaging function, any lawful rounding", "why_tests_cant": "all word lists and queries", "anchors": ["nmd/nmd_index.py:ApproxWordListV3.lookup"]}
{"id": "C64", "title": "ApproxWordListV3.add_word", "statement": "add_word returns exactly for a non-empty string whose case-folded form is non-empty and free of markers, otherwise it raises and changes nothing; a word that is already known changes nothing; and the order in which the sizes are visited never affects the result of a lookup.", "quantifier": "all histories, all arguments, all orders of iteration over sets", "why_tests_cant": "all histories", "anchors": ["nmd/nmd_index.py:ApproxWordListV3.add_word", "nmd/nmd_index.py:ApproxWordListV3.lookup"]}
{"id": "C65", "title": "ApproxWordListV3.vocabulary", "statement": "The vocabulary property never returns: it calls itself without end, so for every recursion limit it raises a RecursionError.", "quantifier": "all states, all recursion limits", "why_tests_cant": "the failure is independent of the recursion limit", "anchors": ["nmd/nmd_index.py:ApproxWordListV3.vocabulary"]}
{"id": "C66", "title": "emd_1d_dp_cython: memory", "statement": "emd_1d_dp_cython never reads or writes outside its buffers, never reads an uninitialised cell, never frees twice, and has freed all the memory it obtained whenever it returns or raises. It raises a MemoryError only if an allocation fails, and otherwise raises only for an element that is not a number.", "quantifier": "all arguments, all subsets of allocations failing, any rounding", "why_tests_cant": "undefined behaviour and leaks are invisible to tests; allocation failures cannot be provoked", "anchors": ["experiments/emd_1d_cython.pyx:emd_1d_dp_cython"]}
{"id": "C67", "title": "emd_1d_dp_cython: value", "statement": "For arguments that are doubles, emd_1d_dp_cython returns bit for bit the result of emd_1d_dp. (For integers that are not doubles it can differ: refuted.)", "quantifier": "all lists of doubles, any rounding; a witness for the negative claim", "why_tests_cant": "all pairs of lists", "anchors": ["experiments/emd_1d_cython.pyx:emd_1d_dp_cython", "nmd/emd_1d.py:emd_1d_dp"]}
{"id": "C68", "title": "DAWG.insert", "statement": "After any sequence of insert calls, refused ones included, insert(word) returns exactly if word is not empty and greater than every word accepted before; otherwise it raises an AssertionError. len() is the number of accepted words.", "quantifier": "all sequences of calls, all words", "why_tests_cant": "all histories", "anchors": ["experiments/dawg.py:DAWG.insert", "experiments/dawg.py:DAWG.__len__"]}
{"id": "C69", "title": "DAWG answers", "statement": "After finalize(), index(word) is the position of the word among the accepted words and -1 for any other string, lookup gives the data inserted with it or None, `in` tells membership, get_index is the inverse of index, and iteration and items() list the accepted words (with their data) in order. A second finalize changes nothing. Before finalize iterating works too, but index, lookup and `in` raise a TypeError for every non-empty word and get_index for every position.", "quantifier": "all sequences of insert calls, all queries, any characters", "why_tests_cant": "merging of equal nodes must never change the set of words, for all word lists", "anchors": ["experiments/dawg.py:DAWG.finalize", "experiments/dawg.py:DAWG.index", "experiments/dawg.py:DAWG.lookup", "experiments/dawg.py:DAWG.get_index", "experiments/dawg.py:DAWG.items", "experiments/dawg.py:DAWG.__iter__", "experiments/dawg.py:DAWG.__contains__"]}
{"id": "C70", "title": "DAWG.get_index out of range", "statement": "On a finalized graph get_index(k) raises an AssertionError for k >= len(), returns the empty string for k = -1, and for k < -1 raises a TypeError (None if the graph is empty): negative positions do not count from the end.", "quantifier": "all finalized graphs, all ints", "why_tests_cant": "all graphs and positions", "anchors": ["experiments/dawg.py:DAWG.get_index", "experiments/dawg.py:DAWGNode.__getitem__"]}
{"id": "C71", "title": "DAWG is minimal", "statement": "After finalize(), count_nodes() is the number of different non-empty sets of continuations of non-empty prefixes of the words; no deterministic automaton for the same words has fewer than count_nodes()+1 states, and the graph is one with that many. count_edges() is the number of edges that do not start at the root (refuted: that it is the number of all edges).", "quantifier": "all sequences of insert calls, all deterministic automata", "why_tests_cant": "minimality quantifies over all automata", "anchors": ["experiments/dawg.py:DAWG.minimize_unchecked", "experiments/dawg.py:DAWG.count_nodes", "experiments/dawg.py:DAWG.count_edges", "experiments/dawg.py:DAWGNode.__str__"]}
{"id": "C72", "title": "DAWG after finalize", "statement": "After finalize(), no further insert or finalize call ever changes the answers of index, lookup and `in`: later words are accepted silently but never found. (They can also be listed wrongly: after inserting 'car', finalizing and inserting 'cat', iteration gives 'car' and 't'.)", "quantifier": "all sequences of insert calls before and of insert and finalize calls after", "why_tests_cant": "all histories", "anchors": ["experiments/dawg.py:DAWG.insert", "experiments/dawg.py:DAWG.finalize"]}
{"id": "C73", "title": "extended_edit_distance: range", "statement": "For non-negative costs, extended_edit_distance always returns, and its value lies in [0,1], also in floating point.", "quantifier": "all pairs of strings, all finite non-negative costs, any lawful rounding including binary64", "why_tests_cant": "all strings and costs", "anchors": ["experiments/edit_distance.py:extended_edit_distance"]}
{"id": "C74", "title": "extended_edit_distance: value 0", "statement": "For positive edit and jump costs, extended_edit_distance(h, r) is 0 exactly if rho is 0 and h equals r. A string compared with itself scores rho/(len+2+rho), so with the default rho never 0 (refuted: that identical strings have distance 0).", "quantifier": "all pairs of strings, all positive costs, any lawful rounding", "why_tests_cant": "all strings and costs", "anchors": ["experiments/edit_distance.py:extended_edit_distance"]}
{"id": "C75", "title": "extended_edit_distance: meaning", "statement": "In exact arithmetic the value is min(1, (c+p)/(len(ref)+2+p)), where c is the least cost of an alignment of the two padded strings by deletions, insertions, substitutions and jumps (allowed after white space of ref), and p is rho times the deviation from 1 of the number of visits to each position of hyp, where each character of ref visits the first position of least cost. It is not symmetric (refuted).", "quantifier": "all pairs of strings, all non-negative costs, positive jump cost, any set of white space characters", "why_tests_cant": "optimality over all alignments", "anchors": ["experiments/edit_distance.py:extended_edit_distance"]}
{"id": "C76", "title": "extended_edit_distance: identical strings score best", "statement": "For positive costs and insertion cost at most 1 (the defaults satisfy this), every hypothesis different from the reference has a strictly larger value than the reference itself.", "quantifier": "all pairs of strings, all such costs; exact arithmetic", "why_tests_cant": "all strings and costs", "anchors": ["experiments/edit_distance.py:extended_edit_distance"]}
{"id": "C77", "title": "ApproxWordListV5b: construction and vocabulary", "statement": "The constructor accepts exactly a positive int or a non-empty iterable of positive ints for n, a bool for case_sensitive and None or a positive int for filter_n; otherwise it raises a ValueError (non-positive int n, bad filter_n) or a TypeError. add_word accepts exactly the non-empty strings whose folded form is not empty and has no reserved character, otherwise raises a ValueError, and changes nothing unless the folded word is new. After any calls the vocabulary is the set of accepted folded words, len() is its size and `in` tells whether the folded form of a string belongs to it.", "quantifier": "all arguments, all sequences of calls accepted or not, any casefold, any order of iteration over sets", "why_tests_cant": "quantifies over all histories", "anchors": ["experiments/gemini_optimized_v5.py:ApproxWordListV5b.__init__", "experiments/gemini_optimized_v5.py:ApproxWordListV5b.add_word", "experiments/gemini_optimized_v5.py:ApproxWordListV5b.__len__", "experiments/gemini_optimized_v5.py:ApproxWordListV5b.__contains__"]}
{"id": "C78", "title": "ApproxWordListV5b.lookup: one ranking", "statement": "lookup raises a ValueError for an empty or non-string word or a top_k that is not a positive int, and nothing else ever; it returns [] for a word that folds to nothing or has a reserved character. Otherwise there is one ranking of all candidates (the words sharing an n-gram of some size and, with a filter, one of that size), each once, best first, independent of top_k and of hash seeds, and lookup returns its first top_k entries. Pruning by bounds therefore loses nothing, not even in binary64.", "quantifier": "all reachable instances, all words and top_k, any lawful rounding that commutes with doubling (binary64 does), any monotone mean", "why_tests_cant": "losslessness of pruning quantifies over all vocabularies; rounding could break the bounds", "anchors": ["experiments/gemini_optimized_v5.py:ApproxWordListV5b.lookup", "experiments/gemini_optimized_v5.py:ApproxWordListV5b._lookup_similarity"]}
{"id": "C79", "title": "ApproxWordListV5b.lookup: scores", "statement": "In exact arithmetic a score is the mean over the sizes of the similarity by ngram_movers_distance, or 0 for a size without common n-gram; normalized scores lie in [0,1]; an indexed query with n-grams no longer than the padded word comes first with score 1 and all others score less. Scores are never negative in floats. In binary64 normalized scores can exceed 1: a word of eight different letters scores more than 1 against itself (refuted).", "quantifier": "all reachable instances and queries; exact arithmetic or any lawful rounding as stated", "why_tests_cant": "agreement of two algorithms on all inputs", "anchors": ["experiments/gemini_optimized_v5.py:ApproxWordListV5b.lookup", "experiments/gemini_optimized_v5.py:ApproxWordListV5b._lookup_similarity"]}
{"id": "C80", "title": "ApproxWordListV5b agrees with ApproxWordListV5", "statement": "After the same add_word calls both classes have the same vocabulary, and in exact arithmetic, whenever ApproxWordListV5.lookup(word, top_k, invert=True) returns, ApproxWordListV5b.lookup(word, top_k) returns the first top_k of its entries. The converse fails (the older one divides by zero for a single-n-gram query), and in binary64 the scores differ (refuted).", "quantifier": "all constructor arguments, all sequences of calls, all queries, independent iteration orders in the two", "why_tests_cant": "equivalence of two implementations on all histories", "anchors": ["experiments/gemini_optimized_v5.py:ApproxWordListV5b.lookup", "nmd/nmd_index.py:ApproxWordListV5.lookup"]}
{"id": "C81", "title": "emd_1d_dp: accuracy in binary64", "statement": "The result d of emd_1d_dp on two lists of K-1 doubles in total differs from the true earth mover's distance e by at most K * 2^-52 * e (K at most 2^52): a relative error, so tiny distances are accurate too.", "quantifier": "all lists of doubles up to 2^52 elements in total, in any order", "why_tests_cant": "a bound on accumulated rounding errors over all inputs cannot be established by sampling", "anchors": ["nmd/emd_1d.py:emd_1d_dp"]}
{"id": "C82", "title": "ngram_movers_distance: accuracy in binary64", "statement": "For words at least as long (padded) as n with N n-grams in total, N at most 2^50, the normalized distance or similarity returned in binary64 differs from the true value by at most (3N+5) * 2^-53 and the plain one by at most N(3N+4) * 2^-53. Hence swapping the words changes the normalized result by at most (3N+5) * 2^-52 (it can change it: refuted elsewhere that it is symmetric).", "quantifier": "all marker-free words, all n between 2 and the padded length of both, both flags", "why_tests_cant": "a worst-case bound on rounding errors for all words", "anchors": ["nmd/nmd_core.py:ngram_movers_distance"]}
{"id": "C83", "title": "WordList lookup loses nothing in binary64", "statement": "With normalized scores computed in binary64, all sizes at least 2 (the default is 2 and 4), at most 2^20 of them, and query and word together at most 65532 characters: a candidate missing from the result scores no more than any word returned, fewer than top_k words are returned only if there are fewer candidates, asking for at least as many as there are words returns exactly the candidates, and the fifth version returns at least the top_k best candidates. Rounding errors in the bounds used for pruning never remove a word wrongly.", "quantifier": "all histories of add_word, all queries and top_k, every iteration order of sets; mean of sizes computed as sum divided by length", "why_tests_cant": "the bounds are compared after rounding; a wrong comparison would need a rare coincidence", "anchors": ["nmd/nmd_index.py:ApproxWordListV6.__lookup_similarity", "nmd/nmd_index.py:ApproxWordListV5.lookup"]}
{"id": "C84", "title": "WordList exact match wins in binary64", "statement": "If the query is in the vocabulary, all sizes lie between 2 and its length plus 2 (at most 2^15 sizes, query and word together at most 4092 characters, filter_n 0 or at most the length plus 2), then in binary64 with normalize=True it scores exactly 1.0, every other word scores strictly less than 1.0, and it is returned first.", "quantifier": "all histories of add_word, all queries in the vocabulary, all top_k", "why_tests_cant": "a long word differing in one character scores within rounding distance of 1", "anchors": ["nmd/nmd_index.py:ApproxWordListV6.lookup"]}
{"id": "C85", "title": "Trie.to_regex never fails", "statement": "On every trie reached by any calls, whose tokens are single characters (or non-empty strings without a backslash) and whose tokenizer splits into characters, to_regex returns a string for all 32 combinations of options: no assertion in it fails and the loop that shortens runs of spaces ends.", "quantifier": "all histories of trie operations, all keys, all options, any sets of white space and word characters", "why_tests_cant": "the assertions concern the text of the expression after several textual substitutions; a key with the wrong escape sequence would be needed to break them", "anchors": ["experiments/find_replace_trie.py:Trie.to_regex"]}
{"id": "C86", "title": "Trie.to_regex matches exactly the keys", "statement": "If the trie is not empty, the string returned by to_regex is a valid expression and it can match a piece of text between given surroundings exactly if the piece spells a key: character by character equal, a white space character of the key standing for any white space character if fuzzy_spaces, U+FFFD for any character but a newline if fffd_any; and, if boundary, both ends of the piece are word boundaries. Conditions: with simplify and fffd_any no key contains U+FFFD; with fuzzy_spaces no two white space characters follow each other in a key and one of the three - backslash, the letter s, white space - occurs in no key and, with simplify, no white space but ' '. The simplification rules, which rewrite the text of the expression by regular expressions, therefore never change its meaning. The same holds for the function to_regex(list_of_strings).", "quantifier": "all histories of trie operations, all keys within the stated conditions, all options, all texts and surroundings", "why_tests_cant": "equivalence of a generated expression with a set of keys for all keys; escaping and rewriting go wrong only for particular combinations of special characters", "anchors": ["experiments/find_replace_trie.py:Trie.to_regex", "experiments/find_replace_trie.py:to_regex", "experiments/find_replace_trie.py:Trie.fromkeys"]}
{"id": "C87", "title": "Trie.to_regex finds the longest keys", "statement": "Searching a text with the expression returned by to_regex finds the leftmost-longest occurrences of the keys, although alternatives are tried in order: if moreover tokens are single characters, keys use no white space but ' ' (with fuzzy_spaces) and no U+FFFD (with fffd_any) and the empty string is not a key. With the default tokenizer and boundary=False, for texts whose only white space is ' ' if fuzzy_spaces, the matches are exactly those of Trie.finditer.", "quantifier": "all histories of trie operations, all keys within the stated conditions, all options, all texts", "why_tests_cant": "order of alternatives and greediness matter; needs all sets of keys and all texts", "anchors": ["experiments/find_replace_trie.py:Trie.to_regex", "experiments/find_replace_trie.py:Trie.finditer"]}
{"id": "C88", "title": "Trie.to_regex: fuzzy_quotes", "statement": "The option fuzzy_quotes does not change the result of to_regex for any trie (with re.escape of Python 3.7 or later, which does not escape non-ASCII characters). In particular a typographic apostrophe in a key does not match an ASCII one (refuted: 'unicode quotes also match ascii quotes').", "quantifier": "all histories of trie operations, all keys, all options", "why_tests_cant": "a claim that no input makes a difference", "anchors": ["experiments/find_replace_trie.py:Trie.to_regex"]}
{"id": "C89", "title": "Trie.to_regex: promises that fail", "statement": "Refuted: that without keys nothing is matched (the empty string is); that a key is matched by its own expression (not backslash-s-space with the defaults; not a space among the keys space, s and backslash; not a key with capitals with case_sensitive=False, the default of the function to_regex); that only texts made of the keys' characters are matched (tab and newline as keys match '+'); that adding a key never removes a match ('a  b' matches 'a b' until 'a c' is added); that U+FFFD matches anything (not a newline; only a dot beside another single-character key); that simplify does not change what is matched.", "quantifier": "witnesses", "why_tests_cant": "show that the conditions of the positive theorems cannot be dropped", "anchors": ["experiments/find_replace_trie.py:Trie.to_regex", "experiments/find_replace_trie.py:to_regex"]}
{"id": "C90", "title": "Trie.process_file rewrites a file", "statement": "If the input is a UTF-8 file other than <output>.partial and the output may be written (absent, or a file and overwrite=True; its directory exists or can be created), process_file returns with the output file holding the rewritten text - at each position, left to right, the longest key replaced - with line ends as newlines, no temporary file left and no other file changed; missing directories are created. Without occurrences of keys and carriage returns the output equals the input byte for byte. An existing output without overwrite: nothing changes.", "quantifier": "all histories of trie operations, all tokenizers, all file systems, paths and texts; runs under a week", "why_tests_cant": "needs every text and every state of the file system", "anchors": ["experiments/find_replace_trie.py:Trie.process_file", "experiments/find_replace_trie.py:Trie._translate_tokens", "experiments/find_replace_trie.py:Trie._yield_tokens"]}
{"id": "C91", "title": "Trie.process_file is safe against interruption", "statement": "Whatever calls the operating system refuses, after however many bytes, and whenever the process is stopped: the output path holds the old file, or the complete new one, or nothing while the complete new one lies in <output>.partial. It is never a partly written file, and no other file is changed or removed.", "quantifier": "all executions, interrupted anywhere, with any refusals and short writes", "why_tests_cant": "all interleavings of failures cannot be provoked in a test", "anchors": ["experiments/find_replace_trie.py:Trie.process_file"]}
{"id": "C92", "title": "Trie.process_file: returning and raising", "statement": "process_file returns only if the complete output is in place without temporary file or if it had nothing to do. If it raises without the operating system refusing anything by itself (bad encoding, missing input, ...), the output is unchanged and no temporary file is left, unless the output path is a directory. An input that is not valid UTF-8 makes it raise.", "quantifier": "all executions, all inputs", "why_tests_cant": "failures can happen at every step", "anchors": ["experiments/find_replace_trie.py:Trie.process_file"]}
{"id": "C93", "title": "Trie.process_file: promises that fail", "statement": "Refuted: that overwriting is atomic (there is a moment without output file); that a file without keys is copied unchanged (carriage returns are lost); that an output path without directory works (it never does: FileNotFoundError); that the input is left alone (it is destroyed if named <output>.partial); that no temporary file is left after an error (it is if the output is a directory); that encoding=None processes binary files (every non-empty output is refused); that a run of a week or more succeeds (IndexError after the work is done).", "quantifier": "witnesses, or all inputs of the stated kind", "why_tests_cant": "show that the conditions of the positive theorems cannot be dropped", "anchors": ["experiments/find_replace_trie.py:Trie.process_file"]}
{"id": "C94", "title": "format_bytes", "statement": "For sizes from 2 to 2^53 bytes (either sign) the text is a decimal number, a blank and the largest unit (powers of 1024) not above the size; the number is right to half a hundredth of that unit and exact for a whole number of units; 0 and 1 are '0 Bytes' and '1 Byte'. Refuted: that the number shown is below 1024 ('1024.00 KiB').", "quantifier": "all sizes, in binary64", "why_tests_cant": "rounding errors accumulate over the divisions", "anchors": ["experiments/find_replace_trie.py:format_bytes"]}
{"id": "C95", "title": "format_seconds", "statement": "A duration above one second and up to 604799 seconds is shown in the largest unit not above it, right to half a hundredth of the unit plus 1e-12, in the singular only for the value 1; below a second with two significant digits (relative error 1/20) if log10 is right. For every duration of 604800 seconds or more it raises an IndexError although it has a unit 'weeks' (refuted), and 59.999 is shown as '60.00 seconds' (refuted).", "quantifier": "all durations, in binary64", "why_tests_cant": "rounding at the unit boundaries; the error needs long durations", "anchors": ["experiments/find_replace_trie.py:format_seconds"]}
{"id": "C96", "title": "emd_1d_hybrid, emd_1d_old: accuracy in binary64", "statement": "For lists whose points are pairwise within distance 1 of the other list's, n points in total (at most 2^25), the result in binary64 differs from the true earth mover's distance by at most 6n(n+1) * 2^-53, whichever of their greedy, combination or fallback branches is taken. A relative bound does not hold: for the points 2^-60 and 0 the result is 0 (refuted).", "quantifier": "all lists of doubles within the stated distance, in any order", "why_tests_cant": "the branch taken depends on comparisons of rounded sums; a wrong branch shows only on near ties", "anchors": ["nmd/emd_1d.py:emd_1d_hybrid", "nmd/emd_1d.py:emd_1d_old"]}
{"id": "C97", "title": "check_correct_emd_1d never gives a false alarm", "statement": "The cross-check of the correctness script, with its default tolerances, returns the value of emd_1d_old for every two lists of numbers in [0,1] of at most 860 elements in total: none of its comparisons between the implementations fails. In exact arithmetic it accepts lists of any size with any tolerance. It reports an AssertionError for every list with a number outside [0,1] and gives the same answer for exchanged lists. With tolerance 0 it reports correct implementations (refuted).", "quantifier": "all lists of doubles, any iteration", "why_tests_cant": "the script itself samples random lists; whether it can fail on any list is a universal question", "anchors": ["experiments/correctness-test.py:check_correct_emd_1d", "experiments/correctness-test.py:emd_1d_dp_optimized"]}
{"id": "C98", "title": "ngram_movers_distance and edit distance", "statement": "For words of adequate length, the distance is at most 2n times the edit distance (insertions, deletions, substitutions) and at most 2n+2 times the Damerau-Levenshtein distance of experiments/edit_distance; hence words k edits apart have normalised similarity at least 1 - 2nk/(number of n-grams of both). Both factors are reached by words one edit apart.", "quantifier": "all words without marker characters, all n from 2 to the length plus 2", "why_tests_cant": "a bound over all pairs of words", "anchors": ["nmd/nmd_core.py:ngram_movers_distance", "experiments/edit_distance.py:edit_distance", "experiments/edit_distance.py:damerau_levenshtein_distance"]}
{"id": "C99", "title": "ngram_movers_distance does not care which letters are used", "statement": "Replacing the characters of both words by other characters, different ones by different ones and none by a marker, gives bit for bit the same result (or the same error), whatever the rounding, for all options.", "quantifier": "all words, all injective replacements, all n, all options", "why_tests_cant": "universally quantified over replacements; order-dependent dictionary iteration could break it", "anchors": ["nmd/nmd_core.py:ngram_movers_distance"]}
{"id": "C100", "title": "ngram_movers_distance of reversed words", "statement": "In exact arithmetic reversing both words does not change any of the four results, for every n. In floating point the last bit can differ (refuted).", "quantifier": "all words without marker characters, all n, all options", "why_tests_cant": "positions are counted from the front and scaled by the length; an off-by-one at one end would show on some pairs only", "anchors": ["nmd/nmd_core.py:ngram_movers_distance"]}
{"id": "C101", "title": "emd_1d_dp under changes of the points", "statement": "In exact arithmetic: shifting or reflecting all points does not change the result; points common to both lists can be removed; moving a point changes the result by at most the way it is moved; adding a point changes it by at most 1; the result for two joined pairs of lists is at most the sum of the results.", "quantifier": "all lists of numbers", "why_tests_cant": "metamorphic relations between infinitely many calls", "anchors": ["nmd/emd_1d.py:emd_1d_dp"]}
{"id": "C102", "title": "Dawg.insert of dawg-orig.py", "statement": "After any earlier calls, refused ones included, insert returns exactly if the word is not empty and greater than every word accepted so far; otherwise it raises an Exception and changes nothing. Data is kept for the accepted words only, in order.", "quantifier": "all sequences of calls, all words and data, all hash functions and node numberings", "why_tests_cant": "the state after arbitrary histories", "anchors": ["experiments/dawg-orig.py:Dawg.insert"]}
{"id": "C103", "title": "Dawg.lookup of dawg-orig.py", "statement": "After finish, lookup returns the data inserted with exactly that word, and None for every string not inserted, even if all node texts have the same hash; a second finish changes nothing. Before finish, lookup already returns None exactly for the strings not inserted, but for a word the data of the entry whose position is the number of the word's proper prefixes among the words (so usually wrong: refuted). A word inserted after finish may not be found, and a string never inserted may be (refuted).", "quantifier": "all sequences of insertions, all strings, all hash functions and node numberings", "why_tests_cant": "mutable objects are used as dictionary keys and their hash changes when they change; whether this ever matters is a question about all histories", "anchors": ["experiments/dawg-orig.py:Dawg.insert", "experiments/dawg-orig.py:Dawg.finish", "experiments/dawg-orig.py:Dawg.lookup", "experiments/dawg-orig.py:DawgNode.numReachable", "experiments/dawg-orig.py:DawgNode.__hash__"]}
{"id": "C104", "title": "The graph of dawg-orig.py is minimal", "statement": "After finish, nodeCount() is the number of different non-empty sets of continuations of non-empty prefixes, and edgeCount() the sum of the numbers of their first letters; no deterministic automaton for the same words has fewer than nodeCount()+1 states, and the graph has that many.", "quantifier": "all sequences of insertions, all automata", "why_tests_cant": "quantifies over all automata", "anchors": ["experiments/dawg-orig.py:Dawg.nodeCount", "experiments/dawg-orig.py:Dawg.edgeCount", "experiments/dawg-orig.py:Dawg._minimize"]}
{"id": "C105", "title": "The script of dawg-orig.py", "statement": "With a dictionary of distinct words, each query in the dictionary is answered with its reversal and every other one with 'not in dictionary', whatever the order of the file; if a word occurs twice in the file the script dies with an Exception.", "quantifier": "all lists of words, all queries", "why_tests_cant": "all dictionaries", "anchors": ["experiments/dawg-orig.py:Dawg"]}
{"id": "C106", "title": "Doubles with gradual underflow", "statement": "With IEEE doubles (53 bits, smallest unit 2^-1074, round to nearest even; overflow left open) emd_1d_dp on finite doubles up to 2^1000, ngram_movers_distance on words up to 2^50 characters with n up to 2^51, and bow_ngram_movers_distance return bit for bit what they return if the exponent is unbounded: no subnormal result is ever rounded differently. Hence emd_1d_dp on doubles is 0 exactly for reordered lists, and the n-gram mover's distance stays within its range and is exactly 0 (similarity 1) for equal words. A rounding with underflow does not obey the law 'only 0 is rounded to 0' (refuted), so this needs an argument about the values that occur.", "quantifier": "all lists of finite doubles, all words and options, every behaviour on overflow", "why_tests_cant": "underflow shows only on inputs with extreme exponents", "anchors": ["nmd/emd_1d.py:emd_1d_dp", "nmd/nmd_core.py:ngram_movers_distance", "nmd/nmd_bow.py:bow_ngram_movers_distance"]}
{"id": "C107", "title": "deep_sizeof counts every reachable object once", "statement": "deep_sizeof(obj) returns exactly if finitely many objects can be reached from obj (keys, values and elements, __dict__, slots, attributes not named like magic methods; objects that report nbytes or memory_usage, and atomic ones, are not entered) and looking at none of them raises; the result is then the sum, over these objects, each once, of the reported size or else sys.getsizeof - whatever the order, sharing and cycles. If infinitely many are reachable and none raises, it never returns; an error is always one raised by a reachable object and, in a finite graph, one such object is enough. Objects reachable from each other have equal sizes; a part is never bigger than the whole. Refuted: that sizes of parts add up; that what an object holds is included (not if it reports nbytes).", "quantifier": "all object graphs, finite or not, all orders of keys, elements and attributes", "why_tests_cant": "sharing, cycles and unbounded graphs; termination is not testable", "anchors": ["experiments/sizeof.py:deep_sizeof"]}
{"id": "C108", "title": "Trie slices: steps, open ends, deletion", "statement": "On a trie sorted with sort_keys(case_sensitive=False), trie[start:stop:step] gives every step-th value (negative: from the end) of the keys in the range; step 0 is a ValueError. del trie[start:stop:step] removes exactly the items the same slice selects, sorted or not: len falls by their number, every other key keeps its value and the other items their order; so del trie[start:stop] on a sorted trie removes exactly the non-empty keys in the range. pop keeps the order of the other items. If the slice raises, nothing is deleted. A slice without stop raises a TypeError unless there are no items, and one without start unless the first item is not below stop; so trie[:] does not give all values (refuted).", "quantifier": "all histories of operations, all bounds and steps; tokenizers that are restored by the detokenizer", "why_tests_cant": "all histories; order of traversal after removals", "anchors": ["experiments/find_replace_trie.py:Trie.__getitem__", "experiments/find_replace_trie.py:Trie._item_slice", "experiments/find_replace_trie.py:Trie.__delitem__", "experiments/find_replace_trie.py:Trie.pop"]}
{"id": "C109", "title": "Trie.fromkeys and Match", "statement": "Trie.fromkeys(keys, default): exactly the keys given (up to equal tokens) are in the trie, each with the default; len is their number; items lists the non-empty ones once, and in ascending order of the tokens if sort=True. For every match that finditer yields, start, end, span, len, group, [0] and str agree with one another and with a key occurring in the tokens of the text at that place; every other group index is an IndexError.", "quantifier": "all lists of keys, all tokenizers, all reachable tries, all texts, both modes", "why_tests_cant": "agreement of several views of a result for all inputs", "anchors": ["experiments/find_replace_trie.py:Trie.fromkeys", "experiments/find_replace_trie.py:Match", "experiments/find_replace_trie.py:Trie.finditer"]}
{"id": "C110", "title": "The tests of tests/test_emd_correctness.py cannot fail by rounding", "statement": "In binary64 the consistency check of the tests (four implementations, tolerance 1e-9) accepts all lists of up to 860 points that are at most 1 apart, inside [0, 1] or not, and is symmetric; if it accepts, the four results agree up to the tolerance. So test_symmetry and test_comprehensive pass for every sample of such points, of any size, and the tests as written pass, also for any other num_x and num_y; the sweep of correctness-test.py passes for every sample of up to 860 points in [0, 1]. Refuted: the commented-out expectation that positions outside [0, 1] raise AssertionError; that the check accepts points further apart than 1.", "quantifier": "all lists of doubles, all samples, all sizes of the sample", "why_tests_cant": "a statement about all runs of the tests themselves", "anchors": ["tests/test_emd_correctness.py:check_emd_implementations", "tests/test_emd_correctness.py:TestEMDCorrectness", "experiments/correctness-test.py"]}
{"id": "C111", "title": "Word lists give the same answers in IEEE doubles as with an unbounded exponent", "statement": "Adding words to a WordList (or ApproxWordListV5) in IEEE double arithmetic with gradual underflow leaves exactly the index that rounding to 53 bits with an unbounded exponent leaves, and every lookup on it returns the same words in the same order with the same scores, or raises the same exception. Hence also in real doubles: a word of the list that is looked up comes first with score 1 and all others score below 1, pruning never loses a better candidate, and normalized scores lie in [0, 1].", "quantifier": "for every rounding that is IEEE round-to-nearest below 2^1023, every idempotent case folding, every history of additions of words up to 2^30 characters, every query, top_k, normalize and invert, every order of set iteration", "why_tests_cant": "underflow happens only for magnitudes no sampled test reaches; that no intermediate value of any lookup gets there needs an argument about all of them", "anchors": ["nmd/nmd_index.py:ApproxWordListV6.add_word", "nmd/nmd_index.py:ApproxWordListV6.lookup", "nmd/nmd_index.py:ApproxWordListV5.lookup"]}
{"id": "C112", "title": "Tests of the trie", "statement": "The fuzz test of the regular expressions of the trie passes whatever random.choice returns: for all rounds of words chosen from its list of 36562, in every iteration order of the set of chosen words, the trie has as many keys as words were chosen, the expression of to_regex(fuzzy_quotes=False) compiles, and findall over all the words joined by spaces returns each chosen word once and nothing else. The same for every list of words none of which occurs in another, without white space and U+FFFD. The other tests of the trie and self_test are literal and pass as well; the test that is commented out would fail (refuted).", "quantifier": "for every list of independent words, every non-empty list of choices from it, every order of set iteration, every set of word characters and of white space that contains the space and no character of the words", "why_tests_cant": "the test draws ten words at a time from 36562 strings full of special characters; a set on which it fails might never be drawn", "anchors": ["tests/test_find_replace_trie.py:TestTrie.test_trie_regex", "tests/test_find_replace_trie.py:TestTrie", "experiments/find_replace_trie.py:self_test", "experiments/find_replace_trie.py:Trie.to_regex"]}
{"id": "C113", "title": "WordSet: inherited operators", "statement": "For WordSets with the same case flag and normalizer, whatever their n-gram sizes: >= , <, > and != compare the sets of normalized words as superset, proper subset, proper superset and difference; s ^= t leaves exactly the words that are in one of the two. s |= s changes nothing, s -= s and s ^= s empty the set. If s |= values raises, the values before the offending one have been added and nothing else changed. Refuted: that &, |, -, ^ return a set (each raises TypeError for every operand, the constructor taking no iterable); that &= works (TypeError, set unchanged); that ^= accepts any iterable (TypeError, unchanged); that ^= with a plain set is the symmetric difference (two spellings of one word cancel out).", "quantifier": "for all case foldings and normalizers, all histories of both sets, all operands, every order of set iteration", "why_tests_cant": "the operators come from collections.abc and are correct only if every method they call fits its assumptions; a test of some pairs does not cover all histories and normalizers", "anchors": ["nmd/nmd_word_set.py:WordSet", "nmd/nmd_word_set.py:WordSet.__init__", "nmd/nmd_word_set.py:WordSet.__contains__", "nmd/nmd_word_set.py:WordSet.add", "nmd/nmd_word_set.py:WordSet.discard"]}
{"id": "C114", "title": "Triangle inequality up to one half", "statement": "The normalized n-gram mover's distance is not a metric, but going through a third word never makes it look more than half as far again: d(a,c) <= 3/2 (d(a,b)+d(b,c)). The same holds for the bag-of-words distance, normalized or not, computed with an optimal assignment. The factor 3/2 is the best possible for either: every smaller one fails for some three words, whatever n (13/10 for three short ones).", "quantifier": "all words free of the markers and long enough to have n-grams (bags: all marker-free words), all n >= 2, all bags, every optimal solver", "why_tests_cant": "an inequality over all triples of words", "anchors": ["nmd/nmd_core.py:ngram_movers_distance", "nmd/nmd_bow.py:bow_ngram_movers_distance"]}
{"id": "C115", "title": "Growing and reordering a word list", "statement": "Adding words to an ApproxWordList, or asking for more results, never lowers the score found at any place of the result; a word that was there before and is listed only after the addition has the score of the last word of the full earlier result. Two lists with the same words added in any order give the same scores in the same places, and a smaller top_k gives the first scores of a larger one; if no two candidates have equal scores the whole results agree. With equal scores the words listed, and their second scores, do depend on the order and on top_k (refuted).", "quantifier": "all word lists with the same settings, all queries, top_k, order of iteration of sets, lawful roundings, averaging means", "why_tests_cant": "relates two lists built along different histories", "anchors": ["nmd/nmd_index.py:ApproxWordListV5", "nmd/nmd_index.py:ApproxWordListV6"]}
{"id": "C116", "title": "Accuracy of the bag-of-words distance", "statement": "Computed in binary64 with a solver that is within eta of the optimum, bow_ngram_movers_distance differs from the true value (similarity or distance) by at most k(3G+K+5) 2^-53 + eta, and normalized by at most (3G+K+6) 2^-53 + eta/K, where k and K are the sizes of the smaller and the larger bag and G bounds the n-grams of a pair of words.", "quantifier": "all bags of at most 2^53 words, all words long enough to have n-grams, all n and options, every solver", "why_tests_cant": "rounding errors of the costs also change which assignment is chosen", "anchors": ["nmd/nmd_bow.py:bow_ngram_movers_distance"]}
{"id": "C117", "title": "The sum() of Python 3.12 and later", "statement": "The compensated sum() of newer Pythons gives the same value as adding from the left for up to two doubles and without rounding; for up to 2^25 non-negative doubles it is within 2^-52 of the true sum, relatively (adding from the left is not: refuted), but it is not monotone (refuted: raising one score can lower the mean). So WordList and ApproxWordListV5 with at most two n-gram sizes answer alike, words, order and scores, on old and new Pythons, also with gradual underflow; with three sizes the scores differ (refuted). emd_1d_hybrid, emd_1d_old and emd_1d_slow keep the error bounds they have with the older sum, and the consistency check of the tests still accepts all lists of up to 860 points at most 1 apart.", "quantifier": "all lists of doubles, all reachable word lists, all queries and options, all point lists", "why_tests_cant": "the results of the two sums differ only in the last bits, for some inputs", "anchors": ["nmd/emd_1d.py:emd_1d_slow", "nmd/emd_1d.py:emd_1d_hybrid", "nmd/emd_1d.py:emd_1d_old", "nmd/nmd_index.py:mean", "tests/test_emd_correctness.py:check_emd_implementations"]}
{"id": "C118", "title": "Word lists under Python 3.12 and later", "statement": "With the compensated sum() of newer Pythons, which is not monotone, WordList and ApproxWordListV5 keep their promises for any number of n-gram sizes: pruning never loses a better candidate and asking for enough results returns exactly the candidates, normalized or not; a word of the list that is looked up comes first with score 1 and all others score below 1; normalized scores lie in [0, 1]. All of it also with gradual underflow, for up to 512 sizes.", "quantifier": "all reachable word lists with up to 2^20 sizes (2^15 for the word itself coming first), all queries, top_k and options, every order of set iteration", "why_tests_cant": "the pruning compares means of bounds with means of scores; that a mean which can fall when a score rises never misleads it needs an error bound for all lists", "anchors": ["nmd/nmd_index.py:ApproxWordListV6.lookup", "nmd/nmd_index.py:ApproxWordListV5.lookup", "nmd/nmd_index.py:mean"]}
{"id": "C119", "title": "WordSet in doubles", "statement": "In binary64 every score returned by WordSet.find_similar is within (3N+4) 2^-53 of the true score, N being the n-grams of query and word together. A word of the set that is searched for, in any spelling with the same normal form, comes first with score exactly 1 and all others score strictly less (up to 8192 n-grams together). Gradual underflow never matters: results are the same with and without it.", "quantifier": "all histories of calls, all normalizers and case foldings, all queries, k and thresholds, every order of set iteration", "why_tests_cant": "the sums of thousands of rounded contributions are compared with 1; no test covers all words", "anchors": ["nmd/nmd_word_set.py:WordSet.find_similar"]}
{"id": "C120", "title": "WordSet: changing the set and the number of results", "statement": "A smaller k gives exactly the first results of a larger one. Adding a new word to a WordSet either changes nothing in a result or puts the word after all that score at least as much and before all that score less, keeping the rest in order with the same scores (the last of a full result drops out). After discarding a word a search gives what it gave before with k+1, without that word. Two sets with the same words inserted in any order give the same scores in the same places, and the same words if no two have equal scores; with equal scores the order of insertion decides which word is listed (refuted that it does not).", "quantifier": "all histories of calls, all roundings, normalizers, queries, k, thresholds, every order of set iteration", "why_tests_cant": "relates two searches over sets with different histories", "anchors": ["nmd/nmd_word_set.py:WordSet.find_similar", "nmd/nmd_word_set.py:WordSet.add", "nmd/nmd_word_set.py:WordSet.discard"]}
{"id": "C121", "title": "WordSet and WordList agree", "statement": "A WordSet and a WordList that hold the same words and use one n-gram size of 2, 3 or 4 give the same scores in the same places for the same query and number of results (normalized similarity), and the same words if no two score the same; in doubles each score of a WordSet is within (6N+9) 2^-53 of what ngram_movers_distance returns for the normalized words. Refuted: bit for bit equality in doubles; agreement with several sizes (the best word can differ); agreement for a size above 4 (WordSet then lists words without a common n-gram, with score 0).", "quantifier": "all histories of both, all case foldings, normalizers, queries, numbers of results and orders of set iteration", "why_tests_cant": "relates two independent implementations over all vocabularies; experiment.py only prints their answers for nine words", "anchors": ["nmd/nmd_word_set.py:WordSet.find_similar", "nmd/nmd_index.py:ApproxWordListV6.lookup", "nmd/nmd_core.py:ngram_movers_distance", "experiments/experiment.py"]}
{"id": "C122", "title": "Three ways to find the words near a query agree", "statement": "Given the same non-empty words, Trie.levenshtein_lookup with default costs, BKNode.search and find_all_matches all find exactly the words whose levenshtein distance to a non-empty query is at most k, whatever the history of the trie, the order of insertion into the BK-tree and the order of set iteration. Refuted: for the empty word, which only the BK-tree finds.", "quantifier": "all word lists with characters below U+10FFFF, all trie histories and insertion orders, all non-empty queries, all k >= 0", "why_tests_cant": "relates three independent algorithms over all vocabularies and queries", "anchors": ["experiments/find_replace_trie.py:Trie.levenshtein_lookup", "experiments/automata.py:BKNode.search", "experiments/automata.py:find_all_matches", "experiments/automata.py:levenshtein"]}
{"id": "C123", "title": "WordSet: accents and equivalent spellings", "statement": "normalize_nfd_strip_marks returns a text without combining marks, is idempotent, works piece by piece, and does not depend on marks or on how the characters are encoded. A WordSet using it cannot tell words apart that differ only in marks (the same answers to in, discard, remove and find_similar; adding the second changes nothing), except in marks that case folding turns into letters when case is ignored (refuted for the iota subscript U+0345). A WordSet with the default NFC cannot tell canonically equivalent words apart if it is case sensitive or the words have no such mark (refuted with one: U+1FB4 and U+03B1 U+0345 U+0301). Refuted for NFKC with case ignored: a set holding TM does not contain the trade mark sign, because folding happens before NFKC, which yields capitals.", "quantifier": "all words, all histories of calls, all n-gram sizes, every rounding and order of set iteration, any character database with four stated properties", "why_tests_cant": "all texts in all of Unicode; canonical reordering of arbitrarily many marks", "anchors": ["nmd/nmd_word_set.py:normalize_nfd_strip_marks", "nmd/nmd_word_set.py:normalize_nfc", "nmd/nmd_word_set.py:normalize_nfkc", "nmd/nmd_word_set.py:WordSet._normalize_word"]}
{"id": "C124", "title": "How many words a search looks at", "statement": "find_all_matches calls the matcher (Matcher.probes) at most once for every different non-empty entry, once more for every word found and once at the end, however many strings the automaton accepts; this bound is reached. BKNode._search returns the number of nodes it looked at, which is at least the number of words found and at most the number of words in the tree.", "quantifier": "all sorted entries with characters below U+10FFFF, all words and k, every order of set iteration; all trees built by insertion, all terms and k", "why_tests_cant": "a bound on the work for all dictionaries and queries; a test can only count for some", "anchors": ["experiments/automata.py:find_all_matches", "experiments/automata.py:Matcher", "experiments/automata.py:BKNode._search"]}
{"id": "C125", "title": "The two word graphs and the trie agree", "statement": "The same calls of insert on the DAWG of experiments/dawg.py and on the Dawg of experiments/dawg-orig.py succeed for the same words, and the finished graphs give the same answer to every lookup and have the same number of nodes and of edges, whatever hash() and the order of object ids are. A Trie with the same words set in any order (default tokenizer) gives the same lookups and memberships as the DAWG and, unless it is empty, never has fewer nodes.", "quantifier": "all sequences of insert calls with words shorter than the recursion limit allows, all data, all hash functions, all injective ids, all orders of filling the trie, all words asked for", "why_tests_cant": "relates three separately written programs for all word lists; tests of one never run the others", "anchors": ["experiments/dawg.py:DAWG", "experiments/dawg-orig.py:Dawg", "experiments/find_replace_trie.py:Trie"]}
{"id": "C126", "title": "Trie.nbytes", "statement": "Whatever was done to a Trie, nbytes ends and is the sum of the sizes of the objects that belong to it (itself, its counter, its tokenizer and detokenizer, every node, every stored value and every token), each counted once however many nodes share it. It depends only on the keys and the objects, not on the order of insertion or of sorting. deep_sizeof of a Trie is its nbytes. With one object as tokenizer and detokenizer nbytes raises AssertionError whatever is in the trie.", "quantifier": "all tokenizers, all sequences of operations, all ways in which objects are shared, all sizes of objects", "why_tests_cant": "sharing of tokens and values depends on interning and on the caller; a test sees the identities of one run", "anchors": ["experiments/find_replace_trie.py:Trie.nbytes", "experiments/sizeof.py:deep_sizeof"]}
{"id": "C127", "title": "Translating a text piece by piece", "statement": "If a text is cut where no key of the trie goes across the cut, translate of the whole is translate of the first part followed by translate of the second, and finditer finds the matches of the first part and those of the second moved by its length; in particular a text may be translated line by line if no key contains a newline. If every key is one character, translate replaces every character at once, so that a swap of two characters works. Cutting elsewhere can change the result, and translating a second time can change it again.", "quantifier": "all histories of a trie with the default tokenizer, all values, all texts and cuts", "why_tests_cant": "the scanner keeps buffers and pending matches across the whole text; tests try few cuts", "anchors": ["experiments/find_replace_trie.py:Trie.translate", "experiments/find_replace_trie.py:Trie.finditer", "experiments/find_replace_trie.py:Trie._translate_tokens"]}
{"id": "C128", "title": "ApproxWordListV5b: more words, more results, another order", "statement": "When words are added to an ApproxWordListV5b, or more results are asked for, the score at each place of the result never drops, and a word listed before is only missing afterwards if top_k other words score at least as much. A smaller top_k gives the first entries of the result for a larger one, also among equal scores. Adding the same words in another order gives the same scores at the same places, and the same words when no score occurs twice; with equal scores the words listed can depend on the order of adding.", "quantifier": "all reachable lists with the same settings, all queries and top_k, all lawful roundings, all orders in which the sets are read", "why_tests_cant": "needs all pairs of vocabularies; ties and rounding hide in rare inputs", "anchors": ["experiments/gemini_optimized_v5.py:ApproxWordListV5b.lookup", "experiments/gemini_optimized_v5.py:ApproxWordListV5b.add_word"]}
{"id": "C129", "title": "Misspelt words are found", "statement": "Two words e edits apart share an n-gram whenever (2n+c)e is less than their number of n-grams (|u| + |v| + 6 - 2n), where c is 0 for edit_distance (insertions, deletions, substitutions) and 2 for damerau_levenshtein_distance (also transpositions). So if a word of a WordList is e edits from the query, every size is between 2 and N, both words have an N-gram, (2N+c)e is less than their number of N-grams and the filter size leaves the same room, then lookup with normalize=True lists the word with a score of at least 1 - (2N+c)e/(|q| + |w| + 6 - 2N), or lists top_k words that all score at least that much; in doubles the word is listed or top_k words score at least as much as it does. The same holds for WordSet.find_similar with e times the sum of 2n+c over the sizes n, divided by the number of n-grams of all sizes. ApproxWordListV5b lists the word with its score, or top_k words that score at least as much, if one of the sizes and the filter leave that room. With room for all sizes its scores have the same lower bound as those of the WordList. In ApproxWordListV3 room for one size is enough: the lookup does not raise IndexError, and if it returns it lists the word or top_k words that score at least as much. Without that room a word one edit away need not be listed at all: 'axc' is not found from 'abc' with n = 3.", "quantifier": "all reachable lists and sets, all queries, words, edits, sizes, filters and top_k, all orders in which sets are read", "why_tests_cant": "a statement about all misspellings of all words in all lists", "anchors": ["nmd/nmd_index.py:ApproxWordListV6.lookup", "nmd/nmd_word_set.py:WordSet.find_similar", "experiments/gemini_optimized_v5.py:ApproxWordListV5b.lookup", "nmd/nmd_index.py:ApproxWordListV3.lookup", "experiments/edit_distance.py:edit_distance", "experiments/edit_distance.py:damerau_levenshtein_distance"]}
{"id": "C130", "title": "WordSet: settings and repr", "statement": "After any calls the properties of a WordSet give what its constructor was given: ngram_sizes the sizes asked for, ascending and without repetition, case_sensitive the flag, unicode_normalizer the normalizer. Two sets of one class with the same repr have the same sizes, flag, number of words and normalizer name, whatever the name contains. The repr does not tell which normalizer is used: sets with the same repr can answer differently.", "quantifier": "all constructor arguments, all histories of calls, all normalizer names", "why_tests_cant": "a statement about all pairs of sets and names; tests compare a few strings", "anchors": ["nmd/nmd_word_set.py:WordSet.__repr__", "nmd/nmd_word_set.py:WordSet.ngram_sizes", "nmd/nmd_word_set.py:WordSet.case_sensitive", "nmd/nmd_word_set.py:WordSet.unicode_normalizer"]}
{"id": "C131", "title": "DAWG.step: walking prefixes", "statement": "Stepping through a text p from [0, root] of a finalized DAWG, no call of step returns None exactly if a word begins with p (or p is empty); then the list holds the number of words smaller than p and a node whose iteration gives, in order, what follows p in the words that begin with it; get_index gives these words one after the other from the counter on, final_leaf_count of the node is their number, and is_terminal_node tells whether p is a word. A call that returns None leaves the node but has added to the counter the number of words that begin with p and go on, so a later call on the same list that does find its character need not give the number of smaller words.", "quantifier": "all histories of insertions, all texts, all characters, all recursion limits above the longest word", "why_tests_cant": "a statement about all prefixes of all word lists; the effect of a failed step on its argument is not looked at by index, the only caller", "anchors": ["experiments/dawg.py:DAWG.step", "experiments/dawg.py:DawgNode.__iter__", "experiments/dawg.py:DAWG.index"]}
{"id": "C132", "title": "DAWG nodes: == and clone", "statement": "In a finalized DAWG the nodes reached by two texts are equal (==) exactly if they are one object, and exactly if the same endings follow both texts in the words. Before finalize nodes that iterate the same words can be unequal. clone of a node that is not finalized gives another node, equal to it and iterating the same words, and changes no other node; on any node of a finalized graph clone raises AssertionError.", "quantifier": "all histories of insertions, all pairs of texts, all nodes", "why_tests_cant": "a statement about all pairs of nodes of all graphs; == compares texts with escaped characters and numbers, which could coincide", "anchors": ["experiments/dawg.py:DAWGNode.__eq__", "experiments/dawg.py:DAWGNode.__hash__", "experiments/dawg.py:DAWGNode.clone", "experiments/dawg.py:DAWG.finalize"]}
