{"id": "C01", "title": "Standard distance is the minimum number of edits", "statement": "StandardDistance::between(v,w) terminates and returns the least number of single-character insertions, deletions and substitutions that turn v into w.", "quantifier": "every pair of byte strings, whatever calls were made on the object before", "why_tests_cant": "a unit test samples a handful of strings; the claim is about every pair of byte strings of every length", "anchors": ["src/liblevenshtein/distance/standard_distance.cpp: StandardDistance::between", "src/liblevenshtein/distance/memoized_distance.cpp: get, set"]}
{"id": "C02", "title": "Merge-and-split distance is the minimum number of edits", "statement": "MergeAndSplitDistance::between(v,w) terminates and returns the least number of insertions, deletions, substitutions, merges (two adjacent characters become any one) and splits (one becomes any two) that turn v into w.", "quantifier": "every pair of byte strings, whatever calls were made before", "why_tests_cant": "a unit test samples a handful of strings; the claim is about every pair of byte strings of every length", "anchors": ["src/liblevenshtein/distance/merge_and_split_distance.cpp: MergeAndSplitDistance::between"]}
{"id": "C03", "title": "Transposition distance is the cheapest alignment with swaps", "statement": "TranspositionDistance::between(v,w) terminates and returns the least cost of cutting v and w into consecutive corresponding pieces, each an equal character (cost 0) or one insertion, deletion, substitution or swap of two adjacent characters (cost 1), no piece being edited twice (optimal string alignment).", "quantifier": "every pair of byte strings, whatever calls were made before", "why_tests_cant": "a unit test samples a handful of strings; the claim is about every pair of byte strings of every length", "anchors": ["src/liblevenshtein/distance/transposition_distance.cpp: TranspositionDistance::between"]}
{"id": "C04", "title": "Standard distance is a metric", "statement": "d(x,y)=0 iff x=y, d(x,y)=d(y,x), d(x,z)<=d(x,y)+d(y,z) for StandardDistance.", "quantifier": "all byte strings x,y,z and all earlier calls", "why_tests_cant": "the axioms quantify over all triples of strings and all memo contents", "anchors": ["src/liblevenshtein/distance/distance.h: Distance (axioms 1-4)", "src/liblevenshtein/distance/standard_distance.cpp"]}
{"id": "C05", "title": "Merge-and-split distance is a metric", "statement": "The four metric axioms documented on Distance hold for MergeAndSplitDistance.", "quantifier": "all byte strings x,y,z and all earlier calls", "why_tests_cant": "the axioms quantify over all triples of strings and all memo contents", "anchors": ["src/liblevenshtein/distance/distance.h: Distance", "src/liblevenshtein/distance/merge_and_split_distance.cpp"]}
{"id": "C06", "title": "Transposition distance: which metric axioms hold", "statement": "TranspositionDistance satisfies axioms 1-3 of Distance (zero iff equal, symmetry) for all strings; axiom 4 (triangle inequality), which distance.h documents and the test suite asserts, does not hold: there are x,y,z with d(x,z) > d(x,y)+d(y,z).", "quantifier": "all byte strings x,y,z", "why_tests_cant": "the random tests assert the triangle inequality and pass because the violating triples are rare; only a proof separates the axioms that hold from the one that does not", "anchors": ["src/liblevenshtein/distance/distance.h: Distance (axiom 4)", "src/liblevenshtein/distance/transposition_distance.cpp", "test/liblevenshtein/distance/test_transposition_distance.cpp"]}
{"id": "C07", "title": "Common prefixes and suffixes do not matter", "statement": "d(z+x, z+y) = d(x,y) = d(x+z, y+z) for each of the three distances.", "quantifier": "all byte strings x,y,z", "why_tests_cant": "quantifies over all triples of strings", "anchors": ["src/liblevenshtein/distance/standard_distance.cpp", "src/liblevenshtein/distance/transposition_distance.cpp", "src/liblevenshtein/distance/merge_and_split_distance.cpp"]}
{"id": "C08", "title": "Memoization is transparent", "statement": "The value returned by between/operator() does not depend on which calls were made on the same object before, in which order, or with swapped arguments.", "quantifier": "all finite sequences of calls followed by one more call, for each of the three classes", "why_tests_cant": "the number of call histories is unbounded; a stale or mis-keyed cache entry shows only under particular histories", "anchors": ["src/liblevenshtein/distance/memoized_distance.cpp: get, set", "src/liblevenshtein/distance/symmetric_pair.cpp: SymmetricPair"]}
{"id": "C09", "title": "Distances are correct under every thread schedule", "statement": "When any number of threads call between on one shared object, under every interleaving of the atomic get and set critical sections every call that returns returns the true distance, and every schedule is finite.", "quantifier": "all numbers of threads, all call lists per thread, all interleavings", "why_tests_cant": "schedules cannot be enumerated by tests", "anchors": ["src/liblevenshtein/distance/memoized_distance.h: mutex", "src/liblevenshtein/distance/memoized_distance.cpp: get (shared_lock), set (unique_lock)"]}
{"id": "C10", "title": "Distances are bounded by lengths and by each other", "statement": "abs(|v|-|w|) <= d_standard(v,w) <= max(|v|,|w|); d_transposition <= d_standard <= 2*d_transposition; d_merge_split <= d_standard <= 2*d_merge_split.", "quantifier": "all byte strings v,w", "why_tests_cant": "quantifies over all pairs", "anchors": ["src/liblevenshtein/distance/standard_distance.cpp", "src/liblevenshtein/distance/transposition_distance.cpp", "src/liblevenshtein/distance/merge_and_split_distance.cpp"]}
{"id": "C11", "title": "Transposition distance is not the minimum number of elementary operations", "statement": "distance.h documents every Distance as the minimum number of elementary operations transforming one term into the other. For TranspositionDistance this is an upper bound only: the returned number of operations always suffices, but there are strings for which fewer operations (insert, delete, substitute, transpose) suffice.", "quantifier": "all byte strings", "why_tests_cant": "only a universal argument shows the bound and only a witness shows that it is not tight", "anchors": ["src/liblevenshtein/distance/distance.h: Distance", "src/liblevenshtein/distance/transposition_distance.cpp"]}
{"id": "C12", "title": "sorted_dawg succeeds exactly on sorted input", "statement": "sorted_dawg(iter,end) returns a dictionary iff the sequence is in ascending lexicographic (unsigned byte) order, repetitions allowed, and nullptr otherwise; it never runs into undefined behaviour.", "quantifier": "all finite sequences of byte strings", "why_tests_cant": "sequence space is unbounded", "anchors": ["src/liblevenshtein/collection/sorted_dawg.cpp: sorted_dawg, SortedDawg::add"]}
{"id": "C13", "title": "A built dictionary contains exactly its terms", "statement": "For a dictionary returned by sorted_dawg, contains(w) is true iff w is one of the given terms.", "quantifier": "all sorted sequences of byte strings and all byte strings w", "why_tests_cant": "the incremental minimisation shares suffixes; a wrong merge shows only for particular combinations of terms", "anchors": ["src/liblevenshtein/collection/sorted_dawg.cpp: add, minimize, minimized_node, finish", "src/liblevenshtein/collection/dawg.cpp: Dawg::contains"]}
{"id": "C14", "title": "size() counts the accepted add calls", "statement": "size() of a dictionary returned by sorted_dawg is the length of the input sequence; it is the number of distinct terms iff the input has no repeated term.", "quantifier": "all sorted sequences of byte strings", "why_tests_cant": "unbounded inputs; duplicates are not in the test generator (it draws from std::set)", "anchors": ["src/liblevenshtein/collection/sorted_dawg.cpp: SortedDawg::add (_size += 1)", "src/liblevenshtein/collection/dawg.h: Dawg::size"]}
{"id": "C15", "title": "Iterating a dictionary lists every term once, shortest first", "statement": "for (term : *dawg) over a dictionary built from distinct sorted terms yields each term exactly once and nothing else, in order of length and, within one length, in signed-char lexicographic order; the loop terminates.", "quantifier": "all strictly sorted sequences of byte strings", "why_tests_cant": "unbounded inputs", "anchors": ["src/liblevenshtein/collection/dawg_iterator.cpp: DawgIterator::advance, operator++, operator==", "src/liblevenshtein/collection/dawg.cpp: begin, end", "src/liblevenshtein/collection/prefix.cpp"]}
{"id": "C16", "title": "The built automaton is minimal", "statement": "In a dictionary returned by sorted_dawg no two different nodes reachable from the root accept the same set of suffixes, and every reachable node leads to a final node.", "quantifier": "all sorted sequences of byte strings", "why_tests_cant": "minimality is a statement about all pairs of nodes of all dictionaries", "anchors": ["src/liblevenshtein/collection/sorted_dawg.cpp: minimize, minimized_node", "src/liblevenshtein/collection/dawg_node.cpp: operator==, hash"]}
{"id": "C17", "title": "add accepts exactly the terms that keep the order, and a rejected add changes nothing", "statement": "During construction add(t) returns true iff t is not smaller than the previously accepted term; when it returns false the dictionary, its size and everything that can be built from it afterwards are unchanged.", "quantifier": "all histories of add calls, sorted or not", "why_tests_cant": "histories are unbounded", "anchors": ["src/liblevenshtein/collection/sorted_dawg.cpp: SortedDawg::add"]}
{"id": "C18", "title": "Every node is freed exactly once", "statement": "Whatever sequence of add calls is made, accepted or rejected, construction followed by destruction frees every allocated node exactly once, never touches a freed or null node, and leaks nothing.", "quantifier": "all histories of add calls, with or without finish/clean_up before destruction", "why_tests_cant": "use-after-free and leaks depend on which nodes were merged; no test enumerates them", "anchors": ["src/liblevenshtein/collection/sorted_dawg.cpp: clean_up, ~SortedDawg", "src/liblevenshtein/collection/dawg.cpp: ~Dawg, all_nodes", "src/liblevenshtein/collection/dawg_node.cpp: add_edge (delete existing)"]}
{"id": "C19", "title": "Dictionary equality means equal sets of terms", "statement": "For dictionaries returned by sorted_dawg on distinct sorted terms, *d1 == *d2 iff they were built from the same terms; the comparison terminates.", "quantifier": "all pairs of strictly sorted sequences", "why_tests_cant": "unbounded inputs; equality is a recursive graph comparison", "anchors": ["src/liblevenshtein/collection/dawg.cpp: Dawg::operator==", "src/liblevenshtein/collection/dawg_node.cpp: DawgNode::operator=="]}
{"id": "C20", "title": "Hash codes agree with equality", "statement": "If two nodes (or dictionaries) compare equal then std::hash gives them the same code, as std::unordered_map requires; likewise for SymmetricPair.", "quantifier": "all pairs of nodes of all heaps", "why_tests_cant": "quantifies over all graphs", "anchors": ["src/liblevenshtein/collection/dawg_node.cpp: std::hash<DawgNode>", "src/liblevenshtein/collection/dawg.cpp: std::hash<Dawg>", "src/liblevenshtein/distance/symmetric_pair.cpp: std::hash<SymmetricPair>"]}
{"id": "C21", "title": "Repeated terms and iteration", "statement": "When the sorted input repeats terms, contains is unaffected but size() counts every repetition, so iteration yields every distinct term once and then yields the last one again, once per repetition.", "quantifier": "all sorted sequences with repetitions", "why_tests_cant": "the test generator never repeats a term", "anchors": ["src/liblevenshtein/collection/sorted_dawg.cpp: add", "src/liblevenshtein/collection/dawg_iterator.cpp: advance"]}
{"id": "C22", "title": "Terms become visible at finish, and not later", "statement": "Terms accepted by add are guaranteed to be contained only once finish() has run; before it an accepted term may be invisible, and a term accepted after finish() may never become contained although add returned true and the order was respected.", "quantifier": "all histories of add and finish", "why_tests_cant": "needs the quantifier over histories to say when visibility is guaranteed; the failures are witnesses", "anchors": ["src/liblevenshtein/collection/sorted_dawg.cpp: add, finish, minimize", "src/liblevenshtein/collection/dawg.h: Dawg::add"]}
{"id": "C23", "title": "remove does nothing", "statement": "SortedDawg::remove returns false and leaves the dictionary unchanged.", "quantifier": "all dictionaries and terms", "why_tests_cant": "quantifies over all states", "anchors": ["src/liblevenshtein/collection/sorted_dawg.cpp: SortedDawg::remove"]}
{"id": "C24", "title": "Serialization round-trips", "statement": "For every dictionary returned by sorted_dawg, from_protobuf(to_protobuf(d)) is a dictionary that compares equal to d and has the same size; neither call runs into undefined behaviour.", "quantifier": "all sorted sequences of byte strings and all memory layouts (node addresses are used as ids)", "why_tests_cant": "unbounded inputs; ids are addresses, so behaviour could depend on the allocator", "anchors": ["src/liblevenshtein/serialization/serializer.cpp: to_protobuf, from_protobuf, collect_nodes, collect_edges", "proto/liblevenshtein.proto"]}
{"id": "C25", "title": "A restored dictionary behaves like the original", "statement": "contains, iteration and every query on from_protobuf(to_protobuf(d)) give the same answers as on d, the restored graph has the same number of nodes, and destroying it frees each of them exactly once.", "quantifier": "all sorted sequences, all queries", "why_tests_cant": "unbounded inputs", "anchors": ["src/liblevenshtein/serialization/serializer.cpp: to_protobuf, from_protobuf", "src/liblevenshtein/transducer/lazy_query.cpp"]}
{"id": "C26", "title": "All 256 byte values survive as labels", "statement": "Every char label, negative ones included, is restored by the cast through the uint32 message field.", "quantifier": "all 256 char values", "why_tests_cant": "finite, but the suite only samples; relevant because char is signed and the field is unsigned 32 bit", "anchors": ["src/liblevenshtein/serialization/serializer.cpp: set_label(label), (char)edge_proto.label()", "proto/liblevenshtein.proto: Edge.label"]}
{"id": "C27", "title": "Deserializing foreign messages is not safe", "statement": "from_protobuf reads every message whose edges and root name listed nodes and which has no two edges with the same source and label, without undefined behaviour, and the result accepts exactly the words the message describes. It does not check this: an edge from an unlisted node is undefined behaviour at once; the empty message (an empty file) yields a dictionary with a null root, whose iteration, comparison and destruction are undefined; a repeated edge frees a node still in use; a cyclic message yields a dictionary whose destruction never ends. For every message the outcome can be told from its numbers by replaying its edges: whether it can be read, what contains() answers for every term, whether deleting the result is undefined, ends or never ends, and whether it loses memory. If no walk from the root meets a missing node and their lengths are bounded, queries find exactly the terms of the message, even if it has dead ends or duplicate nodes, and iterating lists them in order, as many as the message says there are.", "quantifier": "all messages", "why_tests_cant": "the suite only feeds back its own output", "anchors": ["src/liblevenshtein/serialization/serializer.cpp: from_protobuf, deserialize_protobuf", "src/liblevenshtein/collection/dawg.cpp: all_nodes"]}
{"id": "C28", "title": "Standard query is exact", "statement": "Transducer<STANDARD,Candidate>(root)(q,n) yields (w,d) iff w is a dictionary term, d is the minimum number of insertions, deletions and substitutions between q and w, and d <= n.", "quantifier": "all dictionaries built by sorted_dawg, all queries q, all n from 0 to SIZE_MAX", "why_tests_cant": "soundness and completeness over all dictionaries, queries and bounds", "anchors": ["src/liblevenshtein/transducer/transducer.cpp", "src/liblevenshtein/transducer/lazy_query.cpp", "src/liblevenshtein/transducer/state_transition.cpp", "src/liblevenshtein/transducer/position_transition.cpp: STANDARD", "src/liblevenshtein/transducer/distance.cpp"]}
{"id": "C29", "title": "Transposition query is exact", "statement": "Transducer<TRANSPOSITION,Candidate> yields (w,d) iff w is a dictionary term, d is the optimal-string-alignment cost between q and w (the value of TranspositionDistance), and d <= n.", "quantifier": "all dictionaries, queries and bounds n", "why_tests_cant": "as C28", "anchors": ["src/liblevenshtein/transducer/position_transition.cpp: TRANSPOSITION", "src/liblevenshtein/transducer/merge.cpp", "src/liblevenshtein/transducer/distance.cpp", "src/liblevenshtein/transducer/lazy_query.cpp"]}
{"id": "C30", "title": "Merge-and-split query is exact", "statement": "Transducer<MERGE_AND_SPLIT,Candidate> yields (w,d) iff w is a dictionary term, d is the minimum number of insertions, deletions, substitutions, merges and splits between q and w, and d <= n.", "quantifier": "all dictionaries, queries and bounds n", "why_tests_cant": "as C28", "anchors": ["src/liblevenshtein/transducer/position_transition.cpp: MERGE_AND_SPLIT", "src/liblevenshtein/transducer/merge.cpp", "src/liblevenshtein/transducer/distance.cpp", "src/liblevenshtein/transducer/lazy_query.cpp"]}
{"id": "C31", "title": "Each candidate is yielded once, in dictionary iteration order", "statement": "The sequence of candidates is exactly the dictionary's own iteration order restricted to the terms within distance n (so: no repetition, shortest first).", "quantifier": "all dictionaries, queries, bounds and algorithms", "why_tests_cant": "order and multiplicity over unbounded inputs", "anchors": ["src/liblevenshtein/transducer/lazy_query.cpp: LazyQuery::advance", "src/liblevenshtein/collection/dawg_iterator.cpp"]}
{"id": "C32", "title": "Query and baseline metric agree", "statement": "The distance reported with a candidate equals what the corresponding Distance object returns for (term, query), for each of the three algorithms.", "quantifier": "all dictionaries, queries, bounds, algorithms and call histories of the Distance object", "why_tests_cant": "two independent implementations agreeing on all inputs", "anchors": ["src/liblevenshtein/transducer/distance.cpp", "src/liblevenshtein/distance/standard_distance.cpp", "src/liblevenshtein/distance/transposition_distance.cpp", "src/liblevenshtein/distance/merge_and_split_distance.cpp"]}
{"id": "C33", "title": "String results are the candidate results without distances", "statement": "Transducer<A,std::string> yields the same terms in the same order as Transducer<A,Candidate>.", "quantifier": "all dictionaries, queries, bounds and algorithms", "why_tests_cant": "unbounded inputs", "anchors": ["src/liblevenshtein/transducer/lazy_query.cpp: update_candidate specialisations"]}
{"id": "C34", "title": "Queries are repeatable and independent", "statement": "Running a query never changes the dictionary or the transducer: the same query asked again, or interleaved with other queries on the same transducer in any order of ++ steps, yields the same candidates.", "quantifier": "all interleavings of increments of any number of queries", "why_tests_cant": "interleavings cannot be enumerated", "anchors": ["src/liblevenshtein/transducer/transducer.cpp: operator()", "src/liblevenshtein/transducer/lazy_query.cpp: LazyIterator::begin, LazyQuery::advance"]}
{"id": "C35", "title": "max_distance 0 is exact lookup and results grow with max_distance", "statement": "With n=0 the query yields q itself iff the dictionary contains q; candidates for n are candidates for every n' >= n, with the same distances; with n >= |q| + longest term every term is yielded.", "quantifier": "all dictionaries, queries, bounds", "why_tests_cant": "unbounded inputs", "anchors": ["src/liblevenshtein/transducer/lazy_query.cpp", "src/liblevenshtein/transducer/position_transition.cpp"]}
{"id": "C36", "title": "Queries terminate", "statement": "Iterating a query to its end terminates, for every dictionary, query and max_distance, also SIZE_MAX.", "quantifier": "all dictionaries, queries, bounds", "why_tests_cant": "termination is not observable by a test", "anchors": ["src/liblevenshtein/transducer/lazy_query.cpp: LazyQuery::advance"]}
{"id": "C37", "title": "Queries are free of out-of-range accesses and arithmetic wrap-around", "statement": "No query reads outside the characteristic vector or the query string, dereferences a null state, or produces a wrong value by unsigned wrap-around, for every max_distance up to SIZE_MAX.", "quantifier": "all dictionaries, bounds n up to SIZE_MAX and queries shorter than 2^31 (2^62 if 2n < 2^31)", "why_tests_cant": "window arithmetic must be right for all combinations", "anchors": ["src/liblevenshtein/transducer/position_transition.cpp: index_of, offsets", "src/liblevenshtein/transducer/lazy_query.cpp: _a, _k, characteristic_vector", "src/liblevenshtein/transducer/distance.cpp"]}
{"id": "C38", "title": "Queries are lazy and prefix-stable", "statement": "After k increments the iterator stands on the k-th element of the full result; stopping early yields a prefix of the full result.", "quantifier": "all dictionaries, queries, bounds, and numbers of increments", "why_tests_cant": "unbounded", "anchors": ["src/liblevenshtein/transducer/lazy_query.cpp: operator++, operator*"]}
{"id": "C39", "title": "An exhausted query stays exhausted", "statement": "Once the iterator compares equal to end(), further increments keep it equal to end() and keep the last candidate, which is the empty string, with distance 0, if there was none.", "quantifier": "all queries and numbers of further increments", "why_tests_cant": "unbounded", "anchors": ["src/liblevenshtein/transducer/lazy_query.cpp: advance"]}
{"id": "C40", "title": "Matching is symmetric", "statement": "If both q and w are terms, w is a candidate for q at distance d iff q is a candidate for w at distance d.", "quantifier": "all pairs of terms, bounds and algorithms", "why_tests_cant": "unbounded", "anchors": ["src/liblevenshtein/transducer/transducer.cpp"]}
{"id": "C41", "title": "State::sort sorts", "statement": "State::sort(compare) terminates and leaves a permutation of the positions, in non-decreasing order of compare, keeping the order of equal elements.", "quantifier": "all lists of positions and all three comparators", "why_tests_cant": "unbounded lists", "anchors": ["src/liblevenshtein/transducer/state.cpp: merge_sort, merge, find_middle, sort", "src/liblevenshtein/transducer/comparator.cpp"]}
{"id": "C42", "title": "merge adds positions without duplicates", "statement": "merge<A>(state, positions) makes the state the union of both, keeps it ordered by descending (errors, index, special) and free of duplicates.", "quantifier": "all states built by merge and all position lists", "why_tests_cant": "unbounded lists", "anchors": ["src/liblevenshtein/transducer/merge.cpp"]}
{"id": "C43", "title": "What unsubsume removes", "statement": "UnsubsumeFn removes exactly the positions subsumed by a kept one with fewer errors when the state is ordered by ascending errors; on states ordered as merge leaves them (descending) it removes nothing, so states returned by StateTransition may contain subsumed positions although subsumes.h says these must be removed. Whatever the order, the rest keeps its order and every removed position is subsumed by one that remains and came before it. In ascending order and without special positions nothing that the state accepts is lost; with special positions (transpositions, merges and splits) something can be.", "quantifier": "all states", "why_tests_cant": "the claim and its failure concern all states; results are unaffected, so result-based tests cannot see it", "anchors": ["src/liblevenshtein/transducer/unsubsume.cpp", "src/liblevenshtein/transducer/merge.cpp", "src/liblevenshtein/transducer/state_transition.cpp", "src/liblevenshtein/transducer/subsumes.h"]}
{"id": "C44", "title": "What subsumes decides", "statement": "When lhs has fewer errors than rhs, a true answer of subsumes<A>(lhs,rhs,n) implies that every continuation accepted from rhs is accepted from lhs: always for STANDARD, whenever both positions are ordinary or both special, and for ordinary (not special) lhs under MERGE_AND_SPLIT. In the remaining cases (exactly one special position under TRANSPOSITION, special lhs with ordinary rhs under MERGE_AND_SPLIT) the documented inclusion fails, because the specialness of rhs is read from lhs. Conversely, for two ordinary positions a false answer is always justified: some query and continuation are accepted from rhs and not from lhs. When rhs has fewer errors than lhs the unsigned difference wraps and the answer is true for all practical indices.", "quantifier": "all positions, queries, bounds and continuations", "why_tests_cant": "semantic inclusion of infinite languages", "anchors": ["src/liblevenshtein/transducer/subsumes.cpp", "src/liblevenshtein/transducer/subsumes.h"]}
{"id": "C45", "title": "compare is a total order", "statement": "compare<A> is antisymmetric, transitive and total; it is zero only for positions equal in the fields that A uses.", "quantifier": "all positions", "why_tests_cant": "unbounded", "anchors": ["src/liblevenshtein/transducer/comparator.cpp"]}
{"id": "C46", "title": "The position list behaves like a sequence", "statement": "State's constructor, add, head, insert_after, remove, sort and StateIterator's begin, ++, insert and remove, implemented with next pointers, act on the sequence of positions like the list operations do, allocate and free exactly the positions concerned, and never touch a freed position; the destructor frees all positions once. One exception: StateIterator::insert where there is no current position (at the end, or after remove) does not insert after the last position visited but at the front of the list, after which ++ visits the list again and remove dereferences null.", "quantifier": "all states, positions, allocators and sequences of operations", "why_tests_cant": "pointer manipulation over unbounded lists", "anchors": ["src/liblevenshtein/transducer/state.cpp", "src/liblevenshtein/transducer/state_iterator.cpp", "src/liblevenshtein/transducer/merge.cpp: insert_after", "src/liblevenshtein/transducer/position.cpp"]}
{"id": "C47", "title": "A prefix is abandoned exactly when it is hopeless", "statement": "Reading a word v label by label with StateTransition from the initial state gives nullptr iff no string starting with v is within distance n of the query; otherwise the resulting state accepts exactly the continuations u for which v+u is within distance k, for each k <= n.", "quantifier": "all queries shorter than 2^31 (2^62 if 2n < 2^31), words shorter than 2^62, bounds n up to SIZE_MAX and all three algorithms", "why_tests_cant": "a statement about all extensions of all prefixes; wrong pruning loses results only for particular dictionaries", "anchors": ["src/liblevenshtein/transducer/state_transition.cpp: StateTransition::operator()", "src/liblevenshtein/transducer/position_transition.cpp", "src/liblevenshtein/transducer/lazy_query.cpp: characteristic_vector"]}
{"id": "C48", "title": "A returned dictionary cannot be extended", "statement": "Calling add on a dictionary returned by sorted_dawg returns false for a term smaller than the last one and is undefined behaviour for any other non-empty term; on a deserialized dictionary it is undefined behaviour for every non-empty term.", "quantifier": "all dictionaries and terms", "why_tests_cant": "the suite never adds to a returned dictionary; undefined behaviour cannot be observed by a test", "anchors": ["src/liblevenshtein/collection/sorted_dawg.cpp: add, clean_up, sorted_dawg", "src/liblevenshtein/serialization/serializer.cpp: from_protobuf"]}
{"id": "C49", "title": "StateTransition leaks nothing and leaves the old state alone", "statement": "Reading a label from a state that was reached by reading any word terminates without undefined behaviour; if it returns nullptr, memory is exactly as before the call; otherwise memory differs only by the new State and its positions, which use addresses that were free, so the old state is unchanged. min_distance of a state in memory is the distance of its sequence of positions.", "quantifier": "all queries shorter than 2^31 (2^62 if 2n < 2^31 for the bound n), words, bounds, algorithms, allocators, memory contents and orders of argument evaluation", "why_tests_cant": "memory safety and absence of leaks over every pointer-list configuration the automaton can reach", "anchors": ["src/liblevenshtein/transducer/state_transition.cpp: StateTransition::operator()", "src/liblevenshtein/transducer/merge.cpp", "src/liblevenshtein/transducer/unsubsume.cpp", "src/liblevenshtein/transducer/state.cpp: sort", "src/liblevenshtein/transducer/distance.cpp"]}
{"id": "C50", "title": "Transducers and queries free exactly what they allocate", "statement": "Make a transducer; begin queries on it, increment and destroy their iterators in any order; then destroy the remaining iterators and the transducer: this terminates without undefined behaviour (in particular no use after free and no double free), at every moment each iterator shows the result of its query at its place, the transducer's own objects are never changed, when all iterators are gone exactly what was allocated before they were made is allocated, and at the end exactly what was allocated before the transducer was made.", "quantifier": "all dictionaries, queries, bounds, algorithms, result types, allocators, memory contents and sequences of commands", "why_tests_cant": "all interleavings of unbounded lifetimes; leaks and double frees depend on addresses and order", "anchors": ["src/liblevenshtein/transducer/lazy_query.cpp: LazyQuery, ~LazyQuery, advance, build_intersection", "src/liblevenshtein/transducer/transducer.cpp: Transducer, ~Transducer", "src/liblevenshtein/transducer/intersection.cpp: ~Intersection", "src/liblevenshtein/transducer/state.cpp: ~State", "src/liblevenshtein/transducer/position.cpp: ~Position"]}
{"id": "C51", "title": "Objects that own memory must not be copied", "statement": "State, LazyQuery, Transducer and Dawg have destructors that free and the implicit copy constructor, so copying compiles; destroying the original and the copy is undefined behaviour whenever the original owns anything (a non-empty state, a query that has visited something, every transducer, every dictionary).", "quantifier": "all such objects in all memory layouts", "why_tests_cant": "undefined behaviour cannot be observed by a test", "anchors": ["src/liblevenshtein/transducer/state.h", "src/liblevenshtein/transducer/lazy_query.h", "src/liblevenshtein/transducer/transducer.h", "src/liblevenshtein/collection/dawg.h"]}
{"id": "C52", "title": "Iterators may be destroyed after their transducer", "statement": "Destroying the transducer first and the iterators afterwards frees everything exactly once; but beginning a query after the transducer is gone is undefined behaviour, and so is incrementing an iterator that has another result to come, as long as the transducer's address is not handed out again; an exhausted iterator may still be incremented and stays as it is. Incrementing an iterator that stands on its last result is undefined behaviour exactly if that result is empty, or is a single character and some term begins with a later character (in the order of signed characters); otherwise it ends the query as it would have with the transducer, and everything can still be freed.", "quantifier": "all dictionaries, commands, allocators and memory contents", "why_tests_cant": "lifetime orders over all histories", "anchors": ["src/liblevenshtein/transducer/transducer.cpp: ~Transducer", "src/liblevenshtein/transducer/lazy_query.cpp: ~LazyQuery, LazyIterator::begin"]}
{"id": "C53", "title": "Dictionary iterators are independent and free their prefixes", "statement": "Iterators over one dictionary may be begun, incremented (also past the end) and destroyed in any order, without undefined behaviour: each shows the term at its place in the listing of the dictionary (the last one past the end) and equals end() exactly after size() increments; each prefix is freed exactly once and nothing else is changed. Copying an iterator and destroying both is undefined behaviour.", "quantifier": "all dictionaries, allocators, memory contents and sequences of commands", "why_tests_cant": "interleavings and memory layouts cannot be enumerated", "anchors": ["src/liblevenshtein/collection/dawg_iterator.cpp", "src/liblevenshtein/collection/prefix.cpp", "src/liblevenshtein/collection/dawg.cpp: begin, end"]}
{"id": "C54", "title": "Dictionaries survive the trip through bytes and files", "statement": "Every message with numbers in range and at most INT_MAX bytes is decoded from its protobuf encoding as it was. serialize_protobuf to a file with enough room returns true, and deserialize_protobuf of that file, in the same or another process, returns a dictionary with the same terms and size and the same answers of contains.", "quantifier": "all messages; all dictionaries, node addresses, stream buffer sizes and ways of cutting the output into writes", "why_tests_cant": "unbounded inputs; labels, ids and sizes cross the varint boundaries at arbitrary places", "anchors": ["src/liblevenshtein/serialization/serializer.cpp: serialize_protobuf, deserialize_protobuf", "proto/liblevenshtein.proto"]}
{"id": "C55", "title": "Unreadable and incomplete files", "statement": "deserialize_protobuf terminates on every input and returns nullptr, changing nothing, for a missing file and for bytes that are not a message. If the process dies at any moment while serialize_protobuf writes a file, the file holds the beginning of the complete contents. Reading a file whose end is missing gives nullptr, or a dictionary that contains nothing, has size 0, has leaked all its nodes and cannot be iterated or destroyed without undefined behaviour, or a dictionary with the right terms whose size() is 0 so that iteration yields nothing; never a dictionary with some of the terms.", "quantifier": "all byte strings, all dictionaries, all crash points and all lengths of the surviving prefix", "why_tests_cant": "every crash point of every file", "anchors": ["src/liblevenshtein/serialization/serializer.cpp: serialize_protobuf (path), deserialize_protobuf", "proto/liblevenshtein.proto"]}
{"id": "C56", "title": "What the result of serialize_protobuf says", "statement": "serialize_protobuf(dawg, path) leaves in the file as many bytes of the message as there is room for (none for a message over INT_MAX bytes; the file is untouched if it cannot be opened). The result false means that something is missing. With enough room the result is true; but the result is also true when the disk fills up and the missing bytes were still in the stream's buffer, because the outcome of close() is not examined, so true does not mean that the dictionary was saved.", "quantifier": "all dictionaries, buffer sizes, amounts of room and ways of cutting the output into writes", "why_tests_cant": "disk-full behaviour at every byte", "anchors": ["src/liblevenshtein/serialization/serializer.cpp: serialize_protobuf(Dawg*, const char*)", "src/liblevenshtein/serialization/serializer.h: serialize_protobuf"]}
{"id": "C57", "title": "The example program answers from its dictionary file", "statement": "A run of the example program that finds no readable saved dictionary sorts the lines of its dictionary file, whatever their order and repetitions, answers each query typed by exactly the lines within max_distance, each once with its distance, in order of length and then of bytes, ends with code 0 after an empty line or the end of the input, frees all memory and changes no file but the one it saves to.", "quantifier": "all dictionary files (with or without a final newline, or missing), inputs, options, allocators, amounts of disk space", "why_tests_cant": "unbounded files and inputs", "anchors": ["example/src/main.cpp: main, query, prompt", "src/liblevenshtein/collection/sorted_dawg.h: sorted_dawg", "src/liblevenshtein/serialization/serializer.cpp"]}
{"id": "C58", "title": "Later runs answer from the dictionary saved first", "statement": "After a run that saved its dictionary, and any number of further runs with the same serialization path that could save, each run answers from the lines the dictionary file had in the first run, whatever happened to the dictionary file since, and whichever algorithm, distance and dictionary path are chosen now.", "quantifier": "all histories of runs, dictionary files, inputs and options", "why_tests_cant": "a statement about histories of any length; also says that changes of the dictionary file are ignored", "anchors": ["example/src/main.cpp: main", "src/liblevenshtein/serialization/serializer.cpp: deserialize_protobuf, serialize_protobuf"]}
{"id": "C59", "title": "After a crash during saving the next run gives no wrong answers", "statement": "If the program dies at any moment while saving, the next run either runs into undefined behaviour, or answers from the terms that were being saved, or from the dictionary file. The first does happen: dying before anything is written leaves an empty file, which the next run reads as a dictionary without a root.", "quantifier": "all dictionaries, crash points, inputs and options", "why_tests_cant": "every crash point of every file", "anchors": ["example/src/main.cpp: main", "src/liblevenshtein/serialization/serializer.cpp: serialize_protobuf, deserialize_protobuf"]}
{"id": "C60", "title": "Input without a final newline keeps the example program busy for ever", "statement": "If the last query is not followed by a newline the program neither ends nor fails: it answers that query again and again, because std::getline leaves the string alone once the stream is at its end.", "quantifier": "all dictionaries, queries and options", "why_tests_cant": "non-termination cannot be observed by a test", "anchors": ["example/src/main.cpp: prompt, main"]}
{"id": "C61", "title": "Command lines", "statement": "Options may come in any order and repeatedly; the last of each kind counts, what is not given has its default, and the run is refused if neither the dictionary nor the saved file exists. Nothing else is accepted; the first argument that is not valid decides the code returned. A distance that is blank leaves the default, one that does not begin with a number counts as 0, one above SIZE_MAX as SIZE_MAX, and -n as 2^64-n.", "quantifier": "all argument lists and file systems", "why_tests_cant": "unbounded argument lists; numbers of any length", "anchors": ["example/src/command_line.cpp: parse_opts, next_path", "example/src/command_line.h"]}
{"id": "C62", "title": "The lock makes shared distance functions safe", "statement": "When any number of threads share one distance function object and make any calls on it, in any interleaving of the steps inside the lock-protected sections, there is no data race on the memo, no deadlock, every thread returns the right distances, and the threads stop after a bounded number of steps.", "quantifier": "all algorithms, numbers of threads, call sequences and interleavings of the steps of lock, look-up, update and unlock", "why_tests_cant": "a test cannot exercise all interleavings, and races and deadlocks depend on the schedule", "anchors": ["src/liblevenshtein/distance/memoized_distance.cpp: MemoizedDistance::get, MemoizedDistance::set", "src/liblevenshtein/distance/memoized_distance.h: MemoizedDistance", "src/liblevenshtein/distance/symmetric_pair.cpp: SymmetricPair"]}
{"id": "C63", "title": "Distances take quadratic time and memory", "statement": "Whatever other threads do and whatever was computed before, a call between(v, w) consults or updates the memo at most 6(|v|+1)(|w|+1)+1 times, and the memo never holds more than (|v|+1)(|w|+1) entries for each call made.", "quantifier": "all algorithms, strings, call histories, numbers of threads and schedules", "why_tests_cant": "a test measures some inputs; an exponential case can hide in others", "anchors": ["src/liblevenshtein/distance/memoized_distance.cpp: MemoizedDistance::f, get, set", "src/liblevenshtein/distance/standard_distance.cpp: StandardDistance::between", "src/liblevenshtein/distance/transposition_distance.cpp: TranspositionDistance::between", "src/liblevenshtein/distance/merge_and_split_distance.cpp: MergeAndSplitDistance::between"]}
{"id": "C64", "title": "The state of a query does not grow with the query", "statement": "After reading any prefix v of a term, the state of a query with maximum distance n consists of distinct positions whose indices are within n of |v|, at most (n+1)^2 of them, plus n^2 special ones for TRANSPOSITION and MERGE_AND_SPLIT, however long the query string and the prefix are.", "quantifier": "all algorithms, query strings, distances and prefixes", "why_tests_cant": "a bound for all inputs; tests measure some states", "anchors": ["src/liblevenshtein/transducer/state_transition.cpp: StateTransition::operator()", "src/liblevenshtein/transducer/position_transition.cpp: PositionTransition", "src/liblevenshtein/transducer/merge.cpp: merge", "src/liblevenshtein/transducer/state.cpp: State::sort"]}
{"id": "C65", "title": "A query looks only at prefixes that can still match, and only as far as asked", "statement": "Iterating over a query computes a state transition for exactly those prefixes of dictionary terms whose parent prefix can be extended, by any string, to something within the distance; each once, in shortlex order. When the iterator stands at a result, exactly those prefixes up to that result have been looked at, nothing beyond. In total there is at most one transition per character of the dictionary.", "quantifier": "all dictionaries, algorithms, query strings, distances and numbers of increments", "why_tests_cant": "the amount of work is not visible in results; a test cannot show that no dictionary makes it explode", "anchors": ["src/liblevenshtein/transducer/lazy_query.cpp: LazyQuery::advance, LazyQuery::LazyQuery", "src/liblevenshtein/transducer/state_transition.cpp: StateTransition::operator()"]}
{"id": "C66", "title": "Destroying a dictionary visits every prefix", "statement": "Destroying a dictionary takes exactly one loop iteration per distinct prefix of its terms (the empty prefix included), no matter how few nodes are shared among them; so a well-formed serialized dictionary of n+1 nodes and at most 70n+75 bytes can be loaded quickly and then takes 2^(n+1) - 1 iterations to destroy.", "quantifier": "all dictionaries; all n, memories and allocators", "why_tests_cant": "exponential cost shows only on inputs that no test could wait for", "anchors": ["src/liblevenshtein/collection/dawg.cpp: Dawg::all_nodes, ~Dawg", "src/liblevenshtein/serialization/serializer.cpp: from_protobuf"]}
{"id": "C67", "title": "Dictionary hash codes collide", "statement": "std::hash of a dictionary takes at most 65536 different values, because only one byte of the size and one byte of the root's hash enter it; among any 65537 dictionaries two share a code.", "quantifier": "all dictionaries in all memories", "why_tests_cant": "an upper bound on the image of a function over all dictionaries", "anchors": ["src/liblevenshtein/collection/dawg.cpp: std::hash<Dawg>"]}
{"id": "C68", "title": "A transducer may be shared by threads without a lock", "statement": "Any number of threads run queries on the same transducer, each beginning, incrementing and destroying its own iterators, interleaved at every single access to an object. No thread meets undefined behaviour or gets stuck, there is never a data race, no schedule runs for ever, the transducer's objects never change, every thread that has finished sees exactly the results its queries have, and when all iterators are destroyed nothing has leaked and the transducer can be destroyed. Destroying it while a query runs is a race.", "quantifier": "all dictionaries, all numbers of threads, all sequences of operations in each of them, all interleavings of single memory accesses, all addresses the allocator may return", "why_tests_cant": "all schedules at the granularity of memory accesses; a test runs a handful", "anchors": ["src/liblevenshtein/transducer/lazy_query.cpp: advance, LazyQuery, ~LazyQuery", "src/liblevenshtein/transducer/transducer.cpp: Transducer::operator()", "src/liblevenshtein/transducer/state_transition.cpp", "src/liblevenshtein/transducer/merge.cpp", "src/liblevenshtein/transducer/unsubsume.cpp", "src/liblevenshtein/transducer/state.cpp", "src/liblevenshtein/transducer/intersection.cpp"]}
{"id": "C69", "title": "The format of dictionary files", "statement": "What serialize_protobuf leaves in a file is a protobuf message in the format of proto/liblevenshtein.proto, described without reference to the code, in which the paths from the root to final nodes spell exactly the terms; so any protobuf implementation can read it. Conversely every sequence of bytes that is such a message for a well-formed graph, whoever wrote it and in whatever order of fields, packed or not, with overlong numbers or repeated single fields, is read as the dictionary of the paths it describes. Bytes that are no such message are refused with nullptr. Fields that a later version of the schema might add are ignored wherever they stand.", "quantifier": "all dictionaries, all byte sequences up to INT_MAX bytes, all memories and allocators", "why_tests_cant": "interoperability concerns files this program never wrote, in every legal encoding", "anchors": ["src/liblevenshtein/serialization/serializer.cpp: serialize_protobuf, deserialize_protobuf, to_protobuf, from_protobuf", "proto/liblevenshtein.proto: Dictionary"]}
{"id": "C70", "title": "Comparing the iterators of a query", "statement": "An iterator over the results of a query compares equal to end(), and to every other iterator of its type, exactly when its results are used up: after k increments iff there are at most k results. The comparison is not symmetric: end() is equal to nothing, not even to itself, so a loop that compares the other way round (end != it) never ends, although each of its steps is defined.", "quantifier": "all algorithms, result types, dictionaries, queries, bounds and numbers of increments", "why_tests_cant": "that a loop ends for every dictionary and query, or never ends, is not observable by a test", "anchors": ["src/liblevenshtein/transducer/lazy_query.cpp: LazyQuery::operator==, LazyIterator::end", "src/liblevenshtein/transducer/lazy_query.h: LazyQuery()"]}
{"id": "C71", "title": "Queries when memory runs out", "statement": "Queries are begun, incremented and destroyed in any order while any allocation may throw std::bad_alloc, and the program catches it and goes on, also with the iterators whose increment has thrown. There is no undefined behaviour and every destructor works. What an iterator shows is a subsequence of the results of its query; if none of its increments has thrown it is a prefix, and all of them at the end. Objects that were there before are unchanged; if nothing was thrown nothing is left over. After an exception the iterator equals end(), its old value is kept, results can be lost, and objects leak.", "quantifier": "all dictionaries, queries, bounds, algorithms, result types, allocators, memory contents, sequences of commands and points of failure", "why_tests_cant": "any of an unbounded number of allocations may fail, in any state of any number of queries", "anchors": ["src/liblevenshtein/transducer/lazy_query.cpp: LazyQuery, ~LazyQuery, advance, build_intersection, update_candidate", "src/liblevenshtein/transducer/transducer.cpp: Transducer", "src/liblevenshtein/transducer/state_transition.cpp: operator()", "src/liblevenshtein/transducer/position_transition.cpp: operator()"]}
{"id": "C72", "title": "Building dictionaries when memory runs out", "statement": "Any allocation made by add(), finish() or sorted_dawg may throw std::bad_alloc. A program that catches the exception may go on calling finish() and contains() and may destroy the dictionary: there is no undefined behaviour, and afterwards at most one node is left over, none if add() never threw. The dictionary contains only accepted terms and perhaps the term whose call threw; the terms it lost all begin with the same non-empty beginning of the last term. sorted_dawg gives what it gives with enough memory, or it throws and leaves what was there untouched, or, only for a list out of order, the program ends in a destructor. A finite number of allocations is enough. But sorted_dawg leaks when it throws, destroying a dictionary needs memory, and a call of add() that threw must not be repeated.", "quantifier": "all lists of terms, allocators, memory contents and points of failure in every call", "why_tests_cant": "any of an unbounded number of allocations may fail, in any state of the construction", "anchors": ["src/liblevenshtein/collection/sorted_dawg.cpp: add, finish, minimize, clean_up, ~SortedDawg, sorted_dawg", "src/liblevenshtein/collection/dawg_node.cpp: add_edge", "src/liblevenshtein/collection/dawg.cpp: all_nodes, ~Dawg"]}
{"id": "C73", "title": "Shared distance functions when memory runs out", "statement": "Any number of threads share one distance function. Any allocation made by a call may throw std::bad_alloc, and the threads catch it and go on with their next calls. There is no data race and no deadlock, and the lock is always given back. Every call that returns gives the right distance, also for strings whose calculation an exception cut off earlier. The calls that fail are exactly as many as the exceptions, and the threads come to an end.", "quantifier": "all algorithms, numbers of threads, lists of calls, interleavings and points of failure", "why_tests_cant": "the failures and the interleavings multiply, and a wrong memo entry would show only in a later call", "anchors": ["src/liblevenshtein/distance/memoized_distance.cpp: get, set", "src/liblevenshtein/distance/standard_distance.cpp: between", "src/liblevenshtein/distance/transposition_distance.cpp: between", "src/liblevenshtein/distance/merge_and_split_distance.cpp: between"]}
{"id": "C74", "title": "How deep the recursion goes", "statement": "The recursive functions nest as deep as the data: a distance of v and w needs at most |v| + |w| nested calls, and exactly that many if v and w have no character in common; hashing a dictionary, comparing two equal ones and building one need one call more than the longest term is long; so does the text of a dictionary iterator or a query result; destroying a state needs one call per position; only sorting a state is logarithmic.", "quantifier": "all strings, dictionaries, states and stack depths", "why_tests_cant": "a test uses short strings and never reaches the end of the stack", "anchors": ["src/liblevenshtein/distance/standard_distance.cpp: between", "src/liblevenshtein/distance/transposition_distance.cpp: between", "src/liblevenshtein/distance/merge_and_split_distance.cpp: between", "src/liblevenshtein/collection/dawg_node.cpp: operator==, std::hash<ll::DawgNode>", "src/liblevenshtein/collection/dawg.cpp: operator==, std::hash<ll::Dawg>", "src/liblevenshtein/collection/prefix.cpp: operator<<", "src/liblevenshtein/transducer/intersection.cpp: operator<<", "src/liblevenshtein/transducer/state.cpp: merge_sort, ~State", "src/liblevenshtein/transducer/position.cpp: ~Position"]}
{"id": "C75", "title": "The hash table inside a distance function", "statement": "The distances are memoized in a hash table. Whatever calls are made, however the keys collide, and whenever the table grows, the calls return the right distances and the table has at most one entry for a pair; this needs that the hash of a pair does not depend on the order of the two strings. The lengths are cast to int: for strings of 2^31 to 2^32 - 8 characters every call is undefined behaviour.", "quantifier": "all algorithms, lists of calls and policies of growth", "why_tests_cant": "collisions and rehashing depend on the hash values of all pairs asked so far; strings of 2 GB are not tested", "anchors": ["src/liblevenshtein/distance/memoized_distance.cpp: get, set", "src/liblevenshtein/distance/memoized_distance.h: memo", "src/liblevenshtein/distance/symmetric_pair.cpp: SymmetricPair, operator==, std::hash<SymmetricPair>"]}
{"id": "C76", "title": "What is printed", "statement": "The example program prints its configuration and then, for every query, the question and one line for each right answer, and nothing on the error output; from this text and the queries the options and the answers can be read back, whatever characters the terms and paths contain. A refused command line prints nothing on the standard output and says what is wrong on the error output. The help text mentions every option and the default distance, in lines of at most 80 characters. The text of a pair of words determines the words if they contain no quotation marks (otherwise it may not); the text of a node says whether it is final and which labels its edges have; the text of a dictionary says how many terms it has and the address of its root, so that no two dictionaries existing at a time are printed alike.", "quantifier": "all settings, dictionaries and lists of queries; all pairs, nodes and dictionaries", "why_tests_cant": "ambiguous output shows only for particular terms and paths", "anchors": ["example/src/main.cpp: main, query, prompt", "example/src/command_line.cpp: parse_opts, print_help, print_config", "src/liblevenshtein/distance/symmetric_pair.cpp: operator<<", "src/liblevenshtein/collection/dawg_node.cpp: operator<<", "src/liblevenshtein/collection/dawg.cpp: operator<<"]}
{"id": "C77", "title": "Threads that build, read and delete dictionaries", "statement": "Any number of threads may at the same time build dictionaries of their own (at one go or term by term), read and query them and dictionaries that all of them share, compare and hash them, copy them by serialization and delete them, without a lock, and a single thread may have any number of dictionaries under construction at once: nothing is undefined, there are no data races, no thread waits for another, every command does and returns what it would if its dictionary were the only one, dictionaries of others are not changed, and when all are deleted exactly the memory that was in use before is in use. Reading a dictionary that another thread is building or deleting is a data race and needs a lock.", "quantifier": "all numbers of threads, all lists of commands, all schedules of single accesses to nodes, all choices of addresses by the allocator", "why_tests_cant": "races and dependence on addresses show only in particular schedules", "anchors": ["src/liblevenshtein/collection/sorted_dawg.cpp: SortedDawg", "src/liblevenshtein/collection/dawg.cpp: Dawg", "src/liblevenshtein/collection/dawg_node.cpp: DawgNode", "src/liblevenshtein/collection/dawg_iterator.cpp: DawgIterator", "src/liblevenshtein/collection/dawg.h: sorted_dawg", "src/liblevenshtein/transducer/lazy_query.h: LazyQuery", "src/liblevenshtein/serialization/serializer.cpp: to_protobuf, from_protobuf"]}
{"id": "C78", "title": "The project's own tests", "statement": "The randomized tests of the project pass for every input they could be given, not only those that are drawn: the tests of states, positions, transitions, prefixes, nodes, dictionaries, distances, transducers and files, in any order of evaluation and with one distance object for all of them, and they give back all memory, except that the tests of nodes leave one node behind for every label. Two tests are wrong: the triangle inequality of TranspositionDistance fails for some strings, and so does the assertion that different pairs of strings have different hash codes. The tests of transducers and of iterating notice mistakes: on any memory and dictionary, however made, they pass only if the queries yield exactly the terms within the distance, each once and with its distance.", "quantifier": "all arguments of the tests (lists of positions, strings, sets of labels and of strings of admissible lengths, maximum distances), all allocators and all runs of several tests", "why_tests_cant": "the tests themselves draw only a few arguments at random; that two of them can fail has not been noticed", "anchors": ["test/liblevenshtein/transducer/test_state.cpp", "test/liblevenshtein/transducer/test_merge.cpp", "test/liblevenshtein/transducer/test_transducer.cpp", "test/liblevenshtein/collection/test_dawg_node.cpp", "test/liblevenshtein/collection/test_sorted_dawg.cpp", "test/liblevenshtein/collection/test_prefix.cpp", "test/liblevenshtein/collection/test_transition.cpp", "src/liblevenshtein/collection/transition.cpp: operator==", "test/liblevenshtein/distance/", "test/liblevenshtein/serialization/test_protobuf_serializer.cpp", "test/liblevenshtein/test/utils/test_comparators.cpp"]}
{"id": "C79", "title": "The hash table inside a dictionary under construction", "statement": "While a dictionary is built its nodes are kept in a hash table. Whether or not the implementation stores hash codes with the entries, however the codes collide and whenever the table grows, sorted_dawg succeeds exactly on sorted input and the dictionary contains exactly its terms; it is the same node for node. At any time between the calls of add every key has the hash code it had when it was inserted, although that depends on other nodes, no two keys are equal, and the node stored under a key equals it.", "quantifier": "all sequences of terms, all allocators, all growth policies of the table, with and without stored hash codes", "why_tests_cant": "a key whose code changes, or a collision that is handled wrongly, shows only with particular terms, table sizes and standard libraries", "anchors": ["src/liblevenshtein/collection/sorted_dawg.h: minimized_nodes", "src/liblevenshtein/collection/sorted_dawg.cpp: minimized_node, minimize", "src/liblevenshtein/collection/dawg_node.cpp: std::hash<DawgNode>, operator=="]}
{"id": "C80", "title": "A dictionary must outlive its iterators", "statement": "After `delete dawg`, incrementing a query that stands on a result is undefined behaviour, for every result including the last; an exhausted query may still be incremented and stays at the end. An iterator over the terms may not be incremented unless it stands on the last term or beyond; there it moves as it would have. Every other use of the deleted dictionary (contains, begin, hash, ==, serialization, a new query, a second delete) is undefined.", "quantifier": "all dictionaries, algorithms, result types, queries, distances and numbers of increments before the deletion", "why_tests_cant": "whether a dangling pointer is followed depends on how far the iterator has come; a run that reads freed memory usually passes", "anchors": ["src/liblevenshtein/transducer/lazy_query.cpp: advance", "src/liblevenshtein/collection/dawg_iterator.cpp: advance", "src/liblevenshtein/collection/dawg.cpp: ~Dawg", "src/liblevenshtein/collection/sorted_dawg.cpp: ~SortedDawg"]}
{"id": "C81", "title": "Iterating when memory runs out", "statement": "If ++ on an iterator over a dictionary throws std::bad_alloc and the program goes on, there is no undefined behaviour; the increments that return show some of the terms that follow, in the order of the listing, and after those the last one again and again; all of them if nothing threw. The iterator equals end() after size() increments that returned, even if terms were lost. Destroying it frees everything but at most one prefix for each increment that threw. begin() either gives what it would with enough memory or throws and changes nothing that was there, but loses what it had allocated.", "quantifier": "all dictionaries, allocators, memory contents, numbers of increments, and allocations at which memory runs out", "why_tests_cant": "every allocation can fail; what is lost depends on the dictionary", "anchors": ["src/liblevenshtein/collection/dawg_iterator.cpp", "src/liblevenshtein/collection/prefix.cpp"]}
{"id": "C82", "title": "Saving and loading when memory runs out", "statement": "For every dictionary there is a number of allocations from which on saving it to a file is as with unlimited memory. With fewer, serialize() throws: the dictionary is unchanged, the message object is lost unless it could not be allocated, and the file, if it could be opened, is left empty whatever it contained. Reading a message that makes sense takes exactly one allocation per final node, two per node, one per edge and one for the dictionary. With fewer there is an exception: everything that was there is unchanged, and the nodes made so far are lost, as many as half the allocations left after the final nodes, rounded up, and at most all of them.", "quantifier": "all dictionaries, files, contents the file had before, messages, allocators, memory contents, and allocations at which memory runs out", "why_tests_cant": "every allocation can fail; what is lost depends on the dictionary", "anchors": ["src/liblevenshtein/serialization/serializer.cpp", "src/liblevenshtein/serialization/serializer.h"]}
{"id": "C83", "title": "How often building a dictionary hashes nodes", "statement": "While a dictionary is built, the hash function of nodes is called at least once and at most twice for every character of every prefix of the accepted terms, each prefix taken once; rejected terms cost nothing. Exactly, it is called once for every character of every prefix, and, for one prefix of every group of non-empty prefixes that have the same endings, once for every prefix that begins with it. So there are at most 2 L calls for every character that is added, if no term is longer than L; but a single term takes a number of calls that is quadratic in its length. Hashing a finished dictionary takes exactly one call for every prefix of its terms.", "quantifier": "all sequences of terms offered to add, allocators, memory contents; all dictionaries", "why_tests_cant": "the cost depends on all terms and all shared prefixes", "anchors": ["src/liblevenshtein/collection/sorted_dawg.cpp", "src/liblevenshtein/collection/dawg_node.cpp", "src/liblevenshtein/collection/dawg.cpp"]}
{"id": "C84", "title": "A query over a dictionary that is still being built is a snapshot", "statement": "A query or an iterator may be begun before finish(). It yields the terms that could be found then: the accepted ones that do not begin like the one accepted last. Terms added later, finish() and clean_up() between its increments do not disturb it: there is no undefined behaviour and the results are the same. If the first answer is the empty term, the snapshot is taken by the first increment instead. A range-for over a dictionary that is not finished takes size() steps all the same, so it repeats its last term, or lists the empty term although that was never added.", "quantifier": "all sequences of terms before and after the query is begun, all interleavings of add, finish and clean_up with increments, all algorithms, result types, queries and distances, allocators", "why_tests_cant": "what a suspended query will read depends on all later calls and on where nodes are allocated", "anchors": ["src/liblevenshtein/collection/sorted_dawg.cpp: add, finish, clean_up, minimize", "src/liblevenshtein/collection/dawg_iterator.cpp", "src/liblevenshtein/transducer/lazy_query.cpp"]}
{"id": "C85", "title": "Saving and comparing a dictionary that is still being built", "statement": "If a dictionary is saved before finish(), the file holds what can be found then: the loaded dictionary contains exactly the accepted terms that do not begin like the one accepted last, queries yield those, and deleting it frees everything; but its size() counts all accepted terms. So the last term is lost, unless it is empty. Two dictionaries under construction are equal exactly if the same terms can be found and as many were accepted, and then have the same hash code; different terms may thus compare equal until the dictionaries are finished.", "quantifier": "all sequences of terms offered before saving or comparing, allocators, memory contents, queries", "why_tests_cant": "a test would have to know which terms are still unregistered", "anchors": ["src/liblevenshtein/collection/sorted_dawg.cpp: add, finish", "src/liblevenshtein/collection/dawg.cpp: operator==, std::hash<Dawg>", "src/liblevenshtein/serialization/serializer.cpp: to_protobuf, from_protobuf"]}
{"id": "C86", "title": "Temporary files and settings of the tests", "statement": "gen_temp_path returns a path that does not exist: the directory, the prefix, ten random digits or letters (never a z; every other string can occur) and the extension with exactly the dot it needs. It ends if and only if the random numbers ever give a name that is not taken; every name of that form that is not taken is possible, and when all are taken it never ends. When the program ends, exactly the paths that were handed out are removed and nothing else. No path is handed out twice as long as each is used before the next is asked for and none disappears; without that it can be. The settings written for the test library are read back as configured if no value contains a blank; a value with a blank can set something else.", "quantifier": "all sequences of random numbers, files, prefixes, extensions and histories; all settings", "why_tests_cant": "the tests do not test their own helpers, and collisions are rare", "anchors": ["test/liblevenshtein/test/utils/file_utils.cpp: gen_rand_str, gen_temp_path", "test/liblevenshtein/config/rapidcheck_parser.cpp: RapidCheckParser::parse"]}
{"id": "C87", "title": "Several dictionaries in one stream", "statement": "If several dictionaries without common nodes are written to one output stream, reading it gives one dictionary with exactly the terms of the last: lookups, queries and iteration are those of the last one. The size is that of the last one that is not empty, so that iterating over an empty last dictionary repeats the empty term. The nodes of all others are created too and are lost, exactly those, when the result is deleted. If one dictionary with a term of at least one character is written to a stream twice, reading it, or any lookup that begins as a term does and deleting the result, is undefined behaviour.", "quantifier": "all lists of dictionaries in one memory, all buffer sizes, pieces and allocators; all strings and queries", "why_tests_cant": "the tests write one dictionary to one file; what is read depends on the addresses of all nodes", "anchors": ["src/liblevenshtein/serialization/serializer.cpp: serialize_protobuf(Dawg*, std::ostream&), deserialize_protobuf(std::istream&), from_protobuf", "proto/liblevenshtein.proto"]}
{"id": "C88", "title": "The hash functions shipped with the library agree", "statement": "For every key, length, seed and address: MurmurHashNeutral2 gives on machines of either byte order what MurmurHash2 gives on little-endian ones; MurmurHashAligned2 gives what MurmurHash2 gives and reads every word at a multiple of its size; feeding a CMurmurHash2A, new or used before, with any pieces of a key gives what MurmurHash2A gives for the whole key. Every function ends, reads nothing outside of the key, and its value depends on nothing but the bytes of the key, its length and the seed.", "quantifier": "all keys, lengths, seeds, addresses and contents of memory; all ways of cutting a key into pieces", "why_tests_cant": "the tests never call these functions; agreement for all alignments, lengths and cuts cannot be enumerated", "anchors": ["third-party/MurmurHash2.cpp: MurmurHash2, MurmurHash64B, MurmurHash2A, CMurmurHash2A, MurmurHashNeutral2, MurmurHashAligned2", "third-party/MurmurHash3.cpp: MurmurHash3_x86_32, MurmurHash3_x86_128, MurmurHash3_x64_128"]}
{"id": "C89", "title": "Keys that never collide", "statement": "Two keys of the same length that differ within one block have different hashes, for every seed: blocks of 4 bytes for MurmurHash2, its neutral and aligned variants, MurmurHash2A and MurmurHash3_x86_32, of 8 bytes for MurmurHash64B and for MurmurHash64A, which the library uses, and of 16 bytes for the 128-bit functions. One key has different hashes for different seeds. Hence two pairs of strings that share one member and whose other members have the same length and differ within one block have different hash codes.", "quantifier": "all keys, seeds and pairs of strings", "why_tests_cant": "a test can only find that some keys do not collide", "anchors": ["third-party/MurmurHash2.cpp", "third-party/MurmurHash3.cpp", "src/liblevenshtein/distance/symmetric_pair.cpp: std::hash<SymmetricPair>"]}
{"id": "C90", "title": "Beyond the limits of int", "statement": "contains() of a string of more than INT_MAX characters has undefined behaviour iff a term begins with its first INT_MAX characters, and is false otherwise. A query longer than INT_MAX characters is answered like any other if 2n+1 <= INT_MAX for its bound n; if not, it has undefined behaviour when the first label has to be read, that is, at once, or after the empty term has been yielded, unless no term but the empty one exists, in which case the results are right.", "quantifier": "all dictionaries, strings and bounds up to SIZE_MAX", "why_tests_cant": "nobody tests with strings of two billion characters; the counters overflow only there", "anchors": ["src/liblevenshtein/collection/dawg.cpp: contains", "src/liblevenshtein/transducer/lazy_query.cpp: characteristic_vector, advance", "src/liblevenshtein/transducer/transducer.cpp: operator()"]}
{"id": "C91", "title": "Queries that are related", "statement": "If few terms are among many and n <= n', the query of the few with n yields exactly what the query of the many with n' yields that is among the few and within n, in the same order with the same distances. What STANDARD finds the other algorithms find with a distance not larger; what they find STANDARD finds with twice the bound. For all algorithms but TRANSPOSITION, what a query for a result v of a query for q finds is found by the query for q with the sum of the bounds. No query follows a term beyond |q|+n+1 characters.", "quantifier": "all pairs of dictionaries of which one is contained in the other, however they were made, all queries within the limits, bounds and algorithms", "why_tests_cant": "a relation between runs on all pairs of dictionaries and queries", "anchors": ["src/liblevenshtein/transducer/transducer.cpp: operator()", "src/liblevenshtein/transducer/lazy_query.cpp: advance", "src/liblevenshtein/transducer/state_transition.cpp: operator()"]}
{"id": "C92", "title": "What a query and an iterator hold in memory", "statement": "An iterator over the results of a query that has been incremented k times holds, beyond what was allocated before, exactly one Intersection and one State for each prefix of a term that is worth keeping (some string that begins with it is within the bound) and not after the current result, and at most (n+1)^2 positions for each (STANDARD; (n+1)^2+n^2 else). Several iterators at a time, begun, incremented and destroyed in any order, hold together what each would hold alone. An iterator over a dictionary holds one Prefix for the empty prefix and for each prefix that extends by one character a prefix not after the current term; at the end, for each prefix of a term.", "quantifier": "all dictionaries, queries within the limits, bounds, algorithms, allocators, numbers of increments, contents of memory before", "why_tests_cant": "memory held at every moment of every iteration", "anchors": ["src/liblevenshtein/transducer/lazy_query.cpp: LazyIterator, update_candidate, advance", "src/liblevenshtein/transducer/state_transition.cpp: operator()", "src/liblevenshtein/collection/dawg_iterator.cpp: DawgIterator, advance"]}
{"id": "C93", "title": "How many nodes exist while a dictionary is built, and after", "statement": "While terms are added to a builder, and after finish(), there are exactly as many nodes as the accepted terms have different prefixes: nodes replaced by equal ones are kept. When sorted_dawg has returned, there are exactly as many as the prefixes that are not empty have sets of endings, plus the root. For all strings of length n over two letters these are 2^(n+1)-1 and n+1.", "quantifier": "all histories of additions in any order, all dictionaries, contents of memory before and allocators", "why_tests_cant": "memory held at every moment of every construction", "anchors": ["src/liblevenshtein/collection/sorted_dawg.cpp: operator+=, finish, minimize, clean_up, push_suffix, sorted_dawg"]}
{"id": "C94", "title": "What comparing and saving dictionaries costs", "statement": "== of two dictionaries of equal size compares, depth first and once each, exactly the pairs of nodes that the common prefixes of their terms lead to, up to the first prefix at which a difference is noticed (a prefix only of the former, a term only of one, or different numbers of next characters); of dictionaries with the same terms, every prefix, however few nodes there are. Saving calls each of its two recursive functions once for every edge saved, and once more.", "quantifier": "all pairs of dictionaries in memory, however they were made", "why_tests_cant": "a count for all pairs of dictionaries", "anchors": ["src/liblevenshtein/collection/dawg.cpp: operator==", "src/liblevenshtein/collection/dawg_node.cpp: operator==", "src/liblevenshtein/serialization/serializer.cpp: collect_nodes, collect_edges, to_protobuf"]}
{"id": "C95", "title": "How large dictionaries and their files are", "statement": "Every dictionary is minimal, also one made with add and finish() and one restored from a message: no two nodes accept the same strings. So the message saved has one node for the root and one for every set of endings the other prefixes have, as many final nodes as of these are terms, and as many edges as characters can follow them; the file takes at most 10 bytes a node, 10 more a final node, 30 an edge and 44. All strings of length n over two letters take n+1 nodes and 2n edges.", "quantifier": "all dictionaries, however they were made", "why_tests_cant": "a count for all dictionaries", "anchors": ["src/liblevenshtein/collection/sorted_dawg.cpp: minimize, finish", "src/liblevenshtein/serialization/serializer.cpp: to_protobuf, from_protobuf, serialize_protobuf"]}
{"id": "C96", "title": "The cost of a query does not grow with the dictionary", "statement": "Let s be the number of different characters in the dictionary, m the length of the query, n the distance, and K = 2s+1 (2s+2 for TRANSPOSITION, s^2+3s+1 for MERGE_AND_SPLIT). Then, however many terms there are and however long they are, there are at most X = ((m+1)K+1)^n results; iterating computes at most s(m+1)X state transitions; and the iterator never holds more than (m+1)X Intersections and as many States, with at most (n+1)^2 positions each (plus n^2 for the other two algorithms).", "quantifier": "all dictionaries, queries, distances, algorithms, allocators and numbers of increments", "why_tests_cant": "a bound for all dictionaries", "anchors": ["src/liblevenshtein/transducer/lazy_query.cpp: LazyQuery, operator++", "src/liblevenshtein/transducer/state_transition.cpp: StateTransition"]}
{"id": "C97", "title": "A query needs a bounded number of allocations", "statement": "If P is the number of prefixes of terms that are worth looking at (C65) and S the largest number of positions of a state (C64), then beginning a query and going through any number of its results makes at most 2 + (4S+7)P allocations in all: if that many allocations succeed, nothing throws, and iterator and memory are as they would be with unlimited memory. With C96 this gives a number that depends only on the query, the distance, the algorithm and the number of different characters: a query that fits in memory does so however large the dictionary.", "quantifier": "all dictionaries, queries, distances, algorithms, allocators, orders of sorting and numbers of increments", "why_tests_cant": "a bound for all dictionaries and all failing allocators", "anchors": ["src/liblevenshtein/transducer/lazy_query.cpp: LazyQuery, advance", "src/liblevenshtein/transducer/intersection.cpp: Intersection", "src/liblevenshtein/transducer/state_transition.cpp: StateTransition", "src/liblevenshtein/transducer/merge.cpp: MergeFn", "src/liblevenshtein/transducer/state_iterator.cpp: insert, copy"]}
{"id": "C98", "title": "What looking up a term and iterating cost", "statement": "contains follows one edge for each proper prefix of the string that is also a prefix of a term: at most one per character, however many terms there are. An iterator over a dictionary that shows its k-th term has looked at exactly the prefixes of terms that do not come after that term, each once; the whole iteration looks at each distinct prefix once (not at each node once: nodes are shared by prefixes).", "quantifier": "all dictionaries, strings and numbers of increments", "why_tests_cant": "a statement about work for all dictionaries", "anchors": ["src/liblevenshtein/collection/dawg.cpp: contains, begin", "src/liblevenshtein/collection/dawg_iterator.cpp: DawgIterator, advance, operator++"]}
{"id": "C99", "title": "How often building a dictionary compares nodes", "statement": "If prefixes with different endings never lead to nodes with the same hash code, then building a dictionary calls == of nodes once for every character of every prefix of the accepted terms, each prefix taken once, except that for one prefix of every group of non-empty prefixes with the same endings the prefixes that begin with it are not counted: a node is compared only with the one that replaces it. Together with the calls of the hash function (C83) these are exactly two calls for every character of every prefix. With collisions there are never fewer, and at most 2g times as many as the prefixes have characters, if there are g groups. Collisions do happen, because only one byte of the hash code of a child is used: a term of n equal characters takes a number of calls that is cubic in n, while the number of calls of the hash function is quadratic.", "quantifier": "all sequences of calls of add, all memories and allocators; all lengths of a term of equal characters", "why_tests_cant": "a statement about work for all inputs", "anchors": ["src/liblevenshtein/collection/sorted_dawg.cpp: minimized_node, minimize, add, finish", "src/liblevenshtein/collection/dawg_node.cpp: operator==, std::hash<DawgNode>"]}
{"id": "C100", "title": "Nodes made and linked by hand", "statement": "A program may make nodes, with or without a map of edges, mark them final or not and link them with labels, in any order, and nodes may be shared or form cycles. As long as it uses no node that was replaced, and replaces a node only when nothing else leads to it, every node then says whether it is final as it was made or marked last; transition and for_each_edge give the nodes it was linked to last, in the order of the signed labels; a dictionary with that node as its root contains the terms that lead to a final node; linking a label again frees the node it led to and nothing else, and no other memory changes. The condition is needed: linking a label again to the node it leads to already, or to another node while the old one is shared, leaves an edge to freed memory, and replacing a node by a call on itself is undefined.", "quantifier": "all histories of calls, all allocators and initial memories, all terms shorter than 2^31 characters", "why_tests_cant": "histories are unbounded, and reading freed memory need not be visible in a test", "anchors": ["src/liblevenshtein/collection/dawg_node.cpp: DawgNode, is_final, add_edge, transition, for_each_edge", "src/liblevenshtein/collection/dawg.cpp: contains"]}
{"id": "C101", "title": "Dictionaries made of nodes linked by hand", "statement": "A dictionary constructed from a node that a program made and linked by hand, with a number of terms that need not be right, behaves like any other as long as no node leads back to itself: queries give exactly the terms that lead from the root to a final node and are near enough, each once, with their distances; iterating lists as many terms as the dictionary was told there are, in order, repeating the last one if there are fewer; two such dictionaries are equal if they were told the same number of terms, have the same terms and the same strings lead to a node; the destructor frees every node one can get to from the root, also shared ones, once, and nothing else. If some node leads back to itself, the destructor, comparing the dictionary with itself and computing its hash code never end.", "quantifier": "all orderly histories of calls on nodes, all roots, stated sizes, queries, distances and algorithms", "why_tests_cant": "the graphs are unbounded, and freeing a shared node twice or not ending cannot be seen by a finite test", "anchors": ["src/liblevenshtein/collection/dawg.cpp: Dawg, ~Dawg, all_nodes, operator==, hash", "src/liblevenshtein/collection/dawg_iterator.cpp: advance", "src/liblevenshtein/collection/dawg_node.cpp: add_edge, operator==", "src/liblevenshtein/transducer/lazy_query.h: advance"]}
{"id": "C102", "title": "Dictionaries that go round", "statement": "A dictionary whose nodes were linked by hand, or that was read from a message, may lead from a node back to it, and then has endlessly many paths. A query on it still ends without undefined behaviour and gives exactly the terms that are near enough, each once, with their distances, shorter ones first, and one may stop after any answer. Iterating gives the first terms in order, as many as the dictionary was told there are, if it has at least one term more; if it has no more than it was told, iterating never ends, because the iterator looks for one term more than it gives (with no terms at all, begin() never returns).", "quantifier": "all orderly histories of calls on nodes and all messages whose reachable nodes exist, with any cycles; all queries with |q| + n + 1 < 2^62, all algorithms and stated sizes", "why_tests_cant": "the graphs and their terms are unbounded, and not ending cannot be seen by a finite test", "anchors": ["src/liblevenshtein/transducer/lazy_query.h: advance, operator++", "src/liblevenshtein/collection/dawg_iterator.cpp: advance, operator++", "src/liblevenshtein/collection/dawg.cpp: begin, end", "src/liblevenshtein/serialization/serializer.cpp: from_protobuf"]}
{"id": "C103", "title": "Saving any dictionary", "statement": "to_protobuf ends without undefined behaviour for every dictionary whose reachable nodes exist, also if its nodes were linked by hand or read from somebody else's message, and also if one can go round in it, although its destructor, operator== and hash do not end then. The message lists every reachable node, final node and edge once. Reading it, in any memory, gives a dictionary that cannot be told apart: contains, iterating, hash and every query have the same outcome step by step, also where they are undefined or never end; other memory is untouched; its destructor ends exactly when that of the saved one does and gives back what was taken.", "quantifier": "all allocators, histories of node calls, messages, sizes, terms, algorithms, distances and memories", "why_tests_cant": "Round trips in tests are made with a few dictionaries that add() built; the shapes of graphs, with sharing and with cycles, are endless, and non-termination cannot be observed.", "anchors": ["src/liblevenshtein/serialization/serializer.cpp: to_protobuf, collect_nodes, collect_edges, from_protobuf", "src/liblevenshtein/collection/dawg.cpp: Dawg, contains, all_nodes, hash", "src/liblevenshtein/collection/dawg_node.cpp: add_edge", "src/liblevenshtein/collection/dawg_iterator.cpp: advance", "src/liblevenshtein/transducer/lazy_query.cpp: LazyQuery, advance"]}
{"id": "C104", "title": "Changing a finished dictionary through its nodes", "statement": "Because nodes are shared, an edge that is added to the node that a prefix leads to, or a final mark that is set there, changes every term whose prefix can be completed in the same ways: linking a new final node adds the label after each such prefix, and marking makes each such string a term or none. Lookups and queries then answer for exactly these terms, iteration lists as many as the old size says, and deleting the dictionary frees its nodes and the new one. Adding an edge where there is one deletes the node it led to: if nothing else leads there, exactly the terms behind it are lost, and the nodes that only it led to are never freed; if another prefix leads there, looking that prefix up and deleting the dictionary read freed memory.", "quantifier": "all allocators, dictionaries, prefixes, labels, queries, algorithms and distances", "why_tests_cant": "Which strings share a node depends on all terms together; a test that changes one node and looks one string up sees none of the others.", "anchors": ["src/liblevenshtein/collection/dawg.cpp: root, contains, all_nodes, ~Dawg", "src/liblevenshtein/collection/dawg_node.cpp: add_edge, is_final", "src/liblevenshtein/collection/dawg_iterator.cpp: advance", "src/liblevenshtein/transducer/lazy_query.cpp: LazyQuery, advance"]}
{"id": "C105", "title": "Further calls on the nodes of a dictionary", "statement": "The nodes of a dictionary that add() made, or that was read from any message whose reachable nodes exist, behave from then on as if somebody had made and linked them by hand: there is a history of node calls that ends in these nodes and terms. After any further orderly sequence of calls on them and on new nodes, the calls have succeeded and touched no other memory, and every dictionary that has one of the nodes as its root has the terms that the whole history says: lookups, queries and saving answer for them even if one can go round, and iterating and deleting do if one cannot.", "quantifier": "all allocators, dictionaries, messages, retelling histories, further histories of node calls, roots, queries, algorithms and distances", "why_tests_cant": "The histories of calls after a dictionary is finished are endless, and each depends on the sharing that minimization has made.", "anchors": ["src/liblevenshtein/collection/dawg.cpp: root, Dawg, contains, all_nodes, ~Dawg", "src/liblevenshtein/collection/dawg_node.cpp: DawgNode, add_edge, is_final", "src/liblevenshtein/serialization/serializer.cpp: from_protobuf, to_protobuf", "src/liblevenshtein/transducer/lazy_query.cpp: LazyQuery, advance"]}
{"id": "C106", "title": "Comparing any two dictionaries", "statement": "Whatever their origin (add(), a message, linking nodes by hand, even going round), comparing two dictionaries whose reachable nodes exist never reads what is not there. If the comparison ends, it says whether both have the same size, the same terms, and the same strings leading to a node. It ends if one cannot go round in one of the two; it never ends if they are equal and one can. Two dictionaries of the same size and strings, in the same memory or not, cannot be told apart by lookups, iterating, hash codes or queries; in particular dictionaries that compare equal, and dictionaries built from the same terms.", "quantifier": "all memories, all pairs of dictionaries whose reachable nodes exist, all recursion depths, all words, queries, algorithms and distances", "why_tests_cant": "The nodes that are compared may be shared and linked in endless ways, and a comparison that does not end cannot be observed by a test.", "anchors": ["src/liblevenshtein/collection/dawg.cpp: operator==, hash<Dawg>, contains", "src/liblevenshtein/collection/dawg_node.cpp: operator==, hash<DawgNode>", "src/liblevenshtein/collection/dawg_iterator.cpp: DawgIterator", "src/liblevenshtein/transducer/lazy_query.cpp: LazyQuery, advance"]}
{"id": "C107", "title": "Adding to a dictionary after finish()", "statement": "For any sequence of add(), finish() and minimize() calls on one dictionary, and of clean_up() and init() after finish(): an accepted term is stored behind what finish() and minimize() have left of the path of the last term, not behind what it shares with it, so that after a last finish() exactly those strings are contained, the size is the number of accepted terms, it cannot be told apart from a dictionary made of the same strings in one go, destroying it frees all of its memory, and unless clean_up() and init() came between, no two of its nodes accept the same strings. If no accepted term shares more characters with the one before it than have been left (after finish(): none), these strings are the accepted terms, as if there had been one round. Adding the last term again after finish() makes the empty string a term; adding one that goes on where the last ended stores only its rest, although add() answers true.", "quantifier": "all sequences of add(), finish(), minimize(), clean_up() and init() calls, all terms, all allocators and memories, as long as nothing is linked over an existing edge", "why_tests_cant": "Any number of rounds with any terms; what happens depends on what all the earlier terms have in common with the later ones.", "anchors": ["src/liblevenshtein/collection/sorted_dawg.cpp: SortedDawg::add, SortedDawg::finish, SortedDawg::minimize, SortedDawg::~SortedDawg", "src/liblevenshtein/collection/dawg.cpp: contains, size"]}
{"id": "C108", "title": "Adding to a dictionary that was loaded or built before", "statement": "init() on a dictionary that was built or loaded, then any sequence of add(), finish(), minimize(), clean_up() and init() calls and a last finish(): as long as nothing is linked over an existing edge, exactly the old terms and the strings stored for the accepted ones are contained, the size counts them, the result cannot be told apart from a dictionary made of the same strings in one go, and destroying it frees its old and new nodes and nothing else. In particular terms in order that begin with characters no old term begins with are all accepted and join the old ones, even if they are smaller than those. A term that begins like an old one is accepted too, but the old terms that begin so are lost and still counted.", "quantifier": "all dictionaries, built or loaded, all sequences of calls, all terms, all allocators and memories", "why_tests_cant": "Every dictionary, every later sequence of calls and every memory; what is kept depends on what the old and new terms have in common.", "anchors": ["src/liblevenshtein/collection/sorted_dawg.cpp: SortedDawg::init, SortedDawg::add, SortedDawg::finish, SortedDawg::minimize, SortedDawg::clean_up, SortedDawg::~SortedDawg", "src/liblevenshtein/collection/dawg_node.cpp: add_edge", "src/liblevenshtein/collection/dawg.cpp: contains, size", "src/liblevenshtein/serialization/serializer.cpp: from_protobuf"]}
{"id": "C109", "title": "Adding a term that begins like old ones", "statement": "init() on a dictionary that was built or loaded, add() of one term of which what is stored begins with a character c that old terms begin with, and finish(): add() answers true, the size goes up by one, the new string is found and no other that begins with c. If after no other beginning the old terms go on just as they do after c, all other lookups answer as before, and destroying the dictionary leaves behind exactly the nodes that only terms beginning with c used, all but the first. If they do so after another beginning u, and sorted_dawg made the dictionary, then looking up anything that begins with u and destroying the dictionary read a deleted node.", "quantifier": "all dictionaries, all terms, all allocators and memories", "why_tests_cant": "Every dictionary and every term; whether a lookup is safe depends on which parts of the old dictionary are shared.", "anchors": ["src/liblevenshtein/collection/sorted_dawg.cpp: SortedDawg::init, SortedDawg::add, SortedDawg::finish, SortedDawg::minimize, SortedDawg::~SortedDawg", "src/liblevenshtein/collection/dawg_node.cpp: add_edge", "src/liblevenshtein/collection/dawg.cpp: contains, size"]}
{"id": "C110", "title": "Files that say the same", "statement": "Two dictionary files mean the same if they give the same number of terms, their paths spell the same terms, and the same strings lead to some node. Numbers of nodes, the order of nodes, final nodes and edges, repetitions and all but the lowest byte of the labels do not matter; so a file saved on a machine where char is unsigned, from the same dictionary at other addresses, means the same as one saved here. Files that mean the same are read as dictionaries that cannot be told apart by lookups, iterating, hash or queries. Read into one program, comparing the two with == never reads what is not there, ends unless one can go round in both, and says whether the files mean the same. Files with the same terms can still be unequal, if one has a path from which no term is reached.", "quantifier": "all well-formed messages and files up to INT_MAX bytes, renamings, orders, memories and allocators", "why_tests_cant": "There are endlessly many files for one dictionary, most of them never written by the platform the tests run on.", "anchors": ["src/liblevenshtein/serialization/serializer.cpp: to_protobuf, from_protobuf, deserialize_protobuf", "src/liblevenshtein/collection/dawg.cpp: operator==", "src/liblevenshtein/collection/dawg_node.cpp: operator==, add_edge"]}
{"id": "C111", "title": "Spelled otherwise", "statement": "Which characters are used does not matter: if every character of two strings is replaced, different ones by different ones, the distance functions return the same number, and never more if some become equal. Both strings backwards have the same distance. Joined strings are no farther from each other than their parts together; wherever one string is cut, some cut of the other gives parts whose distances sum to the whole (STANDARD) or to at most one more, and the one more is needed. Strings without a common character have the longer length as their distance, and with merges and splits the least n with |v|+|w| <= 3n and | |v|-|w| | <= n. A query of a dictionary respelled with other characters, backwards, or with the same beginning and ending added to every term, finds for the respelled query the respelled answers at the same distances; with a common beginning and ending, or characters that keep their order, in the same order.", "quantifier": "all strings, cuts, replacements of characters, dictionaries however made, queries within the limits, bounds, algorithms", "why_tests_cant": "relations between runs on all strings and all replacements of characters", "anchors": ["src/liblevenshtein/distance/standard_distance.cpp: between", "src/liblevenshtein/distance/transposition_distance.cpp: between", "src/liblevenshtein/distance/merge_and_split_distance.cpp: between", "src/liblevenshtein/transducer/transducer.cpp: operator()"]}
{"id": "C112", "title": "Building a dictionary from the terms another one lists", "statement": "The terms a dictionary lists when iterated are accepted by sorted_dawg exactly if whatever comes earlier in the order of std::string is also listed earlier; for terms of plain ASCII: if no term is longer than one that comes later in that order. Then the new dictionary equals the old one, repetitions included; otherwise sorted_dawg returns nullptr and leaves nothing behind. So ab, b cannot be rebuilt as listed, nor a and a byte above 127. Sorted or collected in a std::set first, the listed terms are always accepted and the new dictionary has the same terms; it equals the old one exactly if as many terms were given.", "quantifier": "all dictionaries built by sorted_dawg from fewer than 2^64 terms, all allocators, all ways of sorting", "why_tests_cant": "a relation between iterating and building for all sets of terms", "anchors": ["src/liblevenshtein/collection/dawg_iterator.cpp: advance", "src/liblevenshtein/collection/sorted_dawg.cpp: sorted_dawg, add", "src/liblevenshtein/collection/dawg.cpp: operator=="]}
{"id": "C113", "title": "Looking for the nearest terms", "statement": "Asking a dictionary that has terms with the distances 0, 1, 2, ... there is a first distance k at which anything is found. It is the distance of the nearest terms, at most the longer of the lengths of the query and any term, and what is found at it are exactly the nearest terms, all at distance k. Smaller distances find nothing; larger ones find the nearest terms too, and nothing nearer, but not necessarily first. If all other terms are more than 2e away from a term w, a string within e of w leads to w and nothing else, for STANDARD and MERGE_AND_SPLIT; for TRANSPOSITION other terms may be found as well.", "quantifier": "all dictionaries however made, queries of at most INT_MAX characters (within the limits for the last sentence), distances, algorithms", "why_tests_cant": "a relation between queries of all dictionaries with all distances", "anchors": ["src/liblevenshtein/transducer/transducer.cpp: operator()", "src/liblevenshtein/transducer/lazy_query.cpp: advance"]}
{"id": "C114", "title": "A query is about the string as it was when it was asked for", "statement": "What a transducer returns, and every query begun from it, have copies of the string. The client may change or destroy the string, copy or destroy the result, begin any number of queries from it, and increment and destroy these, in any order: nothing is undefined, and every query that is alive shows what belongs to the string as it was when asked for, after as many increments. There is one string inside every object that is alive, and none besides. Beginning from a result or incrementing a query that is gone is undefined behaviour.", "quantifier": "all sequences of calls that use no object that is gone, all strings within the limits, distances, algorithms, result types, dictionaries however made", "why_tests_cant": "all sequences of calls", "anchors": ["src/liblevenshtein/transducer/transducer.cpp: operator()", "src/liblevenshtein/transducer/lazy_query.cpp: LazyIterator, LazyQuery, begin, operator++", "src/liblevenshtein/transducer/lazy_query.h: _term"]}
{"id": "C115", "title": "A dictionary in parts", "statement": "If the terms of a dictionary are divided among several dictionaries, it contains what one of them contains, and a query finds a term at a distance exactly if the same query of one of the parts does, what is found in a part coming in the same order. If no term is in two parts, the results, and the terms listed by iterating, are those of the parts merged, and whoever merges them in the order of iteration gets exactly the results of the whole. Asking all parts to the end looks at the same prefixes, those common to several parts several times; if the parts have terms with different first letters, at nothing twice.", "quantifier": "all dictionaries however made (built from strictly ascending terms for listing), all ways of dividing them into any number of parts, all queries within the limits, distances, algorithms", "why_tests_cant": "a relation between runs on all divisions of all dictionaries", "anchors": ["src/liblevenshtein/transducer/transducer.cpp: operator()", "src/liblevenshtein/transducer/lazy_query.cpp: advance", "src/liblevenshtein/collection/dawg.cpp: contains", "src/liblevenshtein/collection/dawg_iterator.cpp: advance"]}
{"id": "C116", "title": "Saving to one file at the same time", "statement": "If any number of threads or processes save the same dictionary, with the same bytes, to one path at the same time, the file holds exactly those bytes, and loads as that dictionary, as soon as the one that opened it last has closed it, whatever the others still do and whoever dies. If one saves and any number load meanwhile, what a load gets is all of the bytes or a beginning of them. If several save the same bytes meanwhile, each byte a load gets is the right one or zero, and the zeros can make it load a dictionary with a term that nobody saved. If it replaces an older file, what a load gets is a beginning of the old bytes followed by bytes of the new ones at their places, so it too can have a term neither dictionary has. If two save different dictionaries both calls can succeed and the file still be a mixture that loads as a dictionary with a term neither has, or, even with equal terms, one that runs into undefined behaviour when it is loaded.", "quantifier": "all interleavings, byte by byte, of all numbers of savers and loaders, and of deaths while writing or reading; all dictionaries however made", "why_tests_cant": "a relation over all schedules of several processes", "anchors": ["src/liblevenshtein/serialization/serializer.cpp: serialize_protobuf, deserialize_protobuf"]}
{"id": "C117", "title": "One mistake more or less", "statement": "One operation of the algorithm on a string changes its distance to any other by at most 1, for TRANSPOSITION by at most 2, and 2 is needed. Although TRANSPOSITION does not obey the triangle inequality, d(x,z) <= d(x,y) + 2 d(y,z) and d(x,z) <= 2 d(x,y) + d(y,z). What a query for q finds within n, a query for a string at distance e from q finds within n+e (n+2e for TRANSPOSITION), at distances that differ by no more than that; so asking once with the larger distance has the answers for all strings nearby, in the same order. If all other terms are more than 3e away from a term w, a string within e of w leads TRANSPOSITION to w and nothing else.", "quantifier": "all strings, all sequences of operations, all three algorithms, all dictionaries however made, all queries within the limits", "why_tests_cant": "a relation between the distances of all triples of strings and between runs on all dictionaries", "anchors": ["src/liblevenshtein/distance/transposition_distance.cpp: between", "src/liblevenshtein/distance/standard_distance.cpp: between", "src/liblevenshtein/distance/merge_and_split_distance.cpp: between", "src/liblevenshtein/transducer/transducer.cpp: operator()"]}
{"id": "C118", "title": "Runs of the example program at the same time", "statement": "The example program loads its dictionary when it starts and saves it when it ends. A run that starts while another one saves, for the first time or the same bytes again, answers from the dictionary being saved or from its own dictionary file, or runs into undefined behaviour. If several runs that save the same bytes end at the same time, the next run answers as after a single one.", "quantifier": "all interleavings, byte by byte, of all numbers of runs that load or save, all dictionary files, command lines and inputs", "why_tests_cant": "a relation over all schedules of several processes", "anchors": ["example/src/main.cpp: main", "src/liblevenshtein/serialization/serializer.cpp: serialize_protobuf, deserialize_protobuf"]}
