# Formal model of liblevenshtein-cpp in Rocq (Coq 8.16.1)

This file says, property by property, what is modelled, how it is proved and
what the result rests on.  `properties.jsonl` has the English statements,
`MANIFEST.json` maps them to theorem names, `seeded/LOG.jsonl` records the wrong
programs the theorems were tried on, `seeded/SWEEP.jsonl` those of an automatic
sweep over the models.

## 1. Approach

* Every C++ function of the library that carries semantics is written as a
  total Gallina function (`theories/Model*.v`), one definition per function,
  each with a comment giving file and lines in /repo and the simplifications
  made.
* C++ outcomes are values of `res A := Ok a | UB | OOF` (`Base.v`).  `UB` is the
  distinct outcome of null or dangling dereference, out-of-range
  `vector<bool>` access, double free, signed overflow of a counter; `OOF` is
  fuel exhaustion of a loop.  Theorems show `Ok` from some amount of fuel on
  (`runs_to`), so they exclude both: no undefined behaviour, and termination.
* `char` is `ascii` (a byte); comparison of `std::string` is unsigned-byte
  lexicographic, `std::map<char,...>` order is signed-char order.  `size_t` is
  `N` with the wrap modulo 2^64 written out in all transducer arithmetic and
  in the size of dictionaries; `int` counters are `UB` beyond INT_MAX.
* Memory is explicit.  `heap` maps addresses to DAWG nodes; the memories
  of `ModelState.v`, `ModelMemory.v`, `ModelIterator.v` map addresses to
  positions, states, intersections and prefixes.  The allocator is an arbitrary
  function of the memory that returns some non-null address not in use
  (`allocator`, `mallocator`), so addresses may be reused after a delete and
  nothing depends on their values.  A memory keeps its history, so that an
  allocator may depend on everything that happened; an object may be marked
  constant, and writing or deleting it is then undefined.
* Threads take turns at single accesses to memory (ModelThreads.v,
  ModelShared.v, ModelSteps.v).  All theorems about threads include the absence of data
  races, and an execution of a C++ program without data races is such an
  interleaving.
* Specifications live in `Spec*.v`.  `Spec.v` and `SpecDistance.v` use no model
  definitions (edit operations on strings, minimum number of operations,
  alignments, orders); the others define vocabulary that needs the model's
  types: paths in the heap, client programs (sequences of API calls), what it
  means for memory to be given back.
* Property theorems are in `Props*.v`; each has `Print Assumptions` beneath it
  and an `Example` that a concrete non-trivial case meets its hypotheses.
  Where the unchanged code does not do what its documentation says, the
  property states what it does, and a theorem with suffix `_refuted` exhibits
  the deviation.

## 2. Files

| file | content |
|---|---|
| Base | result monad, bytes, strings, size_t arithmetic |
| Spec, SpecDistance | edit operations, minimal scripts, alignments, orders; what a call returns after a history |
| ModelDistance; AlignProofs, DistProofs, DistFacts; PropsDistance | the three distances, their memo, threads (C01-C11) |
| ModelThreads; SpecThreads, ThreadProofs, CostProofs, PropsThreads | the shared mutex, the steps of get and set; cost (C62, C63) |
| ModelTransducer; ConsumeProofs, TransProofs, StateProofs, SubsumeProofs, ReadProofs; SpecTransducer, PropsTransducer | positions, states as lists, transitions (C41-C45, C47) |
| ModelHash | MurmurHash64A and the hash functions built on it |
| ModelDawg; TreeProofs, HeapProofs, BuildProofs, BuildProofs2, IterProofs, DawgProofs; SpecDawg, PropsDawg | nodes in memory, construction, iteration, comparison, destruction (C12-C23) |
| ModelSerial; SpecSerial, SerialProofs, PropsSerial | to and from messages (C24-C27, C48) |
| SpecForeign, ForeignProofs, PropsForeign | arbitrary messages (C27) |
| ModelWire; SpecWire, WireProofs, FileProofs, PropsWire | messages as bytes, file streams, crashes, full disks (C54-C56) |
| SpecFormat, FormatProofs, PropsFormat | the wire format described as a relation, independent of ModelWire (C69) |
| ModelDemo; SpecDemo, SizeProofs, DemoProofs, PropsDemo | the example program (C57-C61) |
| ModelQuery; QueryProofs, QueryFacts; SpecQuery, PropsQuery | Transducer, LazyQuery, LazyIterator (C28-C40) |
| SpecBounds, BoundProofs, PropsBounds | size of states, prefixes a query looks at (C64, C65) |
| SpecCost, DestroyProofs, PropsCost | cost of destruction, values of the hash (C66, C67) |
| ModelState; SpecState, PointerProofs, WalkProofs, PropsState | State, Position, StateIterator as linked lists in memory (C46, C49) |
| ModelMemory; SpecMemory, MemoryProofs, RunProofs, PropsMemory | ownership of states and intersections (C50-C52) |
| ModelShared; SpecShared, AloneProofs, SharedProofs, PropsShared | queries of several threads, one memory access at a time (C68) |
| ModelThrow; SpecThrow, ThrowProofs, PropsThrow | queries when allocations fail (C71) |
| ModelBuildThrow; SpecBuildThrow, BuildThrowProofs, PropsBuildThrow | building dictionaries when allocations fail (C72) |
| ModelDistThrow; SpecDistThrow, DistThrowProofs, PropsDistThrow | shared distance functions when allocations fail (C73) |
| DepthProofs, PropsDepth | how deep the recursive functions nest (C74) |
| ModelMemo; HashFacts, MemoProofs, PropsMemo | the hash table inside distance functions (C75) |
| ModelText, SpecText; TextProofs, PropsText | what is printed (C76) |
| ModelSteps, SpecSteps; StepsAlone, StepsProofs, StepsSession, StepsThreads, PropsSteps | threads that build, read, query, copy and delete dictionaries (C77) |
| ModelTests, SpecTests; TestsState, TestsNode, TestsDawg, PropsTests | the project's own tests (C78) |
| ModelBuckets, SpecBuckets; BucketsProofs, PropsBuckets | the hash table inside a dictionary under construction (C79) |
| SpecOutlive; OutliveProofs, GoneProofs, PropsOutlive, LastProofs, PropsLast | a dictionary must outlive its iterators (C80), and which iterators need their transducer (C52) |
| ModelIterThrow, SpecIterThrow; IterThrowProofs, PropsIterThrow | iterating when memory runs out (C81) |
| ModelSerialThrow; SerialThrowProofs, PropsSerialThrow | saving and loading when memory runs out (C82) |
| ModelBuildCost; BuildCostProofs, PropsBuildCost | the cost of building (C83) |
| SpecSnapshot; SnapshotProofs, PropsSnapshot | queries and iterators while a dictionary is built (C84) |
| PropsUnfinished | saving and comparing unfinished dictionaries (C85) |
| ModelTestTools; SpecTestTools, PropsTestTools | helpers of the tests (C86) |
| SpecStream, StreamProofs, PropsStream | several dictionaries in one stream (C87) |
| ModelMurmur; SpecMurmur, MurmurProofs, MurmurInj, PropsMurmur, TestsMurmur | the other hash functions in third-party (C88, C89) |
| SpecLimits, LimitProofs, PropsLimits | beyond INT_MAX (C90) |
| PropsRelated | related queries (C91) |
| SpecHold, HoldProofs, IterHoldProofs, SeveralProofs, PropsHold, PropsSeveral | what queries and iterators hold in memory (C92) |
| BuildHoldProofs, PropsBuildHold | how many nodes exist while a dictionary is built, and after (C93) |
| ModelUseCost, SpecUseCost, UseCostProofs, PropsUseCost | what comparing and saving costs (C94) |
| SavedProofs, PropsSaved | how large dictionaries and their files are (C95) |
| SpecBall, BallProofs, PropsBall | bounds for queries that do not depend on the number of terms (C96) |
| SpecAlloc, AllocProofs, PropsAlloc | how many allocations a query makes (C97) |
| ModelReadCost, ReadCostProofs, PropsReadCost | what looking up and iterating cost (C98) |
| ModelMatchCost, SpecMatchCost, MatchCostProofs, StalkProofs, PropsMatchCost | how often building compares nodes (C99) |
| ModelHand, ModelHandMap, SpecHand, SpecHandMap, HandProofs, HandMapProofs, PropsHand, PropsHandMap | nodes made and linked by hand (C100) |
| HandDawgProofs, PropsHandDawg | dictionaries made of nodes linked by hand (C101) |
| RoundProofs, IterRoundProofs, PropsRound | dictionaries in which one can go round (C102) |
| MirrorProofs, SpecAlike, SaveRoundProofs, PropsSaveRound | saving and reading back any dictionary whose nodes exist (C103) |
| SpecGraft, GraftProofs, ReplaceProofs, PropsGraft | changing a finished dictionary through its nodes (C104) |
| SpecStory, StoryProofs, PropsStory | any further calls on the nodes of a dictionary (C105) |
| SpecSame, SameProofs, PropsSame | comparing any two dictionaries (C106) |
| SpecResume, ResumeProofs, PropsResume | adding after finish() (C107) |
| ReopenProofs, PropsReopen | adding to a dictionary that is there already (C108) |
| OverProofs, PropsOver | adding a term that begins like old ones (C109) |
| SpecMeaning, MeaningProofs, PropsMeaning | files that say the same (C110) |
| SpecAlphabet, AlphabetProofs, PropsAlphabet | strings and dictionaries spelled otherwise (C111) |
| PropsRebuild | building from the terms another dictionary lists (C112) |
| PropsNearest | looking for the nearest terms (C113) |
| ModelCopies, SpecCopies, PropsCopies | the copies of the string asked for (C114) |
| PropsParts | a dictionary in parts (C115) |
| ModelSavers, PropsSavers | several threads or processes that save to and load from one file (C116) |
| PropsKeystroke | one mistake more or less (C117) |
| PropsRuns | runs of the example program at the same time (C118) |
| PropsUnsubsume | what unsubsume loses (C43, continued) |
| ModelIterator; SpecIterator, IteratorProofs, PropsIterator | DawgIterator with its prefixes in memory (C53) |

## 3. Property by property

* **C01-C03** `between` as in the .cpp files (prefix stripping, early exits when
  a recursive call returns 0, memo).  Memo invariant: every entry is right; the
  recursion computes a plain function, which equals the minimum over edit
  scripts (one operation changes the distance to a third string by at most one)
  resp. over alignments for transposition.
* **C04-C07, C10, C11** from the script and alignment characterisations;
  refutations by computation on literal witnesses.
* **C08, C09** `between` is a program interacting with the memo through get and
  set.  C08: any history of calls.  C09: any number of threads, any
  interleaving of the critical sections, with progress and termination.
* **C12-C18, C21-C23** SortedDawg in the heap.  Invariant: the nodes unfold to
  the trie of the accepted terms; the unchecked transitions are the rightmost
  path; the minimized map holds exactly one node per subtree.  C18 also tracks
  which addresses are in use.
* **C19, C20** deep equality and hashes are functions of the unfolding.
* **C24-C27, C48** messages as records; from_protobuf lays out a copy, shown to
  be isomorphic to the original; foreign messages are treated by cases.
  For messages that are not well-formed, `replay` (SpecForeign.v) computes from the
  numbers which nodes are deleted while edges are added and which edges remain;
  an invariant relates the heap to it, and `C27_exact`/`C27_destroy` are stated
  with it for every message.
* **C28-C40** a position (i, e) stands for "the rest of the query from i on must
  be matched with e errors spent"; one-step soundness and completeness of the
  position transitions within the window; states as sets of positions; the
  queue of the query as the levels of the trie.
* **C41-C45** list-level state operations; C44 for all continuations.
* **C46, C49** every pointer operation refines its list operation, in any
  memory; frames say that nothing else changes.
* **C47** a state is empty exactly when no term with the prefix read so far can
  match.
* **C50-C53** client programs are arbitrary sequences of begin, increment and
  destroy; each object owns a set of addresses; ownership is preserved by every
  step and everything is given back in the end.  Copying owners is refuted.
* **C54-C56** protobuf's wire format for the message type and a buffered file
  stream on a disk with limited room.  A prefix of an encoding is a sequence of
  whole fields, or is malformed; the three possible outcomes follow by cases.
* **C57-C60** main as a function of the arguments, the files and the standard
  input to the answers printed and the files left.  Histories of runs are an
  inductive predicate; the saved file stays a description of the first run's
  lines.  The length of the saved file is bounded by the number of characters
  (one node per prefix at most), so that the room needed can be stated.
* **C61** induction on the argument list; numbers through Coq's decimal type.
* **C62** the shared mutex with its reader count and writer flag; get searches
  the table entry by entry, set leaves it inconsistent for a moment.  Invariant:
  a writer is alone.  Simulation by the executions of C09.
* **C63** potential argument: every key missing from the memo pays for the
  accesses made until it is set; other threads can only remove keys from the
  missing ones.
* **C64** every position of a reachable state lies in a triangle around the
  depth; states have no duplicates (C42); counting.
* **C65** the query with a log of the prefixes it calls StateTransition for; the
  log is erased to get back the model.  The prefixes still to come are the words
  of the trie with every node made final, without those whose parent is dead.
* **C66** the fuel of `all_nodes` is exactly the number of evaluations of its loop
  condition; the unfolding of a dictionary's graph has one node per prefix.  The
  exponential message is a chain of nodes with two edges each, read by the model
  of from_protobuf.
* **C67** `dawg_hash` depends only on two bytes; pigeonhole.
* **C68** every function of ModelState and ModelMemory as a tree of memory
  accesses (ModelShared); run alone such a tree does what the function does
  (AloneProofs).  Interleaving: each thread gets a memory of its own in which
  the transducer is constant, so that writing to it would be undefined.  The
  steps of a thread in its own memory are those of the thread alone for some
  allocator (a function of the history) and some choices, so C50's invariant
  excludes undefined behaviour.  The shared memory is the union of these
  memories, which are disjoint beyond the constant part: hence no races.
  Termination: every access goes to a subtree.
* **C69** the wire format as a relation between byte strings and messages
  (SpecFormat.v), written from the protobuf documentation and not from
  ModelWire; the decoder of ModelWire is shown to accept exactly the related
  byte strings, the encoder to produce one of them, and files are followed
  through to `contains` of the dictionary read.
* **C70** `end_query` and `query_eq` in ModelQuery, used by the model of the
  range-for loop; consequences of C36-C39.
* **C71** The functions of ModelMemory again, with a budget of allocations: when
  it is used up the allocation fails and the state in which the exception leaves
  the query is the result (ModelThrow).  The transition functions are the
  programs of C68, run alone and cut off at an allocation.  Proof: an invariant
  on the owners as in C50, in which what a failed allocation leaves behind
  becomes part of what was there before; for the results, that pending
  intersections and edges denote a subsequence of what they would denote.
* **C72** The functions of SortedDawg again with a budget of allocations
  (ModelBuildThrow).  Proof: the invariant of the construction without the part
  that says which transitions are still to be minimized; where an exception cuts
  `minimize` off, the node that was popped and what hangs below it stays in
  floating_nodes, so destruction finds it, but the words below it are lost.
* **C73** The steps of ModelThreads, plus a step that throws wherever the code
  may allocate, and one that gives the lock back (ModelDistThrow).  Proof: the
  invariant of C62 with calls that were given up; the memo only ever gets right
  entries, so giving a call up loses nothing but the call.
* **C74** No new model: the fuel of the recursive functions is the number of
  nested calls.  Proof: by induction on the data, with the exact fuel on which
  each function runs out.
* **C75** The unordered_map as buckets, a key being looked for in one bucket
  only; any policy of rehashing (ModelMemo).  Proof: every entry is in the bucket
  its hash leads to and keys are unique, so one bucket is as good as all; then
  the programs of C01-C08 run as on a plain map.
* **C76** The text of std::cout and std::cerr at the end of a run, and operator<<
  of pairs, nodes and dictionaries (ModelText; addresses as libstdc++ prints them); how it ought to look is in SpecText.  Proof:
  the loop of the program as in C57; every number is followed by a character that
  is not a digit, quoted paths are self-delimiting, and an empty line ends the
  answers, so the text can be read back.  Assumed: nothing else writes to the
  streams, and writing to them does not fail.
* **C77** The functions of ModelDawg again, as programs that make one access to
  a node at a time (ModelSteps); run alone they are the functions of ModelDawg
  (C77_alone, so the two cannot differ).  Proof: a frame lemma (a program that is
  safe in its part of the memory does the same in a larger one), which gives the
  invariant that the memory is the disjoint union of what was there before and of
  the parts of the threads; a run of one thread in its part is a run alone with
  some allocator, and there C22, C28 and the lemmas about building apply.
  Vectors, hash tables, queries and the members of SortedDawg belong to one thread
  each and are values in the program, not accesses.  A copy is to_protobuf followed
  by from_protobuf; that the bytes between them say the same is C54.
* **C78** Every test in test/liblevenshtein is a function of the arguments that
  rapidcheck draws (ModelTests), on top of the models of the functions it calls; a
  test ends with `Passed` and what is left in memory, or with `Failed`.  Proof: from
  the lemmas about chains of positions, about building and deleting dictionaries,
  and from C12, C13, C15, C18, C20, C33, C54.  Two tests are refuted by strings for
  which they fail.
* **C79** SortedDawg once more, with an array of buckets for minimized_nodes
  (ModelBuckets), parameterized by whether hash codes are stored and by when the
  table grows.  Proof: simulation of ModelDawg's list, along the invariant of the
  construction; the nodes below a registered node are registered and not modified.
* **C80** What queries and iterators do once the nodes of their dictionary are no
  longer allocated.  Proof: all they will look at are nodes of the dictionary, and a
  query on a result still has some intersection to look at; an iterator has exactly
  if there is another term, since every node of a dictionary leads to one.
* **C81** DawgIterator with a budget of allocations, as in C71.  Proof: the queue of
  prefixes stays a part of what it would be, in the same order, and breadth-first
  enumeration of a subsequence of a queue is a subsequence.
* **C82** Saving and loading with a budget of allocations, as in C71.  Proof: each
  function either has its result and has spent a fixed number of allocations, or has
  thrown; the number is counted by induction over the walk through the dictionary, and
  over the lists of the message.
* **C83** The functions of SortedDawg with a counter of the calls of the hash function. The invariant keeps the list of the trees of the registered nodes: each is entered once, and hashed again when it is (C83_exact).
  Proof: hashing a node takes as many calls as its unfolding has nodes; the calls made so
  far are between once and twice the sum of the sizes of the unfoldings of all prefixes
  that are no longer on the stack of unchecked transitions.
* **C84** Calls of add, finish and clean_up interleaved with increments of a query or an
  iterator. Proof: nodes that are registered stay registered and unchanged through every
  call (a strengthening of the invariant of construction), a query that has left the root
  holds only nodes below it, these are registered, and the root is never read again.
* **C85** No new model. Proof: before finish() the root unfolds to the tree of the terms
  that can be found, so the lemmas about messages, equality and hashing, which are stated
  for trees, apply.
* **C86** the helpers of the tests over an arbitrary sequence of random numbers and
  an inductive relation of events; settings are read back with a small reader.
* **C87** what protobuf reads from several messages one after the other is computed
  once and for all (`joined`); the result is an arbitrary message in the sense of
  C27, whose exact description (`replay`, `walks`) is related to the paths in the
  heap the dictionaries were written from.
* **C88** every function is shown to compute a digest that is defined on the list of
  the key's bytes, consumed block by block (`eat`); the logs of reads are carried
  along.  Agreement is equality of digests; for CMurmurHash2A the invariant is that
  the object holds the state after the blocks and the bytes behind them.
* **C89** multiplication by odd numbers, rotation, addition and xor-shifts are
  injective on words, so a step is injective in the state and in the block; a
  generic lemma about `eat` does the rest.
* **C90** `contains` is shown equal to a lookup in the trie that fails where the
  counter overflows; for queries the first window is computed symbolically.
* **C91** Corollaries of C28-C30 and C65 and of facts about the distances: a
  query's results are those of its specification, so two of them are compared
  there.
* **C92** The memory model of C50 run in step with the logged query of C65: an
  invariant says that as many intersections are owned as the log has prefixes
  that lead to a non-empty state.  For the dictionary iterator: the queue holds the
  children, not yet taken, of the prefixes taken.
* **C93** The invariant of the construction says which nodes exist: the root and
  the floating ones, which are the nodes of the trie of the accepted terms.  After
  clean_up, those reached from the root, of which no two have the same endings.
* **C94** The functions instrumented with their calls; the comparison is computed
  on the unfolded trees, where what it visits is characterised by induction on the
  edges in ascending order.  For saving, calls are counted by out-degrees.
* **C95** Minimality is an invariant of everything that makes dictionaries:
  restoring is an injection of nodes.  Nodes are then counted by representatives of
  the sets of endings, edges by out-degrees.
* **C96** A prefix is looked at only if it can be aligned with a prefix of the
  query; the strings over given letters that can be aligned within n operations are
  enumerated and counted by induction on n and on the string.
* **C97** The news of each function are counted by running it alone; a budget at least
  that large never runs out. An edge is put into its queue
  before it is followed and is charged to the prefix it leads to, so the sum over the whole iteration is a multiple of the number of
  prefixes looked at.
* **C98** contains and advance with a log, in step with the tree that the nodes
  represent; the order in which prefixes leave the queue is the one of C92.
* **C99** the building functions with the number of calls of ==, in step with the
  invariant of C83; the cubic bound by the pigeonhole principle: the hash code
  of a node in a chain depends on one byte of that of the next, so that the
  codes of a long chain repeat with a period of at most 256.
* **C100** histories of calls of the public functions of a node; the specification
  reads finality, targets and replaced nodes off the history, and an invariant
  ties memory to it after every call.
* **C101** the memory after an orderly history (C100) unfolds to a tree when nothing
  goes round, by a pigeonhole argument on the nodes visited; otherwise induction on
  the fuel shows that the loops never end.
* **C102** the dictionary is cut off at a depth that a query, or the terms listed,
  cannot reach; the invariants of C28 to C39 and C15 are proved again with the tree
  that remains. That iterating never ends is proved by cutting at a depth that grows
  with the fuel.
* **C103** the walks of to_protobuf keep visited sets, so the measure is the number of
  nodes, or edges, of the memory that are not yet collected, not the height of a tree.
  That the copy cannot be told apart is a simulation between the two memories, fuel by
  fuel.
* **C104** the prefixes that lead to a node are those with the same completions, because
  the automaton is minimal (C95).  The paths of the changed memory are described by
  induction, and by short paths a memory unfolds to a tree again, to which the theorems
  on lookups, iteration and queries apply.
* **C105** the nodes that to_protobuf collects are listed with the root first; making
  them in this order and linking them gives the retelling history.  Whatever history
  retells a dictionary satisfies the invariant of C100, which the further calls keep.
* **C106** induction on the depth of the recursion: nodes with the same strings have the
  same labels in the same order, so every function that walks the two does the same.  The
  retelling of C105 bounds the strings if one cannot go round.
* **C107** the invariant of the builder (C13-C18) with the string on the stack of unchecked
  nodes kept apart from the last accepted term; induction on the calls.
* **C108** the invariant of the builder over a root that already has edges: the old nodes are
  never on the stack nor in the register, and are never written except for the root.
* **C109** the building of the new branch as that of a dictionary of its own (C107), put below the
  root by the last link; the rest of memory is as before but for the root and the deleted node.
* **C110** what was read has the paths of the message (up to the renaming by addresses); then C106 applies.
* **C111** alignments are mapped, reversed, joined and cut piece by piece; then C01-C03 and C28-C31.
* **C112** C12, C19 and C21 for one dictionary after the other; two orders that sort the same list agree on it.
* **C113** C28-C30 for all distances, and the triangle inequality (C04, C05).
* **C114** every object of the program has a string of its own; the states of the queries are those of C38.
* **C115** nothing new is modelled; that lists are merged says a small inductive definition. From C91 (the answer of a part is the answer of the whole, filtered), C65 and C15.
* **C116** models the file as shared by processes that open, write and read it one byte at a time, each at a position of its own, in any order. By induction over the events: since the last opening every byte of the file is right or zero, and right up to the position of whoever opened it last. The refutations run two savers on concrete dictionaries.
* **C117** by induction over alignments: an operation touches at most two pieces of an alignment, which are replaced one character at a time. The queries follow from C28-C31.
* **C118** nothing new is modelled: C116 says what is loaded and what is left, C57-C59 what a run makes of it.

No property had to be classed as not expressible.

## 4. Trusted base

* Coq's kernel (8.16.1).  No axioms: every `Print Assumptions` prints "Closed
  under the global context", for each of the theorems in MANIFEST.json.  `lia`
  produces terms that the kernel checks; `vm_compute` is used for examples and
  closed computations and is part of the kernel.
* The checker's list of axioms in loaded libraries contains seven names
  `Coq.ssr.ssrunder.Under_rel.*`.  They are the opaque interface of a module of
  Coq's standard library that is loaded with it; no theorem here depends on
  them.
* The reading of the C++ source that the model is.  It was written from the
  source text; nothing was compiled or run.
* What the model assumes of the world outside /repo:
  - the containers (`std::map`, `std::set`, `std::unordered_map`,
    `std::unordered_set`, `std::queue`, `std::vector`, `std::string`) implement
    finite maps, sets, queues, sequences; an `unordered_map` finds a key iff an
    equal key is stored, provided equal keys have equal hash codes, which is
    proved (C20);
  - memory allocation does not fail (except in C71-C73, C81, C82 and C97) and no exception is thrown;
    recursion does not exhaust the stack (C74 says how deep it goes);
  - `std::shared_mutex` admits one writer or any number of readers, as written in
    ModelThreads.v; that get and set are then critical sections, which C09 takes
    for granted, is proved (C62);
  - MurmurHash64A reads eight characters of a string through a uint64_t pointer;
    this is taken to be a read of the eight bytes, whatever their alignment;
  - the platform is 64-bit, little-endian, `int` has 32 bits, `char` is signed
    (the order of iteration and of edges depends on it);
  - protobuf follows its documented wire format and iostreams their documented
    behaviour, as written in ModelWire.v (C54-C56 only; C24-C27 need only the
    message class);
  - `std::getline`, `std::sort`, `operator>>` into size_t as documented
    (ModelDemo.v); files do not change while a run uses them (C57-C61);
  - fewer than 2^31 elements per repeated field of a message.
* Limits stated in the theorems: query strings up to INT_MAX characters, or shorter
  than 2^62 if 2n + 1 <= INT_MAX (`manageable`), terms shorter than 2^62
  characters, `max_distance` n up to SIZE_MAX (`within_limits`); strings up to
  INT_MAX characters in `contains`.  C90 says what happens beyond INT_MAX.

## 5. Modelled and not modelled

Paths relative to `src/liblevenshtein/` unless they start elsewhere.

| source | modelled in | not modelled |
|---|---|---|
| distance/distance.{h,cpp} | operator() is between | |
| distance/symmetric_pair.{h,cpp} | ModelDistance, ModelHash, ModelText | |
| distance/memoized_distance.{h,cpp} | ModelDistance: get, set, f; ModelThreads: the mutex; ModelDistThrow; ModelMemo: the hash table | |
| distance/{standard,transposition,merge_and_split}_distance.{h,cpp} | ModelDistance: between | |
| transducer/algorithm.h | ModelTransducer: algorithm | |
| transducer/position.{h,cpp} | ModelTransducer, ModelState | |
| transducer/comparator.{h,cpp} | ModelTransducer: compare | |
| transducer/merge.{h,cpp} | ModelTransducer (lists), ModelState (pointers) | |
| transducer/subsumes.{h,cpp} | ModelTransducer: subsumes | |
| transducer/unsubsume.{h,cpp} | ModelTransducer, ModelState | |
| transducer/state.{h,cpp} | ModelTransducer, ModelState | |
| transducer/state_iterator.{h,cpp} | ModelState | |
| transducer/position_transition.{h,cpp} | ModelTransducer | |
| transducer/state_transition.{h,cpp} | ModelTransducer, ModelState | |
| transducer/distance.{h,cpp} | ModelTransducer, ModelState | |
| transducer/intersection.{h,cpp} | ModelQuery, ModelMemory | |
| transducer/lazy_query.{h,cpp} | ModelTransducer (window), ModelQuery, ModelMemory, ModelThrow, ModelSteps, ModelCopies | |
| transducer/transducer.{h,cpp} | ModelQuery, ModelMemory, ModelThrow | |
| collection/dawg_node.{h,cpp} | ModelDawg, ModelHand, ModelHandMap, ModelText, ModelSteps | std::function |
| collection/dawg.{h,cpp} | ModelDawg, ModelIterator, ModelBuildThrow, ModelSteps, ModelUseCost, ModelReadCost, ModelText | |
| collection/sorted_dawg.{h,cpp} | ModelDawg, ModelBuildThrow, ModelSteps, ModelBuckets, ModelBuildCost, ModelMatchCost | |
| collection/dawg_iterator.{h,cpp} | ModelDawg, ModelIterator, ModelIterThrow, ModelReadCost | |
| collection/prefix.{h,cpp} | ModelDawg, ModelIterator | move constructor (never used) |
| collection/transition.{h,cpp} | ModelDawg: triples; ModelTests: operator== | |
| serialization/serializer.{h,cpp} | ModelSerial, ModelWire, ModelSteps, ModelSerialThrow, ModelUseCost, ModelSavers | |
| proto/liblevenshtein.proto | ModelSerial, ModelWire | |
| third-party/MurmurHash2.cpp | ModelHash: MurmurHash64A; ModelMurmur: all others | big-endian machines for 64A |
| third-party/MurmurHash3.* | ModelMurmur | |
| example/src/* | ModelDemo, ModelText | |
| test/liblevenshtein/* (relative to the root) | ModelTests, ModelTestTools | the YAML parser, how rapidcheck draws arguments |

Findings (most are theorems with suffix `_refuted`) and the property they belong
to: TranspositionDistance is not a metric and not minimal over
elementary operations (C06, C11); `add` after `finish()` loses terms or leaves
dangling pointers (C22); deserializing foreign messages is unsafe (C27);
`unsubsume` leaves subsumed positions in states, and `subsumes` is not an
inclusion for mixed special positions (C43, C44); `StateIterator::insert`
deviates from its documentation (C46); copies of owners free twice (C51);
`begin` after the transducer is gone (C52); copied dictionary iterators (C53);
a truncated file can be read as a dictionary without a root (C55);
serialize_protobuf returns true although the file is incomplete (C56); the example program uses
a null pointer after a crash at the wrong moment (C59), never ends on input
without a final newline (C60) and accepts distances that are not numbers (C61);
destroying a dictionary visits a node once for every path to it, which for a
dictionary read from a short file can be exponential (C66); the hash has few values (C67); comparing query iterators is
not symmetric (C70); after std::bad_alloc queries lose results and leak (C71),
sorted_dawg leaks, destructors can end the program, and `add` must not be called again (C72).
The recursion of `between`, of the hash and of == is as deep as the strings are
long (C74), so very long strings exhaust the stack; strings of 2^31 characters and more make
the hash of a pair undefined (C75) and so is the lookup of terms that long (C90).  Two of the project's tests can fail (C78).
Linking a label of a node again can leave edges to freed nodes (C100). If the nodes of a
dictionary go round, its destructor, comparing it and its hash never end (C101), and
iterating over it may not (C102), while queries do.
After init() on a dictionary that is there already, add() stores only what comes after the
prefix shared with the last term, at the root, so that longer terms lose their beginnings
(C107, C108); if the root has an edge with that label already, its target is
deleted although other edges may lead to it (C109).
The terms a dictionary lists are not in the order sorted_dawg wants (C112), and the first
result of a query need not be the nearest (C113);
two processes that save to one path at the same time leave a mixture that may load
as a dictionary with terms neither had, or crash the loader (C116).
