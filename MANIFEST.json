{
 "claims": [
  {
   "property": "C01",
   "status": "proved",
   "theorems": [
    "C01_standard_exact"
   ],
   "note": "for every history of earlier calls"
  },
  {
   "property": "C02",
   "status": "proved",
   "theorems": [
    "C02_merge_and_split_exact"
   ],
   "note": "for every history of earlier calls"
  },
  {
   "property": "C03",
   "status": "proved",
   "theorems": [
    "C03_transposition_exact"
   ],
   "note": "least alignment cost, for every history"
  },
  {
   "property": "C04",
   "status": "proved",
   "theorems": [
    "C04_standard_metric"
   ],
   "note": "all four axioms"
  },
  {
   "property": "C05",
   "status": "proved",
   "theorems": [
    "C05_merge_and_split_metric"
   ],
   "note": "all four axioms"
  },
  {
   "property": "C06",
   "status": "proved",
   "theorems": [
    "C06_transposition_axioms_1_3",
    "C06_transposition_triangle_refuted"
   ],
   "note": "axioms 1-3 for all strings; the documented axiom 4 is refuted by CA, AC, ABC"
  },
  {
   "property": "C07",
   "status": "proved",
   "theorems": [
    "C07_context_invariant"
   ],
   "note": ""
  },
  {
   "property": "C08",
   "status": "proved",
   "theorems": [
    "C08_history_independent",
    "C08_same_answer_always"
   ],
   "note": ""
  },
  {
   "property": "C09",
   "status": "proved",
   "theorems": [
    "C09_every_schedule"
   ],
   "note": "critical sections atomic (guarded by the shared_mutex); any number of threads and calls, any interleaving, with termination bound and progress"
  },
  {
   "property": "C10",
   "status": "proved",
   "theorems": [
    "C10_bounds"
   ],
   "note": ""
  },
  {
   "property": "C11",
   "status": "proved",
   "theorems": [
    "C11_transposition_suffices",
    "C11_transposition_minimum_refuted"
   ],
   "note": "upper bound proved, documented minimality refuted by CA, ABC"
  },
  {
   "property": "C41",
   "status": "proved",
   "theorems": [
    "C41_sort"
   ],
   "note": "on the sequence of positions; the pointer version is C46"
  },
  {
   "property": "C42",
   "status": "proved",
   "theorems": [
    "C42_merge"
   ],
   "note": ""
  },
  {
   "property": "C43",
   "status": "proved",
   "theorems": [
    "C43_unsubsume_ascending",
    "C43_unsubsume_after_merge",
    "C43_states_without_subsumed_refuted",
    "C43_any_order",
    "C43_meaning",
    "C43_meaning_refuted"
   ],
   "note": "the documented removal of subsumed positions is refuted for states returned by StateTransition"
  },
  {
   "property": "C44",
   "status": "proved",
   "theorems": [
    "C44_subsumes",
    "C44_complete",
    "C44_ordinary_special_swap_refuted",
    "C44_special_ordinary_swap_refuted",
    "C44_special_ordinary_split_refuted",
    "C44_wrap_around"
   ],
   "note": "inclusion where it holds, exactness for ordinary positions; refutations where the documentation is not met"
  },
  {
   "property": "C45",
   "status": "proved",
   "theorems": [
    "C45_compare"
   ],
   "note": ""
  },
  {
   "property": "C47",
   "status": "proved",
   "theorems": [
    "C47_pruning_exact"
   ],
   "note": ""
  },
  {
   "property": "C12",
   "status": "proved",
   "theorems": [
    "C12_sorted_dawg"
   ],
   "note": "any allocator, any surrounding memory; failure leaves memory as it was"
  },
  {
   "property": "C13",
   "status": "proved",
   "theorems": [
    "C13_contains"
   ],
   "note": "terms up to INT_MAX characters (the loop counter is an int; C90 says what happens beyond)"
  },
  {
   "property": "C14",
   "status": "proved",
   "theorems": [
    "C14_size"
   ],
   "note": ""
  },
  {
   "property": "C15",
   "status": "proved",
   "theorems": [
    "C15_iterate"
   ],
   "note": ""
  },
  {
   "property": "C16",
   "status": "proved",
   "theorems": [
    "C16_minimal"
   ],
   "note": ""
  },
  {
   "property": "C17",
   "status": "proved",
   "theorems": [
    "C17_add",
    "C17_kept"
   ],
   "note": "every history of add calls before finish()"
  },
  {
   "property": "C18",
   "status": "proved",
   "theorems": [
    "C18_lifetime",
    "C18_sorted_dawg",
    "C18_footprint"
   ],
   "note": "every history of add calls, with or without finish() and clean_up(); calls of add after finish() are C22"
  },
  {
   "property": "C19",
   "status": "proved",
   "theorems": [
    "C19_equality",
    "C19_equality_repeats"
   ],
   "note": "two dictionaries built one after the other in the same memory"
  },
  {
   "property": "C20",
   "status": "proved",
   "theorems": [
    "C20_node_hash",
    "C20_dawg_hash",
    "C20_pair_hash"
   ],
   "note": "nodes in arbitrary memory whose edge maps are ordered"
  },
  {
   "property": "C21",
   "status": "proved",
   "theorems": [
    "C21_repeats"
   ],
   "note": ""
  },
  {
   "property": "C22",
   "status": "proved",
   "theorems": [
    "C22_before_finish",
    "C17_kept",
    "C22_add_after_finish_refuted",
    "C22_use_after_free_refuted"
   ],
   "note": "exact visibility before finish(); after it all accepted terms (C17_kept); terms added after finish() may be lost or leave a dangling pointer"
  },
  {
   "property": "C23",
   "status": "proved",
   "theorems": [
    "C23_remove"
   ],
   "note": ""
  },
  {
   "property": "C28",
   "status": "proved",
   "theorems": [
    "C28_standard_query"
   ],
   "note": "query strings up to INT_MAX characters (a loop counter is an int; up to 2^62 if 2n+1 <= INT_MAX; C90 says what happens beyond), terms shorter than 2^62, n up to SIZE_MAX"
  },
  {
   "property": "C29",
   "status": "proved",
   "theorems": [
    "C29_transposition_query"
   ],
   "note": "same limits"
  },
  {
   "property": "C30",
   "status": "proved",
   "theorems": [
    "C30_merge_and_split_query"
   ],
   "note": "same limits"
  },
  {
   "property": "C31",
   "status": "proved",
   "theorems": [
    "C31_order"
   ],
   "note": "the comparison with dictionary iteration is for strictly ascending input; for repeated terms iteration itself repeats values (C21)"
  },
  {
   "property": "C32",
   "status": "proved",
   "theorems": [
    "C32_agrees_with_distance"
   ],
   "note": ""
  },
  {
   "property": "C33",
   "status": "proved",
   "theorems": [
    "C33_strings"
   ],
   "note": ""
  },
  {
   "property": "C34",
   "status": "proved",
   "theorems": [
    "C34_independent",
    "C34_repeatable"
   ],
   "note": "every number of queries and every schedule of increments"
  },
  {
   "property": "C35",
   "status": "proved",
   "theorems": [
    "C35_exact_lookup",
    "C35_monotone",
    "C35_everything"
   ],
   "note": ""
  },
  {
   "property": "C36",
   "status": "proved",
   "theorems": [
    "C36_terminates"
   ],
   "note": ""
  },
  {
   "property": "C37",
   "status": "proved",
   "theorems": [
    "C37_no_undefined_behaviour",
    "C28_standard_query",
    "C29_transposition_query",
    "C30_merge_and_split_query"
   ],
   "note": "at every step; values are right by C28-C30"
  },
  {
   "property": "C38",
   "status": "proved",
   "theorems": [
    "C38_lazy"
   ],
   "note": ""
  },
  {
   "property": "C39",
   "status": "proved",
   "theorems": [
    "C39_exhausted",
    "C39_no_results"
   ],
   "note": ""
  },
  {
   "property": "C40",
   "status": "proved",
   "theorems": [
    "C40_symmetric"
   ],
   "note": ""
  },
  {
   "property": "C24",
   "status": "proved",
   "theorems": [
    "C24_round_trip"
   ],
   "note": "any dictionary (built, restored, in any memory), any allocator"
  },
  {
   "property": "C25",
   "status": "proved",
   "theorems": [
    "C25_restored"
   ],
   "note": "contains, iteration, all queries, node count, destruction; the message may be read in another process"
  },
  {
   "property": "C26",
   "status": "proved",
   "theorems": [
    "C26_labels"
   ],
   "note": ""
  },
  {
   "property": "C27",
   "status": "proved",
   "theorems": [
    "C27_well_formed",
    "C27_unknown_source",
    "C27_empty",
    "C27_repeated_edge",
    "C27_cycle",
    "C27_exact",
    "C27_destroy",
    "C27_query",
    "C27_iterate"
   ],
   "note": "messages as parsed; the byte encoding belongs to protobuf"
  },
  {
   "property": "C48",
   "status": "proved",
   "theorems": [
    "C48_after_sorted_dawg",
    "C48_after_from_protobuf"
   ],
   "note": ""
  },
  {
   "property": "C46",
   "status": "proved",
   "theorems": [
    "C46_construct",
    "C46_operations",
    "C46_walk",
    "C46_destroy",
    "C46_insert_front",
    "C46_insert_refuted"
   ],
   "note": "the two insert theorems state the deviation from the documentation"
  },
  {
   "property": "C49",
   "status": "proved",
   "theorems": [
    "C49_transition",
    "C49_distance"
   ],
   "note": ""
  },
  {
   "property": "C50",
   "status": "proved",
   "theorems": [
    "C50_memory"
   ],
   "note": ""
  },
  {
   "property": "C51",
   "status": "proved",
   "theorems": [
    "C51_query_copy_refuted",
    "C51_transducer_copy_refuted",
    "C51_state_copy_refuted",
    "C51_dictionary_copy_refuted"
   ],
   "note": "the implicit copy is the same record of pointers; the theorems state the deviation from what a user may expect"
  },
  {
   "property": "C52",
   "status": "proved",
   "theorems": [
    "C52_transducer_first",
    "C52_begin_refuted",
    "C52_increment",
    "C52_last"
   ],
   "note": "nothing is claimed about allocators that hand out the address of the destroyed root again while there are results to come"
  },
  {
   "property": "C53",
   "status": "proved",
   "theorems": [
    "C53_iterators",
    "C53_copy_refuted"
   ],
   "note": ""
  },
  {
   "property": "C54",
   "status": "proved",
   "theorems": [
    "C54_message",
    "C54_file"
   ],
   "note": "on a model of protobuf's wire format and of file streams, which are not in /repo"
  },
  {
   "property": "C55",
   "status": "proved",
   "theorems": [
    "C55_unreadable",
    "C55_cut_short",
    "C55_crash_point"
   ],
   "note": "same model"
  },
  {
   "property": "C56",
   "status": "proved",
   "theorems": [
    "C56_result",
    "C56_saved_refuted"
   ],
   "note": "same model; the refutation is of the reading that true means saved"
  },
  {
   "property": "C57",
   "status": "proved",
   "theorems": [
    "C57_first_run"
   ],
   "note": ""
  },
  {
   "property": "C58",
   "status": "proved",
   "theorems": [
    "C58_later_runs"
   ],
   "note": "saving is assumed to have succeeded if there is room for 50 bytes per character and 64 more"
  },
  {
   "property": "C59",
   "status": "proved",
   "theorems": [
    "C59_after_crash",
    "C59_recovery_refuted"
   ],
   "note": "the refutation is of recovery without undefined behaviour"
  },
  {
   "property": "C60",
   "status": "proved",
   "theorems": [
    "C60_end_of_input"
   ],
   "note": ""
  },
  {
   "property": "C61",
   "status": "proved",
   "theorems": [
    "C61_options",
    "C61_errors",
    "C61_distances"
   ],
   "note": ""
  },
  {
   "property": "C62",
   "status": "proved",
   "theorems": [
    "C62_lock",
    "C62_atomic"
   ],
   "note": ""
  },
  {
   "property": "C63",
   "status": "proved",
   "theorems": [
    "C63_accesses",
    "C63_memo"
   ],
   "note": ""
  },
  {
   "property": "C64",
   "status": "proved",
   "theorems": [
    "C64_state_size"
   ],
   "note": ""
  },
  {
   "property": "C65",
   "status": "proved",
   "theorems": [
    "C65_work",
    "C65_bound"
   ],
   "note": ""
  },
  {
   "property": "C66",
   "status": "proved",
   "theorems": [
    "C66_destruction",
    "C66_short_file"
   ],
   "note": "a finding: the cost follows the terms, not the automaton"
  },
  {
   "property": "C67",
   "status": "proved",
   "theorems": [
    "C67_few_codes",
    "C67_collision"
   ],
   "note": "a finding about the quality of the hash; C20 says it is consistent with equality"
  },
  {
   "property": "C68",
   "status": "proved",
   "theorems": [
    "C68_threads",
    "C68_alone",
    "C68_terminates",
    "C68_destroy_refuted"
   ],
   "note": "interleaving semantics; by race freedom (part of C68_threads) every C++ execution is one of these; C68_alone relates the programs to the functions of C50; C68_destroy_refuted: the transducer must outlive the queries"
  },
  {
   "property": "C69",
   "status": "proved",
   "theorems": [
    "C69_writes",
    "C69_reads",
    "C69_refuses",
    "C69_later_versions"
   ],
   "note": "encodes (SpecFormat.v) is an independent relational description of the wire format; groups, which proto3 never writes, are part of it, nested at most as deep as protobuf allows"
  },
  {
   "property": "C70",
   "status": "proved",
   "theorems": [
    "C70_comparison",
    "C70_end_refuted"
   ],
   "note": "C70_end_refuted is a finding: operator== is not symmetric, which C++20 requires of a sentinel comparison used by the algorithms of std::ranges"
  },
  {
   "property": "C71",
   "status": "proved",
   "theorems": [
    "C71_out_of_memory",
    "C71_interrupted",
    "C71_transducer",
    "C71_unlimited",
    "C71_lost_refuted",
    "C71_leak_refuted",
    "C71_edges_refuted"
   ],
   "note": "C71_unlimited: without failures these are the functions of C50; findings: C71_lost_refuted (an interrupted increment makes the iterator equal to end() and may drop a result), C71_edges_refuted (edges not queued are never followed) and C71_leak_refuted"
  },
  {
   "property": "C72",
   "status": "proved",
   "theorems": [
    "C72_build",
    "C72_sorted_dawg",
    "C72_enough",
    "C72_leak_refuted",
    "C72_destructor_refuted",
    "C72_retry_refuted"
   ],
   "note": "findings: C72_leak_refuted (every exception out of sorted_dawg leaks), C72_destructor_refuted (destructors allocate) and C72_retry_refuted (add() again after an exception, then finish(), is undefined behaviour)"
  },
  {
   "property": "C73",
   "status": "proved",
   "theorems": [
    "C73_out_of_memory",
    "C73_no_exception"
   ],
   "note": "steps of ModelThreads plus exceptions at every allocating step"
  },
  {
   "property": "C74",
   "status": "proved",
   "theorems": [
    "C74_distance",
    "C74_distance_needed",
    "C74_hash",
    "C74_equality",
    "C74_build",
    "C74_text",
    "C74_query_text",
    "C74_sort",
    "C74_destroy_state"
   ],
   "note": "the fuel of the recursive functions is the depth of the stack; the bounds for hash, ==, texts, sort and destruction are exact"
  },
  {
   "property": "C75",
   "status": "proved",
   "theorems": [
    "C75_hash_table",
    "C75_refines",
    "C75_too_long_refuted"
   ],
   "note": "finding: C75_too_long_refuted (casts of lengths to int)"
  },
  {
   "property": "C76",
   "status": "proved",
   "theorems": [
    "C76_session",
    "C76_readable",
    "C76_other_queries_refuted",
    "C76_refuses",
    "C76_messages",
    "C76_help",
    "C76_help_lines",
    "C76_pair",
    "C76_pair_text",
    "C76_pair_refuted",
    "C76_node",
    "C76_node_text",
    "C76_dictionary_text",
    "C76_dictionary",
    "C76_dictionaries"
   ],
   "note": "limits: C76_other_queries_refuted (queries are not shown), C76_pair_refuted (quotation marks are not escaped)"
  },
  {
   "property": "C77",
   "status": "proved",
   "theorems": [
    "C77_session",
    "C77_threads",
    "C77_alone",
    "C77_terminates",
    "C77_read_while_built_refuted",
    "C77_read_while_deleted_refuted"
   ],
   "note": "limits: C77_read_while_built_refuted, C77_read_while_deleted_refuted (these need a lock)"
  },
  {
   "property": "C78",
   "status": "proved",
   "theorems": [
    "C78_positions",
    "C78_nodes",
    "C78_sorted_dawg",
    "C78_transducer",
    "C78_notices",
    "C78_notices_terms",
    "C78_distances",
    "C78_triangle_test_refuted",
    "C78_pairs",
    "C78_pair_hash_test_refuted",
    "C78_serializer"
   ],
   "note": "two tests are wrong: C78_triangle_test_refuted, C78_pair_hash_test_refuted"
  },
  {
   "property": "C79",
   "status": "proved",
   "theorems": [
    "C79_hash_table",
    "C79_same",
    "C79_keys",
    "C79_assigned"
   ],
   "note": ""
  },
  {
   "property": "C80",
   "status": "proved",
   "theorems": [
    "C80_query",
    "C80_iterator",
    "C80_members"
   ],
   "note": "freed memory that is given to another node of a dictionary is not detected by the model and excluded in the definition of deleted"
  },
  {
   "property": "C81",
   "status": "proved",
   "theorems": [
    "C81_increments",
    "C81_begin",
    "C81_begin_refuted",
    "C81_retry_refuted"
   ],
   "note": "C81_begin_refuted: whenever begin() throws after its first allocation, memory is lost; C81_retry_refuted: terms are lost and the last one is repeated"
  },
  {
   "property": "C82",
   "status": "proved",
   "theorems": [
    "C82_save",
    "C82_load",
    "C82_overwrite_refuted",
    "C82_load_refuted"
   ],
   "note": "C82_overwrite_refuted: for every dictionary there is a point of failure after which the file is empty, which loads as a dictionary that contains nothing and cannot be destroyed; C82_load_refuted: nodes are lost whenever loading throws after the final nodes have been read"
  },
  {
   "property": "C83",
   "status": "proved",
   "theorems": [
    "C83_build",
    "C83_exact",
    "C83_bound",
    "C83_linear_refuted",
    "C83_dictionary_hash"
   ],
   "note": "C83_linear_refuted: a single term of length L takes at least L(L+1)/2 calls; calls of operator== are not counted"
  },
  {
   "property": "C84",
   "status": "proved",
   "theorems": [
    "C84_query",
    "C84_query_empty",
    "C84_iterator",
    "C84_loop",
    "C84_loop_refuted"
   ],
   "note": "C84_loop_refuted: a range-for over an unfinished dictionary can list a term that was never added"
  },
  {
   "property": "C85",
   "status": "proved",
   "theorems": [
    "C85_saved",
    "C85_last_lost",
    "C85_equality",
    "C85_equality_refuted"
   ],
   "note": "C85_equality_refuted: dictionaries with different terms compare equal until they are finished"
  },
  {
   "property": "C86",
   "status": "proved",
   "theorems": [
    "C86_letters",
    "C86_path",
    "C86_ends",
    "C86_possible",
    "C86_full",
    "C86_cleanup",
    "C86_distinct",
    "C86_distinct_refuted",
    "C86_settings",
    "C86_settings_refuted"
   ],
   "note": "files are a set of paths; the YAML parser and rapidcheck itself are not modelled"
  },
  {
   "property": "C87",
   "status": "proved",
   "theorems": [
    "C87_last",
    "C87_twice"
   ],
   "note": "dictionaries that share nodes arise only if one is written twice; several copies of one dictionary among others are not covered by a theorem"
  },
  {
   "property": "C88",
   "status": "proved",
   "theorems": [
    "C88_neutral",
    "C88_aligned",
    "C88_incremental",
    "C88_settled",
    "C88_unaligned_refuted",
    "C88_byte_order_refuted",
    "C88_incremental_refuted"
   ],
   "note": "little-endian machines except for MurmurHashNeutral2; _refuted: MurmurHash2 reads words at addresses that are not multiples of their size, and with the other byte order the functions no longer agree; the models give the published verification values (TestsMurmur)"
  },
  {
   "property": "C89",
   "status": "proved",
   "theorems": [
    "C89_blocks",
    "C89_seeds",
    "C89_library",
    "C89_pairs",
    "C89_two_blocks_refuted"
   ],
   "note": "_refuted: keys that differ in two blocks can collide, also for MurmurHash64A"
  },
  {
   "property": "C90",
   "status": "proved",
   "theorems": [
    "C90_contains",
    "C90_query",
    "C90_own_term_refuted"
   ],
   "note": "_refuted: the lookup of any term longer than INT_MAX characters in a dictionary that has it is undefined; that long queries with small bounds are answered is C28-C37, whose limits say so"
  },
  {
   "property": "C91",
   "status": "proved",
   "theorems": [
    "C91_fewer",
    "C91_algorithms",
    "C91_detour",
    "C91_detour_refuted",
    "C91_depth"
   ],
   "note": "_refuted: ca, ac, abc for TRANSPOSITION, whose distance has no triangle inequality"
  },
  {
   "property": "C92",
   "status": "proved",
   "theorems": [
    "C92_memory",
    "C92_several",
    "C92_iterator"
   ],
   "note": "counts objects, not bytes: the containers' own memory is not modelled"
  },
  {
   "property": "C93",
   "status": "proved",
   "theorems": [
    "C93_building",
    "C93_built",
    "C93_far_apart"
   ],
   "note": "counts nodes, not bytes"
  },
  {
   "property": "C94",
   "status": "proved",
   "theorems": [
    "C94_compare",
    "C94_same",
    "C94_save"
   ],
   "note": "counts calls, not time"
  },
  {
   "property": "C95",
   "status": "proved",
   "theorems": [
    "C95_minimal",
    "C95_saved",
    "C95_binary"
   ],
   "note": ""
  },
  {
   "property": "C96",
   "status": "proved",
   "theorems": [
    "C96_results",
    "C96_work",
    "C96_memory"
   ],
   "note": "counts results, calls and objects, not time and bytes; the bounds are not sharp"
  },
  {
   "property": "C97",
   "status": "proved",
   "theorems": [
    "C97_allocations",
    "C97_bound"
   ],
   "note": "counts the new expressions and, one each, the insertions into the containers of LazyQuery and its strings, as in C71; not the vectors inside the transition functions; the bound is not sharp"
  },
  {
   "property": "C98",
   "status": "proved",
   "theorems": [
    "C98_contains",
    "C98_iterate",
    "C98_all",
    "C98_same"
   ],
   "note": "counts edges followed and prefixes taken from the queue, not time; C98_same says that the counting functions do what those of the model do"
  },
  {
   "property": "C99",
   "status": "proved",
   "theorems": [
    "C99_build",
    "C99_together",
    "C99_no_more_than_hashed_refuted"
   ],
   "note": "counts calls of operator==, not time; assumes that the table stores hash codes, as libstdc++ does (see C79 for the results without that). C99_no_more_than_hashed_refuted gives a cubic lower bound for terms of equal characters"
  },
  {
   "property": "C100",
   "status": "proved",
   "theorems": [
    "C100_history",
    "C100_map",
    "C100_same_again_refuted",
    "C100_shared_refuted",
    "C100_itself_refuted"
   ],
   "note": "the three refutations say why the condition on the history is needed; the header states no such condition. C100_map: with the constructor that takes a map of edges"
  },
  {
   "property": "C101",
   "status": "proved",
   "theorems": [
    "C101_destroy",
    "C101_round_refuted",
    "C101_query",
    "C101_iterate",
    "C101_compare",
    "C101_hash"
   ],
   "note": "C101_round_refuted: the library does not reject a graph that goes round, and then does not end; that queries do end is C102"
  },
  {
   "property": "C102",
   "status": "proved",
   "theorems": [
    "C102_hand",
    "C102_message",
    "C102_iterate_hand",
    "C102_iterate_message",
    "C102_forever_hand_refuted",
    "C102_forever_message_refuted"
   ],
   "note": "C102_forever_*_refuted: iterating need not end; the destructor of such a dictionary does not (C27_cycle, C101_round_refuted)"
  },
  {
   "property": "C103",
   "status": "proved",
   "theorems": [
    "C103_save_hand",
    "C103_read_hand",
    "C103_message",
    "C103_built"
   ],
   "note": "C103_built removes the limits on lengths from C25"
  },
  {
   "property": "C104",
   "status": "proved",
   "theorems": [
    "C104_link",
    "C104_replace",
    "C104_shared",
    "C104_mark"
   ],
   "note": "C104_shared says when the deletion in add_edge leaves dangling pointers"
  },
  {
   "property": "C105",
   "status": "proved",
   "theorems": [
    "C105_built",
    "C105_message",
    "C105_further"
   ],
   "note": "C104 says what single calls do in terms of the terms alone"
  },
  {
   "property": "C106",
   "status": "proved",
   "theorems": [
    "C106_sound",
    "C106_compare",
    "C106_alike",
    "C106_equal",
    "C106_built"
   ],
   "note": "two different dictionaries that both go round: C106_case shows that the comparison need not end"
  },
  {
   "property": "C107",
   "status": "proved",
   "theorems": [
    "C107_played",
    "C107_anew",
    "C107_again",
    "C107_minimal",
    "C107_longer_refuted",
    "C107_reopen_refuted"
   ],
   "note": "a link over an existing edge deletes the node it led to: C22_use_after_free_refuted"
  },
  {
   "property": "C108",
   "status": "proved",
   "theorems": [
    "C108_continued",
    "C108_more",
    "C108_lost_refuted"
   ],
   "note": "a link over an existing edge: C109"
  },
  {
   "property": "C109",
   "status": "proved",
   "theorems": [
    "C109_lookups",
    "C109_alone",
    "C109_shared"
   ],
   "note": "C109_lookups describes every lookup, by whether it passes the deleted node"
  },
  {
   "property": "C110",
   "status": "proved",
   "theorems": [
    "C110_messages",
    "C110_files",
    "C110_renamed",
    "C110_elsewhere"
   ],
   "note": "C110_elsewhere: saved where char is unsigned, read here; the reverse direction would need a model of a platform with unsigned char"
  },
  {
   "property": "C111",
   "status": "proved",
   "theorems": [
    "C111_letters",
    "C111_backwards",
    "C111_joined",
    "C111_cut",
    "C111_cut_refuted",
    "C111_strange",
    "C111_query_letters",
    "C111_query_backwards",
    "C111_query_framed"
   ],
   "note": "C111_cut_refuted: for TRANSPOSITION and MERGE_AND_SPLIT the sum can be one more than the whole at every cut"
  },
  {
   "property": "C112",
   "status": "proved",
   "theorems": [
    "C112_listed",
    "C112_ascii",
    "C112_sorted",
    "C112_listed_refuted"
   ],
   "note": "C112_listed_refuted: ab, b are listed as b, ab, which sorted_dawg refuses"
  },
  {
   "property": "C113",
   "status": "proved",
   "theorems": [
    "C113_nearest",
    "C113_first_refuted",
    "C113_corrects",
    "C113_corrects_refuted"
   ],
   "note": "C113_first_refuted: the first result need not be the nearest. C113_corrects_refuted: ca meant, ac written, abc found as well"
  },
  {
   "property": "C114",
   "status": "proved",
   "theorems": [
    "C114_copies",
    "C114_gone"
   ],
   "note": "copying a LazyQuery is excluded (C51)"
  },
  {
   "property": "C115",
   "status": "proved",
   "theorems": [
    "C115_contains",
    "C115_query",
    "C115_work",
    "C115_listed"
   ],
   "note": "Any number of parts; merging is stated without mentioning how it is done."
  },
  {
   "property": "C116",
   "status": "proved",
   "theorems": [
    "C116_same",
    "C116_dictionary",
    "C116_loading",
    "C116_loading_many",
    "C116_loading_many_refuted",
    "C116_replacing",
    "C116_replacing_refuted",
    "C116_mixture_refuted",
    "C116_same_terms_refuted"
   ],
   "note": "That the file always holds one of the dictionaries saved is refuted, for different terms and for equal terms at different addresses."
  },
  {
   "property": "C117",
   "status": "proved",
   "theorems": [
    "C117_operation",
    "C117_triangle",
    "C117_operation_refuted",
    "C117_query",
    "C117_ahead",
    "C117_corrects"
   ],
   "note": "That TRANSPOSITION distances change by at most 1 is refuted; the bound 2 is proved."
  },
  {
   "property": "C118",
   "status": "proved",
   "theorems": [
    "C118_starting",
    "C118_ending"
   ],
   "note": "runs that save different bytes at the same time are not covered here; C116 says what is left in the file then; the case for C118_starting does not include the typed queries and the sizes"
  }
 ]
}