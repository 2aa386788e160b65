{
 "claims": [
  {
   "property": "C01",
   "status": "proved",
   "theorems": [
    "C01_registry_is_a_map"
   ],
   "note": "For every hash function and history. After 256 registrations over the process life the theorem requires look-ups of registered requests only (see C02)."
  },
  {
   "property": "C02",
   "status": "proved",
   "theorems": [
    "C02_registry_terminates_refuted",
    "C02_registration_when_full_refuted"
   ],
   "note": "The property is false in the faithful model: two theorems exhibit non-terminating histories. Termination under the stated bound is part of C01_registry_is_a_map."
  },
  {
   "property": "C03",
   "status": "proved",
   "theorems": [
    "C03_create_gives_fresh_handle",
    "C03_free_is_isolated"
   ],
   "note": "Executor abstract; assumes a blocking execution returns only when the program is finished."
  },
  {
   "property": "C04",
   "status": "proved",
   "theorems": [
    "C04_lifecycle"
   ],
   "note": "Simulation against independent collectives with run counter and position; Start only on idle collectives."
  },
  {
   "property": "C05",
   "status": "proved",
   "theorems": [
    "C05_barrier_is_a_barrier"
   ],
   "note": "Sequentially consistent memory, wrap-around signed counter; both socket and node barrier directions."
  },
  {
   "property": "C06",
   "status": "proved",
   "theorems": [
    "C06_barrier_terminates"
   ],
   "note": "Every fair schedule completes any number of barriers."
  },
  {
   "property": "C07",
   "status": "proved",
   "theorems": [
    "C07_poll_never_passes_refuted",
    "C07_poll_blocks_refuted",
    "C07_atomic_poll_refuted"
   ],
   "note": "False in the faithful model: the polarity of the barrier poll is inverted; general counter-theorems."
  },
  {
   "property": "C08",
   "status": "proved",
   "theorems": [
    "C08_testall",
    "C08_testany",
    "C08_waitall",
    "C08_waitany",
    "C08_waitsome",
    "C08_forwarded",
    "C08_waitany_returns",
    "C08_testall_ignore_refuted",
    "C08_testall_ignore_always_true_refuted",
    "C08_testsome_refuted"
   ],
   "note": "Testall with statuses, Testany, Waitall, Waitany proved for all lists and completion patterns. Testall with MPI_STATUSES_IGNORE and Testsome are wrong. Statuses and error codes of PMPI calls are not modelled."
  },
  {
   "property": "C09",
   "status": "proved",
   "theorems": [
    "C09_size",
    "C09_decoded",
    "C09_header",
    "C09_locmem_operand_refuted"
   ],
   "note": "all line kinds of the CPU path (message, copy, reduce, barriers, waitall, waitany with attached reductions, return), any dry-run addresses; GPU and NCCL opcodes not modelled"
  },
  {
   "property": "C10",
   "status": "proved",
   "theorems": [
    "C10_direct_order_irrelevant",
    "C10_deferred_order_irrelevant",
    "C10_deferred_two_targets_refuted",
    "C10_direct_sending_target_refuted"
   ],
   "note": "Proved for every set of requests and every order of transfers and completions, over integers. Conditions: buffers apart; direct mode: nothing sent from the destination; deferred mode: all messages go to the same destination. Both conditions shown necessary by refutations. Rounding of floating point sums is outside the model."
  },
  {
   "property": "C11",
   "status": "proved",
   "theorems": [
    "C11_split",
    "C11_short"
   ],
   "note": "All counts, element sizes and socket numbers."
  },
  {
   "property": "C12",
   "status": "proved",
   "theorems": [
    "C12_ports_groups_round_trip",
    "C12_empty_configuration_refuted"
   ],
   "note": "Buffer sizes not modelled. The empty configuration is not printable (write before the buffer), shown separately."
  },
  {
   "property": "C13",
   "status": "proved",
   "theorems": [
    "C13_copyin_round_trip"
   ],
   "note": "Buffer sizes not modelled."
  },
  {
   "property": "C14",
   "status": "proved",
   "theorems": [
    "C14_prime_factor_decomposition",
    "C14_plain_prime_factors"
   ],
   "note": "No int overflow."
  },
  {
   "property": "C15",
   "status": "proved",
   "theorems": [
    "C15_padding_is_gcd",
    "C15_collective_padding_is_gcd"
   ],
   "note": "MPI_Allreduce is modelled as element-wise maximum/minimum over the ranks."
  },
  {
   "property": "C16",
   "status": "proved",
   "theorems": [
    "C16_is_lcm_refuted",
    "C16_right_only_if_equal_refuted"
   ],
   "note": "The property is false in the faithful model: the function computes the least common multiple."
  },
  {
   "property": "C17",
   "status": "proved",
   "theorems": [
    "C17_allgather_delivers_everything"
   ],
   "note": "Any positive port list; one socket per node; lines are abstract values; lock-step stages as in raw_code.c."
  },
  {
   "property": "C18",
   "status": "proved",
   "theorems": [
    "C18_reduce_scatter_reduces_everything_once"
   ],
   "note": "Any non-zero port list ending with a negative port; associative and commutative operation."
  },
  {
   "property": "C19",
   "status": "proved",
   "theorems": [
    "C19_allreduce_reduces_everything_everywhere"
   ],
   "note": "Port lists down ++ mid ++ up with node_count up = node_count down; associative and commutative operation."
  },
  {
   "property": "C20",
   "status": "proved",
   "theorems": [
    "C20_allgather_matched",
    "C20_reduce_scatter_matched",
    "C20_allreduce_matched",
    "C20_same_number_of_stages",
    "C20_allreduce_same_number_of_stages"
   ],
   "note": "Every stage of every schedule of allreduce_recursive.c. The cyclic allgather is treated under C21."
  },
  {
   "property": "C21",
   "status": "proved",
   "theorems": [
    "C21_cyclic_allgather_delivers_everything",
    "C21_cyclic_allgather_matched",
    "C21_nonminimal_ports_refuted",
    "C21_nonminimal_partner_refuted"
   ],
   "note": "Proved for all node counts and minimal port lists; refuted for non-minimal port lists (mismatched message sizes, partner -1)."
  },
  {
   "property": "C22",
   "status": "proved",
   "theorems": [
    "C22_global_of_local",
    "C22_local_of_global",
    "C22_positions_identify_socket",
    "C22_renumbered_schedule_matched",
    "C22_group_of_step"
   ],
   "note": "All group structures for which the divisions are exact (splits); includes the content of the C arrays left from an earlier call."
  },
  {
   "property": "C23",
   "status": "proved",
   "theorems": [
    "C23_permutation_with_stable_sort",
    "C23_permutation_refuted",
    "C23_round_trip",
    "C23_permuted_schedule_matched",
    "C23_sizes_follow_nodes_refuted"
   ],
   "note": "Bijection proved for stable sorting and non-negative sizes; refuted for unstable sorting (C qsort gives no guarantee). Round trip and matching proved. Sizes in between belong to the wrong nodes (refuted)."
  },
  {
   "property": "C24",
   "status": "proved",
   "theorems": [
    "C24_buffers_do_not_overlap",
    "C24_inside_reported_memory",
    "C24_same_buffer_same_distance",
    "C24_total_is_whole_cache_lines",
    "C24_reached_messages_do_not_overlap",
    "C24_messages_counted_refuted",
    "C24_direct_access_apart_refuted",
    "C24_all_rebased_refuted",
    "C24_program_rebased",
    "C24_no_numbers_left"
   ],
   "note": "Holds for copy and reduce lines that name a buffer, and for messages no longer than some copy from the same buffer. Refuted: for messages alone (sizes of irecv/isend are not counted), for accesses without buffer number (they may hit numbered buffers), and one line type is never rebased."
  },
  {
   "property": "C25",
   "status": "proved",
   "theorems": [
    "C25_memcpy_reduce_round_trip",
    "C25_irecv_isend_round_trip",
    "C25_stream_round_trip",
    "C25_lines_short",
    "C25_long_line_refuted",
    "C25_ascii_round_trip"
   ],
   "note": "Every copy, reduce, send and receive line, whatever the variables of the reader contained, binary; every line of at least one field, ASCII. The stream of binary lines is read exactly, up to 19 fields per line; longer lines are refuted (stored through a null pointer)."
  },
  {
   "property": "C26",
   "status": "proved",
   "theorems": [
    "C26_algorithm_round_trip",
    "C26_algorithm_injective"
   ],
   "note": "Binary form, every schedule whose counts are the array lengths and whose numbers are ints."
  },
  {
   "property": "C27",
   "status": "proved",
   "theorems": [
    "C27_merge_keeps_memory",
    "C27_backward_sizes_refuted",
    "C27_buffer_kinds_refuted",
    "C27_overlap_refuted"
   ],
   "note": "Proved for programs whose mergeable neighbours use the same buffers and have equal sizes when merged downwards, provided source and destination of each merged line are disjoint. Refuted without each of these: copies of unequal size merged downwards cover the wrong bytes, buffer kinds are not compared, overlaps are only partly excluded."
  },
  {
   "property": "C28",
   "status": "proved",
   "theorems": [
    "C28_every_byte_moved_once",
    "C28_nothing_beyond",
    "C28_same_byte_same_core",
    "C28_broken_group_refuted",
    "C28_partial_element_refuted"
   ],
   "note": "Holds when sizes are whole elements and no line other than a copy or a socket barrier stands between two copies to the same destination. Refuted otherwise: with such a line in between the cores disagree about the group and two cores may do the same bytes; bytes after the last whole element are dropped."
  },
  {
   "property": "C29",
   "status": "proved",
   "theorems": [
    "C29_clean_up_ends",
    "C29_instructions_kept",
    "C29_cores_agree",
    "C29_separation_kept",
    "C29_first_barrier_dropped",
    "C29_separation_behind_first_barrier",
    "C29_first_barrier_redundant_refuted",
    "C29_single_core",
    "C29_more_cores_refused",
    "C29_first_barrier_kept"
   ],
   "note": "The clean-up keeps every separation between any two cores and ends exactly if the cores have equally many barriers. Dropping the first barrier (alternating mode) keeps the others; refuted that this barrier is redundant when work precedes it."
  },
  {
   "property": "C30",
   "status": "proved",
   "theorems": [
    "C30_rebound",
    "C30_inside",
    "C30_covered",
    "C30_whole_elements",
    "C30_allreduce_factor",
    "C30_padding",
    "C30_padding_refuted",
    "C30_sent_fits",
    "C30_null_pointer_refuted",
    "C30_reduce_scatter_refuted",
    "C30_allgather_refuted",
    "C30_in_place_refuted"
   ],
   "note": "proved for programs made of whole units and for the factor of allreduce; refuted: the padding factor for arbitrary programs, reduce_scatter_block and allgather with several cores per node, MPI_IN_PLACE, the clipping of messages after a null pointer; instructions instead of bytes, no overflow of int"
  },
  {
   "property": "C31",
   "status": "proved",
   "theorems": [
    "C31_tasks_fill_every_node",
    "C31_uneven_sockets_refuted",
    "C31_no_tasks_refuted",
    "C31_fixed_number_refuted",
    "C31_setting_used"
   ],
   "note": "Proved when the sockets divide every node evenly (always with one socket per node). Refuted otherwise: 7 ranks on 2 sockets give 3, 1 rank on 2 sockets gives 0; a user-given number is not checked."
  },
  {
   "property": "C32",
   "status": "proved",
   "theorems": [
    "C32_candidates_are_minimal_lists",
    "C32_candidates_distinct",
    "C32_lists_from_candidates",
    "C32_lists_fit_the_array",
    "C32_lists_fit_the_array_refuted"
   ],
   "note": "For two or more nodes: the candidates are exactly the minimal lists, without repetition, and every list returned is a candidate preceded by a mirrored negative part. The array receiving the chosen list is large enough for 2, 4 and 6 or more nodes with one rank per node, and refuted for 3 and 5."
  },
  {
   "property": "C33",
   "status": "proved",
   "theorems": [
    "C33_progress_any_time_refuted"
   ],
   "note": "False in the faithful model: NULL dereference before the first collective exists."
  },
  {
   "property": "C34",
   "status": "proved",
   "theorems": [
    "C34_waitany_drains_refuted"
   ],
   "note": "An inactive collective at the head of the list hides all later requests."
  },
  {
   "property": "C35",
   "status": "proved",
   "theorems": [
    "C35_factors_minimum",
    "C35_factor_sqrt",
    "C35_factor_sqrt_of_one_refuted"
   ],
   "note": "Proved for numbers from 2 on; for 1 the square-root factor is 0, which is refuted separately."
  },
  {
   "property": "C36",
   "status": "proved",
   "theorems": [
    "C36_variable_reused_refuted"
   ],
   "note": "refuted: MPI may deliver the address of the request array"
  },
  {
   "property": "C37",
   "status": "proved",
   "theorems": [
    "C37_class",
    "C37_compiled_count_refuted",
    "C37_compiled_count_partial"
   ],
   "note": "selection proved; multiple of the number of nodes refuted in general, proved for small counts, one core per node, and multiples"
  },
  {
   "property": "C38",
   "status": "proved",
   "theorems": [
    "C38_copyin_reduces",
    "C38_half_copyin_reduces"
   ],
   "note": "counts_max = 1, host memory; both methods"
  },
  {
   "property": "C39",
   "status": "proved",
   "theorems": [
    "C39_copyin_progress",
    "C39_half_copyin_progress",
    "C39_steps_are_bounded"
   ],
   "note": ""
  },
  {
   "property": "C40",
   "status": "proved",
   "theorems": [
    "C40_uneven_groups_end_refuted",
    "C40_large_product_reduces_refuted",
    "C40_half_small_reduces_refuted",
    "C40_small_product_reduces_refuted"
   ],
   "note": "refuted: the property is false of the faithful model; witnesses"
  },
  {
   "property": "C41",
   "status": "proved",
   "theorems": [
    "C41_selection_admissible",
    "C41_sockets_partition_cores",
    "C41_factors_fit"
   ],
   "note": ""
  },
  {
   "property": "C42",
   "status": "proved",
   "theorems": [
    "C42_exchange_follows_schedule"
   ],
   "note": ""
  },
  {
   "property": "C43",
   "status": "proved",
   "theorems": [
    "C43_execution_is_bounded",
    "C43_execution_can_be_completed"
   ],
   "note": ""
  },
  {
   "property": "C44",
   "status": "proved",
   "theorems": [
    "C44_allreduce_code_correct"
   ],
   "note": ""
  },
  {
   "property": "C45",
   "status": "proved",
   "theorems": [
    "C45_allgather_code_correct",
    "C45_cyclic_allgather_code_correct"
   ],
   "note": ""
  },
  {
   "property": "C46",
   "status": "proved",
   "theorems": [
    "C46_reduce_scatter_code_correct"
   ],
   "note": ""
  },
  {
   "property": "C47",
   "status": "proved",
   "theorems": [
    "C47_calls_in_sequence_correct"
   ],
   "note": ""
  },
  {
   "property": "C48",
   "status": "proved",
   "theorems": [
    "C48_reduce_code_correct"
   ],
   "note": "one process per node; recursive schedules; backward interpreter and shortened exchange code modelled for each node, the synchronous exchange of marks between the interpreters is a parallel step"
  },
  {
   "property": "C49",
   "status": "proved",
   "theorems": [
    "C49_gather_code_correct"
   ],
   "note": "as C48; displacements are not modelled because the code does not use them"
  },
  {
   "property": "C50",
   "status": "proved",
   "theorems": [
    "C50_cyclic_gather_refuted"
   ],
   "note": "False in the faithful model: seven nodes, ports 1 1 1, root 0; the last element never arrives, because a message carries both lines that the root needs and lines that it does not need"
  },
  {
   "property": "C51",
   "status": "proved",
   "theorems": [
    "C51_reduce_to_rank_refuted",
    "C51_reduce_to_rank_partial"
   ],
   "note": "False in the faithful model for two nodes of two cores and root 1: the backward interpreter takes the rank for a node number. Proved when rank and node have the same number."
  },
  {
   "property": "C52",
   "status": "proved",
   "theorems": [
    "C52_bcast_code_correct",
    "C52_bcast_code_effect"
   ],
   "note": "one process per node, host memory, copies as instructions; the exchange of marks between the interpreters is a parallel step; the single user buffer of the broadcast is Recvbuf"
  },
  {
   "property": "C53",
   "status": "proved",
   "theorems": [
    "C53_bcast_any_root_refuted",
    "C53_bcast_never_right"
   ],
   "note": "False in the faithful model for two nodes and root 1: the root copies its vector in from its own fragment on (reduce_copyin.c:496-497), which fits the layout of the cyclic schedules but not that of the recursive ones. C53_bcast_never_right: wrong for every root > 0 with root < count."
  },
  {
   "property": "C54",
   "status": "proved",
   "theorems": [
    "C54_final_allreduce_correct"
   ],
   "note": "all passes from raw_code.c to the byte code, except those for several processes per node"
  },
  {
   "property": "C55",
   "status": "proved",
   "theorems": [
    "C55_final_reduce_scatter_correct"
   ],
   "note": "as C54"
  },
  {
   "property": "C56",
   "status": "proved",
   "theorems": [
    "C56_final_allreduce_in_place_refuted",
    "C56_in_place_before_passes_partial"
   ],
   "note": "refuted: after use_sendbuf_recvbuf.c the receives overwrite the own contribution; before the passes the code is right in place"
  },
  {
   "property": "C57",
   "status": "proved",
   "theorems": [
    "C57_final_reduce_refuted",
    "C57_lines_without_passes"
   ],
   "note": "refuted: partial results are written into the receive buffer of other nodes than the root"
  },
  {
   "property": "C58",
   "status": "proved",
   "theorems": [
    "C58_final_allgather_correct"
   ],
   "note": ""
  },
  {
   "property": "C59",
   "status": "proved",
   "theorems": [
    "C59_nodes_without_elements_refuted",
    "C59_lines_not_set_refuted"
   ],
   "note": "refuted: with one process per node a node without elements reads its first messages into the send buffer (six nodes, ports 1 2), or lines are rewritten from variables that were not set (two nodes)"
  },
  {
   "property": "C60",
   "status": "proved",
   "theorems": [
    "C60_cyclic_reduce_scatter_correct",
    "C60_cyclic_reduce_scatter_matched"
   ],
   "note": ""
  },
  {
   "property": "C61",
   "status": "proved",
   "theorems": [
    "C61_cyclic_reduce_scatter_code_correct"
   ],
   "note": ""
  },
  {
   "property": "C62",
   "status": "proved",
   "theorems": [
    "C62_cyclic_allreduce_correct",
    "C62_cyclic_allreduce_matched",
    "C62_lines_used_in_bounds",
    "C62_lines_used_out_of_bounds_refuted"
   ],
   "note": "The last theorem is a counterexample for port lists that are not minimal: delete_lines reads behind lines_used."
  },
  {
   "property": "C63",
   "status": "proved",
   "theorems": [
    "C63_cyclic_allreduce_code_correct"
   ],
   "note": ""
  },
  {
   "property": "C64",
   "status": "proved",
   "theorems": [
    "C64_choice_total",
    "C64_something_to_choose",
    "C64_choice_cheapest",
    "C64_cancel_ordered",
    "C64_choice_read_back",
    "C64_ports_array_overflow_refuted"
   ],
   "note": "The size of the array is refuted: 3 nodes, ports -1 -1 1 1."
  },
  {
   "property": "C65",
   "status": "proved",
   "theorems": [
    "C65_allreduce_correct_as_chosen",
    "C65_allgather_correct_as_chosen",
    "C65_reduce_scatter_correct_as_chosen",
    "C65_schedule_chosen",
    "C65_forced_recursive_refuted"
   ],
   "note": "Refuted for ext_mpi_not_recursive = 0 in the info object."
  },
  {
   "property": "C66",
   "status": "proved",
   "theorems": [
    "C66_reduce_as_chosen_partial",
    "C66_gather_as_chosen_partial",
    "C66_bcast_as_chosen_partial",
    "C66_reduce_as_chosen_refuted",
    "C66_gather_as_chosen_refuted",
    "C66_bcast_as_chosen_refuted"
   ],
   "note": "False in the faithful model: for seven nodes the library can choose the ports 1 1 1, which give a cyclic schedule; a message then carries lines that are needed and lines that are not, and data are lost. Proved whenever the recursive schedule is taken (for broadcast from root 0, see C53)."
  },
  {
   "property": "C67",
   "status": "proved",
   "theorems": [
    "C67_final_allreduce_as_chosen_partial",
    "C67_final_allreduce_as_chosen_refuted"
   ],
   "note": "False in the faithful model: nine nodes, four elements, ports -1 1 1 1 1. A later round of optimise_buffers2 takes a receive that is already in its final place, finds the copy of a later block that packs this place into a message, moves the receive into the staging buffer of that message and drops the copy; the next reduction reads old data. Proved whenever the recursive schedule is taken."
  },
  {
   "property": "C68",
   "status": "proved",
   "theorems": [
    "C68_cores_agree",
    "C68_ranks_matched",
    "C68_recursive_allgather",
    "C68_recursive_reduce_scatter",
    "C68_recursive_allreduce",
    "C68_cyclic_allgather",
    "C68_cyclic_reduce_scatter",
    "C68_cyclic_allreduce",
    "C68_permuted",
    "C68_permuted_refuted"
   ],
   "note": "Proved without a permutation and for permutations that are their own inverse; refuted for the permutation of four nodes with sizes 1 1 1 2 and two cores: raw_code_tasks_node.c uses rank_perm where the schedule needs its inverse. Entries to removed nodes (root) are in the model but not in the theorems."
  },
  {
   "property": "C69",
   "status": "proved",
   "theorems": [
    "C69_cores_as_one",
    "C69_exchange_follows_schedule",
    "C69_recursive_allgather",
    "C69_recursive_reduce_scatter",
    "C69_recursive_allreduce",
    "C69_cyclic_allgather",
    "C69_cyclic_reduce_scatter",
    "C69_cyclic_allreduce"
   ],
   "note": "Schedules without removed (root) entries; ranks not permuted or permuted by an involution as in C68. The copies from and to the user's buffers are outside the exchange."
  },
  {
   "property": "C70",
   "status": "proved",
   "theorems": [
    "C70_reduce_scatter_one_node"
   ],
   "note": "bytes as cells; sequentially consistent memory; any number of executions"
  },
  {
   "property": "C71",
   "status": "proved",
   "theorems": [
    "C71_reduce_scatter_progress",
    "C71_steps_are_bounded"
   ],
   "note": "no deadlock, counters may wrap"
  },
  {
   "property": "C72",
   "status": "proved",
   "theorems": [
    "C72_one_segment_without_first_barrier_refuted"
   ],
   "note": "refutation: shows that the second segment is needed once the first barrier is removed"
  },
  {
   "property": "C73",
   "status": "proved",
   "theorems": [
    "C73_allreduce_one_node"
   ],
   "note": "copyin methods 0 and 1; first barrier or alternating byte codes"
  },
  {
   "property": "C74",
   "status": "proved",
   "theorems": [
    "C74_reduce_one_node",
    "C74_reduce_leaves_the_others_alone"
   ],
   "note": ""
  },
  {
   "property": "C75",
   "status": "proved",
   "theorems": [
    "C75_bcast_one_node",
    "C75_bcast_leaves_the_root_alone"
   ],
   "note": "more than 56 bytes or device memory; the rest is refuted by C76"
  },
  {
   "property": "C76",
   "status": "proved",
   "theorems": [
    "C76_short_bcast_ignores_the_root",
    "C76_short_bcast_refuted"
   ],
   "note": "refutation: the claim is false of the code"
  },
  {
   "property": "C77",
   "status": "proved",
   "theorems": [
    "C77_allreduce_and_reduce_progress",
    "C77_bcast_progress"
   ],
   "note": ""
  },
  {
   "property": "C78",
   "status": "proved",
   "theorems": [
    "C78_one_segment_without_first_barrier_refuted"
   ],
   "note": "refutation: the claim is false of the code"
  },
  {
   "property": "C79",
   "status": "proved",
   "theorems": [
    "C79_only_waits_change",
    "C79_executor_can_read"
   ],
   "note": ""
  },
  {
   "property": "C80",
   "status": "proved",
   "theorems": [
    "C80_in_order_as_waitall",
    "C80_any_order_partial",
    "C80_attached_reductions_refuted"
   ],
   "note": "refutation: the claim is false of the code; what holds is stated with its condition"
  },
  {
   "property": "C81",
   "status": "proved",
   "theorems": [
    "C81_copy_reads_the_senders_memory",
    "C81_same_number_of_node_barriers",
    "C81_other_lines_stay",
    "C81_messages_leave_the_node"
   ],
   "note": "one core per socket"
  },
  {
   "property": "C82",
   "status": "proved",
   "theorems": [
    "C82_unchanged_without_copies",
    "C82_reductions_from_other_sockets_refuted",
    "C82_two_partners_refuted"
   ],
   "note": "the claim is refuted twice; unchanged code without copies from other sockets is proved"
  },
  {
   "property": "C83",
   "status": "proved",
   "theorems": [
    "C83_race_free_code_is_deterministic",
    "C83_same_barriers_no_deadlock",
    "C83_copying_code_goes_on"
   ],
   "note": "one core per socket, node barriers without their counters"
  },
  {
   "property": "C84",
   "status": "proved",
   "theorems": [
    "C84_sockets_divide_the_processes",
    "C84_allreduce_ports_fit",
    "C84_reduce_ports_refuted",
    "C84_reduce_on_one_node_refuted"
   ],
   "note": "the claim for reduce is refuted, that for allreduce proved; the execution refuted is for one process per socket"
  }
 ]
}