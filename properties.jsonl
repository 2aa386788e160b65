{"id": "C01", "title": "A persistent request finds its own collective", "statement": "After any sequence of request registrations, lookups and releases, looking up a request returns the handle of its most recent un-released registration, or 'unknown' (so the call is forwarded to the underlying MPI) if it has none; operations on one request never change what another request resolves to. Holds as long as the application has not used up every slot of the registry over its lifetime.", "quantifier": "every hash function on request keys, every history of init/lookup/free operations over arbitrary distinct requests, including colliding ones and re-use of freed requests", "why_tests_cant": "collisions and tombstones depend on the pointer values MPI hands out; a unit test sees a handful of them", "anchors": ["src/mpi/hash_table.c:ext_mpi_hash_search", "src/mpi/hash_table.c:ext_mpi_hash_insert", "src/mpi/hash_table.c:ext_mpi_hash_delete", "src/mpi/ext_mpi_interface.c"]}
{"id": "C02", "title": "Request registry operations terminate", "statement": "Registering, looking up and freeing requests always returns. (The faithful model violates this: after 256 slots have been used at least once over the life of the process, looking up or freeing an unknown request never returns even if at most one request is alive at a time, and registering while 256 are alive never returns.)", "quantifier": "every history of operations, however long", "why_tests_cant": "the hang needs 256 prior create/free cycles hitting distinct slots; short tests never get there", "anchors": ["src/mpi/hash_table.c:ext_mpi_hash_search", "src/mpi/hash_table.c:ext_mpi_hash_insert", "src/mpi/hash_table.c:ext_mpi_hash_delete"]}
{"id": "C03", "title": "Distinct live collectives have distinct handles", "statement": "Every newly created collective gets a handle that no live collective uses; creating a collective, including when the table must grow, never changes or loses the program attached to any live handle; freeing a handle affects only that handle.", "quantifier": "every history of create/free calls of any length, with single- or double-buffered collectives", "why_tests_cant": "aliasing needs particular interleavings of create and free around the growth boundary", "anchors": ["src/mpi/ext_mpi_native.c:get_handle", "src/mpi/ext_mpi_native.c:init_epilogue", "src/mpi/ext_mpi_native.c:EXT_MPI_Done_native"]}
{"id": "C04", "title": "Start/Test/Wait life cycle of a persistent collective", "statement": "Starting an idle collective begins executing its program from the first instruction; Test and Wait continue that same program from where it stopped; Test reports completion exactly when the program has finished; Wait leaves the collective idle; a double-buffered collective alternates strictly between its two programs on successive Starts; no call changes any other handle.", "quantifier": "every sequence of Start/Test/Wait calls in which a collective is only started while idle, on every set of handles", "why_tests_cant": "alternation and idle/active confusion show only on particular call orders over several rounds", "anchors": ["src/mpi/ext_mpi_native.c:EXT_MPI_Start_native", "src/mpi/ext_mpi_native.c:EXT_MPI_Test_native", "src/mpi/ext_mpi_native.c:EXT_MPI_Wait_native"]}
{"id": "C05", "title": "The on-node barrier really is a barrier", "statement": "No core leaves its k-th barrier before every core sharing the barrier has entered its k-th barrier.", "quantifier": "every number of cores, every number of consecutive barriers, every interleaving of the cores' individual shared-memory reads and writes, every starting value of the 32-bit counter including wrap-around", "why_tests_cant": "violations would be rare races; wrap-around needs billions of barriers", "anchors": ["src/mpi/ext_mpi_native_exec.c:socket_barrier", "src/mpi/ext_mpi_native_exec.c:node_barrier"]}
{"id": "C06", "title": "The on-node barrier does not deadlock", "statement": "In every reachable state in which some core is still inside a barrier that all cores call the same number of times, at least one core can make progress, and the total remaining work strictly decreases, so every fair execution completes.", "quantifier": "every number of cores, barriers, interleavings", "why_tests_cant": "absence of a stuck state over all schedules cannot be sampled", "anchors": ["src/mpi/ext_mpi_native_exec.c:socket_barrier", "src/mpi/ext_mpi_native_exec.c:node_barrier"]}
{"id": "C07", "title": "Polling a started collective makes progress and does not block", "statement": "MPI_Test on a started collective whose next step is an on-node barrier that every core has already reached advances past that barrier, and MPI_Test on one whose barrier is not yet reached returns immediately. (The faithful model violates both: the result of the barrier poll is interpreted with inverted polarity.)", "quantifier": "every state of the shared barrier memory", "why_tests_cant": "the blocking tests only ever use Wait; the polling path needs a specific memory state per call", "anchors": ["src/mpi/ext_mpi_native_exec.c:ext_mpi_exec_native", "src/mpi/ext_mpi_native_exec.c:socket_barrier_test", "src/mpi/ext_mpi_native_exec.c:socket_barrier_atomic_test"]}
{"id": "C08", "title": "Completion-set calls report the truth", "statement": "MPI_Testall reports complete iff every request is complete; MPI_Testsome/Waitsome report exactly the completed requests; MPI_Waitall returns only when all are complete, on any mixture of library and foreign requests. (The faithful model violates this for MPI_Testall with MPI_STATUSES_IGNORE and for the outcount of MPI_Testsome.)", "quantifier": "every list of requests of any length and every completion pattern", "why_tests_cant": "needs every combination of completed / pending / foreign requests", "anchors": ["src/mpi/ext_mpi_interface.c:MPI_Testall", "src/mpi/ext_mpi_interface.c:MPI_Testsome", "src/mpi/ext_mpi_interface.c:MPI_Waitall", "src/mpi/ext_mpi_interface.c:MPI_Testany"]}
{"id": "C09", "title": "The byte code written is the byte code executed", "statement": "For every instruction sequence the size computed by the dry run equals the number of bytes written, writing never exceeds that size, and decoding the written bytes yields exactly the instruction sequence with the same operands.", "quantifier": "all instruction sequences, all 32-bit integer operands and 64-bit pointer operands", "why_tests_cant": "operand and sequence space is infinite", "anchors": ["src/core/byte_code.c:ext_mpi_generate_byte_code", "include/core/byte_code.h:code_put_char", "src/mpi/ext_mpi_native_exec.c:ext_mpi_exec_native"]}
{"id": "C10", "title": "Out-of-order completion does not change the reduction result", "statement": "When the received contributions are summed in the order in which messages happen to arrive, the result in the destination equals the in-order sum and nothing but the destination and the incoming message buffers changes, both when the destination may be updated at once and when it must not be touched until all outgoing messages have left.", "quantifier": "every number of messages, every completion order, every commutative associative operator", "why_tests_cant": "the arrival order is chosen by the network", "anchors": ["src/mpi/ext_mpi_native_exec.c:exec_waitany", "src/mpi/ext_mpi_native_exec.c:reduce_waitany"]}
{"id": "C11", "title": "The vector is split without loss among the sockets", "statement": "The per-socket message sizes computed for a reduction of count elements are multiples of the element size, differ by at most one element, are non-increasing and add up to exactly count times the element size.", "quantifier": "every count, element size and number of sockets", "why_tests_cant": "all counts and socket numbers", "anchors": ["src/mpi/ext_mpi_native.c:EXT_MPI_Reduce_init_native"]}
{"id": "C12", "title": "Port and group lists survive being written as text and read back", "statement": "Printing the (ports, groups) configuration and scanning the text returns the same two lists.", "quantifier": "every well-formed port/group list of any length with any non-zero integers", "why_tests_cant": "text round trips have unbounded input space", "anchors": ["src/core/ports_groups.c:ext_mpi_print_ports_groups", "src/core/ports_groups.c:ext_mpi_scan_ports_groups"]}
{"id": "C13", "title": "Copy-in configuration survives being written as text and read back", "statement": "Printing the copy-in method and factors and scanning the text returns the same method and factors.", "quantifier": "every method number and list of positive factors", "why_tests_cant": "unbounded input space", "anchors": ["src/core/ports_groups.c:ext_mpi_print_copyin", "src/core/ports_groups.c:ext_mpi_scan_copyin"]}
{"id": "C14", "title": "Prime factor decomposition is right", "statement": "The decomposition of a positive number lists primes only, in increasing order, and the product of the listed prime powers is the number.", "quantifier": "every positive number", "why_tests_cant": "all numbers", "anchors": ["src/core/prime_factors.c:ext_mpi_prime_factor_decomposition", "src/core/prime_factors.c:ext_mpi_plain_prime_factors"]}
{"id": "C15", "title": "The padding factor agreed between ranks divides every rank's number", "statement": "The padding factor computed collectively by all ranks is the same on all ranks and is exactly the greatest common divisor of the numbers they contribute.", "quantifier": "every number of ranks and every vector of positive numbers", "why_tests_cant": "the collective minimum is over arbitrary vectors", "anchors": ["src/mpi/padding_factor.c:ext_mpi_padding_factor", "src/core/prime_factors.c:ext_mpi_prime_factor_padding"]}
{"id": "C16", "title": "greatest_common_divisor computes a common divisor", "statement": "The function named greatest common divisor returns the greatest common divisor of its two arguments. (The faithful model violates this: it returns the least common multiple.)", "quantifier": "every pair of positive numbers", "why_tests_cant": "all pairs", "anchors": ["src/core/prime_factors.c:ext_mpi_greatest_common_divisor"]}
{"id": "C17", "title": "Recursive allgather delivers every fragment everywhere", "statement": "Executing the schedule generated for the recursive allgather, each node ends with every node's fragment, for every factorisation of the number of nodes.", "quantifier": "every list of port counts whose (p+1) product is the number of nodes", "why_tests_cant": "node counts and port lists are unbounded", "anchors": ["src/core/allreduce_recursive.c:allgather_core"]}
{"id": "C18", "title": "Recursive reduce-scatter reduces every contribution exactly once", "statement": "Executing the schedule generated for the recursive reduce-scatter, each node ends with the reduction of its own fragment over all nodes, every node's contribution entering exactly once.", "quantifier": "every list of port counts whose (|p|+1) product is the number of nodes", "why_tests_cant": "node counts and port lists are unbounded; a wrong factorisation shows only for particular lists", "anchors": ["src/core/allreduce_recursive.c:reduce_scatter_core"]}
{"id": "C19", "title": "Recursive allreduce gives every node the complete reduction", "statement": "Executing the schedule generated for the recursive allreduce, every node ends with every fragment reduced over all nodes, each contribution exactly once.", "quantifier": "every signed port list of the shape produced by the configuration code", "why_tests_cant": "node counts and port lists are unbounded, and a contribution counted twice can be hidden by the values used in a test", "anchors": ["src/core/allreduce_recursive.c:allreduce_core"]}
{"id": "C20", "title": "Every message sent is expected, and vice versa", "statement": "In each stage of a generated schedule the multiset of messages node a sends to node b equals the multiset of messages b expects from a, with equal sizes, so no receive waits for a message that never comes and no message is truncated.", "quantifier": "all nodes, stages and port lists", "why_tests_cant": "a mismatch shows as a hang or a truncated message only for particular node counts and port lists", "anchors": ["src/core/allreduce_recursive.c", "src/core/allreduce_single.c:allgather_core"]}
{"id": "C21", "title": "Cyclic-shift allgather delivers every fragment everywhere", "statement": "Executing the cyclic-shift schedule each node ends with every node's fragment, for any number of nodes and any port list that is minimal for it. (For non-minimal port lists the model shows mismatching sends and receives.)", "quantifier": "every node count and port list", "why_tests_cant": "the last stage is ragged for most node counts; tests run a handful of them", "anchors": ["src/core/allreduce_single.c:allgather_core"]}
{"id": "C22", "title": "Group-local and global socket numbers are inverse to each other", "statement": "Mapping a socket into its group and back returns the socket, for every position of the group inside the machine.", "quantifier": "every socket number and every group structure", "why_tests_cant": "group structures and socket numbers are unbounded and depend on the machine", "anchors": ["src/core/allreduce.c:socket_local", "src/core/allreduce.c:socket_global"]}
{"id": "C23", "title": "Rank permutation is a permutation and is undone", "statement": "The size-balancing rank permutation is a bijection on the ranks, and applying it and then its inverse restores the socket number and the message sizes.", "quantifier": "every vector of message sizes, every legal result of sorting", "why_tests_cant": "sorting ties and sizes are unbounded", "anchors": ["src/core/rank_permutation.c"]}
{"id": "C24", "title": "Scratch buffers never overlap", "statement": "The numbered scratch buffers requested by a schedule are laid out in shared memory at offsets such that no two buffers overlap and each is large enough for every access made to it; the reported shared memory size covers all of them.", "quantifier": "every instruction list", "why_tests_cant": "the layout depends on every buffer a schedule uses; an overlap corrupts data only for some sizes", "anchors": ["src/core/buffer_offset.c:ext_mpi_generate_buffer_offset", "src/core/no_offset.c:ext_mpi_generate_no_offset"]}
{"id": "C25", "title": "Assembler lines survive being written and read back", "statement": "Every copy/reduce and send/receive line written to the intermediate buffer is read back with identical fields.", "quantifier": "all operand combinations", "why_tests_cant": "seven write formats times all integers", "anchors": ["src/core/read_write.c:ext_mpi_write_memcpy_reduce", "src/core/read_write.c:ext_mpi_read_memcpy_reduce", "src/core/read_write.c:ext_mpi_write_irecv_isend", "src/core/read_write.c:ext_mpi_read_irecv_isend", "src/core/read_write.c:ext_mpi_write_assembler_line", "src/core/read_write.c:ext_mpi_read_assembler_line"]}
{"id": "C26", "title": "Schedules survive being written and read back in binary form", "statement": "Writing a schedule in binary form and reading it returns the identical schedule and consumes exactly the bytes written.", "quantifier": "all schedules", "why_tests_cant": "unbounded structure", "anchors": ["src/core/read_write.c:ext_mpi_write_algorithm", "src/core/read_write.c:ext_mpi_read_algorithm"]}
{"id": "C27", "title": "Merging adjacent copies does not change memory", "statement": "Replacing runs of adjacent copy or reduce instructions by one bigger instruction leaves the final memory unchanged. (The faithful model violates this for some inputs because the merge does not compare buffer kinds and only excludes exact overlap; it is proved for neighbours in the same buffers, of equal size when merged downwards, whose sources and destinations are disjoint.)", "quantifier": "every instruction list and every initial memory", "why_tests_cant": "merging depends on the exact addresses and sizes of neighbouring instructions, which are unbounded", "anchors": ["src/core/raw_code_merge.c:ext_mpi_generate_raw_code_merge"]}
{"id": "C28", "title": "Sharing a copy among the cores of a socket covers it exactly once", "statement": "When one copy or reduce is divided among the cores of a socket, every byte is handled by exactly one core and all pieces are whole elements.", "quantifier": "every size, element size and core count", "why_tests_cant": "all sizes, element sizes and core counts; the remainder is lost only for some of them", "anchors": ["src/core/parallel_memcpy.c:ext_mpi_generate_parallel_memcpy"]}
{"id": "C29", "title": "Barrier clean-up only removes redundant barriers", "statement": "The barrier clean-up passes remove nothing but barriers/no-ops; at least one barrier is kept between any two non-barrier instructions that had one; all cores of a socket agree on which barriers are removed.", "quantifier": "every instruction list on every core", "why_tests_cant": "a missing barrier is a race that shows only in rare interleavings", "anchors": ["src/mpi/clean_barriers.c:ext_mpi_clean_barriers", "src/core/no_first_barrier.c", "src/core/no_socket_barriers.c", "src/core/dummy.c"]}
{"id": "C30", "title": "Buffer addresses are rebound correctly for each blocking call", "statement": "Normalising the addresses of a compiled program and rebinding them to the buffers and count of a call yields, for every operand, the same position (scaled by the count) inside the corresponding user buffer, and never a position beyond the end of the user's vector.", "quantifier": "every address, count and pair of user buffers", "why_tests_cant": "all counts, buffers and programs; the compiled size and the size of the call differ in most uses", "anchors": ["src/mpi/ext_mpi_native_exec.c:normalize_address", "src/mpi/ext_mpi_native_exec.c:recalculate_address_io"]}
{"id": "C31", "title": "The number of tasks per socket divides every node", "statement": "The number of tasks per socket chosen divides the number of ranks on every node, and is the largest such number not exceeding the requested one.", "quantifier": "every machine layout", "why_tests_cant": "machine layouts cannot be varied in a test run", "anchors": ["src/mpi/ext_mpi.c:get_num_tasks_per_socket"]}
{"id": "C32", "title": "Candidate port lists cover all nodes", "statement": "Every candidate port list enumerated for a number of nodes has a (p+1) product of at least that number and no factor could be dropped or its last factor reduced.", "quantifier": "every number of nodes", "why_tests_cant": "all numbers of nodes and all enumerated lists", "anchors": ["src/core/recursive_factors.c:ext_mpi_heuristic_recursive_non_factors"]}
{"id": "C33", "title": "Progress can be called at any time", "statement": "The global progress call may be issued at any time, in particular before any persistent collective was created or after all were freed. (The faithful model violates this: the call dereferences a NULL table.)", "quantifier": "every program and state of the outside world", "why_tests_cant": "tests call progress only while a collective is active", "anchors": ["src/mpi/ext_mpi_native.c:EXT_MPI_Progress_native"]}
{"id": "C34", "title": "Waiting for any request drains a list", "statement": "Calling MPI_Waitany as often as there are active requests in a list, some of them collectives of the library, reports every active request once. (The faithful model violates this: a completed collective is reported again by every later call.)", "quantifier": "every list of requests and every completion pattern", "why_tests_cant": "the test programs use MPI_Wait on single requests only", "anchors": ["src/mpi/ext_mpi_interface.c:MPI_Waitany", "src/mpi/ext_mpi_native.c:EXT_MPI_Test_native"]}
{"id": "C35", "title": "Node counts are factorised as requested", "statement": "Factorising a number of nodes into factors of a minimal size gives factors whose product is the number, all at least the requested size unless only one factor is left; the square-root factor divides the number and its square is at least the number.", "quantifier": "every number of nodes and every requested minimum", "why_tests_cant": "all numbers", "anchors": ["src/core/prime_factors.c:ext_mpi_factors_minimum", "src/core/prime_factors.c:ext_mpi_factor_sqrt"]}
{"id": "C36", "title": "Addresses exchanged while a blocking program is set up are those of the receive buffers", "statement": "When a program is normalised, the sender of every message learns the (normalised) address into which its message is received. (The faithful model violates this: the address is sent from a local variable that is assigned again before the send completes.)", "quantifier": "every program with a receive and every moment at which MPI may read the buffer of a non-blocking send", "why_tests_cant": "small messages are usually copied by MPI at once, so that tests see the right value", "anchors": ["src/mpi/ext_mpi_native_exec.c:ext_mpi_normalize_blocking"]}
{"id": "C37", "title": "Size classes of the blocking allreduce", "statement": "A call uses the first size class that is large enough, otherwise the last one; the vector compiled for a class is a multiple of the number of nodes. (The faithful model violates the second half for counts that are no multiple of the number of nodes.)", "quantifier": "every list of classes, every count, every number of ranks and cores per node", "why_tests_cant": "the classes built in are eight powers of two; other numbers of nodes are not run", "anchors": ["src/mpi/ext_mpi_native_blocking.c:add_blocking_native", "src/mpi/ext_mpi_native_blocking.c:EXT_MPI_Allreduce_native"]}
{"id": "C38", "title": "The reduction inside a node computes the reduced vector", "statement": "When a core has executed its copy-in program, every byte of the reduced vector in shared memory is the reduction over all cores of the byte of the send buffers that belongs there, each core contributing exactly once, whatever the interleaving of the cores was. Both copy-in methods.", "quantifier": "every number of cores, all admissible lists of factors, message sizes, orders of the parts, element sizes, commutative monoids, contents and interleavings of single accesses", "why_tests_cant": "the programs contain no full barriers between the steps; a missing synchronisation shows only in rare interleavings, and only with the factors for which it is missing", "anchors": ["src/core/reduce_copyin.c:ext_mpi_generate_reduce_copyin", "src/core/reduce_copyin.c:reduce_copyin", "src/core/reduce_copyin.c:reduce_copies", "src/core/reduce_copyin.c:reduce_copies_almost_half", "src/core/reduce_copyin.c:local_barrier", "src/mpi/ext_mpi_native_exec.c:socket_barrier_atomic_wait"]}
{"id": "C39", "title": "The reduction inside a node always ends", "statement": "In every reachable state either all cores have finished or some core can go on, and every step leaves fewer steps to do; in particular all cores count the same number of waits, so their barrier counters agree again at the end.", "quantifier": "every number of cores, all admissible parameters, every reachable state", "why_tests_cant": "a deadlock needs a particular order of the cores; the number of waits differs between cores only for special factors", "anchors": ["src/core/reduce_copyin.c:local_barrier", "src/core/reduce_copyin.c:reduce_copies", "src/mpi/ext_mpi_native_exec.c:socket_barrier_atomic_set", "src/mpi/ext_mpi_native_exec.c:socket_barrier_atomic_wait"]}
{"id": "C40", "title": "Copy-in parameters set by the user are safe", "statement": "Whatever copy-in method and factors are set with EXT_MPI_COPYIN or the info key, the reduction inside a node ends and is right. (The faithful model violates this in four ways: uneven first groups deadlock, a product of the factors that differs from the number of cores gives wrong sums, and so does the second method with small vectors.)", "quantifier": "every method and list of factors", "why_tests_cant": "tests use the factors chosen by the measurement", "anchors": ["src/core/reduce_copyin.c:ext_mpi_generate_reduce_copyin", "src/core/reduce_copyin.c:reduce_copies_almost_half", "src/mpi/num_ports_factors.c:ext_mpi_copyin_info"]}
{"id": "C41", "title": "The measured choice of the copy-in method is admissible", "statement": "Whatever the measured times are, the chosen number of sockets partitions the cores, and method and factors meet the conditions under which the reduction inside a node is right and ends; the list of factors fits into its array.", "quantifier": "all times, numbers of cores and processes, message sizes", "why_tests_cant": "the choice depends on measured times, so a test cannot force every candidate to be chosen", "anchors": ["src/mpi/cost_copyin_measurement.c:allreduce_measurement", "src/mpi/cost_copyin_measurement.c:EXT_MPI_Allreduce_measurement"]}
{"id": "C42", "title": "The generated exchange code carries out the schedule", "statement": "Let the nodes run the code that is generated from a schedule in which sends and receives fit together and in which the lines hold the same fragments in all stages. However messages and nodes are delayed, the nodes never wait for each other for ever, a node that has finished holds in every line exactly what the schedule prescribes, no message or request is left over, and the user's buffers are untouched.", "quantifier": "all schedules, message sizes (also 0), numbers of nodes, initial memories, and interleavings of the nodes, departures and arrivals", "why_tests_cant": "the outcome under every timing of the messages is needed; a test sees one timing", "anchors": ["src/core/raw_code.c:ext_mpi_generate_raw_code", "src/core/raw_code.c:mmsizes"]}
{"id": "C43", "title": "The generated code ends", "statement": "Every execution of straight-line code of the nodes is at most three steps per line long, and code that is never stuck can be continued to its end from every state that can be reached.", "quantifier": "all programs, initial memories, interleavings", "why_tests_cant": "tests with a time limit cannot tell slow from endless", "anchors": ["src/core/raw_code.c:ext_mpi_generate_raw_code", "src/mpi/ext_mpi_native_exec.c:ext_mpi_exec_native"]}
{"id": "C44", "title": "Allreduce, from send buffer to receive buffer", "statement": "With one process per node, the code generated for an allreduce (copy in, exchange, copy out) puts the reduction over all nodes of element j into element j of the receive buffer of every node; nothing beyond the vector and nothing in the send buffer is changed; the nodes never block each other and no message is left over. The vector may have any length, also one that the number of nodes does not divide.", "quantifier": "all balanced port lists, all lengths, associative and commutative operations, contents, and interleavings", "why_tests_cant": "needs all combinations of lengths, ports and timings", "anchors": ["src/core/raw_code.c:ext_mpi_generate_raw_code", "src/core/reduce_copyin.c:ext_mpi_generate_reduce_copyin", "src/core/reduce_copyout.c:ext_mpi_generate_reduce_copyout", "src/mpi/ext_mpi_native.c:EXT_MPI_Reduce_init_native", "src/core/allreduce_recursive.c:allreduce_core"]}
{"id": "C45", "title": "Allgather, from send buffer to receive buffer", "statement": "With one process per node, the code generated for an allgather, with the recursive or the cyclic schedule, puts element i of the send buffer of node f behind the elements of the nodes before f in the receive buffer of every node, also if the nodes contribute different numbers of elements; nothing else of the user's buffers is changed, the nodes never block each other and no message is left over.", "quantifier": "all port lists (recursive), all minimal port lists (cyclic), all counts per node including 0, contents, and interleavings", "why_tests_cant": "needs all combinations of counts, ports and timings", "anchors": ["src/core/raw_code.c:ext_mpi_generate_raw_code", "src/core/reduce_copyin.c:ext_mpi_generate_reduce_copyin", "src/core/reduce_copyout.c:ext_mpi_generate_reduce_copyout", "src/core/allreduce_recursive.c:allgather_core", "src/core/allreduce_single.c:allgather_core", "src/mpi/ext_mpi_native.c:EXT_MPI_Gatherv_init_native"]}
{"id": "C46", "title": "Reduce_scatter, from send buffer to receive buffer", "statement": "With one process per node, the code generated for a reduce_scatter puts the reduction over all nodes of the fragment of node q at the beginning of the receive buffer of node q, also if the fragments have different sizes; nothing else of the user's buffers is changed, the nodes never block each other and no message is left over.", "quantifier": "all nonzero port lists that end with a reduction step, all counts per node including 0, associative and commutative operations, contents, and interleavings", "why_tests_cant": "needs all combinations of counts, ports and timings", "anchors": ["src/core/raw_code.c:ext_mpi_generate_raw_code", "src/core/reduce_copyin.c:ext_mpi_generate_reduce_copyin", "src/core/reduce_copyout.c:ext_mpi_generate_reduce_copyout", "src/core/allreduce_recursive.c:reduce_scatter_core", "src/mpi/ext_mpi_native.c:EXT_MPI_Reduce_scatter_init_native"]}
{"id": "C47", "title": "Collectives one after the other do not disturb each other", "statement": "If the nodes call any sequence of allreduces, allgathers and reduce_scatters, the same or different ones, with computations in between, then every call has its effect on the data at the time of the call, although a fast node may already be in a later call than a slow one and messages are told apart only by their order.", "quantifier": "all sequences of calls, parameters, computations between the calls, contents, and interleavings", "why_tests_cant": "messages of two calls get mixed only under particular timings", "anchors": ["src/core/raw_code.c:ext_mpi_generate_raw_code", "src/mpi/ext_mpi_native_exec.c:ext_mpi_exec_native", "src/mpi/ext_mpi_native.c:EXT_MPI_Start_native"]}
{"id": "C48", "title": "Reduce, from send buffers to the receive buffer of the root", "statement": "With one process per node, the code generated for a reduce with a root, after the backward interpreter has removed what the root does not need, puts the reduction of the vectors of all nodes into the receive buffer of the root; the user's buffers of the other nodes are not changed, the nodes never block each other and no message is left over.", "quantifier": "all balanced port lists, roots, counts including 0, associative and commutative operations, contents, and interleavings", "why_tests_cant": "a removed line or a message in which both sides disagree shows only for particular roots and port lists", "anchors": ["src/core/raw_code.c:ext_mpi_generate_raw_code", "src/core/reduce_copyin.c:ext_mpi_generate_reduce_copyin", "src/core/reduce_copyout.c:ext_mpi_generate_reduce_copyout", "src/mpi/backward_interpreter.c:ext_mpi_generate_backward_interpreter", "src/core/allreduce_recursive.c:allreduce_core", "src/mpi/ext_mpi_native.c:EXT_MPI_Reduce_init_native"]}
{"id": "C49", "title": "Gather, from send buffers to the receive buffer of the root", "statement": "With one process per node and the recursive schedule, the code generated for a gather puts the parts of all nodes one after the other into the receive buffer of the root; the user's buffers of the other nodes are not changed, the nodes never block each other and no message is left over.", "quantifier": "all port lists, roots, counts per node including 0, contents, and interleavings", "why_tests_cant": "needs all combinations of roots, counts, ports and timings", "anchors": ["src/core/raw_code.c:ext_mpi_generate_raw_code", "src/core/reduce_copyin.c:ext_mpi_generate_reduce_copyin", "src/core/reduce_copyout.c:ext_mpi_generate_reduce_copyout", "src/mpi/backward_interpreter.c:ext_mpi_generate_backward_interpreter", "src/core/allreduce_recursive.c:allgather_core", "src/mpi/ext_mpi_native.c:EXT_MPI_Gatherv_init_native"]}
{"id": "C50", "title": "Gather with the cyclic schedule", "statement": "The same as C49 for the cyclic schedule, which is used when the number of nodes is not the product of the port numbers.", "quantifier": "all numbers of nodes, minimal port lists, roots, counts, contents, and interleavings", "why_tests_cant": "the smallest wrong case has seven nodes", "anchors": ["src/core/raw_code.c:ext_mpi_generate_raw_code", "src/core/reduce_copyin.c:ext_mpi_generate_reduce_copyin", "src/core/reduce_copyout.c:ext_mpi_generate_reduce_copyout", "src/mpi/backward_interpreter.c:ext_mpi_generate_backward_interpreter", "src/core/allreduce_single.c:allgather_core", "src/mpi/ext_mpi_native.c:EXT_MPI_Gatherv_init_native"]}
{"id": "C51", "title": "The root of a reduce may be any rank", "statement": "If every node has the same number of cores and the root is given as a rank, the node of that rank has the complete result when it copies it out.", "quantifier": "all numbers of cores per node, roots, balanced port lists, counts, contents, and interleavings", "why_tests_cant": "tests with one core per node or with root 0 do not distinguish the number of a rank from that of its node", "anchors": ["src/core/raw_code.c:ext_mpi_generate_raw_code", "src/core/reduce_copyin.c:ext_mpi_generate_reduce_copyin", "src/core/reduce_copyout.c:ext_mpi_generate_reduce_copyout", "src/mpi/backward_interpreter.c:ext_mpi_generate_backward_interpreter", "src/mpi/ext_mpi_native.c:EXT_MPI_Reduce_init_native"]}
{"id": "C52", "title": "Generated code of a broadcast from the first node", "statement": "For one process per node, executing the code of a broadcast with a recursive schedule never blocks, leaves no message behind, and leaves the vector of root 0 in the buffer of every other node and all else unchanged. For another root the vector arrives shifted by the elements that belong to the nodes in front of the root.", "quantifier": "all balanced port lists, roots, counts, contents, element types, and interleavings of processes and messages", "why_tests_cant": "most communication of the schedule is struck out, differently for each root; tests see a few numbers of nodes, with root 0, and a few interleavings", "anchors": ["src/core/raw_code.c:ext_mpi_generate_raw_code", "src/core/reduce_copyin.c:ext_mpi_generate_reduce_copyin", "src/core/reduce_copyout.c:ext_mpi_generate_reduce_copyout", "src/mpi/forward_interpreter.c:ext_mpi_generate_forward_interpreter", "src/core/allreduce_recursive.c:allreduce_core", "src/mpi/ext_mpi_native.c:EXT_MPI_Bcast_init_native"]}
{"id": "C53", "title": "Broadcast from any root", "statement": "The broadcast delivers the vector of the root in order, whichever node is the root.", "quantifier": "all balanced port lists, roots, counts, contents, and interleavings", "why_tests_cant": "the tests and benchmarks of the repository use root 0 only", "anchors": ["src/core/raw_code.c:ext_mpi_generate_raw_code", "src/core/reduce_copyin.c:ext_mpi_generate_reduce_copyin", "src/core/reduce_copyout.c:ext_mpi_generate_reduce_copyout", "src/mpi/forward_interpreter.c:ext_mpi_generate_forward_interpreter", "src/core/allreduce_recursive.c:allreduce_core", "src/mpi/ext_mpi_native.c:EXT_MPI_Bcast_init_native"]}
{"id": "C54", "title": "Code of allreduce after the optimisation passes", "statement": "For one process per node, executing the code of an allreduce with a recursive schedule after all passes that rewrite it (staging buffers removed, copies merged, barriers removed, shared memory replaced by the user's buffers) never blocks, leaves no message behind, and leaves in the receive buffer of every node the reduction of the send buffers and all else of the user's memory unchanged.", "quantifier": "all associative and commutative operations, balanced port lists, counts, placements of the buffers, contents, and interleavings of processes and messages", "why_tests_cant": "the passes match patterns in the code and replace buffers; whether a match is right depends on the sizes of all messages, and wrong uses of a user buffer may show in few interleavings only", "anchors": ["src/core/no_offset.c:ext_mpi_generate_no_offset", "src/core/optimise_buffers.c:ext_mpi_generate_optimise_buffers", "src/core/optimise_buffers2.c:ext_mpi_generate_optimise_buffers2", "src/core/parallel_memcpy.c:ext_mpi_generate_parallel_memcpy", "src/core/raw_code_merge.c:ext_mpi_generate_raw_code_merge", "src/mpi/clean_barriers.c:ext_mpi_clean_barriers", "src/core/no_first_barrier.c:ext_mpi_generate_no_first_barrier", "src/core/no_socket_barriers.c:ext_mpi_generate_no_socket_barriers", "src/core/use_sendbuf_recvbuf.c:ext_mpi_generate_use_sendbuf_recvbuf", "src/mpi/ext_mpi_native.c:EXT_MPI_Reduce_init_native"]}
{"id": "C55", "title": "Code of reduce_scatter after the optimisation passes", "statement": "For one process per node, executing the code of a reduce_scatter with a recursive schedule after all passes that rewrite it never blocks, leaves no message behind, and leaves in the receive buffer of every node the reduction of its part of the send buffers and all else of the user's memory unchanged.", "quantifier": "all associative and commutative operations, port lists of reductions, counts per node, placements of the buffers, contents, and interleavings", "why_tests_cant": "all parts of the receive side are mapped onto the small receive buffer, so a fragment of another node would overwrite it; tests see a few numbers of nodes and equal counts", "anchors": ["src/core/no_offset.c:ext_mpi_generate_no_offset", "src/core/optimise_buffers.c:ext_mpi_generate_optimise_buffers", "src/core/optimise_buffers2.c:ext_mpi_generate_optimise_buffers2", "src/core/parallel_memcpy.c:ext_mpi_generate_parallel_memcpy", "src/core/raw_code_merge.c:ext_mpi_generate_raw_code_merge", "src/mpi/clean_barriers.c:ext_mpi_clean_barriers", "src/core/no_first_barrier.c:ext_mpi_generate_no_first_barrier", "src/core/no_socket_barriers.c:ext_mpi_generate_no_socket_barriers", "src/core/use_sendbuf_recvbuf.c:ext_mpi_generate_use_sendbuf_recvbuf", "src/mpi/ext_mpi_native.c:EXT_MPI_Reduce_scatter_init_native"]}
{"id": "C56", "title": "Allreduce in place after the optimisation passes", "statement": "An allreduce with MPI_IN_PLACE, where send and receive buffer are the same, leaves the reduction of the buffers in every buffer.", "quantifier": "all balanced port lists, counts, placements, contents, and interleavings", "why_tests_cant": "the code with and without MPI_IN_PLACE is the same, only with one process per node and a recursive schedule it uses the receive buffer for intermediate results", "anchors": ["src/core/use_sendbuf_recvbuf.c:ext_mpi_generate_use_sendbuf_recvbuf", "src/mpi/ext_mpi.c:ext_mpi_allreduce_init_general", "src/mpi/ext_mpi_native.c:EXT_MPI_Reduce_init_native"]}
{"id": "C57", "title": "Reduce leaves the receive buffer of other nodes alone", "statement": "After the optimisation passes a reduce leaves the reduction in the receive buffer of the root and changes no memory of the user on the other nodes, whose receive buffer is not significant.", "quantifier": "all balanced port lists, roots, counts, placements, contents, and interleavings", "why_tests_cant": "tests usually give every process a receive buffer and look at that of the root only", "anchors": ["src/core/no_offset.c:ext_mpi_generate_no_offset", "src/core/optimise_buffers.c:ext_mpi_generate_optimise_buffers", "src/core/optimise_buffers2.c:ext_mpi_generate_optimise_buffers2", "src/core/parallel_memcpy.c:ext_mpi_generate_parallel_memcpy", "src/core/raw_code_merge.c:ext_mpi_generate_raw_code_merge", "src/mpi/clean_barriers.c:ext_mpi_clean_barriers", "src/core/no_first_barrier.c:ext_mpi_generate_no_first_barrier", "src/core/no_socket_barriers.c:ext_mpi_generate_no_socket_barriers", "src/core/use_sendbuf_recvbuf.c:ext_mpi_generate_use_sendbuf_recvbuf", "src/mpi/backward_interpreter.c:ext_mpi_generate_backward_interpreter", "src/mpi/ext_mpi_native.c:EXT_MPI_Reduce_init_native"]}
{"id": "C58", "title": "Allgather after the optimisation passes", "statement": "After all passes the recursive allgather with at least one element per node never gets stuck, leaves no message over, puts the elements of node f at the displacement of f in the receive buffer of every node, and changes nothing else of the user's memory.", "quantifier": "all port lists, positive counts, placements of the shared memory regions, with and without alternating barriers, all contents and interleavings", "why_tests_cant": "the passes move the messages from the shared memory into the receive buffer and the first sends in front of the copy of the own part; a message that overlaps another one corrupts data only for some timings and counts", "anchors": ["src/core/use_recvbuf.c:ext_mpi_generate_use_recvbuf", "src/core/swap_copyin.c:ext_mpi_generate_swap_copyin", "src/core/optimise_buffers.c:ext_mpi_generate_optimise_buffers", "src/core/optimise_buffers2.c:ext_mpi_generate_optimise_buffers2", "src/core/raw_code_merge.c:ext_mpi_generate_raw_code_merge", "src/mpi/ext_mpi_native.c:EXT_MPI_Allgatherv_init_native"]}
{"id": "C59", "title": "Allgatherv with nodes that contribute nothing", "statement": "Also if some nodes contribute no elements, the final code of the recursive allgather is defined and delivers the elements of every node.", "quantifier": "all port lists, counts including 0, placements and contents", "why_tests_cant": "tests of allgatherv with counts of 0 next to large counts, one process per node and several ports are rare", "anchors": ["src/core/use_recvbuf.c:ext_mpi_generate_use_recvbuf", "src/core/swap_copyin.c:ext_mpi_generate_swap_copyin", "src/core/optimise_buffers.c:ext_mpi_generate_optimise_buffers", "src/core/optimise_buffers2.c:ext_mpi_generate_optimise_buffers2", "src/core/raw_code_merge.c:ext_mpi_generate_raw_code_merge", "src/mpi/ext_mpi_native.c:EXT_MPI_Allgatherv_init_native"]}
{"id": "C60", "title": "Cyclic reduce_scatter schedule", "statement": "Executing the schedule of the cyclic reduce_scatter (allreduce_core without allgather ports) leaves the reduced own fragment, and nothing else, on every node; in every block what a node sends to another is what that node expects from it.", "quantifier": "all numbers of nodes including primes, all port lists whose product of ports plus one reaches the number of nodes, all associative commutative operations, all vectors", "why_tests_cant": "the number of nodes and the ports vary independently; uneven last steps appear only for particular combinations", "anchors": ["src/core/allreduce_single.c:allreduce_core", "src/core/allreduce_single.c:get_size_level1b", "src/core/allreduce_single.c:ext_mpi_generate_allreduce_single"]}
{"id": "C61", "title": "Cyclic reduce_scatter code", "statement": "The code generated for a reduce_scatter from the cyclic schedule never gets stuck, leaves no message behind, and every node ends with the reduction of its own fragment in the receive buffer, everything else of the user's memory untouched.", "quantifier": "all numbers of nodes, port lists, counts of the nodes including 0, associative commutative operations, contents of all memories and all orders of messages and steps", "why_tests_cant": "interleavings of the processes and the counts are unbounded", "anchors": ["src/core/allreduce_single.c:allreduce_core", "src/core/reduce_copyin.c:reduce_copyin", "src/core/raw_code.c:ext_mpi_generate_raw_code", "src/core/reduce_copyout.c:ext_mpi_generate_reduce_copyout", "src/mpi/ext_mpi_native.c:EXT_MPI_Reduce_scatter_init_native"]}
{"id": "C62", "title": "Cyclic allreduce schedule", "statement": "When the ports of the spreading part are minimal for the number of nodes, executing the cyclic allreduce schedule delivers to every node, for every fragment, the reduction of all nodes' contributions, each contribution combined exactly once; sends and receives of every stage fit together also after the unused lines have been deleted; and the search for unused lines never looks up a line outside of its array. With ports that reach too far it does (refuted).", "quantifier": "all numbers of nodes, all port lists of the reducing part, all minimal port lists of the spreading part, all nodes, associative commutative operations and input values", "why_tests_cant": "the schedule for every number of nodes and every port list cannot be enumerated; the deletion of lines depends on all of them", "anchors": ["src/core/allreduce_single.c:allreduce_core", "src/core/allreduce_single.c:get_lines_used", "src/core/allreduce_single.c:delete_lines", "src/core/allreduce_single.c:get_size_level1b"]}
{"id": "C63", "title": "Cyclic allreduce code", "statement": "The code generated for an allreduce from the cyclic schedule never gets stuck, leaves no message behind, and every node ends with the reduction of all vectors in the receive buffer, everything else of the user's memory untouched.", "quantifier": "all numbers of nodes, port lists of the reducing part, minimal port lists of the spreading part, element counts including 0, associative commutative operations, contents of all memories and all orders of messages and steps", "why_tests_cant": "interleavings of the processes, the counts and the port lists are unbounded", "anchors": ["src/core/allreduce_single.c:allreduce_core", "src/core/reduce_copyin.c:reduce_copyin", "src/core/raw_code.c:ext_mpi_generate_raw_code", "src/core/reduce_copyout.c:ext_mpi_generate_reduce_copyout", "src/mpi/ext_mpi_native.c:EXT_MPI_Allreduce_init_native"]}
{"id": "C64", "title": "Choice of the ports", "statement": "ext_mpi_num_ports_factors always finds a port list when at least one cost is below the limit, the list is one of the cheapest among the candidates with non-increasing factors, there is at least one such candidate, and the generators read exactly the chosen ports and groups back from the text. The array for the ports is big enough.", "quantifier": "all numbers of nodes from 2 on, all cost functions, allreduce and allgather candidates", "why_tests_cant": "the costs come from benchmark files of the machine; a test sees one table and a few sizes", "anchors": ["src/core/recursive_factors.c:ext_mpi_heuristic_cancel_factors", "src/core/recursive_factors.c:ext_mpi_min_cost_total", "src/mpi/num_ports_factors.c:ext_mpi_num_ports_factors", "src/core/ports_groups.c:ext_mpi_print_ports_groups", "src/core/ports_groups.c:ext_mpi_scan_ports_groups"]}
{"id": "C65", "title": "Collectives with the ports chosen by the library", "statement": "Whatever port list the cost function selects, the schedule the library then takes (recursive if the product of the positive ports plus one is the number of nodes, cyclic otherwise) gives correct code for allreduce, allgather and reduce_scatter: no run gets stuck, no message is left, every node ends with the right result and untouched other memory. Setting ext_mpi_not_recursive does not change this.", "quantifier": "all numbers of nodes from 2 on, all cost functions, all element counts including 0, all associative commutative operations, all contents of the memories, all orders of messages and steps", "why_tests_cant": "the number of pairs of node count and port list is unbounded, and so are the interleavings", "anchors": ["src/mpi/num_ports_factors.c:ext_mpi_num_ports_factors", "src/mpi/num_ports_factors.c:get_group_size", "src/mpi/ext_mpi.c:ext_mpi_allreduce_init_general", "src/mpi/ext_mpi.c:ext_mpi_allgatherv_init_general", "src/mpi/ext_mpi.c:ext_mpi_reduce_scatter_init_general", "src/core/allreduce.c:ext_mpi_generate_allreduce", "src/core/allreduce_recursive.c:ext_mpi_generate_allreduce_recursive"]}
{"id": "C66", "title": "Collectives with a root for the ports chosen by the library", "statement": "Whatever port list the cost function selects, reduce and gather deliver their result to the root and broadcast the vector of the root to all nodes.", "quantifier": "all numbers of nodes from 2 on, cost functions, roots, counts, operations, contents of the memories, orders of messages and steps", "why_tests_cant": "small tests choose ports that fit; the schedules that lose data begin at seven nodes", "anchors": ["src/mpi/ext_mpi.c:ext_mpi_reduce_init_general", "src/mpi/ext_mpi.c:ext_mpi_bcast_init_general", "src/mpi/ext_mpi.c:ext_mpi_gatherv_init_general", "src/mpi/num_ports_factors.c:ext_mpi_num_ports_factors", "src/mpi/backward_interpreter.c:ext_mpi_generate_backward_interpreter", "src/mpi/forward_interpreter.c:ext_mpi_generate_forward_interpreter", "src/core/allreduce_single.c:ext_mpi_generate_allreduce_single", "src/core/raw_code.c:ext_mpi_generate_raw_code"]}
{"id": "C67", "title": "Allreduce behind all passes for the ports chosen by the library", "statement": "Whatever port list the cost function selects, the code of an allreduce that is executed behind all passes leaves the reduction in the receive buffer of every node.", "quantifier": "all numbers of nodes from 2 on, cost functions, counts, placements of the shared memory, operations, contents of the memories, orders of messages and steps", "why_tests_cant": "the passes only go wrong when some parts of the vector are empty, so for vectors shorter than the number of nodes, and for particular ports", "anchors": ["src/core/optimise_buffers2.c:ext_mpi_generate_optimise_buffers2", "src/core/optimise_buffers.c:ext_mpi_generate_optimise_buffers", "src/core/parallel_memcpy.c:ext_mpi_generate_parallel_memcpy", "src/core/raw_code_merge.c:ext_mpi_generate_raw_code_merge", "src/mpi/ext_mpi.c:ext_mpi_allreduce_init_general", "src/mpi/ext_mpi_native.c:EXT_MPI_Allreduce_init_native", "src/core/allreduce_single.c:ext_mpi_generate_allreduce_single"]}
{"id": "C68", "title": "Messages shared out among the cores of a node", "statement": "When every node runs several cores, each message of the schedule is sent by exactly one core of the sending node and received by the core with the same number on the receiving node, so that the ranks agree on who talks to whom.", "quantifier": "all schedules whose messages rotate within groups of nodes, in particular all stages of the recursive and cyclic allgather, reduce_scatter and allreduce, all numbers of nodes, ports and cores; all permutations of the nodes", "why_tests_cant": "the two sides count their partners independently, in numbers relative to themselves; they differ only for certain partial port sets and permutations, and then the run hangs", "anchors": ["src/core/raw_code_tasks_node.c:ext_mpi_generate_raw_code_tasks_node", "src/core/rank_permutation.c:ext_mpi_generate_rank_permutation_backward", "src/core/rank_permutation.c:rank_perm_heuristic"]}
{"id": "C69", "title": "With several cores per node, the generated exchange does what it does with one", "statement": "Let every node have c cores that share its buffers. raw_code_tasks_node.c shares out the messages of the schedule among the cores, and raw_code.c generates the code of each of them: it receives and sends its own messages, core 0 does all copies and reductions of the node, and all pass the same barriers. If the partners of every stage are as in C68, then, however the cores and the messages progress: no state is reached in which some core has not finished and nothing can happen; when all have finished no message and no request is left over; and whatever holds of the memory of a node when it has finished with one core per node holds as soon as any core of the node has finished. So the lines of the schedule have the values that the schedule assigns to them (C42). This holds for every recursive and cyclic schedule that the library generates.", "quantifier": "for every number of nodes and cores, every schedule with matched stages whose partners are as in C68, all sizes of the fragments, contents of the memory, reduction operations, and all interleavings of cores and messages", "why_tests_cant": "The code of a core depends on what the other cores of its node do: a copy that core 0 makes must be in the buffer before another core sends it, and a message that another core receives must be there before core 0 unpacks it. A missing barrier, or a buffer numbered differently by two cores, shows only for some timings.", "anchors": ["src/core/raw_code.c:ext_mpi_generate_raw_code", "src/core/raw_code_tasks_node.c:ext_mpi_generate_raw_code_tasks_node", "src/core/byte_code.c:ext_mpi_generate_byte_code", "src/mpi/ext_mpi_native_exec.c:ext_mpi_exec_native"]}
{"id": "C70", "title": "Reduce_scatter on one node: every core gets its block, in every execution", "statement": "The code that reduce_scatter_single_node.c generates lets every core copy its vector into its slot of the shared memory, passes a barrier, and lets core c combine its block from all slots. For every number of cores, all block lengths (also empty blocks), every number of executions, every interleaving, and every initial value of the barrier counters (which may wrap): a core that has returned from execution k holds in its receive buffer block c of the contributions to execution k, combined in the order of the cores. This is so with the first barrier, and without it if two byte codes with separate segments, flags and counters take turns, as EXT_MPI_Start_native does.", "quantifier": "all counts, cores, executions, interleavings, counters, operations and contents", "why_tests_cant": "Races between successive executions show only in rare interleavings; wrapping of the counters needs billions of executions.", "anchors": ["src/core/reduce_scatter_single_node.c:ext_mpi_generate_reduce_scatter_single_node", "src/mpi/ext_mpi_native.c:EXT_MPI_Start_native", "src/mpi/ext_mpi_native.c:init_epilogue", "src/core/no_first_barrier.c:ext_mpi_generate_no_first_barrier", "src/mpi/ext_mpi_native_exec.c:exec_native"]}
{"id": "C71", "title": "Reduce_scatter on one node always ends", "statement": "In every state reached by any number of executions of the reduce_scatter on one node (with or without first barrier, one or two byte codes), some core can take a step unless all have finished; every step reduces the remaining work.", "quantifier": "all counts, cores, executions, interleavings, initial counters", "why_tests_cant": "Deadlocks caused by counters that drift apart or wrap depend on the interleaving and on billions of executions.", "anchors": ["src/core/reduce_scatter_single_node.c:ext_mpi_generate_reduce_scatter_single_node", "src/mpi/ext_mpi_native.c:EXT_MPI_Start_native", "src/mpi/ext_mpi_native_exec.c:exec_native"]}
{"id": "C72", "title": "Without its first barrier the reduce_scatter needs two segments (refuted)", "statement": "Claim refuted: the code of the reduce_scatter on one node without its first barrier (no_first_barrier.c) gives every core its block also if it is executed repeatedly on the same shared memory.", "quantifier": "exists 2 cores, 2 executions, an interleaving", "why_tests_cant": "The race needs one core to run ahead of another between two executions.", "anchors": ["src/core/no_first_barrier.c:ext_mpi_generate_no_first_barrier", "src/mpi/ext_mpi_native.c:EXT_MPI_Start_native"]}
{"id": "C73", "title": "Allreduce on one node, executed any number of times", "statement": "Allreduce among the cores of one node: a core that has returned from execution k has in its receive buffer the reduction over all cores of the vectors passed to execution k, with the first barrier or with two byte codes that take turns, in the cache lines or in the buffers, for both copyin methods.", "quantifier": "all numbers of cores, admissible trees, lengths, executions, interleavings, initial counters, commutative monoids", "why_tests_cant": "A missing wait between two executions shows only if one core runs ahead at the wrong moment.", "anchors": ["src/core/reduce_copyin.c:ext_mpi_generate_reduce_copyin", "src/core/reduce_copyout.c:ext_mpi_generate_reduce_copyout", "src/mpi/ext_mpi_native.c:EXT_MPI_Start_native", "src/core/no_first_barrier.c:ext_mpi_generate_no_first_barrier", "src/mpi/ext_mpi_native_exec.c:exec_native"]}
{"id": "C74", "title": "Reduce on one node, executed any number of times", "statement": "Reduce among the cores of one node: when the root has returned from execution k it has the reduction of the vectors passed to execution k; the receive buffers of the other cores are never written to.", "quantifier": "all numbers of cores, roots, admissible trees, lengths, executions, interleavings, initial counters, commutative monoids", "why_tests_cant": "The others run ahead of the root, as they do not copy anything; tests rarely see that.", "anchors": ["src/core/reduce_copyin.c:ext_mpi_generate_reduce_copyin", "src/core/reduce_copyout.c:ext_mpi_generate_reduce_copyout", "src/mpi/ext_mpi_native.c:EXT_MPI_Start_native", "src/core/no_first_barrier.c:ext_mpi_generate_no_first_barrier", "src/mpi/ext_mpi_native_exec.c:exec_native"]}
{"id": "C75", "title": "Bcast on one node, executed any number of times", "statement": "Bcast of more than 56 bytes (or in device memory) among the cores of one node: a core other than the root that has returned from execution k has the vector the root passed to execution k; the receive buffer of the root is never written to.", "quantifier": "all numbers of cores, roots, lengths above 56, executions, interleavings, initial counters", "why_tests_cant": "The root may run ahead into the next execution and overwrite the vector.", "anchors": ["src/core/reduce_copyin.c:ext_mpi_generate_reduce_copyin", "src/core/reduce_copyout.c:ext_mpi_generate_reduce_copyout", "src/mpi/ext_mpi_native.c:EXT_MPI_Start_native", "src/core/no_first_barrier.c:ext_mpi_generate_no_first_barrier", "src/mpi/ext_mpi_native_exec.c:exec_native"]}
{"id": "C76", "title": "Bcast of at most 56 bytes on one node (refuted)", "statement": "Claim refuted: Bcast on one node delivers the vector of the root whatever its length. For at most 56 bytes in host memory every core other than the root receives the initial contents of the cache lines of the segment, in every execution.", "quantifier": "refutation: all numbers of cores, roots, lengths up to 56, executions, interleavings; and a concrete execution", "why_tests_cant": "A test with several nodes or with long vectors takes another way through the code.", "anchors": ["src/core/reduce_copyin.c:ext_mpi_generate_reduce_copyin", "src/core/reduce_copyout.c:ext_mpi_generate_reduce_copyout", "src/mpi/ext_mpi_native.c:EXT_MPI_Bcast_init_native"]}
{"id": "C77", "title": "Allreduce, Reduce and Bcast on one node always end", "statement": "In every state reached by any number of executions, some core can take a step unless all have finished; every step reduces the remaining work.", "quantifier": "all numbers of cores, roots, admissible trees, lengths, executions, interleavings, initial counters", "why_tests_cant": "Deadlocks caused by counters that drift apart or wrap depend on the interleaving and on billions of executions.", "anchors": ["src/core/reduce_copyin.c:ext_mpi_generate_reduce_copyin", "src/core/reduce_copyout.c:ext_mpi_generate_reduce_copyout", "src/mpi/ext_mpi_native.c:EXT_MPI_Start_native", "src/core/no_first_barrier.c:ext_mpi_generate_no_first_barrier", "src/mpi/ext_mpi_native_exec.c:exec_native"]}
{"id": "C78", "title": "Without its first barrier Allreduce on one node needs two segments (refuted)", "statement": "Claim refuted: the code of Allreduce on one node without its first barrier gives every core the reduction also if it is executed repeatedly on the same shared memory.", "quantifier": "exists 2 cores, 2 executions, an interleaving", "why_tests_cant": "The race needs one core to run ahead of another between two executions.", "anchors": ["src/core/no_first_barrier.c:ext_mpi_generate_no_first_barrier", "src/mpi/ext_mpi_native.c:EXT_MPI_Start_native"]}
{"id": "C79", "title": "waitany.c changes waits only and its output can be executed", "statement": "For every code the pass waitany.c leaves all lines other than waits in place, and every waitany it writes is followed (after the removal of the barriers) only by reductions and by exactly as many ends of attached lines as it has messages, so that exec_waitany never meets an illegal opcode.", "quantifier": "all codes with the types of lines raw_code.c writes for one process per node", "why_tests_cant": "The state of the pass (nwait, nattached, flag2) goes wrong only for particular sequences of waits and reductions.", "anchors": ["src/core/waitany.c:ext_mpi_generate_waitany", "src/mpi/ext_mpi_native_exec.c:exec_waitany", "src/mpi/ext_mpi_native.c:EXT_MPI_Reduce_init_native"]}
{"id": "C80", "title": "Reductions attached to messages (refuted)", "statement": "Claim refuted: the code of the recursive allreduce after waitany.c gives the same result as before, in whatever order the messages arrive. It does if they are reported in order after all have arrived, or if every reduction reads the message it is attached to and no message arrives where reductions go; for three processes it does not.", "quantifier": "refutation: concrete code and order; in order: all requests and contents; any order: all requests that meet the condition", "why_tests_cant": "The result is wrong only if a message overtakes another one, and only with bit_reproducible = 0.", "anchors": ["src/core/waitany.c:ext_mpi_generate_waitany", "src/mpi/ext_mpi_native_exec.c:exec_waitany", "src/mpi/ext_mpi_native.c:EXT_MPI_Reduce_init_native", "src/core/optimise_buffers2.c:ext_mpi_generate_optimise_buffers2"]}
{"id": "C81", "title": "Messages between the sockets of one node become copies", "statement": "messages_shared_memory.c replaces each message between two sockets of one node by a copy that reads in the memory of the sender at the place of the matching send line; all processes get the same number of node barriers, reductions and waits stay as they are, and no message to the own node is left.", "quantifier": "all numbers of sockets, processes and codes; for the number of barriers: codes with the same number of waits; for the messages left: codes that wait for all their messages", "why_tests_cant": "The numbering of the segments depends on both sockets, and a missing node barrier shows as a deadlock or a race for particular pairs only.", "anchors": ["src/mpi/messages_shared_memory.c:ext_mpi_messages_shared_memory", "src/mpi/messages_shared_memory.c:delete_from_list", "src/mpi/shmem.c:ext_mpi_setup_shared_memory"]}
{"id": "C82", "title": "Reductions that read from another socket (refuted)", "statement": "Claim refuted: after optimise_multi_socket.c the allreduce of several sockets of one node still gives the sum. For four sockets with ports 1 1 the reductions read places that the other socket is adding to at the same time; for six sockets with ports 1 2 the contribution of a partner is lost even without a race. Code without copies from other sockets is unchanged.", "quantifier": "refutation: concrete codes; unchanged: all codes", "why_tests_cant": "The default number of sockets per node is one; the race gives wrong results only with several sockets per node and full exchanges behind the first step.", "anchors": ["src/core/optimise_multi_socket.c:ext_mpi_generate_optimise_multi_socket", "src/mpi/messages_shared_memory.c:ext_mpi_messages_shared_memory", "src/mpi/ext_mpi_native.c:EXT_MPI_Reduce_init_native"]}
{"id": "C83", "title": "Code with node barriers: determinism and progress", "statement": "If between two node barriers nobody reads in the memory of another socket what this one writes, every execution ends with the memories one gets phase by phase; if all have the same number of node barriers and no messages, nobody waits forever. The code messages_shared_memory.c writes for the sockets of one node does not get stuck.", "quantifier": "all codes, contents of the memory, operations, numbers of sockets and interleavings", "why_tests_cant": "Races and deadlocks depend on the interleaving of the processes.", "anchors": ["src/mpi/messages_shared_memory.c:ext_mpi_messages_shared_memory", "src/mpi/ext_mpi_native_exec.c:node_barrier", "src/mpi/shmem.c:ext_mpi_setup_shared_memory"]}
{"id": "C84", "title": "The ports if all processes are on one node (refuted for reduce)", "statement": "Claim refuted: for whatever number of sockets the measurement chooses, reduce on one node generates its code with ports for that number and the root gets the sum. For allreduce the ports fit the number chosen, and the number divides the number of processes; reduce keeps the ports for one socket, and with two processes and two sockets the root gets only half of the result.", "quantifier": "allreduce: all times measured and all numbers of processes; refutation: two processes", "why_tests_cant": "Which number of sockets is chosen depends on the times measured when the collective is set up.", "anchors": ["src/mpi/num_ports_factors.c:ext_mpi_set_ports_single_node", "src/mpi/cost_copyin_measurement.c:EXT_MPI_Allreduce_measurement", "src/mpi/ext_mpi.c:ext_mpi_reduce_init_general", "src/mpi/ext_mpi.c:ext_mpi_allreduce_init_general"]}
