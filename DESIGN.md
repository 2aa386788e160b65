# Formal model of ext_mpi_collectives

## Layout

* `rocq/theories/Base.v` – list/arithmetic helpers, nothing about the code.
* `*Model.v` – Gallina transcription of C functions.  Every definition carries
  a comment with the file and lines it models and what was simplified.
* `*Spec.v` – small independent vocabulary for stating properties (finite maps,
  permutations, "reduced over all nodes", ...).
* `*Proofs.v` – lemmas.
* `*Props.v` – only property theorems (`C01_...`), each closed by `exact`,
  followed by `Print Assumptions` and by an `Example` of a non-trivial instance.

Theorem suffixes: `_refuted` = the faithful model violates the property, the
theorem exhibits a witness; `_partial` = the theorem covers only part of the
property (the manifest says what is missing).

## Trusted base

* Coq 8.16.1 kernel (including `vm_compute` for the witnesses).
* `Print Assumptions` output per theorem is listed in the section "Assumptions".
* That the Gallina definitions transcribe the C functions they cite.
* C integers: unless a definition says otherwise, `int` is modelled by `Z`
  without overflow.  Where wrap-around matters (barrier counters, byte code
  operands, addresses) it is written explicitly.
* malloc never fails (the `ERROR_MALLOC` paths are not modelled).
* MPI itself (`PMPI_*`) is not modelled beyond the explicit semantics given in
  the spec file that uses it: messages between a pair of nodes within a stage
  are delivered unchanged and matched in order.
* Not modelled at all: GPU/NCCL code (`#ifdef GPU_ENABLED`, `NCCL_ENABLED`),
  cost estimation from benchmark tables, Fortran bindings, debug/verbose
  printing, floating point rounding (reductions are over an arbitrary
  commutative monoid; for IEEE types associativity is an idealisation).

## Plan per property

| Id | Model | Proof |
|---|---|---|
| C01 | `HashModel.v`: 256-slot open addressing table, slots `Free/Tomb/Live`, arbitrary hash function; search/insert/delete with explicit divergence outcome | refinement to a map from requests to handles, invariant by induction on the history |
| C02 | same model, divergence = probing all 256 slots without stop | `_refuted` witness; positive theorem: termination while a free slot remains |
| C03 | `HandleModel.v`: arrays as lists, `get_handle`, growth by doubling, Done | invariant over histories |
| C04 | same, with an abstract program executor as a parameter | simulation against an abstract "current program / position / parity" machine |
| C05 | `BarrierModel.v`: one transition per shared memory access, 32-bit counters as `Z` modulo 2^32 | inductive invariant over all interleavings |
| C06 | same | progress lemma and strictly decreasing measure |
| C07 | same, `*_test` functions plus the dispatch in `ext_mpi_exec_native` | `_refuted` witnesses, plus general statement of what the code does |
| C08 | `WaitModel.v`: wrappers over lists of requests with an oracle for completion | `_refuted` witnesses and positive theorems for the correct ones |
| C09 | `BytecodeModel.v`: two-pass emission and the decoder of `ext_mpi_exec_native`, byte by byte | size lemma and round trip by induction over the lines |
| C10 | `WaitanyModel.v`: both modes of `exec_waitany` over an abstract memory | invariant over the completion order; two `_refuted` witnesses for the conditions |
| C11 | `SplitModel.v` | arithmetic |
| C12,C13 | `TextModel.v`, `PortsModel.v`: character level printers and scanners | round trip by induction |
| C14-C16 | `PrimeModel.v` | arithmetic, `_refuted` for C16 plus proof that it is the lcm |
| C17-C20 | `SchedModel.v`: the stage/line data structure, its execution semantics; `RecursiveModel.v`: generators | invariants over the steps, for all port lists |
| C21 | `CyclicModel.v` | same semantics; `_refuted` for non-minimal port lists |
| C22 | `GroupModel.v` | arithmetic; list lemmas for the selection of a group |
| C23 | `PermModel.v` | permutation lemmas; `_refuted` for unstable sorting and for the sizes |
| C24 | `OffsetModel.v` | prefix sum lemmas; three `_refuted` witnesses |
| C25 | `LineModel.v`, `TextModel.v` | case analysis over the formats |
| C26 | `BytesModel.v`, `AlgoIOModel.v` | round trip by induction |
| C27 | `MergeModel.v` | simulation, `_refuted` witnesses for each condition |
| C28 | `ParCopyModel.v` | arithmetic, two `_refuted` witnesses |
| C29 | `BarPassModel.v` | induction over the barriers; `_refuted` for the first barrier |
| C30 | `RebindModel.v` | arithmetic; five `_refuted` witnesses |
| C31 | `TasksModel.v` | arithmetic; `_refuted` for uneven sockets and unchecked settings |
| C32 | `FactorsModel.v` | enumeration invariant; `_refuted` for the array bound with 3 and 5 nodes |
| C33 | `HandleModel.v` | `_refuted` witness |
| C34 | `WaitModel.v` | `_refuted` witness (an inactive collective hides later requests) |
| C35 | `PrimeModel.v` | arithmetic; `_refuted` for the argument 1 |
| C36 | `RebindModel.v`: a send may read its buffer at any time until it completes | `_refuted` witness |
| C37 | `RebindModel.v` | arithmetic; `_refuted` for counts that are no multiple of the nodes, `_partial` for the rest |
| C38 | `NodeModel.v`: the generator line by line, and an interleaving semantics with one byte per action; `SyncProofs.v`/`SyncItems.v`: general theory of programs of sets, waits and accesses; `Tree*.v`: knowledge spread by the barriers | each program is shown to be a sequence of items (`NodeCode`, `NodeCopyin`, `NodeLayout`, `NodeItems`, `NodeAsm`, `NodeZero`, `NodeHalf`); conflicting accesses are ordered by the flags, so every run gives the values of the sequential one; these are the sums |
| C39 | same | a core that waits for the least counter can go on |
| C40 | same | `_refuted`: four runs computed with `vm_compute` |
| C41 | `SelectModel.v`: times are an oracle | invariants of the two loops; C14 for the prime factors |
| C42 | `RawModel.v`: the code generator line by line, for one process per node, and an interleaving semantics in which a message departs and arrives at any time between its posting and the end of the wait | `MsgProofs`, `PhaseProofs`: programs in phases without races have one outcome and never block (invariant over all interleavings); `RawCode`, `RawStage`, `RawProofs`: the generated code is such a program, and its phases follow the stages of the schedule cell by cell |
| C43 | same | a measure that falls with every step |
| C44 | same, with copy in and copy out | `RawEnd`, `RawWhole`, `RawInst`: C42 for each element, with C17 to C19 for the recursive schedules |
| C45 | same | the same with C17 and C21 |
| C46 | same | the same with C18 |
| C47 | same | `RawRepeat`: programs in phases behind each other are a program in phases |
| C48 | C42 system; `RootModel`: backward interpreter, shortened lines, copy-out at the root | `RootCode`, `RootLive`, `RootValue`, `RootWhole`: lines that the root needs keep their values, shortened messages agree on both sides if they are kept or dropped as a whole; `RootRec`: this is so for the recursive schedules |
| C49 | same | `RootInst` with C45 |
| C50 | same | `RootRefute`: executable scheduler, run for seven nodes |
| C51 | same, root as a rank | `RootRefute`, run for two nodes |
| C52 | C42 system; `BcastModel`: forward interpreter, copy-in at the root, copy-out at the others | `BcastLive`, `BcastWhole`: lines that hold data of the root keep it if no reduction joins two of them; `BcastRec`: this is so for the recursive schedules; `BcastInst` |
| C53 | same | `BcastRefute`: run for two nodes; `BcastInst`: from the exact effect of C52 |
| C54 | C42 system; `FinalModel`: the passes behind raw_code.c on lists of lines, `final_code`; `FinalSpec`: the placement of the buffers | `FinalPass`, `FinalMerge`, `FinalShape`: what each pass does to the code of one block; `FinalRename`, `FinalBlock`, `FinalSim`: renaming the shared memory to the user's buffers simulates the generated code; `FinalTidy`: messages of the recursive schedules are contiguous; `FinalInst`, `FinalRun` |
| C55 | same, `reduce_scatter_final` | same; a node stores only its own fragment in the upper half |
| C56 | same, `in_place_code`: send buffer and receive buffer are one | `FinalRefute`: run for two nodes; `FinalInPlace`: the code before the passes |
| C57 | `FinalRootModel`: struck messages are lines that the passes see but nobody executes; C48 | `FinalRefute`: run for two nodes |
| C58 | C54 passes; `GatherFinalModel`: use_recvbuf.c and swap_copyin.c, `allgather_final`, None where lines would be rewritten from variables that were not set | `GatherSim`: the receive buffer in place of the shared memory simulates the generated code; `GatherCode`: what the passes make of it; `GatherInst`: the recursive schedule, the number of messages of the first round; `GatherFinalRun` |
| C59 | same | `GatherFinalRun`: run for six nodes, of which two have no elements |
| C60 | `CycRedModel`: allreduce_core, get_lines_used and delete_lines of allreduce_single.c | `ShiftProofs`: stages in which every node sends to the nodes at the same distances; `LooseSpec`, `LooseChain`: runs in which lines whose place changes may hold anything; `CycRedDown`: the contributors of a partial result, a step merges them without overlap; `CycRedScatter` |
| C61 | C42 programs on the cyclic schedule | `RawLoose`, `LooseWhole`: the code is a loose run of the schedule also if the layout of the fragments changes between the stages; `CycRedInst` |
| C62 | `CycRedModel`: the spreading part with get_lines_used and delete_lines | `CycRedClosure`: the marking reaches a set closed under the sources of a line, the same on all nodes; `CycRedPlace`: the numbers of the lines after the deletion; `CycRedSpread`: the lines by their distance class, channels after the deletion; `CycRedUp`: a step merges the contributors of two lines without overlap; `LooseAlike`, `CycRedAll`, `CycRedWhole`: all steps, the last line of a class holds all contributions |
| C63 | C42 programs on the cyclic allreduce schedule | `LooseWhole` with `CycRedWhole`: `CycRedAllInst` |
| C64 | `ChoiceModel`: cancelled lists, cheapest list, ports and groups | C32 and C12 with `ChoiceProofs`; array size refuted |
| C65 | the schedule selected for the ports of C64, programs of C44-C46, C61, C63 | `ChoiceInst`: the chosen ports are balanced if recursive, minimal if cyclic |
| C66 | backward/forward interpreter on the schedule selected for the ports of C64 | recursive: `ChosenInst` from C48, C49, C52; cyclic: executions of seven nodes, `ChosenRefute`, evaluated with tabulated blocks (`Freeze`) |
| C67 | all passes on the schedule selected for the ports of C64 | recursive: `ChosenInst` from C54; cyclic: execution of nine nodes, `ChosenRefute` |
| C68 | `raw_code_tasks_node.c` on blocks of C17-C21 and C60-C63; `shared_out` says what the cores must agree on, `rotating` which schedules are covered | `turn_count` counts the partners before a given one, `distance` shows that both ends see the same order; instances in `CoresInst`; refutation by evaluation |
| C69 | `MultiModel`: raw_code.c for any number of cores, on the blocks that `CoresModel` deals out; `cstep`: all cores of all nodes, the buffers of a node shared, a barrier passed by all cores of a node at once; `as_one_core` says that nothing is lost against one core per node | `MultiSim`: every step of a core is matched by steps of the node (`sim_step`), the code seen as segments between barriers; `MultiRun`: progress; `MultiCode`, `MultiCores`: the generated code consists of such segments, the same for all cores of the node; `MultiProofs` assembles it with C68 and C42 |
| C70, C71 | `SingleModel`: the code of reduce_scatter_single_node.c, executed any number of times, with one byte code or with two that take turns (each with its own segment, flags and 32-bit counters); `SingleSpec`: the contributions combined in the order of the cores, `returned` = at most the code of later executions is left | `SyncBank`: an execution with several sets of flags is bisimilar to one with a single set; `SyncConcat`: the lock step execution of a sequence of items, if actions of different cores in the same segment do not touch the same cell; `SingleProofs`: every two conflicting actions have a barrier between them, no core is ever more than 4 log2(n) + 1 waits ahead (so the counters may wrap), values item by item | no bound on cores, block lengths, number of executions, initial counters, contents |
| C72 | the same code without first barrier and without a second byte code | concrete interleaving | 2 cores, 2 executions |
| C73, C74, C75, C77 | `LocalModel`: Allreduce, Reduce and Bcast among the cores of one node as reduce_copyin.c, reduce_copyout.c and clean_barriers.c/no_first_barrier.c leave them, executed any number of times, with one byte code or two that take turns; buffers, cache lines, send and receive buffers as disjoint cells; `LocalSpec`: `received`, `sent`, `few_waits` (the counters do not pass 2^31 within two executions) | `SyncRounds`: executions of race free rounds one after the other equal the lock step execution of the rounds, if a round begins only after what it overwrites has been read; `LocalSync`: first barrier or alternating segments give that, and the copy to the receive buffer comes after the last write; `LocalPlace`: moving the code of C38 into a segment; `LocalTree`: what each core knows about the others at the end of the tree | the vector of one node; admissible trees (`copyin_ok`, `half_ok`); commutative monoid |
| C76 | the same; Bcast of at most 56 bytes | for all executions: what is received is what was in the cache line at the start; and a concrete execution | refuted |
| C78 | Allreduce without first barrier and without a second byte code | concrete interleaving | 2 cores, 2 executions |
| C79 | `WaitPassModel`: waitany.c, and the way the executor reads its output; `WaitPassSpec`: `restored` undoes the pass | induction over the code, with the invariant that the pass and the executor agree on the number of ends of attached lines still to come | all codes |
| C80 | the same with the executor of C10; `plain`: all messages arrive, then the reductions are done | messages reported in order: as `plain`, for all requests; any order: from C10, if the reductions read their own message; the claim without that condition is refuted with the code of the recursive allreduce of three processes | refuted |
| C81 | `SocketModel`: messages_shared_memory.c for one core per socket, the exchange of the descriptions of messages as a look at the code of the partner; `view`: the numbering of segments in shmem.c | arithmetic modulo the number of sockets; inductions over the code |
| C82 | the same with optimise_multi_socket.c and an execution of the processes of one node line by line | unchanged code: induction; refutations: a computed execution of four sockets and a computed code of six |
| C83 | the same execution; `race_free`, `before_phase` in `SocketSpec` | invariant: every process stands in a phase, its memory is what it makes of the memories before the phase, and those ahead have left the others at a barrier; progress: the process that has passed the fewest barriers; all interleavings; the code for four sockets before and for two sockets after optimise_multi_socket.c as examples |
| C84 | `OneNodeModel`: set_ports_single_node, the choice of the number of sockets by measurement, what allreduce and reduce make of it, the code of reduce for one process per socket | cases 1, 2, 4 sockets; refutation: a computed execution of two processes |

## Coverage

Modelled (function: model file):

| Source | Modelled | Not modelled |
|---|---|---|
| `src/core/allreduce.c` | group functions and `revise_partners` (10-160): `GroupModel` | `expand_frac`, `revise_frac`, `frac_multiply`, the composition of several groups (330-445) |
| `src/core/allreduce_recursive.c` | `allgather_core`, `reduce_scatter_core`, `allreduce_core`, matching and combination: `RecursiveModel`, `SchedModel` | reading and writing around them |
| `src/core/allreduce_single.c` | cyclic allgather (126-182): `CyclicModel`; cyclic reduce_scatter and allreduce with the removal of lines (8-124, 184-364): `CycRedModel` | input, output and memory allocation of ext_mpi_generate_allreduce_single |
| `src/mpi/backward_interpreter.c` | whole, the exchange of marks as a parallel step: `RootModel` | |
| `src/mpi/forward_interpreter.c` | whole, the exchange of marks as a parallel step: `BcastModel` | |
| `src/core/buffer_offset.c`, `no_offset.c` | whole: `OffsetModel` | |
| `src/core/byte_code.c` | generation without GPU and NCCL (286-675): `BytecodeModel` | GPU, NCCL |
| `src/core/no_first_barrier.c`, `no_socket_barriers.c`, `src/mpi/clean_barriers.c` | whole: `BarPassModel` | |
| `src/mpi/messages_shared_memory.c`, `src/core/optimise_multi_socket.c` | one core per socket: `SocketModel` | fake lines of the other cores; the lists as such |
| `src/mpi/shmem.c` | the numbering of the segments (129-160): `SocketModel` | allocation |
| `src/core/parallel_memcpy.c` | whole: `ParCopyModel` | |
| `src/core/ports_groups.c` | whole: `PortsModel`, `TextModel` | fixed buffer sizes |
| `src/core/prime_factors.c`, `src/mpi/padding_factor.c` | whole: `PrimeModel` | int overflow |
| `src/core/rank_permutation.c` | whole: `PermModel` | |
| `src/core/raw_code.c` | meaning of a block: `SchedModel`; the lines for one process per node: `RawModel`, for several: `MultiModel` | columns, `fast`, GPU, NCCL |
| `src/core/optimise_buffers.c`, `optimise_buffers2.c`, `use_sendbuf_recvbuf.c`, `no_first_barrier.c`, `no_socket_barriers.c` | one process per node: `FinalModel` | several sockets, shared receive buffers |
| `src/core/use_recvbuf.c`, `swap_copyin.c` | one process per node, allgather: `GatherFinalModel` | in place |
| `src/core/raw_code_merge.c` | whole: `MergeModel` | |
| `src/core/read_write.c` | binary schedule, assembler lines binary and ASCII: `AlgoIOModel`, `LineModel`, `BytesModel` | parameter blocks, ASCII schedule |
| `src/core/recursive_factors.c` | enumeration of the candidates (135-212): `FactorsModel`; 98-133, 214-238: `ChoiceModel` | the costs themselves |
| `src/mpi/num_ports_factors.c` | 66-80, 105-154: `ChoiceModel` | single node, minimum_computation, ports from info |
| `src/core/reduce_copyin.c` | the reduction inside a node, both methods: `NodeModel`; one process per node: `RawModel`, `BcastModel`; one node, with roots: `LocalModel` | columns (`counts_max` > 1), rooted operations with several nodes and cores, GPU |
| `src/core/reduce_scatter_single_node.c` | whole: `SingleModel` | columns, GPU |
| `src/core/reduce_copyout.c` | one process per node (131-196): `RawModel`, `RootModel`, `BcastModel`; one node (57-59, 131-172): `LocalModel` | the rest |
| `src/core/waitany.c` | whole: `WaitPassModel` | several processes per node (it ends the program) |
| `src/mpi/cost_copyin_measurement.c` | whole, times as an oracle: `SelectModel`; the choice of the number of sockets (154-213): `OneNodeModel` | columns |
| `src/mpi/ext_mpi.c` | `ext_mpi_get_num_tasks_per_socket`: `TasksModel` | the other functions |
| `src/mpi/ext_mpi_interface.c` | completion calls, registry use: `WaitModel`, `HashModel`, blocking entry points: `RebindModel` | initialisation of the collectives |
| `src/mpi/ext_mpi_native.c` | handle table, splitting of vectors: `HandleModel`, `SplitModel`; the order of the passes for one process per node (799-858, 1085-1133, 1578-1617): `FinalModel`, `GatherFinalModel`; alternating byte codes (233-247, 497-536): `SingleModel` | the rest of the pipeline |
| `src/mpi/ext_mpi_native_blocking.c` | size classes, rebinding: `RebindModel` | table of communicators |
| `src/mpi/ext_mpi_native_exec.c` | barriers, polling, waitany, decoding, rebinding, execution of the reduction inside a node: `BarrierModel`, `PollModel`, `WaitanyModel`, `BytecodeModel`, `RebindModel`, `NodeModel` | GPU, NCCL |
| `src/mpi/hash_table.c` (and `hash_table_blocking.c`, the same code) | whole: `HashModel` | |

Not modelled: `allreduce_short*.c`, `allreduce_recursive_shrink.c`, `alltoall.c`,
`cost_*.c` of `src/core`, `count_instructions.c`, `dummy.c`, `move_first_memcpy.c`,
`raw_code_tasks_node_master.c`,
`debug_persistent.c`, `ext_mpi_blocking.c`, the rest of `shmem.c`, `src/fortran`, `src/gpu`, `src/noopt`,
`src/initial_benchmark`.

## Findings

The theorems ending in `_refuted` are defects (or at least surprises) of the code:

* C02: inserting into or searching a full registry does not terminate.
* C07: polling a barrier has the inverse meaning of its return value.
* C08, C34: Testall with `MPI_STATUSES_IGNORE` and Testsome give wrong results; Waitany does not drain a list with an inactive request at its head.
* C09: operands in local memory are not encoded.
* C10: waitany with attached reductions needs one destination and no send from it.
* C12, C35: boundary cases of printing and of the square root factor.
* C16: the padding is the least common multiple.
* C21: cyclic schedules with port lists that are not minimal do not match.
* C23: the permutation relies on a stable `qsort`; sizes belong to other nodes.
* C24, C25, C27, C28, C29: conditions under which the passes are not sound.
* C30, C36, C37: rebinding of blocking collectives.
* C31, C32: numbers of tasks and array sizes.
* C33: progress before the first collective dereferences NULL.
* C40: copy-in factors set by the user are not checked: deadlock or wrong sums.
* C50: gather with the cyclic schedule loses data, for example for seven nodes.
* C51: the root of reduce, gather and broadcast is compared with node numbers in the interpreters and with ranks elsewhere.
* C53: a broadcast with a recursive schedule from another root than node 0 delivers the vector shifted.
* C56: allreduce with `MPI_IN_PLACE`, one process per node and a recursive schedule overwrites the own contribution: `use_sendbuf_recvbuf.c` does not look at `in_place`.
* C57: reduce uses the receive buffer of every node, also where MPI says that it is not significant.
* C59: `swap_copyin.c:16-40` takes the first line for the copy of the own part and the next `2 * abs(num_ports[0])` lines for the receives and sends of the first round. Lines of zero length do not exist, so an allgatherv with a count of 0 (one process per node, recursive schedule) is rewritten wrongly: a receive may become a receive into the send buffer, or a line of another type is written from variables that were not set.
* `allreduce_single.c:47` (C62, `C62_lines_used_out_of_bounds_refuted`): `delete_lines` looks up `lines_used[sendto_line]` for all entries of `sendto`. If the last port of the spreading part reaches further than needed (5 nodes, ports -4 1 3), an entry names a line behind the last line of the last block and the read is behind the allocated array. The ports are not checked; with minimal ports the lookups are proved to be in bounds.
* C64: `ext_mpi_num_ports_factors` (num_ports_factors.c:112-113) allocates comm_size + 1 entries; for 3 nodes the list -1 -1 1 1 is among
  the candidates that are not cancelled, and with the 0 behind it needs 5 (`C64_ports_array_overflow_refuted`).
* C65: the info key ext_mpi_not_recursive = 0 forces the recursive generator for ports the product of which is not the number of
  nodes; a node then sends to a rank that does not exist (`C65_forced_recursive_refuted`).
* By reading, without a theorem: num_ports_factors.c:118 writes `(*groups[1]) = 0`, which is `*(groups[1])`, a pointer behind the
  caller's variable, instead of `(*groups)[1]`; `get_group_size` returns 0 for a single port, so one port is never run recursively (harmless, C65).
* C66: reduce, gather and broadcast lose data for ports that the library may choose itself (seven nodes, ports 1 1 1).
* C67: `optimise_buffers2.c:54-82` looks for the copy out of a received place beyond the block of the receive, as long as no reduce
  line comes. When some fragments are empty, a receive that an earlier round has already moved to its final place is matched with the
  copy that packs this place for a later message, and is moved on: the place itself keeps old data (nine nodes, four elements,
  ports -1 1 1 1 1: node 2 ends with a wrong first element).
* C68: `raw_code_tasks_node.c:84-115, 144-191` numbers the nodes with `rank_perm[node]`, but behind `rank_permutation.c` the place of a
  node in the schedule is `rank_back_perm[node]`. With different counts per node (Allgatherv, Gatherv), several cores per node and a
  stage that does not reach all nodes, sender and receiver pick different cores: on four nodes with counts 1 1 1 2 and ports 2 1
  rank 5 sends to rank 3, which does not receive from it, and the collective hangs.
* C72: no_first_barrier.c is correct only together with the alternating byte codes: with a
  single segment a fast core overwrites its contribution to the previous execution before
  the others have read it. (ext_mpi_native.c never combines the two; C70 says that
  either the barrier or the second segment is enough.)
* C76: **Bcast of at most 56 bytes in host memory on a single node delivers garbage.** The root
  copies its vector to the start of the buffers (reduce_copyin.c:486-512 does not look at `fast`),
  the other cores copy their result from the cache lines behind the buffers
  (reduce_copyout.c:57-59, 159-166), which nobody has written to. The theorem says so for all
  numbers of cores, roots, lengths, executions and interleavings.
* C78: as C72, for Allreduce: no_first_barrier.c needs the alternating byte codes (C73 says that
  they suffice).
* C80: **with bit_reproducible = 0 the allreduce of one process per node can be wrong.** waitany.c
  attaches the reductions that follow a wait to its messages in the order of the lines. It does not
  look at what they read and write. After optimise_buffers2.c a message may arrive directly in the
  place other contributions are added to. With three processes (ports -2 2) the message of node 1
  is added to the place where the message of node 2 arrives; if it is the first to arrive, it is
  overwritten. Reductions can also be attached to messages that are sent. (waitany.c:65-72.) Besides, with more than one process per
  node the pass ends the program (waitany.c:19-22) instead of being left out.
* C82: **with four or more sockets per node the allreduce can be wrong.** optimise_multi_socket.c
  replaces a copy from another socket and the next reduction by one reduction that reads
  from the other socket. The copy is between two node barriers, the reduction behind them: both
  partners of an exchange add the place of the other to their own without any
  synchronisation, and who comes later adds some contributions twice (ports 1 1, four sockets:
  the sum of 1, 10, 100, 1000 is 1111 at two sockets and 2211 at the others). With two partners in
  one step (ports 1 2, six sockets) `data_memcpy_reduce` is overwritten by the second copy, which is
  then written twice, and what the first partner has is not added at all.
* C84: **reduce on one node can give part of the result only.** The measurement in reduce (ext_mpi.c:769)
  may set the number of sockets to 2 or 4, with as many fewer processes per socket, but unlike allreduce
  and reduce_scatter (494, 683) reduce does not set the ports for that number. With the ports -1
  for one socket the root gets the first half of the vector (two sockets), and the rest
  of its receive buffer is not written. This happens whenever two or four sockets turn out faster than one.
* Without a theorem: ext_mpi_blocking.c:66-71 sets all ports and groups to 0 and then calls set_ports_single_node,
  which changes nothing unless groups[0] is -1.
* Without a theorem: num_ports_factors.c:117-118 writes `(*groups[0]) = -1` and `(*groups[1]) = 0`; the second
  one goes through the pointer behind `groups` instead of to `(*groups)[1]`.

## Assumptions

Output of `Print Assumptions` for the theorems of MANIFEST.json (246 theorems): `Closed under the global context` for every one of them, i.e. no axioms at all, not even of the standard library.  (`vcheck` lists axioms of libraries that are loaded; no theorem uses them.)  The command follows each theorem in its `*Props.v` file, so the build prints it.

* C01: `C01_registry_is_a_map`
* C02: `C02_registry_terminates_refuted`, `C02_registration_when_full_refuted`
* C03: `C03_create_gives_fresh_handle`, `C03_free_is_isolated`
* C04: `C04_lifecycle`
* C05: `C05_barrier_is_a_barrier`
* C06: `C06_barrier_terminates`
* C07: `C07_poll_never_passes_refuted`, `C07_poll_blocks_refuted`, `C07_atomic_poll_refuted`
* C08: `C08_testall`, `C08_testany`, `C08_waitall`, `C08_waitany`, `C08_waitsome`, `C08_forwarded`, `C08_waitany_returns`, `C08_testall_ignore_refuted`, `C08_testall_ignore_always_true_refuted`, `C08_testsome_refuted`
* C09: `C09_size`, `C09_decoded`, `C09_header`, `C09_locmem_operand_refuted`
* C10: `C10_direct_order_irrelevant`, `C10_deferred_order_irrelevant`, `C10_deferred_two_targets_refuted`, `C10_direct_sending_target_refuted`
* C11: `C11_split`, `C11_short`
* C12: `C12_ports_groups_round_trip`, `C12_empty_configuration_refuted`
* C13: `C13_copyin_round_trip`
* C14: `C14_prime_factor_decomposition`, `C14_plain_prime_factors`
* C15: `C15_padding_is_gcd`, `C15_collective_padding_is_gcd`
* C16: `C16_is_lcm_refuted`, `C16_right_only_if_equal_refuted`
* C17: `C17_allgather_delivers_everything`
* C18: `C18_reduce_scatter_reduces_everything_once`
* C19: `C19_allreduce_reduces_everything_everywhere`
* C20: `C20_allgather_matched`, `C20_reduce_scatter_matched`, `C20_allreduce_matched`, `C20_same_number_of_stages`, `C20_allreduce_same_number_of_stages`
* C21: `C21_cyclic_allgather_delivers_everything`, `C21_cyclic_allgather_matched`, `C21_nonminimal_ports_refuted`, `C21_nonminimal_partner_refuted`
* C22: `C22_global_of_local`, `C22_local_of_global`, `C22_positions_identify_socket`, `C22_renumbered_schedule_matched`, `C22_group_of_step`
* C23: `C23_permutation_with_stable_sort`, `C23_permutation_refuted`, `C23_round_trip`, `C23_permuted_schedule_matched`, `C23_sizes_follow_nodes_refuted`
* C24: `C24_buffers_do_not_overlap`, `C24_inside_reported_memory`, `C24_same_buffer_same_distance`, `C24_total_is_whole_cache_lines`, `C24_reached_messages_do_not_overlap`, `C24_messages_counted_refuted`, `C24_direct_access_apart_refuted`, `C24_all_rebased_refuted`, `C24_program_rebased`, `C24_no_numbers_left`
* C25: `C25_memcpy_reduce_round_trip`, `C25_irecv_isend_round_trip`, `C25_stream_round_trip`, `C25_lines_short`, `C25_long_line_refuted`, `C25_ascii_round_trip`
* C26: `C26_algorithm_round_trip`, `C26_algorithm_injective`
* C27: `C27_merge_keeps_memory`, `C27_backward_sizes_refuted`, `C27_buffer_kinds_refuted`, `C27_overlap_refuted`
* C28: `C28_every_byte_moved_once`, `C28_nothing_beyond`, `C28_same_byte_same_core`, `C28_broken_group_refuted`, `C28_partial_element_refuted`
* C29: `C29_clean_up_ends`, `C29_instructions_kept`, `C29_cores_agree`, `C29_separation_kept`, `C29_first_barrier_dropped`, `C29_separation_behind_first_barrier`, `C29_first_barrier_redundant_refuted`, `C29_single_core`, `C29_more_cores_refused`, `C29_first_barrier_kept`
* C30: `C30_rebound`, `C30_inside`, `C30_covered`, `C30_whole_elements`, `C30_allreduce_factor`, `C30_padding`, `C30_padding_refuted`, `C30_sent_fits`, `C30_null_pointer_refuted`, `C30_reduce_scatter_refuted`, `C30_allgather_refuted`, `C30_in_place_refuted`
* C31: `C31_tasks_fill_every_node`, `C31_uneven_sockets_refuted`, `C31_no_tasks_refuted`, `C31_fixed_number_refuted`, `C31_setting_used`
* C32: `C32_candidates_are_minimal_lists`, `C32_candidates_distinct`, `C32_lists_from_candidates`, `C32_lists_fit_the_array`, `C32_lists_fit_the_array_refuted`
* C33: `C33_progress_any_time_refuted`
* C34: `C34_waitany_drains_refuted`
* C35: `C35_factors_minimum`, `C35_factor_sqrt`, `C35_factor_sqrt_of_one_refuted`
* C36: `C36_variable_reused_refuted`
* C37: `C37_class`, `C37_compiled_count_refuted`, `C37_compiled_count_partial`
* C38: `C38_copyin_reduces`, `C38_half_copyin_reduces`
* C39: `C39_copyin_progress`, `C39_half_copyin_progress`, `C39_steps_are_bounded`
* C40: `C40_uneven_groups_end_refuted`, `C40_large_product_reduces_refuted`, `C40_half_small_reduces_refuted`, `C40_small_product_reduces_refuted`
* C41: `C41_selection_admissible`, `C41_sockets_partition_cores`, `C41_factors_fit`
* C42: `C42_exchange_follows_schedule`
* C43: `C43_execution_is_bounded`, `C43_execution_can_be_completed`
* C44: `C44_allreduce_code_correct`
* C45: `C45_allgather_code_correct`, `C45_cyclic_allgather_code_correct`
* C46: `C46_reduce_scatter_code_correct`
* C47: `C47_calls_in_sequence_correct`
* C48: `C48_reduce_code_correct`
* C49: `C49_gather_code_correct`
* C50: `C50_cyclic_gather_refuted`
* C51: `C51_reduce_to_rank_refuted`, `C51_reduce_to_rank_partial`
* C52: `C52_bcast_code_correct`, `C52_bcast_code_effect`
* C53: `C53_bcast_any_root_refuted`, `C53_bcast_never_right`
* C54: `C54_final_allreduce_correct`
* C55: `C55_final_reduce_scatter_correct`
* C56: `C56_final_allreduce_in_place_refuted`, `C56_in_place_before_passes_partial`
* C57: `C57_final_reduce_refuted`, `C57_lines_without_passes`
* C58: `C58_final_allgather_correct`
* C59: `C59_nodes_without_elements_refuted`, `C59_lines_not_set_refuted`
* C60: `C60_cyclic_reduce_scatter_correct`, `C60_cyclic_reduce_scatter_matched`
* C61: `C61_cyclic_reduce_scatter_code_correct`
* C62: `C62_cyclic_allreduce_correct`, `C62_cyclic_allreduce_matched`, `C62_lines_used_in_bounds`, `C62_lines_used_out_of_bounds_refuted`
* C63: `C63_cyclic_allreduce_code_correct`
* C64: `C64_choice_total`, `C64_something_to_choose`, `C64_choice_cheapest`, `C64_cancel_ordered`, `C64_choice_read_back`, `C64_ports_array_overflow_refuted`
* C65: `C65_allreduce_correct_as_chosen`, `C65_allgather_correct_as_chosen`, `C65_reduce_scatter_correct_as_chosen`, `C65_schedule_chosen`, `C65_forced_recursive_refuted`
* C66: `C66_reduce_as_chosen_partial`, `C66_gather_as_chosen_partial`, `C66_bcast_as_chosen_partial`, `C66_reduce_as_chosen_refuted`, `C66_gather_as_chosen_refuted`, `C66_bcast_as_chosen_refuted`
* C67: `C67_final_allreduce_as_chosen_partial`, `C67_final_allreduce_as_chosen_refuted`
* C68: `C68_cores_agree`, `C68_ranks_matched`, `C68_recursive_allgather`, `C68_recursive_reduce_scatter`, `C68_recursive_allreduce`, `C68_cyclic_allgather`, `C68_cyclic_reduce_scatter`, `C68_cyclic_allreduce`, `C68_permuted`, `C68_permuted_refuted`
* C69: `C69_cores_as_one`, `C69_exchange_follows_schedule`, `C69_recursive_allgather`, `C69_recursive_reduce_scatter`, `C69_recursive_allreduce`, `C69_cyclic_allgather`, `C69_cyclic_reduce_scatter`, `C69_cyclic_allreduce`
* C70: `C70_reduce_scatter_one_node`
* C71: `C71_reduce_scatter_progress`, `C71_steps_are_bounded`
* C72: `C72_one_segment_without_first_barrier_refuted`
* C73: `C73_allreduce_one_node`
* C74: `C74_reduce_one_node`, `C74_reduce_leaves_the_others_alone`
* C75: `C75_bcast_one_node`, `C75_bcast_leaves_the_root_alone`
* C76: `C76_short_bcast_ignores_the_root`, `C76_short_bcast_refuted`
* C77: `C77_allreduce_and_reduce_progress`, `C77_bcast_progress`
* C78: `C78_one_segment_without_first_barrier_refuted`
* C79: `C79_only_waits_change`, `C79_executor_can_read`
* C80: `C80_in_order_as_waitall`, `C80_any_order_partial`, `C80_attached_reductions_refuted`
* C81: `C81_copy_reads_the_senders_memory`, `C81_same_number_of_node_barriers`, `C81_other_lines_stay`, `C81_messages_leave_the_node`
* C82: `C82_unchanged_without_copies`, `C82_reductions_from_other_sockets_refuted`, `C82_two_partners_refuted`
* C83: `C83_race_free_code_is_deterministic`, `C83_same_barriers_no_deadlock`, `C83_copying_code_goes_on`
* C84: `C84_sockets_divide_the_processes`, `C84_allreduce_ports_fit`, `C84_reduce_ports_refuted`, `C84_reduce_on_one_node_refuted`
