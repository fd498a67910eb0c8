# Formal model of sortnetopt in Rocq/Coq 8.16.1

`rocq/theories` contains a Gallina model of the code in `/repo`, written function by function, and
proofs of the properties listed in `properties.jsonl`.  Nothing from `/repo` is built or run.  Only
the Coq standard library is used.  `MANIFEST.json` maps each property to its theorems;
`seeded/LOG.jsonl` records the wrong programs the theorems were tested against.

## Layers

1. **Specification**, independent of the model: `Spec.v` (0/1 vectors as `list bool`, comparators,
   networks, sorting networks on 0/1 vectors and on arbitrary naturals, `needs`, `optimum`,
   `minimal_size`, permutation and complement of vectors, binary trees for the Huffman property), with
   its theory in `Vec.v` (vectors and permutations), `Net.v` (networks, 0/1 principle, untangling)
   and `Graded.v` (sets that come from all inputs: sorted up to relabelling, lower and upper bounds).
   `IndexSpec.v` is the specification of the index (multisets of entries, subsumption in the three
   directions).
2. **Model**, `*Model.v`: every definition cites file and lines of `/repo`, and says there where it
   simplifies.
3. **Proofs**: all other files that are not `Prop*.v`.
4. **Theorems**, `Prop*.v`: the theorems are named `Cnn_...` after the property.  Each is followed
   by `Print Assumptions` and by Examples, concrete non-trivial cases that meet the hypotheses.

## Representation choices

* A Rust bitmap of 2^n booleans is a `list bool` of length 2^n indexed by `nat`; masks use
  `Nat.testbit/lor/land/lxor` as in the code.  A vector `x : list bool` has index `idx x` (channel 0
  is the least significant bit).
* A panic is `None`.  A loop whose end is not structural carries fuel, running out of fuel is also
  `None`, and theorems show that the result is `Some` (so neither happens).
* `FxHasher` is an arbitrary function argument: theorems hold for every hash function.  The order in
  which a hash set is drained is an arbitrary argument.
* `u8/u16/usize` are `nat`.  Where wrap-around could matter there is a theorem that values stay in
  range (C15 huffman, C17/C18 bounds, C45/C46 sets and subsumption, C48/C52 index, C49 canonicalization, C50 state map, C51 search, C53 pruning and generation, C54 the worker threads) or an explicit hypothesis (C28/C33: fewer than 2^32 steps).
* The search is a transition system.  A task is a stack of frames (locals and place), a step is one
  access to shared data with the sequential code up to the next access; any task may step at any
  time, any pending task may be started at any time, a cancelled task may go on or lose its innermost
  frame at any time.  Theorems quantify over all runs.
* The file system is a map from names to byte lists; `Crash` operations describe every prefix of
  the sequence of file operations.

## What is modelled, file by file

| source | model | left out or simplified |
|---|---|---|
| `src/output_set.rs` | `OutputSetModel.v`: every function, except below; `MachineModel.v`: the same functions with checked indices, capacities, subtractions and casts | `as_ref/as_mut/to_owned/into_bitmap/copy_from` are identities on values; `pack` of single words is written per bit |
| `src/output_set/canon.rs` | `CanonModel.v`: `Candidate`, `new`, `canonicalize`, `initialize_partitions`, `prune_using_fingerprints`, `move_singleton`, `prune`, `individualize`, `refine` (a layer is the list of its candidates); `CanonArenaModel.v`: the same with the arena (`bitmaps`, `data`, `free_list`, `get!`, `alloc!`); `CanonMachModel.v`: the same with `buffer` and `temp`, `CVec` capacities, `u16` masks and checked accesses; `ScoreModel.v`: the score with `!max_partition_size` (the other files keep the size and reverse the order; `C65_complement` proves this the same) | - |
| `src/output_set/subsume.rs` | `SubsumeModel.v`: all, without the scratch buffer; `SubsumeMachModel.v`: all, with the buffer and with checked indices, capacities and shifts | - |
| `src/output_set/index/tree.rs` | `TreeModel.v`: arena of nodes with parent pointers, `new`, `build_tree`, `partition`, `traverse`, `traverse_mut`, removal, augmentation, with `points/packed/values` as one vector of entries and one range vector per node; `FlatModel.v`: the same with the vectors of the code, checked slices and checked u16 arithmetic; `DotModel.v`: `dump_dot` | |
| `src/output_set/index.rs` | `IndexModel.v`: the three directions, both lookups, both insertions, `for_each`, `len`, `is_empty`; `FlatModel.v`: the same with the vectors of the code; `IndexMachModel.v`: the closures with the scratch bitmap and checked accesses; `DotModel.v`: `dump_dot` | |
| `src/huffman.rs` | `HuffmanModel.v` | - |
| `src/search/states.rs` | `StatesModel.v`: shards, maps, default state, locks; `StatesMachModel.v`: the same with the nine maps, their key types, the stored `StateLock`s and the oneshot channels | `BTreeMap` as sorted list; `RwLock` = atomic step |
| `src/search.rs` | `SearchModel.v`: `search`, `improve`, `improve_huffman`, `Edges`, `improve_next`; `SearchMachModel.v`: the same on the checked sets, canonicalization and state map, with `level`, the `Schedule`s and the priorities of pending tasks; `LogModel.v`: `dump_states`; `KillModel.v`: `dump_states` stopped at any time | in `SearchModel.v` `level` and priorities (any pending task may start); wakers (in `SearchModel.v` a waiting task may look again at any time; `SearchFair.v` says when it has to be resumed); log output, info task |
| `src/thread_pool.rs` | `PoolModel.v`: `Schedule`, `add_pending`, worker loop over the pending queue; task start, cancellation and drop as seen by the search in `SearchModel.v`; `ExecModel.v`: the workers, the run queue, the task headers and the wakers under the search; `ProgModel.v`: the worker threads with every place of their loop, with the pending queue, on the checked search; `ScopeModel.v`: the end of the scope: dropping the pool, the end of the workers, joining them | what tasks do (in `PoolModel.v`; `SearchMachModel.v` joins the pool and the tasks); priorities (in `ExecModel.v`); tear down except in `ScopeModel.v`, panics of threads and `scopeguard`, OS threads; `async_task`, `futures` and `crossbeam` are not part of the project and are modelled by their documented behaviour, see the top of `ExecModel.v` |
| `src/prune.rs` | `LogModel.v`: `prune`, `prune_all`, crash points; `BackMachModel.v`: the same on the checked parts; `JobsModel.v`: several commands at the same time, with inodes; `RayonModel.v`: the parallel iterator | `rayon` by its documented behaviour in `RayonModel.v` (the other files have the sequential filter; `C66_prune` proves this the same); memory map = file contents |
| `src/proof.rs` | `ProofGenModel.v`, `DecodeModel.v` (`write_proof`); `BackMachModel.v`: the same on the checked parts; `CertModel.v`: its writes one by one; `RayonModel.v`: the parallel iterator | `HashMap` = list of entries (`RayonModel.v`: iterated in any order); `Arc` |
| `src/fix.rs` | `FixModel.v`; `CertModel.v`: its writes one by one, also up to a panic | blocks of `BufWriter` (single bytes instead) |
| `src/bin/sortnetopt.rs` | `CliModel.v`: `cmd_search` with its prefix; `GnpModel.v`: `cmd_gnp`; `GnpMachModel.v`: the same on the checked parts; `DotModel.v`: `cmd_gnp` with its drawings; the other commands only call the functions above | option parsing |
| `src/logging.rs`, `src/lib.rs` | not modelled | |
| `checker/snocheck/src/Verified/Checker.hs` | `VerifiedCheckerModel.v` | the checker is lazy: see the comment at the top of the file |
| `Check.hs`, `VectSet.hs`, `ProofStep.hs` | `RefCheckerModel.v` | `Parallel.hs` (evaluation strategy) |
| `Decode.hs`, `Translate.hs`, `Main.hs` | `DecodeModel.v` | printing |
| `checker/verified/*.thy` | not modelled (the Haskell code exported from it is) | |

Not covered by any theorem: time and memory use, I/O errors, unsafe code of the memory maps and of
the scoped threads, the Rust memory model below "an access under a lock is atomic".

## How the main results are proved

* C05: loop invariant of the breadth first search (visited = reachable, each index pushed once).
* C07: two runs on isomorphic sets are simulated step by step; layers of candidates stay related by
  permutations that respect the partition.
* C08/C09: the matching never loses a pair of a real subsumption; number of matching bits decreases.
* C11-C14: an abstraction function from the arena to the multiset of entries, bounding boxes and value
  ranges as invariants of every operation, then induction over histories.
* C15: the greedy merge preserves the least B with sum 2^v <= 2^B; Kraft.
* C17: explicit networks for the table of upper bounds; the lower bounds by certificates that follow
  the argument of Van Voorhis from the known sizes.
* C18-C23: one invariant over configurations (`SearchInv.v`: bounds are true, results of finished
  tasks are past values, locks are held by the frame that works on the set, local edges describe the
  successors), preserved by every step; C22 by a well-founded order on sets.
* C39: every write lowers a potential (`SearchSlack.v`), so it is enough to show: either some way of
  going on writes, or the main loop ends without a write.  By induction over the order of C22 every
  innermost frame can be made to return by steps that only move tasks about smaller sets
  (`SearchNext.v`, `SearchHuff.v`, `SearchHold.v`, `SearchLive.v`): a loop that writes nothing has an
  open edge (invariant `cov_frame` of `SearchGood.v`), its child is run to its end and a weight of the
  edges decreases; a frame that waits for a lock is let through by running the holder of the lock.
* C41: the work that is left is measured by a pair (the potential of the map, a sum of costs over all
  frames, `SearchCost.v`).  No step increases it, and a step that does not decrease it goes round one of
  the waiting loops (`SearchSpend.v`, `SearchWork.v`).  A second invariant (`SearchPend.v`) says that
  a task that waits for children has a scheduled child.  Then, by induction over the order of C22,
  every task that may go on leads to a decrease in every fair execution (`SearchEnds.v`).
  Fairness (`SearchFair.v`): a task that may go on makes a step or becomes unable to.  Steps of the
  pool that start pending tasks need not be fair.
* C43: an invariant of the workers, the queue, the task headers and the wakers (`ExecInv.v`): a task
  that is not running and not queued left its waker with everything it waits for, or is about to be
  woken by some worker; while a task runs, the same holds for the part of its children it has polled so
  far.  `ExecFacts.v` says what an access of a task does to the headers, `ExecStep.v` and `ExecRun.v`
  show that every step keeps the invariant.  That the workers never get stuck follows from C41 for the
  execution that stays where it is.
* C44: the fairness that C41 assumes is proved of the workers, from the assumption that every worker
  thread goes on.  With the measure of C41: unless it decreases, every poll ends (`ExecLive.v`: a poll
  that goes round a waiting loop finds a scheduled child or an unsent lock and yields), so every worker
  becomes free again, so the head of the queue is taken again and again, so every queued, woken or
  cancelled task gets its turn.  `ExecOther.v` says what a step of a worker leaves unchanged of the
  tasks of the other workers.
* C42: a simulation between the arena and the layers of `CanonModel.v`, operation by operation
  (`CanonArenaProofs.v`).  The invariant: layer, next layer, indices still to be drained and free list
  are a permutation of all slot numbers.
* C45/C46: function by function the checked version equals the one without checks, by loop invariants
  about lengths and ranges.  For the pruning queue: pushed indices are distinct and below the size of
  the target.  For the subsumption search the invariant (`SubsumeMachProofs.v`, `Shape`) speaks only of
  lengths and ranges of masks, permutations and undo records.
* C47: C44 and C33 put together.
* C48: the vectors are the concatenations of what the lists of `TreeModel.v` hold (`FlatProofs.v`,
  `FlatIndex.v`); whatever works on the lists works on the vectors with related results, and C11-C14 say
  that it works on the lists.
* C52: the closures of `IndexMachModel.v` answer whatever those of `FlatModel.v` answer.  A slot of a flat vector has
  exactly the length of a point or a packed set, which is all that the accesses need; `unpack_into` of a full slot
  overwrites the whole bitmap.
* C53: `BackMachProofs.v` follows `LogModel.v` and `ProofGenModel.v` function by function; the index of each channel count
  is related to the index of lists by the relation of C48.  `PropBackMach.v` joins C51, this, and C33.
* C54: every step of a worker of `ProgModel.v` is a step of `SearchMachModel.v` and looks like a step of `ExecModel.v` or like
  none (`ProgProofs.v`, `prog_sim`).  `ProgLive.v` shows what C44 needs of the workers: a busy worker goes on, and the
  run queue is served or empty again and again.  For the second, a worker may be anywhere in its loop; while it has the
  lock the pair (entries still to be sorted in, entries left in the queue) decreases, and a worker that waits for
  the lock waits for such a worker.
* C55: C54 and C53 put together.
* C56: a task that is not cancelled is owned by exactly one frame that waits for it (`SearchOwned.v`), so once the main
  task is done every other task is dropped in the end (`SearchRest.v`, fairness and a count of the frames left;
  `ExecRest.v`, the run queue and wakers run dry).  `ScopeRest.v` turns this into a state without any task (`Dead`,
  equivalent to the test in `ScopeModel.v` that no sender is left).  `ScopeLive.v`: until a worker ends, an execution of
  the scope is one of `ProgModel.v`; after that a lexicographic measure on the places of the workers decreases.
* C57: refuted by a run found with a scheduler search outside Coq and replayed in Coq step by step.
* C58: what is stored at any time of a search is kept in `SearchLeft.v` (only sets that may occur, with bounds between 1 and
  35), and `PipeProofs.v` needs no more than that.  Among sets of one bound pruning drops the set of all values if there
  is any other set, since it is subsumed by every set; then `encode_proof` finds no step for it and panics.  With a
  prefix every set of n channels in the log is ordered, so the set of all values is never there.
* C59: C56, C54, C53, C38 and C58 put together.
* C60: the invariant of `JobsProofs.v` is about inodes: each position of the `.tmp` or `.pbin` file of a group holds the right
  byte, or some process that has this inode open has still to write it.  So when nobody writes, the file is complete.  All
  processes that write a file of a group write the same bytes, because the input does not change.  `JobsAlone.v`: one process is the
  sequential model of `LogModel.v`, and every step makes a process smaller in a lexicographic order.
* C61: the checked command is simulated by the one of C34 (`GnpMachProofs.v`), with the simulations of C45, C49 and C52.
* C62: a cut inside the headers or before the data of the last step leaves a step that cannot be decoded; a cut inside the last
  step leaves fewer witnesses, or none that can be decoded (`witnesses_cut`), and both checkers want exactly as many witnesses
  as before (`v_wants`, `r_wants`).  A step only looks at earlier steps, so added bytes do not matter (`CertProofs.v`).
* C63: in `KillModel.v` every file of a stopped `dump_states` is missing or any prefix of the complete one, independently of the
  others.  Names in `index.txt` contain one dot followed by `bin`, so a cut name is no name of any file in the directory
  (`cut_name`); `prune-all` divides a file into sets and panics if the last one is short (`prune_full`), so what it reads is
  the beginning of the list of sets (`concat_cut`).  What is left is the log of a part of the map, and C32 applies.
* C64: `dump_dot` walks the functional tree of `TreeProofs.v` with the zipper of C11; at an inner node it enters the left child, at
  a leaf it skips (`DotProofs.v`).  The numbers of the nodes of a functional tree are different, which gives one parent for each.
* C65: a mask of `cut_parts` is an or of one power of two per pushed fingerprint, so its count is at most the number of
  fingerprints, which the capacity check bounds by 16; on such sizes the 64 bit complement reverses the order.
* C66: the invariant of a tree of jobs is the outcome it will have (`will` in `RayonProofs.v`); every step keeps it, the counter
  plus the items left is constant unless there is a panic, and a measure with 4 per item falls with each step.  The order of the
  entries of the `HashMap` does not matter because the keys are different and encoding reads the steps only by key (`RayonOrder.v`).
* C49: step by step the checked run goes through the arenas of `CanonArenaModel.v` (`CanonMachParts.v`:
  one candidate, `CanonMachProofs.v`: layers and the loop).  The invariant of C06 says that the parts of
  every candidate partition the channels from `fixed` to `used_channels`; from this follow all ranges
  and capacities.
* C27/C32: the certificate is built along the same order, so recursion ends and references go back.
* C30: induction over step numbers with the Huffman lower bound for extremal channels.
* C33: a completed search justifies every stored lower bound by stored lower bounds of smaller
  sets (`SearchTop.v`); pruning keeps a subsuming representative; so every set of the pruned log has
  a step and the certificate passes both checkers.
* C50: erasing the blocks maps every call to the call of `StatesModel.v` (lexicographic order of blocks of equal
  length is the order of the bytes); the locks that are out, the table of locks and the lock maps are kept in step.
* C51: a relation between the checked search and `SearchModel.v` (the table of locks belongs to the locks held by
  frames, the cells to the tasks, each `Schedule` held by a frame is the only owner of its cell, each entry of
  the pool carries level, size and bound of its task) is kept by every step; requests agree because of the invariant
  of C18.  The pool part of every run is a run of `PoolModel.v`, so C35 applies.

C31 is a property whose plain form is false: the reference checker accepts certificates for false
bounds.  The theorems give the counterexamples and the exact conditions under which it is sound.

C57 is another one: `scope` drops the pool (tp 214) while another worker may still poll a task that the search no longer
needs, and that task may call `spawn_delayed` or `add_pending` through its reference, whose lifetime was transmuted (tp
92-97).  The witness has three workers and 291 steps.

## Trusted base

* The Coq 8.16.1 kernel, including the virtual machine where an Example is closed by `vm_compute`.
  `coqchk` (which has no virtual machine) also accepts the whole development.
* `Print Assumptions` says "Closed under the global context" for every theorem in the table below:
  no axioms, not even those of the standard library.
  (`coqchk` lists seven axioms of `Coq.ssr.ssrunder`, a module that the standard `Setoid` loads; no
  theorem depends on them.)
* The faithfulness of the model to `/repo`, as described above.

No axioms, no `Admitted`, no disabled kernel checks, no functors, module types or plugins.

## Theorems

<!-- theorems -->
| file | theorems (225 in all) | examples |
|---|---|---|
| `PropAll.v` | `C55_threads_to_checkers` | 3 |
| `PropArena.v` | `C42_arena_same_result`, `C42_arena_isomorphic`, `C42_arena_canonical`, `C42_no_slot_lost` | 1 |
| `PropBackMach.v` | `C53_prune_keeps_representatives`, `C53_same_answers`, `C53_pipeline` | 4 |
| `PropCanon.v` | `C06_canonicalize_isomorphic`, `C07_canonicalize_canonical`, `C07_canonicalize_separates`, `C07_canonicalize_idempotent` | 3 |
| `PropCanonMach.v` | `C49_checked_same_result`, `C49_checked_isomorphic`, `C49_checked_canonical`, `C49_too_many_channels` | 3 |
| `PropCert.v` | `C58_certificate`, `C58_no_certificate`, `C58_with_limit`, `C58_with_prefix`, `C58_every_limit_refuted` | 3 |
| `PropCertFile.v` | `C62_truncated_rejected`, `C62_appended_ignored`, `C62_killed_generator`, `C62_fix_operations`, `C62_fix_again`, `C62_killed_fix` | 3 |
| `PropChanAbs.v` | `C37_channel_abstraction`, `C37_channel_pair_abstraction` | 2 |
| `PropChecker.v` | `C30_verified_checker_sound`, `C30_accepted_steps_sound`, `C31_reference_sound_wellformed`, `C31_reference_unchecked_perm_refuted`, `C31_reference_padding_refuted`, `C31_reference_empty_refuted`, `C31_reference_sound_refuted` | 5 |
| `PropCli.v` | `C38_search_with_prefix`, `C38_prefix_with_limit`, `C38_no_prefix`, `C38_panics`, `C38_release_ignores` | 4 |
| `PropDecode.v` | `C28_decode_written`, `C30_snocheck_v_sound`, `C31_snocheck_r_sound_wellformed`, `C31_checkers_agree`, `C31_snocheck_r_refuted`, `C31_snocheck_r_perm_refuted` | 4 |
| `PropDot.v` | `C64_forest`, `C64_lines`, `C64_gnp_layers` | 3 |
| `PropExec.v` | `C43_workers_run_search`, `C43_no_lost_wakeup`, `C43_one_worker_per_task`, `C43_workers_never_panic`, `C43_pool_never_stuck` | 4 |
| `PropExecLive.v` | `C44_pool_is_fair`, `C44_search_ends`, `C44_search_finds_optimum`, `C44_search_finds_minimal_size`, `C44_turns_go_on` | 3 |
| `PropFair.v` | `C41_fair_search_ends`, `C41_fair_search_finds_optimum`, `C41_fair_search_finds_minimal_size`, `C41_fair_execution_exists` | 2 |
| `PropFinal.v` | `C59_scope_to_checkers`, `C59_scope_with_prefix`, `C59_limit_to_checkers` | 5 |
| `PropFix.v` | `C29_fix_proof`, `C29_restores_generated` | 1 |
| `PropFlat.v` | `C48_layout`, `C48_lookup_best`, `C48_lookup_subsuming_witness`, `C48_insert_keeps_undominated`, `C48_checked_history`, `C48_unchecked_adds_one`, `C48_for_each_len_is_empty` | 2 |
| `PropGen.v` | `C27_ends`, `C27_references_backwards`, `C32_accepted` | 3 |
| `PropGnp.v` | `C34_gnp_stops_after_optimum`, `C34_too_many_channels` | 1 |
| `PropGnpMach.v` | `C61_gnp_passes_every_check`, `C61_gnp_panics` | 1 |
| `PropHuffman.v` | `C15_huffman_optimal`, `C15_huffman_kraft`, `C15_huffman_order`, `C15_huffman_total`, `C15_huffman_overflow`, `C15_huffman_empty` | 3 |
| `PropIndex.v` | `C11_lookup_best`, `C11_masked_index_in_range`, `C12_lookup_subsuming_witness`, `C12_lookup_is_bound`, `C13_insert_keeps_undominated`, `C13_checked_history`, `C14_for_each_len_is_empty`, `C14_unchecked_adds_one`, `C13_duplicates_panic` | 5 |
| `PropIndexMach.v` | `C52_lookups`, `C52_insert`, `C52_unchecked_and_for_each`, `C52_bitmap_contents_irrelevant` | 2 |
| `PropJobs.v` | `C60_one_process_per_file`, `C60_nobody_writes`, `C60_then_prune_all`, `C60_all_ended`, `C60_every_run_ends`, `C60_single_process`, `C60_never_half_written_refuted` | 3 |
| `PropKill.v` | `C63_killed_dump`, `C63_stopped_between_entries`, `C63_torn_file`, `C63_torn_index` | 5 |
| `PropLive.v` | `C39_search_can_finish`, `C39_finishes_with_optimum`, `C39_search_completes`, `C40_entry_changes_bounded`, `C40_writes_bounded` | 4 |
| `PropLog.v` | `C24_names_distinct`, `C24_names_parsed`, `C24_log_complete`, `C24_search_log_valid`, `C25_prune_keeps_representatives`, `C25_bounds_survive`, `C26_crash_safe`, `C26_pruned_complete` | 5 |
| `PropMachine.v` | `C45_reads_in_range`, `C45_abstraction_fits`, `C45_writes_in_range`, `C45_prune_queue_fits`, `C45_abstraction_empty_panics` | 3 |
| `PropOutputSet.v` | `C01_apply_comparator`, `C02_swap_channels`, `C02_invert`, `C03_is_sorted`, `C03_is_sorted_network`, `C04_pack_unpack`, `C04_pack_injective`, `C04_unpack_pack`, `C05_channel_is_extremal`, `C05_prune_extremal`, `C05_prune_extremal_panics`, `C36_symmetry`, `C36_subsumption`, `C37_subsumes_unpermuted`, `C37_len`, `C37_weight_histogram`, `C37_is_channel_unconstrained`, `C37_channel_fingerprint`, `C37_low_channels_fingerprint` | 10 |
| `PropPipe.v` | `C33_pipeline` | 2 |
| `PropPool.v` | `C35_started_once`, `C35_not_lost`, `C35_smallest_first`, `C35_idle_only_when_empty` | 1 |
| `PropProg.v` | `C54_no_check_fails`, `C54_same_search`, `C54_lock`, `C54_never_stuck`, `C54_search_ends`, `C54_search_finds_optimum`, `C54_search_finds_minimal_size`, `C54_turns_go_on` | 4 |
| `PropRayon.v` | `C66_any_schedule`, `C66_prune`, `C66_prune_representatives`, `C66_prove_all`, `C66_gen_proof`, `C66_pipeline` | 6 |
| `PropScope.v` | `C56_no_check_fails`, `C56_same_program`, `C56_ends_without_tasks`, `C56_returned`, `C56_returns_optimum`, `C56_returns_minimal_size`, `C56_scope_returns`, `C56_scope_returns_minimal_size`, `C56_turns_go_on`, `C57_pool_not_used_after_drop_refuted`, `C57_only_left_over_tasks`, `C57_not_used_after_return` | 2 |
| `PropScore.v` | `C65_complement`, `C65_canonical_form` | 2 |
| `PropSearch.v` | `C18_stored_bounds_valid`, `C18_get_bounds_valid`, `C18_never_panics`, `C19_search_returns_minimal_size`, `C19_search_with_limit`, `C19_search_returns_optimum`, `C20_bounds_tighten`, `C21_lock_exclusive`, `C21_write_needs_lock`, `C21_locked_iff_held`, `C21_finished_holds_nothing`, `C22_order_well_founded`, `C22_targets_smaller`, `C22_waits_below_held`, `C22_children_smaller`, `C22_no_waiting_cycle`, `C23_improve_progress`, `C23_task_progress` | 8 |
| `PropSearchMach.v` | `C51_no_check_fails`, `C51_same_search`, `C51_search_returns_minimal_size`, `C51_search_returns_optimum`, `C51_stored_bounds_valid`, `C51_cells`, `C51_priority` | 6 |
| `PropStates.v` | `C16_get_returns_last_set`, `C16_len`, `C16_drain`, `C17_default_bounds`, `C17_known_sizes` | 4 |
| `PropStatesMach.v` | `C50_no_check_fails`, `C50_len_and_drain`, `C50_too_many_channels` | 4 |
| `PropSubsume.v` | `C08_subsumes_permuted_sound`, `C09_subsumes_permuted_complete`, `C10_abstraction_monotone`, `C10_abstraction_invariant`, `C10_abstraction_fits_u16` | 4 |
| `PropSubsumeMach.v` | `C46_checked_search_right`, `C46_checked_search_same`, `C46_buffer_contents_irrelevant` | 3 |
| `PropWhole.v` | `C47_workers_to_checkers` | 3 |
<!-- end -->
