{"id": "C01", "title": "apply_comparator is the image of the set under the comparator, and its flag means 'not redundant'", "statement": "After s.apply_comparator([a,b]) the set contains exactly the vectors obtained from the old members by moving the smaller of the two values to channel b and the larger to channel a; nothing else changes. The returned boolean is true iff the old set had a member with (a,b)=(1,0) and one with (a,b)=(0,1).", "quantifier": "every channel count, every bitmap, every pair of distinct in-range channels", "why_tests_cant": "2^(2^n) sets; the unit tests run one network on 11 channels", "anchors": ["src/output_set.rs:apply_comparator"]}
{"id": "C02", "title": "swap_channels and invert are exact symmetries and involutions", "statement": "swap_channels([a,b]) exchanges coordinates a and b of every member (a=b: no change), invert complements every member; applying either twice restores the set.", "quantifier": "every channel count, bitmap and pair of channels", "why_tests_cant": "all bitmaps", "anchors": ["src/output_set.rs:swap_channels", "src/output_set.rs:invert"]}
{"id": "C03", "title": "is_sorted means at most one member of each weight, and for network outputs means sorted up to relabelling", "statement": "is_sorted returns true iff no two different members have the same number of ones; for any set that arises from all 0/1 inputs by comparators, channel swaps and inversion, this holds iff one relabelling of the channels makes every member sorted.", "quantifier": "every set; every network", "why_tests_cant": "infinitely many networks", "anchors": ["src/output_set.rs:is_sorted"]}
{"id": "C04", "title": "pack/unpack round trip", "statement": "from_packed(n, s.packed()) equals s, packed() has packed_len_for_channels(n) bytes, and distinct sets of the same channel count have distinct packings; unpacking then packing a byte string gives it back (n>=3).", "quantifier": "every channel count and set", "why_tests_cant": "2^(2^n) sets", "anchors": ["src/output_set.rs:pack_into_slice", "src/output_set.rs:unpack_from_slice", "src/output_set.rs:from_packed", "src/output_set.rs:packed_len_for_channels"]}
{"id": "C05", "title": "prune_extremal_channel_into computes exactly the chain-reachable part, without overflow", "statement": "For an extremal channel c and polarity p the target holds exactly the members (with coordinate c deleted) that can be reached from the extremal member by flipping coordinates one at a time away from p while staying inside the set; the work queue never holds more entries than its capacity, the loop ends, and the assertion fires exactly when c is not extremal.", "quantifier": "every set, channel, polarity", "why_tests_cant": "graph reachability over arbitrary sets", "anchors": ["src/output_set.rs:prune_extremal_channel_into", "src/output_set.rs:channel_is_extremal"]}
{"id": "C06", "title": "canonicalize returns an isomorphic set together with the isomorphism", "statement": "canonicalize(inversion) never panics, ends, replaces s by a set obtained from s by the returned channel permutation, after complementing every member if the returned invert flag is set; invert is only set if inversion was allowed.", "quantifier": "every set with at least the code's channel limits, every hash function used for fingerprints", "why_tests_cant": "all sets", "anchors": ["src/output_set.rs:canonicalize", "src/output_set/canon.rs:Canonicalize"]}
{"id": "C07", "title": "canonicalize is canonical", "statement": "If t is obtained from s by any channel permutation (and complement, when inversion=true), canonicalize gives the same set for s and t.", "quantifier": "every pair of isomorphic sets and every hash function (collisions included)", "why_tests_cant": "n!*2 symmetries times all sets; the test uses 35 sets and swap prefixes of one network", "anchors": ["src/output_set/canon.rs:canonicalize", "src/output_set/canon.rs:prune", "src/output_set/canon.rs:individualize", "src/output_set/canon.rs:refine"]}
{"id": "C08", "title": "subsumes_permuted is sound", "statement": "If a.subsumes_permuted(b) returns Some(perm) then perm is a permutation of the channels and every member of a, read through perm, is a member of b.", "quantifier": "every pair of sets with equal channel count", "why_tests_cant": "all pairs of sets", "anchors": ["src/output_set.rs:subsumes_permuted", "src/output_set/subsume.rs:Subsume"]}
{"id": "C09", "title": "subsumes_permuted is complete and ends", "statement": "If some channel permutation maps a into b, a.subsumes_permuted(b) returns Some; the backtracking search always ends.", "quantifier": "every pair of sets, every permutation", "why_tests_cant": "a negative answer cannot be confirmed by sampling", "anchors": ["src/output_set/subsume.rs:search", "src/output_set/subsume.rs:remove_matching", "src/output_set/subsume.rs:filter_matching", "src/output_set/subsume.rs:rollback"]}
{"id": "C10", "title": "abstractions never reject a real subsumption", "statement": "If a permuted (and complemented) is contained in b, the abstraction of a is pointwise at most that of b (with index i read at i xor 3 when complemented).", "quantifier": "every pair of sets and permutation", "why_tests_cant": "all pairs", "anchors": ["src/output_set.rs:write_abstraction_into", "src/output_set.rs:channel_pair_abstraction", "src/output_set/index.rs:LowerInvert::test_abstraction"]}
{"id": "C11", "title": "index lookup returns the best value over everything stored", "statement": "After any history of insertions, lookup returns Some(v) where v is the largest (Lower, LowerInvert) / smallest (Upper) value stored for a set that subsumes (is subsumed by) the query, and None iff there is none: no subtree cut, abstraction filter or early exit ever loses an answer.", "quantifier": "every insertion history, every query", "why_tests_cant": "histories and tree shapes unbounded", "anchors": ["src/output_set/index.rs:lookup_with_abstraction", "src/output_set/index/tree.rs:traverse", "src/output_set/index/tree.rs:build_tree"]}
{"id": "C12", "title": "index lookup_subsuming returns a genuine witness", "statement": "lookup_subsuming_with_abstraction returns a stored set with its stored value, and a permutation (and invert flag) that maps it into the query.", "quantifier": "every insertion history, every query", "why_tests_cant": "as above", "anchors": ["src/output_set/index.rs:lookup_subsuming_with_abstraction", "src/output_set/index.rs:test_precise"]}
{"id": "C13", "title": "insert_with_abstraction keeps exactly the undominated entries", "statement": "After inserting (s,v): if an entry at least as good existed nothing changes and its value is returned; otherwise every entry dominated by (s,v) is gone, every other entry is kept unchanged, and (s,v) is present once.", "quantifier": "every index state reachable by insertions, every set and value", "why_tests_cant": "in-place tree deletions with arbitrary interleavings of shapes", "anchors": ["src/output_set/index.rs:insert_with_abstraction", "src/output_set/index/tree.rs:traverse_mut", "src/output_set/index/tree.rs:traversal_remove", "src/output_set/index/tree.rs:traversal_unlink"]}
{"id": "C14", "title": "for_each, len and is_empty report exactly the stored multiset", "statement": "for_each visits every stored entry exactly once with its abstraction and value, len is their number, is_empty iff none; unchecked insertion adds exactly one entry.", "quantifier": "every insertion history", "why_tests_cant": "histories unbounded", "anchors": ["src/output_set/index.rs:for_each", "src/output_set/index.rs:len", "src/output_set/index.rs:insert_new_unchecked_with_abstraction"]}
{"id": "C15", "title": "max_plus_1_huffman is the optimum over all binary trees", "statement": "For a non-empty list the result is the least B such that some binary tree with these leaf values has depth(leaf)+value(leaf) <= B for every leaf; equivalently the least B with sum 2^v <= 2^B; it does not depend on the order; no u8 overflow while max + length <= 256; the empty list gives 0.", "quantifier": "every list of values", "why_tests_cant": "unbounded lists; optimality over all trees", "anchors": ["src/huffman.rs:max_plus_1_huffman"]}
{"id": "C16", "title": "state map behaves as one map with a valid default, whatever the hash and shard count", "statement": "get after set returns the value last set for that output set and is unaffected by sets for other output sets; an absent set gets the default; len counts distinct keys.", "quantifier": "every history of get/set, every hash function and shard count", "why_tests_cant": "histories and hash collisions", "anchors": ["src/search/states.rs:StateMap", "src/search/states.rs:OutputSetMap"]}
{"id": "C17", "title": "default bounds are true bounds", "statement": "For every set produced by a network from all inputs, the state handed out for an unknown set satisfies lower <= minimal number of comparators still needed <= upper (table of known sizes for up to 11 channels, quadratic beyond).", "quantifier": "every such set up to 11 channels", "why_tests_cant": "optimum over all networks", "anchors": ["src/search/states.rs:get"]}
{"id": "C18", "title": "search is sound under every schedule", "statement": "At every moment of every execution, every state stored has lower bound <= optimum <= upper bound for its set, where optimum is the least number of comparators that still have to be appended.", "quantifier": "every interleaving of tasks, every cancellation, every initial set reachable from all inputs", "why_tests_cant": "schedules unbounded", "anchors": ["src/search.rs:improve", "src/search.rs:improve_huffman", "src/search.rs:Edges::improve_next"]}
{"id": "C19", "title": "the number search returns is the optimal size", "statement": "If Search::search on all inputs of n channels without limit returns k then some sorting network on n channels has k comparators and none has fewer; with a limit, k is a lower bound for every sorting network.", "quantifier": "every schedule, every n the program accepts", "why_tests_cant": "optimum over all networks, all schedules", "anchors": ["src/search.rs:search", "src/bin/sortnetopt.rs:cmd_search"]}
{"id": "C20", "title": "bounds only tighten", "statement": "Along every execution the stored lower bound of a set never decreases and its upper bound never increases.", "quantifier": "every interleaving", "why_tests_cant": "lost-update races are schedule dependent", "anchors": ["src/search.rs:improve", "src/search/states.rs:lock"]}
{"id": "C21", "title": "locking is exclusive and released", "statement": "At most one task works on a set at any moment; a finished or dropped task leaves its set unlocked.", "quantifier": "every interleaving and every drop point", "why_tests_cant": "schedule dependent", "anchors": ["src/search/states.rs:lock", "src/search/states.rs:StateLock::drop"]}
{"id": "C22", "title": "nested locking cannot deadlock", "statement": "The sets a task waits for while holding a set are strictly smaller in a fixed well-founded order (fewer channels, or fewer members, or equally many members but more polarised), so no cycle of waiting tasks can form.", "quantifier": "every set and every chain of nested improvements", "why_tests_cant": "cycles in an exponentially large graph", "anchors": ["src/search.rs:improve", "src/search.rs:improve_huffman", "src/search/states.rs:lock"]}
{"id": "C23", "title": "improve reports progress", "statement": "A call of improve that returns gives either a closed state (lower=upper) or one different from the state it was called with.", "quantifier": "every interleaving", "why_tests_cant": "schedule dependent", "anchors": ["src/search.rs:improve"]}
{"id": "C24", "title": "the search log is complete", "statement": "dump_states writes every stored set exactly once, packed, to the file of its channel count and lower bound, and index.txt names exactly the files written, once each.", "quantifier": "every state map, shard count and hash", "why_tests_cant": "maps unbounded", "anchors": ["src/search.rs:dump_states", "src/search/states.rs:drain_packed"]}
{"id": "C25", "title": "prune keeps a subsuming representative of everything", "statement": "Every set of a group file has, in the pruned file, a set that subsumes it (permutation and complement allowed); the pruned file contains only sets of the group; no pruned set is subsumed by a smaller pruned set.", "quantifier": "every group file", "why_tests_cant": "all files", "anchors": ["src/prune.rs:prune"]}
{"id": "C26", "title": "a pruned file is never seen half written", "statement": "At every crash point the .pbin file is either absent or complete; a rerun after a crash gives the same file as an uninterrupted run.", "quantifier": "every crash point and number of crashes", "why_tests_cant": "crash points", "anchors": ["src/prune.rs:prune"]}
{"id": "C27", "title": "certificate encoding: references go backwards and the target is last", "statement": "encode_proof ends for every index contents; every witness reference is to a smaller step number, step numbers are the positions in the file, and the last step is the requested set.", "quantifier": "every index contents for which steps exist", "why_tests_cant": "recursion over an arbitrary graph", "anchors": ["src/proof.rs:encode_proof"]}
{"id": "C28", "title": "write_proof is inverted by the checker's decoder", "statement": "Decoding the bytes written by write_proof gives back the number of steps and, for each step, its channels, bound, set, kind and witnesses.", "quantifier": "every list of steps within the u32/u64 limits", "why_tests_cant": "all certificates", "anchors": ["src/proof.rs:write_proof", "checker/snocheck/src/Decode.hs"]}
{"id": "C29", "title": "fix_proof converts an old certificate into exactly the new format", "statement": "fix_proof on the old encoding of a list of steps (without bound bytes) writes exactly the encoding write_proof would give with the bound byte inserted.", "quantifier": "every list of steps whose sets are in the pruned files", "why_tests_cant": "all certificates", "anchors": ["src/fix.rs:fix_proof"]}
{"id": "C30", "title": "the verified checker is sound", "statement": "If check_proof_get_bound returns (n,b), every sorting network on n channels has at least b comparators.", "quantifier": "every certificate, including adversarial ones", "why_tests_cant": "all certificates and all networks", "anchors": ["checker/snocheck/src/Verified/Checker.hs", "checker/verified/Checker.thy"]}
{"id": "C31", "title": "the reference checker is sound for well-formed certificates, and only for those", "statement": "snocheck -r accepts certificates for false bounds: it does not check that a witness list is a permutation, nor (below 3 channels) that the unused bits of a set byte are zero. It is sound for certificates with at least one step, in which every witness list is a permutation and every set member is below 2^channels; on those (with non-zero bounds) it gives the same answer as the verified checker.", "quantifier": "every certificate", "why_tests_cant": "adversarial certificates", "anchors": ["checker/snocheck/src/Check.hs", "checker/snocheck/src/VectSet.hs"]}
{"id": "C32", "title": "generated certificates are accepted", "statement": "If gen_proof finds a step for every set, the certificate it writes is accepted by the checker and the checker reports the bound of the requested set.", "quantifier": "every contents of the pruned files made of sets that come from networks", "why_tests_cant": "all logs", "anchors": ["src/proof.rs:prove_all", "src/proof.rs:huffman_step", "src/proof.rs:successor_step", "src/proof.rs:lookup_witness"]}
{"id": "C33", "title": "the whole pipeline proves what the search found", "statement": "For every schedule of a completed unlimited search on n>=3 channels, pruning and certificate generation do not panic, and the checker accepts the result and reports (n, k) with k the number printed by the search.", "quantifier": "every schedule", "why_tests_cant": "end to end over all schedules", "anchors": ["src/search.rs", "src/prune.rs", "src/proof.rs", "checker/snocheck/src"]}
{"id": "C34", "title": "the gnp command stops exactly one layer after the optimal size", "statement": "The layer counter of gnp when it stops is one more than the least number of comparators of a sorting network on that many channels.", "quantifier": "every channel count accepted", "why_tests_cant": "optimum over all networks", "anchors": ["src/bin/sortnetopt.rs:cmd_gnp"]}
{"id": "C35", "title": "a delayed task is started at most once and pending work is not lost", "statement": "schedule() returns true exactly once per task; the pending queue's garbage collection drops only tasks already started or dropped; the task taken next has the smallest priority among those not yet started.", "quantifier": "every history of add/schedule/gc/drop", "why_tests_cant": "histories unbounded", "anchors": ["src/thread_pool.rs:Schedule", "src/thread_pool.rs:scope"]}
{"id": "C36", "title": "dual polarity and symmetry of bounds", "statement": "A set, its channel permutations and its complement need exactly the same number of comparators, so working on canonical forms never changes an answer.", "quantifier": "every set, permutation and network", "why_tests_cant": "all networks", "anchors": ["src/output_set.rs:canonicalize", "src/search.rs:improve"]}
{"id": "C37", "title": "fingerprints, counts and subset test", "statement": "subsumes_unpermuted is the subset relation; channel fingerprints do not depend on how the other channels are numbered. The counts of channel_abstraction and channel_pair_abstraction are the numbers of members with the named values of the channels (and, for the former, of each weight).", "quantifier": "every set and permutation", "why_tests_cant": "all sets", "anchors": ["src/output_set.rs:subsumes_unpermuted", "src/output_set.rs:channel_fingerprint", "src/output_set.rs:low_channels_fingerprint", "src/output_set.rs:low_channels_channel_fingerprint", "src/output_set.rs:channel_abstraction", "src/output_set.rs:channel_pair_abstraction"]}
{"id": "C38", "title": "search with a prefix returns the least number of comparators that complete the prefix", "statement": "If 'search n -p a b ...' prints k then some network of k comparators, appended to the prefix, gives a sorting network after renumbering the channels, and no shorter one does; with a limit k is still a lower bound. The command panics before the search exactly for more than 11 channels, a prefix of odd length, or (debug build) a pair that is no comparator; a release build ignores such pairs.", "quantifier": "all n <= 11, all prefixes, all limits, all schedules, all hash functions, all shard counts", "why_tests_cant": "the minimum ranges over all networks, and the result must hold for every interleaving of the tasks", "anchors": ["src/bin/sortnetopt.rs:101-114", "src/search.rs:31-78", "src/output_set.rs:568-597"]}
{"id": "C39", "title": "the search can be completed from every state it can be in", "statement": "In every configuration that a search can reach, after any interleaving, any choices of the pool and any cancellations, there is a continuation after which the main loop has ended, and without a limit its value is then the optimum: there is no deadlock and no state from which the tasks can only go round in circles. In particular completed searches exist for every n up to 11.", "quantifier": "all start sets, limits, reachable configurations, hash functions, shard counts", "why_tests_cant": "a test sees single schedules, and cannot tell a search that is stuck in a livelock from one that is slow", "anchors": ["src/search.rs:58-67", "src/search.rs:127-259", "src/search.rs:261-347", "src/search.rs:415-502", "src/search/states.rs:110-170"]}
{"id": "C40", "title": "the search writes to the map only boundedly often", "statement": "Along any execution every entry of the map changes at most 3570 times, and there is one number that bounds the total number of changes of the stored states for all searches: work that goes on for ever would be work that changes nothing.", "quantifier": "all executions of any length, all schedules, sets, limits, hash functions", "why_tests_cant": "executions of any length", "anchors": ["src/search.rs:127-347", "src/search/states.rs:91-108"]}
{"id": "C41", "title": "every fair execution of the search ends, with the right answer", "statement": "Start from any configuration a search can reach and go on in any way in which no task that may go on is left out for ever (a task that waits for children needs to be resumed only after one of the children it looked at is finished, a task that waits for a lock only after the lock is released, and the pool need never start a pending task). Then after finitely many steps the main loop has ended, and stays ended; without a limit its value is the optimum, and for the search over n channels the minimal size of a sorting network. Such executions exist from every configuration.", "quantifier": "all start sets, limits, reachable configurations, hash functions, shard counts, infinite executions", "why_tests_cant": "that all infinite schedules end cannot be seen on finitely many finite runs; waiting loops may go round any number of times", "anchors": ["src/search.rs:58-67", "src/search.rs:127-259", "src/search.rs:261-347", "src/search.rs:415-509", "src/search/states.rs:110-170", "src/thread_pool.rs:43-71", "src/thread_pool.rs:137-200"]}
{"id": "C42", "title": "canonicalization with reused arena slots gives what it gives with candidates as values", "statement": "Canonicalize keeps its candidates in slots of one vector and uses slots again through a free list. For every set and every hash function the run with slots returns the same set and permutation as the run on candidates as values, so it never panics (no slot index is out of range), no candidate is overwritten while it is still in use, and isomorphic sets get the same result. When the loop ends every slot is in exactly one of the layer and the free list: no slot is lost and none is shared.", "quantifier": "all well-formed sets, both inversion flags, all hash functions", "why_tests_cant": "a slot that is freed too early is only seen when it is allocated again before its last use, which depends on ties between hash values", "anchors": ["src/output_set/canon.rs:44-161", "src/output_set/canon.rs:163-440"]}
{"id": "C43", "title": "the workers lose no wake-up and never get stuck", "statement": "Run the search on any number of worker threads: a FIFO queue of tasks, task headers with the bits scheduled, running, completed and closed, wakers left with the handles of children and with lock channels, calls of wakers as separate steps that any other worker may precede, cancellation and drop of tasks. In every reachable state every task that can go on is in the queue, or is the task of a worker, or some worker is about to wake or drop it. A task is run by at most one worker, is at most once in the queue, and not in the queue while it is run. No worker panics. If no worker can make a step then the main loop has ended.", "quantifier": "all numbers of workers, start sets, limits, hash functions, shard counts, interleavings of the workers", "why_tests_cant": "a lost wake-up needs a wake between the last look of a task at its children and the end of its poll; such races are hit rarely and only hang the program", "anchors": ["src/thread_pool.rs:31-71", "src/thread_pool.rs:93-122", "src/thread_pool.rs:124-204", "src/search.rs:415-509", "src/search/states.rs:110-135"]}
{"id": "C44", "title": "on any worker threads that go on, the search ends with the right answer", "statement": "Run the search on any positive number of worker threads, in any interleaving in which every worker thread that has something to do makes a step again and again (the worker loop of the pool; nothing is assumed about the tasks, and pending tasks need never be started). Then no task that can go on is left out for ever, the main loop ends after finitely many steps and its answer stays; without a limit it is the optimum of the start set, and for the search over n <= 11 channels the minimal size of a sorting network. Workers that take turns are such an interleaving.", "quantifier": "all positive numbers of workers, start sets, limits, hash functions, shard counts, infinite interleavings", "why_tests_cant": "a task that is polled again and again without progress, or a queue that starves a task, shows up only on infinite schedules; a test sees finitely many finite ones", "anchors": ["src/thread_pool.rs:31-71", "src/thread_pool.rs:93-122", "src/thread_pool.rs:124-204", "src/search.rs:58-67", "src/search.rs:127-259", "src/search.rs:261-347", "src/search.rs:415-509", "src/search/states.rs:110-170"]}
{"id": "C45", "title": "the set operations stay within the capacities and index ranges of their vectors", "statement": "Run the functions of output_set.rs with every slice access, every growth of a vector of fixed capacity, every unsigned subtraction and every cast to u16 checked. For sets of at most 11 channels no check fails and every cast keeps its value: the results are those on mathematical vectors and numbers. The abstraction fits its vector of 512 entries and its 16-bit entries, the queue of the pruning fits its capacity (each reachable index is pushed once), packing fits its 2^8 bytes. The abstraction of a set without channels panics, by subtraction.", "quantifier": "all well-formed sets of at most 11 channels, all channels, channel pairs, polarities and prefix lengths, all target slices", "why_tests_cant": "an out of range write needs the one set that fills a vector to the end; 2^2048 sets of 11 channels", "anchors": ["src/output_set.rs:12-22", "src/output_set.rs:67-141", "src/output_set.rs:143-374", "src/output_set.rs:404-560", "src/output_set.rs:562-640"]}
{"id": "C46", "title": "the subsumption search with 16-bit masks and a reused buffer never leaves its vectors and answers right", "statement": "Run the subsumption search with its vectors of fixed capacity, its u16 masks and the scratch buffer that is resized, split and filled again in every round, with every access, shift, split and push checked. For all pairs of sets of the same at most 11 channels no check fails, the answer is a permutation under which the first set is contained in the second or there is none, it is the answer of the search on plain lists, and it does not depend on what the buffer holds at the start. Sets of different channel counts panic (the assertion).", "quantifier": "all pairs of well-formed sets of at most 11 channels, all contents and lengths of the buffer", "why_tests_cant": "old contents of the buffer matter only after rounds with particular numbers of fixed channels; the deepest stacks of undo records need particular pairs of sets", "anchors": ["src/output_set/subsume.rs:16-50", "src/output_set/subsume.rs:52-180", "src/output_set/subsume.rs:182-309"]}
{"id": "C47", "title": "from worker threads that go on to the number both checkers print", "statement": "Run the search over 3 <= n <= 11 channels on any positive number of worker threads, in any interleaving in which the workers go on. There is a k, the minimal size of a sorting network on n channels, and a moment from which on the search has the answer k; whenever its states are dumped after that moment (fewer than 2^32 sets, no .pbin file left from before), then after any number of interrupted runs of prune-all, pruning and certificate generation succeed and both checkers accept the certificate and print n and k.", "quantifier": "all n in 3..11, worker counts, hash functions, shard counts, infinite interleavings, moments of the dump, sequences of crashes of prune-all", "why_tests_cant": "a test runs one interleaving and one crash point at a time, and 11 channels need weeks of computation", "anchors": ["src/thread_pool.rs:31-204", "src/search.rs:58-125", "src/prune.rs:1-125", "src/proof.rs:1-298", "checker/snocheck/src/Verified/Checker.hs:1-522"]}
{"id": "C48", "title": "the index keeps its flat vectors consistent", "statement": "Take the index as the code stores it: points, packed bytes and values in three separate vectors, entry i at i * point_dim, i * packed_dim and i, for the buffer and for every tree, and the ranges of all nodes in one vector. After any history of insertions of sets with 2..11 channels the lengths match (values.len() * point_dim = points.len(), values.len() * packed_dim = packed.len()), all points and ranges fit u16, no slice, subtraction, addition or assertion fails, and lookups, insertions, for_each, len and is_empty do what C11-C14 say.", "quantifier": "all directions, channel counts 2..11, histories of checked and unchecked insertions, query sets", "why_tests_cant": "an offset error shows only for particular sequences of splits, removals and merges of trees, and debug assertions on u16 are off in release builds", "anchors": ["src/output_set/index/tree.rs:100-302", "src/output_set/index/tree.rs:365-477", "src/output_set/index/tree.rs:503-617", "src/output_set/index.rs:273-612"]}
{"id": "C49", "title": "canonicalization with fixed capacities, u16 masks and scratch fields never fails a check and gives the same set", "statement": "Run canonicalize as the code does it: candidates in slots of one vector, bitmaps and data read and written separately, the fingerprint buffer and the temporary set kept from round to round, partitions in vectors of capacity 11, masks and part numbers in u16, with every index, shift, increment, subtraction, push, copy_from_slice and unwrap checked. For every set of at most 11 channels and every hash function no check fails and the result is that of the run on plain values: an isomorphic set, and the same one for isomorphic sets. More than 11 channels are refused by the capacity of the permutation.", "quantifier": "all well-formed sets of at most 11 channels, hash functions, with and without inversion", "why_tests_cant": "which capacities and shifts are reached depends on the partitions, hence on the set and on collisions of the hash function; stale contents of the buffer matter only after particular sequences of rounds", "anchors": ["src/output_set/canon.rs:8-42", "src/output_set/canon.rs:44-161", "src/output_set/canon.rs:163-441", "src/output_set.rs:213-266", "src/output_set.rs:627-639"]}
{"id": "C50", "title": "the state map with its fixed key types, stored locks and oneshot channels never fails a check", "statement": "Take the map as the code stores it: one BTreeMap per channel count with keys of exactly 2^(c-3) bytes, for 9, 10 and 11 channels as arrays of 32 byte blocks; locks that remember channels, bytes and shard; a oneshot channel per lock with its sender in the lock and its receivers in the map. For every sequence of get, set, lock, drop of a held lock and polls of a busy lock no index, capacity, assertion or unwrap fails (in particular send always finds a receiver and a waiting task never finds its sender gone); get returns what was set last or the default; a lock is given exactly if the set is not locked; waiting ends exactly after the drop; len and drain_packed give each set that was set once, with its bytes and its last state. Sets with more than 11 channels panic.", "quantifier": "all hash functions, thread counts, sequences of calls on well-formed sets of at most 11 channels", "why_tests_cant": "key arrays of 9 and more channels, hash collisions between shards and the order of send and removal are reached only in long searches", "anchors": ["src/search/states.rs:23-38", "src/search/states.rs:48-169", "src/search/states.rs:171-411"]}
{"id": "C51", "title": "the search on the checked sets, canonicalization, state map and pool never fails a check and takes pending tasks by priority", "statement": "Put the pieces together as the code does: search, improve, improve_huffman, improve_next and Edges on sets and canonicalization with fixed capacities (C45, C49), on the state map with stored locks and oneshot channels (C50), with explicit indices into targets, and on the pool with Schedules, levels and pending entries (C35). For every interleaving of tasks, cancelled tasks, senders and workers no index, capacity, assertion or unwrap fails; every execution is one of the plain model of the search with the same tasks, and neither blocks where the other goes on; hence the main loop returns the size of a smallest network and all stored bounds are valid. A task runs only after exactly one schedule call returned true; while a frame waits for a task, that task's cell has exactly one owner, so its pending entry is never discarded, and its level is one more; once no frame waits for it, its cell has no owner. A worker takes the pending task that is lexicographically smallest by (level, number of vectors, lower bound at its creation, number of the entry) among those added before it locked the queue that are neither started nor dropped.", "quantifier": "all hash functions, thread counts, start sets with at most 11 channels that arise from all inputs, limits, and all executions of any length", "why_tests_cant": "the checks depend on interleavings of tasks, cancellations and workers, and on searches far longer than a test", "anchors": ["src/search.rs:31-78", "src/search.rs:127-347", "src/search.rs:349-509", "src/search/states.rs:48-169", "src/thread_pool.rs:33-122", "src/thread_pool.rs:147-203"]}
{"id": "C52", "title": "the closures of the index stay within their shared bitmap, lists and capacities", "statement": "Run the index over its flat vectors with the closures as written: one scratch bitmap of 2^n bools per call, overwritten by unpack_into for every candidate, the assertions of from_bitmap, the checked access lookup[i ^ mask] in test_range, test_range_update and test_abstraction, the collected permutation with its capacity, the early returns, and subsumption with all its checks. For every index reached by any sequence of insertions of sets with 2 to 11 channels, both lookups, both insertions and for_each fail no check; the lookups return the best value over everything inserted, with a valid witness; insertion keeps and removes the right entries; and the result of a lookup does not depend on what the bitmap held before.", "quantifier": "all directions, channel counts from 2 to 11, insertion sequences of any length, queries, values, and initial contents of the bitmap", "why_tests_cant": "whether stale bits of an earlier candidate, a mask beyond the list or a full fixed-capacity vector can show depends on the tree shape and on the order of the candidates", "anchors": ["src/output_set/index.rs:87-270", "src/output_set/index.rs:298-604", "src/output_set/index/tree.rs:503-603"]}
{"id": "C53", "title": "from the checked search to the certificate no check fails and both checkers accept", "statement": "Put the back end together on the checked parts as well: dump_states drains the maps with their typed keys; prune and proof unpack with the assertion of all_values, compute abstractions into their fixed-size vectors, look up and insert in the flat index with its shared bitmap, prune extremal channels into a set made for channels() - 1, apply comparators with checked accesses, collect extremal channels in a vector of capacity 11, add to bounds with overflow checks and convert channel numbers to u8. Pruning any file of packed sets fails no check and keeps representatives; on any files whose index names groups of 2 to 11 channels the checked programs do whatever the unchecked ones do; and after any completed execution of the checked search on all inputs of n channels, a dump, any number of interrupted prune runs, a complete one and the generation succeed, and both checkers accept the file and print n and the size of a smallest network.", "quantifier": "all hash functions, thread counts, n from 3 to 11, executions of any length, files in the directory before, interruption points; fewer than 2^32 stored sets", "why_tests_cant": "the checks depend on which sets a search stores, on the shape of the index and on where runs are interrupted; for larger n a run takes days", "anchors": ["src/search.rs:80-107", "src/prune.rs:22-125", "src/proof.rs:23-187", "src/proof.rs:207-297"]}
{"id": "C54", "title": "the whole search as a program of worker threads never fails, never halts and ends with the right answer", "statement": "Take the whole search as a program: worker threads that run the loop of the pool (take tasks from the run queue, wait for the lock of the pending queue, sort the pending channel into it, collect garbage, start the first task that can be started, wait for a task for a while), the run queue, the headers and wakers of the tasks, and the search with all its checks, maps, locks and pending queue. For every number of workers and every interleaving of their steps, no step of a worker fails a check, at most one worker has the lock, a worker waits only for the lock and only while another worker has it, and some worker can always make a step. If every worker makes a step again and again unless it waits for the lock (where it may be overtaken any number of times), the search ends, and for n channels its answer is the size of a smallest sorting network.", "quantifier": "all hash functions, numbers of workers and shards, initial sets of up to 11 channels, limits, interleavings of any length", "why_tests_cant": "a lost task, a lost wake-up, a lock that is not released or a check that fails may need one particular interleaving of the steps of several threads in a run of days; and tests cannot show that every fair run ends", "anchors": ["src/thread_pool.rs:31-204", "src/search.rs:31-78", "src/search.rs:109-470", "src/search/states.rs:20-211"]}
{"id": "C55", "title": "from the worker threads to the printed number, on checked parts only", "statement": "Start the program for n channels on any number of worker threads and let the threads go on in any order. It ends, and whenever from then on the states are dumped, pruned (interrupted any number of times at any point and then completely) and turned into a certificate, no check fails, both checkers accept the certificate, and both print n and the size of a smallest sorting network on n channels.", "quantifier": "all hash functions, numbers of workers and shards, n from 3 to 11, fair interleavings, files in the directory before (no .pbin), interruption points; fewer than 2^32 stored sets", "why_tests_cant": "the whole pipeline takes days for the sizes of interest, each run shows one interleaving and one place of interruption, and a check that fails near the end is found only then", "anchors": ["src/thread_pool.rs:56-215", "src/search.rs:31-107", "src/prune.rs:22-125", "src/proof.rs:23-297", "checker/snocheck/src/Verified/Checker.hs:1-522"]}
{"id": "C56", "title": "the scope of the thread pool returns with the right result after every worker has ended, with nothing left over", "statement": "When the main task has its result, the scope drops the pool and joins the workers. A worker ends only after the pool was dropped and when no task but the finished main task is left anywhere: none in the run queue, with a worker, in a Schedule, and no future that refers to the search. When the scope returns, every worker has ended and the result is that of the main task, which without a limit is the optimum. No check fails on the way. If every thread goes on, all tasks that the search no longer needs are dropped, every worker ends and the scope returns.", "quantifier": "all hash functions, numbers of workers and shards, initial sets of up to 11 channels, limits, interleavings of any length", "why_tests_cant": "whether every left-over task is dropped and every worker ends depends on which tasks are pending, queued or being polled when the main task ends; a hang at the end of a run of days or a task that outlives the data it refers to needs one particular interleaving", "anchors": ["src/thread_pool.rs:124-217", "src/thread_pool.rs:192-214", "src/search.rs:46-78"]}
{"id": "C57", "title": "whether the pool may be used after it was dropped", "statement": "A worker uses the pool only while the pool exists: after scope has dropped the pool no worker calls spawn_delayed or add_pending. (This is false of the code: a task that the search no longer needs may still be polled when the main task ends and then spawn a task through its reference to the dropped pool. What holds is that only tasks other than the main task do so, and that nobody does after the scope has returned.)", "quantifier": "all hash functions, numbers of workers and shards, initial sets of up to 11 channels, limits, interleavings of any length", "why_tests_cant": "the use after the drop needs one particular interleaving of the last steps of the search and usually goes unnoticed, because the memory of the dropped pool is still there; the lifetimes are transmuted away, so the compiler does not find it", "anchors": ["src/thread_pool.rs:83-122", "src/thread_pool.rs:206-214", "src/search.rs:411-416", "src/search.rs:480-500"]}
{"id": "C58", "title": "which searches lead to a certificate", "statement": "Take the log of a search at any time. If the set of all values of n channels is logged with bound b >= 2, no other set with n channels has that bound, and no set with more channels is logged, then pruning and generating give a certificate that both checkers accept with n and b, and b is a lower bound. If no set of all values is of this kind, the generator panics. So a search that was stopped by a limit gives a certificate for the bound it has stored, unless another set of n channels has the same bound; a search with a prefix never gives one.", "quantifier": "all hash functions, schedules, numbers of shards, channel counts up to 11, limits, prefixes, stop times, interrupted prune runs", "why_tests_cant": "whether another set shares the bound of the set of all values when the search stops depends on schedule and hash values; tests of the pipeline only use complete searches", "anchors": ["src/proof.rs:22-73", "src/prune.rs:37-125", "src/search.rs:31-107", "src/bin/sortnetopt.rs:101-114"]}
{"id": "C59", "title": "from the call of search with its thread pool to the number that the checkers print", "statement": "Call search for all inputs of n channels with any number of workers. If every thread goes on, the scope returns k, the size of a smallest sorting network, no worker does anything from then on, and dumping, pruning and generating pass every check and give a certificate for which both checkers print n and k. With a prefix and a limit the scope returns a k that no completion of the prefix undercuts and that is the least unless it reached the limit. With a limit and no prefix, pruning passes every check, and if the set of all values is the only one with its bound both checkers print n and a number of at least k.", "quantifier": "all hash functions, numbers of workers and shards, channel counts up to 11, prefixes, limits, interleavings of any length, interrupted prune runs", "why_tests_cant": "a test sees one interleaving; the claim joins all phases of a computation that takes days for the sizes of interest", "anchors": ["src/bin/sortnetopt.rs:101-114", "src/search.rs:46-78", "src/thread_pool.rs:124-217", "src/search.rs:80-107", "src/prune.rs:37-125", "src/proof.rs:22-73", "checker/snocheck/src"]}
{"id": "C60", "title": "several prune and prune-all commands at the same time on one log", "statement": "Let several processes run prune and prune-all on one log, step by step in any order, each possibly killed at any time. A file that only one process is told to prune is at any time as it was or as a single prune-all leaves it, and that process does not panic in this call. If several processes prune the same file, it is as it was or complete whenever nobody is writing it; when all processes have ended, by themselves or by a panic, the files of those that ended by themselves are complete, and a further prune-all gives what a single prune-all would have given. Every run ends. The plain claim that a pruned file is never seen half written is false: two processes share the .tmp file, one empties it and the other renames it.", "quantifier": "all logs, numbers of processes, lists of calls, interleavings of any length, places where processes are killed", "why_tests_cant": "the order of open, create, write and rename of different processes is decided by the operating system; a test sees one order", "anchors": ["src/prune.rs:37-113", "src/prune.rs:115-125", "src/bin/sortnetopt.rs:116-124"]}
{"id": "C61", "title": "the gnp command passes every check and stops after the optimum", "statement": "With 1 to 11 channels the gnp command on the checked sets, the checked canonicalization and the flat index with its shared bitmap never reads or writes out of range, never overflows a vector of fixed capacity and never fails an assertion, in whatever order its hash sets are drained. It logs layers 1 to k + 1, where k is the least size of a sorting network: the layers before k are not empty, layer k has one set, and layer k + 1 is empty. With 0 channels or more than 11 it panics.", "quantifier": "all hash functions, all orders of all drains, all channel counts, any number of layers and of sets in a layer", "why_tests_cant": "layers have up to billions of sets; the order of a drain depends on the hash function; a test runs small channel counts only", "anchors": ["src/bin/sortnetopt.rs:136-186", "src/output_set/index.rs:298-612", "src/output_set.rs:82-89"]}
{"id": "C62", "title": "cut off certificates are rejected, and a stopped gen-proof or fix-proof does no harm", "statement": "If a certificate is accepted then no proper prefix of it is accepted, by either checker, also where the cut is between two witnesses of the last step so that everything left can be decoded; bytes after the end change nothing. If gen-proof is stopped at any time (or killed while it writes) no other file is changed, proof.bin is as before or a prefix of the certificate, and gen-proof started again does the same again. If fix-proof is stopped or panics, no other file is changed, an unfinished proof.bin is not accepted, fix-proof panics without changing anything as long as proof.bin exists, and does the same again once it is removed.", "quantifier": "all certificates within the field widths of the format, all cut positions, all added bytes, all logs, all moments at which the process stops", "why_tests_cant": "certificates have millions of steps and any byte position can be the last; a cut between two witnesses leaves a file without any syntax error", "anchors": ["src/proof.rs:23-73", "src/proof.rs:189-205", "src/fix.rs:13-83", "checker/snocheck/src/Decode.hs", "checker/snocheck/src/Main.hs"]}
{"id": "C63", "title": "a search killed while it writes its log leads to no wrong certificate", "statement": "Let a search be killed at any time while dump_states writes its log to an empty directory, so that every file is missing or is any prefix of the complete file, each independently of the others (every file has its own buffer). Then prune-all panics, or every certificate that gen-proof makes from the result is for a set of all values that the search logged, and if its bound is at least 2 both checkers accept it and the bound holds for all sorting networks. A group file that is empty or ends inside a set makes prune-all panic; a last line of index.txt that is cut makes it panic too.", "quantifier": "all hash functions, starts, limits, schedules and moments of the search, all combinations of prefixes of the files", "why_tests_cant": "the number of combinations of cut positions is astronomical, and whether buffers are flushed depends on sizes that no small test reaches", "anchors": ["src/search.rs:80-107", "src/prune.rs:14-35", "src/prune.rs:37-125", "src/proof.rs:23-73"]}
{"id": "C64", "title": "the drawing of an index is a forest with every edge once", "statement": "For every index that any sequence of insertions can build, dump_dot does not reach its unreachable! and writes, between the two fixed lines, exactly one line for every edge from a node to its child in a tree of the index; nodes that were freed do not appear, no node is the child of two nodes and no root is a child. Two lines are equal only if tree number, node and child are equal. The gnp command with the option to draw ends after the same layers as without, and writes one file for each layer, with different names, each the drawing of a forest.", "quantifier": "all directions, numbers of channels from 2 to 11, all sequences of insertions", "why_tests_cant": "the walk uses parent links that insertions with removals rewrite; a stale link shows only after particular sequences of removals", "anchors": ["src/output_set/index.rs:614-621", "src/output_set/index/tree.rs:479-501", "src/output_set/index/tree.rs:304-344", "src/bin/sortnetopt.rs:178-185"]}
{"id": "C65", "title": "the complemented partition size orders the candidates as intended", "statement": "Canonicalization with the score as the code stores it, (singleton_count, !max_partition_size) with the complement of a 64 bit word, gives for every set the same result (or the same panic) as with the order reversed on max_partition_size. The sizes compared never exceed MAX_CHANNELS, so the complement does not wrap. Hence the code as it stands returns a relabelling of its input, and equal results exactly for sets that are relabellings of each other.", "quantifier": "all sets, also those that make the code panic, all hash functions, with and without inversion", "why_tests_cant": "the complement decides only between candidates with equally many singletons and different largest parts; a wrong order still returns a relabelling of the input, so nothing visibly fails", "anchors": ["src/output_set/canon.rs:17-23", "src/output_set/canon.rs:40", "src/output_set/canon.rs:224-244"]}
{"id": "C66", "title": "the parallel iterators give the sequential result in every schedule", "statement": "A call of into_par_iter with filter or map and collect, divided in any way and worked on by any number of threads in any order, ends after at most 4 steps per item and never gets stuck. If no item panics, the results are those of the sequential loop in the same order and the progress bar has counted each item once; if some item panics, the call panics. Hence prune and prove_all have in every schedule exactly the outcome of their sequential versions, and what prune leaves out has a representative in what it writes. The certificate written by gen_proof is the same, byte by byte, for every order in which the HashMap of the sets gives its entries and for every schedule. From the log of a finished search, with prune-all stopped any number of times, every schedule of prune-all and gen-proof leads to one and the same certificate, and both checkers accept it with the optimum.", "quantifier": "all closures that only read, all vectors, all divisions and interleavings, all log files", "why_tests_cant": "the division of the work and the order of the threads change from run to run; a test sees a few of them", "anchors": ["src/prune.rs:79-109", "src/proof.rs:114-141", "src/proof.rs:22-73"]}
