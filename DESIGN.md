# A Rocq model of ByoC — design

(Written before the proofs; kept current. Section "Status" at the end is updated at each milestone.)

## 1. Shape of the model

* Every `BuildingBlock` implementation is modelled as a value of a record `Block K V`: a state type and
  the functions `capacity, size, contains, take, take_multiple, pop, push, flush`, each a total,
  computable Gallina function. A `&mut self` method returns the new state.
* Panics (`unwrap`, `expect`, `assert!`, index out of bounds, `usize` underflow, division by zero,
  explicit `panic!`) are the value `Panic` of `res A := Ok a | Panic`. After `Panic` there is no state.
* Wrappers/combinators (Batch, Exclusive, Inclusive, FlushStopper, Associative, Decorator, Profiler,
  Sequential, Dyn, socket client) are functions from `Block`s to `Block`s, so a theorem about them
  quantifies over every wrapped container.
* An architecture (any nesting) is an inductive type `Arch`, interpreted into a `Block` with its initial state.
* Values and keys are arbitrary types with a total preorder (`Ord`); keys also satisfy antisymmetry
  (`OrdEq`) since the code uses `==` and `cmp` on them interchangeably.
* `usize` is `nat` (unbounded): underflow is Panic. Overflow of additions past 2^64 is studied apart: Overflow.v runs
  every operation of Array, BTree and the nested sums on bounded integers, checked or wrapping, and C53 proves that they agree with `nat`
  whenever capacities and pushes are in range.
  The lock word and the hasher are modelled on `N` with explicit 64-bit masks, because those properties are about bits.
* Standard library functions with unspecified results are parameters with their documented contract,
  packaged in records with at least one proved instance: `sort_unstable_by` (any sorted permutation),
  `binary_search` (sound; complete on sorted input), hash functions (arbitrary function to N),
  bincode/lz4 (a pair of functions with `decode (encode x) = Some x`).
* Concurrency (lock, Sequential) is a small-step transition system over per-thread program counters,
  steps being the atomic operations of the source; theorems range over all interleavings.

## 2. Specification (`Spec.v`), independent of the model

`Laws B dup Inv ct` states the contract of `traits/building_block.rs` for a block in terms of an abstraction
`ct : state -> list (K*V)` read as a multiset (all statements up to `Permutation`):
size <= capacity; capacity constant; contains k <-> k is a key of ct; take removes exactly one pair;
take_multiple; push: out ++ ct' ~ ct ++ pushed; flush: out ++ ct' ~ ct. `PopLaw`: pop conserves and frees at least
the size asked for, or empties. `FlushLaw`: ct' = []. `dup=false` means the caller only pushes
distinct keys not already held, `dup=true` no discipline at all.
History theorems replace `ct` by what a caller observes: total pushed = total returned once flushed.

## 3. Properties: what is modelled, how proved

| id | model | proof |
|---|---|---|
| C01,C02 | Array, all methods, element size arbitrary, sort arbitrary | invariant `total = sum of sizes <= cap`, induction over histories |
| C03,C04 | Array.pop/push, find_cut_at_size | characterisation of the cut + sortedness |
| C05,C06 | all blocks via `Laws` | by leaf/combinator lemmas, composed by induction on `Arch` |
| C07..C10 | BTree with set, map and Rc identities (reference counts) | invariant: set = sorted image of map, ids distinct. Duplicate keys in one push: `_refuted` |
| C11 | Batch over any block, list of states | induction on the list of batches |
| C12,C13 | Exclusive over any two blocks | laws of both sides; refutations for get when the front cannot take the element |
| C14 | Inclusive with cells (value, updated, cloned) | positive part under no eviction from front; `_refuted` for the rest |
| C15 | FlushStopper | direct |
| C16,C17 | Associative over any block, arbitrary hash | induction over buckets; pop `_refuted` (index/size swapped), its exact behaviour in between; every pop that returns conserves (PAssocPop, by recursion on the tree) |
| C18 | ExclusiveHasher on N, 64-bit masks | bit lemmas |
| C19..C21 | `Arch` | induction on `Arch`, then on the history |
| C22..C25 | Decorator with an arbitrary factory; Fifo, Lru, Lrfu cells | invariants on counters |
| C26 | Profiler with counters | simulation |
| C27,C28 | RWLock word as N, steps = atomic ops, weak CAS may fail spuriously | inductive invariant over all interleavings; `_refuted` for unlock with spurious failure and for poisoning; Spur.v: executions as functions of time with any spurious failures, for which the state is exact if and only if no first exchange of an exclusive unlock fails spuriously |
| C29 | Sequential calls over lock+SharedPtr steps | `_refuted` (guard dropped at once), partial for push/get_mut |
| C30..C32 | reference counting of SharedPtr, FileStream, DynConcurrent | invariant count = live handles; leak `_refuted` |
| C33 | KMin | invariant over pushes |
| C34 | log2, chunk_size | induction / N.log2 lemmas |
| C35,C36 | VecStream and IOVec at byte level | list lemmas |
| C37,C38 | ByteStream over IOVecs | laws; flush/take_multiple `_refuted` |
| C39,C40,C48 | Compressed over a lossless codec | laws; `_refuted` for duplicates |
| C41,C42,C49 | Socket request/response, server loop | simulation; reconnect bound; desync `_refuted` |
| C43 | configuration trees (toml tables already parsed) | induction on trees; `_refuted` for is_concurrent |
| C44,C45 | find_cut_at_size | induction; pop(0) `_refuted` |
| C46 | get/get_mut as "obtain guard, apply f, drop guard" | per block |
| C47 | Dyn wrapper | simulation |
| C50 | Guards: opening and dropping a guard are two steps, with calls in between | proved for Array; exact behaviour of BTree and Compressed for all histories; `_refuted` for BTree, Compressed, ByteStream |
| C51 | Sim: the answers of a container to every sequence of calls; replacing components by interchangeable ones | congruence of every combinator for the equality of answers, and of its getters (PSimGet.v); type-erased take_multiple `_refuted` |
| C52 | Builder: builder expressions, as_config as toml values, containers built from both | acceptance by induction on builders; behaviour by the congruences of C51; masks and remainders; `_refuted` for decorators, Inclusive, other numbers of sets, layers, byte streams |
| C53 | Overflow: Array, BTree and nested sums with every usize operation explicit, over checked and wrapping arithmetic | equality with the model on `nat` by induction over histories; exact panic condition; wrap-around `_refuted` |
| C54 | Linear: threads, clones, the locking scripts of SeqConc, calls on the wrapped container that read at their start and write at their end | invariant over all interleavings: exclusion (C29), replay of effects, per-thread matching of effects and returns; Stack.v refines lock and unlock into the atomic operations of Lock.v (spurious failures, panics and poison included), every step of it simulated by a step of Crash.v or by none (PStack.v) |
| C55 | ProfConc: threads on clones of a Profiler, borrowing of the counters, readings of sizes, calls of the wrapped container as single steps | invariant: counters plus pending additions = sum over calls; unique holder of the counters; `_refuted` for panics, lost pairs, poisoning, sizes |
| C56 | Clones: handles on containers, each with the parts Concurrent::clone copies; worlds of containers and handles; Concurrent::clone, Clone::clone and calls as events | what is seen does not depend on the handle's own part (induction on the way Concurrent is implemented); invariant over histories; `_refuted` for Fifo's order |
| C57 | Nest: trees of containers with Sequentials anywhere; threads whose calls follow the locking scripts of every Sequential on the way to the storage; locks, borrows, panics on contention | invariant: what a thread holds and has still to do are balanced, holders exclude each other; deadlock: a thread waiting for the deepest lock can go on (well-founded induction); `_refuted` for Stream and for panics |
| C58 | AssocConc: each method of Associative as a program of calls on single sets; threads interleave between the calls, the observer keeps the states of the sets at every moment | the programs run alone are the methods of Associative.v (C58_alone); accounts: what a method carries is balanced at every point of its program (inductive predicate); moments: every finished method followed its program with answers given by the sets at noted moments; `_refuted` for size mixing moments; get and get_mut (PAssocGet.v): the log of what was written and overwritten joins the accounts, a write seen as taking the old pair |
| C59 | LrfuF32: the Lrfu cell computed in binary32 (Coq's SpecFloat at 24/128), differences of times rounded to f32, exponent test, the two readings of a comparison | signs through rounding, exact specification of the rounding of integers (nearest, ties to even; monotone), comparison of numbers with full mantissas by value; counterexamples by computation |
| C60 | Lazy: the flush iterators as values pulled with next, the method flush of each container returning one; a user who interleaves calls and pulls | relation between states equal but for the count of pulls, preserved by every call (Sim); each iterator is good for a list, next removes its head; hence the same answers as with eager flushes |
| C61 | nothing new: the trees of Arch; specification Repr.v (same policy, answers alike, conversations whose pairs can be told apart) | bisimulation up to permutation: the eviction of a leaf is a function of the set of pairs it holds (sorted lists of pairwise inequivalent values are unique), closed under each container (Alike.v); take and take_multiple remove the same keys component by component (Minus.v); get and get_mut keep the relation (GetAlike.v), a touched decoration being newer than all others |
| C62 | nothing new: the trees of Arch; the client and the memory it should see are in the specification WriteBack.v | invariant: the cached pairs laid over the store are the memory; each call moves pairs between the two sides (laws of C19, get of C46) |
| C63 | nothing new: the trees of Arch with gets; the ideal Lru and Fifo caches and the read-through client are in the specification Levels.v | invariant: the levels, front to back, hold a prefix of the recency list, each full before the next one has anything; a hit in the back swaps the pair with the oldest of the front, level by level |
| C64 | Moving.v: Array and BTree again, every comparison dated by the number of clock readings, over any sort that permutes and any search that only finds what compared equal | Array: the contract does not depend on the comparisons (Laws, then Calls.v histories); order by adjacent comparisons when scores are apart. BTree: the two indexes stay in agreement whatever is answered; a cell that never equals itself cannot be removed from the set, so its Rc stays shared and take panics. PStill.v: with an order that does not move, Moving.v computes what Array.v and BTree.v compute |
| C65 | Stamps.v: the atomic counter of w bits, calls to Counter::now split into begin, fetch_add and return, for any number of threads; Fifo and Lru over counters of w bits | Invariant over all interleavings (values distinct, below the count of additions, ordered with the moments); relation between the bounded and the unbounded decorator over any container; refutations at the wrap by induction on the number of readings, for every w |
| C66 | Crash.v: the threads of Linear.v, and what follows a panic: the clone is dropped and the lock poisoned, or the panic is caught, or an owner of a clone panics outside any call; calls refused by a poisoned lock; GuardCrash.v: the same over the threads of GuardConc.v, which may also panic while they have a guard | The invariants of C54 and C70 are kept by the new steps; a measure of the work left and a case analysis of who holds the lock for progress; refutations by explicit executions over any container, and an invariant for the thread that waits for ever |
| C67 | Wait.v: the steps of Lock.v labelled with the client that takes them, executions as functions of time, fairness, the pause between attempts | Ranking functions on the program counter under a constant word (undisturbed client), their sum over clients (free lock), lexicographic with the number of holders (fair infinite executions); starvation by an explicit periodic execution; PSpur.v: the same rankings with spurious failures, each of which adds a bounded number of steps |
| C68 | Times.v: containers with a clock, arbitrary durations, the 64-bit counters (count, time, size) of a Profiler, its flush iterators, Profilers inside Profilers | One call gains what a separate table of the documentation says; induction over runs keeps the sums modulo 2^64 and relates the run of the Profiler to a run of the wrapped container; disjointness of the calls bounds the total by the clock; nesting by applying the theorem to the inner run |
| C69 | Buffers.v: Socket.v with bounded buffers both ways, writes and reads of any number of bytes that block | An invariant says which bytes of the request and response are where; a measure counts the transfers left; every blocked state of a call has an enabled transfer; simulation by Socket.v for C42; stopping: positive extent by well-foundedness, `_refuted` by a state in which the thread stays for ever |
| C70 | GuardConc.v: Linear.v with guards: lookup, every read and write through the guard, unlock and write-back as separate steps, for Array (pointer into the vector), BTree (pair taken out) and Compressed (copy written back); InPlace.v: the guards of every other container, through every layer | `_partial` (Arrays behind Batch, Associative, FlushStopper, Fifo; calls that remove nothing): the container is the reference of the calls that took effect with the writes of the one guard of get_mut on top; a count over the sequential reference gives the increments; refutations by schedules run by an executable scheduler proved sound |
| C71 | Accept.v: the thread around the loop of Socket.v: bind, accept for the first client, accept again after a lost connection, with the errors of each | Simulation both ways with Socket.v; stopping: well-founded positive extent, and the converse by a blocked state the thread cannot leave: an equivalence for every reachable state; `_refuted` by the states that wait in accept or read without timeout |
| C72 | Backs.v: the guards of the get of Compressed, ByteStream, Sequential (with the number of guards its own thread keeps) and Exclusive, kept alive while Inclusive writes back; the pointers and BTree are in PInclusive.v | General theorems on the calls of the back (what a container that shows copies answers; an equation with the container without the lock), instantiated by C37/C39; `_refuted` by runs |
| C73 | Backlog.v: any number of clients around Accept.v: the connections queued by the operating system between bind and accept, those reset when the listener is dropped, those refused | An invariant accounting for every attempt to connect; the thread is simulated by Accept.v; refutation by an explicit execution |
| C74 | Remote.v: the threads of Linear.v as server threads, with the requests and responses of their clients on the way, clients that connect, call and leave | An invariant ties every request, call and answer together; the order is that of C54; permutations for the calls answered; the served call by running its script; `_refuted` by an invariant of all executions from a reachable state |
| C75 | Quota.v: an environment, streams of at most so many bytes, whose write stores what there is room for and whose resize beyond the quota fails; the code over it is IOVec.v and ByteStream.v unchanged | Enough storage: simulation by ByteStream over VecStream (C37) for every history; full streams: an invariant (whole chunks, then fewer bytes than a chunk, only at the quota) kept by push and, when whole, by take; the bytes left by take exactly, and by get_mut (PQuotaMut.v: the reader of iter_mut over a stream that ends inside a chunk, and the loop of write_all under the quota); `_refuted` as instances of the exact law of push, and by a run |
| C76 | Compressed.v over the streams of Quota.v (the write of the frame is now a write_all, short writes included); CompFull.v: the vector a call hands to write, to speak of the state a panic leaves | Every call exactly, from what write does over both kinds of streams; histories by induction; after a failed call, cases on where the frame is cut (nothing, part of the vector, all of it); a pair of codecs meeting the hypotheses; `_refuted` by a run |
| C77 | Faults.v: an environment, streams whose handles carry a list of what befalls their next operations (works, fails, stores only so many bytes) and another for their clones; the code over it is Compressed.v unchanged | What write does under faults (induction on the write loop); then each call against the same call without faults; histories by induction, with C39 and C40; after a panic, cases on where the frame is cut, as in C76; `_refuted` by runs |
| C78 | StreamFaults.v: the faulty streams of Faults.v, lists of faults per stream of a ByteStream, its clones and theirs, and for the streams a call creates; the code over them is IOVec.v and ByteStream.v unchanged | Readers: the iterator over a faulty handle panics or steps as over a calm one (induction on the fuel); each call against the same call without faults, on the calm image of the state; push and pop by induction on what is left to place or remove; histories by an invariant on the calm image; flush (PStreamFlush.v) by the readers; `_refuted` by runs |

## 4. What is modelled, file by file, and what is not

| /repo/src | Coq | modelled | left out or simplified |
|---|---|---|---|
| traits/, utils/cut (find_cut_at_size), array/ | Block, Cut, Array, Get | every method of BuildingBlock, Get, GetMut | capacity of `Vec`s, iterator laziness |
| btree/ | BTree, Get | set and map with the identities of the shared `Rc` cells; every method | raw pointers as identities |
| batch/, exclusive/, flush_stopper/, associative/ | Batch, Exclusive, Wrappers, Associative | every method, over an arbitrary wrapped block | lazily evaluated flush iterators are run to their end; Lazy.v has them as they are and C60 shows it makes no difference |
| inclusive/ | Inclusive | cells with their flags, every method, get and get_mut with the guard of `downgrade` alive during the push, over every kind of back container (C72) | |
| decorator/ | Wrappers, Decorations, LrfuF32, Moving (Array and BTree under a comparison that reads a clock) | Decorator over any factory, Fifo, Lru, Lrfu (over exact rationals in Decorations, over binary32 in LrfuF32) | the Fifo counter does not wrap at 2^64 (but in Stamps, C65) |
| profiler/ | Wrappers, Profiled, ProfConc, Times | counters and sizes, clones sharing them, by several threads; elapsed times, 64-bit wrapping, nested Profilers | the clock is a sequence of readings |
| sequential/, utils/lock.rs, utils/shared_ptr.rs, */concurrent.rs | Lock, SeqConc, RefCount, Linear, GuardConc, InPlace, Clones, Nest, AssocConc, Crash, GuardCrash, Stack, Wait, Spur | atomic steps of the lock (weak exchanges may fail spuriously), scripts of the calls, reference counts; threads with arguments and answers | sequential consistency (every operation on the word is SeqCst but the failure ordering) |
| objsafe/ | Wrappers, Config, RefCount | forwarding, flags, drop of DynConcurrent | vtables |
| stream/ | Stream, IOVec, ByteStream, Quota, Faults, StreamFaults | VecStream, FileStream, chunks, IOVec, ByteStream; 8192-byte BufReader and BufWriter, with short writes; streams with a quota; streams whose operations fail | POSIX file semantics assumed; states left by a panic not under failing operations; successive small writes of one serialisation are one write |
| compression/ | Compressed, CompFull, Faults | every method; over streams with a quota or with failing operations, with the states failed calls leave | lz4 is any lossless codec (`Lz`), bincode any vector codec (`VCodec`); the writes of the encoder (header, blocks, end mark) are one write_all, so a failure may stop it at any byte |
| socket/ | Bincode, Socket, Buffers, Accept, Backlog, Remote | wire format, client, server thread loop, reconnection, errors; in Buffers, bounded socket buffers and writes and reads cut anywhere; in Accept, binding and the waits in accept() | TCP is an ordered byte stream with arbitrary fragmentation; in Socket a request is one write and buffers never fill, and in Socket and Buffers a reconnection takes no time (Accept has the wait); in Backlog, the other clients that connect, whose connections the operating system queues, resets or refuses; in Remote, several servers over clones of one container, by messages instead of bytes; serde's `Custom` errors are told by their kind only |
| config/, */config.rs | Config, Builder | from parsed toml values to containers and flags; as_config | parsing and printing toml text; files shared by several containers; servers that cannot be reached |
| builder/, */builder.rs | Builder | builder expressions, add_layer, what they build | Inclusive and Lrfu builders are not built (Inclusive.v, PLrfu.v have the containers) |
| utils/kmin.rs, utils/math.rs, associative/multiset_hasher.rs, utils/timestamp.rs | KMin, Hasher, Decorations, Stamps | all; a clock is an arbitrary sequence of readings, Counter and its width in Stamps | wall-clock time |

Across the model: `usize` is `nat` (subtractions panic below 0; C53 justifies ignoring overflows of additions), memory safety of the
raw pointers inside guards and Rust's lifetimes are not modelled, and a guard is dropped before the next call on
the container (except in Inclusive, where `downgrade` keeps one, and in Guards.v, which studies the other case).

## 5. Trusted base

* Coq 8.16.1: its kernel, and the `vm_compute` conversion used in the concrete witnesses and refutations.
* Axioms: `Print Assumptions` says "Closed under the global context" for every theorem named in MANIFEST.json.
  (The checker also reports the seven constants `Coq.ssr.ssrunder.Under_rel.*` of Coq's own library: they are
  opaque module fields of a file that gets loaded, and no theorem depends on them.)
* No axiom, parameter, functor, module type or admitted proof of ours.  Section variables are generalised:
  they appear as quantified arguments in the theorems (sort, binary search, hash, codec, clock, wrapped block).
* The reading of the Rust code in section 4, definition by definition (each cites its file and lines).
* Records standing for external code carry their contract as fields (`Sorter`, `BSearch`, `Lz`, `VCodec`, `codec`)
  and each has at least one instance in the development, so that the theorems over them are not vacuous.

## 6. How wrong programs are caught

`seeded/LOG.jsonl` records every edit tried on the model, in a scratch copy: the definition, the edit, the claims it
breaks, the theorems whose proof fails (or that rest on a lemma whose proof fails) and what was tightened.

## 7. Status

See MANIFEST.json. "partial" claims are those whose English statement is false of the code (a `_refuted` theorem
exhibits a reachable state) or which is proved under a restriction; the theorems without suffix in the same claim say
exactly when it holds.
