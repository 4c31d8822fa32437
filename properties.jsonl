{"id": "C01", "title": "Array never loses, duplicates or invents an element", "statement": "For an Array built with any capacity and any element size function, and for any finite sequence of push, pop, take, take_multiple and flush calls, no call panics and the multiset of all pairs ever pushed equals the multiset of pairs currently held plus all pairs handed back by push, pop, take, take_multiple and flush. In particular a history that ends with flush hands back exactly what was pushed.", "quantifier": "every capacity, element_size function, key/value type with an order, and finite sequence of operations with arbitrary arguments (duplicate keys included)", "why_tests_cant": "Loss or duplication shows up only for particular interplays of sizes, ties and overflow branches (four push branches, three pop branches); a test samples a few of them.", "anchors": ["src/array/building_block.rs:push", "src/array/building_block.rs:pop", "src/array/building_block.rs:take", "src/array/building_block.rs:take_multiple", "src/array/building_block.rs:flush"]}
{"id": "C02", "title": "Array size() is exact and never above capacity()", "statement": "After any history, Array::size() equals the sum of the element sizes of the pairs it holds, is at most capacity(), capacity() never changes, and no internal subtraction underflows.", "quantifier": "every element_size function (zero sizes included), capacity and operation history", "why_tests_cant": "Size accounting is an invariant over unbounded histories; a drift of one unit may take a rare branch to show.", "anchors": ["src/array/building_block.rs:size", "src/array/array.rs:Array", "src/array/building_block.rs:push", "src/array/building_block.rs:pop"]}
{"id": "C03", "title": "Array pop evicts greatest values first, enough of them and no more than needed", "statement": "Array::pop(n) on a container of size > n returns elements none of which has a value smaller than a kept element, whose sizes total at least n, and the total without the smallest evicted one is below n (so the cut is minimal); if size <= n it returns everything and the container is empty.", "quantifier": "every content, element size function and n", "why_tests_cant": "Ordering and minimality claims quantify over every content and tie pattern.", "anchors": ["src/array/building_block.rs:pop", "src/utils/size.rs:find_cut_at_size"]}
{"id": "C04", "title": "Array push overflow policy", "statement": "Array::push(v): if v fits in the room, everything is stored and nothing returned; if v is exactly capacity large, v replaces the contents which are returned; if v is larger than capacity, the old contents are all returned together with the greatest elements of v, the rest of v being stored; otherwise all of v is stored and only old elements are returned, none with a value smaller than an old element kept.", "quantifier": "every content, pushed vector, capacity and element size function", "why_tests_cant": "Case analysis over all boundary relations of size, room and capacity.", "anchors": ["src/array/building_block.rs:push"]}
{"id": "C05", "title": "Lookups agree: contains, take, get", "statement": "For Array, BTree, Batch, Exclusive, FlushStopper, Decorator, Profiler, Associative, Sequential (one thread) and any nesting of them: contains(k) is true exactly when a pair with key k is held; take(k) returns a pair with key k exactly in that case and removes that one pair and nothing else; after take(k) contains(k) is false if keys were unique.", "quantifier": "every container nesting, state reachable by a history, and key", "why_tests_cant": "Coherence must hold at every reachable state of every nesting.", "anchors": ["src/traits/building_block.rs:contains", "src/traits/building_block.rs:take", "src/batch/building_block.rs", "src/exclusive/building_block.rs", "src/associative/building_block.rs"]}
{"id": "C06", "title": "take_multiple returns all matching elements and only them", "statement": "For every container of C05 holding unique keys, take_multiple(keys) returns exactly one pair for each distinct requested key held, leaves every other pair untouched, and removes from `keys` only keys that it returned (so forwarding the remaining keys to another container misses nothing).", "quantifier": "every state, key vector (any order, duplicates) and nesting", "why_tests_cant": "Depends on order and duplicates of requested keys and on how leftovers are forwarded between levels.", "anchors": ["src/traits/building_block.rs:take_multiple", "src/array/building_block.rs:take_multiple", "src/exclusive/building_block.rs:take_multiple", "src/batch/building_block.rs:take_multiple", "src/associative/building_block.rs:take_multiple"]}
{"id": "C07", "title": "BTree never loses an element when keys in one push are distinct", "statement": "For a BTree and any history in which each pushed vector has pairwise distinct keys, no call panics and all pairs pushed equal the pairs held plus the pairs handed back. Without the distinctness proviso the claim must be checked too: pushing a vector with a repeated key must not lose elements, corrupt size() or panic later.", "quantifier": "every capacity, element_size function, and history", "why_tests_cant": "Two linked indexes and reference counts have to stay in sync over all histories.", "anchors": ["src/btree/building_block.rs:push", "src/btree/building_block.rs:pop", "src/btree/building_block.rs:take", "src/btree/btree.rs:insert_values_unchecked", "src/btree/btree.rs:as_value"]}
{"id": "C08", "title": "BTree size() is exact, keys are unique, indexes agree", "statement": "After any history of distinct-key pushes and any other calls, a BTree holds at most one pair per key, size() is the sum of its element sizes and at most capacity(), and no unwrap or reference count assertion fails.", "quantifier": "every history with distinct keys per push", "why_tests_cant": "Invariant over unbounded histories.", "anchors": ["src/btree/building_block.rs", "src/btree/btree.rs:BTree"]}
{"id": "C09", "title": "BTree pop evicts the greatest values, ties broken by greatest key, minimally", "statement": "BTree::pop(n) with size > n returns the top elements in the order (value, key): every evicted element is above every kept one, the evicted sizes total at least n and the total without the smallest evicted is below n.", "quantifier": "every content and n", "why_tests_cant": "Quantifies over all contents and tie patterns.", "anchors": ["src/btree/building_block.rs:pop", "src/utils/size.rs:find_cut_at_size"]}
{"id": "C10", "title": "BTree push replaces redundant keys", "statement": "After BTree::push(v) with distinct keys and total size below capacity, every pair of v is held, and every previously held pair whose key occurs in v has been handed back.", "quantifier": "every content and pushed vector with distinct keys and total size below capacity", "why_tests_cant": "All overlaps of old and new keys, combined with evictions.", "anchors": ["src/btree/building_block.rs:push"]}
{"id": "C11", "title": "Batch behaves as one container", "statement": "A Batch of any number of lawful containers conserves elements over any history, has capacity and size equal to the sums over its batches, pop(n) frees at least n or empties it, and push hands back only what no batch could keep.", "quantifier": "every number of batches, contained containers and history", "why_tests_cant": "Arbitrary number of batches and rotations of the batch list.", "anchors": ["src/batch/batch.rs", "src/batch/building_block.rs"]}
{"id": "C12", "title": "Exclusive keeps each key on one side and conserves elements", "statement": "An Exclusive over any two lawful containers conserves elements over any history; if pushed keys are not already held, no key is ever held in both sides; pop empties the back before taking from the front and frees at least n or empties both.", "quantifier": "every pair of containers and history", "why_tests_cant": "Interaction of two stateful containers.", "anchors": ["src/exclusive/building_block.rs"]}
{"id": "C13", "title": "Exclusive get promotes without loss", "statement": "Exclusive::get(k)/get_mut(k) on a held key returns its value and leaves the total contents unchanged, moving the pair to the front when it was in the back; on an absent key returns None and changes nothing; it does not panic.", "quantifier": "every state, key and pair of containers", "why_tests_cant": "Depends on fullness of both sides and element sizes.", "anchors": ["src/exclusive/exclusive.rs:downgrade", "src/exclusive/get.rs"]}
{"id": "C14", "title": "Inclusive returns the latest value and never panics", "statement": "For an Inclusive cache, after any history of push, get, get_mut with writes, take, take_multiple, pop and flush, taking a held key returns the last value written to it and no call panics or loses an element.", "quantifier": "every history and front/back capacities with front <= back", "why_tests_cant": "Copies are kept in two levels with flags; coherence depends on eviction history.", "anchors": ["src/inclusive/building_block.rs", "src/inclusive/inclusive.rs", "src/inclusive/get.rs"]}
{"id": "C15", "title": "FlushStopper keeps contents across flush and is transparent otherwise", "statement": "flush() on a FlushStopper returns nothing and changes nothing; every other call behaves exactly as on the wrapped container. Over an Exclusive with a stopped back, flush() moves the front's elements to the back and returns only what overflows.", "quantifier": "every wrapped container, state and call", "why_tests_cant": "Universally quantified over wrapped containers.", "anchors": ["src/flush_stopper/building_block.rs", "src/exclusive/building_block.rs:flush"]}
{"id": "C16", "title": "Associative places each key in exactly one set and conserves elements", "statement": "An Associative with at least one set stores and looks up each key only in set hash(key) mod n; push, take, take_multiple and flush conserve elements over any history; capacity and size are sums over sets.", "quantifier": "every hash function, number of sets >= 1, and history without pop", "why_tests_cant": "For every hash function and key set.", "anchors": ["src/associative/associative.rs:set", "src/associative/building_block.rs"]}
{"id": "C17", "title": "Associative pop frees the requested space", "statement": "Associative::pop(n) frees at least n or empties the container, conserves elements and does not panic.", "quantifier": "every state and n", "why_tests_cant": "Depends on the size profile over all sets.", "anchors": ["src/associative/building_block.rs:pop"]}
{"id": "C18", "title": "Nested ExclusiveHashers use disjoint bits", "statement": "In a chain of hashers built with next(), the set index at each level depends only on a bit range of the key hash disjoint from those of all other levels, the raw value ranges below a power of two greater than the number of sets, and next() fails exactly when the 64 bits are exhausted.", "quantifier": "every chain of set counts and every hash value", "why_tests_cant": "All 2^64 hash values and all chains.", "anchors": ["src/associative/multiset_hasher.rs:ExclusiveHasher"]}
{"id": "C19", "title": "The container laws hold for every nesting", "statement": "For every container architecture obtained by nesting Array, BTree, Batch, Exclusive, FlushStopper, Decorator, Profiler, Sequential (one thread), Dyn and Associative, in any depth: push, take, take_multiple and flush conserve elements and do not panic under the caller discipline of its leaves (pushed keys distinct and not held if a BTree occurs inside, none otherwise); pop too if no Associative occurs inside. (Exception found: a Profiler directly or indirectly around a Dyn miscounts and panics on take_multiple with repeated keys, because Dyn leaves the caller's keys in place.)", "quantifier": "every architecture tree (unbounded depth and width), every history", "why_tests_cant": "Unboundedly many architectures.", "anchors": ["src/traits/building_block.rs", "src/builder/mod.rs"]}
{"id": "C20", "title": "End-to-end conservation of any architecture ended by flush", "statement": "For every architecture without FlushStopper, any history followed by flush hands back, over its whole life, exactly the multiset of pairs pushed, and afterwards contains(k) is false for all k and size() is 0.", "quantifier": "every architecture tree and history", "why_tests_cant": "Unbounded trees and histories.", "anchors": ["src/traits/building_block.rs:flush"]}
{"id": "C21", "title": "size() <= capacity() always, for any architecture", "statement": "At every point of every history of every architecture of C19, size() <= capacity() and capacity() is constant.", "quantifier": "every architecture tree and history", "why_tests_cant": "Unbounded trees and histories.", "anchors": ["src/traits/building_block.rs:capacity", "src/traits/building_block.rs:size"]}
{"id": "C22", "title": "Fifo decorator evicts in insertion order", "statement": "With a Fifo-decorated Array or BTree, pop evicts elements pushed earliest: every evicted element was wrapped before every kept one, whatever their values, for every history including get and get_mut.", "quantifier": "every history of pushes, gets and pops", "why_tests_cant": "Order must hold for all histories and values.", "anchors": ["src/decorator/fifo.rs", "src/decorator/building_block.rs"]}
{"id": "C23", "title": "Lru decorator evicts the least recently used", "statement": "With an Lru-decorated Array and a strictly increasing clock, pop evicts elements whose last access (push, get or get_mut) is older than that of every kept element.", "quantifier": "every history of pushes, accesses and pops", "why_tests_cant": "Order must hold for all access histories.", "anchors": ["src/decorator/lru.rs", "src/utils/timestamp.rs"]}
{"id": "C24", "title": "Lrfu comparison is a total order", "statement": "The comparison used by Lrfu-decorated values is a total order at a given time, as required by the sort it is used in, and the stored score after accesses at given times follows the documented decayed sum.", "quantifier": "every pair/triple of cells, clock and exponent", "why_tests_cant": "Order laws quantify over all triples and clock readings.", "anchors": ["src/decorator/lrfu.rs"]}
{"id": "C25", "title": "Decorator is transparent to values", "statement": "Through a Decorator, every pair handed back carries exactly the key and value pushed (or last written through get_mut), whatever the decoration; contains, size, capacity are those of the wrapped container.", "quantifier": "every decoration factory, wrapped container and history", "why_tests_cant": "Universally quantified over wrapped containers and histories.", "anchors": ["src/decorator/building_block.rs", "src/decorator/decorator.rs"]}
{"id": "C26", "title": "Profiler is transparent and its counters are exact", "statement": "A Profiler returns exactly what the wrapped container would for every call, and its counters equal, after any history, the number of calls / elements / hits / misses defined in its documentation; clones share counters; reset zeroes them.", "quantifier": "every wrapped container and history", "why_tests_cant": "Exact counts over unbounded histories.", "anchors": ["src/profiler/profiler.rs", "src/profiler/building_block.rs", "src/profiler/stats.rs"]}
{"id": "C27", "title": "RWLock excludes writers from everyone", "statement": "For any number of threads and any interleaving of the atomic steps of lock, try_lock, lock_mut, try_lock_mut and unlock by well-bracketed users, at no time does one thread hold the lock exclusively while another holds it in any mode.", "quantifier": "every interleaving, number of threads (below 2^62 readers)", "why_tests_cant": "Interleavings cannot be enumerated by tests.", "anchors": ["src/utils/lock.rs"]}
{"id": "C28", "title": "RWLock unlock releases", "statement": "A call to unlock by a holder that completes leaves the lock state with exactly one holder fewer, so that a lock not held by anyone can be acquired; a poisoned lock stays poisoned.", "quantifier": "every interleaving, including spurious failures of weak compare-exchange and panics", "why_tests_cant": "Spurious failures do not occur on the x86 hardware where tests run.", "anchors": ["src/utils/lock.rs:unlock", "src/utils/lock.rs:Drop"]}
{"id": "C29", "title": "Sequential serialises all calls from clones", "statement": "Calls on clones of a Sequential container from several threads are serialised: no two calls on the wrapped container overlap and none panics because of contention; a get guard prevents any modification while alive.", "quantifier": "every interleaving of calls by any number of clones", "why_tests_cant": "Interleavings.", "anchors": ["src/sequential/building_block.rs", "src/sequential/get.rs", "src/utils/shared_ptr.rs"]}
{"id": "C30", "title": "SharedPtr frees once, when the last owner is dropped", "statement": "The value behind a SharedPtr lives as long as any clone does and is dropped exactly once after the last clone is dropped.", "quantifier": "every history of clone and drop", "why_tests_cant": "Unbounded histories.", "anchors": ["src/utils/shared_ptr.rs"]}
{"id": "C31", "title": "File streams delete their file exactly when the last handle goes", "statement": "The backing file of a temporary FileStream is removed exactly when its last clone is dropped, never before and never for a stream marked as not to be deleted.", "quantifier": "every history of clone and drop of handles", "why_tests_cant": "Unbounded histories and orders of drops.", "anchors": ["src/stream/file_stream.rs"]}
{"id": "C32", "title": "DynConcurrent frees its container exactly when the last clone goes", "statement": "The container behind clones of a DynConcurrent is never freed while a clone is alive and is freed once the last clone is dropped.", "quantifier": "every history of clone and drop", "why_tests_cant": "Leaks are invisible to functional tests.", "anchors": ["src/objsafe/concurrent.rs"]}
{"id": "C33", "title": "KMin keeps the greatest items totalling the requested size", "statement": "After pushing any sequence of distinct items with sizes, KMin holds a set of the greatest items pushed: no dropped item is greater than a kept one, and the kept sizes total at least the requested size or nothing has been dropped.", "quantifier": "every sequence of items and sizes", "why_tests_cant": "All orders and sizes.", "anchors": ["src/utils/kmin.rs"]}
{"id": "C34", "title": "Chunk size is the right power of two", "statement": "For every serialized size s >= 1, the chunk chosen has size 2^i >= s and 2^i < 2s, and the slot index is i; log2 is the exact floor logarithm.", "quantifier": "every s in the usize range", "why_tests_cant": "All integers.", "anchors": ["src/utils/math.rs:log2", "src/stream/stream.rs:chunk_size"]}
{"id": "C35", "title": "Vector streams behave as files", "statement": "For a VecStream: writing bytes then seeking back and reading returns those bytes; bytes outside the written range are unchanged; seek positions are clamped to the stream; clones share contents but not positions; resize truncates or zero-extends.", "quantifier": "every content, position, write and seek", "why_tests_cant": "All byte contents and offsets.", "anchors": ["src/stream/vec_stream.rs"]}
{"id": "C36", "title": "A chunked IOVec is a vector of values", "statement": "On a stream with working reads and writes, append, len, get, swap_remove and iteration of an IOVec behave as those of a vector of values (append adding its argument from the last element to the first), provided each serialized value fits the chunk size and serialization round-trips.", "quantifier": "every vector contents, index and chunk size", "why_tests_cant": "All contents and byte layouts.", "anchors": ["src/stream/io_vec.rs"]}
{"id": "C37", "title": "ByteStream stores and finds what it accepts", "statement": "For a ByteStream over working streams: push stores each element that fits and returns each that does not, size() <= capacity() always, contains/take agree with the contents, pop(n) frees at least n or empties and evicts greatest values.", "quantifier": "every history of push, take, contains and pop", "why_tests_cant": "All histories and sizes.", "anchors": ["src/stream/building_block.rs"]}
{"id": "C38", "title": "ByteStream flush and take_multiple empty what they return", "statement": "ByteStream::flush returns everything held and leaves it empty; take_multiple removes what it returns.", "quantifier": "every state", "why_tests_cant": "Depends on stream positions left by previous calls.", "anchors": ["src/stream/building_block.rs:flush", "src/stream/building_block.rs:take_multiple"]}
{"id": "C39", "title": "Compressed conserves elements and respects capacity", "statement": "For a Compressed container over a lossless codec, push of non-empty vectors, pop, take and flush conserve elements over any history, size() <= capacity(), and pop(n) frees at least n or empties.", "quantifier": "every history, element sizes and capacity", "why_tests_cant": "All histories and sizes.", "anchors": ["src/compression/building_block.rs", "src/compression/compression.rs"]}
{"id": "C40", "title": "Compressed take_multiple with duplicate keys", "statement": "Compressed::take_multiple(keys) returns only pairs with requested keys, keeps the others, never panics and removes from keys only keys it returned, for any stored pairs (duplicates included) and any keys.", "quantifier": "every content and key vector", "why_tests_cant": "Depends on duplicates and order.", "anchors": ["src/compression/building_block.rs:take_multiple"]}
{"id": "C41", "title": "A socket client behaves as the remote container", "statement": "As long as the connection delivers requests and responses in order, every sequence of calls on a SocketClient returns what the same calls on the served container would return, and leaves the served container in the same state.", "quantifier": "every container and sequence of calls", "why_tests_cant": "All containers and sequences.", "anchors": ["src/socket/building_block.rs", "src/socket/message.rs", "src/socket/server_thread.rs"]}
{"id": "C42", "title": "Server reconnection policy and response matching", "statement": "A server configured with n allowed reconnections accepts at most n new clients after the first (unlimited if unset), and a client never receives a response to a request it did not send.", "quantifier": "every sequence of requests, disconnections and timeouts", "why_tests_cant": "All failure points.", "anchors": ["src/socket/server_thread.rs"]}
{"id": "C43", "title": "A configuration builds the container it describes and flags concurrency correctly", "statement": "ConfigBuilder accepts a table exactly when its id names a known configuration whose fields are present (recursively); the built container's capacity is the one described, and it is convertible to a concurrent container exactly when the described container type is concurrent.", "quantifier": "every configuration tree", "why_tests_cant": "Unbounded nesting.", "anchors": ["src/config/config_builder.rs", "src/config/generic_config.rs", "src/objsafe/building_block.rs:into_concurrent"]}
{"id": "C44", "title": "The cut helper returns the smallest suffix reaching a size", "statement": "find_cut_at_size(values, f, n) for n >= 1 returns the index of the shortest suffix whose sizes total at least n, with that total, or index 0 with the grand total if none exists.", "quantifier": "every vector, size function and n", "why_tests_cant": "All vectors.", "anchors": ["src/utils/size.rs:find_cut_at_size"]}
{"id": "C45", "title": "pop(0) evicts nothing", "statement": "Popping a size of zero frees nothing and returns nothing.", "quantifier": "every container and state", "why_tests_cant": "Boundary of a universally quantified argument.", "anchors": ["src/traits/building_block.rs:pop", "src/array/building_block.rs:pop", "src/btree/building_block.rs:pop"]}
{"id": "C46", "title": "Writes through get_mut are visible and isolated", "statement": "After writing w through the guard of get_mut(k) and dropping it, get(k)/take(k) yields w, every other pair is unchanged, nothing is lost, and size() is still the exact sum of element sizes.", "quantifier": "every state, key and write", "why_tests_cant": "All states, and writes that change the element size.", "anchors": ["src/array/get.rs", "src/btree/get.rs", "src/compression/get.rs", "src/exclusive/get.rs", "src/decorator/get.rs"]}
{"id": "C47", "title": "Erasing the type of a container changes nothing", "statement": "DynBuildingBlock forwards every call to the erased container with the same results (take_multiple up to the leftover keys), and into_concurrent succeeds exactly when built as concurrent.", "quantifier": "every container and call sequence", "why_tests_cant": "Universally quantified over containers.", "anchors": ["src/objsafe/building_block.rs"]}
{"id": "C48", "title": "Compressed and array eviction agree with the order of values", "statement": "Compressed::pop(n) evicts greatest (value, key) pairs: every kept pair is not above an evicted one.", "quantifier": "every content and n", "why_tests_cant": "All contents and ties.", "anchors": ["src/compression/building_block.rs:pop"]}
{"id": "C49", "title": "A server thread can always be stopped", "statement": "Once a first client has connected, stop_and_join terminates: whatever the client does or fails to do (in particular stay silent), the thread sees the stop signal after a bounded number of its own steps and ends.", "quantifier": "every moment of every execution, every number of reconnections", "why_tests_cant": "Silent clients and all interleavings of the stop signal with requests, disconnections and reconnections.", "anchors": ["src/socket/server_thread.rs:stop_and_join", "src/socket/server.rs:try_reconnect", "src/socket/server.rs:with_timeout"]}
{"id": "C50", "title": "A guard may outlive other calls", "statement": "The guard returned by get or get_mut may, as the borrow checker allows, be dropped after other calls on the container: this gives the same answers and leaves the same contents as dropping it at once; nothing is lost, duplicated or overwritten and no call panics.", "quantifier": "every state, key, write and sequence of calls made before the drop", "why_tests_cant": "All sequences of calls during the life of a guard.", "anchors": ["src/utils/lifetime.rs:LifeTimeGuard", "src/btree/get.rs:drop", "src/compression/get.rs:drop", "src/stream/get.rs:get_mut", "src/array/get.rs"]}
{"id": "C51", "title": "Containers compose by behaviour", "statement": "If two containers answer every sequence of BuildingBlock calls the same, then replacing one by the other as a component of any architecture, at any depth and in any number of places, changes no answer of the whole to any sequence of calls. In particular wrapping any components in Sequential changes nothing, nor, in sequences of calls without take_multiple, does erasing their types or moving them to a socket server. The same holds with get and get_mut among the calls, wherever the components offer them.", "quantifier": "every pair of interchangeable containers, every architecture around them, every sequence of calls", "why_tests_cant": "Quantifies over containers, contexts and call sequences at once.", "anchors": ["src/traits/building_block.rs", "src/builder/builders.rs", "src/sequential/building_block.rs", "src/objsafe/building_block.rs", "src/socket/building_block.rs"]}
{"id": "C52", "title": "Builders and the configurations made from them agree", "statement": "The configuration made from a builder (as_config) is accepted by the configuration parser, and the container built from it answers every sequence of calls as the container made by the builder itself.", "quantifier": "every builder expression, every value type and every sequence of calls", "why_tests_cant": "All nestings of builders, numbers of sets and layers; equality of behaviour over all call sequences.", "anchors": ["src/config/mod.rs:IntoConfig", "src/builder/builder.rs", "src/associative/config.rs:as_config", "src/associative/builder.rs:add_layer", "src/decorator/config.rs:as_config", "src/compression/config.rs:as_config", "src/stream/config.rs:as_config", "src/socket/config.rs:SocketServerConfig", "src/config/generic_config.rs:from_toml"]}
{"id": "C53", "title": "Sizes are computed exactly on machine integers", "statement": "The sums of element sizes kept by Array and BTree, and the sizes and capacities summed over nested containers, are the exact ones, whatever the build: no intermediate usize computation overflows, underflows or wraps, as long as the capacities add up to a usize and so do the element sizes of each pushed vector. A debug build panics exactly when this is exceeded.", "quantifier": "every history of calls, every element size function, every maximal integer, checked and wrapping arithmetic", "why_tests_cant": "All histories and sizes near the end of the integer range.", "anchors": ["src/array/building_block.rs:push", "src/array/building_block.rs:pop", "src/btree/building_block.rs:push", "src/utils/cut.rs", "src/batch/building_block.rs:size", "src/associative/building_block.rs:capacity"]}
{"id": "C54", "title": "Threads sharing a container through Sequential see a sequential history", "statement": "Calls made by any number of threads on clones of a Sequential container are linearizable: the answers of the calls that return are those of the same calls made one after the other on the container alone, in an order that respects every thread's own order and real time (each call counts at a moment between its start and its return). At every moment, the pairs pushed by all threads are exactly the pairs given back to all threads plus the pairs held.", "quantifier": "every wrapped container, number of threads, sequence of calls of each thread and interleaving, with panicking threads included", "why_tests_cant": "All interleavings of the locking steps of the calls of all threads.", "anchors": ["src/sequential/building_block.rs", "src/sequential/concurrent.rs", "src/utils/shared_ptr.rs"]}
{"id": "C55", "title": "A Profiler may be shared by threads", "statement": "Clones of a Profiler over a concurrent container can be used by several threads at once (its documentation: everything is counted in an atomic type so that it is safe): every call returns what the wrapped container returned and does not panic by itself, and once the calls have returned the counters are exact.", "quantifier": "every wrapped container, number of threads, sequence of calls of each thread and interleaving", "why_tests_cant": "All interleavings of calls with the updates of counters of other threads.", "anchors": ["src/profiler/concurrent.rs", "src/profiler/building_block.rs", "src/profiler/get.rs", "src/profiler/stats.rs:add", "src/utils/shared_ptr.rs:as_mut"]}
{"id": "C56", "title": "A clone of a thread-safe container is a handle on the same container; a copy is a container of its own", "statement": "Whatever handles are made with Concurrent::clone, and through whichever of them each call is made: all handles on a container show the same pairs, size and capacity, a call gets the answer it would get if all calls had been made through a single handle, and everything pushed through one handle can be got back through any other. A container made with Clone::clone starts with the same pairs and neither sees nor disturbs what happens to the original.", "quantifier": "every container implementing Concurrent (nestings of Sequential, DynConcurrent, Profiler, Decorator, Associative over any container); every sequence of clones, copies and calls through any of the handles", "why_tests_cant": "tests clone once or twice and compare a few calls; the number of handles and the interleavings of calls through them are unbounded", "anchors": ["src/traits/concurrent.rs: Concurrent::clone", "src/sequential/concurrent.rs", "src/associative/concurrent.rs", "src/decorator/concurrent.rs", "src/decorator/fifo.rs: Clone for Fifo", "src/profiler/concurrent.rs", "src/objsafe/concurrent.rs", "src/sequential/sequential.rs: Clone", "src/array/array.rs: Clone"]}
{"id": "C57", "title": "Nested Sequentials: no data race and no deadlock", "statement": "Whatever the containers a container is made of, if each of them lies below a Sequential (or is one), then threads calling the container at once never run inside the same storage while one of them modifies it, and they never end up waiting for each other: at every moment, as long as no call has panicked, all calls in progress can run to their end. Every container that the type system lets threads share (Concurrent) is of this kind.", "quantifier": "every nesting of containers with Sequentials anywhere, every number of threads, calls and interleavings", "why_tests_cant": "all interleavings of the locking steps of all Sequentials on the way to the storage, for all nestings", "anchors": ["src/sequential/building_block.rs", "src/sequential/sequential.rs", "src/utils/lock.rs", "src/utils/shared_ptr.rs", "src/traits/concurrent.rs", "src/associative/concurrent.rs", "src/decorator/concurrent.rs", "src/profiler/concurrent.rs", "src/objsafe/building_block.rs: into_concurrent"]}
{"id": "C58", "title": "Threads may share an Associative without a lock of its own", "statement": "Threads calling clones of an Associative at once interleave between the calls on its sets. Still: every pair that was there or was pushed by any thread is, once no call is in progress, held exactly once or was handed back exactly once; every key is always in its set; no call other than pop panics by itself; contains answers what is true at some moment between its call and its return, take takes effect at one such moment, take_multiple returns only requested keys and misses a key only if it was absent at some such moment; capacity never changes and size never exceeds it. Run without interruption, a call is the sequential method. (size may answer a number the container never had.) When the threads also call get and get_mut, each takes effect at one moment: it shows the value of a pair held then and what is written through the guard rewrites that pair and nothing else, or the key is absent then and nothing changes; and still every pair that was there, pushed or written is held, handed back or overwritten exactly once.", "quantifier": "every sets keeping the contract of a container, every hash function, number of sets and threads, calls of each thread and interleaving, with panicking threads included", "why_tests_cant": "all interleavings of the calls on sets of all threads, for all hash functions and sets", "anchors": ["src/associative/get.rs", "src/associative/building_block.rs", "src/associative/concurrent.rs", "src/associative/associative.rs:set"]}
{"id": "C59", "title": "Lrfu order on machine floats", "statement": "With the 32-bit floating-point arithmetic of the code: a Lrfu cell whose exponent was accepted and is not NaN has, after any accesses at non-decreasing times, a score that is not NaN and not negative, and computing it does not panic; at one time the comparisons of any three such cells are those of a total order; cells never accessed are ordered by age (strictly up to an age of 2^24 ticks); and the order of two cells does not depend on when they are compared.", "quantifier": "every exponent, history of accesses, clock reading and triple of cells", "why_tests_cant": "Rounding, NaN and infinities depend on all exponents and all spans of time.", "anchors": ["src/decorator/lrfu.rs:Stats::score", "src/decorator/lrfu.rs:LrfuCell::cmp", "src/utils/timestamp.rs:diff"]}
{"id": "C60", "title": "A flush empties the container at once and its iterator is detached", "statement": "When flush returns, and before anything is taken from its iterator, the container is empty (unless part of it is behind a FlushStopper), keeps its capacity and can be used again. The iterator then yields each pair the container held exactly once, then None for ever, whatever calls are made on the container meanwhile, and however many other flush iterators of the same container are alive and in whatever order they are advanced; conversely advancing or abandoning an iterator changes no answer of the container. Over a Profiler each advance counts once.", "quantifier": "every tree of Array, BTree, Batch, Exclusive, Inclusive, Associative, Decorator, Profiler, Sequential, FlushStopper, type-erased, compressed and remote containers; every interleaving of calls on the container and advances of any number of its flush iterators", "why_tests_cant": "The iterators are lazy and own no borrow of the container, so any interleaving is legal Rust; tests collect the iterator at once.", "anchors": ["src/traits/building_block.rs: BuildingBlock::flush", "src/exclusive/building_block.rs: flush", "src/batch/building_block.rs: flush", "src/associative/building_block.rs: flush", "src/btree/building_block.rs: flush", "src/profiler/building_block.rs: ProfilerFlushIter"]}
{"id": "C61", "title": "What a cache keeps and evicts depends on its policy, not on the containers it is made of", "statement": "Two caches with the same nesting of Batch, Exclusive, Associative and FlushStopper, whose leaves have the same capacity, element sizes and order, answer every sequence of calls alike (the same sizes, contains, taken pairs, evicted pairs, values read by get and get_mut, and panics), whether each leaf is an Array with any sorting algorithm or a BTree, and wherever Sequential, type-erased, Profiler or socket wrappers are put around their parts. Below a Fifo decorator, or an Lru decorator with an advancing clock, this holds for all values.", "quantifier": "every pair of trees of the same policy; every sequence of calls, get and get_mut included, pushing and writing pairs whose keys are new and (without a decorator) whose values do not compare equal to others present; element sizes at least 1", "why_tests_cant": "all pairs of trees, histories and sizes; tests compare an Array with a BTree on a few histories at most", "anchors": ["src/array/building_block.rs", "src/btree/building_block.rs", "src/batch/building_block.rs", "src/exclusive/building_block.rs", "src/associative/building_block.rs", "src/decorator/building_block.rs"]}
{"id": "C62", "title": "A cache in front of a store is transparent", "statement": "A client that keeps its data in a store and uses a container as a cache of it - get or get_mut a key, on a miss fetch the value and push it; take, modify and push back; prefetch the keys that contains denies; pop, take_multiple and flush; and write to the store every pair that any of these calls returns - sees at every access the value it would see with the store alone, never meets a panic, and loses no write: a cached key has its last value in the cache, any other key in the store, and after a flush the store is complete.", "quantifier": "every tree of containers, initial store, and sequence of client actions (restricted where C13, C17 and C46 say a call is not faithful)", "why_tests_cant": "all trees and histories; the value seen depends on where each earlier call moved the pair", "anchors": ["src/traits/building_block.rs: BuildingBlock", "src/traits/get.rs: Get, GetMut", "src/lib.rs"]}
{"id": "C63", "title": "A hierarchy of Lru levels is one Lru cache of the total capacity", "statement": "An Lru decorator over a hierarchy of levels (Array or BTree, stacked by Exclusive, wrapped), used as a read-through cache (get or get_mut a key; on a miss push it), hits exactly when one ideal Lru cache of the same total capacity would: it holds exactly the most recently used distinct keys, the newest in the front level and the next ones in the back. So only the total capacity matters, and more capacity never turns a hit into a miss. One level under Fifo is an ideal Fifo cache, for which the last claim is false.", "quantifier": "every stack of levels, every sequence of keys used through get or get_mut with any update of the value, every strictly increasing clock", "why_tests_cant": "all shapes and traces; which level a key is in depends on every earlier access", "anchors": ["src/exclusive/exclusive.rs: downgrade", "src/exclusive/get.rs", "src/exclusive/building_block.rs: push", "src/decorator/lru.rs", "src/decorator/fifo.rs", "src/array/building_block.rs: push", "src/btree/building_block.rs: push"]}
{"id": "C64", "title": "An Lrfu decorator works over any container", "statement": "An Lrfu decorator can be put over an Array or a BTree: whatever the clock reads and however the container compares its elements while the scores move, no call panics, nothing is lost, sizes stay exact and within capacity, and pop evicts the greatest scores (least recently and frequently used).", "quantifier": "every history of calls, every clock, every exponent, every sort and every search tree of the standard library that is only told the answers of the comparison", "why_tests_cant": "the comparison reads the clock, so its answers depend on the moment of each comparison and on the algorithm that makes them; tests see one standard library at one speed", "anchors": ["src/decorator/lrfu.rs: Ord for LrfuCell, Stats::score", "src/array/building_block.rs: pop, push", "src/btree/building_block.rs: take, pop, push", "src/btree/get.rs", "src/btree/btree.rs: as_value"]}
{"id": "C65", "title": "Timestamps and insertion counters order events as they happened", "statement": "Timestamps read from Counter by any number of threads are all different, and a reading that begins after another one returned is greater, so that their difference can be taken; Fifo and Lru caches answer as if their counters were unbounded: for as long as the counter (64 bits) has not wrapped. Past that point this is false: time goes backwards, diff panics, and Fifo and Lru evict their newest element.", "quantifier": "every interleaving of the readings of any number of threads, every starting value, every width of counter, every container under the decorator and every history of calls including get and get_mut", "why_tests_cant": "tests read a few timestamps from one thread, and cannot reach the wrap of a counter", "anchors": ["src/utils/timestamp.rs: Counter::now, Counter::diff", "src/decorator/fifo.rs: Fifo::wrap", "src/decorator/lru.rs: Lru::wrap, LruCell"]}
{"id": "C66", "title": "A panic in one thread does not harm the others", "statement": "When a call on a clone of a Sequential panics in one thread (in the wrapped container, or because of contention), or a thread panics while it has a guard of get or get_mut, or the owner of a clone panics outside any call, the other threads are not harmed: the answers they get are still those of a sequential execution, no element is stored twice or half stored, none of them waits for ever, a lock poisoned by the panic stays so and refuses every further call, and no element pushed by another thread is lost nor a key it looks up hidden.", "quantifier": "every container, every number of threads and calls, every interleaving, every call that panics, panics caught or not", "why_tests_cant": "needs a panic at each point of each call, interleaved with every step of the other threads", "anchors": ["src/sequential/get.rs: Drop for SequentialCell, get, get_mut", "src/utils/lock.rs: Drop for RWLock, try_lock, try_lock_mut", "src/sequential/building_block.rs: push, flush, take", "src/utils/shared_ptr.rs: as_mut, as_ref"]}
{"id": "C67", "title": "Waiting for a lock ends", "statement": "A thread waiting in lock() or lock_mut() while the lock is available to it has it by its third attempt-step unless another thread acquires it or gives it back meanwhile; a thread giving it back has done so by its third step under the same condition; when nobody holds the lock somebody has it within a number of steps that depends only on the number of threads, and as long as every thread that is inside a method of the lock or holds it gets its turn, somebody acquires it again and again. No thread waits for ever, and a thread that waits pauses between its attempts: these two are false of the code (one other reader can starve a reader or a writer for ever, and the pause between attempts is never reached).", "quantifier": "every number of threads below 2^62, every interleaving of the atomic operations, finite or infinite, both modes", "why_tests_cant": "fairness and progress are about all infinite executions; a test sees one schedule", "anchors": ["src/utils/lock.rs: RWLock::lock, lock_mut, try_lock, try_lock_mut, unlock"]}
{"id": "C68", "title": "The times a Profiler reports are the times spent", "statement": "For each method the time reported by a Profiler is the sum of what its calls since the last reset lasted: never less than the time spent in the wrapped container nor more than the time the caller waited; time_stats() is at most the time elapsed since the Profiler was created or reset; a Profiler inside another counts the same calls and sizes and never reports more time than the outer one; the time reported with the hits is the time spent in lookups that hit, and likewise for misses, so that both together are the time of all lookups. The last sentence is false of the code when take_multiple is used (its time goes to both), and the sums are modulo 2^64.", "quantifier": "every wrapped container, every duration of every call and of the bookkeeping around it, every sequence of calls, iterator steps, pauses and resets, every depth of nesting", "why_tests_cant": "durations cannot be controlled in a test, and the sums must hold for every history", "anchors": ["src/profiler/stats.rs: MethodStats::add", "src/profiler/building_block.rs: time_it!, size_it!, contains, take, take_multiple, pop, push, flush, ProfilerFlushIter::next", "src/profiler/get.rs: get, get_mut", "src/profiler/profiler.rs: time_stats, hit_stats, miss_stats, reset"]}
{"id": "C69", "title": "A socket works whatever the sizes of its buffers", "statement": "Whatever the sizes of the TCP buffers between a SocketClient and its server, and however the bytes are cut on the way: calls return what the container returns; no call deadlocks (client and server never both wait for each other to read); a call has returned after a number of transfers bounded by the sizes of its request and response; responses match requests across failures and reconnections; and the server thread can always be stopped. The last point is false of the code: writes of the server have no timeout, so a client that does not read a response larger than the buffers blocks stop_and_join for ever.", "quantifier": "every buffer size of at least one byte, every container and codec, every cutting of the bytes into transfers and every interleaving of client, network and server thread, every history of calls", "why_tests_cant": "sizes of the buffers and points where writes block are chosen by the kernel; a test on loopback never fills them", "anchors": ["src/socket/client.rs: process_request", "src/socket/message.rs: Request::send, Request::receive, Response::send, Response::receive", "src/socket/server.rs: process_request, process_response, SocketServer::stop_and_join"]}
{"id": "C70", "title": "What threads write through guards is not lost", "statement": "Threads share a container through clones of a Sequential and hold guards of get and get_mut. A guard of get shows the same value as long as it lives; a guard of get_mut shows the value the key had and then what is written through it, nothing else; dropping it leaves the value last written, so that the whole life of the guard is one atomic update between the call and the drop: concurrent increments all count, and a key that is never removed is never missed. True of Array, and of Arrays behind Batch, Associative, FlushStopper and a Fifo, for the calls that remove nothing. False with take, take_multiple, pop or flush by other threads (they may have passed the lock before the guard was given); false of a BTree and of a Compressed even for threads that only look keys up, because their guards write after the lock has been released; false of an Exclusive even for threads that only call get, because get moves pairs under the shared lock: a guard comes to show the value of another key.", "quantifier": "every initial container, every number of threads, every sequence of calls, of reads and writes through the guards by each thread, every interleaving of the steps of the lock, of the borrow, of the call, of each read and write, and of the drop", "why_tests_cant": "the losses need another thread between the release of the lock and the write-back of the guard, or between the lock and the borrow of take: a window of a few instructions", "anchors": ["src/sequential/get.rs: SequentialCell, Drop, get, get_mut", "src/sequential/building_block.rs: take, push, flush", "src/array/get.rs: get, get_mut", "src/btree/get.rs: BTreeCell, Drop", "src/compression/get.rs: CompressedMutCell, Drop", "src/batch/get.rs: get, get_mut", "src/associative/get.rs: get, get_mut", "src/decorator/get.rs: DecoratorCell", "src/exclusive/get.rs: get, get_mut", "src/flush_stopper/get.rs: get, get_mut"]}
{"id": "C71", "title": "A server thread can be stopped at every moment of its life", "statement": "stop_and_join returns, whatever the server has been through: stopped before a client has connected, while a client is served, when it has left, between two clients, it returns Ok; if the address cannot be bound or accept fails for the first client it returns the panic; and a server never accepts more clients than it was allowed. Once a single-client server (the default) is connected this is true at every moment. It is false before the first client (documented) and, for a server that may serve several clients, after a client has left and until the next one connects, and as long as a client other than the first is silent: the exact moments are given by an equivalence.", "quantifier": "every container, key and value codec and number of reconnections, every history of binds, connections, accept errors, calls, transfers, failures and departures of clients, every moment of it", "why_tests_cant": "a test would have to wait for ever to see that stop_and_join does not return, and must return at every moment of every history", "anchors": ["src/socket/server_thread.rs: ServerThreadBuilder::spawn, try_reconnect, ServerThreadHandle::stop_and_join", "src/socket/server.rs: SocketServer::new, with_timeout, try_reconnect"]}
{"id": "C72", "title": "An Inclusive works over whatever container is behind it", "statement": "The builder accepts any container with a get behind an Inclusive. Over each of them get and get_mut return, a value written through get_mut is the one later reads, take, pop and flush see, and a key that has been taken is gone. True when the get of the back hands out a pointer to the stored element or is a BTree (C14). False over a Compressed or a ByteStream (their get shows a copy, so the back forgets that a copy is in the front: take answers the old value, and the key stays contained for ever without being takeable), over a Sequential (a lookup that evicts a written copy from the front waits for ever for the lock its own guard holds; in every other case it answers as the container without the lock), and over an Exclusive with a BTree in front (the drop of the guard panics).", "quantifier": "every front and back container, every content, key and function written through the guard; the exact condition for a Sequential quantifies over every state", "why_tests_cant": "the failures need a particular back container together with a write and an eviction from the front, in an order no unit test tries; one of them shows as a test that never ends", "anchors": ["src/inclusive/get.rs: downgrade, get, get_mut", "src/inclusive/building_block.rs: take", "src/inclusive/inclusive.rs: InclusiveCell, clone", "src/compression/get.rs: CompressedCell", "src/stream/get.rs: StreamCell", "src/sequential/get.rs: SequentialCell, get", "src/exclusive/get.rs: get"]}
{"id": "C73", "title": "Every client that is let in is served", "statement": "When several clients connect to one server, each attempt to connect is either refused at once or leads to being served: one client at a time, in the order in which they connected, at most 1 + n of them when n reconnections were asked for; a server that waits for a client refuses nobody. That everyone let in is served is false of the code: of the clients that connect while the server waits for one only the first is served, and the connections of the others, which had succeeded, are reset.", "quantifier": "every container, every number of clients and length of the queue of connections, every interleaving of connections with the life of the server thread, every number of reconnections", "why_tests_cant": "depends on which clients connect in the interval between bind and accept, for every history of the server", "anchors": ["src/socket/server.rs: SocketServer::new, try_reconnect", "src/socket/server_thread.rs: spawn, try_reconnect, set_persistent", "src/socket/client.rs: SocketClient::new, process_request"]}
{"id": "C74", "title": "Servers over clones of one container are one container to their clients", "statement": "When the clones of one container behind a Sequential are each given to a server of its own, the clients of all servers use one container: there is one order of the calls that took effect such that a single user making them in that order gets the same answers and leaves the same container; every answer a client gets is that of its own call in this order, made by the request it answers, whatever clients came and went on that connection before; a call answered before another one was made precedes it. When no client leaves, every call is answered once nothing is under way, exactly the answered calls took effect, and the pairs pushed by all clients are those they got back and those in the container. A request sent while no server is working is answered. That requests are answered whatever the others do is false of the code: two pushes at the same time stop all servers for good.", "quantifier": "every container, every number of servers, every interleaving of clients that connect, call and leave at any moment with the server threads", "why_tests_cant": "depends on the interleaving of the server threads with each other and with clients that leave in the middle of a call", "anchors": ["src/socket/server.rs: match_response, process_request, process_response, try_reconnect", "src/socket/client.rs: process_request", "src/socket/building_block.rs", "src/sequential/building_block.rs", "src/utils/lock.rs"]}
{"id": "C75", "title": "A ByteStream says what it could not store, and storage that runs out harms nothing else", "statement": "Over streams that can hold only so many bytes (a full device, a limit on the size of files; the trait is public), a ByteStream behaves as over unlimited ones as long as each stream may grow to the capacity of the container; and in every state whatsoever the calls that do not store (all but push and get_mut) do what they do over unlimited streams of the same bytes. When streams do run out, every lookup answers according to the elements stored whole, take answers an element held or that there is none, what was held stays held through push, a guard of get_mut that was written and dropped puts the new value's bytes in place of the old one's and touches no other element when it takes no more room, and panics when it would end beyond what the stream can take, size stays within capacity, and each element pushed is handed back, held, or lost, lost only if its stream is full. That an element not handed back is held is false of the code: an element for which the stream has no room is dropped in silence, because the errors of the buffered writer are ignored when it is dropped; its first bytes stay in the stream and count for size. That push does not panic is false for elements as large as the buffer (8192 bytes) when no byte is left. That take removes only the element it returns is false of a stream with a torn element at its end: another element disappears and one that nobody pushed can appear.", "quantifier": "every codec, every quota and capacity, every history (storage large enough), every list of pushes, every state reached by pushes and every key", "why_tests_cant": "needs storage that fails at a byte position inside an element, for every position and every content", "anchors": ["src/stream/io_vec.rs: append, swap_remove, IOChunk::write, iter", "src/stream/building_block.rs: push, take, contains, size", "src/stream/get.rs: get, get_mut", "src/stream/mod.rs: Stream"]}
{"id": "C76", "title": "A Compressed says when it could not store, and is left in one of three known states", "statement": "Over storage that can hold only so many bytes, a Compressed behaves, for every history, as over unlimited storage when whatever it may compress fits. Otherwise each call does exactly what it does over unlimited storage if what the container would then store fits, and panics if it does not; lookups do not depend on the room there is; a guard of get_mut that was written panics when it is dropped, if the new content does not fit. After a call that panicked, a user who still has the container finds one of three states: one that holds nothing, never changes again and hands every pushed element back; one that behaves as a new container; or one that holds what the call meant to store. That a push that fails leaves what the container held is false of the code: the stream is truncated before the new content is written, and everything is lost, both the elements held and those pushed.", "quantifier": "every codec, every compressor that gives back the beginning of the content or an error on the beginning of a frame, every quota and capacity, every history, every call and every state", "why_tests_cant": "needs storage that fails at each byte of a frame, for every content and every compressor", "anchors": ["src/compression/compression.rs: write, read, read_bytes", "src/compression/building_block.rs: push, pop, take, take_multiple, flush, contains, size", "src/compression/get.rs: get, get_mut, drop", "src/stream/mod.rs: Stream"]}
{"id": "C77", "title": "A call of Compressed that returns has lost nothing, whatever failed", "statement": "Whatever operations of its stream fail, in any order and at any byte, each call of a Compressed that returns has either done all its work, with the result it has on storage that never fails, or done nothing: the container is as it was and what was pushed is handed back. So in a history of calls that return every pushed element has been handed back or is held, and size is within capacity. A lookup that meets a failure says that there is nothing, and is right when it says that there is something. Only a call whose write fails panics (besides those that panic anyway); the container is then as it was, or holds nothing and hands everything back, or behaves as a new one, or holds what the call meant to store. That lookups are always right, and that a call that panics leaves what was held, are false of the code.", "quantifier": "every codec, every compressor, every sequence of failures of reads, writes (short ones included), seeks and resizes, every history, call and state", "why_tests_cant": "needs every pattern of failures at every step of every call", "anchors": ["src/compression/compression.rs: read_bytes, read, write", "src/compression/building_block.rs: push, pop, take, take_multiple, flush, contains, size", "src/compression/get.rs: get", "src/stream/mod.rs: Stream"]}
{"id": "C78", "title": "A call of ByteStream that returns has lost or invented nothing, unless a write failed in it", "statement": "Whatever operations of its streams fail, in any order, a lookup of a ByteStream (contains, get) either panics or says what it says on storage that never fails, and a take, take_multiple, flush or get_mut (written and dropped) that returns does and answers what it does there. A take or pop that returns hands back exactly what it removed. A push that returns has split what it was given into what it hands back, what it stored and what it lost, and lost nothing if no write-side operation failed in it; so in a history of push, take and pop that return, every pushed element has been handed back, is held, or was pushed in a call that met a failing write. Whatever befalls reads, short ones included, what a lookup finds is held. Size stays within capacity as long as the streams can tell their sizes when something is pushed. That push loses nothing when a write fails, that the size stays within capacity when seeks fail, that short reads are harmless to contains and pop, and that short writes are harmless to take, are false of the code.", "quantifier": "every codec of fixed-size elements, every sequence of failures of reads, writes, seeks and resizes of every stream and of its clones, every history, call and reachable state", "why_tests_cant": "needs every pattern of failures at every step of every call", "anchors": ["src/stream/io_vec.rs: IOVec, IOVecIter, swap_remove, append, len", "src/stream/building_block.rs: push, pop, take, take_multiple, contains, size", "src/stream/get.rs: get", "src/stream/stream.rs: ByteStream"]}
