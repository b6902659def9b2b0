import json
P=[]
def p(title,statement,quantifier,why,anchors):
    P.append(dict(id="C%02d"%(len(P)+1),title=title,statement=statement,quantifier=quantifier,why_tests_cant=why,anchors=anchors))
R="src/raw/mod.rs"
p("Linearizability of single-key operations, incremental resizing",
  "With the default (incremental) resize mode, every concurrent history of get/contains_key, insert, try_insert, remove/remove_if, compute/update/update_or_insert/get_or_insert and the individual deletions performed by clear/retain is linearizable with respect to a plain sequential map: each completed call appears to take effect atomically at one instant between its call and its return, and returns what a sequential map would return at that instant.",
  "all numbers of threads, all operation sequences, all interleavings of atomic memory accesses (incl. spurious weak-CAS failures), all hash functions (incl. fully colliding), all chunk sizes, any number of overlapping resizes",
  "the number of interleavings of probe/CAS/metadata/copy/promotion steps is unbounded; a stress test samples a vanishing fraction",
  [R+":get",R+":insert_inner",R+":remove_if",R+":compute_with",R+":help_copy_incremental",R+":copy_at_incremental",R+":try_promote","src/map.rs:HashMap"])
p("Linearizability of single-key operations, blocking resizing",
  "With ResizeMode::Blocking every concurrent history of the same operations is linearizable with respect to a sequential map (readers that still hold a superseded table included).",
  "all threads, operation sequences, interleavings, hash functions, any number of resizes and aborted resizes",
  "same as C01; in addition stale readers only arise in specific schedules around promotion",
  [R+":help_copy_blocking",R+":copy_at_blocking",R+":insert_copy",R+":try_promote",R+":get"])
p("Sequential map semantics",
  "Used from one thread, the map behaves exactly like a mathematical map: after any sequence of calls, get(k) returns the value of the last insert/update of k not followed by a removal of k, and every call returns the documented result.",
  "all finite sequences of API calls, all keys, values, hash functions, capacities and both resize modes",
  "probe chains, tombstones and resizes make behaviour depend on the whole history and on hash collisions",
  [R+":get",R+":insert",R+":remove_if",R+":compute","src/map.rs:HashMap::get","src/map.rs:HashMap::insert"])
p("No entry is lost or resurrected by a resize",
  "Growing, shrinking or re-hashing the table never loses a key that is present, never brings back a removed key or an overwritten value, however many resizes overlap and whichever threads help to copy.",
  "all schedules of copiers, writers and readers, all table sizes",
  "requires every interleaving of the copy protocol",
  [R+":copy_at_incremental",R+":copy_at_blocking",R+":insert_copy",R+":try_promote"])
p("try_insert has a unique winner",
  "When several threads call try_insert (or get_or_insert_with / try_insert_with) for the same absent key and nobody removes it, exactly one call inserts and all the others report the winner's value as the current value.",
  "any number of contending threads and any schedule, across resizes",
  "the race window spans CAS, metadata publication and table promotion",
  [R+":insert_inner",R+":insert_at",R+":try_insert_with","src/map.rs:HashMap::try_insert"])
p("An inserted entry is removed by at most one call",
  "Each inserted key-value pair is handed out as 'removed' or 'replaced' by at most one successful remove / insert / compute / clear / retain call: removals are never double-counted.",
  "all concurrent histories",
  "double hand-out needs a specific race between two removers and a copier",
  [R+":update_at",R+":remove_if",R+":clear",R+":retain",R+":compute_with"])
p("update / compute never lose an update",
  "Concurrent read-modify-write calls on one key are atomic: the value installed by a successful update is the closure applied to exactly the value it replaced, so n successful increments of a counter raise it by n.",
  "all numbers of concurrent updaters, closures and schedules, across resizes",
  "lost updates show only in particular interleavings",
  [R+":compute_with",R+":update_at",R+":ComputeState::next","src/map.rs:HashMap::update"])
p("compute calls its closure with None at most once",
  "During one compute call the closure is called with an absent entry at most once, so FnOnce initialisers (get_or_insert_with, try_insert_with, update_or_insert_with) run at most once and never panic on a second call; a cached result is only reused for the same entry it was computed from.",
  "all schedules, any number of retries and table changes within a call",
  "multiple retries of both kinds inside one call need adversarial scheduling",
  [R+":ComputeState::next",R+":ComputeState::restore",R+":compute_with",R+":try_insert_with",R+":update_or_insert_with"])
p("get_or_insert callers agree",
  "Concurrent get_or_insert / get_or_insert_with calls for one key, with no removal or overwrite in between, all return the same value and it is the value stored in the map.",
  "all schedules and numbers of threads",
  "as C05",
  [R+":get_or_insert_with","src/map.rs:HashMap::get_or_insert"])
p("len is exact at quiescence",
  "Whenever no operation is in progress, len() equals the number of keys present and is_empty() says whether there are none; during operations it is never reported as a wrapped-around negative number.",
  "all histories ending in a quiescent state, any assignment of threads to counter shards",
  "miscounting needs particular races (lost CAS, copying, clear vs remove)",
  [R+":len",R+":insert",R+":remove_if",R+":clear",R+":retain",R+":compute_with","src/raw/utils/counter.rs:Counter::sum"])
p("Iteration sees every untouched entry exactly once",
  "An iterator yields every entry that is present and unmodified from before the iterator is created until it finishes, and yields it exactly once, even if resizes start or finish meanwhile.",
  "all interleavings of iteration with any other operations",
  "depends on all concurrent modifications and resizes during iteration",
  [R+":iter",R+":linearize",R+":Iter::next"])
p("Iteration yields only real entries",
  "Every pair yielded by an iterator was a key-value pair of the map at some moment between the creation of the iterator and the yield.",
  "all interleavings",
  "a stale or unpublished pair would only be seen in a narrow race",
  [R+":iter",R+":Iter::next"])
p("clear removes everything present when it starts",
  "Every entry that is in the map when clear() is called is no longer in the map when clear() returns (it has been removed or replaced in between), whatever resizes happen concurrently; clear deletes nothing that was not present at the instant of deletion.",
  "all interleavings of clear with inserts, resizes and other clears",
  "an entry missed because it was being copied needs a specific schedule",
  [R+":clear",R+":linearize",R+":help_copy"])
p("retain removes exactly the rejected entries",
  "retain(f) only removes entries whose key and value f rejected at the moment of removal, and every entry present when retain starts and untouched meanwhile survives iff f accepts it.",
  "all interleavings, all predicates",
  "as C13",
  [R+":retain",R+":linearize"])
p("References stay valid while the guard is held",
  "A reference returned by any operation stays valid (its entry is not freed) until the guard it was obtained with is dropped, and no operation ever dereferences freed memory, given the documented contract of the memory reclaimer.",
  "all schedules including removal, replacement, several overlapping resizes and arbitrarily eager reclamation",
  "use-after-free needs a precise interleaving of deferral, promotion and reclamation",
  [R+":defer_retire",R+":drop_table",R+":try_promote","src/raw/utils/stack.rs:Stack"])
p("Every entry is released exactly once",
  "Every entry ever stored is retired/dropped exactly once: never twice, and by the time the map itself is dropped none is leaked.",
  "all histories followed by drop of the map, both resize modes",
  "a double free or leak needs an entry shared between tables at the wrong moment",
  [R+":defer_retire",R+":drop_entries",R+":drop_table",R+":HashMap::drop"])
p("Parked threads are woken (entry copies)",
  "A writer that waits for an entry to be copied is always woken once the copy has completed: there is no schedule in which the copy is finished, nobody will unpark any more, and the waiter is still asleep.",
  "all interleavings of park and unpark, any number of waiters and wakers",
  "lost wake-ups are pure interleaving bugs",
  ["src/raw/utils/parker.rs:Parker::park","src/raw/utils/parker.rs:Parker::unpark",R+":wait_copied",R+":copy_at_incremental"])
p("Threads waiting for an aborted blocking resize are woken",
  "In blocking mode a thread that parks until a resize finishes is also woken when that resize is aborted in favour of a bigger table.",
  "all interleavings in which one copier aborts while another waits",
  "needs an abort concurrent with a parked helper",
  [R+":help_copy_blocking","src/raw/utils/parker.rs:Parker::unpark"])
p("Operations do not panic",
  "No operation panics for any capacity accepted at construction (other than compute asked to remove an absent key, and panics of the closure the caller passed): in particular shrinking never violates an internal assertion.",
  "all initial capacities, histories and schedules",
  "depends on capacity arithmetic combined with long insert/remove histories",
  [R+":get_or_alloc_next","src/raw/alloc.rs:Table::alloc",R+":new"])
p("Capacity guarantees",
  "entries_for(n) slots are enough that n elements load the table to at most 75%; the table never shrinks below the capacity given at construction; reserve(n) leaves a table with at least entries_for(len+n) slots.",
  "all capacities n; for the lower bound every schedule of any number of threads; for reserve every reachable state in which a thread calls len() and reserve(n) without interference",
  "arithmetic over all integers, and any state (resize in progress, any mode) as starting point",
  ["src/raw/probe.rs:entries_for",R+":reserve",R+":get_or_alloc_next",R+":new"])
p("Probe sequence stays in bounds and can reach every slot",
  "Every index produced by probing is inside the table, and for a power-of-two table the first len probes visit every slot exactly once.",
  "all hashes, all table sizes 2^k, all probe lengths",
  "number-theoretic fact over all sizes",
  ["src/raw/probe.rs:Probe::start","src/raw/probe.rs:Probe::next","src/raw/alloc.rs:Table::alloc"])
p("Hash metadata never collides with the sentinels",
  "The metadata byte stored for a key is a 7-bit value, hence never equal to the EMPTY or TOMBSTONE marker.",
  "all 64-bit hashes",
  "2^64 inputs",
  [R+":meta::h2",R+":meta::EMPTY",R+":meta::TOMBSTONE"])
p("Pointer tagging round-trips",
  "For every 8-byte aligned address and every combination of tag bits, unpacking a tagged word gives back the address and exactly those tags; setting COPYING/COPIED/BORROWED never changes the address, and the tombstone is distinguishable from null and from every real entry.",
  "all aligned addresses, all tag combinations",
  "all word values",
  ["src/raw/utils/tagged.rs:Tagged",R+":Entry::COPYING",R+":Entry::TOMBSTONE",R+":EntryStatus::from"])
p("A resize in blocking mode terminates",
  "In blocking mode an insert that triggers a resize eventually completes even if it runs alone (the resize does not restart forever).",
  "all hash functions and table contents",
  "non-termination cannot be observed by a terminating test; needs adversarial hashes",
  [R+":help_copy_blocking",R+":get_or_alloc_next"])
p("Reads in blocking mode are wait-free",
  "In blocking mode get() finishes within a bounded number of its own steps determined only by the probe limit of the table it started in, regardless of what other threads do, and it never blocks.",
  "all schedules of all other threads",
  "a bound over all schedules",
  [R+":get"])
p("Map equality means same contents",
  "a == b holds exactly when both maps contain the same keys with equal values (when neither is being modified).",
  "all pairs of quiescent maps, whatever their capacities, tombstones and insertion orders",
  "all pairs of histories",
  ["src/map.rs:PartialEq for HashMap"])
p("extend / from_iter / collect: last write wins",
  "Building or extending a map from a sequence of pairs yields the map in which every key has the value of its last occurrence in the sequence (and keys not mentioned keep their old value).",
  "all sequences of pairs",
  "all inputs",
  ["src/map.rs:Extend","src/map.rs:FromIterator","src/map.rs:From"])
p("clone yields an equal, independent map",
  "Cloning a quiescent map yields a map equal to it; later changes to one do not affect the other.",
  "all map contents and histories",
  "all histories",
  ["src/map.rs:Clone for HashMap"])
p("serde round-trip",
  "Deserialising the serialised form of a quiescent map (or set) yields an equal map (or set).",
  "all map contents",
  "all contents",
  ["src/serde_impls.rs:visit_map","src/serde_impls.rs:visit_seq"])
p("HashSet semantics",
  "HashSet behaves as a mathematical set: insert returns true iff the element was absent, remove returns true iff it was present, contains reflects membership; equality is equality of sets.",
  "all operation sequences",
  "all histories",
  ["src/set.rs:HashSet::insert","src/set.rs:HashSet::remove","src/set.rs:HashSet::contains","src/set.rs:PartialEq"])
p("Reads of one thread never go back in time",
  "If one thread's get(k) has observed an update, a later get(k) by the same or a causally later thread does not observe an older state.",
  "all schedules, in both modes, during resizes",
  "needs two reads straddling a promotion",
  [R+":get",R+":try_promote"])
p("The deferred-retirement stack loses and duplicates nothing",
  "After any concurrent pushes, draining the stack yields exactly the multiset of pushed values.",
  "any number of concurrent pushers and any schedule",
  "interleavings",
  ["src/raw/utils/stack.rs:Stack::push","src/raw/utils/stack.rs:Stack::drain"])
p("Guards of another map are rejected",
  "Passing a guard created for a different collector to any operation panics before the map is touched; guards of the same collector are always accepted.",
  "all operations and guards",
  "every entry point must check",
  [R+":verify","src/map.rs:HashMap::get"])
p("Incremental chunk size may be any number",
  "With ResizeMode::Incremental(n) operations that need a complete resize (iter, clear, retain, reserve) terminate when run alone, for every n.",
  "all chunk sizes n and table sizes",
  "non-termination for n = 0",
  ["src/map.rs:ResizeMode",R+":help_copy_incremental"])
p("Failed try_insert changes nothing and returns both values",
  "A try_insert that finds the key present leaves the map unchanged and returns the current value and hands back exactly the value that was not inserted.",
  "all inputs and schedules",
  "all schedules",
  [R+":insert","src/map.rs:HashMap::try_insert","src/map.rs:OccupiedError"])
p("Iterators may be consumed with duplicates only under concurrent modification",
  "One iterator never yields the same key twice.",
  "all interleavings",
  "needs remove and re-insert of a key during iteration",
  [R+":Iter::next"])
p("The allocation lock cannot deadlock",
  "The lock taken to allocate the next table is always released by its holder without waiting for any other thread, so a thread blocked on it is eventually admitted; at most one next table is ever created per table.",
  "all schedules of any number of threads racing to resize",
  "schedules",
  [R+":get_or_alloc_next"])
p("remove_if removes only when the predicate accepts the removed value",
  "remove_if(k,p) returns Err(current) only if p rejected the pair that was current at some instant of the call; it removes and returns exactly a pair accepted by p; it returns Ok(None) only if the key was absent at some instant of the call.",
  "all predicates and schedules",
  "the predicate may be re-evaluated on a newer value after a lost race",
  [R+":remove_if","src/map.rs:HashMap::remove_if"])
p("Inserting over an equal key keeps the stored key",
  "As documented for HashMap::insert and HashSet::insert: when an equal key is already present the value is updated but the stored key is not replaced (it matters for keys that are equal without being identical).",
  "all keys, values and histories",
  "the claim is about every history in which equal, non-identical keys are inserted; tests use keys for which equality is identity",
  [R+":insert","src/map.rs:HashMap::insert","src/set.rs:HashSet::insert"])
p("Whole-map operations return when nobody interferes",
  "iter, clear, retain, reserve, clone and == return after finitely many steps when the calling thread is the only one that runs, whatever keys the map holds and however they hash.",
  "all map contents, hash functions and chunk sizes",
  "non-termination cannot be observed by a terminating test, and it takes dozens of keys with colliding hashes",
  [R+":linearize",R+":help_copy_incremental",R+":insert_copy",R+":get_or_alloc_next"])
p("Single-key operations are obstruction-free with incremental resizing",
  "With incremental resizing, get, get_key_value, contains_key, insert, try_insert, remove, remove_entry, remove_if, compute, update, get_or_insert, update_or_insert, len and Iterator::next return after finitely many steps of the calling thread when that thread runs alone, from every reachable state in which no other call is stopped in the middle of copying an entry or allocating a table; in particular whenever no other call is in progress, whatever resizes are pending, whatever the map holds and however the keys hash.",
  "all histories, key sets, hash functions, chunk sizes and pending resizes",
  "non-termination cannot be observed by a terminating test; the loops retry in the next table and may allocate further tables",
  [R+":insert",R+":try_insert_entry",R+":remove_if",R+":compute_with",R+":get_or_alloc_next",R+":prepare_retry",R+":wait_copied"])
p("No deadlock with incremental resizing",
  "With incremental resizing, as long as any call is in progress some thread can take a step, even if no parked thread ever wakes up spuriously: there is no reachable state in which every running call waits for a lock, for a copy of an entry, for the end of a resize or for a wake-up that never comes (calls that panicked inside an allocation excepted; with a power-of-two capacity there are none).",
  "all schedules of any number of threads, histories, hash functions and chunk sizes",
  "a lost wake-up needs one particular interleaving of registering, copying, finishing the resize and waking",
  [R+":help_copy_incremental",R+":wait_copied",R+":try_promote","src/raw/utils/parker.rs:Parker::park","src/raw/utils/parker.rs:Parker::unpark"])
p("A repeated key in an iteration means it was removed in between",
  "If one iterator yields the same key twice then that key was removed from the map between the two yields (so an iterator never yields a key twice when no removal runs concurrently).",
  "all schedules, keys, hash functions, resizes",
  "needs a resize or a slot reuse at an unlucky moment of the iteration",
  [R+":Iter::next",R+":iter",R+":copy_at_incremental"])
p("The only panics are the documented one and those of the caller's closure (power-of-two capacity)",
  "For a map built with a capacity that is a power of two or at most 4, the only calls that can panic are compute whose closure asks to remove an absent entry and calls of the compute family whose own closure panics.",
  "all schedules, hash functions, histories; capacities 0-4 and powers of two; both resize modes",
  "the assertions and unwraps of the code are reached only in rare interleavings of resizes",
  [R+":get_or_alloc_next",R+":help_copy","src/raw/alloc.rs:Table::alloc",R+":compute_with"])
p("Every public method does what its documentation says",
  "Each of contains_key, get, get_key_value, insert, try_insert, try_insert_with, get_or_insert, get_or_insert_with, update, update_or_insert, update_or_insert_with, compute, remove, remove_entry and remove_if, whatever other threads do, takes effect at one moment during the call exactly as documented for the contents at that moment (result, new binding of the key, all other keys unchanged). A thread that has the map for itself gets exactly the behaviour of a sequential map from any sequence of method calls, now also including len, is_empty, reserve, clear and retain; keys() and values() then enumerate the contents exactly.",
  "all sequences of method calls, keys, values, closures, hash functions, concurrent histories and resizes",
  "doc examples check one literal call per method, on a map without pending resizes",
  ["src/map.rs:HashMap","src/map.rs:HashMapRef","src/map.rs:Keys","src/map.rs:Values"])
p("The shared counters of a resize never overflow or underflow",
  "During any number of concurrent resizes the counter of claimed slots stays within one chunk per thread of the size of the largest table, the counter of copied slots never exceeds the number of slots claimed nor the size of the table copied from, and the counter of parked waiters never goes below the number of waiters (so an unsigned machine counter neither wraps around nor goes below zero unless the chunk size times the number of threads is of the order of 2^64): no part of the table is handed out twice.",
  "all schedules of any number of threads, chunk sizes and both resize modes (copied slots: incremental mode)",
  "an overshoot needs all threads stopped between the check and the increment; an underflow needs a race between waking and registering",
  [R+":help_copy_incremental",R+":help_copy_blocking",R+":try_promote","src/raw/utils/parker.rs:Parker::park","src/raw/utils/parker.rs:Parker::unpark"])
p("A call that panics has no effect",
  "A single-key call that ends in a panic (the closure given to compute, update, update_or_insert_with, get_or_insert_with... panics, or compute is asked to remove an absent entry) leaves the map exactly as if it had never been made: every concurrent and later call behaves correctly, also when the panic happens after retries or in the middle of a resize, and the history with the call erased is still linearizable.",
  "all schedules, all moments at which the closure panics, hash functions, resizes; both resize modes",
  "the panic may strike at any retry of the loop, between any two steps of other threads; tests with panicking closures are rare and sequential",
  [R+":compute_with",R+":ComputeState::next","src/map.rs:HashMap::compute","src/map.rs:HashMap::update","src/map.rs:HashMap::get_or_insert_with"])
p("Entries of every key and value type can be stored",
  "For every key type and value type, including zero-sized types and types of alignment 1, 2 or 4 (HashSet<()>, HashMap<u8, bool>, HashMap<[u8; 4], u32>), an inserted entry is found again by get and a second insert of the same key replaces it, wherever the allocator places the entry.",
  "all sizes and alignments of keys and values, all addresses the allocator may return, all hashes and table sizes",
  "tests use word-aligned types and one allocator",
  [R+":Entry",R+":Entry::TOMBSTONE",R+":insert_inner",R+":get","src/raw/utils/tagged.rs:Unpack","src/raw/utils/tagged.rs:untagged"])
p("The table layout is memory safe",
  "Whenever a table can be allocated, every metadata byte and every entry pointer of it lies inside the allocation, is aligned and overlaps neither the header nor another cell, and deallocation passes the layout used for the allocation; a capacity that is too large panics or aborts instead.",
  "all requested capacities and table lengths, header sizes, 32- and 64-bit targets, release and debug arithmetic",
  "needs capacities near the size of the address space",
  ["src/raw/alloc.rs:Table::layout","src/raw/alloc.rs:Table::alloc","src/raw/alloc.rs:Table::meta","src/raw/alloc.rs:Table::entry","src/raw/alloc.rs:Table::dealloc","src/raw/probe.rs:entries_for"])
p("Published objects are initialised, also on weakly ordered machines",
  "Under release/acquire memory, with the memory orderings found in the code, a thread that obtains a pointer to an entry or to a table from the map (any load, failed or successful read-modify-write of the root, of a next-table pointer or of a slot) sees that object fully initialised: following the pointer never races with the initialisation.",
  "all executions of release/acquire memory (stale reads included) of any number of threads, tables and entries",
  "x86 hardware hides missing orderings; a test cannot enumerate the stale reads of a weaker machine",
  [R+":root",R+":insert_at",R+":update_at",R+":get_or_alloc_next",R+":init",R+":copy_at_incremental",R+":try_promote","src/raw/alloc.rs:Table::state"])
p("Whoever sees a finished resize sees every copied entry, also on weakly ordered machines",
  "Under release/acquire memory, with the memory orderings found in the code, a thread that has loaded the new table from the root, or has found the status of a resize to be promoted, never again reads a value older than the copy from a slot that an entry was copied to; and a table becomes the root only when every slot of the previous one has been copied.",
  "all executions of release/acquire memory (stale reads included) of any number of threads, helpers of the resize and tables",
  "x86 hardware hides missing orderings; a test cannot enumerate the stale reads of a weaker machine",
  [R+":try_promote",R+":help_copy_incremental",R+":help_copy_blocking",R+":insert_copy"])
p("Blocking mode does not deadlock unless a resize is given up",
  "In blocking mode, as long as no resize has had to be given up because the new table was too small for the entries copied to it, some thread can always take a step whenever a call is in progress, even if threads are never woken up spuriously: every thread that waits for a resize to finish is woken up when it does. (With a resize that is given up this is false, see C18.)",
  "all schedules, numbers of threads, hash functions and operations in blocking mode",
  "a lost wakeup shows only in particular interleavings of waiting and waking",
  [R+":help_copy_blocking",R+":try_promote","src/raw/utils/parker.rs:Parker::park","src/raw/utils/parker.rs:Parker::unpark"])
p("No lost wakeup with the memory orderings of the code",
  "With the memory orderings found in the code (SeqCst announcement, checks and release, Relaxed decrements, Acquire check after waking up) on weakly ordered machines: a thread that sleeps waiting for a copied entry or for the end of a resize is woken when the condition becomes true, however stale the counter read by the waking thread may be; once woken it finds the condition true at once; when the wait returns, the thread sees everything the releasing thread did before (happens-before); and the counter of waiters never goes below zero.",
  "all executions of weak memory with SeqCst accesses (stale reads included), any number of threads, keys, waits and releases, spurious wakeups",
  "on x86 the orderings make no difference to loads; the store-load race behind a lost wakeup needs one particular interleaving",
  ["src/raw/utils/parker.rs:Parker::park","src/raw/utils/parker.rs:Parker::unpark",R+":try_promote",R+":copy_at_incremental",R+":wait_copied"])
p("One key behaves like one atomic variable, also on weakly ordered machines",
  "Under release/acquire memory, with the memory orderings found in the code and incremental resizing, the successful writes to a key (insertions, updates, removals) form one sequence in which every writer replaces exactly the value before its own, by what its function says about that value; every call that only reads, or decides not to write, returns a value of that sequence; and no call returns or replaces a value older than any value that its thread knew of when the call started: the results of its own earlier calls, and those of threads it has synchronised with in any way. In particular no update is lost, no removed key reappears and no inserted key goes missing while tables are replaced.",
  "all executions of release/acquire memory (stale reads included), any number of threads, (nested) resizes, helpers of a resize, probe lengths, and other keys sharing slots and metadata bytes",
  "x86 hardware hides missing orderings; a test cannot enumerate the stale reads of a weaker machine",
  [R+":get",R+":insert_at",R+":update_at",R+":remove_if",R+":insert_inner",R+":compute_with",R+":copy_at_incremental",R+":insert_copy",R+":try_promote",R+":wait_copied"])
p("Reads never wait for other threads",
  "A get, len or iterator step (and, with blocking resizing, the creation of an iterator) returns whenever its own thread keeps getting steps, whatever the other threads do: it returns although other calls have stopped for ever in the middle of a resize, an allocation or an insertion, and it never panics. With incremental resizing a get could be kept busy only by threads that allocate new tables without end.",
  "all reachable states, all infinite continuations that give the calling thread infinitely many steps, any number of threads, both resize modes",
  "a test cannot stop other threads at every possible point, nor run an infinite schedule",
  [R+":get",R+":iter","src/raw/mod.rs:Iter::next","src/raw/utils/counter.rs:Counter::sum"])
p("Blocking calls that run alone end or allocate without bound",
  "With blocking resizing, a call that is made while no other call is running, and whose thread is then the only one to take steps, ends (returns, or panics), or allocates more tables than any given number: there is no other way of not returning. The calls that allocate no tables (get, remove, remove_if, clear, retain, len, creating and advancing an iterator) end. (That an insertion can indeed allocate tables without bound is the defect of C24.)",
  "all reachable states without a running call, all calls and arguments, all hash functions",
  "non-termination has no finite witness; a test can only wait for some time on some states",
  [R+":insert_inner",R+":compute_with",R+":help_copy_blocking",R+":copy_at_blocking",R+":get_or_alloc_next",R+":try_promote",R+":reserve"])
p("Incremental-mode calls that run alone end or allocate without bound",
  "With incremental resizing (and a chunk size other than 0), a call of any operation that is made while no other call is running, whether or not a resize is unfinished, and whose thread is then the only one to take steps, ends (returns, or panics), or allocates more tables than any given number: there is no other way of not returning. The single-key operations end. (That iter, clear, retain and reserve can indeed allocate tables without bound is the defect of C40; that with chunk size 0 they loop without allocating is the defect of C34.)",
  "all reachable idle states (any history of calls and schedules before), all operations, chunk sizes above 0, hash functions and capacities",
  "a test sees only particular states of the table; the loops that finish a resize depend on the counters left by all earlier calls",
  [R+":linearize",R+":help_copy_incremental",R+":clear",R+":retain",R+":reserve",R+":iter"])
p("With blocking resizing no resize outlives the calls that work on it",
  "With blocking resizing, whenever no call is running (calls whose caller-supplied closure panicked included among those that have ended), no resize is unfinished: the table in use is the last one ever allocated. As long as some resize is unfinished, a call that began it, or a later one, is still running and does not return before it is over.",
  "all schedules, numbers of threads, hash functions, operations and closures (panicking ones included); initial capacities that are powers of two or below 5 (any capacity if no call has panicked)",
  "a call returning too early leaves the resize to a later call only in particular interleavings of helpers, aborted copies and waiting threads",
  [R+":help_copy_blocking",R+":get_or_alloc_next",R+":try_promote",R+":prepare_retry_insert",R+":prepare_retry",R+":reserve"])
p("Blocking resizes lose no write, also on weakly ordered machines",
  "Under release/acquire memory, with the memory orderings found in the code and blocking resizing: a thread that takes a table for the current one (it loaded it as the root, was told of the promotion by the status, promoted it itself or lost the race to do so) knows of every write that ever succeeded in any table that was current before, and no further write to such a table can succeed; every entry that was left in an older table was copied, exactly once, and the thread does not find its new slot, nor the metadata of it, empty; it sees the contents of every entry it finds. A table whose copy was aborted for lack of room never becomes current and no thread uses it. A call never loads a root older than a table used before by its own thread or by one it has synchronised with.",
  "all executions of release/acquire memory (stale reads included), any number of writers, helpers, resizes, aborted tables and chunk sizes, any order of claims, copies, counts and promotions",
  "x86 hardware hides missing orderings; a test cannot enumerate the stale reads of a weaker machine, nor the interleavings of helpers",
  [R+":help_copy_blocking",R+":copy_at_blocking",R+":insert_copy",R+":try_promote",R+":get_or_alloc_next",R+":insert_at",R+":update_at",R+":root"])
p("len counts what happened before it, also on weakly ordered machines",
  "Although the shards of the counter are only accessed with relaxed orderings and a thread may see stale ones, every call of len counts a set of insertions and removals of keys which contains all that happened before the call (in the happens-before order of program order and synchronisation between threads), nothing that was counted after it returned, never a later update through a guard without the earlier ones through it, and everything that an earlier call of len counted which happened before it; it returns the number of counted insertions minus that of counted removals, or 0 if that is negative. If every insertion and removal made so far happened before the call, it returns exactly the number of keys in the map; if no removal is concurrent with it, at least the number of keys left by what happened before and at most the number left by everything counted before it returns (and the other way round if no insertion is concurrent).",
  "all executions of view-based relaxed memory, any number of threads, shards, guards, insertions, removals, concurrent calls of len, and any synchronisation between threads",
  "x86 hardware shows few stale reads; a test cannot enumerate them, nor the interleavings of the loads of the shards with updates",
  ["src/raw/utils/counter.rs:Counter::sum","src/raw/utils/counter.rs:Counter::get",R+":len",R+":insert_inner",R+":remove_if"])
p("The deferred-retirement stack is correct with relaxed accesses",
  "The stack of entries whose retirement is deferred uses only relaxed accesses. If everything pushed was pushed before the drain in the happens-before order (which exclusive access to the stack means), then the drain hands out exactly the values pushed, each once and the last one first, and never reads a node that another thread may still be writing (no data race), although pushing threads may read stale heads and their exchanges may fail any number of times.",
  "all executions of view-based relaxed memory, any number of pushing threads, pushes, failed attempts, and any synchronisation between threads",
  "x86 hardware shows few stale reads and data races are not observable there; a test cannot enumerate them",
  ["src/raw/utils/stack.rs:Stack::push","src/raw/utils/stack.rs:Stack::drain",R+":drop_table"])
with open("/verif/properties.jsonl","w") as f:
    for x in P: f.write(json.dumps(x)+"\n")
print(len(P))
