{"id": "C01", "title": "List is a sequence under every history", "statement": "After any sequence of new / push_front(_mut) / drop_first(_mut) / reverse(_mut) / from_iter, a List holds exactly the elements an ordinary sequence would hold after the same operations: iter() yields them in order, first() is the first, len() is their number, is_empty() is len()==0, drop_first returns None/false exactly on the empty list, and no operation panics.", "quantifier": "every element type, every finite history of operations, every element value", "why_tests_cant": "Unit tests run a handful of histories; the claim is about all of them, and the cached length can drift only on particular interleavings.", "anchors": ["src/list/mod.rs: List::{first,drop_first,drop_first_mut,push_front,push_front_mut,reverse,reverse_mut,len,is_empty,iter}, IterPtr"]}
{"id": "C02", "title": "List::last is always the last element", "statement": "In every reachable List, last() returns the final element of the sequence iter() yields, and None exactly when the list is empty, including after reversals in place and after dropping down to one element and growing again.", "quantifier": "every history of List operations", "why_tests_cant": "last() reads a cached pointer that each operation must maintain separately from the chain; a test only sees the histories it runs.", "anchors": ["src/list/mod.rs: List::last, drop_first_mut, push_front_ptr_mut, reverse_mut"]}
{"id": "C03", "title": "Stack is LIFO under every history", "statement": "After any sequence of push(_mut)/pop(_mut), Stack::peek is the most recently pushed element not yet popped, size() is the number of such elements, pop on empty is None/false, and iter() yields from most to least recent.", "quantifier": "every history of Stack operations", "why_tests_cant": "Infinite set of histories.", "anchors": ["src/stack/mod.rs: Stack::{peek,pop,pop_mut,push,push_mut,size,is_empty,iter}"]}
{"id": "C04", "title": "Queue is FIFO under every history", "statement": "After any interleaving of enqueue(_mut)/dequeue(_mut), elements leave in the order they entered: peek() is the oldest remaining element, dequeue removes exactly it, len() is exact, dequeue on empty is None/false, and nothing panics.", "quantifier": "every interleaving of enqueue and dequeue, every element type", "why_tests_cant": "The representation is two lists with a reversal triggered at history-dependent points; tests cover a few trigger points.", "anchors": ["src/queue/mod.rs: Queue::{peek,dequeue,dequeue_mut,enqueue,enqueue_mut,len,is_empty}"]}
{"id": "C05", "title": "Queue iteration is front to back with exact size", "statement": "For every reachable Queue, iter() yields all elements oldest first regardless of how they are split internally, and at every step the remaining-size hint equals the number of elements still to come.", "quantifier": "every reachable queue, every number of iterator steps", "why_tests_cant": "The split between the internal lists depends on the whole history.", "anchors": ["src/queue/mod.rs: Queue::iter, LazilyReversedListIter::{next,size_hint}"]}
{"id": "C06", "title": "Queue operations have constant amortised cost", "statement": "In every single-version history of n enqueue/dequeue operations starting from an empty queue, the total number of list nodes touched is at most a constant times n.", "quantifier": "every history of in-place operations", "why_tests_cant": "A cost bound over all histories cannot be sampled.", "anchors": ["src/queue/mod.rs: complexity table, dequeue_mut, enqueue_mut", "src/list/mod.rs: reverse_mut"]}
{"id": "C07", "title": "Vector is a sequence under every history", "statement": "After any sequence of push_back(_mut), drop_last(_mut), set(_mut), get_mut/IndexMut writes and extend on a Vector created with any supported number of bits, get(i)/first/last/len/iter agree with an ordinary array subjected to the same operations, and no internal panic, failed assertion or arithmetic overflow occurs (in debug or release arithmetic) as long as the length stays within what the trie capacity computation can represent.", "quantifier": "every bits value in 1..usize::BITS-1, every history, every length up to the representable capacity, both build profiles", "why_tests_cant": "Correctness hinges on digit arithmetic at every power-of-two boundary for every bits value; tests use bits 1..3 or 5 and small lengths.", "anchors": ["src/vector/mod.rs: Vector::{get,set,set_mut,assoc,push_back,push_back_mut,drop_last,drop_last_mut,compress_root,height,root_max_capacity,is_root_full,get_mut}, Node::{get,assoc,drop_last,get_mut}, vector_utils"]}
{"id": "C08", "title": "Vector bounds behaviour is exact", "statement": "get/get_mut return None, set returns None and set_mut returns false exactly when index >= len(); Index/IndexMut panic exactly then; a failed set changes nothing.", "quantifier": "every reachable vector and every index", "why_tests_cant": "Unbounded indices and lengths.", "anchors": ["src/vector/mod.rs: get, set, set_mut, get_mut, Index, IndexMut"]}
{"id": "C09", "title": "Vector iterators may be consumed from both ends in any order", "statement": "For every reachable Vector and every interleaving of next() and next_back(), the outputs are those of a double-ended traversal of the sequence: each element is yielded exactly once, front calls see the leftmost remaining, back calls the rightmost remaining, then None forever; the size hint is exact after every call and nothing panics.", "quantifier": "every reachable vector, every interleaving of next/next_back of every length", "why_tests_cant": "Two independent cursor stacks meet at a data-dependent place; interleavings are exponential.", "anchors": ["src/vector/mod.rs: IterPtr::{next,next_back,size_hint,dig,advance,init_if_needed}, IterStackElement"]}
{"id": "C10", "title": "Vector trie has minimal height", "statement": "In every reachable Vector of length n the number of levels traversed by any access is exactly the least h with (2^bits)^h >= n (at least one), so access cost is logarithmic in the length, even after drop_last shrinks it.", "quantifier": "every reachable vector, every bits value", "why_tests_cant": "A structural bound over all histories.", "anchors": ["src/vector/mod.rs: height, compress_root, is_root_full"]}
{"id": "C11", "title": "Which bits values Vector::new_with_bits accepts and supports", "statement": "new_with_bits panics exactly for 0. Every 0 < bits < usize::BITS gives a vector that behaves as a sequence (C07) up to an exact capacity. Every bits >= usize::BITS is accepted too but is unusable: with overflow checks the first push panics, and without them the vector is corrupted as soon as it outgrows its first leaf (get(1) panics, or get(0) returns the second element).", "quantifier": "every bits value, both overflow-checking profiles, every element list", "why_tests_cant": "Depends on shift overflow at machine-word width, in both overflow-checking profiles; no test uses bits >= 64.", "anchors": ["src/vector/mod.rs: new_with_bits, vector_utils::{degree,mask,bucket}, root_max_capacity"]}
{"id": "C12", "title": "HashTrieMap is a finite map under every history and every hasher", "statement": "After any sequence of insert(_mut)/remove(_mut)/get_mut writes, get, get_key_value, contains_key, Index and size agree with an ordinary finite map subjected to the same operations, for every hash function compatible with key equality (including constant ones) and every supported degree; remove_mut's result is whether the key was present.", "quantifier": "every key and value type, every equivalence-respecting hash function, every degree in {2,4,...,usize::BITS}, every history", "why_tests_cant": "Tests use one or two hashers; the claim is over all hash functions and all collision patterns.", "anchors": ["src/map/hash_trie_map/mod.rs: HashTrieMap::{get,get_key_value,insert,insert_mut,remove,remove_mut,contains_key,size,get_mut}, Node::*, Bucket::*, node_utils::index_from_hash"]}
{"id": "C13", "title": "HashTrieMap iteration is complete, duplicate free and exactly sized", "statement": "iter() (and keys(), values()) yields every live entry exactly once and nothing else, and before every step the size hint is the exact number of entries left.", "quantifier": "every reachable map, every prefix of the iteration", "why_tests_cant": "Depends on tree shape, which depends on hasher and history.", "anchors": ["src/map/hash_trie_map/mod.rs: IterPtr::{new,next,size_hint}, IterStackElement::{new,next}, keys, values"]}
{"id": "C14", "title": "HashTrieMap never hits its internal panics and keeps its documented invariants", "statement": "In every reachable map the documented invariants hold (only the root may be empty, collisions only at maximum depth with at least two entries, non-root branches have at least two entries beneath them), recursion depth is bounded by the number of hash digits, and none of the internal expect/unreachable/index/debug_assert panics is reachable.", "quantifier": "every history, hasher and supported degree, both build profiles", "why_tests_cant": "Invariant over all reachable states.", "anchors": ["src/map/hash_trie_map/mod.rs: Node::{insert,remove,compress,is_empty}, Bucket::{insert,remove}, SparseArrayUsize"]}
{"id": "C15", "title": "Inserting an equal key replaces the stored key and value", "statement": "insert(k,v) where an equal key is present replaces both the stored key and value by the new ones, leaves size unchanged and leaves all other entries untouched; the same for both map kinds and for set insert/get.", "quantifier": "every reachable map/set, all keys equal but distinguishable", "why_tests_cant": "Requires quantifying over equality relations coarser than identity.", "anchors": ["src/map/hash_trie_map/mod.rs: Bucket::insert", "src/map/red_black_tree_map/mod.rs: Node::insert", "src/set/hash_trie_set/mod.rs: insert,get", "src/set/red_black_tree_set/mod.rs: insert,get"]}
{"id": "C16", "title": "Which degrees HashTrieMap accepts and supports", "statement": "new_with_degree panics exactly when the degree is not a power of two or exceeds usize::BITS. For every accepted degree of at least 2 all operations terminate. Degree 1 is accepted too, but inserting a second, different key never returns, whatever the keys and the hasher.", "quantifier": "every degree, every pair of keys, every history", "why_tests_cant": "Termination for all inputs; degree 1 is accepted but no test inserts two keys with it.", "anchors": ["src/map/hash_trie_map/mod.rs: new_with_hasher_and_degree_and_ptr_kind, node_utils::index_from_hash, Node::insert"]}
{"id": "C17", "title": "HashTrieMap equality is extensional", "statement": "m1 == m2 exactly when they hold equal keys mapped to equal values, independently of insertion order, hasher instance, degree, tree shape or physical sharing; for lawful value equality it is an equivalence relation.", "quantifier": "every pair of reachable maps with possibly different hash functions and degrees, every value equality", "why_tests_cant": "Equality short-circuits on pointer identity and then iterates one side; needs all pairs of shapes.", "anchors": ["src/map/hash_trie_map/mod.rs: PartialEq::eq, ptr_eq"]}
{"id": "C18", "title": "Sparse array is a partial function on indices", "statement": "After any sequence of set/remove on the bitmap-compressed array, get(i) returns the last value set at i and not removed, first/iter enumerate in index order, size is the number of set indices, and no index panics for i < usize::BITS.", "quantifier": "every history, every index below the word width, word widths 16/32/64", "why_tests_cant": "2^64 bitmaps.", "anchors": ["src/map/hash_trie_map/sparse_array_usize/mod.rs: SparseArrayUsize::{get,get_mut,set,remove,size,first,iter}, map_index, rank"]}
{"id": "C19", "title": "Parallel iteration visits every entry exactly once under every schedule", "statement": "However rayon chooses to split the producer, the multiset of entries handed to folders equals the entries of the map, each exactly once, and concatenating in split order gives the sequential order; a folder that reports full receives a prefix of its share.", "quantifier": "every reachable map, every binary tree of split decisions, every folder", "why_tests_cant": "Split decisions are scheduler dependent.", "anchors": ["src/map/hash_trie_map/rayon.rs: HashTrieMapProducer::{new,from_nodes,from_node,split,fold_with,fold_node_entries,fold_all_entries}"]}
{"id": "C20", "title": "HashTrieSet relations mean what set theory says", "statement": "contains, is_subset, is_superset, is_disjoint and == of HashTrieSets agree with the mathematical relations on the sets of elements, for sets with different hashers and degrees.", "quantifier": "all pairs of reachable sets", "why_tests_cant": "All pairs.", "anchors": ["src/set/hash_trie_set/mod.rs: contains,is_disjoint,is_subset,is_superset,eq"]}
{"id": "C21", "title": "RedBlackTreeMap is a finite map under every history", "statement": "After any sequence of insert(_mut)/remove(_mut)/get_mut writes, get/get_key_value/contains_key/size agree with an ordinary finite map, for every lawful Ord, and with queries through any Borrow view ordered consistently; remove_mut's result is whether the key was present; removing an absent key changes no observable.", "quantifier": "every key type with a lawful total order (equality may be coarser than identity), every history", "why_tests_cant": "Rebalancing has dozens of shape cases reached only by particular histories.", "anchors": ["src/map/red_black_tree_map/mod.rs: RedBlackTreeMap::{get,get_key_value,insert,insert_mut,remove,remove_mut,contains_key,size,get_mut}, Node::*"]}
{"id": "C22", "title": "RedBlackTreeMap iteration is sorted, complete, double-ended and exactly sized", "statement": "For every reachable map and every interleaving of next and next_back on iter(), outputs are those of a double-ended traversal of the entries in strictly ascending key order, each exactly once, with an exact size hint at every step.", "quantifier": "every reachable map, every interleaving", "why_tests_cant": "Exponentially many interleavings, all shapes.", "anchors": ["src/map/red_black_tree_map/mod.rs: IterPtr, RangeIterPtr, iter_utils::IterStack"]}
{"id": "C23", "title": "RedBlackTreeMap first and last are the minimum and maximum", "statement": "first()/last() return the entries with the least/greatest key and None exactly on the empty map.", "quantifier": "every reachable map", "why_tests_cant": "All shapes.", "anchors": ["src/map/red_black_tree_map/mod.rs: first,last"]}
{"id": "C24", "title": "range yields exactly the entries within the bounds", "statement": "range(b) panics exactly when start > end, or start == end with both excluded; otherwise any interleaving of next/next_back yields, in order from the respective end and each exactly once, precisely the entries whose keys satisfy both bounds, then None forever.", "quantifier": "every reachable map, every pair of bounds (included/excluded/unbounded), every interleaving", "why_tests_cant": "All bound combinations times all shapes times all interleavings.", "anchors": ["src/map/red_black_tree_map/mod.rs: range, RangeIterPtr::{next,next_back,is_remaining_range_empty}, IterStack::{new,dig,dig_towards,advance,clear_if_finished}"]}
{"id": "C25", "title": "RedBlackTreeMap stays a balanced red-black tree", "statement": "In every reachable map: keys are strictly ordered, the root is black, no red node has a red child, all paths have the same number of black nodes, the height is at most 2*log2(n+1), and no recursive descent or iterator stack exceeds the capacity computed by conservative_height; hence lookups touch O(log n) nodes.", "quantifier": "every history of inserts and removes (including of absent keys)", "why_tests_cant": "Invariant over all histories.", "anchors": ["src/map/red_black_tree_map/mod.rs: balance, insert, remove_fuse, remove_balance, remove_balance_left, remove_balance_right, remove, iter_utils::{lg_floor,conservative_height}"]}
{"id": "C26", "title": "RedBlackTreeMap never hits its internal panics", "statement": "No unwrap, unreachable! or debug_assert inside insertion, removal, balancing or iteration can fire on any reachable map.", "quantifier": "every history, every key", "why_tests_cant": "Unreachable-code claims are universally quantified.", "anchors": ["src/map/red_black_tree_map/mod.rs: remove_balance_left, remove_balance_right, remove_balance, balance"]}
{"id": "C27", "title": "RedBlackTreeMap/Set equality, ordering and hashing are consistent", "statement": "For lawful element traits: == is extensional equality of the maps; cmp/partial_cmp is the lexicographic order of the sorted entries, a total order with Equal exactly when ==; equal maps feed identical data to any Hasher.", "quantifier": "all pairs/triples of reachable maps", "why_tests_cant": "All pairs of shapes.", "anchors": ["src/map/red_black_tree_map/mod.rs: PartialEq, PartialOrd, Ord, Hash", "src/set/red_black_tree_set/mod.rs: PartialEq, PartialOrd, Ord, Hash"]}
{"id": "C28", "title": "Sequence equality, ordering and hashing are consistent", "statement": "For List, Stack, Queue, Vector: == is elementwise equality independent of internal layout; cmp is the lexicographic total order; Equal iff ==; equal collections feed identical data to a Hasher.", "quantifier": "all pairs of reachable collections", "why_tests_cant": "Internal layout depends on history.", "anchors": ["src/list/mod.rs: PartialEq,PartialOrd,Ord,Hash", "src/queue/mod.rs: same", "src/stack/mod.rs: same", "src/vector/mod.rs: same"]}
{"id": "C29", "title": "Hash feeds are self delimiting", "statement": "Feeding two collections one after the other to a Hasher is unambiguous: if the feeds of two sequences of collections coincide then the collections are pairwise equal (given element feeds are themselves self delimiting).", "quantifier": "all lists of collections", "why_tests_cant": "Injectivity over an infinite domain.", "anchors": ["src/list/mod.rs: Hash::hash comment", "src/queue/mod.rs: Hash", "src/vector/mod.rs: Hash", "src/map/red_black_tree_map/mod.rs: Hash", "src/set/red_black_tree_set/mod.rs: Hash"]}
{"id": "C30", "title": "RedBlackTreeSet relations mean what set theory says", "statement": "contains, is_subset, is_superset, is_disjoint, ==, first, last and range of RedBlackTreeSets agree with the mathematical notions on the sets of elements.", "quantifier": "all pairs of reachable sets", "why_tests_cant": "The merge loops step through two iterators in data-dependent order.", "anchors": ["src/set/red_black_tree_set/mod.rs: is_disjoint,is_subset,is_superset,get,contains,first,last,range"]}
{"id": "C31", "title": "Serialisation round trips", "statement": "Serialize announces the exact length and writes the items in iteration order. Deserialising what serialize produced yields a collection equal to the original (same order for sequences, same entries for maps and sets, whatever the hasher or degree), of entries with equal keys the last one counts, and a deserialiser that fails midway yields the error and no collection. List, Stack and Queue trust the announced size hint: one no buffer can have makes them panic.", "quantifier": "every reachable collection of each kind, every element codec", "why_tests_cant": "All collections.", "anchors": ["src/list/mod.rs: serde", "src/queue/mod.rs: serde", "src/stack/mod.rs: serde", "src/vector/mod.rs: serde", "src/map/hash_trie_map/mod.rs: serde", "src/map/red_black_tree_map/mod.rs: serde", "src/set/red_black_tree_set/mod.rs: serde", "src/set/hash_trie_set/mod.rs: serde"]}
{"id": "C32", "title": "Display shows exactly the iterated contents", "statement": "fmt writes the opening delimiter, the elements in iteration order separated by ', ' (maps: 'k: v'), and the closing delimiter, for every collection; a write error stops it immediately.", "quantifier": "every reachable collection, every element formatter", "why_tests_cant": "All collections.", "anchors": ["src/list/mod.rs: Display", "src/queue/mod.rs: Display", "src/stack/mod.rs: Display", "src/vector/mod.rs: Display", "src/map/hash_trie_map/mod.rs: Display", "src/map/red_black_tree_map/mod.rs: Display", "src/set/red_black_tree_set/mod.rs: Display", "src/set/hash_trie_set/mod.rs: Display"]}
{"id": "C33", "title": "Construction macros and FromIterator preserve order and last-write-wins", "statement": "list!/vector!/queue! and from_iter produce collections iterating in argument order; stack! pushes left to right; map/set constructors keep the last value for equal keys.", "quantifier": "every finite argument sequence", "why_tests_cant": "All lengths and duplicate patterns.", "anchors": ["src/list/mod.rs: list_reverse!, from_iter", "src/queue/mod.rs: queue!, from_iter", "src/vector/mod.rs: vector!, from_iter, extend", "src/map/hash_trie_map/mod.rs: from_iter", "src/map/red_black_tree_map/mod.rs: from_iter"]}
{"id": "C34", "title": "Persistence of List, Stack and Queue", "statement": "No operation on one List/Stack/Queue value, in-place or not, changes what any other live value (clone or earlier version, sharing nodes with it) observes.", "quantifier": "every program over any number of variables made of clone, drop, in-place and persistent operations, on a heap with reference-counted sharing", "why_tests_cant": "Aliasing errors show only for particular sharing patterns; all programs are quantified.", "anchors": ["src/list/mod.rs: Clone, drop_first_mut, push_front_ptr_mut, reverse_mut (make_mut), Drop", "src/queue/mod.rs: Clone, dequeue_mut"]}
{"id": "C35", "title": "Persistence of Vector", "statement": "Same as C34 for Vector, including get_mut writes through copy-on-write nodes and values.", "quantifier": "every multi-version program", "why_tests_cant": "Sharing patterns.", "anchors": ["src/vector/mod.rs: make_mut uses in assoc, drop_last, get_mut, push_back_mut, drop_last_mut, Clone for Node"]}
{"id": "C36", "title": "Persistence of HashTrieMap", "statement": "Same as C34 for HashTrieMap/HashTrieSet, including collision buckets (shared Lists) and get_mut.", "quantifier": "every multi-version program", "why_tests_cant": "Sharing patterns.", "anchors": ["src/map/hash_trie_map/mod.rs: make_mut uses in insert, remove, get_mut, compress, utils::replace, value_mut"]}
{"id": "C37", "title": "Persistence of RedBlackTreeMap", "statement": "Same as C34 for RedBlackTreeMap/Set: balancing and fusing in place never disturbs a shared subtree.", "quantifier": "every multi-version program", "why_tests_cant": "Sharing patterns times rebalancing cases.", "anchors": ["src/map/red_black_tree_map/mod.rs: balance, remove_fuse, remove_balance_left/right, make_mut uses, utils::replace"]}
{"id": "C38", "title": "Reference counts are exact: no leak, no dangling pointer, no double free", "statement": "At every point of every program the count of each heap cell equals the number of pointers to it, every pointer is live, and when the last collection is dropped no cell remains.", "quantifier": "every program and every point in it", "why_tests_cant": "All programs.", "anchors": ["src/list/mod.rs: Drop, try_unwrap", "archery SharedPointer::{new,clone,make_mut,try_unwrap,drop}", "src/utils/mod.rs: replace"]}
{"id": "C39", "title": "Dropping a List does not recurse along its length in one thread; a race between threads, or an element that panics when dropped, makes it", "statement": "In one thread, no program over Lists, Stacks or Queues of any length and any sharing ever has more than three calls of drop glue on the stack, and dropping a list never more than one. For a list shared between threads this fails: for every n there are a program and a schedule of two threads dropping clones of one list after which a thread is n+1 calls deep. It also fails in one thread if the Drop of an element panics: for every n and every j < n, dropping a list of n+1 elements the j-th of which panics nests at least n-j calls deep while unwinding; nothing is leaked.", "quantifier": "every program, length and sharing pattern in one thread; every n for the schedule; every length and position for the panic", "why_tests_cant": "Tests drop one long list single-threaded; the race needs a precise interleaving, and no test drops elements that panic.", "anchors": ["src/list/mod.rs: Drop for List"]}
{"id": "C40", "title": "Sync variants: threads working on their own clones do not interfere", "statement": "If several threads each own clones of Arc-based collections and run arbitrary operations on them, then under every interleaving of the atomic pointer operations each thread's results are those of running alone.", "quantifier": "every number of threads, every program, every interleaving (sequentially consistent)", "why_tests_cant": "Schedules cannot be enumerated by tests.", "anchors": ["src/lib.rs: thread safety", "src/list/mod.rs: ListSync", "src/vector/mod.rs: VectorSync", "src/map/hash_trie_map/mod.rs: HashTrieMapSync", "src/map/red_black_tree_map/mod.rs: RedBlackTreeMapSync"]}
{"id": "C41", "title": "ptr_eq is sound and detects clones", "statement": "A map is ptr_eq to itself and to a fresh clone; ptr_eq maps always hold the same entries; remove of an absent key returns a map ptr_eq to the original; insert on a shared map gives one that is not ptr_eq to it.", "quantifier": "every reachable pair of maps", "why_tests_cant": "All sharing histories.", "anchors": ["src/map/hash_trie_map/mod.rs: ptr_eq, remove", "src/map/red_black_tree_map/mod.rs: ptr_eq, remove", "src/set/hash_trie_set/mod.rs: ptr_eq", "src/set/red_black_tree_set/mod.rs: ptr_eq"]}
{"id": "C42", "title": "Structural sharing: updates copy only the path to the change", "statement": "A persistent insert/remove/set/push allocates a number of new nodes bounded by a constant times the depth of the touched path, independent of the size of the collection.", "quantifier": "every reachable collection", "why_tests_cant": "Cost bound over all states.", "anchors": ["src/vector/mod.rs: assoc", "src/map/hash_trie_map/mod.rs: insert", "src/map/red_black_tree_map/mod.rs: insert", "src/list/mod.rs: push_front"]}
{"id": "C43", "title": "A panic in user code caught during a map call", "statement": "If the key's Ord/Eq/Hash or a Clone panics during a call on a map and the panic is caught: a RedBlackTreeMap is exactly what it was before, for any comparison; a HashTrieMap keeps its size and degree and can lose only entries whose hash equals that of the key worked on in place, none if at most one entry has that hash, and then every later history answers as if the interrupted call had not been made. With two or more entries of that hash the map is damaged (remove_mut/get_mut interrupted at the first comparison always lose an entry from the trie without changing size, and a later remove_mut can hit unreachable!): this is a proved refutation of the intact-map claim.", "quantifier": "every reachable map, every operation, every call to user code at which it may panic (crash point), every history with any subset of calls interrupted", "why_tests_cant": "Every crash point of every operation.", "anchors": ["src/map/hash_trie_map/mod.rs: bucket_utils::list_remove_first", "src/map/red_black_tree_map/mod.rs: ins, del"]}
{"id": "C44", "title": "get_mut touches only the addressed value", "statement": "get_mut(k) returns a reference exactly when k is present; writing through it changes that key's value only, keeps the stored key, size and all other entries; for maps and Vector.", "quantifier": "every reachable map/vector, every key/index, every written value", "why_tests_cant": "All states; the hash map reorders collision buckets on this path.", "anchors": ["src/map/hash_trie_map/mod.rs: Bucket::get_mut, list_remove_first, first_mut", "src/map/red_black_tree_map/mod.rs: Node::get_mut", "src/vector/mod.rs: Node::get_mut"]}
{"id": "C45", "title": "What map equality answers for an arbitrary PartialEq of the values", "statement": "map == map is true exactly when the maps share their root or are equal entry by entry, for every PartialEq of the values, reflexive or not; without sharing partial_cmp is Some(Equal) exactly when == is true. So for values equal to themselves the answer depends on the entries alone, and whenever a stored value is not equal to itself (NaN) a map equals its clone but not an unshared copy of itself, and partial_cmp with itself is not Some(Equal).", "quantifier": "every value equality relation, every pair of maps, shared or not", "why_tests_cant": "Depends on physical sharing, invisible to example tests.", "anchors": ["src/map/hash_trie_map/mod.rs: PartialEq::eq (ptr_eq shortcut)", "src/map/red_black_tree_map/mod.rs: PartialEq::eq, PartialOrd::partial_cmp"]}
{"id": "C46", "title": "A HashTrieMap's trie is determined by its contents", "statement": "Two maps of the same degree and hasher that hold the same entries have the same trie whatever histories produced them -- the same branches with the same occupied positions and the same leaves -- except for the order inside collision buckets and for the root of a one-entry map, which is a branch or a leaf. Hence their iteration order is the same if no two keys have the same 64-bit hash (with a collision it can depend on the history).", "quantifier": "every two histories, hasher and supported degree", "why_tests_cant": "Quantifies over pairs of arbitrary histories; a missing compression after a removal is invisible to lookups and to iteration as a set.", "anchors": ["src/map/hash_trie_map/mod.rs: Node::{insert,remove,compress}, Bucket::{insert,remove}", "src/map/hash_trie_map/sparse_array_usize/mod.rs"]}
{"id": "C47", "title": "Maps with lawless user code stay well formed", "statement": "With an Ord, Borrow, Clone and RangeBounds that answer anything -- inconsistently, differently at every call, panicking -- a RedBlackTreeMap never panics by itself, keeps its size and its red-black shape, asks at most 2*log2(size+1) comparisons per call and does exactly what the answers say (insert adds one entry or replaces the one called equal, remove takes out the one called equal, a caught panic changes nothing); iterating from one end gives every entry once without calling user code, iterating from both ends gives none twice. A HashTrieMap does likewise for arbitrary Hash, Borrow and Clone as long as Eq does not panic and repeats its answer when the same question is asked again at once; without that the size can go wrong and unreachable! can be hit.", "quantifier": "every stateful user code, every history with any caught panics, every iteration order", "why_tests_cant": "Quantifies over all possible user code including adversarial, stateful implementations; tests can only try a few.", "anchors": ["src/map/red_black_tree_map/mod.rs: Node::{get,get_mut,insert,remove}, RangeIterPtr", "src/map/hash_trie_map/mod.rs: Node::{get,get_mut,insert,remove}, Bucket, list_remove_first"]}
{"id": "C48", "title": "Dropping a tree recurses at most along its height", "statement": "Whatever versions of a RedBlackTreeMap or RedBlackTreeSet exist and however threads share, change and drop them, no thread ever has more than 2*log2(n+1)+2 calls of drop glue on its stack after n calls, and dropping one version nests at most 2*log2(size+1)+1 deep; for a Vector the bound is the number of base 2^bits digits of a machine word plus one, whatever its length. For a HashTrieMap or HashTrieSet used by one thread the bound is the number of base-degree digits of a hash plus three, however many keys collide; when two threads drop maps whose collision buckets share a tail, a schedule exceeds that bound.", "quantifier": "every program, any number of threads and every schedule (vector, red-black); every sequential program, hash function and degree (hash trie)", "why_tests_cant": "Stack depth over all sharing patterns and interleavings; tests drop a few trees and only see whether the stack happened to overflow.", "anchors": ["src/vector/mod.rs: Node, Vector::height", "src/map/red_black_tree_map/mod.rs: Node", "src/map/hash_trie_map/mod.rs: Node, Bucket, HASHER_RESULT_BITWIDTH", "src/list/mod.rs: Drop for List"]}
{"id": "C49", "title": "How often the maps call user code", "statement": "Every HashTrieMap call that is given a key hashes it exactly once, first, and then compares it only with keys of the map that have the same 64-bit hash: with none if there are none; a lookup or removal with each at most once; an insertion with each at most twice, except that the first key inserted with the hash of one other is compared with it up to once per level plus two. get_mut clones an entry only if it found one that is shared; no other call clones. A RedBlackTreeMap call compares its key at most 2*log2(size+1) times.", "quantifier": "every reachable map, every hasher and supported degree, every call", "why_tests_cant": "A bound on the number of user-code calls in the worst case over all maps; a rehash on descent, a comparison across different hashes or a scan of a neighbouring bucket leaves every answer correct.", "anchors": ["src/map/hash_trie_map/mod.rs: Node::{get,get_mut,insert,remove}, Bucket, EntryWithHash::{new,matches}", "src/map/red_black_tree_map/mod.rs: Node::{get,insert,remove}"]}
{"id": "C50", "title": "The documented complexities: how many pointer operations calls make", "statement": "Counting every allocation, pointer clone, pointer drop, read and write of a shared cell as one step: whatever versions of a collection a program keeps and however threads share, change and drop them, all steps of all threads together are at most the sum over the calls made of a price per call: a constant for List, Stack and Queue calls other than reverse, from_iter and dequeue (linear in the length), a constant times 2^bits per level of a Vector, a constant times log2(n+1) for a RedBlackTreeMap or Set, for a HashTrieMap or Set a number that depends on the degree and on how many entries have the very same hash as the key but not on the size, and a constant for clone and drop of every collection. A call that changes a collection in place or looks something up takes at most so many steps by itself in every state a program can reach, and clone takes a constant number.", "quantifier": "every program over any number of versions, any number of threads, every schedule; every reachable state and call", "why_tests_cant": "A cost bound over all sharing patterns and schedules: a call that copies, reverses or walks more than it has to gives the same answers, and a benchmark sees only the shapes it builds.", "anchors": ["src/list/mod.rs: complexity table, List", "src/stack/mod.rs: complexity table", "src/queue/mod.rs: complexity table", "src/vector/mod.rs: complexity table", "src/map/red_black_tree_map/mod.rs: complexity table", "src/set/red_black_tree_set/mod.rs: complexity table", "src/map/hash_trie_map/mod.rs: complexity table", "src/set/hash_trie_set/mod.rs: complexity table"]}
{"id": "C51", "title": "Iterators held while other versions change", "statement": "A program, or any thread of one, may hold any number of iterators (iter of every collection, range of the ordered ones) over the versions it has and call them in any order, from either end where both exist, while it and other threads change, clone and drop other versions that share nodes with them; the borrow rule keeps only the iterated version itself from being changed or dropped. Every iterator then delivers exactly what its version held when the iterator was made (in order; ascending for the ordered maps and sets, the entries within the bounds for a range; in some order for the hash ones), with exact size hints where it has them, and None ever after; making or calling one never fails and changes no cell and no reference count; and a call reads at most 2 cells for List and Stack, length + 2 for Queue, 7 per level for Vector, 3 per level + 11 for RedBlackTreeMap and Set including ranges, 3 per hash digit + 3 for HashTrieMap and Set; making one reads none (hash: one).", "quantifier": "every program over any number of versions and iterators that keeps the borrow rule, any number of threads, every schedule; every reachable state and call of an iterator", "why_tests_cant": "Iterators hold bare references into shared nodes; whether some change to another version under some schedule writes to, moves or frees a node that an iterator still has to visit depends on the sharing pattern and the interleaving, and a test sees only the few it builds.", "anchors": ["src/list/mod.rs: IterPtr", "src/stack/mod.rs: iter", "src/queue/mod.rs: iter, LazilyReversedListIter", "src/vector/mod.rs: IterPtr", "src/map/red_black_tree_map/mod.rs: iter, range, IterPtr, RangeIterPtr", "src/set/red_black_tree_set/mod.rs: iter, range", "src/map/hash_trie_map/mod.rs: iter, IterPtr", "src/set/hash_trie_set/mod.rs: iter"]}
{"id": "C52", "title": "Values are released promptly and a version takes little space", "statement": "After any program over any number of versions (cloned, changed by value and in place, dropped, handed to threads that have finished), a value or entry is stored in the heap at most as often as it occurs in the versions the program still has: what was popped, overwritten, removed or dropped from every version is in no cell any more, and no version stores a value twice. All the cells that are live number at most the sum over these versions, sharing not even counted, of 2n for List, Stack, Queue, RedBlackTreeMap and RedBlackTreeSet, n + n/(2^bits - 1) + levels for Vector, and 4n + n*digits/2 + 1 for HashTrieMap and HashTrieSet.", "quantifier": "every program over any number of versions and threads, every schedule, every property of values, every size", "why_tests_cant": "A value kept alive by a cached pointer, a reversed list not emptied or a node left behind shows only in the state of the heap after particular histories of sharing; tests that count drops try a few.", "anchors": ["src/list/mod.rs: drop_first_mut, push_front_ptr_mut, reverse_mut, Drop", "src/queue/mod.rs: dequeue_mut", "src/vector/mod.rs: drop_last_mut, set_mut, compress_root", "src/map/red_black_tree_map/mod.rs: remove_mut, insert_mut", "src/map/hash_trie_map/mod.rs: remove, insert, Bucket", "src/set/hash_trie_set/mod.rs: remove_mut", "src/set/red_black_tree_set/mod.rs: remove_mut"]}
{"id": "C53", "title": "Queue calls are constant time on average", "statement": "Counting steps on the shared heap, every call on a queue is charged a constant that does not depend on how many elements the queue holds (enqueue_mut 23, enqueue 33, dequeue_mut 7, dequeue 17, peek 2, len and is_empty 0, drop 6; collecting 12 per element, iterating 2 per element), and all the steps that all calls of all threads of a program make together are at most the sum of the charges. Only clone is charged by the size (11 per element, 4), since the version it makes may have to be reversed again, and no constant would do: the amortised constant the documentation gives for dequeue does not hold together with a constant for clone. In particular a program without clones takes at most 33 steps for each enqueue, dequeue, peek and drop, however long it is.", "quantifier": "every program over any number of queues and versions, any number of threads, every schedule, every element type", "why_tests_cant": "One dequeue may take time linear in the size; that the expensive ones are always paid for by the calls before them, in whatever order elements come in and go out and whatever versions share the two lists, is a statement about all histories. A timing test sees one.", "anchors": ["src/queue/mod.rs: enqueue_mut, dequeue_mut, peek", "src/list/mod.rs: reverse_mut, drop_first_mut", "src/queue/mod.rs: documentation table"]}
{"id": "C54", "title": "A caught panic of user code stays in the version it hits, also when versions share memory", "statement": "Let a client of RedBlackTreeMap or HashTrieMap catch panics of user code (comparisons; hashing; clones of keys and values that get_mut makes when an entry is shared) and carry on, with many versions that share cells, on any number of threads. Whichever user call of whichever call unwinds, the version the call was made on keeps the entries it had before the call, every other version keeps its own, every later call answers accordingly, no count of any cell is ever wrong, a cell is freed exactly when its last pointer goes away, what the unwound call had copied or cloned stays with the version it belongs to or is freed, and nothing is left when all versions are dropped. There is one exception: a call of HashTrieMap that works in place, while at least two entries of its version have the hash of its key, may lose some of those; that version then answers for what is left and reports the size it had, the versions it shares with keep everything, and the counts are right all the same. A call can only unwind if it makes that many user calls: for RedBlackTreeMap at most one for each of 2 log2(size+1) levels and two clones, for HashTrieMap at most digits + 2 * (entries with the hash) + 3.", "quantifier": "every program over any number of map versions and threads, every schedule, every choice of which user call of which call unwinds, all key and value types, all orders and hashes that satisfy the laws, every supported degree", "why_tests_cant": "A panic can strike after any number of comparisons, when any part of the path has been copied and any part is still shared. What has to be given back depends on all of these; a test checks some of the points and cannot see a count that is wrong.", "anchors": ["src/map/red_black_tree_map/mod.rs: insert, remove, get_mut, insert_mut, remove_mut", "src/map/hash_trie_map/mod.rs: insert, remove, get, get_mut, insert_mut, remove_mut, list_remove_first", "SharedPointer::make_mut"]}
{"id": "C55", "title": "After a caught panic in the Drop of an element, key or value", "statement": "A client whose elements, keys or values may panic when they are dropped catches the panic and goes on using the collection. For List, Stack and Queue the interrupted call has done all its work, and so has Vector::set_mut: all later answers are those of the history without panics. Vector::drop_last_mut leaves the length one too great; get of the last position then panics, the others are right, and set_mut of the last position mends the vector. RedBlackTreeMap::insert_mut has done all its work; remove_mut leaves the size as it was, may lose other entries too (of the root's key: all but at most four), and what is left is in order and found by lookups, but later calls may panic. HashTrieMap::insert_mut has done its work unless another key in the map has the same hash, in which case the old entry is lost and the new one is not in; remove_mut loses just the entry asked for, leaves the size as it was, and a lookup of a key with the same hash may panic afterwards. Operations that drop nothing are not affected.", "quantifier": "all element, key and value types, all histories, any subset of the calls panicking; all supported bits, degrees, hashers, orders; both build profiles", "why_tests_cant": "The harm depends on where in which tree the entry sits, on which nodes were merged when the drop happened, and on what is called afterwards. Drops that panic are not in any test of the crate.", "anchors": ["src/list/mod.rs: drop_first_mut", "src/queue/mod.rs: dequeue_mut", "src/vector/mod.rs: Node::drop_last, set_mut, drop_last_mut", "src/map/red_black_tree_map/mod.rs: Node::insert, remove_fuse, Node::remove, insert_mut, remove_mut", "src/map/hash_trie_map/mod.rs: Bucket::insert, Bucket::remove, Node::insert, Node::remove, insert_mut, remove_mut"]}
{"id": "C56", "title": "Caught panics of a Clone or an iterator in calls on sequences, and in from_iter", "statement": "A client holds versions of a Vector, List, Stack or Queue that share nodes, in any number of threads, and catches panics of the Clone of an element (Vector::get_mut on a shared element) and of the iterator given to extend or from_iter. The interrupted get_mut leaves the elements as they were; the interrupted extend leaves exactly the elements it had taken, in order; an interrupted from_iter leaves the variable it would have been assigned to as it was. The last holds of RedBlackTreeMap and HashTrieMap too, where from_iter may also be interrupted in the middle of an insertion; a HashTrieMap that had lost entries is sound again once a from_iter assigned to it completes. No other version notices, no reference count is ever wrong, no cell is freed twice or used after being freed, and nothing leaks.", "quantifier": "all element, key and value types, programs, versions, threads and schedules, every crash point of every call; all supported bits, lawful orders and hashers, both build profiles", "why_tests_cant": "The panic can come between any two steps of a call that holds nodes it has just unshared or a half-built collection; which nodes these are depends on what every other version shares and on what other threads do. No test of the crate panics inside user code.", "anchors": ["src/vector/mod.rs: Node::get_mut, get_mut, extend, from_iter", "src/list/mod.rs: from_iter", "src/stack/mod.rs: from_iter", "src/queue/mod.rs: from_iter", "src/map/red_black_tree_map/mod.rs: from_iter", "src/map/hash_trie_map/mod.rs: from_iter"]}
{"id": "C57", "title": "A HashTrieMap after caught panics have cost it entries", "statement": "A caught panic of Eq in an in-place call can cost a HashTrieMap entries with colliding hashes (C43). The history goes on: any further calls, interrupted at any points. At every time the map has a set of entries that iteration delivers; lookups, insertions, removals and get_mut follow exactly that set, while size and is_empty still count the lost entries. Only an interrupted in-place call loses entries, only with the hash of its key, and only if at least two entries had that hash (one of them perhaps lost before). A call whose user code returns completes, with one exception: the removal of a key whose hash is that of a lost entry and of no other entry left may panic in the crate's own unreachable!(), and then in-place removal has removed the entry but not counted it. Keys with whose hash no in-place call was interrupted are found as if only the completed calls had been made.", "quantifier": "all histories, key and value types, lawful hashers, supported degrees, both build profiles, every crash point of every call, including calls on maps that have already lost entries", "why_tests_cant": "What a damaged map does depends on which entries collided, where each call was interrupted and everything since; tests neither panic inside Eq nor go on using the map.", "anchors": ["src/map/hash_trie_map/mod.rs: Node::insert, Node::remove, Node::get_mut, Bucket::insert, Bucket::remove, Bucket::get_mut, bucket_utils::list_remove_first, Node::compress, insert_mut, remove_mut, get_mut"]}
{"id": "C58", "title": "A HashTrieMap that has lost entries keeps its memory right and harms no other version", "statement": "A client on the shared heap creates, clones, changes, reads and drops HashTrieMap versions, and any call of user code (hash, comparison, clone of a key or value) may panic, the panic being caught, as often as it happens and on any version, including versions that have already lost entries to such a panic. Every completed call answers exactly by the entries its version still has, only the size also counting the lost ones; every call that unwinds loses at most entries with the hash of its key that the in-place call may lose; a call unwinds without a panic of user code only if it is a removal of a key with the hash of a lost entry and no other entry with that hash is left. No call changes what another version holds. Reference counts are exact at all times, no freed cell is touched, and once all versions are dropped nothing is left allocated.", "quantifier": "all programs of a client, all numbers of threads and schedules after the versions are handed out, all crash points of every call, all key and value types, lawful hashers, supported degrees, both build profiles", "why_tests_cant": "Whether a damaged bucket shared between versions is freed twice, leaked or seen by another version depends on the whole history of panics and sharing; tests neither panic inside Eq nor inspect reference counts.", "anchors": ["src/map/hash_trie_map/mod.rs: Node::insert, Node::remove, Node::get_mut, Node::compress, Bucket::insert, Bucket::remove, Bucket::get_mut, bucket_utils::list_remove_first, insert, insert_mut, remove, remove_mut, get_mut, get, clone"]}
{"id": "C59", "title": "What comparing two whole collections asks user code", "statement": "Comparing two collections (==, partial_cmp, cmp, and is_disjoint and is_subset of sets) with element code that is any function of a state it changes, or panics, neither panics by itself nor runs forever, leaves both collections alone, and asks exactly these questions. Sequences, and orderings of ordered maps and sets: items number 0, 1, 2, ... of both sides in turn up to the first answer that is not 'equal', the lengths deciding if there is none; == of sequences asks nothing if the lengths differ. == of ordered maps: nothing if both are the same allocation or the sizes differ, else each entry is looked up in the other map with at most 2 log2(size+1) comparisons, then one comparison of values, up to the first entry that is absent or differs. is_disjoint of ordered sets: a merge that asks at most |a|+|b|-1 comparisons; is_subset: at most one per element of the other set, none if that is smaller. Hash maps and sets: each key is hashed once with the other side's hasher and compared only with keys stored under that very hash, in the order of iteration, up to the first equal one. The result is the one those answers say; a panic of user code ends the call at once.", "quantifier": "all collections reached by any calls with any user code (hash maps: an Eq that repeats its answer and does not panic), made by different code, of different degrees or bits; all user code of the comparison itself; all types", "why_tests_cant": "Tests use lawful, silent, total orders: they cannot see which questions are asked or what happens when an Ord or Eq lies, changes its mind or panics in the middle.", "anchors": ["src/set/red_black_tree_set/mod.rs: is_disjoint, is_subset, eq, partial_cmp, cmp", "src/map/red_black_tree_map/mod.rs: eq, partial_cmp, cmp", "src/set/hash_trie_set/mod.rs: is_disjoint, is_subset, eq", "src/map/hash_trie_map/mod.rs: eq", "src/list/mod.rs, src/stack/mod.rs, src/queue/mod.rs, src/vector/mod.rs: eq, partial_cmp, cmp"]}
{"id": "C60", "title": "What iterating an ordered map asks user code", "statement": "Iterating a range of a RedBlackTreeMap from either end in any order asks user code only about keys of the map: the first call from an end that user code does not stop makes at most 2 log2(size + 1) questions about the bound it starts from plus one about the other; every call besides at most one 'greater than' and that only if both ends are in use, and one question about the bound it runs into. A panic of user code is the last question of its call. In total that is at most 2 questions per call plus 2 log2(size + 1) + 1 for each end and each panic. With lawful bounds and calls from one end, after the search of the first item the questions are exactly one per item given or next to be given and one about the first entry past the range. iter() asks nothing from one end and at most one 'greater than' per call, at most one per entry together, from both.", "quantifier": "all maps reached by any history of calls with any user code, all bounds and orders (stateful, lawless, panicking), all sequences of next and next_back", "why_tests_cant": "the questions depend on tree shape, bounds, interleaving of the ends and the answers of user code; tests see only the items", "anchors": ["src/map/red_black_tree_map/mod.rs:1140-1300", "src/map/red_black_tree_map/mod.rs:1310-1485"]}
{"id": "C61", "title": "Threads share one version by reference", "statement": "Several threads that hold references to the same versions of a collection with atomically counted pointers may at once read them, iterate them and clone them, and change and drop their clones, and each sees what it would if every version were a value of its own. In every interleaving of their steps no thread crashes and every thread can finish; the reference counts are exact at each point; no cell of a shared version changes or is freed while it is shared. When the threads are done, the only pointers left are those of the versions the threads still own and of the shared versions, and the owner of the shared versions goes on with them as if nothing had happened.", "quantifier": "all programs that build the versions, all choices of what is shared and what is given away, all numbers of threads, all programs of the threads that do not change or drop what they only have a reference to, all schedules, for List, Stack, Queue, Vector, RedBlackTreeMap/Set and HashTrieMap/Set", "why_tests_cant": "the schedules and programs are unbounded, and a wrong count shows only in the interleaving in which two threads clone or drop at the same time", "anchors": ["src/list/mod.rs:135", "src/queue/mod.rs:105", "src/stack/mod.rs:98", "src/vector/mod.rs:104", "src/map/hash_trie_map/mod.rs:127", "src/map/red_black_tree_map/mod.rs:111", "src/set/hash_trie_set/mod.rs:102", "src/set/red_black_tree_set/mod.rs:102"]}
{"id": "C62", "title": "A version behind a lock: snapshots, updates and exchanges are atomic", "statement": "Threads share versions of a collection with atomically counted pointers each behind a mutual exclusion lock, and own others. A thread reads, clones or changes the version behind a lock while it holds it, exchanges it with one of its own, or works on its own versions without any lock. Although all versions may share nodes, and threads that hold no lock or different locks work on them at the same time, every command behaves as if executed at once, on plain values, in the order in which the locks were taken: outputs, the values behind the locks and in the threads. No thread crashes, no deadlock arises, the reference counts are exact at each point, and when the threads have finished the only pointers left are those of the versions the threads still own and of the versions behind the locks.", "quantifier": "all programs that build the versions, all choices of what is locked and what is given away, all numbers of threads and locks, all programs of the threads that put a version back behind a lock they took, all schedules, for List, Stack, Queue, Vector, RedBlackTreeMap/Set and HashTrieMap/Set", "why_tests_cant": "a snapshot shares its nodes with a version that other threads go on changing in place under the lock; whether a change leaks into a snapshot or a node is freed early depends on the interleaving, and schedules and programs are unbounded", "anchors": ["src/list/mod.rs:135", "src/queue/mod.rs:105", "src/vector/mod.rs:104", "src/map/hash_trie_map/mod.rs:127", "src/map/red_black_tree_map/mod.rs:111"]}
{"id": "C63", "title": "Collections of collections: shared at both levels, and freed together", "statement": "A List, Stack, Queue or Vector whose elements, or a RedBlackTreeMap or HashTrieMap whose values, are themselves collections of this crate behaves as a sequence or map of independent values, to any depth of nesting. The nodes of an inner collection may belong to several elements, to several versions of the outer collection and to several threads; an element is cloned out of the outer collection by sharing its nodes, and changed in place through get_mut, which copies it first when another version still holds it; and freeing the last pointer to an element runs the Drop of the inner collection in the middle of what the outer one does. Still no version of either level is changed by what is done to another, threads with their own versions and threads sharing versions behind locks do not interfere, the reference counts of all cells of all levels are exact at each point, and when the last version of the outer collection is dropped every cell of every level is free.", "quantifier": "all collections X among the eight of the crate and, inductively, List/Stack/Queue/Vector of those and RedBlackTreeMap/HashTrieMap to those; all key types with lawful Eq/Ord/Hash, all degrees the crate supports; all programs of calls on the outer collection with all programs of calls on its elements; all numbers of threads and locks and all schedules", "why_tests_cant": "types of nested collections are unboundedly many; which thread frees an element, and so runs the inner Drop, depends on the schedule, and an element freed twice or kept is visible only at the inner level", "anchors": ["src/list/mod.rs:117", "src/list/mod.rs:403", "src/queue/mod.rs:142", "src/stack/mod.rs:118", "src/vector/mod.rs:222", "src/vector/mod.rs:494", "src/map/red_black_tree_map/mod.rs:764", "src/map/red_black_tree_map/mod.rs:975", "src/map/hash_trie_map/mod.rs:274", "src/map/hash_trie_map/mod.rs:520", "src/map/hash_trie_map/mod.rs:900"]}
{"id": "C64", "title": "What {:?} writes of a collection, and how deep writing it recurses", "statement": "The derived Debug of every collection writes each element, key and value it holds and no others, whatever the elements' own Debug does, and passes nothing on after the first error. Elements of a List or Stack come in order with the last one repeated; those of a Vector in order, once; entries of a RedBlackTreeMap once each; entries of a HashTrieMap once each, but one entry of a group of keys with the same hash may come twice. The text determines the contents, and with the names and numbers in it the whole state (nodes, colours, stored hashes, bitmaps, lengths, bits or degree); for List, Stack and Vector, and for a HashTrieMap of more than one entry without equal hashes, equal contents give equal text, while equal Queues, RedBlackTreeMaps and one-entry HashTrieMaps may print differently. Writing recurses two calls per element of a List or Stack (so a long one needs a deep call stack, unlike dropping it), between one and two per element of a Queue, but only two per level of a Vector or RedBlackTreeMap and three per hash digit of a HashTrieMap, plus two per key with the same hash.", "quantifier": "all element, key and value types and their Debug implementations, all sinks; all histories of calls, all bits/degree values the crate supports, all hashers and orders obeying their laws", "why_tests_cant": "the depth of recursion is a claim about every size, and failing sinks, hash collisions and internal layouts are too many to enumerate", "anchors": ["src/list/mod.rs:107", "src/list/mod.rs:117", "src/stack/mod.rs:90", "src/queue/mod.rs:96", "src/vector/mod.rs:94", "src/vector/mod.rs:106", "src/map/entry.rs:1", "src/map/hash_trie_map/mod.rs:116", "src/map/hash_trie_map/mod.rs:183", "src/map/hash_trie_map/mod.rs:192", "src/map/hash_trie_map/mod.rs:201", "src/map/hash_trie_map/sparse_array_usize/mod.rs:7", "src/map/red_black_tree_map/mod.rs:102", "src/map/red_black_tree_map/mod.rs:119", "src/set/red_black_tree_set/mod.rs:93", "src/set/hash_trie_set/mod.rs:92"]}
{"id": "C65", "title": "Panics in the Drop of elements while a whole version is dropped", "statement": "When a version is dropped, by whatever client and however it shares memory with other versions, and the Drop of some elements, keys or values panics: if exactly one panicking value is released by this drop the drop unwinds, but every other value and all memory it held alone are still released, and the heap, hence every other version, is exactly as after a drop without panics; if none is released (because they are shared) nothing unwinds; if two or more are released the process aborts. No more panicking values are released than the version contains. If it is the only version left, at least one is released if it contains one, and exactly those it contains if its values are all different, as the entries of a map always are. A drop that releases no panicking value nests as many calls as without panics (C39, C48), and for a Vector, RedBlackTreeMap or RedBlackTreeSet this holds also when one panics. A program that catches these panics runs as if there were none and sees a panic at exactly the drops that release one panicking value, unless one of its drops releases more; then it aborts.", "quantifier": "all client programs on any number of versions, all choices of which elements, keys and values panic, all collections, all bits, degrees, hashers and orders obeying their laws", "why_tests_cant": "which of the shared values a drop releases depends on all other versions alive; tests try a few of them, and an abort ends the test process", "anchors": ["src/list/mod.rs:403-421", "src/queue/mod.rs:96-103", "src/vector/mod.rs:94-113", "src/map/red_black_tree_map/mod.rs:102-128", "src/map/hash_trie_map/mod.rs:116-208", "src/map/entry.rs:1-5"]}
{"id": "C66", "title": "Threads that drop versions while the Drop of elements panics", "statement": "Versions that share memory are given to any number of threads, which use and drop them, each catching the panics of its own drops, while the Drop of some elements, keys or values panics. Whatever the schedule, no thread follows a dangling pointer or fails in any other way, the reference counts are exact at every point, also while a thread unwinds, and each thread can still end. A thread that ends has the outputs it has alone, with values of its own and without panics, whichever thread the panics fell to; no drop panics and none aborts if no value does. When all threads have ended and none has aborted the counts are those of the versions left, and with no versions left all memory is released. If the threads only clone and drop versions, no value panics twice: no more drops have panicked than panicking values were released, exactly as many when no thread has aborted, and one for each panicking value there was when no versions are left.", "quantifier": "all programs that build the versions, all numbers of threads and programs of theirs, all schedules, all choices of which elements, keys and values panic, all collections, all bits, degrees, hashers and orders obeying their laws", "why_tests_cant": "which thread releases a shared value, and so unwinds, depends on the schedule; a test runs a few schedules it cannot choose", "anchors": ["src/list/mod.rs:403-421", "src/queue/mod.rs:96-103", "src/vector/mod.rs:94-113", "src/map/red_black_tree_map/mod.rs:102-128", "src/map/hash_trie_map/mod.rs:116-208", "src/map/entry.rs:1-5"]}
