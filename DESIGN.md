# Formal model of rpds: design

The subject is the source under `/repo/src` (Rust crate `rpds`). It is read as text; nothing is built or run.
The model is written in Rocq (Coq 8.16.1), standard library only, under `rocq/theories`.

## Layers

1. **Value layer** (`*Model.v`). Each Rust function is a total Gallina function over immutable values.
   A panic is the value `Panic`; running out of recursion fuel is the value `Diverge`; both are excluded
   by theorems rather than by construction. Machine arithmetic where bits matter (vector shifts and masks,
   sparse array bitmaps, hash digits) uses `N` with the word width `ubits` and a flag `dbg` for
   overflow checks and `debug_assert!` as parameters, so a theorem covers debug and release builds and
   16/32/64-bit targets. Length counters are unbounded naturals with checked subtraction: memory is
   exhausted long before a counter of cells can overflow.
2. **Heap layer** (`Heap*.v`). Reference-counted cells with explicit counts; `clone`, `make_mut`,
   `try_unwrap`, drop are atomic primitives. Programs are resumption trees over these primitives, so the
   same program has a sequential run and every interleaved run. Each heap operation is shown to refine the
   value-layer operation on the value its root denotes, whatever else shares its nodes. Persistence,
   exact counts, and non-interference follow.
3. **Specification** (`Spec*.v`). Ordinary lists, association lists read as finite maps, double-ended
   consumption of a list, lexicographic comparison. No definition there mentions a trie, tree or cache.

Property theorems sit in `Prop_*.v`, each closed by `exact`, followed by `Print Assumptions` and by an
`Example` that meets its hypotheses.

## Plan per property

| id | modelled | method |
|----|----------|--------|
| C01 | List operations over (chain, last, length) | refinement to a list, induction on the history |
| C02 | same, and the crate-internal `first_mut` | invariant `last = last of chain`; `first_mut` keeps it from two elements on and breaks it on a one-element list (`C02_first_mut_singleton_refuted`; no public call reaches that, its only caller runs on collision buckets) |
| C03 | Stack as wrapper over List | refinement |
| C04 | Queue as two Lists | refinement to `out ++ rev in` |
| C05 | Chain + LazilyReversedListIter as state machine | simulation with the remaining list |
| C06 | step-counting version of the queue operations | potential argument |
| C07 | Vector nodes, digit arithmetic, all operations | well-formedness invariant by height, refinement to a list |
| C08 | same | corollary |
| C09 | IterPtr with its two stacks | simulation with double-ended consumption |
| C10 | height() | invariant |
| C11 | shifts at width `ubits` | positive theorem below the width; for every bits >= width the run that breaks, in both profiles |
| C12 | trie, sparse array, buckets, arbitrary hash | invariant + refinement to a finite map |
| C13 | iterator stack | simulation with the remaining entries |
| C14 | all internal panics are explicit | invariant preservation |
| C15 | insert over a coarse key equality | refinement to a finite map holding keys |
| C16 | constructor asserts, fuel | totality for degree >= 2, divergence for degree 1 |
| C17 | `==` as coded (modulo pointer shortcut) | extensionality |
| C18 | bitmap + packed list, popcount rank | refinement to a function on indices |
| C19 | producer, arbitrary split tree | induction on the split tree |
| C20 | set relations over the map model | refinement to membership |
| C21 | red-black tree, insert/remove as coded | search-tree invariant, refinement |
| C22 | RangeIterPtr with unbounded range | simulation with double-ended consumption |
| C23 | first/last | invariant |
| C24 | range with bounds, panics | simulation with the filtered list |
| C25 | colours and black height | invariant; height bound |
| C26 | unwrap/unreachable/debug_assert explicit | invariant preservation gives `Ok` |
| C27 | eq/cmp/hash feeds of trees | lexicographic order laws |
| C28 | eq/cmp/hash feeds of sequences | same |
| C29 | hash feed as token list | prefix-freeness |
| C30 | merge loops | induction on remaining lists |
| C31 | Serialize and the Deserialize visitors over an abstract serializer and access | writing and reading characterised for every serializer/access; round trip for every format carrying items over up to equality |
| C32 | fmt as a sequence of writes | equality with join |
| C33 | from_iter, macros | refinement |
| C34 | the functions of List, Stack and Queue as programs on a heap of counted cells (HeapModel.v, HeapList.v): `make_mut`, `try_unwrap`, `Clone`, `Drop` as coded | each function refines the specification for every heap around it (`hl_step_ok`, `hq_step_ok`: the rest of the heap and the other versions are an arbitrary frame); `persistent_ok` (HeapWorld.v) lifts that to programs over any number of versions, compared with a program over plain values |
| C35 | Vector on the heap (HeapVec.v), `get_mut`/`IndexMut` included; capacity limit of C11 as hypothesis on the history | as C34 |
| C36 | HashTrieMap and HashTrieSet on the heap (HeapHash.v), collision buckets as shared lists; any lawful hash, any supported degree | as C34; iteration is compared by size hints and counts, its order is not specified |
| C37 | RedBlackTreeMap and RedBlackTreeSet on the heap (HeapRB.v), balancing and fusing in place | as C34, iteration from both ends included |
| C38 | same programs | invariant kept by every atomic step: the count of a cell is the number of pointers to it, from cells and from live versions; nothing is left when all versions are dropped |
| C39 | Drop loop on the heap (HeapDepth.v: nesting of Enter/Leave) | one thread: every operation nests at most 3, by the fuel of `drop_ptr` and because after a failed `try_unwrap` the pointer is not the last; threads: explicit schedule that nests to the length, for every length; an element that panics when dropped (HeapListBoom.v: the loop unwinds, and the local `head` is dropped by glue): the run computed by induction on the chain, for every length and position |
| C40 | interleavings of heap programs | rely/guarantee with owned pointers |
| C41 | `ptr_eq` on heap roots | equal roots read as the same nodes; the root has count one after an insertion, so no other version has it |
| C42 | allocation counter on the heap | bound |
| C43 | the map functions written again with a counter of user calls that still return (CrashModel.v); the call made at 0 unwinds and what the `&mut` argument holds is the outcome | `cruns`: every crash point at once, by rules for sequencing; the invariant without its compression clause is kept by an interrupted call unless two entries have the hash; for crowded hashes a refutation for every reachable map. What is left is stated as what `iter()` delivers: HashIter.v proves iteration for any trie whose collision lists are lists and whose size is not too small |
| C44 | get_mut as modification by an arbitrary function | refinement |
| C45 | `==` with pointer shortcut and arbitrary PartialEq | exact answer; refutation of independence from sharing for every map with a value not equal to itself |
| C46 | the trie of the value layer | two children lists with the same entries have the same positions, by induction on the levels and on the sorted positions |
| C47 | the map functions and the range iterator written again over a world that user code reads and changes (LawlessModel.v); user code is any function or a panic | the red-black invariant without order, the trie invariant without key laws; a notebook of the questions asked; with pure user code the functions equal those of the value layer, with pure user code that panics at a given call those of C43 |
| C48 | drop glue of vectors, tries and trees on the heap (HeapNest.v, HeapNestHash.v); the call depth the model of a drop is given is computed from the size, the length or the degree, and C35-C37, C40 show it suffices | vector, sorted map and set: a logic of nesting in which the heap may answer anything, so that it holds among other threads; hash map and set: as C39 for one thread, because a bucket is a List; threads: explicit schedule beyond the bound |
| C49 | the hash map functions of LawlessModel.v run with user code that writes down each of its calls (`noted`, LawlessCount.v) | a partial-correctness logic of what is put on the log, induction along the trie; entries with the hash of the key are all in the child on its path; forgetting the log gives back the run without it, and with lawful code that is the map of C12. The red-black part is C47_rb_call |
| C50 | the heap programs of C34-C37 and of the sets again; `work` and `moves` count the primitives of HeapModel.v they execute (HeapWork.v). Arithmetic, comparisons and local copies are not counted, so a call's steps are its pointer operations. A call that returns a new version is followed in the model by the drop of the old one. Hash maps: hashing and key comparisons are not steps (C49 counts those). All iterators are the code's (they hold addresses and indices, and read cells when asked), with a bound per call of next and, except for the hash map, one for the whole traversal below the sum of those | two judgements: `pays` (structural, no heap: whatever the primitives answer, the program spends at most n) and `dear` (with ownership); an allocation pays `credit` in advance, a freed cell gives it back, so the drop glue of a cell costs 1 with credit and is bounded by height without. Soundness under every schedule by the invariant 'steps made + credit of live cells <= budget' (`dear_moves`) |
| C51 | programs (`hiclient`, HeapIterWorld.v) over the heap programs of C34-C37 and of the sets that also make, call and drop iterators; the iterators are those of HeapList/HeapVec/HeapRB/HeapHash.v, step by step: an iterator holds addresses, indices and a size and owns no pointer. The lifetime of `iter(&self)` is the borrow rule `allowed`, an hypothesis on programs (the compiler enforces it): no change or drop of a version with a live iterator; which calls take `&self` is listed per collection (`list_reads`, ...). keys/values/sets project the same iterators; `into_iter` for references is `iter` | the specification holds an iterator as a sequence fixed when made. Invariant over programs and schedules: each register owns its trees, each live iterator is related to the trees its register lends (`looks`: reads only lent cells, at most n), which no step of any other owner changes; per collection a relation between the heap iterator and what it has left |
| C52 | the heap programs and threads of C34-C40; a live cell is one whose reference count is not 0 (`live`, HeapSpace.v). Cells of the model are the allocations of the code: an `Arc`/`Rc` of a node, of an element or of an entry. The inline parts of a cell (a vector node's `Vec`, a sparse array's `Vec`) count as part of it | every live cell belongs to the tree of some owner (the invariant of C38), so any weight of the live cells is at most the weight of the trees, each shared or cached pointer counted once (`gcovers`); per collection, the weight of a tree by induction on the representation. The `last` pointer of a list is known to be a pointer to the element of its last node (`ends`, in `lrep`), so it adds nothing |
| C53 | the queue on the heap (C34, C50) once more, its abstract value now being the pair of lists (`two_spec`, HeapQueueWork.v), so that the price of `dequeue_mut` may depend on whether the out-list is empty; the theorem is stated over `queue_spec` | prices of C50 for the pair, refined for dequeue; potential of 11 steps for each element on the in-list; `charged_work_ok` turns prices and potential into charges, over all registers and threads (each register's potential passes to the thread it is handed to). That clones must be charged by size: C53_constant_clones_refuted, programs of n enqueues and n dequeues from clones that take n*n steps, by a lower bound on the steps of the reversal (`rev_least`) |
| C54 | HeapCrashRB.v, HeapCrashHash.v: the functions of HeapRB.v and HeapHash.v in which the n-th call of user code (comparison, hash, clone of a key or a value) unwinds, with what unwinding does on the heap: cells lent by `make_mut` are filled again with what they hold at that point, a clone that `insert` and `remove` work on is dropped, an entry not yet put in is freed; the refinement for the red-black tree is to CrashModel.v (C43). A HashTrieMap version carries a flag that says entries were lost; calls that would change such a version are skipped, since the crate itself may then panic (C43), it is read, cloned and dropped; C58 is without this restriction. `rclient` (HeapCrash.v) is a client whose calls are given by a relation, since which call unwinds depends on what is shared | node by node (HeapCrashRBProofs.v: `xins_ok`, `xdel_ok`, `xget_mut_ok`; HeapCrashHashNodes.v: `xn_insert_ok`, `xn_remove_ok`, `xn_get_mut_ok`, with `upost` saying what may be left of a node), then as C34 and C40 with `unwinding_contained_ok`; `C54_hash_map_no_collisions` is the case where no two keys have the same hash, in which nothing is ever lost. The sets call the maps' functions. Not modelled: panics in user `Drop`; iterating a version that has lost entries |
| C55 | DropModel.v: the functions that give up an element, key or value, with a flag that says its `Drop` panics; the result `Thrown` is the state behind the `&mut` at that moment. One drop per call: of the element, key or value the call replaces or takes out (a second panic while unwinding aborts). Calls that make a new version (`insert`, `drop_last`, ...) drop nothing the caller sees | `d_history` (DropProofs.v) for calls that panic only when done; DropRBProofs.v (`d_fuse_thrown`: what the interrupted fusion leaves), DropHashProofs.v (`d_hn_insert_thrown`, `d_hn_remove_thrown`: also the lookups afterwards). What is left is stated as what `iter()` delivers (`hm_entries_stale`, `rb_entries_stale`: the size may be too large). The `_refuted` theorems are for every reachable collection where the harm is certain, examples where it depends on the shape. A `Drop` that panics while a whole version is dropped is C65. Not modelled: several panicking drops in one call |
| C56 | HeapCrashSeq.v: `get_mut`, `extend` and `from_iter` of the sequences on the heap, the n-th call of `Clone::clone` or `Iterator::next` unwinding; what unwinding does is as in C54, and the collection or Vec that `from_iter` is building is dropped. `size_hint` of the given iterator is not called by the code modelled except through `Vec::from_iter`, which is taken not to run user code besides `next`. Calls that run no user code are those of HeapVec.v and HeapList.v. HeapCrashIter.v: `from_iter` of the maps, with the interrupted insertions of C54 and the map being built dropped; the hash map's hasher is one whose `default()` is always the same | `xv_step_ok`, `xl_step_ok`, `xq_step_ok`, `xs_step_ok`, then `unwinding_contained_within` (HeapCrash.v), which restricts a program to calls the result of which is within the limit of C11; `small_program` shows that every program that puts in few enough elements is one. Maps: `xb_fill_ok`, `xh_fill_ok` by induction on what the iterator yields, any state an interrupted insertion leaves being droppable |
| C57 | CrashAfterModel.v: the removals of CrashModel.v with the crate's own `unreachable!()` as a panic that unwinds too, the collision list left empty; all other calls are those of CrashModel.v | `cends` in CrashAfter.v: the crash points of a call at once, and a third way to end, by itself; `drep`, the trie invariant in which a collision bucket may have fewer than two entries if an entry with its hash was lost, is kept by every call. That such a map panics only where user code does is false and refuted |
| C58 | HeapAfterModel.v: the client of C54 for HashTrieMap without the restriction on versions that have lost entries; the functions are those of HeapCrashHash.v (the `unreachable!()` of removal unwinds there) | a simulation: HeapAfterList.v and HeapAfterNodes.v prove that each heap program, on cells that stand for a possibly damaged node (`dcont`), ends exactly as the function of CrashModel.v or CrashAfterModel.v does; HeapAfterMap.v lifts it to API calls (`y_step_sim`); with C57's invariant `dm_rep` and `unwinding_contained_ok` the property follows. CrashAfterCalls.v bounds the user calls of a call on a damaged map (`quiet_step`), which separates the crate's own panic from those of user code. Not modelled: panics in user `Drop` |
| C59 | equality, ordering and set relations over a world that user code reads and changes (LawlessRelModel.v); conversations and what they mean are specified apart from it (SpecTalk.v) | iterators give the entries without calling user code (C47); induction over the rounds builds the conversation; a lookup in a trie is shown to be a search through all entries in which those with other hashes ask nothing; with pure code the functions equal those of RBExtra.v, HashExtra.v and TraitModel.v |
| C60 | the range and whole-map iterators of LawlessModel.v (C47) with arbitrary bounds and orders; SpecRange.v says which questions a call may ask, `talk` (SpecTalk.v) that these are what user code was asked, in that order. For `Unbounded` a question stands for no comparison; the call of start_bound() or end_bound() remains | induction on the search path for the first call (`dig_talk`), each later function adds at most one question (`step_talk`); the total by a potential of one search per end not begun (`run_talk`); lawful bounds: the stack lists the entries still ahead and the first of them has been tested (`at_list`, `law_run`) |
| C61 | what `Sync` promises of the `*Sync` aliases: the programs of C51, now with registers that a thread only has a reference to (`spares`, the borrow checker's rule, an hypothesis on programs: through a reference nothing is changed or dropped). The methods that return a new version take `&self` and are `clone` then the method that changes (C34-C37), so through a reference they are CClone and the change of the clone. `std::thread::scope` and its join are not modelled: the main thread goes on when all have finished. Clone of an element is not modelled as a step (as in C34-C40) | HeapShare.v: rely/guarantee where all threads may look at and clone from the trees `B` of the shared registers, which belong to the main thread (`bsafe`); a step of a thread keeps every lent tree because its root's pointer is counted for the main thread; clones only increment (`copying`), reads only look (`gentle`, C51). Each collection adds its per-call lemmas of C34-C37 and C51 |
| C62 | `Mutex<ListSync<T>>` and the like: the programs of C34-C37 as commands of threads that work on their own registers, on the version behind a lock together with their own registers, or exchange a version with the one behind a lock (HeapLock.v, `lstep`, one heap step at a time, threads interleaved at will, a thread at a taken lock waits). The lock itself is a primitive. Not modelled: several locks held at once (a matter of the locks, not of the collections), poisoning, reading under an RwLock (C61 has the reading at the same time) | HeapLock.v: the specification executes a whole command at once on values (`vstep`); the order is the log of the concrete run. Invariant `linv`: each thread owns what its registers or the rest of its command need, each free lock the version behind it, each taken lock nothing; every step keeps it with the specification's state unchanged or one command further (`linv_step`). Absence of deadlock: a thread inside a lock can always finish its command, then all locks are free. Each collection adds its per-call lemmas of C34-C37 |
| C63 | `List<X>`, `Stack<X>`, `Queue<X>` with X a collection (HeapOf.v), and `Vector<X>` (HeapHost.v, HeapOfVec.v) and `RedBlackTreeMap<K, X>`, `HashTrieMap<K, X>` with plain keys (HeapOfMap.v, HeapOfRB.v, HeapOfHash.v): `list_of I`, `queue_of I` make the programs of the outer collection from those of any inner one, on one heap whose cells are outer nodes, elements holding an inner version, and inner cells; the drop glue of an element is the inner `Drop`, cloning an element is the inner `Clone`. Calls that make, copy, look into or iterate over elements take a program of inner calls. `vector_of I` runs the programs of HeapVec.v unchanged through `host`, which stores inner versions as elements and runs the inner `Drop` when an element cell is freed; only `get_mut` is written anew (`wv_get_mut`), as it clones an element. `rb_map_of I` does the same with HeapRB.v (`wb_get_mut`), `hash_map_of I` with HeapHash.v (`wh_get_mut`). Not modelled: collections as keys or in sets; comparing or hashing nested collections on the heap | HeapOfProofs.v: `implements I S` (each program safe in the ownership logic of HeapSafe.v and related to plain values) is preserved by `list_of`, `queue_of` (`list_of_ok`, `queue_of_ok`); the representation of an element is a cell that owns what the inner representation owns. For `vector_of` (HeapHostProofs.v, HeapOfVecProofs.v) the programs of HeapVec.v with elements paired with the plain values they stand for are related step by step (`traces`) to the programs run; what is proved of the former for every type of elements (`hv_step_ok`) then holds of the latter (`host_safe`, `vector_of_ok`). Likewise for `rb_map_of` from `hb_step_ok` and `hash_map_of` from `hh_step_ok` (HeapOfMapProofs.v for what any map needs; HeapOfRBProofs.v, `rb_map_of_ok`; HeapOfHashProofs.v, `hash_map_of_ok`). Then induction on `nested`, with the eight collections of C34-C37 as base cases, and the theorems of HeapWorld.v and HeapLock.v |
| C64 | DebugModel.v: the calls that `#[derive(Debug)]` expands to, for every struct and enum of the crate, as a tree of calls (`dcall`); core's `DebugStruct`/`DebugTuple`/`DebugList` turn it into pieces of text (`written`) or pass the pieces to a sink that may fail (`fmt_into`); `nesting` is how many calls are active at once. Not modelled: the alternate form `{:#?}`, digits of integers, width and fill | DebugProofs.v: what is selected from the pieces is computed by induction on the calls (`part`), then by the representation invariants of C01, C07, C12, C21; depth by the same induction with C10, C25 and `doc_inv` (C14); equal text of equal hash maps from C46; DebugText.v: the texts of each type are a prefix-free code (`tells`), by induction on the state |
| C65 | HeapThrow.v: the drop programs of HeapList.v, HeapVec.v, HeapRB.v, HeapHash.v with panics: user values in a freed cell that panic start unwinding or, when the thread unwinds already, abort; drop glue goes on with the remaining fields and pointers; the loop of `Drop for List` is left and its local `head` dropped by glue. Only drops of whole versions panic here: drops inside calls are C55. Assumed: the language's rules of drop glue, and that a reference-counted pointer releases its memory also when its contents unwind | HeapThrowProofs.v: `as_drop`, each program with panics does to the heap what the one without does, composed along the glue; the loop and the glue give up the pointers of a chain in the same order (`loop_glue`); how many panicking values go is the difference in weight of the heap (C52's `weigh`), bounded by `released`; below, for the only version left, because each of its values is in a live cell (HeapHolds.v) and no cell holds two; nesting: `as_deep`, composed as `as_drop` |
| C66 | The programs of C65 (HeapThrow.v), each thread a `tclient`, under `exec` of HeapModel.v. Main itself builds the versions without panics. An abort ends the thread that aborts only; that the process ends with it takes steps away from the other threads, and every schedule is covered | HeapThrowSafe.v: the drop programs with panics in the logic of HeapSafe.v (`gone`: all that was owned is given up, or the process aborted), composed along the glue and the loop as for C38; `throws_apart_ok` for any collection. How many drops panic: `spends`, which follows the programs whatever they find in memory, added up over the threads along `exec` against the weight of the heap. Which calls of a program panic exactly is C65, for one thread |

## Heap layer in detail

* A heap is a list of cells; a cell holds a count and contents, or is lent out (`make_mut` in progress);
  addresses are never reused. A program (`prog`) is a tree whose nodes are the atomic actions: allocate,
  clone a pointer, read a cell through a live pointer, decrement (dropping the contents when the count was
  one), `make_mut`'s uniqueness test, write back, `try_unwrap`.
* `run` executes a program alone; `exec` executes any number of programs under any schedule, one atomic
  action at a time.
* `safe n p G Q` (HeapSafe.v) is an ownership logic: a program owning the pointers `G` never uses a dead
  pointer, allocates at most `n` cells and ends owning pointers `G'` with `Q`. Both answers of every count
  test are followed, so a proof covers every sharing pattern; `run_sound` and `exec_sound` transfer it to
  runs and to schedules.
* `HeapWorld.v` states persistence, exact counts, non-interference and allocation bounds once, for any
  collection; `Prop_Heap*.v` instantiate them. The programs quantified over are arbitrary lists of commands
  (new, clone, operation, drop) on any number of registers, then any number of threads that each take some
  of the registers.
* The sets (HeapSet.v) are structs around the maps, as in the code: their programs call the map programs
  and their specifications are derived from those of the maps with unit values.
* Iteration over a HashTrieMap is observed through size hints and the number of entries satisfying an
  arbitrary predicate, because its order is unspecified.
* Simplifications: the user's element type has no pointers of its own and its `clone`/`drop` do nothing, except in C63.

## Trusted base

* Coq 8.16.1 kernel and its standard library. The axioms each theorem uses are printed by the
  `Print Assumptions` beneath it; none are added by this development.
* The translation from Rust to Gallina, made by hand and cited line by line in comments.
* Assumed about code outside the crate: `Vec`, `Option`, slice and iterator adapters behave as documented;
  `archery::SharedPointer` is a reference-counted pointer; user traits obey the laws named as hypotheses.

## Not modelled

* Allocation failure, counter overflow of lengths beyond the word width, stack limits other than where a
  property is about them, weak memory orderings inside `Arc` (interleavings are sequentially consistent),
  a panic in user `Drop` code in a call that drops several user values (but see C55, C65, C66), the alternate form of `Debug`, lifetimes and type checking (Rust's compiler covers those).
