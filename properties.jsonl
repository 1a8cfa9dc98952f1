{"id": "C01", "title": "Document order follows program order", "statement": "Whatever the order in which the futures inside one element start and stop rendering, the children of that element always appear in the order of their combinator paths (index in the outermost combinator first, then the next one in), exactly the nodes currently rendered and nothing else.", "quantifier": "every sequence of renders and removals at any (distinct) paths of any depth inside one element", "why_tests_cant": "orders of renders/removals and path shapes are unbounded; the interesting cases are late renders between existing siblings", "anchors": ["async_ui_web_core/src/context.rs: DomContext::add_child, remove_child", "async_ui_web_core/src/position.rs: ChildPosition"]}
{"id": "C02", "title": "Removing a rendered future removes exactly its own nodes", "statement": "When a future at some path is dropped, every node rendered at that path or beneath it leaves the document, and every other node of the element stays where it was in the same relative order.", "quantifier": "every set of rendered paths and every removed path, including the root path of the element", "why_tests_cant": "prefix/range arithmetic over arbitrary path sets: boundary errors only show for particular path combinations", "anchors": ["async_ui_web_core/src/context.rs: remove_children_here, NodeGroup", "async_ui_web_core/src/position.rs: next_sibling, cmp"]}
{"id": "C03", "title": "Path order is a total order and the removal range is the subtree", "statement": "Paths are totally ordered, a path comes before everything nested in it, and the half-open range from a path to its next sibling contains exactly the paths nested in it.", "quantifier": "all pairs/triples of paths with 32-bit indices", "why_tests_cant": "infinite domain (arbitrary depth, 2^32 indices)", "anchors": ["async_ui_web_core/src/position.rs: ChildPosition::cmp, next_sibling, wrap, is_root"]}
{"id": "C04", "title": "Content of a list item stays between its markers", "statement": "Nodes rendered in the context of a list item (sibling context) always stand immediately before the item's end marker, in path order; nodes of the containing element outside the item keep their place, whatever they are.", "quantifier": "every interleaving of renders and removals inside the item, every surrounding content", "why_tests_cant": "unbounded contents and histories", "anchors": ["async_ui_web_core/src/context.rs: DomContext::Sibling, add_child, get_containing_node", "async_ui_web_core/src/node_sibling.rs"]}
{"id": "C05", "title": "A whole UI tree is shown in tree order and disappears completely", "statement": "For any nesting of elements and combinators, after any history of which parts have been started or dropped, the document beneath the mount point is the in-order flattening of the parts currently rendered; dropping any part removes its whole output and nothing else.", "quantifier": "every UI tree, every history of first polls and drops of its parts", "why_tests_cant": "trees and histories are unbounded", "anchors": ["async_ui_web_core/src/node_container.rs: ContainerNodeFuture", "async_ui_web_core/src/combinators/common/*.rs: poll, PinnedDrop", "async_ui_web_core/src/dropping.rs"]}
{"id": "C06", "title": "Dropping a tree detaches once, at its top", "statement": "Dropping a rendered UI tree performs one detaching operation, for the topmost rendered part, none for the parts inside it; afterwards the next drop is again allowed to detach. This does not depend on where the marker objects are placed in memory.", "quantifier": "every tree of nested futures, every assignment of addresses to the (zero-sized) blockers", "why_tests_cant": "depends on tree shape, drop order and address aliasing that tests can neither enumerate nor control", "anchors": ["async_ui_web_core/src/dropping.rs: DetachmentBlocker", "async_ui_web_core/src/node_container.rs: PinnedDrop", "async_ui_web_core/src/combinators/common/*.rs: PinnedDrop"]}
{"id": "C07", "title": "Unmounting an application", "statement": "Dropping the task returned by mount_at unmounts the application: all its nodes leave the document and nothing panics.", "quantifier": "every mounted application tree, dropped at any time", "why_tests_cant": "needs all tree shapes and all drop times", "anchors": ["async_ui_web/src/mount.rs: mount_at, mount", "async_ui_web_core/src/node_container.rs: new_root, PinnedDrop"]}
{"id": "C08", "title": "Waker lists: registration, order and isolation", "statement": "A waker registered in a waker list stays registered until removed, lists never share entries, iterating a list yields exactly its registered wakers in registration order, and removing or growing never disturbs other registrations.", "quantifier": "every sequence of create-list / register / replace / remove / delete-list operations, any number of lists and entries", "why_tests_cant": "pointer-structure invariants over unbounded histories (free list reuse, growth)", "anchors": ["async_ui_internal_utils/src/wakers_arena.rs: WakersArena"]}
{"id": "C09", "title": "ReactiveCell.until_change: no missed and no spurious change", "statement": "A change stream that has been polled reports ready at its next poll if and only if at least one mutable borrow of the cell ended since its previous poll; all changes between two polls are reported as one.", "quantifier": "every interleaving of mutable borrows, polls, creations and drops of any number of streams", "why_tests_cant": "interleavings of several streams and writers are unbounded", "anchors": ["async_ui_internal_utils/src/reactive_cell/mod.rs", "async_ui_internal_utils/src/reactive_cell/until_change.rs: UntilChangeFuture", "async_ui_internal_utils/src/reactive_cell/borrow_mut.rs"]}
{"id": "C10", "title": "ReactiveCell wakes every waiting stream", "statement": "When a mutable borrow of a ReactiveCell ends, the waker most recently used to poll each live, polled stream is woken; dropped streams are never woken.", "quantifier": "every history of polls, drops and mutable borrows", "why_tests_cant": "requires all histories; a lost wake-up hangs the UI only under particular schedules", "anchors": ["async_ui_internal_utils/src/reactive_cell/until_change.rs", "async_ui_internal_utils/src/reactive_cell/borrow_mut.rs: Drop", "async_ui_internal_utils/src/wakers_arena.rs"]}
{"id": "C11", "title": "ReactiveCell.for_each sees the final value", "statement": "for_each calls its function with the initial value, and whenever it goes idle the value of its last call is the cell's current value, however many changes happened in between.", "quantifier": "every interleaving of changes and polls", "why_tests_cant": "schedules unbounded", "anchors": ["async_ui_internal_utils/src/reactive_cell/for_each.rs"]}
{"id": "C12", "title": "Combinator wake-ups are never lost or duplicated", "statement": "After a child's waker is woken, the parent waker of the most recent poll has been woken and the child is polled exactly once by the next poll of the combinator (unless it is already complete), no matter how many times and in which order children were woken.", "quantifier": "every sequence of wakes (from inside or outside polls) and polls, any number of children", "why_tests_cant": "interleavings of wakes and polls are unbounded", "anchors": ["async_ui_web_core/src/combinators/utils/wakers/array/readiness.rs", "async_ui_web_core/src/combinators/utils/wakers/vec/readiness.rs", "async_ui_web_core/src/combinators/common/*.rs: poll"]}
{"id": "C13", "title": "Only woken, incomplete children are polled", "statement": "A combinator polls each child at most once per wake, never polls a child that was not woken (except the initial poll of all), and never polls a child again after the child has completed.", "quantifier": "every behaviour of the children, every wake/poll schedule, arrays, tuples and vectors of any length", "why_tests_cant": "children and schedules are arbitrary", "anchors": ["async_ui_web_core/src/combinators/common/array.rs", "async_ui_web_core/src/combinators/common/tuple.rs", "async_ui_web_core/src/combinators/common/vec.rs"]}
{"id": "C14", "title": "join returns every output, in index order", "statement": "join completes exactly when all children have completed and its result holds, at each index, the output of that child, regardless of completion order.", "quantifier": "all children counts, completion orders and wake schedules", "why_tests_cant": "orders are factorially many and unbounded", "anchors": ["async_ui_web_core/src/combinators/join/*.rs", "async_ui_web_core/src/combinators/common/*.rs"]}
{"id": "C15", "title": "try_join stops at the first error", "statement": "try_join returns Ok of all values in index order if every child succeeds, and as soon as a polled child returns Err it returns that error without polling any other child.", "quantifier": "all children counts, outcomes and schedules", "why_tests_cant": "orders/outcomes unbounded", "anchors": ["async_ui_web_core/src/combinators/try_join/*.rs"]}
{"id": "C16", "title": "race returns the first completion", "statement": "race completes in the very poll in which some child first completes, with that child's output, and polls no other child afterwards in that poll.", "quantifier": "all children counts and schedules", "why_tests_cant": "schedules unbounded", "anchors": ["async_ui_web_core/src/combinators/race/*.rs"]}
{"id": "C17", "title": "race_ok returns the first success or all errors in order", "statement": "race_ok returns the first Ok produced by a child; if all children fail it returns all errors in index order.", "quantifier": "all children counts, outcomes and schedules", "why_tests_cant": "schedules unbounded", "anchors": ["async_ui_web_core/src/combinators/race_ok/*.rs"]}
{"id": "C18", "title": "Outputs are owned exactly once", "statement": "Each output a combinator has stored is either moved into the combinator's result or dropped when the combinator is dropped, exactly once, and no uninitialised slot is ever read or dropped.", "quantifier": "every schedule, including drops in the middle and after completion", "why_tests_cant": "memory safety of unsafe code over all histories", "anchors": ["async_ui_web_core/src/combinators/common/array.rs: PinnedDrop, poll", "async_ui_web_core/src/combinators/common/tuple.rs", "async_ui_web_core/src/combinators/common/vec.rs"]}
{"id": "C19", "title": "Polling a combinator after completion is detected", "statement": "Polling a completed combinator panics instead of returning a second result or touching children.", "quantifier": "every combinator, every history leading to completion", "why_tests_cant": "depends on all histories and on the collection kind", "anchors": ["async_ui_web_core/src/combinators/common/vec.rs: poll assert", "async_ui_web_core/src/combinators/common/array.rs", "async_ui_web_core/src/combinators/common/tuple.rs"]}
{"id": "C20", "title": "meanwhile / pend_after", "statement": "f.meanwhile(g) completes exactly when f completes, with f's output; completion of g never completes it. g is driven, with all its effects, as long as it has not completed, and is not polled after it completed.", "quantifier": "every pair of futures and schedule", "why_tests_cant": "schedules unbounded", "anchors": ["async_ui_web_core/src/combinators/extras/mod.rs"]}
{"id": "C21", "title": "Shared waker storage is freed exactly when unused", "statement": "The storage shared by a combinator and the wakers it handed out is freed exactly when the combinator and all clones of all its wakers are gone, and a waker always wakes the child index it was made for.", "quantifier": "every sequence of clone / wake / wake_by_ref / drop of wakers and drop of the combinator", "why_tests_cant": "reference counting over unbounded histories with unsafe pointer arithmetic", "anchors": ["async_ui_web_core/src/combinators/utils/wakers/shared_arc.rs", "async_ui_web_core/src/combinators/utils/wakers/array/waker_array.rs", "async_ui_web_core/src/combinators/utils/wakers/vec/waker_vec.rs"]}
{"id": "C22", "title": "The root executor never loses a wake-up", "statement": "Whenever the main future has been woken, either it is being polled again by the run in progress or a timer that will poll it is pending; after the pending timers have fired every wake has been followed by a poll.", "quantifier": "every interleaving of wakes, timer firings, run_now calls (also re-entrant ones from within a poll)", "why_tests_cant": "event-loop schedules are unbounded", "anchors": ["async_ui_web_core/src/executor.rs", "async_ui_web/src/executor.rs"]}
{"id": "C23", "title": "run_now is synchronous and re-entrancy safe", "statement": "When run_now returns to a non-running caller the main future has no outstanding wake-up; a nested call during a run returns immediately without polling; a run without wake-up does not poll.", "quantifier": "every schedule", "why_tests_cant": "re-entrancy schedules unbounded", "anchors": ["async_ui_web_core/src/executor.rs: run_now"]}
{"id": "C24", "title": "Event streams deliver the latest event", "statement": "After its first poll an event stream is ready at the next poll iff an event occurred since it last was ready, yields the most recent one, and each event wakes the waker of the latest poll and runs the application synchronously. An event that is dispatched is given to every subscribed stream on its path once, and to no other stream, unless its propagation is stopped or the stream is dropped meanwhile.", "quantifier": "every sequence of polls and dispatched events, including events dispatched while others are being dispatched", "why_tests_cant": "interleavings unbounded", "anchors": ["async_ui_web_html/src/event_handling.rs: EventFutureStream"]}
{"id": "C25", "title": "Event streams unsubscribe when dropped", "statement": "After an event stream is dropped no listener of it remains on the target, for every configuration of the stream.", "quantifier": "every history of set_capture, polls, events and the drop", "why_tests_cant": "configuration x history", "anchors": ["async_ui_web_html/src/event_handling.rs: Drop, set_capture"]}
{"id": "C26", "title": "DynamicSlot shows the last future that was set", "statement": "At each poll the slot runs the future given by the last set_future/clear_future call; earlier ones are dropped; every set/clear wakes the slot if it is rendered; the code of the slotted futures runs with all its effects, and nothing else changes the state or calls the slot.", "quantifier": "every sequence of set/clear/poll", "why_tests_cant": "histories unbounded", "anchors": ["async_ui_web/src/components/dynamic_slot.rs"]}
{"id": "C27", "title": "DynamicSlot does not poll a finished future", "statement": "A slot never polls a future again after it has completed.", "quantifier": "every sequence of set/clear/poll and every behaviour of the slotted futures", "why_tests_cant": "histories unbounded", "anchors": ["async_ui_web/src/components/dynamic_slot.rs: render"]}
{"id": "C28", "title": "DynamicList behaves as a keyed list", "statement": "After any sequence of insert, remove, move_before, swap, retain the list's items appear in the document in the order of the corresponding abstract list, each item's content contiguous, and return values say whether the key was present.", "quantifier": "every sequence of operations, any keys and item contents, rendered or not", "why_tests_cant": "unbounded operation histories on a mutable DOM", "anchors": ["async_ui_web/src/lists/dynamic_list.rs"]}
{"id": "C29", "title": "DynamicList.swap exchanges two items", "statement": "swap(a,b) exchanges the positions of two present items and changes nothing else; with a missing key it panics, as documented, before changing anything.", "quantifier": "every list and pair of keys", "why_tests_cant": "position combinations (adjacent, reversed, first/last) with arbitrary contents", "anchors": ["async_ui_web/src/lists/dynamic_list.rs: swap, move_nodes_before"]}
{"id": "C30", "title": "DynamicList with an unknown or own reference key", "statement": "As documented: insert/move_before with a `before` key that is not in the list puts the item at the end; moving an item before itself leaves the list unchanged.", "quantifier": "every list and key", "why_tests_cant": "all lists", "anchors": ["async_ui_web/src/lists/dynamic_list.rs: insert, move_before"]}
{"id": "C31", "title": "DynamicList keeps its content across render/unrender", "statement": "Rendering a list places all its items, in order, at the position of the render; dropping the render takes them all out of the document and keeps them for the next render; list operations have the same meaning in both states.", "quantifier": "every history of operations, renders and unrenders", "why_tests_cant": "histories unbounded", "anchors": ["async_ui_web/src/lists/dynamic_list.rs: render, ContainingNode"]}
{"id": "C32", "title": "A list keeps its place among siblings", "statement": "A rendered list occupies its combinator position: siblings with smaller index, whenever they render, appear before it and larger ones after it.", "quantifier": "every order in which the siblings render", "why_tests_cant": "depends on schedules", "anchors": ["async_ui_web/src/lists/dynamic_list.rs: render", "async_ui_web_core/src/context.rs: add_child"]}
{"id": "C33", "title": "DiffedList.update shows exactly the new keys", "statement": "After any sequence of DiffedList::update calls, nothing has panicked and the list contains exactly the keys of the last vector; in each update a key present before and named once in the new vector keeps its future.", "quantifier": "every previous and new key list", "why_tests_cant": "pairs of lists unbounded", "anchors": ["async_ui_web/src/lists/diffed_list.rs: update"]}
{"id": "C34", "title": "DiffedList.update shows the keys in the given order", "statement": "After update(keys) the items appear in the order of keys.", "quantifier": "every previous and new duplicate-free key list", "why_tests_cant": "pairs of lists unbounded", "anchors": ["async_ui_web/src/lists/diffed_list.rs: update"]}
{"id": "C35", "title": "ListModel behaves as a Vec and its log is faithful", "statement": "Every ListModel operation has the effect of the Vec operation of the same name; replaying the retained log on the list as it was at the log's start yields the current list; clones get their own identity.", "quantifier": "every sequence of operations", "why_tests_cant": "histories unbounded; log trimming depends on lengths", "anchors": ["async_ui_web/src/lists/modeled_list.rs: ListModel"]}
{"id": "C36", "title": "ModeledList.update mirrors the model", "statement": "After update(model) the rendered items are exactly the model's items in the model's order, whichever model was used before and however it was changed in between.", "quantifier": "every history of model operations, updates and switches between models with unique items", "why_tests_cant": "histories unbounded", "anchors": ["async_ui_web/src/lists/modeled_list.rs: ModeledList::update"]}
{"id": "C37", "title": "VirtualizedList shows a contiguous window", "statement": "After each visibility update the rendered items are exactly the indices of the computed window, in increasing order, and no update panics.", "quantifier": "every sequence of windows (scrolls, resizes) and item counts", "why_tests_cant": "depends on floating-point layout; all window sequences", "anchors": ["async_ui_web/src/lists/virtualized_list.rs: update_visible, set_num_items"]}
{"id": "C38", "title": "Dropdown options and value", "statement": "After update_options the options appear in the given order and value() is the option the user sees selected, or None when none is selected.", "quantifier": "every sequence of update_options, set_value and user selections", "why_tests_cant": "histories unbounded", "anchors": ["async_ui_web/src/components/dropdown.rs"]}
{"id": "C39", "title": "x-bow: no change is missed", "statement": "A polled until_change stream on path p becomes ready (and its waker is woken) whenever p or any path containing p is mutably borrowed, for every hash function and whatever other streams exist.", "quantifier": "every hash function, every set of streams, every interleaving of polls, drops and notifications", "why_tests_cant": "hash collisions and entry reuse cannot be enumerated", "anchors": ["x-bow/src/until_change.rs", "x-bow/src/wakers.rs: StoreWakers", "x-bow/src/hash.rs", "x-bow/src/path_ext.rs: notify_changed"]}
{"id": "C40", "title": "x-bow: no spurious change", "statement": "If the path hashes do not collide, an until_change stream on p is ready only if p or a path containing p was mutably borrowed since the previous poll; changes to siblings or to parts of p do not fire it.", "quantifier": "every path, every history", "why_tests_cant": "histories unbounded", "anchors": ["x-bow/src/until_change.rs", "x-bow/src/hash_visitor.rs", "x-bow/src/hash.rs"]}
{"id": "C41", "title": "x-bow: bubbling streams", "statement": "A polled until_bubbling_change stream on p becomes ready iff p or something inside p was mutably borrowed since the previous poll (no missed change for any hash; no spurious one without collisions).", "quantifier": "every path, hash function and history", "why_tests_cant": "histories unbounded", "anchors": ["x-bow/src/path_ext.rs: until_bubbling_change", "x-bow/src/until_change.rs", "x-bow/src/hash_visitor.rs"]}
{"id": "C42", "title": "x-bow: reads see writes, and only where written", "statement": "Reading a path after writing through it gives the written value; reading any path that neither contains nor is contained in the written one is unaffected; a failed (None) mutable borrow neither changes data nor notifies.", "quantifier": "every data tree, every pair of paths through structs, enums, Vec, HashMap, Option, Box, Rc", "why_tests_cant": "data shapes and paths unbounded", "anchors": ["x-bow/src/path.rs", "x-bow/src/path_impl.rs", "x-bow/src/impls/stdlib/*.rs", "x-bow/src/borrow_mut_guard.rs"]}
{"id": "C43", "title": "x-bow: listener storage does not leak", "statement": "When a change stream is dropped all its registrations disappear; with no live streams no registrations remain; other streams keep theirs.", "quantifier": "every history of creations, polls and drops", "why_tests_cant": "histories unbounded", "anchors": ["x-bow/src/until_change.rs: Drop", "x-bow/src/wakers.rs"]}
{"id": "C44", "title": "x-bow bind_for_each writes incoming values and reports outside changes", "statement": "A value yielded by the incoming stream is written to the path and announced to other listeners, without calling on_change for it; on_change is called at the beginning and after outside changes of the path or of what contains it; the future completes when the incoming stream ends. As documented, every yielded value would be stored and on_change always called at the beginning: both are shown false (a value yielded in the poll in which the stream ends is lost; a value present at the first poll suppresses the initial call).", "quantifier": "every interleaving of incoming values, outside changes and polls", "why_tests_cant": "interleavings unbounded", "anchors": ["x-bow/src/path_ext/bind_for_each.rs"]}
{"id": "C45", "title": "x-bow for_each / for_each_async / signal_stream track the current value", "statement": "The callback (async callback, stream) is given the initial value and, after every announced change of its path or of what contains it, is woken and given the current value: once polled it has been told the current value, or its task has been woken since. The async callback's running future is dropped when a new value arrives; at most one exists at a time, only the newest is polled, each is dropped exactly once. Without hash collisions no callback happens unless there was a change.", "quantifier": "every data tree and path, every interleaving of writes, notifications, creation, polls and drops of helpers (writes strictly inside the path, and writes without notification, are not reported by design)", "why_tests_cant": "interleavings unbounded", "anchors": ["x-bow/src/path_ext/for_each.rs", "x-bow/src/path_ext/for_each_async.rs", "x-bow/src/path_ext/signal_stream.rs"]}
{"id": "C46", "title": "css! renames classes consistently", "statement": "When css! compiles, it outputs the input stylesheet with \"-\" and one postfix inserted after every class selector and nothing else changed; there is exactly one constant per class name, whose value is the class as it appears in the output; the postfix consists of 8 lower case alphanumerics, so that classes of stylesheets with different postfixes never coincide; and the page receives this output as a style sheet. (The last is false for stylesheets with backslashes, backticks or \"${\", which JavaScript interprets.)", "quantifier": "every sequence of CSS tokens with nested blocks, every hash function", "why_tests_cant": "inputs unbounded", "anchors": ["async_ui_web_macros/src/css.rs"]}
{"id": "C47", "title": "select! runs the handler of the first completed branch", "statement": "select! waits exactly as long as no branch has completed, then evaluates to the handler of the first completed branch applied to that branch's output; the branches are dropped before the handler starts and never polled again; it is woken whenever a branch is; its polls run the code of the branches with all its effects, and if a branch panics, select! panics.", "quantifier": "every number of branches and schedule", "why_tests_cant": "schedules unbounded", "anchors": ["async_ui_web_macros/src/select.rs"]}
{"id": "C48", "title": "Re-rendering an element shows only its new content", "statement": "When an element's render future has been dropped and the same element is rendered again with another child, its children are those of the new child only.", "quantifier": "every pair of contents and every history in between", "why_tests_cant": "contents and histories unbounded", "anchors": ["async_ui_web_core/src/node_container.rs: PinnedDrop", "async_ui_web_core/src/dropping.rs"]}
{"id": "C49", "title": "x-bow: different paths feed different bytes to the hasher", "statement": "Any two different paths of one store (through any mix of struct fields, enum variants, Vec indices, map keys, boxes and Rcs, with any fields skipped) write different byte sequences to the hasher that identifies them, so two paths are confused only if the hash function itself collides - provided the map keys' own Hash writes non-empty, prefix-free bytes.", "quantifier": "every set of type definitions, every pair of paths, every usize width", "why_tests_cant": "types and path lengths are unbounded; concatenation of byte strings can be ambiguous in rare combinations", "anchors": ["x-bow-macros/src/generate.rs: field_index, visit_hashes", "x-bow/src/impls/stdlib/vec.rs", "x-bow/src/impls/stdlib/hash_map.rs", "x-bow/src/impls/stdlib/rc.rs", "x-bow/src/impls/transparent.rs", "x-bow/src/hash_visitor.rs"]}
{"id": "C50", "title": "x-bow: guaranteed paths never fail", "statement": "A path that implements PathExtGuaranteed (struct fields and boxes all the way) can always be borrowed and borrowed mutably, in every value of the store's type; writing a value of the path's type keeps the store's data well typed.", "quantifier": "every type definition, every such path, every well-typed data, after any number of writes", "why_tests_cant": "types, data and histories unbounded", "anchors": ["x-bow/src/guarantee.rs", "x-bow-macros/src/generate.rs: 236-242", "x-bow/src/impls/transparent.rs", "x-bow/src/path_ext.rs: PathExtGuaranteed"]}
{"id": "C51", "title": "Two nodes at one position are refused", "statement": "In debug builds, rendering a node at a combinator path where something is already on screen panics; rendering a new node anywhere else never does.", "quantifier": "every document, every legal history of renders and removals inside an element or a list item, every path", "why_tests_cant": "histories and paths unbounded; the check depends on the whole history of the group", "anchors": ["async_ui_web_core/src/context.rs: add_child, panic_if_duplicate_node"]}
{"id": "C52", "title": "A wake anywhere in a program reaches the root and the woken block", "statement": "In a program of async blocks that await join/race/try_join/race_ok of further async blocks, to any depth, when the waker of any block that still exists is woken, the waker of the root has been woken since its last poll; and the next poll of the root polls that block, unless the block is dropped earlier in that poll. Every block that exists between two polls of the root has been polled at least once. The combinators never panic or deadlock, whatever the blocks do.", "quantifier": "every program (arbitrary code of the blocks, choosing the next await from the state), every shape and depth of the tree, every history of polls, wakes from inside and outside polls, and state changes", "why_tests_cant": "unbounded trees that change shape while wakes travel through them; a lost wake shows only for particular interleavings", "anchors": ["async_ui_web_core/src/combinators/common/*: poll", "async_ui_web_core/src/combinators/utils/wakers/*/*.rs: wake, set_waker"]}
{"id": "C53", "title": "In a program, only blocks that exist are polled, and combinators return the right values", "statement": "Anywhere in a program of nested combinators, a block is polled at most once for its creation and once per wake of its waker; it is never polled after it returned or after any combinator above it was dropped; each combinator returns either the output by which one child ends it, or the outputs of all its children in index order; it returns as soon as it can: one that has not returned still waits for a child. A block's code continues only when the block is polled or what it awaited has just returned, and then gets that value; when a block is polled that awaits nothing, its code does continue, at once.", "quantifier": "every program, every shape and depth, every history", "why_tests_cant": "unbounded trees and interleavings", "anchors": ["async_ui_web_core/src/combinators/common/*: poll"]}
{"id": "C54", "title": "From a wake to a poll through the executor", "statement": "While any block of the program was woken and not polled since, a timer of the root executor is pending; when it fires, or when an event handler calls run_now, that block is polled before the executor returns, unless it is dropped first.", "quantifier": "every program, every history of wakes, timers, event handlers and state changes", "why_tests_cant": "unbounded trees and interleavings of wakes with timer callbacks and re-entrant runs", "anchors": ["async_ui_web_core/src/executor.rs: run_now, schedule, root_waker", "async_ui_web_core/src/combinators/*"]}
{"id": "C55", "title": "VirtualizedList leaves no hole in the viewport and keeps the scroll bar right", "statement": "After a visibility update of a list of equally sized items of which something is rendered, no point of the viewport lies in a spacer; only existing items are rendered; updates do not panic; each rendered item lies where it would lie if all items were rendered, and the list with its spacers is as long as all its items together.", "quantifier": "every item size, viewport size, item count, and every sequence of scrolls, resizes, updates and set_num_items calls", "why_tests_cant": "the window depends on real-valued positions and on the whole history of scrolls, resizes and counts", "anchors": ["async_ui_web/src/lists/virtualized_list.rs: update_visible, set_num_items"]}
{"id": "C56", "title": "Whole applications with dynamic lists show the right document", "statement": "Mount any application built from elements, combinators, async blocks and dynamic lists, nested in any way. Whatever is polled, dropped, replaced, inserted, moved, swapped, removed, completed, rendered, un-rendered or rendered again elsewhere, in any order, no poll panics unless the program misuses a list (unknown keys, rendering a list twice, and the cases refuted in C29, C30, C57, C58); after every poll each element contains what it contained before, followed by the elements its content shows, in the order written, with each rendered list as one contiguous block of its items in the order its callers asked for; lists that are not rendered keep their items in their fragment; everything else on the page is untouched.", "quantifier": "every application tree of any depth and width, every number of polls, every order of polls, drops, replacements, list method calls and item completions, every blocker address", "why_tests_cant": "unbounded trees and histories; lists nested in items of lists, moved while their items still run", "anchors": ["async_ui_web/src/lists/dynamic_list.rs: DynamicList", "async_ui_web_core/src/node_sibling.rs: SiblingNodeFuture", "async_ui_web_core/src/node_container.rs: ContainerNodeFuture", "async_ui_web_core/src/dropping.rs: DetachmentBlocker", "async_ui_web_core/src/context.rs: DomContext"]}
{"id": "C57", "title": "List methods work whenever the list exists", "statement": "At any time between or during polls, insert, remove, move_before, swap and retain with keys that are in the list return normally and the document is then the specified one, whether the list is rendered or not and wherever it is; exactly the lists that are rendered refuse to be rendered again.", "quantifier": "every application, every history, every list in it, every method call with valid keys", "why_tests_cant": "the list remembers the element it was rendered in; whether that is still right depends on the whole history of the lists around it", "anchors": ["async_ui_web/src/lists/dynamic_list.rs: insert, remove, move_before, swap, retain, render, containing_node"]}
{"id": "C58", "title": "A list item may remove itself", "statement": "The code of a list item can remove its own key from the list and go on; nothing panics, whatever it shows afterwards.", "quantifier": "every list, item and history", "why_tests_cant": "depends on what the item shows and when it is removed", "anchors": ["async_ui_web/src/lists/dynamic_list.rs: remove", "async_ui_web_core/src/context.rs: add_child (SiblingNode)"]}
{"id": "C59", "title": "A panic stops the application for good", "statement": "After the application has panicked once, whatever happens on the page (events with handlers, timers, wakers), no component is ever polled again and no timer is set; the event handlers return normally. Nothing but a panicking poll makes the page crash.", "quantifier": "every main future, every history before and after the panic", "why_tests_cant": "the panic can happen at any poll, and any event can follow", "anchors": ["async_ui_web_core/src/executor.rs: run_now, schedule"]}
{"id": "C60", "title": "Every mounted application and spawned task is served", "statement": "When a task (a mounted application, or one spawned on get_executor()) is spawned, woken or cancelled, a timer is pending until it is served; when the timer has fired, or an event handler has run, every such task has been polled since (or, if cancelled, its future dropped).", "quantifier": "every set of tasks with arbitrary futures that wake, spawn and cancel each other, every history of outside wake-ups, timers and events", "why_tests_cant": "unbounded numbers of tasks and interleavings", "anchors": ["async_ui_web/src/executor.rs: get_executor", "async_ui_web/src/mount.rs: mount_at", "async_ui_web_core/src/executor.rs: run_now, schedule"]}
{"id": "C61", "title": "Tasks are polled only when due, one at a time, and fairly", "statement": "A task is polled only if it was spawned or woken since its last poll began, never after it finished or was cancelled, never while another is polled; its future is dropped once; while a task waits to be polled every other task is polled at most once; a future is dropped exactly when its task finished or was cancelled. Only a task that panics makes the page crash.", "quantifier": "every set of tasks, every history, also those that end in a panic", "why_tests_cant": "unbounded interleavings; starvation is invisible in short runs", "anchors": ["async_ui_web/src/executor.rs: get_executor", "async_ui_web/src/mount.rs: mount_at"]}
{"id": "C62", "title": "Class names are what the calls say", "statement": "After any history of add_class, add_classes, del_class, del_classes, set_class (and with_class, with_classes) on an element, the element has a class iff the last call naming that class added it, or no call named it and the element had it before; the calls panic exactly if a name is empty or contains whitespace.", "quantifier": "every class attribute, every history of calls with arbitrary strings", "why_tests_cant": "every string, including whitespace of all kinds and duplicates, and every history", "anchors": ["async_ui_web/src/shortcuts.rs: ShortcutClassList, ShortcutClassListBuilder"]}
{"id": "C63", "title": "ReactiveCell guards held across other operations", "statement": "Whatever guards of a ReactiveCell the program holds, a call panics exactly if a guard is in its way (an exclusive one for borrow and clone; any for borrow_mut and for creating, polling or dropping a change stream); try_borrow and try_borrow_mut report an error in exactly those cases; otherwise the call answers right (values, readiness, wakers woken), and the value does not change while a shared guard is alive.", "quantifier": "every history of guards, streams, polls, wakers and values", "why_tests_cant": "guards may live across any number of awaits, and any interleaving can follow", "anchors": ["async_ui_internal_utils/src/reactive_cell/mod.rs: borrow, borrow_mut, try_borrow, try_borrow_mut, Clone, Debug", "async_ui_internal_utils/src/reactive_cell/borrow_mut.rs", "async_ui_internal_utils/src/reactive_cell/until_change.rs"]}
{"id": "C64", "title": "x-bow guards held across other operations", "statement": "Whatever guards of an x-bow store the program holds, a call panics exactly if a guard is in its way, wherever in the store it is (a mutable one for reading; any for borrowing mutably or setting, even if the path does not exist); change streams and notify_changed never panic; the program is equivalent to one in which each write happens in one step when its guard is dropped; while a shared guard is alive its value does not change.", "quantifier": "every store content, every history of guards, writes, streams and polls, every hash function", "why_tests_cant": "guards may live across any number of awaits, and any interleaving can follow", "anchors": ["x-bow/src/store.rs: Store, RootPath", "x-bow/src/path_ext.rs: borrow_opt, borrow_opt_mut, borrow_opt_mut_without_notifying, get_opt, set_opt, notify_changed", "x-bow/src/borrow_mut_guard.rs: BorrowMutGuard"]}
{"id": "C65", "title": "Whole pages: many applications on one executor", "statement": "On a page with any number of mounted applications and spawned tasks, each a tree of async blocks, combinators and arbitrary code that may wake any block of any application, spawn, cancel and change shared state: while a block that is still there was woken and not polled since, a timer of the executor is pending; once a timer fires or run_now is called, every woken block has been polled or is gone; each application behaves as a program of its own (C52, C53); its root is polled exactly when its task is; it is dropped when its root returned, and otherwise only if it is unmounted; the library's bookkeeping never fails.", "quantifier": "every page, all code and drop code, every waker comparison permitted by its documentation, every history of external actions, timers and event handlers, also after a panic", "why_tests_cant": "wakeups cross applications, combinators, tasks and the browser's timers; any interleaving can follow", "anchors": ["async_ui_web/src/mount.rs: mount", "async_ui_web/src/executor.rs: get_executor, set_executor_future", "async_ui_web_core/src/executor.rs: run_now, schedule, root_waker", "async_ui_web_core/src/combinators/common/*.rs", "async_ui_web_core/src/combinators/utils/wakers/*"]}
{"id": "C66", "title": "The code of an application is run as written", "statement": "Whenever an async block goes on, its code runs on the current shared state; the wakers it wakes are woken (with the blocks above them, as far as needed), and then it waits, returns or creates the combinator, just as its code says; nothing else wakes a waker, returns from a block, creates a combinator or changes the state. On a page, every task spawned, every cancellation and every wake of an existing block that code or the outside performs happens: none is lost and no task is spawned or cancelled otherwise; a task is woken exactly as often as its root block; spawns and cancellations happen in the order in which code performs them; the code that runs is that of the block's own application, and drop code runs exactly when the application is dropped.", "quantifier": "every tree, page, code and history; for the counts: all code that keeps a log of what it does", "why_tests_cant": "a wake or spawn lost between two layers shows only under particular nestings and schedules", "anchors": ["async_ui_web_core/src/combinators/common/*.rs", "async_ui_web_core/src/executor.rs: run_now, schedule, root_waker", "async_ui_web/src/executor.rs: get_executor", "async_ui_web/src/mount.rs: mount_at, mount"]}
{"id": "C67", "title": "Views are up to date when the page is at rest", "statement": "A block of an application whose code, whenever it goes on and then awaits a future of its own, has brought something up to date with the shared state, while all other code that makes it out of date wakes its waker, is up to date whenever it awaits such a future and the page is at rest: when the browser holds no timer for it, or a timer has just fired, or run_now was just called. In particular, for a block that awaits cell.for_each(f): when the page is at rest, no mutable borrow of the cell is alive and the block is still there and at this await (it may have awaited combinators and other futures before), f was last called with the value that is in the cell, whoever wrote it, however deep the block is nested and however many applications, tasks, streams and for_each futures use the cell.", "quantifier": "every page, code, nesting, number of applications and history; every ReactiveCell and every way to use it that Rust allows", "why_tests_cant": "a wake-up lost anywhere between the cell, the combinators, the task queue and the root executor leaves the view stale only under particular interleavings", "anchors": ["async_ui_internal_utils/src/reactive_cell/for_each.rs", "async_ui_internal_utils/src/reactive_cell/borrow_mut.rs", "async_ui_web_core/src/combinators/common/*.rs", "async_ui_web_core/src/executor.rs: run_now, schedule", "async_ui_web/src/executor.rs: get_executor"]}
{"id": "C68", "title": "Views of x-bow stores are up to date when the page is at rest", "statement": "A block awaits for_each, for_each_async, signal_stream or bind_for_each on a path of a store. Whenever the page is at rest (the browser holds no timer for it, or a timer has just fired, or run_now was just called), the block is still there and at this await, the helper is not dropped and the path is valid, the value the helper last told (called its function with, made its future from, yielded or wrote) is the data at the path, whoever wrote it. A signal_stream that does not fire at first may have told nothing yet. Writes strictly inside the path and silent writes are excluded.", "quantifier": "every page, code, nesting, history, store, path, hash function of paths and number of helpers", "why_tests_cant": "a wake-up lost anywhere between the store, the combinators, the task queue and the root executor leaves the view stale only under particular interleavings", "anchors": ["x-bow/src/path_ext.rs", "x-bow/src/until_change.rs", "x-bow/src/path_ext/for_each.rs", "x-bow/src/path_ext/for_each_async.rs", "x-bow/src/path_ext/signal_stream.rs", "x-bow/src/path_ext/bind_for_each.rs", "async_ui_web_core/src/combinators/common/*.rs", "async_ui_web_core/src/executor.rs: run_now, schedule"]}
{"id": "C69", "title": "The events of an element are seen when the page is at rest", "statement": "A block awaits an event stream of an element, in a loop (until_event, until_click, ...). Whenever the page is at rest (the browser holds no timer for it, or a timer has just fired, or the listener has just called run_now), and the block is still there and at this await, the last event that was given to the stream has been returned by a later poll of it, and, if the stream is not dropped, its listener is registered, so that the next event will be given to it; whatever other code dispatches, awaits, drops or stops.", "quantifier": "every page, code, nesting, number of applications, streams and elements, and history of events, nested dispatches included", "why_tests_cant": "a wake-up lost anywhere between the listener, the combinators, the task queue and the root executor leaves the event unseen only under particular interleavings", "anchors": ["async_ui_web_html/src/event_handling.rs: EventFutureStream", "async_ui_web_core/src/combinators/common/*.rs", "async_ui_web_core/src/executor.rs: run_now, schedule"]}
{"id": "C70", "title": "What a DynamicSlot was told to show is shown when the page is at rest", "statement": "A block awaits slot.render(). Whenever the page is at rest (the browser holds no timer for it, or a timer has just fired, or run_now was just called), and the block is still there and at this await, the future given by the last set_future has been polled by the last poll of the render future (no future, if clear_future was called last), is not dropped, and every other future ever given to the slot has been dropped, exactly once; whoever called set_future and clear_future, the slotted futures themselves included.", "quantifier": "every page, code, nesting, history and slotted futures", "why_tests_cant": "a wake-up lost anywhere between the slot, the combinators, the task queue and the root executor leaves the old content only under particular interleavings", "anchors": ["async_ui_web/src/components/dynamic_slot.rs", "async_ui_web_core/src/combinators/common/*.rs", "async_ui_web_core/src/executor.rs: run_now, schedule"]}
{"id": "C71", "title": "Combinators really run the code of their children", "statement": "A poll of a combinator (join, try_join, race, race_ok, over tuples, arrays or vectors) runs the code of the children it polls, one after the other: every change of the shared state, every wake-up and every result is the one that this code makes, in this order, and nothing else happens to the children's state; if a child panics, the poll panics at once and polls nobody else.", "quantifier": "every kind of combinator, number of children, code of children, and history of polls, wake-ups and changes by others", "why_tests_cant": "the code of children is arbitrary", "anchors": ["async_ui_web_core/src/combinators/common/mod.rs", "async_ui_web_core/src/combinators/common/tuple.rs", "async_ui_web_core/src/combinators/common/vec.rs", "async_ui_web_core/src/combinators/common/array.rs"]}
{"id": "C72", "title": "VirtualizedList follows scrolling", "statement": "Whenever a scroll event is dispatched on the list's root or its IntersectionObserver reports, the task that renders the list is woken, once, with the waker of its last poll, and nothing panics; a poll of the render future updates the list if it was told anything since the last update, always at the first poll, and not if it was told nothing since its last poll; the scroll listener is registered and the observer connected exactly while the list is rendered (both are gone when the render future is dropped); a second concurrent render panics, and nothing else does, except an update that panics by C37/C55. Whenever the page is at rest and the block that awaits list.render() is still there, all that the list was told has been followed by an update and the list is listening.", "quantifier": "every history of renders, polls, drops, scroll events (also from user code during an update), reports and set_num_items calls, and every page around it", "why_tests_cant": "a lost wake-up or a listener that leaks shows only under particular interleavings of scrolls, polls and drops", "anchors": ["async_ui_web/src/lists/virtualized_list.rs: new, render, update_visible, set_num_items", "async_ui_web_core/src/executor.rs: run_now, schedule"]}
{"id": "C73", "title": "What is in the document is exactly where the code is", "statement": "For a mounted application whose async blocks render elements and await join, race, try_join and race_ok of further blocks to any depth, polled as the wakers demand: rendering is transparent (what is polled, woken, awaited and returned is the same as without rendering, and rendering never fails); at any moment the root shows, after the children it had, what the root block shows, where a block shows the outermost element it is in, or else what the children of the combinator it awaits show, in their order; each element a block is in holds the next element the block is in, or what the block awaits shows; nodes outside the application are untouched. Hence an element is in the document if and only if some block whose future exists is in it (a child of a join that has completed keeps its element until the join is over). Dropping the application's task panics if and only if the root block is in an element or awaits a combinator; else the root gets its old children back.", "quantifier": "every program (which blocks, what they render, await, wake and return, depending on shared state), every history of polls, wakes and state changes, any addresses of the futures", "why_tests_cant": "which children are polled, and in which order elements appear and go, depends on the wakes at every level; tests see a few trees and schedules", "anchors": ["async_ui_web_core/src/node_container.rs: ContainerNodeFuture", "async_ui_web_core/src/combinators/common/vec.rs: CombinatorVec", "async_ui_web_core/src/combinators/common/array.rs: CombinatorArray", "async_ui_web_core/src/context.rs: DomContext", "async_ui_web_core/src/dropping.rs: DetachmentBlocker", "async_ui_web/src/mount.rs: mount_at"]}
{"id": "C74", "title": "A rendered DynamicList runs its items", "statement": "While the render future of a DynamicList is awaited, no wake-up is lost: if an item was inserted, woken or removed since the render future was last polled, the waker of that poll has been woken. Every poll of the render future serves the items: afterwards no item is waiting for its turn, or 200 turns were taken and the render future has woken itself. An item is polled only when it was inserted or woken since its last poll, is still in the list and has not finished, never while another item is being polled, and only inside a poll of the render future. While one item waits for its turn, every other item gets at most one. The future of an item that was removed (or replaced under its key) is never polled again and is dropped by the next poll of the render future, or with the list; when the list is dropped no item's future is left. Un-rendering the list and rendering it again loses nothing. The list is rendered by the render future that was polled and not dropped since; polling another one meanwhile panics, and nothing else does unless an item panics.", "quantifier": "every program (which items insert, remove and wake which, when polled or dropped), every history of calls, polls with any wakers, drops and new renders of the list", "why_tests_cant": "the order of wakes, insertions, removals and polls is unbounded and includes calls of the list made by its own items while they run", "anchors": ["async_ui_web/src/lists/dynamic_list.rs: DynamicList::insert", "async_ui_web/src/lists/dynamic_list.rs: DynamicList::remove", "async_ui_web/src/lists/dynamic_list.rs: DynamicList::retain", "async_ui_web/src/lists/dynamic_list.rs: DynamicList::render"]}
{"id": "C75", "title": "When the page comes to rest, the items of a rendered DynamicList have run", "statement": "A block of an application on a page awaits list.render(). When the page has come to rest, every item that was inserted or woken has been polled since (or has finished), and every item that was removed or replaced has been dropped.", "quantifier": "every page (any applications, combinators, shared state, event handlers), every history, every program of the items", "why_tests_cant": "a lost wake-up at any of four levels (the list's executor, the combinators, the page's executor, the browser's timer) leaves an item that never runs, only in some schedules", "anchors": ["async_ui_web/src/lists/dynamic_list.rs: DynamicList::insert", "async_ui_web/src/lists/dynamic_list.rs: DynamicList::remove", "async_ui_web/src/lists/dynamic_list.rs: DynamicList::retain", "async_ui_web/src/lists/dynamic_list.rs: DynamicList::render", "async_ui_web_core/src/executor.rs: set_executor_future", "async_ui_web/src/mount.rs: mount_at", "async_ui_web_core/src/executor.rs: schedule"]}
{"id": "C76", "title": "Several applications in one document", "statement": "Any number of applications are mounted in distinct nodes of one document and run on the one executor, with any shared state, waking, spawning and cancelling each other. What they render never fails and changes nothing about what is polled, woken, awaited and returned, in which order. At every moment, unless the drop of an application's future has panicked: the node of each application has the children it had before, followed by what its root block shows; each element that one of its blocks is in holds exactly what that block shows inside it; the node of an application that was unmounted or has returned has the children it had before; no other node is touched. The drop of an application's future panics if and only if its root block is in an element or awaits a combinator at that moment. When the page has come to rest, the elements a view shows are those that the present state wants, and they are in the document. Only unmounting can make the drop of an application panic: as long as no application is unmounted, all that is rendered and removed goes through.", "quantifier": "every document, every number of applications, every program (any nesting of combinators and elements, any shared state), every history of events, timers, spawns, cancellations and wake-ups", "why_tests_cant": "what one application does to the document while another is being polled, dropped or woken depends on unboundedly many interleavings and tree shapes", "anchors": ["async_ui_web/src/mount.rs: mount_at", "async_ui_web/src/mount.rs: mount", "async_ui_web_core/src/node_container.rs: ContainerNodeFuture", "async_ui_web_core/src/context.rs: DOM_CONTEXT", "async_ui_web_core/src/dropping.rs: DetachmentBlocker::block_until_drop", "async_ui_web/src/executor.rs: set_executor_future"]}
{"id": "C77", "title": "A loop that waits for events handles each browser event once", "statement": "A component shows its state and waits in a loop for the first of several events with select!, as the counter example does, beside any number of futures that only show something. Whatever events come and whenever the executor runs, nothing panics or hangs, and after each step what is shown is the state changed by the events that came, in their order: each event the browser dispatches while the component is there counts exactly once, and the component gets that very event. There is always exactly one listener for each target: those of earlier rounds of the loop are gone. Events that come before the executor has first run the component are lost. That every event counts is false when code dispatches several events before the executor runs again: only one of them counts, at the target of the first of them, and the component gets the last of the events there.", "quantifier": "every number of targets and of other futures, every state and every effect of the events, every history of events, timers and other calls of run_now", "why_tests_cant": "the loop runs for ever, through unboundedly many select!s, streams and combinators; a lost wake-up or event would show only after some history of events", "anchors": ["examples/web-simple-examples/src/counter.rs: counter", "async_ui_web_macros/src/select.rs: select", "async_ui_web_html/src/event_handling.rs: EventFutureStream", "async_ui_web_core/src/combinators/race/tuple.rs: RaceBehavior", "async_ui_web_core/src/combinators/join/tuple.rs: JoinBehavior", "async_ui_web_core/src/executor.rs: run_now"]}
{"id": "C78", "title": "A new combinator polls all its children before other code goes on", "statement": "When code awaits a new join, race, try_join or race_ok, every child future is polled for the first time before any code outside this combinator goes on, unless the combinator returns before. So between two polls of an application, every child of every combinator that has not returned has begun. This holds however deeply combinators are inside one another, and for every application of a page: code of other applications and event handlers find all children begun. (A future that takes note of the state when it is first polled, as until_change of a ReactiveCell does, relies on this.)", "quantifier": "every program of nested combinators and every history of polls, wakes and changes of its environment; every page and history", "why_tests_cant": "it is about the order of code in trees of combinators of every depth, created at any moment", "anchors": ["async_ui_web_core/src/combinators/common/vec.rs: CombinatorVec poll", "async_ui_web_core/src/combinators/common/array.rs: CombinatorArray poll", "async_ui_web_core/src/combinators/common/tuple.rs: impl_common_tuple", "async_ui_web_core/src/combinators/utils/wakers/vec/readiness.rs: ReadinessVec"]}
{"id": "C79", "title": "A view that waits for the first of several changes is up to date at rest", "statement": "A component shows the values of several ReactiveCells and then awaits a race of an until_change future of each, in a loop; or, more generally, it shows several things and awaits a combinator of futures, one for each, each of which wakes its waker when its thing changes after the future was first polled. Whenever the page is at rest (no timer is pending, or one has just fired, or run_now was just called), the values shown are those in the cells, unless a cell is mutably borrowed. The same holds for several paths of an x-bow store and a race of their until_change streams (which may be kept from one turn of the loop to the next), if no code changes the data at a path by a write strictly inside it or by a write that does not notify. This holds whatever all other code of the page does to the cells, and wherever in the application the component is.", "quantifier": "every number of cells or paths, every type of values, every program of the applications of the page, every history of the page", "why_tests_cant": "a lost change depends on the order in which the view, its futures and other code run, and on wake-ups passing through the combinators and both executors", "anchors": ["async_ui_internal_utils/src/reactive_cell/until_change.rs: until_change, poll_next", "async_ui_internal_utils/src/reactive_cell/borrow_mut.rs: drop", "async_ui_web_core/src/combinators/race/tuple.rs: RaceBehavior", "async_ui_web_core/src/combinators/common/tuple.rs: impl_common_tuple", "async_ui_web_core/src/executor.rs: run_now", "x-bow/src/until_change.rs: poll_next", "x-bow/src/borrow_mut_guard.rs: drop"]}
{"id": "C80", "title": "A view that waits for changes of a path and inside it is up to date at rest", "statement": "A component shows parts of an x-bow store and then awaits, in a loop, a race of the next items of streams, each made of some path with until_change or with until_bubbling_change. Whenever the page is at rest, no notification that such a stream listens to (of the path or what contains it for until_change; of the path or what is inside it for until_bubbling_change) has been given since the component last showed the store. In particular, if it waits for both kinds of streams of one path, and no code writes at, inside or above the path without notification, then the data at the path is what the component last showed, whatever all other code of the page does to the store.", "quantifier": "every number of streams, every store and its data, every path, every program of the applications of the page, every history of the page", "why_tests_cant": "a lost change depends on the order in which the view, its streams and other code run, on which parts of the store are written, and on wake-ups passing through the wakers tree, the combinators and both executors", "anchors": ["x-bow/src/until_change.rs: UntilChange, poll_next", "x-bow/src/path_ext.rs: until_change, until_bubbling_change", "x-bow/src/borrow_mut_guard.rs: drop", "x-bow/src/wakers.rs: get_listener, get_notifier", "async_ui_web_core/src/combinators/race/tuple.rs: RaceBehavior", "async_ui_web_core/src/executor.rs: run_now"]}
{"id": "C81", "title": "DiffedList.update changes only what it has to", "statement": "DiffedList.update calls the renderer for a key exactly as often as the key is in the new vector, less one if it was shown; it removes a key, once, exactly if it was shown and is not in the new vector; it moves a key at most once, and only one that was and is in the vector; it makes at most as many list operations as there are new and old keys. Items at an unchanged beginning are not touched; adding keys at one place only inserts them (and an update with the same keys does nothing); taking keys away from the end only removes them. An update that only removes keys leaves the other items alone, and the documentation's example shows its vector.", "quantifier": "every vector of previous and of new keys (with or without repetitions, as stated), every order of the hash set", "why_tests_cant": "which operations are made depends on the whole of both vectors", "anchors": ["async_ui_web/src/lists/diffed_list.rs: update, new (documentation example)", "async_ui_web/src/lists/dynamic_list.rs: insert, move_before, remove"]}
{"id": "C82", "title": "A DiffedList updated from a ReactiveCell shows the cell's keys at rest", "statement": "A component awaits cell.for_each(f), where f calls update of a DiffedList with keys computed from the value. Whenever the page is at rest and the cell is not mutably borrowed, the list has exactly the keys of the value in the cell, each once, and, if no update changed the relative order of keys that stay, in their order. This holds whatever all other code of the page does to the cell, and wherever in the application the component is.", "quantifier": "every type of values, every way to compute the keys, every program of the applications of the page, every history of the page, every order of the hash set", "why_tests_cant": "it depends on all changes of the cell, on when the component runs, and on every update since the list was made", "anchors": ["async_ui_internal_utils/src/reactive_cell/for_each.rs: for_each", "async_ui_web/src/lists/diffed_list.rs: update", "async_ui_web_core/src/executor.rs: run_now"]}
{"id": "C83", "title": "The text on the screen is the strings the program renders, in program order", "statement": "Mount any application made of strings, text nodes, elements, combinators and async blocks at a node. Whatever is then polled, in whatever order, dropped or replaced, what a reader reads inside the node (the DOM's textContent) is what was there before, followed by exactly the strings that the running futures have rendered and that are still alive, in the order in which the program writes them, not the order in which they were first polled.", "quantifier": "every application, every alphabet and every text of the nodes, every schedule of polls, drops and replacements, every earlier content of the document", "why_tests_cant": "the text is assembled across all levels of nesting and depends on the order of first polls and on every drop and replacement", "anchors": ["async_ui_web_html/src/text_node.rs: Text::render", "async_ui_web/src/shortcuts.rs: ShortcutRenderStr::render", "async_ui_web_html/src/common_components.rs: render", "async_ui_web/src/no_child.rs: NoChild", "async_ui_web_core/src/node_container.rs: poll", "async_ui_web/src/mount.rs: mount_at"]}
{"id": "C84", "title": "A ModeledList updated from a ReactiveCell shows the cell's model at rest", "statement": "A component awaits cell.for_each(f), where f calls update of a ModeledList with the ListModel in the value. f is called with values that the cell has had, in the order in which it had them, though not necessarily with all of them. Whenever the page is at rest and the cell is not mutably borrowed, no update has panicked, and the list has exactly the items of the model in the cell, in their order, although each update replays only the part of the model's log that the list has not seen. This holds whatever all other code of the page does to the cell, as long as the model's items stay unique and its neighbours are not swapped with swap(i, i+1).", "quantifier": "every type of values, every program of the applications of the page, every history of the page, every history of changes of the model and of replacements by new models", "why_tests_cant": "it depends on all changes of the cell, on which of them fall between two calls of f, and on how long the log is at each of them", "anchors": ["async_ui_internal_utils/src/reactive_cell/for_each.rs: for_each", "async_ui_web/src/lists/modeled_list.rs: update, ListModel", "async_ui_web_core/src/executor.rs: run_now"]}
{"id": "C85", "title": "Undo and redo in the circles example", "statement": "Whatever the user does in the circles example (moves the mouse, clicks to add a circle, changes a size with the slider of the context menu, clicks Undo and Redo), the program does not panic, and the circles on the screen, their places and their sizes are those of an editor that keeps the pictures before and after the present one: Undo goes back to the picture before the last change, Redo to the picture that was undone, a new change forgets what was undone. The Undo button is disabled exactly when there is nothing to undo, and the Redo button when there is nothing to redo. When the mouse has moved, exactly the circle under it is highlighted.", "quantifier": "every sequence of events of any length, every sequence of values of the slider, every rule for the circle under the mouse", "why_tests_cant": "each picture depends on the whole history of changes, undos and redos; the program keeps only the operations and inverts them", "anchors": ["examples/web-simple-examples/src/circles.rs: circles, context_menu, OperationsBar::until_do, OperationsBar::add_operation"]}
{"id": "C86", "title": "The TodoMVC example shows the list the user made", "statement": "Whatever the user does in the TodoMVC example (adds items, clicks the check box of an item, clicks the box that toggles all, clears the completed items, deletes an item, chooses a filter), and in whatever order the blocks of the program go on after each event, they come to rest; and when they have come to rest, the items and their check marks are those of a plain list with the same history, each item's box and 'completed' class agree with its mark, an item is hidden exactly when the filter does not show it, the footer gives the number of items left, the main part is hidden exactly when the list is empty, the Clear button exactly when no item is completed, and, when there are items, the toggle-all box is checked exactly when all are completed.", "quantifier": "every sequence of events of any length with any number of items, every order in which the awakened blocks run between the events", "why_tests_cant": "the counters are kept by adding and subtracting in several blocks that wake one another, and the result must not depend on the order in which they run nor on the history", "anchors": ["examples/web-todomvc/src/app.rs: app_main, FootPart::render, TodoItem::new, TodoItem::render_until_deleted, TodoItem::set_checked, Drop for TodoItem, FilterMode::should_show"]}
{"id": "C87", "title": "The spreadsheet example computes its formulas", "statement": "Whatever the user enters in the cells of the spreadsheet example (numbers, sums of a range, other text), and in whatever order the cells are computed again, the program does not panic; the cells come to rest after boundedly many computations; when they have, every cell shows the value of its formula in the values of the cells it sums up, and two histories that leave the same in the cells leave the same values on the screen.", "quantifier": "every sequence of changes of any length, every table size and every arithmetic, every order in which the awakened cells run", "why_tests_cant": "a change spreads through cells that wake one another; the result must not depend on the order or the history, and rest must come for every acyclic sheet", "anchors": ["examples/web-simple-examples/src/cells.rs: cells, cell, Formula::until_dep_change, Formula::compute, Index<CellIndex>"]}
{"id": "C88", "title": "The list of persons in the CRUD example", "statement": "Whatever the user does in the CRUD example (types in the fields, picks persons in the list, clicks Create, Update and Delete), the program does not panic; the list shows the persons entered, in the order in which they were created, with their last names given by Update and without those deleted; Update and Delete act on the person that is picked; and exactly the persons whose name starts with the text in the filter field are shown.", "quantifier": "every sequence of events of any length, every rule for names and for 'starts with'", "why_tests_cant": "the panic needs a certain sequence of clicks, and the list is kept in two places (a map and the page) that must agree after every history", "anchors": ["examples/web-simple-examples/src/crud.rs: crud"]}
{"id": "C89", "title": "Drag and drop with the Dragger", "statement": "Whatever the user drags and drops between items wrapped by a Dragger, the stream of moves gives exactly one move for each drop, in order, with the item dragged, the item dropped on and the side of it where the pointer was; while something is dragged over an item there is room of its size on that side of the item, and when the drag is over there is none.", "quantifier": "every sequence of drags of any length in the browser's order of events, any number of items and any sizes", "why_tests_cant": "the moves depend on the whole history through one shared cell that the items and the stream read and write in turn", "anchors": ["examples/async_ui_web_draggable/src/lib.rs: Dragger::wrap_item, Dragger::until_move"]}
{"id": "C90", "title": "The timer example", "statement": "Whatever ticks, slider moves and resets come, in whatever order the blocks of the join go on, when all of them wait the text shows the time passed, the meter shows that time divided by the duration, and the duration is the slider's; the time goes up by one step at each tick while it is below the duration, and not otherwise, and is zero after a reset; and the blocks always come to wait.", "quantifier": "every sequence of ticks, slider moves and resets of any length, and every order in which the woken blocks go on", "why_tests_cant": "five blocks share two cells and any of them may run first; the shown values must agree with the whole history for every order", "anchors": ["examples/web-simple-examples/src/timer.rs: timer"]}
