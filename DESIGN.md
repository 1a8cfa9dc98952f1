# Formal model of wishawa/async_ui in Coq

All model and proof files are in `rocq/theories` (logical name `Verif`).

## Layout

* Model files (`Position.v`, `Dom.v`, `Context.v`, ...): computable Gallina
  functions. Each definition cites the file and lines of /repo it models and the
  simplifications made.
* `Spec_*.v`: small specifications, independent of the model, in which the
  properties are phrased (path order, keyed lists, histories, ...).
* `*_proofs.v`: lemmas. `List_lemmas.v`, `Util.v`: general lemmas.
* `Props_*.v`: the property theorems only. Each is followed by
  `Print Assumptions` and by an `Example` with a concrete, non-trivial case that
  meets its hypotheses.

Conventions: panics are explicit (`None` or an error value), never ignored; external
code (browser DOM, `async-executor`, hashers, layout, user futures) is either
modelled after its specification (DOM `insertBefore`/`removeChild`/listener
dispatch, `BTreeMap`, `HashMap`, async-task's scheduling) or universally
quantified. A claim that is false of the code appears as a theorem
`..._refuted`: a concrete run of the model that violates it; what remains true
is proved as `..._partial`.

## Properties

| id | property | what is modelled | how it is proved | status | theorems |
|---|---|---|---|---|---|
| C01 | Document order follows program order | `DomContext::{Container,Null,Sibling,Child}`, `add_child`, `remove_child`, `ChildPosition`, `BTreeMap` range/insert/remove, DOM `insertBefore`/`removeChild` | invariant (children list = foreign nodes ++ group values in path order), induction over histories of renders and removals | proved | `C01_document_order` |
| C02 | Removing a rendered future removes exactly its own nodes | same | exact effect of one removal, relative to the C01 invariant | proved | `C02_removal_exact` |
| C03 | Path order is a total order and the removal range is the subtree | `ChildPosition` (position.rs), leaf first as stored | comparison = lexicographic order of root-first paths; range = prefix set | proved | `C03_comparison_is_path_order`, `C03_path_order_total`, `C03_removal_range_is_subtree`, `C03_next_sibling_defined` |
| C04 | Content of a list item stays between its markers | the `Sibling` context | C01 invariant relative to a reference node | proved | `C04_item_content_before_marker`, `C04_item_removal_exact` |
| C05 | A whole UI tree is shown in tree order and disappears completely | UI trees of any depth: container nodes, text leaves, combinators, no-child futures; polls in any order; drops of any subtree; drop glue | simulation: document = rendering of the started parts; induction over trees and histories | proved | `C05_whole_tree` |
| C06 | Dropping a tree detaches once, at its top | the drop guard cell (`dropping.rs`), addresses arbitrary and possibly equal | induction over trees for every address assignment | proved | `C06_drop_detaches_once` |
| C07 | Unmounting an application | mount/unmount: drop of the root future with no context set | exact condition for the panic (iff), concrete refutation | partial | `C07_unmount_panics_iff`, `C07_unmount_refuted`, `C07_unmount_partial` |
| C08 | Waker lists: registration, order and isolation | `WakersArena` arrays with next/prev links and free list | refinement to disjoint lists | proved | `C08_no_panic_and_fresh`, `C08_iter_exact`, `C08_reuse` |
| C09 | ReactiveCell.until_change: no missed and no spurious change | `ReactiveCell`, `until_change` futures | invariant relating versions to the ghost history | proved | `C09_until_change` |
| C10 | ReactiveCell wakes every waiting stream | same | exact list of wakes per operation | proved | `C10_wakes` |
| C11 | ReactiveCell.for_each sees the final value | `for_each` as a state machine over the cell | invariant; progress | proved | `C11_for_each`, `C11_up_to_date`, `C11_woken` |
| C12 | Combinator wake-ups are never lost or duplicated | readiness sets (array and vector), combinator polling for array, tuple and Vec, children = arbitrary step functions that may wake any waker during their poll | invariant over wake/poll/drop histories | proved | `C12_wakeups`, `C12_polled_exactly_once` |
| C13 | Only woken, incomplete children are polled | same | same invariant | proved | `C13_only_woken_incomplete` |
| C14 | join returns every output, in index order | same, join | induction over the poll loop | proved | `C14_join`, `C14_every_poll_returns` |
| C15 | try_join stops at the first error | same, try_join | same | proved | `C15_try_join` |
| C16 | race returns the first completion | same, race | same | proved | `C16_race` |
| C17 | race_ok returns the first success or all errors in order | same, race_ok | same | proved | `C17_race_ok` |
| C18 | Outputs are owned exactly once | same; ownership of outputs and futures through drop | multiset invariant | proved | `C18_owned_once`, `C18_outputs_kept` |
| C19 | Polling a combinator after completion is detected | same; re-polling | positive theorems plus concrete refutations | partial | `C19_join_repoll_panics_partial`, `C19_try_join_ok_repoll_panics_partial`, `C19_race_ok_err_repoll_panics_partial`, `C19_vec_join_repoll_refuted`, `C19_race_repoll_refuted` |
| C20 | meanwhile / pend_after | `PendAfter`, `meanwhile` as a race | on top of the race theorem | proved | `C20_meanwhile`, `C20_g_not_repolled`, `C20_driven` |
| C21 | Shared waker storage is freed exactly when unused | `SharedArc`: reference counts, memory reuse, any number of combinators | invariant on ghost handles | proved | `C21_wakes_its_index`, `C21_freed_exactly_when_unused`, `C21_pointers_valid` |
| C22 | The root executor never loses a wake-up | `executor.rs`: flags, timers, nested runs; main future and other tasks arbitrary | invariant over event sequences | proved | `C22_timer_pending`, `C22_timer_polls`, `C22_one_timer` |
| C23 | run_now is synchronous and re-entrancy safe | `run_now` loop | same | proved | `C23_run_now`, `C23_synchronous`, `C23_terminates` |
| C24 | Event streams deliver the latest event | listener registry after the DOM standard, `EventFutureStream` | invariant over a stack of dispatches; arbitrary actions between two listener calls | proved | `C24_polls`, `C24_wakes`, `C24_once`, `C24_gifts`, `C24_reaches` |
| C25 | Event streams unsubscribe when dropped | same | proved without capture, refuted with | partial | `C25_unsubscribes_partial`, `C25_refuted` |
| C26 | DynamicSlot shows the last future that was set | `DynamicSlot` channel and render future | refinement to "last message" | proved | `C26_poll`, `C26_only_in_polls`, `C26_wakes`, `C26_drops`, `C26_no_panic`, `C26_code` |
| C27 | DynamicSlot does not poll a finished future | same | refutation plus positive theorem | partial | `C27_replaced_partial`, `C27_refuted` |
| C28 | DynamicList behaves as a keyed list | `DynamicList`: start/end markers, item map, `SmallVec` of pending removals, polls of items, document with foreign nodes | refinement to a keyed list, induction over histories | proved | `C28_keyed_list`, `C28_edit_is_local`, `C28_removed_disappear` |
| C29 | DynamicList.swap exchanges two items | `swap` | positive theorem plus refutation | partial | `C29_swap_partial`, `C29_swap_adjacent_refuted` |
| C30 | DynamicList with an unknown or own reference key | `insert`/`move_before` with unknown or own key | theorem for all unknown keys; refutation | partial | `C30_unknown_reference_panics`, `C30_self_move_refuted`, `C28_keyed_list` |
| C31 | DynamicList keeps its content across render/unrender | first poll and drop of the list's render future | refinement | proved | `C31_render_unrender`, `C28_keyed_list` |
| C32 | A list keeps its place among siblings | list inside a node group with siblings | positive theorems plus refutation | partial | `C32_rendered_in_place_partial`, `C32_later_sibling_partial`, `C32_late_smaller_sibling_refuted` |
| C33 | DiffedList.update shows exactly the new keys | `DiffedList::update` as a sequence of calls on `DynamicList` | induction over vectors; `calls_on_document` transfers to documents | proved | `C33_diffed_set`, `C33_diffed_keeps_futures`, `calls_on_document` |
| C34 | DiffedList.update shows the keys in the given order | same | exact characterisation of the order; refutation | partial | `C34_order_exact_partial`, `C34_diffed_order_partial`, `C34_document_partial`, `C34_reorder_refuted` |
| C35 | ListModel behaves as a Vec and its log is faithful | `ListModel` operations and change log | refinement to Vec; replay invariant; log bound | proved | `C35_model_is_vec`, `C35_returned_items`, `C35_log_faithful`, `C35_identities`, `C35_log_bounded` |
| C36 | ModeledList.update mirrors the model | `ModeledList::update`, several models | induction over histories | partial | `C36_update_partial`, `C36_document_partial`, `C36_adjacent_swap_refuted`, `C36_keeps_items`, `C36_keeps_futures`, `C36_incremental` |
| C37 | VirtualizedList shows a contiguous window | `VirtualizedList::update_visible`: integer window logic; measured geometry universally quantified | exact characterisation; refutation | partial | `C37_update_exact_partial`, `C37_window_partial`, `C37_document_partial`, `C37_shrink_grow_refuted` |
| C38 | Dropdown options and value | `Dropdown` over HTML `<select>` semantics | partial theorems plus refutations | partial | `C38_options_partial`, `C38_selection_kept_partial`, `C38_reorder_refuted`, `C38_removed_choice_refuted`, `C38_deselect_refuted`, `C38_duplicates_refuted` |
| C39 | x-bow: no change is missed | `StoreWakers` hash-keyed entries over the arena, until-change streams, any hash | invariant over histories | proved | `C39_ready`, `C39_wakes` |
| C40 | x-bow: no spurious change | same | under freedom of collisions; keys of different paths differ for a good hash | proved | `C40_ready`, `C40_wakes`, `C40_keys`, `C40_good_hash` |
| C41 | x-bow: bubbling streams | same | same | proved | `C41_ready`, `C41_wakes`, `C41_only` |
| C42 | x-bow: reads see writes, and only where written | data trees, path segments (field, variant, index, key, deref), borrow and borrow_mut | lens laws by induction over paths | proved | `C42_read_after_write`, `C42_inside`, `C42_elsewhere`, `C42_containing`, `C42_untouched`, `C42_writable`, `C42_store_write` |
| C43 | x-bow: listener storage does not leak | slot counting in `StoreWakers` | invariant | proved | `C43_no_panic`, `C43_storage`, `C43_nothing_left` |
| C44 | x-bow bind_for_each writes incoming values and reports outside changes | `bind_for_each` over the stream semantics | invariants; refutations | partial | `C44_stores`, `C44_reports`, `C44_completes`, `C45_up_to_date`, `C44_first_refuted`, `C44_last_value_refuted` |
| C45 | x-bow for_each / for_each_async / signal_stream track the current value | `for_each`, `signal_stream`, `for_each_async` poll functions | invariants | proved | `C45_no_panic`, `C45_for_each`, `C45_signal_stream`, `C45_up_to_date`, `C45_for_each_async`, `C45_one_future`, `C45_polls_newest`, `C45_dropped_once`, `C45_no_future_left` |
| C46 | css! renames classes consistently | `css!`: class positions, rewriting, postfix, constants, installation through a JavaScript template literal | string induction; refutation for unescaped text | partial | `C46_cut`, `C46_output`, `C46_succeeds`, `C46_postfix`, `C46_scoped`, `C46_installed_partial`, `C46_installed_iff`, `C46_installed_refuted` |
| C47 | select! runs the handler of the first completed branch | `select!` expansion as race of mapped branches | on top of race | proved | `C47_select`, `C47_value`, `C47_woken`, `C47_branches` |
| C48 | Re-rendering an element shows only its new content | re-rendering after drop in the UI-tree model | concrete refutation, exact effect | partial | `C48_dropped_element_keeps_content`, `C48_rerender_refuted` |
| C49 | x-bow: different paths feed different bytes to the hasher | byte strings fed to the hasher by each path segment | injectivity by prefix-freeness | proved | `C49_distinct_bytes`, `C49_unit_key` |
| C50 | x-bow: guaranteed paths never fail | path types and guaranteed segments | typing induction | proved | `C50_guaranteed`, `C50_typed` |
| C51 | Two nodes at one position are refused | debug assertion in `add_child` | exact panic condition | proved | `C51_duplicate_position`, `C51_duplicate_position_in_item` |
| C52 | A wake anywhere in a program reaches the root and the woken block | a tree of blocks and combinators in shared memory (`Tree.v`), wakes climbing through the combinators' mutexes | one invariant over all combinators, mutual induction on the five polling functions | proved | `C52_wake_counts`, `C52_wake_reaches_root`, `C52_woken_is_polled`, `C52_every_block_polled`, `C52_no_fault`, `C52_fuel_irrelevant` |
| C53 | In a program, only blocks that exist are polled, and combinators return the right values | the same | the same invariant: poll/wake counts, liveness of every polled block, result of every combinator | proved | `C53_polls_need_wakes`, `C53_only_live_polled`, `C53_results`, `C53_goes_on`, `C53_code_runs`, `C53_value_handed_on`, `C53_waits_for_a_child` |
| C54 | From a wake to a poll through the executor | the tree as the main future of the executor (`App.v`) | composition of the tree invariant with the executor's | proved | `C54_timer_pending`, `C54_timer_polls_block`, `C54_event_polls_block` |
| C55 | VirtualizedList leaves no hole in the viewport and keeps the scroll bar right | `update_visible` with the page's geometry over rational numbers, fixed item size | arithmetic of the computed window, invariants over histories, concrete refutations | partial | `C55_no_hole_partial`, `C55_items_exist_partial`, `C55_no_panic_partial`, `C55_places`, `C55_fewer_items_refuted`, `C55_hole_refuted`, `C55_panic_refuted` |
| C56 | Whole applications with dynamic lists show the right document | `UiList.v`: UI trees with list objects at any depth, one poll as a function of a schedule; drops of lists inside items inside lists | an invariant that splits every children list along the tree (who shows what where), kept by every document operation, then mutual induction on schedules and drops; termination of drops by a size argument | proved | `C56_document_with_lists`, `C56_every_run_ends` |
| C57 | List methods work whenever the list exists | list methods in any state a run reaches | the C56 invariant gives the list's place; the refutation is a concrete run | partial | `C57_rendered_lists_know`, `C57_list_methods_work_partial`, `C57_list_methods_refuted` |
| C58 | A list item may remove itself | the same | concrete run; direct proof of the partial claim | partial | `C58_current_items_render_partial`, `C58_only_removed_items_partial`, `C58_self_removal_refuted` |
| C59 | A panic stops the application for good | the root executor after a panic | invariant: the `active` flag stays set | proved | `C59_crash_is_final`, `C59_crashes_only_by_panic` |
| C60 | Every mounted application and spawned task is served | `get_executor` and `mount_at` over a model of async_executor's run queue as main future of the root executor | invariant of the queue and the task states; history of the root executor | partial | `C60_timer_pending_partial`, `C60_all_served_partial`, `C60_spawn_before_mount_refuted` |
| C61 | Tasks are polled only when due, one at a time, and fairly | the same | the same invariant; a trace lemma for fairness | proved | `C61_polls_are_legal`, `C61_fair`, `C61_ends`, `C61_crashes_only_by_panic` |
| C62 | Class names are what the calls say | the calls over DOMTokenList's parse, update and serialise steps on the class attribute | the words of a string are what the parser finds; parsing a serialised set gives it back | proved | `C62_classes_as_called`, `C62_panics_on_bad_names` |
| C63 | ReactiveCell guards held across other operations | the cell of C09-C11 with std RefCell's rules and any number of live guards | invariant: the live guards are those of the history; projection to the histories of C09-C10 | proved | `C63_panics_exactly`, `C63_answers`, `C63_stable` |
| C64 | x-bow guards held across other operations | the store of C39-C45 with std RefCell's rules and any number of live guards | invariant: the live guards are those of the history; refinement to the guard-free histories of XbowStore.v | proved | `C64_panics_exactly`, `C64_serializable`, `C64_stable` |
| C65 | Whole pages: many applications on one executor | the tasks of C60/C61 are the programs of C52/C53; own wakes go to the blocks, wakes of a root become wakes of its task | simulation: each application's state is that of a run of Tree.v; invariant relating woken roots to queued tasks; composition of C52 and C60 | proved | `C65_timer_pending`, `C65_all_served`, `C65_each_application_is_a_program`, `C65_polls_agree`, `C65_no_fault`, `C65_ends` |
| C66 | The code of an application is run as written | the programs, tasks and pages of C52, C60, C65; the specification plays the code against the trace | a poll's events are a play of the code, by induction on fuel; invariants relating the log to the tasks' and the blocks' traces | proved | `C66_poll`, `C66_wake`, `C66_tasks`, `C66_page_tasks`, `C66_page_roots`, `C66_page_wakes`, `C66_page_code`, `C66_page_drops`, `C66_page_order` |
| C67 | Views are up to date when the page is at rest | the pages of C65 with the cells of C11 in their shared state | an invariant of pages: once the view's code was run, it is up to date or its waker was woken since; C53_code_runs turns that into woken-and-not-polled, C65 into a pending timer; C11 gives the contract for for_each | proved | `C67_up_to_date`, `C67_for_each`, `C67_awaits` |
| C68 | Views of x-bow stores are up to date when the page is at rest | the pages of C65 with the stores of C45 in their shared state | an instance of C67: since the helper's last poll its waker was not woken; by C45 it then told the current data | proved | `C68_up_to_date` |
| C69 | The events of an element are seen when the page is at rest | the pages of C65 with the event streams of C24 in their shared state | an instance of C67: nothing is left to be returned, and the last poll had the block's waker; by C24 an event given to the stream wakes that waker | proved | `C69_seen`, `C69_listens` |
| C70 | What a DynamicSlot was told to show is shown when the page is at rest | the pages of C65 with the slots of C26 in their shared state | an instance of C67: no call of set_future or clear_future since the last poll; by C26 each such call wakes the waker of the last poll | proved | `C70_shown` |
| C71 | Combinators really run the code of their children | the combinators of C12, with children as functions on a shared state | induction over the children polled | proved | `C71_children` |
| C72 | VirtualizedList follows scrolling | VLife.v: the render futures, the listener, the observer and the signal (a ReactiveCell, C09-C11) around the list of C37; in the pages of C65 | invariant relating the signal's history to the list's; C72_rest is an instance of C67 | proved | `C72_told`, `C72_polled`, `C72_watches`, `C72_list`, `C72_panics`, `C72_one`, `C72_rest` |
| C73 | What is in the document is exactly where the code is | Screen.v: the tree of blocks and combinators of Tree.v, whose code also enters and leaves elements, with the document and drop glue of Ui.v in the same step | every poll is one of Tree.v together with a schedule of Ui.v that it determines (induction over the poll), so C05 gives the document | proved | `C73_transparent`, `C73_document`, `C73_as_written`, `C73_determined`, `C73_exactly`, `C73_unmount` |
| C74 | A rendered DynamicList runs its items | ListRun.v: the list's own executor (Queue.v), its runner being the render future, polled with any waker | invariant of Queue_proofs.v plus: the runner waits with the waker of the last poll or this waker was woken since; the record of the program's own calls ties the trace to the code | proved | `C74_no_lost_wake`, `C74_poll_serves`, `C74_legal`, `C74_only_rendered`, `C74_fair`, `C74_removed`, `C74_dropped_with_list`, `C74_drop_total`, `C74_as_written`, `C74_renders` |
| C75 | When the page comes to rest, the items of a rendered DynamicList have run | list_view (Spec_list_view.v): the list as a part of the shared state (Spec_view.v), its render future awaited by a block | C67 with: the list's runner waits with the block's waker, or has woken it | proved | `C75_items_served` |
| C76 | Several applications in one document | Stage.v: Page.v with the futures of Screen.v and one document; Queue_sim.v: two versions of tasks on the executor | the invariants of Screen_proofs.v for each application and of Ui_proofs.v for its part of the document; what one application does is framed by its own nodes and groups; a simulation to the page without rendering | proved | `C76_transparent`, `C76_document`, `C76_drop_panics_iff`, `C76_as_written`, `C76_exactly`, `C76_up_to_date`, `C76_panics_only_if_unmounted` |
| C77 | A loop that waits for events handles each browser event once | EventLoop.v: the component on the tree of Tree.v, the streams and listeners of Event.v and the executor of Executor.v | an invariant of the two combinators, the streams, the listeners and the executor between steps; polls and wakes are computed symbolically; induction on the history | proved | `C77_state`, `C77_one_listener`, `C77_each_event`, `C77_counter`, `C77_every_event_refuted` |
| C78 | A new combinator polls all its children before other code goes on | Tree.v, Page.v | an invariant of all the mutually recursive polls of the tree: a child of a combinator that has begun is filled; induction on the fuel | proved | `C78_children_first`, `C78_all_begun`, `C78_page` |
| C79 | A view that waits for the first of several changes is up to date at rest | Tree.v, Page.v, Cell.v, Xbow.v, XbowStore.v, Executor.v, Queue.v; Spec_watch.v and Spec_store_watch.v say what a view is | an invariant over the histories of pages: what is awaited and has not begun is up to date (by C78); what has begun is up to date or its waker has been woken since; woken wakers are owed a poll (C52, C60) | proved | `C79_up_to_date`, `C79_race_waits_for_all`, `C79_cells`, `C79_store` |
| C80 | A view that waits for changes of a path and inside it is up to date at rest | XbowStore.v, Xbow.v, Page.v; Spec_store_listen.v says what the view is | an instance of C79_up_to_date: what a stream listens to has not been notified since the view showed the store, or the stream has not been polled, or its waker has been woken; every write that notifies and changes the data at a path notifies a path that contains it or is inside it | proved | `C80_nothing_missed`, `C80_up_to_date` |
| C81 | DiffedList.update changes only what it has to | Diffed.v; Spec_diffed.v counts the calls for one key | induction over the new vector, for every state of the set and the iterator | partial | `C81_each_key`, `C81_linear`, `C81_prefix_untouched`, `C81_only_insertions`, `C81_only_removals_at_the_end`, `C81_removal_moves_all_refuted`, `C81_documentation_example_refuted` |
| C82 | A DiffedList updated from a ReactiveCell shows the cell's keys at rest | Page.v, Cell.v, Diffed.v; Spec_view.v says what a component with for_each is | C67_for_each: the last call was with the value in the cell; C33 and C34 for the updates made by all calls | proved | `C82_keys`, `C82_order` |
| C83 | The text on the screen is the strings the program renders, in program order | Html.v (the render methods), Ui.v; Spec_html.v defines textContent on a document and what is to be read of a running program | The invariant of C01/C07 (every element contains exactly the output of its live children) for all elements, and induction on the program | proved | `C83_text_in_program_order`, `C83_text_unique`, `C83_components` |
| C84 | A ModeledList updated from a ReactiveCell shows the cell's model at rest | Page.v, Cell.v, Modeled.v; Spec_model_feed.v says what values a cell has had and how a model may change | C67_for_each: the last call was with the value in the cell. The calls of f visit the values of the cell in order (induction on the history of the cell); the invariant of C36 (replaying the retained log gives the vector) along these visits | proved | `C84_model_shown`, `C84_values_in_order` |
| C85 | Undo and redo in the circles example | Circles.v: the loop of the example, its history and the list; Spec_circles.v: the editor as a stack of pictures | simulation: the circles are the replay of the operations before the cursor, every shorter prefix is a past picture and every longer one a future picture, each change of size holds the size it replaced, and each circle's element has its place and size | partial | `C85_undo_redo_partial`, `C85_highlight_partial`, `C85_stale_selection_refuted` |
| C86 | The TodoMVC example shows the list the user made | Todo.v: each loop of the program as a step from one await to the next, with the counters, the check boxes and the classes; Spec_todo.v: a plain list of marked items | invariant: the list the pending event leads to is the user's list, the counter of active items is the number of items without the 'completed' class, and what a block shows is stale only while the block is pending; a weight that every step with an effect decreases | proved | `C86_todo_list`, `C86_comes_to_rest` |
| C87 | The spreadsheet example computes its formulas | Sheet.v: the loop of a cell, the ranges and the wakes; Spec_sheet.v: the meaning of a formula over a rectangle, what stands in a cell, acyclicity | invariant: a cell that is not woken has the value of its formula; uniqueness of the solution by induction on the rank; a weight (n+1)^(R - rank) over the woken cells that every computation decreases | partial | `C87_values_partial`, `C87_history_free_partial`, `C87_comes_to_rest_partial`, `C87_cycle_refuted`, `C87_self_refuted`, `C87_range_refuted` |
| C88 | The list of persons in the CRUD example | Crud.v: the branches of the select!, the map, the options and their selection; Spec_crud.v: a plain list of persons with one picked | simulation by an invariant: the map and the options both hold the persons of the plain list, the selection is the picked person, ids are distinct | partial | `C88_list_partial`, `C88_filter_partial`, `C88_buttons_partial`, `C88_delete_twice_refuted`, `C88_filter_stale_refuted` |
| C89 | Drag and drop with the Dragger | Dragger.v: the branches of wrap_item and the loop of until_move, with the consumer asking for the next move at once; Spec_dragger.v: the order of the browser's events, the moves and the room told from them | simulation by an invariant on the phase of the drag (free, dragging, done): the shared cell, the item that waits for the end, and what the stream has seen; a second invariant for the spacer and the paddings of one item | partial | `C89_moves`, `C89_room_partial`, `C89_room_stays_refuted`, `C89_side_refuted` |
| C90 | The timer example | Timer.v: what each block of the join does from one await to the next; Spec_timer.v: a clock told from the ticks and the user's actions | simulation by an invariant: the cells and what has come give the clock, and a block that is not pending shows the present values; a weight that every step of a block decreases | proved | `C90_timer`, `C90_comes_to_rest` |

## Trusted base

* Coq 8.16.1's kernel (with `vm_compute`, used in the concrete examples and
  refutations; no `native_compute`).
* `Print Assumptions` says **"Closed under the global context"** for every
  theorem in every `Props_*.v` file: no axiom at all, neither of the standard
  library nor ours.
* Loading the standard library brings the 7 constants
  `Coq.ssr.ssrunder.Under_rel.*` into the environment. They are the parameters
  of a module type instance in Coq's own ssreflect files. No theorem here uses
  them.
* No plugins, functors, module types, `Admitted`, or kernel flags.
* That the model is faithful to the Rust text, and the models of external code
  listed below, to their specification.

## What is modelled

| /repo | model | simplifications |
|---|---|---|
| async_ui_web_core/src/position.rs | `Position.v` | `SmallVec` is a list; indices are unbounded `N` (u32 in code) |
| browser DOM | `Dom.v` | children lists of nodes; `insertBefore`, `removeChild`, `appendChild`, fragments after the DOM standard |
| async_ui_web_core/src/context.rs, node_sibling.rs | `Context.v`, `Render_history.v` | `BTreeMap` = list of entries in key order; the thread-local context is an argument |
| examples/web-simple-examples/src/circles.rs | `Circles.v` | the event loop (C47, C69, C77) and the DOM; sizes and the circle under the mouse are parameters; the context menu is the list of the slider's values |
| examples/async_ui_web_draggable/src/lib.rs | `Dragger.v` | each event runs its branch (C16, C24, C69), then the stream of moves is polled; positions and sizes come with the events |
| examples/web-simple-examples/src/timer.rs | `Timer.v` | the cells' wakes (C67, C79) and the event loop (C69, C77); numbers are a parameter; the formatting of the text is left out |
| examples/web-simple-examples/src/crud.rs | `Crud.v` | the event loop (C47, C77) and the list (`DynamicList`, C28); the select element as the HTML standard has it; texts are a parameter |
| examples/web-simple-examples/src/cells.rs | `Sheet.v` | what the loop of a cell does from one await to the next as one step; cells and select (C09, C10, C47) as a flag for a woken cell; numbers and the size of the table are parameters; not the parsing, the number format and the DOM |
| examples/web-todomvc/src/app.rs | `Todo.v` | each loop from one await to the next as one step; cells, select and event listeners (C09, C10, C47, C77) as flags for a pending block; not the item's text and editor, the highlighted filter button and the DOM |
| examples/web-simple-examples/src/counter.rs | `EventLoop.v` | the document; the futures beside the loop only show something; targets are not nested |
| async_ui_web_core/src/{node_container,dropping}.rs, the combinators' use of the context, async_ui_web/src/{mount,no_child}.rs | `Ui.v`, `Screen.v` | user futures: in Ui.v an arbitrary schedule decides what is polled, dropped, replaced at each level; in Screen.v the wakers and readiness sets of the combinators decide, as in Tree.v; in `Stage.v` several such applications share the executor (Page.v) and the document |
| async_ui_web_html/src/{common_components,text_node}.rs, shortcuts.rs: `render` methods; no_child.rs | `Html.v` | the nodes are given by the caller; properties and attributes are left out |
| async_ui_internal_utils/src/wakers_arena.rs, reactive_cell/* | `Arena.v`, `Cell.v` | versions unbounded (u64 in code); indices unbounded |
| combinators/utils/wakers/{array,vec}/readiness.rs | `Readiness.v` | |
| combinators/common/*, join/*, race/*, try_join/*, race_ok/*, extras | `Combinator.v` | children are arbitrary step functions that may wake wakers while polled; `MaybeUninit` storage as options, misuse is an error value |
| a whole program: nested combinators, their wakers and the executor | `Tree.v`, `App.v` | blocks are arbitrary code that wakes wakers, waits, returns or awaits a new combinator; the memory of a combinator is never reused; async_executor is left out |
| combinators/utils/wakers/shared_arc.rs, waker_array.rs, waker_vec.rs | `SharedArc.v` | one thread, counts unbounded, memory chosen (and reused) by an arbitrary allocator |
| async_ui_web_core/src/executor.rs, async_ui_web/src/executor.rs | `Executor.v` | main future arbitrary; set from the start; a panic unwinds nothing |
| async_ui_web/src/{executor,mount}.rs: several tasks | `Queue.v` | async_executor 1.5 and async_task (external) from their documentation: one runner, first in first out |
| async_ui_web_html/src/event_handling.rs | `Event.v` | DOM listener lists, capture and bubble phases, nested dispatch, stopPropagation (after the DOM standard) |
| async_ui_web/src/components/dynamic_slot.rs | `Slot.v` | one render future per slot |
| async_ui_web/src/lists/dynamic_list.rs | `DynList.v`, `Calls.v` | what an item does in a poll is an arbitrary list of renders and removals in the item's own context |
| lists/dynamic_list.rs: the list's own executor | `ListRun.v` | async_executor and async_task from their documentation; the document is in the models above and below |
| UI trees containing DynamicLists: the files of the two rows above together with dynamic_list.rs:294-348 and node_sibling.rs | `UiList.v` | schedules as in `Ui.v`; keys are numbers; borrow checking not modelled (a dropped list in use is an error value) |
| lists/diffed_list.rs | `Diffed.v` | the calls it makes on the inner list |
| lists/modeled_list.rs | `Modeled.v` | `Rc` identity = numbers |
| lists/virtualized_list.rs | `Virtual.v`, `VGeom.v`, `VLife.v` | `Virtual.v`: an arbitrary window per update; `VGeom.v`: the window computed from the positions of spacers, items and viewport, `f64` = rational numbers without rounding, items of one size; `VLife.v`: render futures, the scroll listener, the observer and the signal: when updates happen. That the observer's callback calls run_now is a separate event of the page |
| components/dropdown.rs | `Dropdown.v` | `<select>` after the HTML standard, single selection; keys and texts are numbers |
| mount, executor, combinators and async blocks together: pages of several applications | `Page.v` (one application: `App.v`) | async_executor and async_task from their documentation; what code does to other applications takes effect when its poll ends |
| async_ui_web/src/shortcuts.rs (classes) | `ClassList.v` | DOMTokenList after the DOM standard; strings are lists of 8-bit characters |
| x-bow/src/{hash,hash_visitor,wakers,until_change}.rs | `Xbow.v` | the hash is an arbitrary function |
| x-bow/src/{path,path_impl,path_ext,store,guarantee,trackable,borrow_mut_guard}.rs, impls/*, x-bow-macros | `XbowData.v` | values are typed data trees; the derive output is the general struct/enum case |
| x-bow/src/path_ext/*.rs | `XbowStore.v` | guards are not held across operations (they are in `XbowGuard.v`); callbacks only look at the data |
| reactive_cell/*, x-bow store and guards: guards that stay alive | `CellGuard.v`, `XbowGuard.v` | std's RefCell from its documentation; wakers only schedule |
| async_ui_web_macros/src/css.rs | `Css.v` | a stylesheet is any nested token sequence; cssparser's tokenizer is not modelled |
| async_ui_web_macros/src/select.rs | `Select.v` | parsing not modelled |

Loops that Rust bounds only by their data carry a fuel argument whose exhaustion
is an error; the theorems show that the fuel given is always enough, or (for
`for_each` callbacks) quantify over it.

**Not modelled:** the generated HTML wrappers (async_ui_web_html
`common_components`, `common_events`, `input_types`) except their `render` (`Html.v`),
`window.rs`, pin and array helper macros, wasm-bindgen glue, threads (the library
is single-threaded), Rust's type system except where stated, floating-point
layout, the examples other than `counter.rs` (`EventLoop.v`), `circles.rs` (`Circles.v`), `cells.rs` (`Sheet.v`),
`crud.rs` (`Crud.v`), `timer.rs` (`Timer.v`), `async_ui_web_draggable` (`Dragger.v`) and `web-todomvc` (`Todo.v`).

## Findings

False claims and surprising behaviour found in the code; the theorem is named
where there is one.

* **Wrong element types** (no theorem, seen in the source): `Bold` (`<b>`) is declared
  with `web_sys::HtmlBrElement` and `Italic` (`<i>`) with `web_sys::HtmlImageElement`
  (`common_components.rs`); `create_element` uses `unchecked_into`, so nothing reports it.
  `new_datetime` (`input_types.rs`) sets the input type `datetime`, which is not an HTML
  input type, so the browser shows a text field.
* **DiffedList**: the documentation's example starts with the vector `[1, 1]`; the list then
  shows one `1`, after all numbers pushed later (`C81_documentation_example_refuted`). Removing
  the first of n items moves the n-1 others in the document (`C81_removal_moves_all_refuted`).
* **Unmount panics** whenever something rendered below the root has to detach
  itself (`C07_unmount_panics_iff`, `C07_unmount_refuted`).
* **Re-rendering** an element after its future was dropped shows the old content
  too (`C48_rerender_refuted`).
* **DynamicList**: `swap` of an item with the one right after it tears the item
  apart (`C29_swap_adjacent_refuted`); an unknown `before` key panics although the
  documentation says "at the end" (`C30_unknown_reference_panics`); moving an item
  before itself corrupts the list (`C30_self_move_refuted`); a smaller-index
  sibling that renders after the list goes behind it
  (`C32_late_smaller_sibling_refuted`). An item that removes its own key and then
  renders its first element in the same poll panics (`C58_self_removal_refuted`). A
  list rendered directly in an item of another list keeps the element it was
  rendered in; when the outer list is un-rendered or rendered elsewhere, the inner
  list's methods panic (`C57_list_methods_refuted`). An item removed while the list is not
  rendered keeps its future until the list is rendered again or dropped (`ex_listrun`).
* **ReactiveCell**: creating, polling or dropping a change stream while a shared guard
  (`borrow()`) is alive panics, e.g. when a `race` drops the stream before a block that
  holds the guard (`C63_panics_exactly`, `ex_guard_stream`). x-bow stores do not have
  this restriction (`C64_panics_exactly`).
* **DiffedList**: `[1,2,3]` then `[2,1,3]` shows `3 2 1` (`C34_reorder_refuted`).
* **ModeledList**: `swap(i, i+1)` on a model tears an item apart
  (`C36_adjacent_swap_refuted`). The change log can be longer than half the
  current vector after removals; it is bounded by half the largest size
  (`C35_log_bounded`).
* **VirtualizedList**: an empty or inverted window followed by one strictly
  containing its start panics (`C37_shrink_grow_refuted`, with the geometry
  `C55_panic_refuted`). `set_num_items` with a smaller number often changes nothing:
  surplus items stay (`C55_fewer_items_refuted`), or the space of the removed items
  stays for ever (`C55_hole_refuted`).
* **Dropdown**: reordering, deselecting, duplicate options and removing the chosen
  option (`C38_*_refuted`).
* **DynamicSlot**: a completed future stays in the slot and is polled again
  (`C27_refuted`); a slotted future whose Drop calls its own slot panics.
* **EventFutureStream**: after `set_capture(true)` the listener is never removed
  (`C25_refuted`).
* **Combinators**: a Vec combinator can be re-polled after completion
  (`C19_vec_join_repoll_refuted`); after an early return a re-poll polls the
  children again (`C19_race_repoll_refuted`). The documentation says tuples up to
  12, `try_join`/`race_ok` go up to 11.
* **Executor**: the documentation says "microtask", the code uses `setTimeout`;
  after a panic of the main future the `active` flag stays set, so nothing runs any
  more (`C59_crash_is_final`). A task spawned with `get_executor().spawn` before the
  first mount is not run (`C60_spawn_before_mount_refuted`).
* **x-bow**: a `HashMap<(), V>` key writes no bytes (`C49_unit_key`); the example in
  path_ext.rs:175-179 is wrong; `bind_for_each` does not call `on_change` at the
  start when the stream already has a value (`C44_first_refuted`) and loses a value
  yielded in the poll in which the stream ends (`C44_last_value_refuted`);
  `for_each_async` keeps the old future running when the data is unavailable on a
  change.
* **css!**: the stylesheet is pasted unescaped into a JavaScript template literal
  (`C46_installed_refuted`); a comment or escape inside a class name panics the
  macro; classes in nested rules are not renamed; `a-b` and `a_b` give duplicate
  constants.
* **spreadsheet example**: two cells that sum up each other wake each other for ever, so the page hangs
  (`C87_cycle_refuted`); a cell that sums up itself comes to rest with a wrong value (`C87_self_refuted`); a range from
  right to left, or out of the table, panics (`C87_range_refuted`).
* **CRUD example**: Update and Delete stay enabled after the picked person is deleted, and the next click on one of them panics
  (`C88_delete_twice_refuted`); the filter is not applied to persons created or renamed after it was typed (`C88_filter_stale_refuted`).
* **Dragger**: the room beside an item stays when the pointer leaves the item from an element inside it (`C89_room_stays_refuted`);
  a drop of an item on itself gives a move whose side is that of another item (`C89_side_refuted`).
* **circles example**: the selection is not cleared when the selected circle is undone;
  the context menu key then panics (`C85_stale_selection_refuted`).

## Tests against wrong programs

`seeded/LOG.jsonl` has one line per edited definition: the edit, the claim it
breaks, the theorems that failed, and the theorems tightened when none did. Edits
marked as equivalent do not change what a user can see.
