{
 "claims": [
  {
   "property": "C01",
   "status": "proved",
   "theorems": [
    "C01_document_order"
   ],
   "note": "any container, any legal history"
  },
  {
   "property": "C02",
   "status": "proved",
   "theorems": [
    "C02_removal_exact"
   ],
   "note": ""
  },
  {
   "property": "C03",
   "status": "proved",
   "theorems": [
    "C03_comparison_is_path_order",
    "C03_path_order_total",
    "C03_removal_range_is_subtree",
    "C03_next_sibling_defined"
   ],
   "note": ""
  },
  {
   "property": "C04",
   "status": "proved",
   "theorems": [
    "C04_item_content_before_marker",
    "C04_item_removal_exact"
   ],
   "note": ""
  },
  {
   "property": "C05",
   "status": "proved",
   "theorems": [
    "C05_whole_tree"
   ],
   "note": ""
  },
  {
   "property": "C06",
   "status": "proved",
   "theorems": [
    "C06_drop_detaches_once"
   ],
   "note": "document effect for arbitrary, possibly equal, blocker addresses is part of C05_whole_tree"
  },
  {
   "property": "C07",
   "status": "partial",
   "theorems": [
    "C07_unmount_panics_iff",
    "C07_unmount_refuted",
    "C07_unmount_partial"
   ],
   "note": "refuted in general: unmounting panics whenever something rendered below the root has to detach itself (proved iff)"
  },
  {
   "property": "C48",
   "status": "partial",
   "theorems": [
    "C48_dropped_element_keeps_content",
    "C48_rerender_refuted"
   ],
   "note": "refuted: the old content is still there"
  },
  {
   "property": "C28",
   "status": "proved",
   "theorems": [
    "C28_keyed_list",
    "C28_edit_is_local",
    "C28_removed_disappear"
   ],
   "note": "histories exclude the calls refuted under C29/C30 (swap(a,b) with b immediately after a, unknown or own reference key) and a list rendered directly inside one of its own items"
  },
  {
   "property": "C29",
   "status": "partial",
   "theorems": [
    "C29_swap_partial",
    "C29_swap_adjacent_refuted"
   ],
   "note": "refuted when the second item immediately follows the first; proved in all other cases and for missing keys"
  },
  {
   "property": "C30",
   "status": "partial",
   "theorems": [
    "C30_unknown_reference_panics",
    "C30_self_move_refuted",
    "C28_keyed_list"
   ],
   "note": "refuted: documentation says 'at the end', the code panics for every unknown key; moving before itself tears the item apart; insert before its own key keeps the place (C28)"
  },
  {
   "property": "C31",
   "status": "proved",
   "theorems": [
    "C31_render_unrender",
    "C28_keyed_list"
   ],
   "note": ""
  },
  {
   "property": "C32",
   "status": "partial",
   "theorems": [
    "C32_rendered_in_place_partial",
    "C32_later_sibling_partial",
    "C32_late_smaller_sibling_refuted"
   ],
   "note": "refuted: a smaller-index sibling rendering after the list appears behind it unless another sibling lies between"
  },
  {
   "property": "C33",
   "status": "proved",
   "theorems": [
    "C33_diffed_set",
    "C33_diffed_keeps_futures",
    "calls_on_document"
   ],
   "note": "any vectors, repetitions included; a key named twice gets a new future"
  },
  {
   "property": "C34",
   "status": "partial",
   "theorems": [
    "C34_order_exact_partial",
    "C34_diffed_order_partial",
    "C34_document_partial",
    "C34_reorder_refuted"
   ],
   "note": "refuted in general ([1,2,3] then [2,1,3] shows 3 2 1); proved exactly when the order is right, and for all updates that do not reorder common keys"
  },
  {
   "property": "C35",
   "status": "proved",
   "theorems": [
    "C35_model_is_vec",
    "C35_returned_items",
    "C35_log_faithful",
    "C35_identities",
    "C35_log_bounded"
   ],
   "note": "Operations against Vec semantics, log replay, identities of clones. The log statement quantifies over histories that keep items unique, as ModeledList's documentation requires."
  },
  {
   "property": "C36",
   "status": "partial",
   "theorems": [
    "C36_update_partial",
    "C36_document_partial",
    "C36_adjacent_swap_refuted",
    "C36_keeps_items",
    "C36_keeps_futures",
    "C36_incremental"
   ],
   "note": "Proved for every history of several models except swap(i, i+1) on a model, which is refuted: the update tears an item apart in the document."
  },
  {
   "property": "C37",
   "status": "partial",
   "theorems": [
    "C37_update_exact_partial",
    "C37_window_partial",
    "C37_document_partial",
    "C37_shrink_grow_refuted"
   ],
   "note": "Exact characterisation of one update; the claim is false when an empty or inverted window is followed by one strictly containing its start (panic)."
  },
  {
   "property": "C38",
   "status": "partial",
   "theorems": [
    "C38_options_partial",
    "C38_selection_kept_partial",
    "C38_reorder_refuted",
    "C38_removed_choice_refuted",
    "C38_deselect_refuted",
    "C38_duplicates_refuted"
   ],
   "note": "Proved for updates that keep the relative order of common options; refuted for reordering updates, for value() after the choice is removed or deselected, and for repeated options."
  },
  {
   "property": "C08",
   "status": "proved",
   "theorems": [
    "C08_no_panic_and_fresh",
    "C08_iter_exact",
    "C08_reuse"
   ],
   "note": "Linked-list arena refined to disjoint lists for every history of calls on live handles."
  },
  {
   "property": "C09",
   "status": "proved",
   "theorems": [
    "C09_until_change"
   ],
   "note": "Every interleaving Rust's borrow rules allow; no panic."
  },
  {
   "property": "C10",
   "status": "proved",
   "theorems": [
    "C10_wakes"
   ],
   "note": "Exact list of tasks woken, in order."
  },
  {
   "property": "C11",
   "status": "proved",
   "theorems": [
    "C11_for_each",
    "C11_up_to_date",
    "C11_woken"
   ],
   "note": "for_each as a state machine over the modelled cell."
  },
  {
   "property": "C12",
   "status": "proved",
   "theorems": [
    "C12_wakeups",
    "C12_polled_exactly_once"
   ],
   "note": "Arrays, tuples and vectors of any size, arbitrary children, arbitrary schedules that do not poll after completion."
  },
  {
   "property": "C13",
   "status": "proved",
   "theorems": [
    "C13_only_woken_incomplete"
   ],
   "note": ""
  },
  {
   "property": "C14",
   "status": "proved",
   "theorems": [
    "C14_join",
    "C14_every_poll_returns"
   ],
   "note": ""
  },
  {
   "property": "C15",
   "status": "proved",
   "theorems": [
    "C15_try_join"
   ],
   "note": ""
  },
  {
   "property": "C16",
   "status": "proved",
   "theorems": [
    "C16_race"
   ],
   "note": ""
  },
  {
   "property": "C17",
   "status": "proved",
   "theorems": [
    "C17_race_ok"
   ],
   "note": ""
  },
  {
   "property": "C18",
   "status": "proved",
   "theorems": [
    "C18_owned_once",
    "C18_outputs_kept"
   ],
   "note": ""
  },
  {
   "property": "C19",
   "status": "partial",
   "theorems": [
    "C19_join_repoll_panics_partial",
    "C19_try_join_ok_repoll_panics_partial",
    "C19_race_ok_err_repoll_panics_partial",
    "C19_vec_join_repoll_refuted",
    "C19_race_repoll_refuted"
   ],
   "note": "True for arrays and tuples whose result was made from all outputs; false for vectors and after early returns (refuted by concrete runs)."
  },
  {
   "property": "C20",
   "status": "proved",
   "theorems": [
    "C20_meanwhile",
    "C20_g_not_repolled",
    "C20_driven"
   ],
   "note": ""
  },
  {
   "property": "C21",
   "status": "proved",
   "theorems": [
    "C21_wakes_its_index",
    "C21_freed_exactly_when_unused",
    "C21_pointers_valid"
   ],
   "note": "Any number of combinators, allocator chosen by the environment with memory reuse; single thread, unbounded counts."
  },
  {
   "property": "C22",
   "status": "proved",
   "theorems": [
    "C22_timer_pending",
    "C22_timer_polls",
    "C22_one_timer"
   ],
   "note": "Main future arbitrary; histories without panics of the main future."
  },
  {
   "property": "C23",
   "status": "proved",
   "theorems": [
    "C23_run_now",
    "C23_synchronous",
    "C23_terminates"
   ],
   "note": ""
  },
  {
   "property": "C24",
   "status": "proved",
   "theorems": [
    "C24_polls",
    "C24_wakes",
    "C24_once",
    "C24_gifts",
    "C24_reaches"
   ],
   "note": "Any number of streams, targets and events; capture and bubble phases, events dispatched inside reactions to events (to any depth) and stopPropagation are modelled after the DOM standard; the application may do anything between two listener calls. paths_ok says that no element is its own ancestor."
  },
  {
   "property": "C25",
   "status": "partial",
   "theorems": [
    "C25_unsubscribes_partial",
    "C25_refuted"
   ],
   "note": "Proved for streams that never switch the capture option on; C25_refuted shows that with set_capture(true) the listener stays behind after drop and the next event calls the dropped closure (bug in the code)."
  },
  {
   "property": "C26",
   "status": "proved",
   "theorems": [
    "C26_poll",
    "C26_only_in_polls",
    "C26_wakes",
    "C26_drops",
    "C26_no_panic",
    "C26_code"
   ],
   "note": "One render future per slot (the API says render is called once); histories without panics. C26_no_panic and the example drop_panics show the only panic: a slotted future that calls its own slot from its Drop."
  },
  {
   "property": "C27",
   "status": "partial",
   "theorems": [
    "C27_replaced_partial",
    "C27_refuted"
   ],
   "note": "False as stated: C27_refuted (a completed future stays in the slot and is polled again). Proved: replaced or cleared futures are never polled again."
  },
  {
   "property": "C39",
   "status": "proved",
   "theorems": [
    "C39_ready",
    "C39_wakes"
   ],
   "note": "any hash function, any history of creations, polls, drops and notifications; a notification is what a mutable borrow of a path does when the guard is dropped"
  },
  {
   "property": "C40",
   "status": "proved",
   "theorems": [
    "C40_ready",
    "C40_wakes",
    "C40_keys",
    "C40_good_hash"
   ],
   "note": "under freedom of key collisions among the paths of the history (demo_no_collision shows a history that meets it)"
  },
  {
   "property": "C41",
   "status": "proved",
   "theorems": [
    "C41_ready",
    "C41_wakes",
    "C41_only"
   ],
   "note": ""
  },
  {
   "property": "C43",
   "status": "proved",
   "theorems": [
    "C43_no_panic",
    "C43_storage",
    "C43_nothing_left"
   ],
   "note": ""
  },
  {
   "property": "C42",
   "status": "proved",
   "theorems": [
    "C42_read_after_write",
    "C42_inside",
    "C42_elsewhere",
    "C42_containing",
    "C42_untouched",
    "C42_writable",
    "C42_store_write"
   ],
   "note": ""
  },
  {
   "property": "C49",
   "status": "proved",
   "theorems": [
    "C49_distinct_bytes",
    "C49_unit_key"
   ],
   "note": "under the condition on the map keys' own Hash, shown necessary by C49_unit_key"
  },
  {
   "property": "C50",
   "status": "proved",
   "theorems": [
    "C50_guaranteed",
    "C50_typed"
   ],
   "note": ""
  },
  {
   "property": "C45",
   "status": "proved",
   "theorems": [
    "C45_no_panic",
    "C45_for_each",
    "C45_signal_stream",
    "C45_up_to_date",
    "C45_for_each_async",
    "C45_one_future",
    "C45_polls_newest",
    "C45_dropped_once",
    "C45_no_future_left"
   ],
   "note": ""
  },
  {
   "property": "C44",
   "status": "partial",
   "theorems": [
    "C44_stores",
    "C44_reports",
    "C44_completes",
    "C45_up_to_date",
    "C44_first_refuted",
    "C44_last_value_refuted"
   ],
   "note": "two sentences of the documentation are false of the code and refuted: on_change is not called at the beginning when the incoming stream already has a value, and a value yielded in the poll in which the stream ends (or followed by another in the same poll) is never stored; the rest is proved"
  },
  {
   "property": "C46",
   "status": "partial",
   "theorems": [
    "C46_cut",
    "C46_output",
    "C46_succeeds",
    "C46_postfix",
    "C46_scoped",
    "C46_installed_partial",
    "C46_installed_iff",
    "C46_installed_refuted"
   ],
   "note": "the output of the macro is proved right; that the page receives it is refuted in general and characterised exactly (C46_installed_iff: no backslash, backtick and carriage return in the stylesheet and no ${ in the output), since the macro pastes the stylesheet unescaped into a JavaScript template literal. The cssparser tokenizer is not modelled."
  },
  {
   "property": "C47",
   "status": "proved",
   "theorems": [
    "C47_select",
    "C47_value",
    "C47_woken",
    "C47_branches"
   ],
   "note": ""
  },
  {
   "property": "C51",
   "status": "proved",
   "theorems": [
    "C51_duplicate_position",
    "C51_duplicate_position_in_item"
   ],
   "note": "debug builds, where the check exists"
  },
  {
   "property": "C52",
   "status": "proved",
   "theorems": [
    "C52_wake_counts",
    "C52_wake_reaches_root",
    "C52_woken_is_polled",
    "C52_every_block_polled",
    "C52_no_fault",
    "C52_fuel_irrelevant"
   ],
   "note": "polls that do not end and programs whose own code panics are outside the statement; children's outputs and results have one type"
  },
  {
   "property": "C53",
   "status": "proved",
   "theorems": [
    "C53_polls_need_wakes",
    "C53_only_live_polled",
    "C53_results",
    "C53_goes_on",
    "C53_code_runs",
    "C53_value_handed_on",
    "C53_waits_for_a_child"
   ],
   "note": ""
  },
  {
   "property": "C54",
   "status": "proved",
   "theorems": [
    "C54_timer_pending",
    "C54_timer_polls_block",
    "C54_event_polls_block"
   ],
   "note": "the tree is the executor's main future; async_executor::LocalExecutor, which async_ui_web puts between them, is an external crate and not modelled"
  },
  {
   "property": "C55",
   "status": "partial",
   "theorems": [
    "C55_no_hole_partial",
    "C55_items_exist_partial",
    "C55_no_panic_partial",
    "C55_places",
    "C55_fewer_items_refuted",
    "C55_hole_refuted",
    "C55_panic_refuted"
   ],
   "note": "coordinates are rational numbers (no rounding). Holes and items that do not exist are excluded as long as the number of items does not fall, panics as long as it does not rise again; both conditions are needed: set_num_items with a smaller number may change nothing, leave a hole for ever, or lead to a panic later (refuted with concrete pages)"
  },
  {
   "property": "C56",
   "status": "proved",
   "theorems": [
    "C56_document_with_lists",
    "C56_every_run_ends"
   ],
   "note": "element contents are not modelled; runs stop at a misuse of a list (a [Bad] result), which C57_misuses_panic, C57_list_methods_refuted and C58_self_removal_refuted show to be real panics; programs that drop a rendered list or use a dropped one do not compile"
  },
  {
   "property": "C57",
   "status": "partial",
   "theorems": [
    "C57_rendered_lists_know",
    "C57_list_methods_work_partial",
    "C57_list_methods_refuted"
   ],
   "note": "proved for lists that are not rendered or are rendered in an element; refuted for a list rendered directly in an item of another list that is un-rendered or rendered again elsewhere: it still remembers the old element"
  },
  {
   "property": "C58",
   "status": "partial",
   "theorems": [
    "C58_current_items_render_partial",
    "C58_only_removed_items_partial",
    "C58_self_removal_refuted"
   ],
   "note": "refuted: an item that removes its own key and then shows its first element in the same poll panics; proved that only items no longer in the list are affected"
  },
  {
   "property": "C59",
   "status": "proved",
   "theorems": [
    "C59_crash_is_final",
    "C59_crashes_only_by_panic"
   ],
   "note": "a panic is a wasm trap: nothing is unwound"
  },
  {
   "property": "C60",
   "status": "partial",
   "theorems": [
    "C60_timer_pending_partial",
    "C60_all_served_partial",
    "C60_spawn_before_mount_refuted"
   ],
   "note": "proved once something has been mounted; refuted before: a task spawned with get_executor().spawn before the first mount is not run, whatever wakes it. async_executor and async_task are modelled from their documentation (one runner, one thread)"
  },
  {
   "property": "C61",
   "status": "proved",
   "theorems": [
    "C61_polls_are_legal",
    "C61_fair",
    "C61_ends",
    "C61_crashes_only_by_panic"
   ],
   "note": "async_executor and async_task are modelled from their documentation (one runner, one thread)"
  },
  {
   "property": "C62",
   "status": "proved",
   "theorems": [
    "C62_classes_as_called",
    "C62_panics_on_bad_names"
   ],
   "note": "DOMTokenList modelled from the DOM standard, on the attribute string"
  },
  {
   "property": "C63",
   "status": "proved",
   "theorems": [
    "C63_panics_exactly",
    "C63_answers",
    "C63_stable"
   ],
   "note": ""
  },
  {
   "property": "C64",
   "status": "proved",
   "theorems": [
    "C64_panics_exactly",
    "C64_serializable",
    "C64_stable"
   ],
   "note": ""
  },
  {
   "property": "C65",
   "status": "proved",
   "theorems": [
    "C65_timer_pending",
    "C65_all_served",
    "C65_each_application_is_a_program",
    "C65_polls_agree",
    "C65_no_fault",
    "C65_ends"
   ],
   "note": "Once something was mounted (before that spawned tasks do not run: C60). async_executor and async_task are modelled from their documentation. What code does to other applications takes effect when its poll ends."
  },
  {
   "property": "C66",
   "status": "proved",
   "theorems": [
    "C66_poll",
    "C66_wake",
    "C66_tasks",
    "C66_page_tasks",
    "C66_page_roots",
    "C66_page_wakes",
    "C66_page_code",
    "C66_page_drops",
    "C66_page_order"
   ],
   "note": "The counts are for code that keeps a log in the shared state, which any code can be extended to do. What a poll that panics did before it panicked is not in the model."
  },
  {
   "property": "C67",
   "status": "proved",
   "theorems": [
    "C67_up_to_date",
    "C67_for_each",
    "C67_awaits"
   ],
   "note": "for_each_view is the contract of the application code: it polls the for_each future with the block's own waker, no other code polls that future, and wakes done by the cell reach the blocks they name."
  },
  {
   "property": "C68",
   "status": "proved",
   "theorems": [
    "C68_up_to_date"
   ],
   "note": "store_view is the contract of the application code: the block polls the helper with its own waker, no other code polls it, and the wakes of the store reach the blocks they name."
  },
  {
   "property": "C69",
   "status": "proved",
   "theorems": [
    "C69_seen",
    "C69_listens"
   ],
   "note": "event_view is the contract of the application code: the block polls the stream with its own waker until it is pending, no other code polls it, and the wakes done by the listeners reach the blocks they name. Events given to the stream between two of its polls are superseded by the last (C24)."
  },
  {
   "property": "C70",
   "status": "proved",
   "theorems": [
    "C70_shown"
   ],
   "note": "slot_view is the contract of the application code: the block polls the render future with its own waker, no other code polls it, and the wakes of the slot reach the blocks they name."
  },
  {
   "property": "C71",
   "status": "proved",
   "theorems": [
    "C71_children"
   ],
   "note": "Ties the traces in which C12-C20 are stated to the functions that stand for the children's code."
  },
  {
   "property": "C72",
   "status": "proved",
   "theorems": [
    "C72_told",
    "C72_polled",
    "C72_watches",
    "C72_list",
    "C72_panics",
    "C72_one",
    "C72_rest"
   ],
   "note": "vlist_view is the contract of the application code: the block polls the render future with its own waker, no other code polls it, and the wakes of the list reach the blocks they name. User code that calls set_num_items from within an update panics on the list's RefCell and is left out."
  },
  {
   "property": "C73",
   "status": "proved",
   "theorems": [
    "C73_transparent",
    "C73_document",
    "C73_as_written",
    "C73_determined",
    "C73_exactly",
    "C73_unmount"
   ],
   "note": "Every render is of a new element (rendering one element object twice in succession is not in the model); list components and slots are not in these trees (C26, C56 and C70 treat them). That dropping the task panics is the finding of C07."
  },
  {
   "property": "C74",
   "status": "proved",
   "theorems": [
    "C74_no_lost_wake",
    "C74_poll_serves",
    "C74_legal",
    "C74_only_rendered",
    "C74_fair",
    "C74_removed",
    "C74_dropped_with_list",
    "C74_drop_total",
    "C74_as_written",
    "C74_renders"
   ],
   "note": "async_executor and async_task are from their documentation, as in C60. The document is not in this model (C29-C33, C56). A panic of an item is left out. An item that is removed while the list is not rendered keeps its future until the list is rendered again or dropped (ex_listrun)."
  },
  {
   "property": "C75",
   "status": "proved",
   "theorems": [
    "C75_items_served"
   ],
   "note": "The items' code is in the list's own state; what it does to the rest of the page takes effect through the block that renders the list."
  },
  {
   "property": "C76",
   "status": "proved",
   "theorems": [
    "C76_transparent",
    "C76_document",
    "C76_drop_panics_iff",
    "C76_as_written",
    "C76_exactly",
    "C76_up_to_date",
    "C76_panics_only_if_unmounted"
   ],
   "note": "The drop of a future that touches the document outside of any rendering context panics (C07, refuted there): after such a panic the theorems say nothing about the document. A panic of the applications' own code ends the history (Crashed) and nothing of that poll is kept. Elements are made by the applications from supplies of their own: an element is not moved from one application to another."
  },
  {
   "property": "C77",
   "status": "proved",
   "theorems": [
    "C77_state",
    "C77_one_listener",
    "C77_each_event",
    "C77_counter",
    "C77_every_event_refuted"
   ],
   "note": "The last sentence of the statement is the refutation C77_every_event_refuted. The targets are not inside one another, and nothing else listens to them; the document is not in this model (C55, C75 and C76 have it)."
  },
  {
   "property": "C78",
   "status": "proved",
   "theorems": [
    "C78_children_first",
    "C78_all_begun",
    "C78_page"
   ],
   "note": "That the children begin in order, and which of them are polled later, is C01 to C07 and C32."
  },
  {
   "property": "C79",
   "status": "proved",
   "theorems": [
    "C79_up_to_date",
    "C79_race_waits_for_all",
    "C79_cells",
    "C79_store"
   ],
   "note": "Each child of the race is a block that polls one until_change future or stream. Children of such a combinator await no combinators of their own."
  },
  {
   "property": "C80",
   "status": "proved",
   "theorems": [
    "C80_nothing_missed",
    "C80_up_to_date"
   ],
   "note": "This is how to write a view that does not have the limits in C38 and C44. The streams are not dropped while the view waits for them; each child of the race is a block that polls one stream."
  },
  {
   "property": "C81",
   "status": "partial",
   "theorems": [
    "C81_each_key",
    "C81_linear",
    "C81_prefix_untouched",
    "C81_only_insertions",
    "C81_only_removals_at_the_end",
    "C81_removal_moves_all_refuted",
    "C81_documentation_example_refuted"
   ],
   "note": "The last sentence is false of the code: removing the first key moves all other items (C81_removal_moves_all_refuted, for every list), and the example in the documentation, which starts with the vector [1, 1], shows one 1 and shows it after all numbers pushed later (C81_documentation_example_refuted, for any number of clicks)."
  },
  {
   "property": "C82",
   "status": "proved",
   "theorems": [
    "C82_keys",
    "C82_order"
   ],
   "note": "The condition for the order is that of C34, where it is shown that it is needed."
  },
  {
   "property": "C83",
   "status": "proved",
   "theorems": [
    "C83_text_in_program_order",
    "C83_text_unique",
    "C83_components"
   ],
   "note": "Applications without lists: C32 says what holds for a list. C83_text_unique says that the document determines its text, so that the first theorem speaks of the only one."
  },
  {
   "property": "C84",
   "status": "proved",
   "theorems": [
    "C84_model_shown",
    "C84_values_in_order"
   ],
   "note": "C36_adjacent_swap_refuted shows that the exclusion of swap(i, i+1) is needed. C36_document_partial says what each update does to the document."
  },
  {
   "property": "C85",
   "status": "partial",
   "theorems": [
    "C85_undo_redo_partial",
    "C85_highlight_partial",
    "C85_stale_selection_refuted"
   ],
   "note": "Holds for all histories in which the context menu is not asked for while the selected circle is not there. C85_stale_selection_refuted: without that, the program panics (a click, Undo, and the context menu key)."
  },
  {
   "property": "C86",
   "status": "proved",
   "theorems": [
    "C86_todo_list",
    "C86_comes_to_rest"
   ],
   "note": "An event comes when no block is pending (the listener of an event runs the executor until nothing is awake). The text of an item, its editor and the highlighted filter button are not modelled."
  },
  {
   "property": "C87",
   "status": "partial",
   "theorems": [
    "C87_values_partial",
    "C87_history_free_partial",
    "C87_comes_to_rest_partial",
    "C87_cycle_refuted",
    "C87_self_refuted",
    "C87_range_refuted"
   ],
   "note": "Proved for ranges that go from upper left to lower right inside the table; rest and independence of the history for sheets in which no cell depends on itself. Without these it is false: C87_cycle_refuted (two cells that sum up each other wake each other for ever), C87_self_refuted (a cell that sums up itself rests with a wrong value), C87_range_refuted (a range from right to left or out of the table panics). The parsing of the text is not modelled."
  },
  {
   "property": "C88",
   "status": "partial",
   "theorems": [
    "C88_list_partial",
    "C88_filter_partial",
    "C88_buttons_partial",
    "C88_delete_twice_refuted",
    "C88_filter_stale_refuted"
   ],
   "note": "Proved for histories in which Update and Delete are clicked only while a person is picked; the filter at the moment it is typed. Otherwise false: C88_delete_twice_refuted (the buttons stay enabled after Delete, and a second click panics on the empty value), C88_filter_stale_refuted (the filter is not applied to a person created or renamed later)."
  },
  {
   "property": "C89",
   "status": "partial",
   "theorems": [
    "C89_moves",
    "C89_room_partial",
    "C89_room_stays_refuted",
    "C89_side_refuted"
   ],
   "note": "The moves: proved, with the side where the pointer last was over an item other than the dragged one. The room: for drags in which the pointer leaves each item it was over. Otherwise false: C89_room_stays_refuted (when the pointer leaves an item from an element inside it, the room stays, and the next drag finds it with the old size), C89_side_refuted (a drop of an item on itself gives a move with the side of another item)."
  },
  {
   "property": "C90",
   "status": "proved",
   "theorems": [
    "C90_timer",
    "C90_comes_to_rest"
   ],
   "note": "Numbers are a parameter (any type with an order test, a step and a division), so the theorem holds for f64. A tick or an event comes when no block is pending (C69, C77). The text is the number; its formatting with two digits is not modelled."
  }
 ]
}