-Q theories Verif

theories/App.v
theories/App_proofs.v
theories/Arena.v
theories/Arena_proofs.v
theories/Calls.v
theories/Calls_proofs.v
theories/Cell.v
theories/CellGuard.v
theories/CellGuard_proofs.v
theories/Cell_proofs.v
theories/Circles.v
theories/Circles_proofs.v
theories/ClassList.v
theories/ClassList_proofs.v
theories/Combinator.v
theories/Combinator_proofs.v
theories/Context.v
theories/Context_proofs.v
theories/Crud.v
theories/Crud_proofs.v
theories/Css.v
theories/Css_proofs.v
theories/Diffed.v
theories/Diffed_proofs.v
theories/Dom.v
theories/Dom_proofs.v
theories/Dragger.v
theories/Dragger_proofs.v
theories/Dropdown.v
theories/Dropdown_proofs.v
theories/DynList.v
theories/DynList_proofs.v
theories/DynList_run_proofs.v
theories/Ends_proofs.v
theories/Event.v
theories/EventLoop.v
theories/EventLoop_proofs.v
theories/Event_proofs.v
theories/Executor.v
theories/Executor_proofs.v
theories/First_proofs.v
theories/Foreach_proofs.v
theories/Goes_proofs.v
theories/Html.v
theories/ListRun.v
theories/ListRun_proofs.v
theories/List_lemmas.v
theories/Modeled.v
theories/Modeled_proofs.v
theories/Obey_page_proofs.v
theories/Obey_proofs.v
theories/Page.v
theories/Page_proofs.v
theories/Position.v
theories/Position_proofs.v
theories/Props_app.v
theories/Props_cell.v
theories/Props_child.v
theories/Props_circles.v
theories/Props_class.v
theories/Props_comb.v
theories/Props_crud.v
theories/Props_css.v
theories/Props_diffed.v
theories/Props_dragger.v
theories/Props_dropdown.v
theories/Props_dynlist.v
theories/Props_ends.v
theories/Props_event.v
theories/Props_event_view.v
theories/Props_eventloop.v
theories/Props_executor.v
theories/Props_first.v
theories/Props_guard.v
theories/Props_html.v
theories/Props_list_feed.v
theories/Props_list_view.v
theories/Props_listrun.v
theories/Props_lists.v
theories/Props_model_feed.v
theories/Props_models.v
theories/Props_obey.v
theories/Props_page.v
theories/Props_queue.v
theories/Props_render.v
theories/Props_screen.v
theories/Props_select.v
theories/Props_shared.v
theories/Props_sheet.v
theories/Props_slot.v
theories/Props_slot_code.v
theories/Props_slot_view.v
theories/Props_stage.v
theories/Props_store.v
theories/Props_store_listen.v
theories/Props_store_view.v
theories/Props_store_watch.v
theories/Props_timer.v
theories/Props_todo.v
theories/Props_tree.v
theories/Props_ui.v
theories/Props_uilist.v
theories/Props_vgeom.v
theories/Props_view.v
theories/Props_virtual.v
theories/Props_vlife.v
theories/Props_watch.v
theories/Props_xbow.v
theories/Props_xbowdata.v
theories/Queue.v
theories/Queue_proofs.v
theories/Queue_sim.v
theories/Readiness.v
theories/Readiness_proofs.v
theories/Render_history.v
theories/Render_history_proofs.v
theories/Screen.v
theories/Screen_proofs.v
theories/Select.v
theories/SharedArc.v
theories/SharedArc_proofs.v
theories/Sheet.v
theories/Sheet_proofs.v
theories/Slot.v
theories/Slot_proofs.v
theories/Spec_arena.v
theories/Spec_cell.v
theories/Spec_child.v
theories/Spec_circles.v
theories/Spec_class.v
theories/Spec_comb.v
theories/Spec_crud.v
theories/Spec_css.v
theories/Spec_diffed.v
theories/Spec_dragger.v
theories/Spec_dynlist.v
theories/Spec_event.v
theories/Spec_event_view.v
theories/Spec_eventloop.v
theories/Spec_executor.v
theories/Spec_first.v
theories/Spec_guard.v
theories/Spec_html.v
theories/Spec_list.v
theories/Spec_list_view.v
theories/Spec_listrun.v
theories/Spec_model_feed.v
theories/Spec_modeled.v
theories/Spec_obey.v
theories/Spec_path.v
theories/Spec_queue.v
theories/Spec_render.v
theories/Spec_screen.v
theories/Spec_shared.v
theories/Spec_sheet.v
theories/Spec_slot.v
theories/Spec_slot_code.v
theories/Spec_slot_view.v
theories/Spec_stage.v
theories/Spec_store.v
theories/Spec_store_listen.v
theories/Spec_store_view.v
theories/Spec_store_watch.v
theories/Spec_timer.v
theories/Spec_todo.v
theories/Spec_tree.v
theories/Spec_ui.v
theories/Spec_uilist.v
theories/Spec_vgeom.v
theories/Spec_view.v
theories/Spec_vlife.v
theories/Spec_watch.v
theories/Spec_xbow.v
theories/Spec_xbowdata.v
theories/Spec_xguard.v
theories/Stage.v
theories/Stage_proofs.v
theories/Timer.v
theories/Timer_proofs.v
theories/Todo.v
theories/Todo_proofs.v
theories/Tree.v
theories/Tree_proofs.v
theories/Ui.v
theories/UiList.v
theories/UiList_add.v
theories/UiList_call.v
theories/UiList_core.v
theories/UiList_del.v
theories/UiList_done.v
theories/UiList_drop.v
theories/UiList_fuel.v
theories/UiList_inv.v
theories/UiList_mem.v
theories/UiList_ops.v
theories/UiList_poll.v
theories/UiList_ren.v
theories/UiList_shape.v
theories/Ui_proofs.v
theories/Util.v
theories/VGeom.v
theories/VGeom_proofs.v
theories/VLife.v
theories/VLife_proofs.v
theories/View_cell_proofs.v
theories/View_event_proofs.v
theories/View_list_proofs.v
theories/View_part_proofs.v
theories/View_proofs.v
theories/View_slot_proofs.v
theories/View_store_proofs.v
theories/Virtual.v
theories/Virtual_proofs.v
theories/Watch_cell_proofs.v
theories/Watch_listen_proofs.v
theories/Watch_proofs.v
theories/Watch_store_proofs.v
theories/Xbow.v
theories/XbowData.v
theories/XbowData_proofs.v
theories/XbowGuard.v
theories/XbowGuard_proofs.v
theories/XbowStore.v
theories/XbowStore_fut_proofs.v
theories/XbowStore_proofs.v
theories/XbowStore_run_proofs.v
theories/Xbow_proofs.v
theories/Xbow_run_proofs.v
