(** Model of the components of async_ui_web_html and async_ui_web that render an element or a text:
    they are all made with ContainerNodeFuture::new (Ui.v).  The nodes they make are new: the numbers
    and groups are given by the caller. *)
From Coq Require Import List.
From Verif Require Import Dom Context Ui.
Import ListNotations.

(** async_ui_web/src/no_child.rs:16-26 [NoChild]: never completes *)
Definition no_child : fut := FLeaf.
(** async_ui_web_html/src/common_components.rs:63-65 [render] of a component with children *)
Definition elem_render (n : node) (g : gid) (a : addr) (c : fut) : fut := FElem n g a ShouldAdd c.
(** async_ui_web_html/src/common_components.rs:78-83 [render] of a component without children *)
Definition childless_render (n : node) (g : gid) (a : addr) : fut := FElem n g a ShouldAdd FLeaf.
(** async_ui_web_html/src/text_node.rs:19-21 [Text::render]; async_ui_web/src/shortcuts.rs:19-25
    [str::render], which makes the node and sets its data first *)
Definition text_render (n : node) (g : gid) (a : addr) : fut := FElem n g a ShouldAdd FLeaf.
