(** Model of async_ui_web/src/lists/diffed_list.rs [DiffedList]: the calls made to
    the inner DynamicList.  A HashSet of keys is a list without repetition; the
    order in which [drain] yields it is arbitrary (parameter [drain]).  The futures
    made by [renderer] are not modelled here: an insertion brings a new future. *)
From Coq Require Import List Arith Bool.
From Verif Require Import Spec_list DynList Calls.
Import ListNotations.

(** diffed_list.rs:93-105, the loop over [new_keys]; [set] is [prev_keys_set],
    [iter] what is left of [prev_keys_iter]; [hd_error iter] is [peek()] *)
Fixpoint diff_loop (set iter new : list key) : list dcall * list key :=
  match new with
  | [] => ([], set)
  | k :: t =>
      if memb k set then                                        (* 94: set.remove(key) *)
        let set' := l_remove k set in
        match iter with
        | p :: iter' =>
            if Nat.eqb p k then diff_loop set' iter' t          (* 95: next_if_eq *)
            else let '(cs, rest) := diff_loop set' iter t in
                 (DMove k (Some p) :: cs, rest)                 (* 98 *)
        | [] => let '(cs, rest) := diff_loop set' iter t in
                (DMove k None :: cs, rest)
        end
      else let '(cs, rest) := diff_loop set iter t in
           (DInsert k (hd_error iter) None :: cs, rest)         (* 101-103 *)
  end.

(** diffed_list.rs:85-108: the calls made by [update] *)
Definition diff_calls (drain : list key -> list key) (prev new : list key) : list dcall :=
  let '(cs, rest) := diff_loop (nodup Nat.eq_dec prev) prev new in
  cs ++ map (fun k => DRemove k None) (drain rest).

(** diffed_list.rs:42-55: [prev_keys_list] and the keys in the inner list *)
Record diffed := mkDiffed { df_prev : list key; df_keys : list key }.

(** diffed_list.rs:67-75 [new] *)
Definition diff_new : diffed := mkDiffed [] [].

(** diffed_list.rs:85-110 [update] *)
Definition diff_update (s : diffed) (new : list key) (drain : list key -> list key) : option diffed :=
  match druns (df_keys s) (diff_calls drain (df_prev s) new) with
  | None => None
  | Some ks => Some (mkDiffed new ks)
  end.

(** diffed_list.rs:114-120 [contains_key] *)
Definition diff_contains (s : diffed) (k : key) : bool := memb k (df_keys s).

(** successive calls of diffed_list.rs:85-110 [update] *)
Fixpoint diff_run (s : diffed) (us : list (list key * (list key -> list key))) : option diffed :=
  match us with
  | [] => Some s
  | (new, drain) :: t => match diff_update s new drain with
                         | None => None
                         | Some s' => diff_run s' t
                         end
  end.
