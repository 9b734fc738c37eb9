(** Model of /repo/peano/_bounded_items_heap.py (definitions only). *)
From Verif Require Export Py L_Qc.
Local Open Scope nat_scope.

(** Comparison of Fractions. *)
Definition qltb (x y : Qc) : bool := if Qclt_le_dec x y then true else false.
(** <= of Fractions (Python builtin), used by _bounded_items_heap.py:60-105 *)
Definition qleb (x y : Qc) : bool := negb (qltb y x).

(** _bounded_items_heap.py:104  a node (-item.up, _inc, item). *)
Record node (T : Type) : Type := Nd { nd_pri : Qc; nd_inc : nat; nd_item : T }.
Arguments Nd {T}. Arguments nd_pri {T}. Arguments nd_inc {T}. Arguments nd_item {T}.
(** Comparison of such tuples; the increments of the nodes of one heap differ, so items are never compared. *)
Definition node_ltb {T} (a b : node T) : bool :=
  qltb (nd_pri a) (nd_pri b) || (qleb (nd_pri a) (nd_pri b) && Nat.ltb (nd_inc a) (nd_inc b)).
(** heapq.heappush and heapq.heappop (standard library) on a list; they are parameters of the model, S_Heap.v states
    what is assumed of them. heappop of an empty list (IndexError) is None. *)
Record heap_impl (T : Type) : Type := HQ {
  hq_push : list (node T) -> node T -> list (node T);
  hq_pop : list (node T) -> option (node T * list (node T)) }.
Arguments HQ {T}. Arguments hq_push {T}. Arguments hq_pop {T}.

(** _bounded_items_heap.py:43-58  the state of BoundedItemsHeap. [bh_max]: max_lo_item, None while not seen_items.
    stats are in M_HeapStats.v (counters that nothing reads but reports); the stash is passed separately in M_Dilation.v. *)
Record bheap (T : Type) : Type := BH {
  bh_heap : list (node T); bh_bad : list T; bh_good_thr : option Qc; bh_bad_thr : option Qc;
  bh_keep : bool; bh_max : option T; bh_inc : nat }.
Arguments BH {T}. Arguments bh_heap {T}. Arguments bh_bad {T}. Arguments bh_good_thr {T}. Arguments bh_bad_thr {T}.
Arguments bh_keep {T}. Arguments bh_max {T}. Arguments bh_inc {T}.
(** _bounded_items_heap.py:43-58  (part of) *)
Definition bh_new {T} (good bad : option Qc) (keep : bool) : bheap T := BH [] [] good bad keep None 0.

Section Heap.
Context {T : Type} (lo up : T -> Qc) (hq : heap_impl T).
(** _bounded_items_heap.py:75-80 *)
Definition bh_size (h : bheap T) : nat := length (bh_heap h).
(** _bounded_items_heap.py:75-80  (part of) *)
Definition bh_items (h : bheap T) : list T := map nd_item (bh_heap h).
(** _bounded_items_heap.py:82-105  [push] *)
Definition bh_push (h : bheap T) (item : T) : bheap T :=
  let mx := if bh_keep h then
              match bh_max h with
              | None => Some item
              | Some m => if qltb (lo m) (lo item) then Some item else Some m
              end
            else bh_max h in
  if match bh_good_thr h with Some g => qleb (up item) g | None => false end
  then BH (bh_heap h) (bh_bad h) (bh_good_thr h) (bh_bad_thr h) (bh_keep h) mx (bh_inc h)
  else if match bh_bad_thr h with Some b => qleb b (lo item) | None => false end
  then BH (bh_heap h) (bh_bad h ++ [item]) (bh_good_thr h) (bh_bad_thr h) (bh_keep h) mx (bh_inc h)
  else let inc := S (bh_inc h) in
       BH (hq_push hq (bh_heap h) (Nd (- up item)%Qc inc item)) (bh_bad h) (bh_good_thr h) (bh_bad_thr h) (bh_keep h) mx inc.
(** _bounded_items_heap.py:107-110  [_extend] *)
Definition bh_extend (h : bheap T) (items : list T) : bheap T := fold_left bh_push items h.
(** _bounded_items_heap.py:60-73  [update_good_threshold]; ValueError is None *)
Definition bh_update (h : bheap T) (thr : Qc) : option (bheap T) :=
  if match bh_good_thr h with Some g => qltb thr g | None => false end then None
  else
    let active := filter (fun i => qltb thr (up i)) (bh_items h) in
    Some (if Nat.ltb (length active) (length (bh_heap h))
          then bh_extend (BH [] (bh_bad h) (Some thr) (bh_bad_thr h) (bh_keep h) (bh_max h) (bh_inc h)) active
          else BH (bh_heap h) (bh_bad h) (Some thr) (bh_bad_thr h) (bh_keep h) (bh_max h) (bh_inc h)).
(** _bounded_items_heap.py:112-114  [top]; IndexError is None *)
Definition bh_top (h : bheap T) : option T := option_map nd_item (hd_error (bh_heap h)).
(** _bounded_items_heap.py:116-118  [pop]; IndexError is None *)
Definition bh_pop (h : bheap T) : option (T * bheap T) :=
  option_map (fun nr => (nd_item (fst nr), BH (snd nr) (bh_bad h) (bh_good_thr h) (bh_bad_thr h) (bh_keep h) (bh_max h) (bh_inc h)))
             (hq_pop hq (bh_heap h)).
(** _bounded_items_heap.py:120-124  [pop_bad_items] *)
Definition bh_pop_bad (h : bheap T) : list T * bheap T :=
  (bh_bad h, BH (bh_heap h) [] (bh_good_thr h) (bh_bad_thr h) (bh_keep h) (bh_max h) (bh_inc h)).
(** _bounded_items_heap.py:126-134  [copy_and_cleanup]; AssertionError is None *)
Definition bh_copy (h : bheap T) (good bad : option Qc) : option (bheap T) :=
  match bh_good_thr h, bh_bad_thr h, bh_keep h with
  | None, None, false => Some (bh_extend (bh_new good bad false) (bh_items h))
  | _, _, _ => None
  end.
End Heap.
