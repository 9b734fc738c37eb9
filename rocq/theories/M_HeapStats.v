(** Model of the statistics of /repo/peano/_bounded_items_heap.py: the heap of M_Heap.v together with its counters
    (definitions only). *)
From Verif Require Export Py M_Heap.
Local Open Scope nat_scope.

(** _bounded_items_heap.py:10-17  _HeapStat *)
Record heap_stat : Type := HS { st_update : nat; st_rebuild : nat; st_push : nat; st_copy : nat; st_good : nat; st_bad : nat }.
(** _bounded_items_heap.py:10-17, 56  the initial counters *)
Definition hs_new : heap_stat := HS 0 0 0 0 0 0.
(** _bounded_items_heap.py:66, 73, 85, 96, 100, 133  the increments of the counters *)
Definition inc_update (s : heap_stat) := HS (st_update s + 1) (st_rebuild s) (st_push s) (st_copy s) (st_good s) (st_bad s).
(** _bounded_items_heap.py:73 *)
Definition inc_rebuild (s : heap_stat) := HS (st_update s) (st_rebuild s + 1) (st_push s) (st_copy s) (st_good s) (st_bad s).
(** _bounded_items_heap.py:85 *)
Definition inc_push (s : heap_stat) := HS (st_update s) (st_rebuild s) (st_push s + 1) (st_copy s) (st_good s) (st_bad s).
(** _bounded_items_heap.py:133 *)
Definition add_copy (n : nat) (s : heap_stat) := HS (st_update s) (st_rebuild s) (st_push s) (st_copy s + n) (st_good s) (st_bad s).
(** _bounded_items_heap.py:96 *)
Definition inc_good (s : heap_stat) := HS (st_update s) (st_rebuild s) (st_push s) (st_copy s) (st_good s + 1) (st_bad s).
(** _bounded_items_heap.py:100 *)
Definition inc_bad (s : heap_stat) := HS (st_update s) (st_rebuild s) (st_push s) (st_copy s) (st_good s) (st_bad s + 1).

(** a heap with its stats *)
Definition sheap (T : Type) : Type := (bheap T * heap_stat)%type.
(** _bounded_items_heap.py:43-58  [__init__] *)
Definition sh_new {T} (good bad : option Qc) (keep : bool) : sheap T := (bh_new good bad keep, hs_new).

Section Heap.
Context {T : Type} (lo up : T -> Qc) (hq : heap_impl T).
(** _bounded_items_heap.py:82-105  [push] *)
Definition sh_push (hs : sheap T) (item : T) : sheap T :=
  let h := fst hs in
  let st := inc_push (snd hs) in
  let mx := if bh_keep h then
              match bh_max h with
              | None => Some item
              | Some m => if qltb (lo m) (lo item) then Some item else Some m
              end
            else bh_max h in
  if match bh_good_thr h with Some g => qleb (up item) g | None => false end
  then (BH (bh_heap h) (bh_bad h) (bh_good_thr h) (bh_bad_thr h) (bh_keep h) mx (bh_inc h), inc_good st)
  else if match bh_bad_thr h with Some b => qleb b (lo item) | None => false end
  then (BH (bh_heap h) (bh_bad h ++ [item]) (bh_good_thr h) (bh_bad_thr h) (bh_keep h) mx (bh_inc h), inc_bad st)
  else let inc := S (bh_inc h) in
       (BH (hq_push hq (bh_heap h) (Nd (- up item)%Qc inc item)) (bh_bad h) (bh_good_thr h) (bh_bad_thr h) (bh_keep h) mx inc, st).
(** _bounded_items_heap.py:107-110  [_extend] *)
Definition sh_extend (hs : sheap T) (items : list T) : sheap T := fold_left sh_push items hs.
(** _bounded_items_heap.py:60-73  [update_good_threshold]; ValueError is None *)
Definition sh_update (hs : sheap T) (thr : Qc) : option (sheap T) :=
  let h := fst hs in
  if match bh_good_thr h with Some g => qltb thr g | None => false end then None
  else
    let st := inc_update (snd hs) in
    let active := filter (fun i => qltb thr (up i)) (bh_items h) in
    Some (if Nat.ltb (length active) (length (bh_heap h))
          then let hs' := sh_extend (BH [] (bh_bad h) (Some thr) (bh_bad_thr h) (bh_keep h) (bh_max h) (bh_inc h), st) active in
               (fst hs', inc_rebuild (snd hs'))
          else (BH (bh_heap h) (bh_bad h) (Some thr) (bh_bad_thr h) (bh_keep h) (bh_max h) (bh_inc h), st)).
(** _bounded_items_heap.py:116-118  [pop]; IndexError is None *)
Definition sh_pop (hs : sheap T) : option (T * sheap T) :=
  option_map (fun ih => (fst ih, (snd ih, snd hs))) (bh_pop hq (fst hs)).
(** _bounded_items_heap.py:120-124  [pop_bad_items] *)
Definition sh_pop_bad (hs : sheap T) : list T * sheap T := (fst (bh_pop_bad (fst hs)), (snd (bh_pop_bad (fst hs)), snd hs)).
(** _bounded_items_heap.py:126-134  [copy_and_cleanup]; AssertionError is None *)
Definition sh_copy (hs : sheap T) (good bad : option Qc) : option (sheap T) :=
  match bh_good_thr (fst hs), bh_bad_thr (fst hs), bh_keep (fst hs) with
  | None, None, false =>
      let new := sh_extend (sh_new good bad false) (bh_items (fst hs)) in
      Some (fst new, add_copy (bh_size (fst hs)) (snd new))
  | _, _, _ => None
  end.
End Heap.
