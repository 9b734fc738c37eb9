(** Model of the heapq functions used by /repo/peano/_bounded_items_heap.py:105, 118 and dilation.py:736, 741 (heappush, heappop of
    the standard library, Lib/heapq.py of CPython: the pure Python version, which the C version mirrors). *)
From Verif Require Import Py M_Heap.
Local Open Scope nat_scope.

Section Heapq.
Context {T : Type}.
(** Lib/heapq.py  _siftdown(heap, 0, pos), called for _bounded_items_heap.py:105: the parents of the hole greater than newitem
    are moved down. Each step makes pos smaller, so pos steps suffice; the index of a parent is always valid. *)
Fixpoint siftdown (fuel : nat) (heap : list (node T)) (pos : nat) (newitem : node T) : list (node T) :=
  match fuel with
  | 0 => upd pos newitem heap
  | S fuel' =>
      if Nat.ltb 0 pos then
        match nth_error heap ((pos - 1) / 2) with
        | Some parent => if node_ltb newitem parent then siftdown fuel' (upd pos parent heap) ((pos - 1) / 2) newitem else upd pos newitem heap
        | None => upd pos newitem heap
        end
      else upd pos newitem heap
  end.
(** Lib/heapq.py  heappush, used by _bounded_items_heap.py:105 *)
Definition heappush (heap : list (node T)) (item : node T) : list (node T) :=
  siftdown (length heap) (heap ++ [item]) (length heap) item.
(** Lib/heapq.py  the loop of _siftup(heap, pos), called for _bounded_items_heap.py:118: the smaller child of the hole is moved up
    until a leaf is reached. Result: the list and the position of the hole. Each step at least doubles pos + 1. *)
Fixpoint siftup_loop (fuel : nat) (heap : list (node T)) (pos : nat) : list (node T) * nat :=
  match fuel with
  | 0 => (heap, pos)
  | S fuel' =>
      let childpos := 2 * pos + 1 in
      match nth_error heap childpos, nth_error heap (childpos + 1) with
      | None, _ => (heap, pos)
      | Some l, None => siftup_loop fuel' (upd pos l heap) childpos
      | Some l, Some r => if node_ltb l r then siftup_loop fuel' (upd pos l heap) childpos
                          else siftup_loop fuel' (upd pos r heap) (childpos + 1)
      end
  end.
(** Lib/heapq.py  heappop, used by _bounded_items_heap.py:118; IndexError is None *)
Definition heappop (heap : list (node T)) : option (node T * list (node T)) :=
  match rev heap with
  | [] => None
  | lastelt :: _ =>
      match removelast heap with
      | [] => Some (lastelt, [])
      | (returnitem :: _) as h => let (h', pos) := siftup_loop (length h) h 0 in Some (returnitem, siftdown pos h' pos lastelt)
      end
  end.
(** heapq as used by _bounded_items_heap.py and dilation.py *)
Definition cpython_heapq : heap_impl T := HQ heappush heappop.
End Heapq.
