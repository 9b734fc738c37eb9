(** Specification vocabulary for the bounded-items heap: what is assumed of heapq, and histories of operations. *)
From Verif Require Import Py M_Heap.
From Coq Require Import Permutation.
Local Open Scope nat_scope.

(** The contract of heapq: some property of lists (being a heap) holds of the empty list and is kept; heappush adds the
    node; heappop removes a node that is not greater than any other, and this is the node at index 0. *)
Definition heapq_ok {T} (hq : heap_impl T) : Prop := exists is_heap : list (node T) -> Prop,
  is_heap [] /\
  (forall l n, is_heap l -> is_heap (hq_push hq l n) /\ Permutation (hq_push hq l n) (n :: l)) /\
  hq_pop hq [] = None /\
  (forall l, is_heap l -> l <> [] -> exists n l', hq_pop hq l = Some (n, l') /\ is_heap l' /\ Permutation l (n :: l') /\
     hd_error l = Some n /\ forall x, In x l -> node_ltb x n = false).

(** Operations of a user of the heap. *)
Inductive heap_op (T : Type) : Type :=
| OpPush (item : T)
| OpUpdate (threshold : Qc)
| OpPop
| OpPopBad.
Arguments OpPush {T}. Arguments OpUpdate {T}. Arguments OpPop {T}. Arguments OpPopBad {T}.

(** What a user can record: the items pushed, each with the good threshold in force when it was pushed, the items
    returned by pop, the items handed out by pop_bad_items, and the present good threshold. *)
Record history (T : Type) : Type := Hist {
  h_pushed : list (T * option Qc); h_popped : list T; h_handed : list T; h_good : option Qc }.
Arguments Hist {T}. Arguments h_pushed {T}. Arguments h_popped {T}. Arguments h_handed {T}. Arguments h_good {T}.

Section Run.
Context {T : Type} (lo up : T -> Qc) (hq : heap_impl T).
(** One operation: an operation that raises (a lower threshold, pop of an empty heap) changes nothing. *)
Definition heap_step (s : bheap T * history T) (op : heap_op T) : bheap T * history T :=
  let h := fst s in let r := snd s in
  match op with
  | OpPush i => (bh_push lo up hq h i, Hist (h_pushed r ++ [(i, h_good r)]) (h_popped r) (h_handed r) (h_good r))
  | OpUpdate t => match bh_update lo up hq h t with
                  | Some h' => (h', Hist (h_pushed r) (h_popped r) (h_handed r) (Some t))
                  | None => s
                  end
  | OpPop => match bh_pop hq h with
             | Some (i, h') => (h', Hist (h_pushed r) (h_popped r ++ [i]) (h_handed r) (h_good r))
             | None => s
             end
  | OpPopBad => let p := bh_pop_bad h in (snd p, Hist (h_pushed r) (h_popped r) (h_handed r ++ fst p) (h_good r))
  end.
Definition heap_run (good bad : option Qc) (keep : bool) (ops : list (heap_op T)) : bheap T * history T :=
  fold_left heap_step ops (bh_new good bad keep, Hist [] [] [] good).

(** good: up <= threshold; bad: lo >= threshold; without a threshold no item is good (bad); otherwise the item is active. *)
Definition goodb (g : option Qc) (i : T) : bool := match g with Some t => qleb (up i) t | None => false end.
Definition badb (b : option Qc) (i : T) : bool := match b with Some t => qleb t (lo i) | None => false end.
Definition activeb (g b : option Qc) (i : T) : bool := negb (goodb g i) && negb (badb b i).
End Run.
