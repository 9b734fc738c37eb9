(** Specification vocabulary for the statistics of the bounded-items heap. *)
From Verif Require Import Py M_Heap M_HeapStats S_Heap.
Local Open Scope nat_scope.

Section Run.
Context {T : Type} (lo up : T -> Qc) (hq : heap_impl T).
(** One operation on a heap with statistics; one that raises changes nothing. *)
Definition stat_step (hs : sheap T) (op : heap_op T) : sheap T :=
  match op with
  | OpPush i => sh_push lo up hq hs i
  | OpUpdate t => match sh_update lo up hq hs t with Some hs' => hs' | None => hs end
  | OpPop => match sh_pop hq hs with Some (_, hs') => hs' | None => hs end
  | OpPopBad => snd (sh_pop_bad hs)
  end.
Definition stat_run (good bad : option Qc) (keep : bool) (ops : list (heap_op T)) : sheap T :=
  fold_left stat_step ops (sh_new good bad keep).

(** What a user sees of the updates of the threshold that do not raise: the number of items before and after each. *)
Definition seen_update (s : bheap T * history T) (op : heap_op T) : list (nat * nat) :=
  match op with
  | OpUpdate t => match bh_update lo up hq (fst s) t with Some h' => [(bh_size (fst s), bh_size h')] | None => [] end
  | _ => []
  end.
Fixpoint updates_from (s : bheap T * history T) (ops : list (heap_op T)) : list (nat * nat) :=
  match ops with
  | [] => []
  | op :: ops' => seen_update s op ++ updates_from (heap_step lo up hq s op) ops'
  end.
Definition updates (good bad : option Qc) (keep : bool) (ops : list (heap_op T)) : list (nat * nat) :=
  updates_from (bh_new good bad keep, Hist [] [] [] good) ops.
End Run.
(** the updates that removed items; the items they removed; the items left by them *)
Definition cleanups (l : list (nat * nat)) : list (nat * nat) := filter (fun ba => Nat.ltb (snd ba) (fst ba)) l.
Definition removed (l : list (nat * nat)) : nat := list_sum (map (fun ba => fst ba - snd ba) (cleanups l)).
Definition left_over (l : list (nat * nat)) : nat := list_sum (map snd (cleanups l)).
