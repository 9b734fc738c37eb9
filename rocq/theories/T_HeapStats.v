(** Property theorems C59: the statistics of the bounded-items heap. *)
From Verif Require Import Py M_Heap M_HeapStats M_Heapq S_Heap S_HeapStats P_Heap P_Heapq P_HeapStats.
Local Open Scope nat_scope.

(** C59: keeping the statistics does not change what the heap does. *)
Theorem C59_no_effect : forall (T : Type) (lo up : T -> Qc) (hq : heap_impl T) good bad keep ops,
  fst (stat_run lo up hq good bad keep ops) = fst (heap_run lo up hq good bad keep ops).
Proof. exact (fun T lo up hq good bad keep ops => run_fst lo up hq good bad keep ops). Qed.
Print Assumptions C59_no_effect.
(** C59: what the counters are after any operations. update_good_threshold: the updates that did not raise; rebuild_count:
    the updates that removed items; push: the calls of push and, for each update that removed items, the items that it
    left; copy_push: nothing; good: the items that were good when they were pushed; bad: the items handed out by
    pop_bad_items and those waiting for it. *)
Theorem C59_counters : forall (T : Type) (lo up : T -> Qc) (hq : heap_impl T) good bad keep ops, heapq_ok hq ->
  let r := snd (heap_run lo up hq good bad keep ops) in
  let seen := updates lo up hq good bad keep ops in
  let hs := stat_run lo up hq good bad keep ops in
  st_update (snd hs) = length seen /\
  st_rebuild (snd hs) = length (cleanups seen) /\
  st_push (snd hs) = length (h_pushed r) + left_over seen /\
  st_copy (snd hs) = 0 /\
  st_good (snd hs) = length (filter (fun ig => goodb up (snd ig) (fst ig)) (h_pushed r)) /\
  st_bad (snd hs) = length (h_handed r) + length (fst (bh_pop_bad (fst hs))).
Proof. intros T lo up hq good bad keep ops H r seen hs. destruct (stats_counted lo up hq H good bad keep ops) as (A & B & C & D & E & F & _). repeat split; auto. Qed.
Print Assumptions C59_counters.
(** C59: no item is lost: every item pushed was good, or bad, or is in the heap, or was popped, or was removed by a raised
    threshold. *)
Theorem C59_balance : forall (T : Type) (lo up : T -> Qc) (hq : heap_impl T) good bad keep ops, heapq_ok hq ->
  let r := snd (heap_run lo up hq good bad keep ops) in
  let hs := stat_run lo up hq good bad keep ops in
  length (h_pushed r) =
  st_good (snd hs) + st_bad (snd hs) + bh_size (fst hs) + length (h_popped r) + removed (updates lo up hq good bad keep ops).
Proof. intros T lo up hq good bad keep ops H r hs. apply (stats_counted lo up hq H good bad keep ops). Qed.
Print Assumptions C59_balance.
(** C59: a copy has the statistics of a new heap in which the items were pushed, now and after any further operations, with
    copy_push increased by their number. *)
Theorem C59_copy : forall (T : Type) (lo up : T -> Qc) (hq : heap_impl T) hs good bad,
  bh_good_thr (fst hs) = None -> bh_bad_thr (fst hs) = None -> bh_keep (fst hs) = false ->
  exists hs', sh_copy lo up hq hs good bad = Some hs' /\ forall ops,
    let later := fold_left (stat_step lo up hq) ops hs' in
    let new := stat_run lo up hq good bad false (map OpPush (bh_items (fst hs)) ++ ops) in
    fst later = fst new /\
    st_copy (snd later) = st_copy (snd new) + bh_size (fst hs) /\ st_push (snd later) = st_push (snd new) /\
    st_update (snd later) = st_update (snd new) /\ st_rebuild (snd later) = st_rebuild (snd new) /\
    st_good (snd later) = st_good (snd new) /\ st_bad (snd later) = st_bad (snd new).
Proof.
  intros T lo up hq hs good bad H1 H2 H3. destruct (stats_copy lo up hq hs good bad H1 H2 H3) as (hs' & A & B). exists hs'. split; auto.
  intros ops later new. unfold later. rewrite B. repeat split.
Qed.
Print Assumptions C59_copy.

(** C59: copying raises with statistics exactly when it raises without (C31_copy_raises). *)
Theorem C59_copy_raises : forall (T : Type) (lo up : T -> Qc) (hq : heap_impl T) hs good bad,
  option_map fst (sh_copy lo up hq hs good bad) = bh_copy lo up hq (fst hs) good bad.
Proof. exact (fun T lo up hq hs good bad => copy_fst lo up hq hs good bad). Qed.
Print Assumptions C59_copy_raises.

(** The history of C31_example: two updates are accepted, one of them removes an item (the third, lower one raises); the
    two items left by it are counted again. *)
Definition q59 (n : nat) : Qc := Q2Qc (inject_Z (Z.of_nat n)).
Definition ops59 : list (heap_op (Qc * Qc)) :=
  [OpPush (q59 1, q59 5); OpPush (q59 3, q59 9); OpUpdate (q59 2); OpPush (q59 0, q59 2); OpPush (q59 7, q59 8); OpPush (q59 4, q59 6);
   OpUpdate (q59 5); OpPop; OpUpdate (q59 4); OpPopBad; OpPush (q59 8, q59 8)].
Example C59_example :
  heapq_ok (@cpython_heapq (Qc * Qc)) /\
  let hs := stat_run fst snd cpython_heapq None (Some (q59 7)) true ops59 in
  snd hs = HS 2 1 8 0 1 2 /\ bh_size (fst hs) = 1 /\ length (h_popped (snd (heap_run fst snd cpython_heapq None (Some (q59 7)) true ops59))) = 1 /\
  updates fst snd cpython_heapq None (Some (q59 7)) true ops59 = [(2, 2); (3, 2)].
Proof. split; [apply cpython_heapq_ok|vm_compute; auto]. Qed.
Example C59_copy_example :
  let hs := stat_run fst snd cpython_heapq None None false (firstn 2 ops59) in
  option_map snd (sh_copy fst snd cpython_heapq hs (Some (q59 5)) None) = Some (HS 0 0 2 2 1 0).
Proof. vm_compute. auto. Qed.
(** C59, a stronger reading that is false: the counter push is not the number of calls of push. *)
Theorem C59_push_calls_refuted : ~ forall (ops : list (heap_op (Qc * Qc))),
  st_push (snd (stat_run fst snd cpython_heapq None None false ops)) = length (h_pushed (snd (heap_run fst snd cpython_heapq None None false ops))).
Proof. intros H. specialize (H [OpPush (q59 0, q59 1); OpPush (q59 0, q59 3); OpUpdate (q59 2)]). vm_compute in H. discriminate. Qed.
Print Assumptions C59_push_calls_refuted.
(** C59, a stronger reading that is false: the counter good is not the number of items discarded as good. *)
Theorem C59_good_items_refuted : ~ forall (ops : list (heap_op (Qc * Qc))),
  let s := heap_run fst snd cpython_heapq None None false ops in
  h_popped (snd s) = [] -> st_good (snd (stat_run fst snd cpython_heapq None None false ops)) = length (filter (goodb snd (h_good (snd s))) (map fst (h_pushed (snd s)))).
Proof. intros H. specialize (H [OpPush (q59 0, q59 1); OpPush (q59 0, q59 3); OpUpdate (q59 2)] eq_refl). vm_compute in H. discriminate. Qed.
Print Assumptions C59_good_items_refuted.
