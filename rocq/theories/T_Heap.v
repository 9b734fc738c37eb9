(** Property theorems C31: the bounded-items heap. *)
From Verif Require Import Py M_Heap M_Heapq S_Heap P_Heap P_Heapq.
From Coq Require Import Permutation.
Local Open Scope nat_scope.

(** C31: after any operations the heap holds, besides the popped ones, exactly the pushed items that are neither good by the
    present threshold nor bad. *)
Theorem C31_active_items : forall (T : Type) (lo up : T -> Qc) (hq : heap_impl T) good bad keep ops, heapq_ok hq ->
  let s := heap_run lo up hq good bad keep ops in
  let active := filter (activeb lo up (h_good (snd s)) bad) in
  Permutation (bh_items (fst s) ++ active (h_popped (snd s))) (active (map fst (h_pushed (snd s)))).
Proof. exact (fun T lo up hq good bad keep ops H => heap_active lo up hq H good bad keep ops). Qed.
Print Assumptions C31_active_items.
(** C31: the bad items (bad and not good when pushed) are handed out by pop_bad_items exactly once, in order; those not
    handed out yet wait for it. *)
Theorem C31_bad_items : forall (T : Type) (lo up : T -> Qc) (hq : heap_impl T) good bad keep ops, heapq_ok hq ->
  let s := heap_run lo up hq good bad keep ops in
  h_handed (snd s) ++ fst (bh_pop_bad (fst s)) =
  map fst (filter (fun ig => negb (goodb up (snd ig) (fst ig)) && badb lo bad (fst ig)) (h_pushed (snd s))).
Proof. exact (fun T lo up hq good bad keep ops H => heap_bad lo up hq H good bad keep ops). Qed.
Print Assumptions C31_bad_items.
(** C31: top and pop give an active item of maximal up, pop removes one occurrence; on an empty heap they raise. *)
Theorem C31_pop : forall (T : Type) (lo up : T -> Qc) (hq : heap_impl T) good bad keep ops, heapq_ok hq ->
  let h := fst (heap_run lo up hq good bad keep ops) in
  (bh_items h = [] -> bh_pop hq h = None /\ bh_top h = None) /\
  (bh_items h <> [] -> exists i h', bh_pop hq h = Some (i, h') /\ bh_top h = Some i /\ Permutation (bh_items h) (i :: bh_items h') /\
     forall x, In x (bh_items h) -> (up x <= up i)%Qc).
Proof. exact (fun T lo up hq good bad keep ops H => heap_pop_max lo up hq H good bad keep ops). Qed.
Print Assumptions C31_pop.
(** C31: the good threshold is the one set last; setting a lower one raises ValueError, and only this. *)
Theorem C31_threshold : forall (T : Type) (lo up : T -> Qc) (hq : heap_impl T) good bad keep ops t, heapq_ok hq ->
  let s := heap_run lo up hq good bad keep ops in
  bh_good_thr (fst s) = h_good (snd s) /\
  (bh_update lo up hq (fst s) t = None <-> exists g, h_good (snd s) = Some g /\ (t < g)%Qc).
Proof. exact (fun T lo up hq good bad keep ops t H => heap_threshold lo up hq H good bad keep ops t). Qed.
Print Assumptions C31_threshold.
(** C31: max_lo_item is a pushed item with the greatest lo. *)
Theorem C31_max_lo : forall (T : Type) (lo up : T -> Qc) (hq : heap_impl T) good bad ops, heapq_ok hq ->
  let s := heap_run lo up hq good bad true ops in
  (h_pushed (snd s) = [] <-> bh_max (fst s) = None) /\
  forall m, bh_max (fst s) = Some m -> In m (map fst (h_pushed (snd s))) /\ forall i, In i (map fst (h_pushed (snd s))) -> (lo i <= lo m)%Qc.
Proof. exact (fun T lo up hq good bad ops H => heap_max_lo lo up hq H good bad ops). Qed.
Print Assumptions C31_max_lo.
(** C31: copy_and_cleanup is a new heap in which the items are pushed. *)
Theorem C31_copy : forall (T : Type) (lo up : T -> Qc) (hq : heap_impl T) h good bad,
  bh_good_thr h = None -> bh_bad_thr h = None -> bh_keep h = false ->
  exists h', bh_copy lo up hq h good bad = Some h' /\ h' = fst (heap_run lo up hq good bad false (map OpPush (bh_items h))).
Proof. exact (fun T lo up hq h good bad => heap_copy lo up hq h good bad). Qed.
Print Assumptions C31_copy.

Lemma copy_raises {T : Type} (lo up : T -> Qc) (hq : heap_impl T) good0 bad0 keep ops good bad : heapq_ok hq ->
  let s := heap_run lo up hq good0 bad0 keep ops in
  bh_copy lo up hq (fst s) good bad = None <-> h_good (snd s) <> None \/ bad0 <> None \/ keep = true.
Proof.
  intros (is_heap & HH). destruct (run_ok lo up hq is_heap HH bad0 keep good0 ops) as ((_ & _ & E1 & E2) & E3 & _). cbn zeta. unfold bh_copy. rewrite E1, E2, E3.
  destruct (h_good _), bad0, keep; split; intros X; try discriminate; auto; try (left; discriminate); try (right; left; discriminate).
  destruct X as [X|[X|X]]; congruence.
Qed.
(** C31: a heap that has a threshold or keeps the max_lo_item cannot be copied (AssertionError), and only this raises. *)
Theorem C31_copy_raises : forall (T : Type) (lo up : T -> Qc) (hq : heap_impl T) good0 bad0 keep ops good bad, heapq_ok hq ->
  let s := heap_run lo up hq good0 bad0 keep ops in
  bh_copy lo up hq (fst s) good bad = None <-> h_good (snd s) <> None \/ bad0 <> None \/ keep = true.
Proof. exact @copy_raises. Qed.
Print Assumptions C31_copy_raises.

(** A history: items are pairs (lo, up); the second threshold update drops an item, the lower third one raises. *)
Example C31_example :
  let q := fun n => Q2Qc (inject_Z (Z.of_nat n)) in
  let it := fun a b => (q a, q b) in
  let ops := [OpPush (it 1 5); OpPush (it 3 9); OpUpdate (q 2); OpPush (it 0 2); OpPush (it 7 8); OpPush (it 4 6); OpUpdate (q 5); OpPop; OpUpdate (q 4); OpPopBad; OpPush (it 8 8)] in
  let s := heap_run fst snd sorted_hq None (Some (q 7)) true ops in
  heapq_ok (@sorted_hq (Qc * Qc)) /\ length (bh_items (fst s)) = 1 /\ length (h_popped (snd s)) = 1 /\ length (h_handed (snd s)) = 1 /\ length (bh_bad (fst s)) = 1.
Proof. split; [exact sorted_hq_ok|vm_compute; auto]. Qed.

Example C31_copy_raises_example :
  let q := fun n => Q2Qc (inject_Z (Z.of_nat n)) in
  let s := fun ops => heap_run (@fst Qc Qc) snd sorted_hq None None false ops in
  bh_copy fst snd sorted_hq (fst (s [OpPush (q 1, q 5); OpUpdate (q 2)])) None None = None /\
  option_map bh_size (bh_copy fst snd sorted_hq (fst (s [OpPush (q 1, q 5); OpPush (q 1, q 2)])) (Some (q 3)) None) = Some 1.
Proof. vm_compute. auto. Qed.

(** C31: the contract assumed above holds for the algorithms of Python's heapq (binary heaps in a list). *)
Theorem C31_heapq : forall T, heapq_ok (@cpython_heapq T).
Proof. exact @cpython_heapq_ok. Qed.
Print Assumptions C31_heapq.
(** the same history with these algorithms, and a heap that is not a sorted list *)
Example C31_heapq_example :
  let q := fun n => Q2Qc (inject_Z (Z.of_nat n)) in
  let h := fold_left (fun h n => hq_push cpython_heapq h (Nd (q n) n n)) [5; 3; 8; 1; 4; 7; 2] [] in
  map nd_item h = [1; 3; 2; 5; 4; 8; 7] /\
  match hq_pop cpython_heapq h with Some (n, h') => nd_item n = 1 /\ map nd_item h' = [2; 3; 7; 5; 4; 8] | None => False end.
Proof. vm_compute. auto. Qed.
