(** C53: the caches of the estimators cannot be seen in the results, except in the depth of argmax.junc. *)
From Verif Require Import Py L_Qc M_Session M_Heap M_Heapq M_Zoo S_Session P_Heap P_Valid P_Session.
From Coq Require Import String.
Local Open Scope nat_scope.

(** For all hash functions, all implementations of heapq that look only at priorities, and every session (any number of estimators with any
    cache sizes, any calls in any order): each call returns what the method without caches returns for its arguments, up to the
    attribute depth of argmax.junc. *)
Theorem C53_caches_invisible hash_b hash_c hash_t (hq : heap_impl bpair) (hs : heap_impl citem) (ops : list est_op) : heap_uniform hq ->
  Forall2 same_result (fst (session_run hash_b hash_c hash_t hq hs ops session_new)) (fresh_results hq hs [] ops).
Proof. intros Hq. apply (run_ok hash_b hash_c hash_t hq Hq hs ops session_new [] new_ok). Qed.

(** heapq of CPython is such an implementation. *)
Theorem C53_cpython_heapq {T} : heap_uniform (@cpython_heapq T).
Proof. apply cpython_uniform. Qed.

(** A call without face moments returns exactly the same. *)
Definition no_face_moments (op : est_op) : Prop := match op with ORegular _ _ _ _ _ (Some _) _ => False | _ => True end.
Theorem C53_exact_without_face_moments hash_b hash_c hash_t (hq : heap_impl bpair) (hs : heap_impl citem) (ops : list est_op) n op : heap_uniform hq ->
  nth_error ops n = Some op -> no_face_moments op ->
  nth_error (fst (session_run hash_b hash_c hash_t hq hs ops session_new)) n = nth_error (fresh_results hq hs [] ops) n.
Proof.
  intros Hq E Hop. pose proof (C53_caches_invisible hash_b hash_c hash_t hq hs ops Hq) as F. set (l := fst _) in *. clearbody l.
  assert (X : forall n ratios ops l, Forall2 same_result l (fresh_results hq hs ratios ops) -> nth_error ops n = Some op -> nth_error l n = nth_error (fresh_results hq hs ratios ops) n); [|apply X; auto].
  clear n ops E l F. intros n. induction n as [|n IH]; intros ratios [|o ops] l F E; cbn [nth_error fresh_results] in *; try discriminate; inversion F as [|r r' rs rs' H1 H2]; subst.
  - injection E as ->. cbn. f_equal. destruct H1 as [H1|(lo & up & a & b & -> & H1 & _)]; auto. exfalso.
    destruct op; cbn in H1; try discriminate; destruct (nth_error ratios est) as [ratio|]; try discriminate. destruct face_dim; [contradiction|].
    injection H1 as H1. pose proof (regular_noarg ratio hq Hq _ _ _ _ _ _ H1) as N. discriminate.
  - cbn. apply IH; auto.
Qed.

(** At any time each cache holds at most maxsize entries. *)
Theorem C53_cache_sizes hash_b hash_c hash_t (hq : heap_impl bpair) (hs : heap_impl citem) (ops : list est_op) : heap_uniform hq ->
  let ss := snd (session_run hash_b hash_c hash_t hq hs ops session_new) in
  Forall (fun rb => lru_fits (snd rb)) (ss_ests ss) /\ lru_fits (ss_cubes ss) /\ lru_fits (ss_times ss).
Proof.
  intros Hq. destruct (run_ok hash_b hash_c hash_t hq Hq hs ops session_new [] new_ok) as (_ & ratios & _ & F & (_ & C) & (_ & T)). cbv zeta. split; [|auto].
  eapply Forall_impl; [|exact F]. intros rb (_ & H). exact H.
Qed.

(** The depth of argmax.junc depends on the history: Peano's curve first, then another curve of the same path. *)
Definition curve_b : curve := curve_or (curve_text [("jjiJJijj", "ji,jI,ij,iJ,JI,iJ,ij,jI,ij")])%string.
Definition argmax_depth (r : est_result) : option nat := match r with RRegular (Some (_, _, Some a)) => j_depth (am_junc a) | _ => None end.
Definition history (first : list est_op) : list est_op := ONew ratio_l2_squared (Some (2 ^ 18)%Z) :: first ++ [ORegular 0 400 curve_b None (Some 6%Z) (Some 0) None].
Definition h0 {A} (_ : A) : Z := 0%Z.
Theorem C53_argmax_depth_refuted : exists first,
  argmax_depth (last (fst (session_run h0 h0 h0 cpython_heapq cpython_heapq (history []) session_new)) RVoid) = Some 2 /\
  argmax_depth (last (fst (session_run h0 h0 h0 cpython_heapq cpython_heapq (history first) session_new)) RVoid) = Some 1.
Proof. exists [ORegular 0 400 (curve_or zoo_peano) None (Some 6%Z) (Some 0) None]. split; vm_compute; reflexivity. Qed.

(** A session with two estimators, a tiny cache and a disabled cache, or unlimited caches: entries are dropped, or used again (hits, misses, maxsize, currsize). *)
Definition simple_ops (m1 m2 : option Z) : list est_op :=
  [ONew ratio_linf m1; ONew ratio_l2_squared m2; ORegular 0 400 (curve_or zoo_hilbert) None (Some 3%Z) (Some 0) None;
   ORegular 1 400 (curve_or zoo_hilbert) None (Some 3%Z) None None; ORegular 0 400 (curve_or zoo_hilbert) None (Some 3%Z) (Some 0) None].
Definition infos (ops : list est_op) : list (nat * nat * option Z * nat) :=
  map (fun rb => lru_info (snd rb)) (ss_ests (snd (session_run h0 h0 h0 cpython_heapq cpython_heapq ops session_new))).
Example C53_example : heap_uniform (@cpython_heapq bpair) /\
  (exists lo up a, nth 2 (fst (session_run h0 h0 h0 cpython_heapq cpython_heapq (simple_ops (Some 5%Z) (Some 0%Z)) session_new)) RVoid = RRegular (Some (lo, up, Some a)) /\
     nth 4 (fst (session_run h0 h0 h0 cpython_heapq cpython_heapq (simple_ops (Some 5%Z) (Some 0%Z)) session_new)) RVoid = RRegular (Some (lo, up, Some a))) /\
  infos (simple_ops (Some 5%Z) (Some 0%Z)) = [(0, 150, Some 5%Z, 5); (0, 75, Some 0%Z, 0)] /\
  infos (simple_ops None None) = [(75, 75, None, 75); (0, 75, None, 75)].
Proof.
  split; [apply cpython_uniform|]. split; [do 3 eexists; split; vm_compute; reflexivity|].
  split; vm_compute; reflexivity.
Qed.

Print Assumptions C53_caches_invisible.
Print Assumptions C53_cpython_heapq.
Print Assumptions C53_exact_without_face_moments.
Print Assumptions C53_cache_sizes.
Print Assumptions C53_argmax_depth_refuted.
