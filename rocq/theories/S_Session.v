(** Specification vocabulary for sessions with estimators: what each call returns if nothing is cached. *)
From Verif Require Import Py M_Heap M_Session.
Local Open Scope nat_scope.

(** A heap implementation that looks only at the priorities and the numbers of the nodes, not at the items. *)
Definition nd_map {T} (f : T -> T) (n : node T) : node T := Nd (nd_pri n) (nd_inc n) (f (nd_item n)).
Definition heap_uniform {T} (hq : heap_impl T) : Prop :=
  (forall f l n, hq_push hq (map (nd_map f) l) (nd_map f n) = map (nd_map f) (hq_push hq l n)) /\
  (forall f l, hq_pop hq (map (nd_map f) l) = option_map (fun r => (nd_map f (fst r), map (nd_map f) (snd r))) (hq_pop hq l)).

(** The result of one operation computed from its arguments and the ratio function of the estimator, by the methods without caches
    (M_Dilation.v). [ratios]: the ratio functions of the estimators created so far. *)
Definition fresh_result (hq : heap_impl bpair) (hs : heap_impl citem) (ratios : list ratio_func) (op : est_op) : est_result :=
  let on i f := match nth_error ratios i with Some ratio => f ratio | None => RVoid end in
  match op with
  | ONew _ _ => RVoid
  | ORegular i fuel c rti mi fd md => on i (fun ratio => RRegular (estimate_dilation_regular ratio hq fuel c rti mi fd md))
  | OBisect i fuel solver sched mi c good bad call => on i (fun ratio => RBisect (bisect_dilation_fuzzy ratio hq fuel solver sched mi c good bad None None call))
  | OFuzzy i fuel solver sched mi c rti stop slo sup scur call =>
      on i (fun ratio => RFuzzy (estimate_dilation_fuzzy ratio hq fuel solver sched mi c rti stop slo sup scur call))
  | OSequence i fuel solver sched mi curves rti mult ub =>
      on i (fun ratio => RSequence (estimate_dilation_sequence ratio hq hs fuel solver sched mi curves rti mult ub))
  end.
Fixpoint fresh_results (hq : heap_impl bpair) (hs : heap_impl citem) (ratios : list ratio_func) (ops : list est_op) : list est_result :=
  match ops with
  | [] => []
  | op :: ops' => fresh_result hq hs ratios op :: fresh_results hq hs (match op with ONew r _ => ratios ++ [r] | _ => ratios end) ops'
  end.

(** Two results agree but for the attribute depth of the junction in argmax. *)
Definition same_argmax (a b : argmax) : Prop :=
  am_x1 a = am_x1 b /\ am_t1 a = am_t1 b /\ am_x2 a = am_x2 b /\ am_t2 a = am_t2 b /\ am_pos1 a = am_pos1 b /\ am_pos2 a = am_pos2 b /\
  j_dx (am_junc a) = j_dx (am_junc b) /\ j_dt (am_junc a) = j_dt (am_junc b) /\
  j_spec1 (am_junc a) = j_spec1 (am_junc b) /\ j_spec2 (am_junc a) = j_spec2 (am_junc b).
Definition same_result (r1 r2 : est_result) : Prop :=
  r1 = r2 \/
  exists lo up a b, r1 = RRegular (Some (lo, up, Some a)) /\ r2 = RRegular (Some (lo, up, Some b)) /\ same_argmax a b.

(** maxsize is respected (a negative value counts as 0). *)
Definition lru_fits {K V} (c : lru K V) : Prop := match lru_max c with Some m => (Z.of_nat (length (lru_items c)) <= Z.max 0 m)%Z | None => True end.
