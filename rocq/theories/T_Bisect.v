(** Property theorems C38: bisect_dilation_fuzzy. *)
From Verif Require Import Py L_Qc M_BaseMaps M_Subsets M_Paths M_Curves M_Zoo M_Utils M_Heap M_Sat M_Dilation S_BaseMaps S_Subsets S_Utils S_Paths S_Curves S_Fuzzy S_Heap S_Sat S_Ratio S_Dilation
  P_Heap P_SatSolver P_Bisect P_BisectEnd T_Fuzzy T_Dilation.
From Coq Require Import Reals.
Local Open Scope nat_scope.

(** C38: for any thresholds, any correct SAT solver, any schedule of its calls, with or without a cached tree and adapter:
    a returned curve is one of the curves of the fuzzy curve (with pattern 0 selected) and its dilation is at most
    good_threshold; if None is returned, the dilation of every curve of the fuzzy curve is at least bad_threshold. *)
Theorem C38_bisect_decides : forall hq, heapq_ok hq -> forall (ratio : ratio_func) (rR : list R -> R -> R)
    d N group no_time_rev paths c fuel solver sched max_iter good bad it ia call result calls,
  valid_group d group -> valid_paths d N paths -> built group no_time_rev paths c ->
  ratio_ok d (ratio d) rR -> sat_ok solver -> cached_tree ratio hq c it -> cached_adapter c ia ->
  bisect_dilation_fuzzy ratio hq fuel solver sched max_iter c good bad it ia call = (result, calls) ->
  match result with
  | BFound x => exists y, chosen_from c y /\ x = pattern_curve y 0 /\ dilation_le rR x (qR good)
  | BNone => forall x, chosen_from c x -> dilation_ge rR x (qR bad)
  | BOutOfIter => exists m, max_iter = Some m
  | BError => True
  end.
Proof. exact bisect_spec. Qed.
Print Assumptions C38_bisect_decides.
(** C38: over continuous paths with an iteration limit, it always returns or raises the exception of the limit (BError,
    other exceptions or exhausted fuel, does not occur). *)
Theorem C38_bisect_returns : forall hq, heapq_ok hq -> forall (ratio : ratio_func) (rR : list R -> R -> R) d N group no_time_rev paths c,
  valid_group d group -> valid_paths d N paths -> built group no_time_rev paths c -> (forall p, In p paths -> joined_path p) -> ratio_ok d (ratio d) rR ->
  exists fuel0, forall fuel solver sched m good bad it ia call, sat_ok solver -> cached_tree ratio hq c it -> cached_adapter c ia ->
    fuel0 <= fuel -> (m < Z.of_nat fuel)%Z -> fst (bisect_dilation_fuzzy ratio hq fuel solver sched (Some m) c good bad it ia call) <> BError.
Proof. exact bisect_returns. Qed.
Print Assumptions C38_bisect_returns.

(** The curves with Hilbert's path: a curve is found for the thresholds 6 and 7 and none for 4 and 5. *)
Definition bisect_example (good bad : Z) : bisect_result * nat :=
  bisect_dilation_fuzzy ratio_linf sorted_hq 400 simple_solver (fun z => (z + z / 3 + 1)%Z) (Some 300%Z) hilbert_fuzzy (Zq good) (Zq bad) None None 0.
Example C38_example : heapq_ok (@sorted_hq bpair) /\ valid_group 2 None /\ valid_paths 2 2 hilbert_paths /\ built None false hilbert_paths hilbert_fuzzy /\
  ratio_ok 2 (ratio_linf 2) (norm_ratio norm_linf 2) /\ sat_ok simple_solver /\
  (exists x, bisect_example 7 6 = (BFound x, 11)) /\ bisect_example 5 4 = (BNone, 1) /\
  fst (bisect_dilation_fuzzy ratio_linf sorted_hq 400 simple_solver (fun z => z) (Some 2%Z) hilbert_fuzzy (Zq 7) (Zq 6) None None 0) = BOutOfIter.
Proof.
  destruct C25_example as (A & B & C & _). split; [exact sorted_hq_ok|]. split; [exact A|]. split; [exact B|]. split; [apply built_init; exact C|].
  split; [apply (C35_norms 2); auto|]. split; [exact simple_solver_ok|]. split; [eexists; vm_compute; reflexivity|]. split; vm_compute; reflexivity.
Qed.
