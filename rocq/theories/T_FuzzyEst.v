(** Property theorem C39: estimate_dilation_fuzzy. *)
From Verif Require Import Py L_Qc M_BaseMaps M_Subsets M_Paths M_Curves M_Zoo M_Utils M_Heap M_Sat M_Dilation S_BaseMaps S_Subsets S_Utils S_Paths S_Curves S_Fuzzy S_Heap S_Sat S_Ratio S_Dilation
  P_Heap P_SatSolver P_FuzzyEst T_Fuzzy T_Dilation T_Bisect.
From Coq Require Import Reals.
Local Open Scope nat_scope.

(** C39: if the start bounds are correct, the returned lo and up bound the minimal dilation of the curves of the fuzzy
    curve, and the returned curve is one of them and has dilation at most up (no curve is returned only if
    start_upper_bound was given without start_curve and never improved); unless stopped by stop_upper_bound or the
    iteration limit, up <= lo * (1 + 1/rel_tol_inv). *)
Theorem C39_fuzzy_encloses : forall hq, heapq_ok hq -> forall (ratio : ratio_func) (rR : list R -> R -> R)
    d N group no_time_rev paths c fuel solver sched max_iter rel_tol_inv stop start_lo start_up start_curve call cur lo up calls,
  valid_group d group -> valid_paths d N paths -> built group no_time_rev paths c -> ratio_ok d (ratio d) rR -> sat_ok solver ->
  correct_start rR c start_lo start_up start_curve ->
  estimate_dilation_fuzzy ratio hq fuel solver sched max_iter c rel_tol_inv stop start_lo start_up start_curve call = Some (cur, lo, up, calls) ->
  min_dilation_ge rR c (qR lo) /\ min_dilation_le rR c (qR up) /\
  match cur with Some r => possible_within rR c r (qR up) | None => start_up <> None /\ start_curve = None end /\
  ((0 < rel_tol_inv)%Z -> max_iter = None ->
     (qR up * IZR rel_tol_inv <= qR lo * IZR (rel_tol_inv + 1))%R \/ exists s, stop = Some s /\ (s < lo)%Qc).
Proof. exact fuzzy_spec. Qed.
Print Assumptions C39_fuzzy_encloses.

(** The curves with Hilbert's path: an interval within the factor 2; and a search stopped by stop_upper_bound. *)
Definition fuzzy_example (stop start_lo start_up : option Qc) : option (option curve * Qc * Qc * nat) :=
  estimate_dilation_fuzzy ratio_linf sorted_hq 400 simple_solver (fun z => (z + z / 3 + 1)%Z) None hilbert_fuzzy 1 stop start_lo start_up None 0.
Example C39_example : heapq_ok (@sorted_hq bpair) /\ valid_group 2 None /\ valid_paths 2 2 hilbert_paths /\ built None false hilbert_paths hilbert_fuzzy /\
  ratio_ok 2 (ratio_linf 2) (norm_ratio norm_linf 2) /\ sat_ok simple_solver /\ correct_start (norm_ratio norm_linf 2) hilbert_fuzzy None None None /\
  (exists r lo up n, fuzzy_example None None None = Some (Some r, lo, up, n) /\ (0 < lo)%Qc /\ (up <= Zq 8)%Qc) /\
  (exists r lo up n, fuzzy_example (Some (Zq 2)) None None = Some (r, lo, up, n) /\ (Zq 2 < lo)%Qc).
Proof.
  destruct C25_example as (A & B & C & _). split; [exact sorted_hq_ok|]. split; [exact A|]. split; [exact B|]. split; [apply built_init; exact C|].
  split; [apply (C35_norms 2); auto|]. split; [exact simple_solver_ok|]. split; [split; [discriminate|split; discriminate]|].
  split; do 4 eexists; (split; [vm_compute; reflexivity|]); [split|]; vm_compute; congruence.
Qed.
