(** Property theorems C30: the SAT adapter. *)
From Verif Require Import Py M_BaseMaps M_Subsets M_Paths M_Curves M_Zoo M_Sat M_SatStore S_BaseMaps S_Subsets S_Utils S_Paths S_Curves S_Junctions S_Fuzzy S_Sat
  P_Valid P_FuzzyOps P_SatCurve P_SatStore P_SatSolver T_Fuzzy.
Local Open Scope nat_scope.

(** C30: after any calls of add_forbid_clause the clauses are satisfiable iff some curve of the fuzzy curve shows none of
    the forbidden combinations. *)
Theorem C30_satisfiable : forall d N group no_time_rev paths c fuel a0 forb,
  valid_group d group -> valid_paths d N paths -> built group no_time_rev paths c -> ad_load fuel c = Some a0 ->
  (exists val, satisfies val (ad_clauses (forbid_all a0 forb))) <-> exists x, chosen_from c x /\ avoids x forb.
Proof. exact (fun d N g r ps c fuel a0 forb HG HP HB HL => satisfiable_iff d N g r ps HG HP c HB fuel a0 HL forb). Qed.
Print Assumptions C30_satisfiable.
(** C30: every model of the clauses is decoded to such a curve (get_model_curve selects pattern 0 of it; it never raises). *)
Theorem C30_decodes : forall d N group no_time_rev paths c fuel a0 forb m,
  valid_group d group -> valid_paths d N paths -> built group no_time_rev paths c -> ad_load fuel c = Some a0 ->
  model_of m (ad_clauses (forbid_all a0 forb)) ->
  exists y, get_model_curve (forbid_all a0 forb) m = Some (pattern_curve y 0) /\ chosen_from c y /\ avoids y forb /\ avoids (pattern_curve y 0) forb.
Proof. exact (fun d N g r ps c fuel a0 forb m HG HP HB HL => decode_avoids d N g r ps HG HP c HB fuel a0 HL forb m). Qed.
Print Assumptions C30_decodes.
(** C30: with any correct SAT solver, solve() and get_model_curve() decide and construct. *)
Theorem C30_solve : forall d N group no_time_rev paths c fuel a0 forb solver call,
  valid_group d group -> valid_paths d N paths -> built group no_time_rev paths c -> ad_load fuel c = Some a0 -> sat_ok solver ->
  match ad_solve solver call (forbid_all a0 forb) with
  | None => forall x, chosen_from c x -> ~ avoids x forb
  | Some m => exists y, get_model_curve (forbid_all a0 forb) m = Some (pattern_curve y 0) /\ chosen_from c y /\ avoids y forb /\ avoids (pattern_curve y 0) forb
  end.
Proof. exact (fun d N g r ps c fuel a0 forb solver call HG HP HB HL => solve_exact d N g r ps HG HP c HB fuel a0 HL forb solver call). Qed.
Print Assumptions C30_solve.
(** C30: in a program that creates, copies, extends and solves any number of adapters in any order, every adapter contains
    exactly the clauses of its own curve and of its own forbidden combinations: those of the original up to the copy, and
    those added to it afterwards. *)
Theorem C30_copies_independent : forall ops st, so_run ops = Some st ->
  exists l, ledger ops = Some l /\ length (st_objs st) = length l /\
    forall i fuel c forb, nth_error l i = Some (fuel, c, forb) ->
      exists a0, ad_load fuel c = Some a0 /\ so_view st i = Some (forbid_all a0 forb).
Proof. exact run_contents. Qed.
Print Assumptions C30_copies_independent.
(** C30: copying an adapter raises AssertionError iff solve() has been called on it. *)
Theorem C30_copy_raises : forall ops st i, so_run ops = Some st -> i < length (st_objs st) -> (so_copy i st = None <-> solved ops i).
Proof. exact copy_raises. Qed.
Print Assumptions C30_copy_raises.
(** The adapter of the curves with Hilbert's path; forbidding the auto junction together with the first spec leaves
    curves, forbidding it without any spec leaves none. *)
Definition sat_example_adapter : adapter := match ad_load 100 hilbert_fuzzy with Some a => a | None => AD [] [] [] hilbert_fuzzy end.
Definition sat_example_curve : curve := curve_or (obind (obind (gen_allowed_specs hilbert_fuzzy 0 0) (fun l => nth_error l 0)) (specify hilbert_fuzzy 0 0)).
Definition sat_example_forb : list (junction * curve) := [(auto_junction 2 0, sat_example_curve)].
Example C30_example : valid_group 2 None /\ valid_paths 2 2 hilbert_paths /\ built None false hilbert_paths hilbert_fuzzy /\
  ad_load 100 hilbert_fuzzy = Some sat_example_adapter /\ sat_ok simple_solver /\
  length (ad_clauses sat_example_adapter) = 241 /\
  (match ad_solve simple_solver 0 (forbid_all sat_example_adapter sat_example_forb) with
   | Some m => match get_model_curve (forbid_all sat_example_adapter sat_example_forb) m with
               | Some y => get_spec y 0 0 <> get_spec sat_example_curve 0 0 /\ get_spec y 0 0 <> None | None => False end
   | None => False end) /\
  ad_solve simple_solver 0 (forbid_all sat_example_adapter [(auto_junction 2 0, hilbert_fuzzy)]) = None /\
  option_map (fun st => (map (@length (list Z)) (st_clauses st), so_copy 0 st)) 
    (so_run [ONew 100 hilbert_fuzzy; OCopy 0; OForbid 1 (auto_junction 2 0) hilbert_fuzzy; OSolve 0]) = Some ([241; 242], None).
Proof.
  destruct C25_example as (A & B & C & _). split; [exact A|]. split; [exact B|]. split; [apply built_init; exact C|].
  split; [vm_compute; reflexivity|]. split; [exact simple_solver_ok|]. split; [vm_compute; reflexivity|].
  split; [vm_compute; split; discriminate|]. split; vm_compute; reflexivity.
Qed.
