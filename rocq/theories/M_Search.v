(** Model of /repo/search.py: the search for the curves with the smallest dilation. *)
From Verif Require Import Py M_BaseMaps M_Subsets M_Paths M_Curves M_PathTree M_PathGen M_Gates M_Utils M_Heap M_Sat M_Dilation.
Local Open Scope nat_scope.

Section Search.
(** search.py:18-27  arguments of run_search; [par]: the parameters of the search for paths (finish_max_count among them),
    [fpar] and [gpar] those of the searches inside GatesGenerator *)
Context (dim div mult : nat) (max_cdist : option Z) (par : search_par (list Qc)).

(** search.py:41-55  [gen_pcurves], one tuple of gates: the fuzzy curves of all tuples of paths, one of each class *)
Definition gates_pcurves (gates : list plink) : option (list curve) :=
  obind (mk_generator point_ops true dim div gates max_cdist) (fun g =>
  obind (generate_paths point_ops true g (sp_hash par) (sp_fuel par) (sp_start par) (sp_finish par) None None true) (fun paths_list =>
    omap (fun paths => init_from_paths paths None false) paths_list)).
(** search.py:41-55  [gen_pcurves]; the generator is consumed lazily by the estimator: here the list of all its values *)
Definition gen_pcurves (gates_iterable : list (list plink)) : option (list curve) :=
  option_map (@concat _) (omap gates_pcurves gates_iterable).

(** search.py:30-33  [gate_list]: given (with an assertion about the lengths) or generated *)
Definition search_gates (gate_list : option (list (list plink))) (facet_gated : bool)
    (fpar : search_par facet_set) (gpar : search_par (list Qc)) : option (list (list plink)) :=
  match gate_list with
  | Some gl => if forallb (fun gates => Nat.eqb (length gates) mult) gl then Some gl else None
  | None => gen_gates dim div mult facet_gated fpar gpar
  end.
(** search.py:62-66  [pcurve_gens]: the name of the generator (None for 'all_gates') and its gates *)
Definition pcurve_gens (group_by_gates : bool) (gate_list : list (list plink)) : list (option (list plink) * list (list plink)) :=
  if group_by_gates then map (fun gates => (Some gates, [gates])) gate_list else [(None, gate_list)].

(** the result of estimate_dilation_sequence: lo, up, curves, idxs *)
Definition seq_result : Type := (Qc * Qc * list (option curve) * list nat)%type.
(** search.py:74-98  the loop over the generators: the reports printed, and whether the loop was left by an exception.
    If the estimator returns None, [result.update] raises AttributeError; "NOT FOUND!" would be printed for an empty dict only. *)
Fixpoint search_loop (estimate : list curve -> option (option seq_result)) (gens : list (option (list plink) * list (list plink)))
    : option (list (option (list plink) * seq_result) * bool) :=
  match gens with
  | [] => Some ([], false)
  | (gen_id, gates) :: gens' =>
      obind (gen_pcurves gates) (fun pcurves =>
      obind (estimate pcurves) (fun result =>
        match result with
        | None => Some ([], true)
        | Some r => option_map (fun rc => ((gen_id, r) :: fst rc, snd rc)) (search_loop estimate gens')
        end))
  end.

(** what run_search prints: the gates only (output_gates), or the reports *)
Inductive search_output : Type :=
| Gates_printed (gate_list : list (list plink))
| Reports (reports : list (option (list plink) * seq_result)) (crashed : bool).
(** search.py:18-98  [run_search]; logging, statistics and the formatting of the output are not modelled. None: an exception
    before the loop, or fuel exhausted. *)
Definition run_search (ratio : ratio_func) (hq : heap_impl bpair) (hs : heap_impl citem) (fuel : nat) (solver : sat_solver) (sched : Z -> Z)
    (fpar : search_par facet_set) (gpar : search_par (list Qc))
    (rel_tol_inv rel_tol_inv_mult : Z) (gate_list : option (list (list plink))) (facet_gated : bool) (upper_bound : option Qc)
    (group_by_gates output_gates : bool) : option search_output :=
  obind (search_gates gate_list facet_gated fpar gpar) (fun gl =>
    if output_gates then Some (Gates_printed gl) else
    option_map (fun rc => Reports (fst rc) (snd rc))
      (search_loop (fun cs => estimate_dilation_sequence ratio hq hs fuel solver sched None cs rel_tol_inv rel_tol_inv_mult upper_bound)
                   (pcurve_gens group_by_gates gl))).
End Search.
