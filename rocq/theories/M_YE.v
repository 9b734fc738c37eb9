(** Model of /repo/YE-proof.py: the case analysis around one curve (the YE curve). *)
From Verif Require Import Py M_BaseMaps M_Subsets M_Paths M_Curves M_PathTree M_PathGen M_Gates M_Utils M_Heap M_Sat M_Dilation M_Search M_Text M_GatesText M_Main.
From Coq Require String.
Import String.StringSyntax.
Local Open Scope nat_scope.
(** the characters of a string literal *)
Definition str (s : String.string) : text := String.list_ascii_of_string s.
Arguments str _%string_scope.

(** YE-proof.py:15-17  the constants *)
Definition diag_link : option plink := parse_gates (str "(0,0)->(1,1)").
(** YE-proof.py:16 *)
Definition side_link : option plink := parse_gates (str "(0,0)->(1,0)").
(** YE-proof.py:17 *)
Definition median_link : option plink := parse_gates (str "(0,0)->(1,1/2)").

(** YE-proof.py:21-22, 42-44  YE_protos: the prototypes of the images of the curve Y; a set, here a list with repetitions.
    Simplification: the dimension (2 in the script) is that of Y. *)
Definition image_protos (Y : curve) : option (list proto) :=
  option_map (fun pat => map (fun b => pr_mul b (pat_proto pat)) (gen_base_maps (cv_dim Y) None)) (cv_pattern Y).
(** YE-proof.py:23-24, 45-46  paths_list; dim, div and max_cdist (2, 5, 1 in the script) are arguments *)
Definition link_paths (dim div : nat) (max_cdist : option Z) (par : search_par (list Qc)) (l : plink) : option (list (list (path (list Qc)))) :=
  obind (mk_generator point_ops true dim div [l] max_cdist) (fun g =>
    generate_paths point_ops true g (sp_hash par) (sp_fuel par) (sp_start par) (sp_finish par) None None true).
(** YE-proof.py:26, 48  paths[0].proto in YE_protos *)
Definition first_proto_in (protos : list proto) (paths : list (path (list Qc))) : bool :=
  match paths with p :: _ => memb pr_eqb (pa_proto p) protos | [] => false end.

Section Checks.
Context (dim div : nat) (max_cdist : option Z) (par : search_par (list Qc)) (l : plink) (Y : curve)
  (ratio : ratio_func) (hq : heap_impl bpair) (hs : heap_impl citem) (fuel : nat) (solver : sat_solver) (sched : Z -> Z).
(** YE-proof.py:20-38  check_genus5_non_ye: the result of the estimator (rel_tol_inv is 200 in the script); printing is not
    modelled. Some None: the estimator returned None (no curves), and [result.update] raises AttributeError. *)
Definition check_non_ye (rel_tol_inv : Z) : option (option seq_result) :=
  obind (image_protos Y) (fun protos =>
  obind (link_paths dim div max_cdist par l) (fun paths_list =>
  obind (omap (fun paths => init_from_paths paths None false) (filter (fun paths => negb (first_proto_in protos paths)) paths_list)) (fun pcurves =>
    estimate_dilation_sequence ratio hq hs fuel solver sched None pcurves rel_tol_inv 4 None))).
(** YE-proof.py:52-56  test_pcurves: the curve Y with all specs forgotten but one, which is changed *)
Definition changed_pcurves : option (list curve) :=
  obind (forget Y None false) (fun pcurve =>
  obind (cv_pattern Y) (fun pat =>
    option_map (@concat _) (omap (fun cs =>
      obind (gen_allowed_specs pcurve 0 (fst cs)) (fun allowed =>
        omap (specify pcurve 0 (fst cs)) (filter (fun sp => match snd cs with Some s => negb (spec_eqb sp s) | None => true end) allowed)))
      (enumerate (pat_specs pat))))).
(** YE-proof.py:41-67  check_genus5_ye_proto (rel_tol_inv is 1000 in the script); None: AssertionError if there is not exactly one
    path, or fuel exhausted *)
Definition check_ye_proto (rel_tol_inv : Z) : option (option seq_result) :=
  obind (image_protos Y) (fun protos =>
  obind (link_paths dim div max_cdist par l) (fun paths_list =>
    if Nat.eqb (length (filter (first_proto_in protos) paths_list)) 1 then
      obind changed_pcurves (fun pcurves => estimate_dilation_sequence ratio hq hs fuel solver sched None pcurves rel_tol_inv 4 None)
    else None)).
(** YE-proof.py:70-81  check_ye; max_depth and rel_tol_inv are 5 and 100000 in the script *)
Definition check_ye (max_depth rel_tol_inv : Z) : option (Qc * Qc * option argmax) :=
  estimate_dilation_regular ratio hq fuel Y (Some rel_tol_inv) None (Some 0) (Some max_depth).
End Checks.

Section Main.
Context (par : search_par (list Qc)) (fpar : search_par facet_set) (gpar : search_par (list Qc))
  (hq : heap_impl bpair) (hs : heap_impl citem) (fuel : nat) (solver : sat_solver) (sched : Z -> Z) (Y : curve).
(** YE-proof.py:90-116  one call of run_search with dim=2, mult=1, ratio_l2 and the default arguments (search.py:18-27,
    dilation.py:660 for rel_tol_inv_mult): the lower bound printed; None: an exception (or fuel exhausted). *)
Definition printed_lo (div : nat) (gate_list : option (list (list plink))) (max_cdist : option Z) (rel_tol_inv : Z) : option Qc :=
  obind (run_search 2 div 1 max_cdist par ratio_l2 hq hs fuel solver sched fpar gpar rel_tol_inv 4 gate_list false None false false) (fun out =>
    match out with Reports [(_, (lo, _, _, _))] false => Some lo | _ => None end).
(** YE-proof.py:33-36, 62-65  [result['lo']] for the result of a check; AttributeError for None *)
Definition result_lo (result : option (option seq_result)) : option Qc :=
  obind result (fun r => option_map (fun r => let '(lo, _, _, _) := r in lo) r).
(** YE-proof.py:84-126  [main]: the lower bounds in the order in which they are printed, and the result for the curve Y.
    The texts printed are not modelled. *)
Definition ye_main : option (list Qc * (Qc * Qc * option argmax)) :=
  obind side_link (fun side => obind diag_link (fun diag => obind median_link (fun median =>
  obind (printed_lo 2 None None 1000) (fun lo2 =>
  obind (printed_lo 3 None None 1000) (fun lo3 =>
  obind (printed_lo 4 None None 1000) (fun lo4 =>
  obind (printed_lo 6 (Some [[side]]) (Some 1%Z) 200) (fun lo6s =>
  obind (printed_lo 6 (Some [[median]]) (Some 1%Z) 200) (fun lo6m =>
  obind (printed_lo 5 (Some [[diag]]) (Some 1%Z) 200) (fun lo5d =>
  obind (printed_lo 5 (Some [[median]]) (Some 1%Z) 200) (fun lo5m =>
  obind (result_lo (check_non_ye 2 5 (Some 1%Z) par side Y ratio_l2 hq hs fuel solver sched 200)) (fun lo5n =>
  obind (result_lo (check_ye_proto 2 5 (Some 1%Z) par side Y ratio_l2 hq hs fuel solver sched 1000)) (fun lo5y =>
    option_map (pair [lo2; lo3; lo4; lo6s; lo6m; lo5d; lo5m; lo5n; lo5y]) (check_ye Y ratio_l2 hq fuel 5 100000))))))))))))).
End Main.
