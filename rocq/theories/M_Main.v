(** Model of the main program of /repo/search.py: the command line options and the call of run_search. *)
From Verif Require Import Py M_BaseMaps M_Subsets M_Paths M_Curves M_PathTree M_PathGen M_Gates M_Utils M_Heap M_Heapq M_Sat M_Dilation M_Search M_Text M_GatesText.
Local Open Scope nat_scope.

(** search.py:115  --metric *)
Inductive metric : Type := M_l1 | M_l2 | M_l2_squared | M_linf.
(** search.py:127-132  [funcs] *)
Definition metric_ratio (m : metric) : ratio_func :=
  match m with M_l1 => ratio_l1 | M_l2 => ratio_l2 | M_l2_squared => ratio_l2_squared | M_linf => ratio_linf end.

(** search.py:104-126  [args]. The texts are parsed by argparse (not modelled); [a_gates_file] is the content of the file.
    Simplifications: dim, div, mult and finish_max_count are not negative; --cache-max-size and --verbose, which do not change
    the output, are left out. *)
Record args : Type := Args {
  a_dim : nat; a_mult : nat; a_div : nat; a_facet_gated : bool; a_gates : option text; a_gates_file : option text;
  a_max_cdist : option Z; a_finish_max_count : option nat; a_metric : option metric; a_upper_bound : option text;
  a_rel_tol_inv : option Z; a_rel_tol_inv_mult : option Z; a_group_by_gates : bool; a_output_gates : bool }.

(** search.py:153-165  [gate_list]: --gates has priority over --gates-file. The outer None is an exception. *)
Definition main_gates (a : args) : option (option (list (list plink))) :=
  obind (match a_gates_file a with Some t => option_map Some (parse_gates_file t) | None => Some None end) (fun from_file =>
  match a_gates a with
  | Some t => option_map (fun gates => Some [gates]) (parse_gates_line t)
  | None => Some from_file
  end).
(** _cube_path_trees.py:147-148  default limits of [grow]; gates.py:185  limits of the search for an example *)
Definition default_start : nat := 100.
(** _cube_path_trees.py:148, gates.py:185 *)
Definition million : nat := Z.to_nat 1000000.
(** the ratio function None: it is called only if the dilation is estimated, and the program has raised an exception before *)
Definition no_ratio : ratio_func := fun _ _ _ => None.

(** search.py:101-170  main; [hash]: the hash functions of Python's sets and dictionaries, [fuel]: bound on all loops. None:
    an exception, or fuel exhausted. The heap is the standard library's. *)
Definition search_main (hash : future_t (link (list Qc)) -> Z) (fhash : future_t (link facet_set) -> Z) (fuel : nat) (solver : sat_solver) (sched : Z -> Z)
    (a : args) : option search_output :=
  if Nat.odd (a_dim a) && match a_metric a with Some M_l2 => true | _ => false end then None else
  if negb (a_output_gates a) && match a_metric a with None => true | _ => false end then None else
  obind (main_gates a) (fun gate_list =>
  obind (match a_upper_bound a with Some t => option_map Some (frac_parse t) | None => Some None end) (fun upper_bound =>
    run_search (a_dim a) (a_div a) (a_mult a) (a_max_cdist a)
      (SP hash fuel default_start (Some (match a_finish_max_count a with Some n => n | None => million end)))
      (match a_metric a with Some m => metric_ratio m | None => no_ratio end) cpython_heapq cpython_heapq fuel solver sched
      (SP fhash fuel default_start (Some million)) (SP hash fuel 1000 (Some million))
      (match a_rel_tol_inv a with Some r => r | None => 1000 end) (match a_rel_tol_inv_mult a with Some r => r | None => 4 end)
      gate_list (a_facet_gated a) upper_bound (a_group_by_gates a) (a_output_gates a))).
