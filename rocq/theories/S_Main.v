(** Specification vocabulary for the main program of search.py. *)
From Verif Require Import Py L_Qc M_BaseMaps M_Subsets M_Gates M_Search M_Text M_GatesText M_Main S_BaseMaps S_Utils S_Ratio.
From Coq Require Import Reals.
Local Open Scope nat_scope.

(** the real function |dx|^d / dt (or its square) that the metric stands for *)
Definition metric_fun (m : metric) (d : nat) : list R -> R -> R :=
  match m with
  | M_l1 => norm_ratio norm_l1 d
  | M_l2 => norm_ratio norm_l2 d
  | M_l2_squared => fun dv dt => ((norm_ratio norm_l2 d dv dt)²)%R
  | M_linf => norm_ratio norm_linf d
  end.
Definition rel_tol_of (a : args) : Z := match a_rel_tol_inv a with Some r => r | None => 1000 end.
(** the same options with --output-gates set or not *)
Definition with_output (a : args) (b : bool) : args :=
  Args (a_dim a) (a_mult a) (a_div a) (a_facet_gated a) (a_gates a) (a_gates_file a) (a_max_cdist a) (a_finish_max_count a) (a_metric a)
    (a_upper_bound a) (a_rel_tol_inv a) (a_rel_tol_inv_mult a) (a_group_by_gates a) b.
(** the same options with the gates from a file *)
Definition with_file (a : args) (t : text) : args :=
  Args (a_dim a) (a_mult a) (a_div a) (a_facet_gated a) None (Some t) (a_max_cdist a) (a_finish_max_count a) (a_metric a)
    (a_upper_bound a) (a_rel_tol_inv a) (a_rel_tol_inv_mult a) (a_group_by_gates a) (a_output_gates a).
(** The gates that the options give: those of --gates, otherwise the lines of --gates-file, otherwise none. The file must be well formed
    even if --gates is given. *)
Definition given_gates (a : args) (gate_list : option (list (list plink))) : Prop :=
  (forall t, a_gates_file a = Some t -> exists gl, parse_gates_file t = Some gl) /\
  match a_gates a, a_gates_file a with
  | Some t, _ => exists gates, parse_gates_line t = Some gates /\ gate_list = Some [gates]
  | None, Some t => exists gl, parse_gates_file t = Some gl /\ gate_list = Some gl
  | None, None => gate_list = None
  end.
(** Options for which the program does its work: dimension, division, multiplicity are in range, the tolerance is positive and
    shrinks, the texts are well formed ([gate_list] and [upper] are their meaning), the gates fit and are in the unit cube. *)
Record good_args (a : args) (gate_list : option (list (list plink))) (upper : option Qc) (m : metric) : Prop := {
  ga_dim : if a_facet_gated a then 2 <= a_dim a else 1 <= a_dim a;
  ga_div : 2 <= a_div a;
  ga_mult : 1 <= a_mult a;
  ga_tol : (0 < rel_tol_of a)%Z;
  ga_tol_mult : forall r, a_rel_tol_inv_mult a = Some r -> (2 <= r)%Z;
  ga_metric : a_metric a = Some m;
  ga_even : m = M_l2 -> Nat.even (a_dim a) = true;
  ga_gates : given_gates a gate_list;
  ga_fit : forall gl, gate_list = Some gl -> Forall (fun gs => length gs = a_mult a /\
             Forall (fun l : plink => (length (entrance l) = a_dim a /\ in_cube01 1 (entrance l)) /\ (length (exit l) = a_dim a /\ in_cube01 1 (exit l))) gs) gl;
  ga_upper : match a_upper_bound a with Some t => option_map Some (frac_parse t) | None => Some None end = Some upper }.
