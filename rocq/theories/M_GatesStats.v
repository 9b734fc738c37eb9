(** Model of the counters [stats] of GatesGenerator (/repo/peano/gates.py): the methods of M_Gates.v that count (definitions only). *)
From Verif Require Export Py M_BaseMaps M_Subsets M_Paths M_Curves M_PathTree M_PathGen M_Utils M_Gates.
Local Open Scope nat_scope.

(** gates.py:33  stats: the entries new_path_gate, new_std_gate, new_good_gate (lines 171, 178, 190) *)
Record gate_stat : Type := GSt { g_path : nat; g_std : nat; g_good : nat }.
(** gates.py:33  an empty Counter *)
Definition g_zero : gate_stat := GSt 0 0 0.
(** gates.py:171 *)
Definition inc_path (k : gate_stat) : gate_stat := GSt (g_path k + 1) (g_std k) (g_good k).
(** gates.py:178 *)
Definition inc_std (k : gate_stat) : gate_stat := GSt (g_path k) (g_std k + 1) (g_good k).
(** gates.py:190 *)
Definition inc_good (k : gate_stat) : gate_stat := GSt (g_path k) (g_std k) (g_good k + 1).

Section Gates.
(** gates.py:20-36  the GatesGenerator object *)
Context (dim div mult : nat) (only_facet : bool).
(** gates.py:145-192  [_check_and_std]: the result, the new sets and the counters *)
Definition check_and_std_s (par : search_par (list Qc)) (seen : seen_sets) (k : gate_stat) (protos : list proto) (spec_list : list spec)
    : option (option (list plink) * seen_sets * gate_stat) :=
  match curve_gates dim only_facet (cand_curve dim div mult protos spec_list) (range mult) with
  | None => None
  | Some None => Some (None, seen, k)
  | Some (Some gates) =>
      if memb gates_eqb gates (fst seen) then Some (None, seen, k) else
      let k := inc_path k in
      match std_gates gates with
      | None => None
      | Some std =>
          if memb gates_eqb std (snd seen) then Some (None, (gates :: fst seen, snd seen), k) else
          let k := inc_std k in
          option_map (fun ok : bool => if ok then (Some std, (gates :: fst seen, std :: snd seen), inc_good k) else (None, (gates :: fst seen, std :: snd seen), k))
            (has_paths dim div par std)
      end
  end.
(** gates.py:138-143  the loop of [_check_variants], over all calls of it *)
Fixpoint check_all_s (par : search_par (list Qc)) (seen : seen_sets) (k : gate_stat) (cands : list (list proto * list spec)) : option (list (list plink) * gate_stat) :=
  match cands with
  | [] => Some ([], k)
  | (protos, specs) :: cands' =>
      match check_and_std_s par seen k protos specs with
      | None => None
      | Some (r, seen', k') => option_map (fun l => (match r with Some gs => gs :: fst l | None => fst l end, snd l)) (check_all_s par seen' k' cands')
      end
  end.
(** gates.py:38-54  [gen_gates], run to its end; the sets start empty, the counters do not *)
Definition gen_gates_s (fpar : search_par facet_set) (ppar : search_par (list Qc)) (k : gate_stat) : option (list (list plink) * gate_stat) :=
  obind (if only_facet then facet_groups dim div mult fpar else all_groups dim div mult) (fun groups => check_all_s ppar ([], []) k (candidates groups)).
End Gates.
