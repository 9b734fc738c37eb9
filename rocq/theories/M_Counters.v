(** Model of the counters sum_stats of the estimator (/repo/peano/dilation.py): the methods of M_Dilation.v with the
    counters divide_iter, sat.solve_calls, bisect_iter, seen_pcurve and possible_curves (definitions only).
    The other entries (pair_depth, ptree.*, the maxima) are not modelled here; for those of a heap see M_HeapStats.v. *)
From Verif Require Export Py M_BaseMaps M_Curves M_Heap M_Sat M_Dilation.
Local Open Scope nat_scope.

(** dilation.py:180  sum_stats, the entries incremented at lines 532, 540, 614, 716, 717 *)
Record counters : Type := Ct { k_divide : nat; k_solve : nat; k_bisect : nat; k_seen : nat; k_possible : nat }.
(** dilation.py:180  a Counter is 0 everywhere at first *)
Definition k_zero : counters := Ct 0 0 0 0 0.
(** dilation.py:532 *)
Definition inc_divide (k : counters) := Ct (k_divide k + 1) (k_solve k) (k_bisect k) (k_seen k) (k_possible k).
(** dilation.py:540 *)
Definition inc_solve (k : counters) := Ct (k_divide k) (k_solve k + 1) (k_bisect k) (k_seen k) (k_possible k).
(** dilation.py:614 *)
Definition inc_bisect (k : counters) := Ct (k_divide k) (k_solve k) (k_bisect k + 1) (k_seen k) (k_possible k).
(** dilation.py:716-717 *)
Definition inc_seen (n : nat) (k : counters) := Ct (k_divide k) (k_solve k) (k_bisect k) (k_seen k + 1) (k_possible k + n).

Section Estimator.
Context (ratio : ratio_func) (hq : heap_impl bpair).
(** dilation.py:521-551  the loop of [bisect_dilation_fuzzy]; the counters are kept when an exception is raised *)
Fixpoint bisect_loop_k (fuel : nat) (solver : sat_solver) (sched : Z -> Z) (max_iter : option Z)
    (t : tree) (a : adapter) (iter_no sat_iter : Z) (call : nat) (k : counters) : bisect_result * nat * counters :=
  match bh_items t with
  | [] => (finish solver a call, k)
  | _ =>
      match fuel with
      | 0 => (BError, call, k)
      | S fuel' =>
          let iter_no := (iter_no + 1)%Z in
          if match max_iter with Some m => (m <? iter_no)%Z | None => false end then (BOutOfIter, call, k)
          else
            match divide_tree ratio hq None t with
            | None => (BError, call, k)
            | Some t1 =>
                let '(t2, a2) := forbid t1 a in
                let k := inc_divide k in
                if (iter_no <? sat_iter)%Z then bisect_loop_k fuel' solver sched max_iter t2 a2 iter_no sat_iter call k
                else
                  let k := inc_solve k in
                  match ad_solve solver call a2 with
                  | None => (BNone, S call, k)
                  | Some _ => bisect_loop_k fuel' solver sched max_iter t2 a2 iter_no (sched sat_iter) (S call) k
                  end
            end
      end
  end.
(** dilation.py:459-551  [bisect_dilation_fuzzy] *)
Definition bisect_k (fuel : nat) (solver : sat_solver) (sched : Z -> Z) (max_iter : option Z) (c : curve) (good bad : Qc)
    (init_tree : option tree) (init_adapter : option adapter) (call : nat) (k : counters) : bisect_result * nat * counters :=
  match match init_tree with
        | None => create_tree ratio hq fuel c (Some good) (Some bad) false None
        | Some t => bh_copy bp_lo bp_up hq t (Some good) (Some bad)
        end,
        match init_adapter with
        | None => ad_load fuel c
        | Some a => Some (ad_copy a)
        end with
  | Some t, Some a => let '(t1, a1) := forbid t a in bisect_loop_k fuel solver sched max_iter t1 a1 0 1 call k
  | _, _ => (BError, call, k)
  end.
(** dilation.py:612-649  the loop of [estimate_dilation_fuzzy] *)
Fixpoint fuzzy_loop_k (fuel : nat) (solver : sat_solver) (sched : Z -> Z) (max_iter : option Z) (c : curve) (tol : Qc) (stop : option Qc)
    (t : tree) (a : adapter) (cur : option curve) (lo up : Qc) (call : nat) (k : counters) : option (option curve * Qc * Qc * nat * counters) :=
  if qltb (lo * tol)%Qc up then
    match fuel with
    | 0 => None
    | S fuel' =>
        let k := inc_bisect k in
        let zero := Qc_eq_bool lo 0%Qc in
        let test_lo := if zero then (Zq 1 / Zq 2 * up)%Qc else third 2 1 lo up in
        let test_up := if zero then (Zq 2 / Zq 3 * up)%Qc else third 1 2 lo up in
        let next cur lo up call k :=
          if match stop with Some s => qltb s lo | None => false end then Some (cur, lo, up, call, k)
          else fuzzy_loop_k fuel' solver sched max_iter c tol stop t a cur lo up call k in
        match bisect_k fuel solver sched max_iter c test_up test_lo (Some t) (Some a) call k with
        | (BError, _, _) => None
        | (BOutOfIter, call', k') => Some (cur, lo, up, call', k')
        | (BFound x, call', k') => next (Some x) lo test_up call' k'
        | (BNone, call', k') => next cur test_lo up call' k'
        end
    end
  else Some (cur, lo, up, call, k).
(** dilation.py:553-655  [estimate_dilation_fuzzy] *)
Definition estimate_fuzzy_k (fuel : nat) (solver : sat_solver) (sched : Z -> Z) (max_iter : option Z) (c : curve)
    (rel_tol_inv : Z) (stop start_lo start_up : option Qc) (start_curve : option curve) (call : nat) (k : counters)
    : option (option curve * Qc * Qc * nat * counters) :=
  let lo := match start_lo with None => 0%Qc | Some l => l end in
  match match start_up with
        | None => match get_curve_example c with
                  | Some c0 => match estimate_dilation_regular ratio hq fuel c0 (Some rel_tol_inv) None None None with
                               | Some (_, up, _) => Some (Some c0, up)
                               | None => None
                               end
                  | None => None
                  end
        | Some u => Some (start_curve, u)
        end, create_tree ratio hq fuel c None None false None, ad_load fuel c, tolerance_of rel_tol_inv with
  | Some (cur, up), Some t, Some a, Some tol => fuzzy_loop_k fuel solver sched max_iter c tol stop t a cur lo up call k
  | _, _, _, _ => None
  end.
End Estimator.

Section Sequence.
Context (ratio : ratio_func) (hq : heap_impl bpair) (hs : heap_impl citem).
(** dilation.py:714-743: one item of the loop over [active]; [first]: epoch == 1; state: (curr_up, new_active, solver calls, counters) *)
Definition seq_step_k (fuel : nat) (solver : sat_solver) (sched : Z -> Z) (max_iter : option Z) (first : bool) (rel_tol_inv : Z)
    (st : option Qc * list (node citem) * nat * counters) (it : citem) : option (option Qc * list (node citem) * nat * counters) :=
  let '(curr_up, new_active, call, k) := st in
  obind (if first then option_map (fun n => inc_seen n k) (count_possible_curves (ci_curve it)) else Some k) (fun k =>
  match estimate_fuzzy_k ratio hq fuel solver sched max_iter (ci_curve it) rel_tol_inv curr_up (ci_lo it) (ci_up it) (ci_example it) call k with
  | None => None
  | Some (ex, lo, up, call', k') =>
      let cu := match curr_up with None => up | Some u => if qltb up u then up else u end in
      let h := if qleb lo cu then hq_push hs new_active (Nd (- lo)%Qc (ci_idx it) (CI (ci_idx it) (Some lo) (Some up) (ci_curve it) ex)) else new_active in
      option_map (fun h' => (Some cu, h', call', k')) (seq_cleanup (length h) hs cu h)
  end).
(** dilation.py:657-757  [estimate_dilation_sequence], the loop *)
Fixpoint seq_loop_k (fuel : nat) (solver : sat_solver) (sched : Z -> Z) (max_iter : option Z) (tol : Qc) (mult : Z) (first : bool)
    (active : list citem) (lo : Qc) (up : option Qc) (cur_tol : Z) (call : nat) (k : counters)
    : option (option (Qc * Qc * list (option curve) * list nat) * nat * counters) :=
  match (match up with None => None | Some u => if qltb (lo * tol)%Qc u then None else Some u end) with
  | Some u => Some (Some (lo, u, map ci_example active, map ci_idx active), call, k)
  | None =>
      match fuel with
      | 0 => None
      | S fuel' =>
          let cur_tol := (cur_tol * mult)%Z in
          match fold_left (fun acc it => obind acc (fun st => seq_step_k fuel solver sched max_iter first cur_tol st it)) active (Some (up, [], call, k)) with
          | None => None
          | Some (_, [], call', k') => Some (None, call', k')
          | Some (up', h, call', k') =>
              let act := sorted oq_cmp (map nd_item h) in
              match min_lo act with
              | None => None
              | Some lo' => seq_loop_k fuel' solver sched max_iter tol mult false act lo' up' cur_tol call' k'
              end
          end
      end
  end.
(** dilation.py:657-757  [estimate_dilation_sequence]: result, number of solver calls, counters *)
Definition estimate_sequence_k (fuel : nat) (solver : sat_solver) (sched : Z -> Z) (max_iter : option Z)
    (curves : list curve) (rel_tol_inv mult : Z) (upper_bound : option Qc) (k : counters)
    : option (option (Qc * Qc * list (option curve) * list nat) * nat * counters) :=
  match tolerance_of rel_tol_inv with
  | None => None
  | Some tol => seq_loop_k fuel solver sched max_iter tol mult true (map (fun ic => CI (fst ic) None None (snd ic) None) (enumerate curves)) 0%Qc upper_bound 1 0 k
  end.
End Sequence.
