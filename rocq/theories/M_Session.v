(** Model of Estimator objects of /repo/peano/dilation.py with their caches: the methods of M_Dilation.v with the state of the caches
    passed along.  A session is any sequence of creations of estimators and calls of their methods. *)
From Verif Require Export Py M_BaseMaps M_Subsets M_Utils M_Curves M_Heap M_Sat M_Dilation M_Lru.
Local Open Scope nat_scope.

(** dilation.py:43-47  [_PiecePosition._data], [__eq__] *)
Definition pos_data (p : position) : list nat * list (list Z) * nat * nat := (po_cnums p, po_cubes p, po_div p, po_dim p).
(** dilation.py:46-47  equality of positions *)
Definition pos_eqb (p q : position) : bool :=
  list_eqb Nat.eqb (po_cnums p) (po_cnums q) && list_eqb z_list_eqb (po_cubes p) (po_cubes q) && Nat.eqb (po_div p) (po_div q) && Nat.eqb (po_dim p) (po_dim q).
(** curves.py:772-773  [Junction._data] *)
Definition junc_data (j : junction) : list Z * Z * spec * spec := (j_dx j, j_dt j, j_spec1 j, j_spec2 j).

(** The arguments (junc, pos1, pos2, pts1, pts2) of [_get_pos_bounds], dilation.py:206-213 *)
Definition bkey : Type := junction * position * position * list (list Qc * Qc) * list (list Qc * Qc).
(** dilation.py:206-213  comparison of the argument tuples *)
Definition bkey_eqb (a b : bkey) : bool :=
  let '(j, p1, p2, l1, l2) := a in let '(j', p1', p2', l1', l2') := b in
  junc_eqb j j' && pos_eqb p1 p1' && pos_eqb p2 p2' && list_eqb cp_eqb l1 l1' && list_eqb cp_eqb l2 l2'.
(** What the hashes of the argument tuple depend on: curves.py:778-779, dilation.py:43-44, 49-50, base_maps.py:117-118, 306-307 *)
Definition bkey_data (a : bkey) : (list Z * Z * spec * spec) * (list nat * list (list Z) * nat * nat) * (list nat * list (list Z) * nat * nat) *
    list (list Qc * Qc) * list (list Qc * Qc) :=
  let '(j, p1, p2, l1, l2) := a in (junc_data j, pos_data p1, pos_data p2, l1, l2).
(** dilation.py:206-213  results of [_get_pos_bounds] *)
Definition bval : Type := (Qc * Qc * option argmax)%type.
(** utils.py:35-36: arguments (dim, div, cubes) *)
Definition ckey : Type := (nat * Z * list (list Z))%type.
(** utils.py:35-36  comparison of the argument tuples *)
Definition ckey_eqb (a b : ckey) : bool := let '(d, n, l) := a in let '(d', n', l') := b in Nat.eqb d d' && Z.eqb n n' && list_eqb z_list_eqb l l'.
(** utils.py:47-48: arguments (dim, div, cnums) *)
Definition tkey : Type := (nat * Z * list Z)%type.
(** utils.py:47-48  comparison of the argument tuples *)
Definition tkey_eqb (a b : tkey) : bool := let '(d, n, l) := a in let '(d', n', l') := b in Nat.eqb d d' && Z.eqb n n' && z_list_eqb l l'.

(** The caches that the methods of one estimator use: its own (dilation.py:184) and the two of the module utils (utils.py:35, 47). *)
Record caches : Type := Cs { cs_bounds : lru bkey bval; cs_cubes : lru ckey (list Z); cs_times : lru tkey Z }.
(** A method: an exception is None; the caches persist. Used by dilation.py:186-757 *)
Definition meth (A : Type) : Type := caches -> option A * caches.
(** return, used by dilation.py:186-757 *)
Definition mret {A} (x : option A) : meth A := fun s => (x, s).
(** sequencing, used by dilation.py:186-757 *)
Definition mbind {A B} (m : meth A) (f : A -> meth B) : meth B := fun s => match m s with (Some a, s') => f a s' | (None, s') => (None, s') end.
(** a for loop over a list, used by dilation.py:330-345, 712-743 *)
Fixpoint mfold {A B} (f : A -> B -> meth A) (l : list B) (a : A) : meth A :=
  match l with
  | [] => mret (Some a)
  | b :: l' => mbind (f a b) (mfold f l')
  end.

Section Session.
(** hash() of the argument tuples: arbitrary functions of what they depend on. *)
Context (hash_b : (list Z * Z * spec * spec) * (list nat * list (list Z) * nat * nat) * (list nat * list (list Z) * nat * nat) * list (list Qc * Qc) * list (list Qc * Qc) -> Z)
  (hash_c : ckey -> Z) (hash_t : tkey -> Z).
(** dict lookup in the cache of dilation.py:184 *)
Definition bsame (a b : bkey) : bool := Z.eqb (hash_b (bkey_data a)) (hash_b (bkey_data b)) && bkey_eqb a b.
(** dict lookup in the cache of utils.py:35 *)
Definition csame (a b : ckey) : bool := Z.eqb (hash_c a) (hash_c b) && ckey_eqb a b.
(** dict lookup in the cache of utils.py:47 *)
Definition tsame (a b : tkey) : bool := Z.eqb (hash_t a) (hash_t b) && tkey_eqb a b.

(** utils.py:35-44  [get_int_cube_with_cache] *)
Definition int_cube_c (dim : nat) (div : Z) (cubes : list (list Z)) : meth (list Z) := fun s =>
  let (x, c) := lru_call csame (fun k => let '(d, n, l) := k in get_int_cube d n l) (cs_cubes s) (dim, div, cubes) in (Some x, Cs (cs_bounds s) c (cs_times s)).
(** utils.py:47-58  [get_int_time_with_cache] *)
Definition int_time_c (dim : nat) (div : Z) (cnums : list Z) : meth Z := fun s =>
  let (x, c) := lru_call tsame (fun k => let '(d, n, l) := k in get_int_time d n l) (cs_times s) (dim, div, cnums) in (Some x, Cs (cs_bounds s) (cs_cubes s) c).
(** dilation.py:60-69  [get_int_coords] *)
Definition po_coords_c (p : position) : meth (list Z * Z) :=
  mbind (int_cube_c (po_dim p) (Z.of_nat (po_div p)) (po_cubes p)) (fun x =>
  mbind (int_time_c (po_dim p) (Z.of_nat (po_div p)) (map Z.of_nat (po_cnums p))) (fun t => mret (Some (x, t)))).
(** dilation.py:184, 206-295  [_get_pos_bounds] with its cache; an exception is not stored *)
Definition get_pos_bounds_c (ratio : ratio_func) (j : junction) (pos1 pos2 : position) (pts1 pts2 : list (list Qc * Qc)) : meth bval := fun s =>
  let k := (j, pos1, pos2, pts1, pts2) in
  match lru_find bsame (cs_bounds s) k with
  | Some e => (Some (snd e), Cs (lru_hit bsame (cs_bounds s) k e) (cs_cubes s) (cs_times s))
  | None =>
      mbind (po_coords_c pos1) (fun xt1 => mbind (po_coords_c pos2) (fun xt2 =>
      mbind (mret (pos_bounds_at ratio j pos1 pos2 pts1 pts2 xt1 xt2)) (fun v => fun s => (Some v, Cs (lru_put (cs_bounds s) k v) (cs_cubes s) (cs_times s)))))
        (Cs (lru_miss (cs_bounds s)) (cs_cubes s) (cs_times s))
  end.
(** dilation.py:186-204  [_get_bounds] *)
Definition get_bounds_c (ratio : ratio_func) (p : piece_pair) (st : stash) : meth bval :=
  match st with
  | None => get_pos_bounds_c ratio (pp_junc p) (pp_pos1 p) (pp_pos2 p) [] []
  | Some pts =>
      match last_spec (pp_curve p) (sp_pnum (j_spec1 (pp_junc p))) (pp_pos1 p), last_spec (pp_curve p) (sp_pnum (j_spec2 (pp_junc p))) (pp_pos2 p) with
      | Some s1, Some s2 =>
          match nth_error pts (sp_pnum s1), nth_error pts (sp_pnum s2) with
          | Some l1, Some l2 => get_pos_bounds_c ratio (pp_junc p) (pp_pos1 p) (pp_pos2 p) (map (cp_mul (sp_bm s1)) l1) (map (cp_mul (sp_bm s2)) l2)
          | _, _ => mret None
          end
      | _, _ => mret None
      end
  end.

Section Methods.
Context (ratio : ratio_func) (hq : heap_impl bpair).
(** dilation.py:336-339  [_push_tree] *)
Definition push_tree_c (st : stash) (t : tree) (p : piece_pair) : meth tree :=
  mbind (get_bounds_c ratio p st) (fun v => mret (Some (bh_push bp_lo bp_up hq t (BP (fst (fst v)) (snd (fst v)) p (snd v))))).
(** dilation.py:304-334  [_create_tree] *)
Definition create_tree_c (fuel : nat) (c : curve) (good bad : option Qc) (keep : bool) (st : stash) : meth tree :=
  match regular_junctions fuel c with
  | None => mret None
  | Some js =>
      mfold (fun t jcc => match init_first_order c (fst (fst jcc)) (snd (fst jcc)) (snd jcc) with
                          | Some p => push_tree_c st t p
                          | None => mret None
                          end) (pair_data c js) (bh_new good bad keep)
  end.
(** dilation.py:341-345  [_divide_tree] *)
Definition divide_tree_c (st : stash) (t : tree) : meth tree :=
  match bh_pop hq t with
  | Some (worst, t') => mbind (mret (divide_balanced (bp_pair worst))) (fun ps => mfold (push_tree_c st) ps t')
  | None => mret None
  end.
(** dilation.py:425-457  the loop of [estimate_dilation_regular] *)
Fixpoint regular_loop_c (fuel : nat) (st : stash) (tol : option Qc) (max_iter max_depth : option Z)
    (t : tree) (lo up : Qc) (am : option argmax) (iter_no : Z) : meth bval :=
  match fuel with
  | 0 => mret None
  | S fuel' =>
      let iter_no := (iter_no + 1)%Z in
      if match tol with Some tl => qleb up (lo * tl)%Qc | None => false end then mret (Some (lo, up, am))
      else if match max_iter with Some m => (m <? iter_no)%Z | None => false end then mret (Some (lo, up, am))
      else if match max_depth with Some m => forallb (fun i => (m <? Z.of_nat (pp_depth (bp_pair i)))%Z) (bh_items t) | None => false end
      then mret (Some (lo, up, am))
      else
        mbind (divide_tree_c st t) (fun t1 =>
          match bh_max t1 with
          | None => mret None
          | Some item =>
              let better := qltb lo (bp_lo item) in
              match (if better then bh_update bp_lo bp_up hq t1 (bp_lo item) else Some t1) with
              | None => mret None
              | Some t2 =>
                  let lo' := if better then bp_lo item else lo in
                  let am' := if better then bp_argmax item else am in
                  match bh_top t2 with
                  | None => mret None
                  | Some top => regular_loop_c fuel' st tol max_iter max_depth t2 lo' (if qltb (bp_up top) up then bp_up top else up) am' iter_no
                  end
              end
          end)
  end.
(** dilation.py:362-457  [estimate_dilation_regular] *)
Definition estimate_dilation_regular_c (fuel : nat) (c : curve) (rel_tol_inv max_iter : option Z) (face_dim : option nat) (max_depth : option Z) : meth bval :=
  match match face_dim with None => Some None | Some fd => option_map Some (face_points c fd) end,
        match rel_tol_inv with None => Some None | Some r => option_map Some (tolerance_of r) end with
  | Some st, Some tol =>
      mbind (create_tree_c fuel c None None true st) (fun t =>
        match bh_max t with
        | None => mret None
        | Some item =>
            match bh_update bp_lo bp_up hq t (bp_lo item) with
            | None => mret None
            | Some t1 => match bh_top t1 with
                         | None => mret None
                         | Some top => regular_loop_c fuel st tol max_iter max_depth t1 (bp_lo item) (bp_up top) (bp_argmax item) 0
                         end
            end
        end)
  | _, _ => mret None
  end.
(** dilation.py:525-551  the loop of [bisect_dilation_fuzzy]; the result BError is an exception *)
Fixpoint bisect_loop_c (fuel : nat) (solver : sat_solver) (sched : Z -> Z) (max_iter : option Z)
    (t : tree) (a : adapter) (iter_no sat_iter : Z) (call : nat) (s : caches) : (bisect_result * nat) * caches :=
  match bh_items t with
  | [] => (finish solver a call, s)
  | _ =>
      match fuel with
      | 0 => ((BError, call), s)
      | S fuel' =>
          let iter_no := (iter_no + 1)%Z in
          if match max_iter with Some m => (m <? iter_no)%Z | None => false end then ((BOutOfIter, call), s)
          else
            match divide_tree_c None t s with
            | (None, s') => ((BError, call), s')
            | (Some t1, s') =>
                let '(t2, a2) := forbid t1 a in
                if (iter_no <? sat_iter)%Z then bisect_loop_c fuel' solver sched max_iter t2 a2 iter_no sat_iter call s'
                else match ad_solve solver call a2 with
                     | None => ((BNone, S call), s')
                     | Some _ => bisect_loop_c fuel' solver sched max_iter t2 a2 iter_no (sched sat_iter) (S call) s'
                     end
            end
      end
  end.
(** dilation.py:459-551  [bisect_dilation_fuzzy] *)
Definition bisect_dilation_fuzzy_c (fuel : nat) (solver : sat_solver) (sched : Z -> Z) (max_iter : option Z) (c : curve) (good bad : Qc)
    (init_tree : option tree) (init_adapter : option adapter) (call : nat) (s : caches) : (bisect_result * nat) * caches :=
  match match init_tree with
        | None => create_tree_c fuel c (Some good) (Some bad) false None s
        | Some t => (bh_copy bp_lo bp_up hq t (Some good) (Some bad), s)
        end with
  | (Some t, s') =>
      match match init_adapter with
            | None => ad_load fuel c
            | Some a => Some (ad_copy a)
            end with
      | Some a => let '(t1, a1) := forbid t a in bisect_loop_c fuel solver sched max_iter t1 a1 0 1 call s'
      | None => ((BError, call), s')
      end
  | (None, s') => ((BError, call), s')
  end.
(** dilation.py:612-648  the loop of [estimate_dilation_fuzzy] *)
Fixpoint fuzzy_loop_c (fuel : nat) (solver : sat_solver) (sched : Z -> Z) (max_iter : option Z) (c : curve) (tol : Qc) (stop : option Qc)
    (t : tree) (a : adapter) (cur : option curve) (lo up : Qc) (call : nat) : meth (option curve * Qc * Qc * nat) := fun s =>
  if qltb (lo * tol)%Qc up then
    match fuel with
    | 0 => (None, s)
    | S fuel' =>
        let zero := Qc_eq_bool lo 0%Qc in
        let test_lo := if zero then (Zq 1 / Zq 2 * up)%Qc else third 2 1 lo up in
        let test_up := if zero then (Zq 2 / Zq 3 * up)%Qc else third 1 2 lo up in
        let next cur lo up call s :=
          if match stop with Some s => qltb s lo | None => false end then (Some (cur, lo, up, call), s)
          else fuzzy_loop_c fuel' solver sched max_iter c tol stop t a cur lo up call s in
        match bisect_dilation_fuzzy_c fuel solver sched max_iter c test_up test_lo (Some t) (Some a) call s with
        | ((BError, _), s') => (None, s')
        | ((BOutOfIter, call'), s') => (Some (cur, lo, up, call'), s')
        | ((BFound x, call'), s') => next (Some x) lo test_up call' s'
        | ((BNone, call'), s') => next cur test_lo up call' s'
        end
    end
  else (Some (cur, lo, up, call), s).
(** dilation.py:553-655  [estimate_dilation_fuzzy] *)
Definition estimate_dilation_fuzzy_c (fuel : nat) (solver : sat_solver) (sched : Z -> Z) (max_iter : option Z) (c : curve)
    (rel_tol_inv : Z) (stop start_lo start_up : option Qc) (start_curve : option curve) (call : nat) : meth (option curve * Qc * Qc * nat) :=
  let lo := match start_lo with None => 0%Qc | Some l => l end in
  mbind (match start_up with
         | None => match get_curve_example c with
                   | Some c0 => mbind (estimate_dilation_regular_c fuel c0 (Some rel_tol_inv) None None None) (fun r => mret (Some (Some c0, snd (fst r))))
                   | None => mret None
                   end
         | Some u => mret (Some (start_curve, u))
         end) (fun cu =>
  mbind (create_tree_c fuel c None None false None) (fun t =>
  mbind (mret (ad_load fuel c)) (fun a =>
  mbind (mret (tolerance_of rel_tol_inv)) (fun tol => fuzzy_loop_c fuel solver sched max_iter c tol stop t a (fst cu) lo (snd cu) call)))).
Context (hs : heap_impl citem).
(** dilation.py:714-743  one item of the loop over [active] *)
Definition seq_step_c (fuel : nat) (solver : sat_solver) (sched : Z -> Z) (max_iter : option Z) (rel_tol_inv : Z)
    (st : option Qc * list (node citem) * nat) (it : citem) : meth (option Qc * list (node citem) * nat) :=
  let '(curr_up, new_active, call) := st in
  mbind (estimate_dilation_fuzzy_c fuel solver sched max_iter (ci_curve it) rel_tol_inv curr_up (ci_lo it) (ci_up it) (ci_example it) call) (fun r =>
    let '(ex, lo, up, call') := r in
    let cu := match curr_up with None => up | Some u => if qltb up u then up else u end in
    let h := if qleb lo cu then hq_push hs new_active (Nd (- lo)%Qc (ci_idx it) (CI (ci_idx it) (Some lo) (Some up) (ci_curve it) ex)) else new_active in
    mret (option_map (fun h' => (Some cu, h', call')) (seq_cleanup (length h) hs cu h))).
(** dilation.py:706-757  the epochs of [estimate_dilation_sequence] *)
Fixpoint seq_loop_c (fuel : nat) (solver : sat_solver) (sched : Z -> Z) (max_iter : option Z) (tol : Qc) (mult : Z)
    (active : list citem) (lo : Qc) (up : option Qc) (cur_tol : Z) (call : nat) : meth (option (Qc * Qc * list (option curve) * list nat)) :=
  match (match up with None => None | Some u => if qltb (lo * tol)%Qc u then None else Some u end) with
  | Some u => mret (Some (Some (lo, u, map ci_example active, map ci_idx active)))
  | None =>
      match fuel with
      | 0 => mret None
      | S fuel' =>
          let cur_tol := (cur_tol * mult)%Z in
          mbind (mfold (fun st it => seq_step_c fuel solver sched max_iter cur_tol st it) active (up, [], call)) (fun r =>
          match r with
          | (_, [], _) => mret (Some None)
          | (up', h, call') =>
              let act := sorted oq_cmp (map nd_item h) in
              match min_lo act with
              | None => mret None
              | Some lo' => seq_loop_c fuel' solver sched max_iter tol mult act lo' up' cur_tol call'
              end
          end)
      end
  end.
(** dilation.py:657-757  [estimate_dilation_sequence] *)
Definition estimate_dilation_sequence_c (fuel : nat) (solver : sat_solver) (sched : Z -> Z) (max_iter : option Z)
    (curves : list curve) (rel_tol_inv mult : Z) (upper_bound : option Qc) : meth (option (Qc * Qc * list (option curve) * list nat)) :=
  mbind (mret (tolerance_of rel_tol_inv)) (fun tol =>
    seq_loop_c fuel solver sched max_iter tol mult (map (fun ic => CI (fst ic) None None (snd ic) None) (enumerate curves)) 0%Qc upper_bound 1 0).
End Methods.

(** What a user of the module dilation may do (dilation.py:155-757): create estimators, call the methods of any of them with any arguments. *)
Inductive est_op : Type :=
| ONew (ratio : ratio_func) (cache_max_size : option Z)
| ORegular (est fuel : nat) (c : curve) (rel_tol_inv max_iter : option Z) (face_dim : option nat) (max_depth : option Z)
| OBisect (est fuel : nat) (solver : sat_solver) (sched : Z -> Z) (max_iter : option Z) (c : curve) (good bad : Qc) (call : nat)
| OFuzzy (est fuel : nat) (solver : sat_solver) (sched : Z -> Z) (max_iter : option Z) (c : curve) (rel_tol_inv : Z) (stop start_lo start_up : option Qc) (start_curve : option curve) (call : nat)
| OSequence (est fuel : nat) (solver : sat_solver) (sched : Z -> Z) (max_iter : option Z) (curves : list curve) (rel_tol_inv mult : Z) (upper_bound : option Qc).
(** results of the methods of dilation.py:362-757 *)
Inductive est_result : Type :=
| RVoid
| RRegular (r : option bval)
| RBisect (r : bisect_result * nat)
| RFuzzy (r : option (option curve * Qc * Qc * nat))
| RSequence (r : option (option (Qc * Qc * list (option curve) * list nat))).
(** The estimators (dilation.py:181-184) and the module caches (utils.py:35, 47) *)
Record session : Type := Ss { ss_ests : list (ratio_func * lru bkey bval); ss_cubes : lru ckey (list Z); ss_times : lru tkey Z }.
(** utils.py:35, 47: the module caches have maxsize 2**20 *)
Definition session_new : session := Ss [] (lru_new (Some (2 ^ 20)%Z)) (lru_new (Some (2 ^ 20)%Z)).
(** a method of the estimator number i runs (dilation.py:362-757); a wrong number has no effect *)
Definition on_est {A} (i : nat) (ss : session) (none : A) (m : ratio_func -> caches -> A * caches) : A * session :=
  match nth_error (ss_ests ss) i with
  | None => (none, ss)
  | Some (ratio, b) =>
      let (r, s) := m ratio (Cs b (ss_cubes ss) (ss_times ss)) in
      (r, Ss (upd i (ratio, cs_bounds s) (ss_ests ss)) (cs_cubes s) (cs_times s))
  end.
(** one operation (dilation.py:155-757) *)
Definition session_step (hq : heap_impl bpair) (hs : heap_impl citem) (ss : session) (op : est_op) : est_result * session :=
  match op with
  | ONew ratio max => (RVoid, Ss (ss_ests ss ++ [(ratio, lru_new max)]) (ss_cubes ss) (ss_times ss))
  | ORegular i fuel c rti mi fd md => on_est i ss RVoid (fun ratio s => let (r, s') := estimate_dilation_regular_c ratio hq fuel c rti mi fd md s in (RRegular r, s'))
  | OBisect i fuel solver sched mi c good bad call => on_est i ss RVoid (fun ratio s => let (r, s') := bisect_dilation_fuzzy_c ratio hq fuel solver sched mi c good bad None None call s in (RBisect r, s'))
  | OFuzzy i fuel solver sched mi c rti stop slo sup scur call => on_est i ss RVoid (fun ratio s => let (r, s') := estimate_dilation_fuzzy_c ratio hq fuel solver sched mi c rti stop slo sup scur call s in (RFuzzy r, s'))
  | OSequence i fuel solver sched mi curves rti mult ub => on_est i ss RVoid (fun ratio s => let (r, s') := estimate_dilation_sequence_c ratio hq hs fuel solver sched mi curves rti mult ub s in (RSequence r, s'))
  end.
(** a session (dilation.py:155-757): the results of the operations and the final state *)
Fixpoint session_run (hq : heap_impl bpair) (hs : heap_impl citem) (ops : list est_op) (ss : session) : list est_result * session :=
  match ops with
  | [] => ([], ss)
  | op :: ops' => let (r, ss') := session_step hq hs ss op in let (rs, ss'') := session_run hq hs ops' ss' in (r :: rs, ss'')
  end.
End Session.
