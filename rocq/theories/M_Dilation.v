(** Model of /repo/peano/dilation.py (definitions only). Exceptions are [None]; the statistics counters are not modelled. *)
From Verif Require Export Py M_BaseMaps M_Subsets M_Utils M_Curves M_Heap M_Sat.
Local Open Scope nat_scope.

(** dilation.py:31-69  [_PiecePosition] *)
Record position : Type := Pos { po_dim : nat; po_div : nat; po_cnums : list nat; po_cubes : list (list Z) }.
(** dilation.py:31-69  (part of) *)
Definition po_depth (p : position) : nat := length (po_cnums p).
(** dilation.py:31-69  (part of) *)
Definition po_specify (p : position) (cnum : nat) (cube : list Z) : position :=
  Pos (po_dim p) (po_div p) (po_cnums p ++ [cnum]) (po_cubes p ++ [cube]).
(** dilation.py:31-69  (part of) *)
Definition po_coords (p : position) : list Z * Z :=
  (get_int_cube (po_dim p) (Z.of_nat (po_div p)) (po_cubes p),
   get_int_time (po_dim p) (Z.of_nat (po_div p)) (map Z.of_nat (po_cnums p))).

(** dilation.py:72-102  [_CurvePiece]: (curve, pnum, pos) *)
Definition last_spec (c : curve) (pnum : nat) (pos : position) : option spec := get_deep_spec c pnum (map Z.of_nat (po_cnums pos)).
(** dilation.py:87-102  [divide]; the generator is collected in a list.
    A negative index (orig_cnum, for a cnum out of range) is None. *)
Definition piece_divide (c : curve) (pnum : nat) (pos : position) : option (list (curve * position)) :=
  match rev (po_cnums pos) with
  | [] => None
  | lst :: init =>
      match get_deep_spec c pnum (map Z.of_nat (rev init)) with
      | None => None
      | Some prev =>
          let orig := apply_cnum (sp_bm prev) (Z.of_nat (cv_genus c)) (Z.of_nat lst) in
          if (orig <? 0)%Z then None
          else
            let orig_cnum := Z.to_nat orig in
            match gen_allowed_specs c (sp_pnum prev) orig_cnum with
            | None => None
            | Some specs =>
                option_map (@concat _) (omap (fun s : spec =>
                  match specify c (sp_pnum prev) orig_cnum s, nth_error (cv_pats c) (sp_pnum s) with
                  | Some c', Some pat =>
                      omap (fun nq : nat * option (list Z) => option_map (fun q => (c', po_specify pos (fst nq) q)) (snd nq))
                           (enumerate (pr_cubes (pr_mul (bm_mul (sp_bm prev) (sp_bm s)) (pat_proto pat))))
                  | _, _ => None
                  end) specs)
            end
      end
  end.

(** dilation.py:105-145  [_CurvePiecePair] *)
Record piece_pair : Type := PP { pp_curve : curve; pp_junc : junction; pp_pos1 : position; pp_pos2 : position }.
(** dilation.py:118-125  [init_first_order] *)
Definition first_pos (c : curve) (pnum cnum : nat) : option position :=
  match nth_error (cv_pats c) pnum with
  | Some pat => match nth_error (pr_cubes (pat_proto pat)) cnum with
                | Some (Some cube) => Some (Pos (cv_dim c) (cv_div c) [cnum] [cube])
                | _ => None
                end
  | None => None
  end.
(** dilation.py:118-125  (part of) *)
Definition init_first_order (c : curve) (j : junction) (cnum1 cnum2 : nat) : option piece_pair :=
  match first_pos c (sp_pnum (j_spec1 j)) cnum1, first_pos c (sp_pnum (j_spec2 j)) cnum2 with
  | Some p1, Some p2 => Some (PP c j p1 p2)
  | _, _ => None
  end.
(** dilation.py:130-134  [depth] *)
Definition pp_depth (p : piece_pair) : nat := Nat.min (po_depth (pp_pos1 p)) (po_depth (pp_pos2 p)).
(** dilation.py:136-145  [divide_balanced] *)
Definition divide_balanced (p : piece_pair) : option (list piece_pair) :=
  if Nat.ltb (po_depth (pp_pos2 p)) (po_depth (pp_pos1 p))
  then option_map (map (fun cp => PP (fst cp) (pp_junc p) (pp_pos1 p) (snd cp))) (piece_divide (pp_curve p) (sp_pnum (j_spec2 (pp_junc p))) (pp_pos2 p))
  else option_map (map (fun cp => PP (fst cp) (pp_junc p) (snd cp) (pp_pos2 p))) (piece_divide (pp_curve p) (sp_pnum (j_spec1 (pp_junc p))) (pp_pos1 p)).

(** dilation.py:287-293  argmax *)
Record argmax : Type := AM {
  am_x1 : list Qc; am_t1 : Qc; am_x2 : list Qc; am_t2 : Qc; am_junc : junction; am_pos1 : position; am_pos2 : position }.

(** A ratio function ratio(dim, dx, dt) given to the Estimator (dilation.py:169-184); an exception is None.
    The arguments that are ints in Python are integers in Qc here. *)
Definition ratio_func : Type := nat -> list Qc -> Qc -> option Qc.

(** dilation.py:263: per coordinate, max(|x1 - x2 + 1|, |x1 - x2 - mx2|) *)
Definition max_dxs (mx2 : Z) (x1 x2 : list Z) : list Z :=
  map (fun p : Z * Z => Z.max (Z.abs (fst p - snd p + 1)) (Z.abs (fst p - snd p - mx2))) (combine x1 x2).
(** a point relative to an integer position: lines 278-281 *)
Definition shift_pt (x : list Z) (t : Z) (p : list Qc * Qc) : list Qc * Qc :=
  (map (fun xp => (Zq (fst xp) + snd xp)%Qc) (combine x (fst p)), (Zq t + snd p)%Qc).
(** dilation.py:206-295  [_get_pos_bounds] (its lru_cache is modelled in M_Session.v).
    [Fraction(x1j, mx)] with mx = N**depth > 0. *)
Definition scale_pos (N : Z) (dim depth1 depth2 : nat) (x2 : list Z) (t2 : Z) (pts2 : list (list Qc * Qc))
  : option (Z * Z * list Z * Z * list (list Qc * Qc)) :=
  if Nat.eqb depth1 depth2 then Some (1%Z, 1%Z, x2, t2, pts2)
  else if Nat.eqb depth1 (depth2 + 1) then
    let mx2 := N in let mt2 := (N ^ Z.of_nat dim)%Z in
    Some (mx2, mt2, map (fun x => (x * mx2)%Z) x2, (t2 * mt2)%Z, map (cp_scale (Zq mx2)) pts2)
  else None.
(** dilation.py:206-295  (part of) *)
Definition point_step (ratio : ratio_func) (dim : nat) (mx mt : Z) (j : junction) (pos1 pos2 : position)
    (acc : option (Qc * option argmax)) (pq : (list Qc * Qc) * (list Qc * Qc)) : option (Qc * option argmax) :=
  match acc with
  | None => None
  | Some (lo, am) =>
      let p := fst pq in let q := snd pq in
      match ratio dim (map (fun xy => (fst xy - snd xy)%Qc) (combine (fst p) (fst q))) (snd q - snd p)%Qc with
      | None => None
      | Some lp =>
          if qltb lo lp || match am with None => true | Some _ => false end
          then Some (lp, Some (AM (map (fun x => (x / Zq mx)%Qc) (fst p)) (snd p / Zq mt)%Qc
                                  (map (fun x => (x / Zq mx)%Qc) (fst q)) (snd q / Zq mt)%Qc j pos1 pos2))
          else Some (lo, am)
      end
  end.
(** dilation.py:214-295  the method after the calls of [get_int_coords] (lines 222-223), with their results *)
Definition pos_bounds_at (ratio : ratio_func) (j : junction) (pos1 pos2 : position) (pts1 pts2 : list (list Qc * Qc)) (xt1 xt2 : list Z * Z)
  : option (Qc * Qc * option argmax) :=
  let dim := po_dim pos1 in let N := Z.of_nat (po_div pos1) in
  let use_points := negb (Nat.eqb (length pts1) 0) && negb (Nat.eqb (length pts2) 0) in
  let div1 := (N ^ Z.of_nat (po_depth pos1))%Z in let genus1 := (div1 ^ Z.of_nat dim)%Z in
  let div2 := (N ^ Z.of_nat (po_depth pos2))%Z in let genus2 := (div2 ^ Z.of_nat dim)%Z in
  let b1 := sp_bm (j_spec1 j) in let b2 := sp_bm (j_spec2 j) in
  let x1 := apply_cube b1 div1 (fst xt1) in let t1 := apply_cnum b1 genus1 (snd xt1) in
  let x2 := apply_cube b2 div2 (fst xt2) in let t2 := apply_cnum b2 genus2 (snd xt2) in
  match scale_pos N dim (po_depth pos1) (po_depth pos2) x2 t2 (map (cp_mul b2) pts2) with
  | None => None
  | Some (mx2, mt2, x2, t2, qts2) =>
      let mx := div1 in let mt := genus1 in
      let x2 := map (fun xd => (fst xd + snd xd * mx)%Z) (combine x2 (j_dx j)) in
      let t2 := (t2 + j_dt j * mt)%Z in
      let max_dx := map Zq (max_dxs mx2 x1 x2) in
      let max_dt := (t2 + mt2 - t1)%Z in
      let min_dt := (t2 - (t1 + 1))%Z in
      match ratio dim max_dx (Zq max_dt), ratio dim max_dx (Zq min_dt) with
      | Some lo, Some up =>
          if use_points then
            option_map (fun r => (fst r, up, snd r))
              (fold_left (point_step ratio dim mx mt j pos1 pos2)
                 (list_prod (map (shift_pt x1 t1) (map (cp_mul b1) pts1)) (map (shift_pt x2 t2) qts2)) (Some (lo, None)))
          else Some (lo, up, None)
      | _, _ => None
      end
  end.

(** dilation.py:206-295  [_get_pos_bounds] without its cache (the cache is in M_Session.v) *)
Definition get_pos_bounds (ratio : ratio_func) (j : junction) (pos1 pos2 : position) (pts1 pts2 : list (list Qc * Qc))
  : option (Qc * Qc * option argmax) := pos_bounds_at ratio j pos1 pos2 pts1 pts2 (po_coords pos1) (po_coords pos2).

(** The stash of a tree: the points of each pattern (dilation.py:390-399), or None. *)
Definition stash : Type := option (list (list (list Qc * Qc))).
(** dilation.py:186-204  [_get_bounds] *)
Definition get_bounds (ratio : ratio_func) (p : piece_pair) (st : stash) : option (Qc * Qc * option argmax) :=
  match st with
  | None => get_pos_bounds ratio (pp_junc p) (pp_pos1 p) (pp_pos2 p) [] []
  | Some pts =>
      match last_spec (pp_curve p) (sp_pnum (j_spec1 (pp_junc p))) (pp_pos1 p), last_spec (pp_curve p) (sp_pnum (j_spec2 (pp_junc p))) (pp_pos2 p) with
      | Some s1, Some s2 =>
          match nth_error pts (sp_pnum s1), nth_error pts (sp_pnum s2) with
          | Some l1, Some l2 => get_pos_bounds ratio (pp_junc p) (pp_pos1 p) (pp_pos2 p) (map (cp_mul (sp_bm s1)) l1) (map (cp_mul (sp_bm s2)) l2)
          | _, _ => None
          end
      | _, _ => None
      end
  end.

(** dilation.py:148-152  [_BoundedPair] *)
Record bpair : Type := BP { bp_lo : Qc; bp_up : Qc; bp_pair : piece_pair; bp_argmax : option argmax }.
(** dilation.py:148-152  (part of) *)
Definition tree : Type := bheap bpair.

Section Estimator.
Context (ratio : ratio_func) (hq : heap_impl bpair).

(** dilation.py:336-339  [_push_tree] *)
Definition push_tree (st : stash) (t : tree) (p : piece_pair) : option tree :=
  match get_bounds ratio p st with
  | Some (lo, up, am) => Some (bh_push bp_lo bp_up hq t (BP lo up p am))
  | None => None
  end.
(** dilation.py:336-339  (part of) *)
Definition push_all (st : stash) (t : tree) (ps : list piece_pair) : option tree :=
  fold_left (fun acc p => obind acc (fun t => push_tree st t p)) ps (Some t).
(** Curve.gen_regular_junctions (curves.py:610-612) or, for a fuzzy curve, the keys of get_junction_templates
    (curves.py:519-521); a generator that does not end within the fuel is None. *)
Definition regular_junctions (fuel : nat) (c : curve) : option (list junction) :=
  match cv_kind c with
  | KCurve => match gen_regular_junctions fuel c with (js, GDone) => Some js | _ => None end
  | _ => option_map (map fst) (get_junction_templates fuel c)
  end.
(** dilation.py:304-334  [_create_tree] *)
Definition pair_data (c : curve) (js : list junction) : list (junction * nat * nat) :=
  let G := cv_genus c in
  flat_map (fun j => flat_map (fun cnum1 => map (fun cnum2 => (j, cnum1, cnum2)) (seq (cnum1 + 2) (G - (cnum1 + 2)))) (range G)) (gen_auto_junctions c) ++
  flat_map (fun j =>
     let last_cnum1 := if time_rev (sp_bm (j_spec1 j)) then 0 else G - 1 in
     let first_cnum2 := if time_rev (sp_bm (j_spec2 j)) then G - 1 else 0 in
     map (fun cc => (j, fst cc, snd cc)) (filter (fun cc => negb (pc_eqb cc (last_cnum1, first_cnum2))) (list_prod (range G) (range G)))) js.
(** dilation.py:304-334  (part of) *)
Definition create_tree (fuel : nat) (c : curve) (good bad : option Qc) (keep : bool) (st : stash) : option tree :=
  match regular_junctions fuel c with
  | None => None
  | Some js =>
      fold_left (fun acc jcc => obind acc (fun t =>
          match init_first_order c (fst (fst jcc)) (snd (fst jcc)) (snd jcc) with
          | Some p => push_tree st t p
          | None => None
          end)) (pair_data c js) (Some (bh_new good bad keep))
  end.
(** dilation.py:341-345  [_divide_tree] *)
Definition divide_tree (st : stash) (t : tree) : option tree :=
  match bh_pop hq t with
  | Some (worst, t') => obind (divide_balanced (bp_pair worst)) (push_all st t')
  | None => None
  end.
(** dilation.py:357-360  [_forbid] *)
Definition forbid (t : tree) (a : adapter) : tree * adapter :=
  let '(items, t') := bh_pop_bad t in
  (t', fold_left (fun a i => add_forbid a (pp_junc (bp_pair i)) (pp_curve (bp_pair i))) items a).

(** dilation.py:391-398: sorted set of the first and last moments of all faces, for each pattern. *)
Definition cp_eqb (p q : list Qc * Qc) : bool := pt_eqb (fst p) (fst q) && Qc_eq_bool (snd p) (snd q).
(** curves.py:828-838  order of CurvePoints (NamedTuple), used by sorted in dilation.py:391-398 *)
Definition cp_cmp : list Qc * Qc -> list Qc * Qc -> comparison := lex2 pt_cmp Qccompare.
(** dilation.py:391-398  (part of) *)
Definition face_points (c : curve) (face_dim : nat) : option (list (list (list Qc * Qc))) :=
  match gen_faces (cv_dim c) face_dim with
  | None => None
  | Some faces =>
      omap (fun p => option_map (fun l => sorted cp_cmp (dedup cp_eqb l))
                       (omap (fun fl => get_face_moment_point c (fst fl) (Some p) (snd fl)) (list_prod faces [false; true])))
           (range (cv_mult c))
  end.
(** Fraction(r + 1, r); ZeroDivisionError is None *)
Definition tolerance_of (r : Z) : option Qc := frac (Zq (r + 1)) (Zq r).

(** dilation.py:362-457  [estimate_dilation_regular]; result (lo, up, argmax). [face_dim]: None if use_face_moments is False. *)
Fixpoint regular_loop (fuel : nat) (st : stash) (tol : option Qc) (max_iter max_depth : option Z)
    (t : tree) (lo up : Qc) (am : option argmax) (iter_no : Z) : option (Qc * Qc * option argmax) :=
  match fuel with
  | 0 => None
  | S fuel' =>
      let iter_no := (iter_no + 1)%Z in
      if match tol with Some tl => qleb up (lo * tl)%Qc | None => false end then Some (lo, up, am)
      else if match max_iter with Some m => (m <? iter_no)%Z | None => false end then Some (lo, up, am)
      else if match max_depth with Some m => forallb (fun i => (m <? Z.of_nat (pp_depth (bp_pair i)))%Z) (bh_items t) | None => false end
      then Some (lo, up, am)
      else
        match divide_tree st t with
        | None => None
        | Some t1 =>
            match bh_max t1 with
            | None => None
            | Some item =>
                let better := qltb lo (bp_lo item) in
                match (if better then bh_update bp_lo bp_up hq t1 (bp_lo item) else Some t1) with
                | None => None
                | Some t2 =>
                    let lo' := if better then bp_lo item else lo in
                    let am' := if better then bp_argmax item else am in
                    match bh_top t2 with
                    | None => None
                    | Some top => regular_loop fuel' st tol max_iter max_depth t2 lo' (if qltb (bp_up top) up then bp_up top else up) am' iter_no
                    end
                end
            end
        end
  end.
(** dilation.py:362-457  (part of) *)
Definition estimate_dilation_regular (fuel : nat) (c : curve) (rel_tol_inv max_iter : option Z) (face_dim : option nat) (max_depth : option Z)
  : option (Qc * Qc * option argmax) :=
  match match face_dim with None => Some None | Some fd => option_map Some (face_points c fd) end,
        match rel_tol_inv with None => Some None | Some r => option_map Some (tolerance_of r) end with
  | Some st, Some tol =>
      match create_tree fuel c None None true st with
      | None => None
      | Some t =>
          match bh_max t with
          | None => None
          | Some item =>
              match bh_update bp_lo bp_up hq t (bp_lo item) with
              | None => None
              | Some t1 => match bh_top t1 with
                           | None => None
                           | Some top => regular_loop fuel st tol max_iter max_depth t1 (bp_lo item) (bp_up top) (bp_argmax item) 0
                           end
              end
          end
      end
  | _, _ => None
  end.

(** dilation.py:459-551  [bisect_dilation_fuzzy]. Outcomes: a curve, None, the exception _RunOutOfIterations, another
    exception (or the fuel is exhausted). [sched] is [sat_iter -> int(sat_iter * sat_iter_multiplier) + 1], an
    arbitrary function here. [call]: number of calls of the solver so far (in the life of the estimator); the second
    component of the result is the new number. *)
Inductive bisect_result : Type := BFound (c : curve) | BNone | BOutOfIter | BError.
(** dilation.py:459-551  (part of) *)
Definition finish (solver : sat_solver) (a : adapter) (call : nat) : bisect_result * nat :=
  (match ad_solve solver call a with
   | None => BNone
   | Some m => match get_model_curve a m with Some c => BFound c | None => BError end
   end, S call).
(** dilation.py:459-551  (part of) *)
Fixpoint bisect_loop (fuel : nat) (solver : sat_solver) (sched : Z -> Z) (max_iter : option Z)
    (t : tree) (a : adapter) (iter_no sat_iter : Z) (call : nat) : bisect_result * nat :=
  match bh_items t with
  | [] => finish solver a call
  | _ =>
      match fuel with
      | 0 => (BError, call)
      | S fuel' =>
          let iter_no := (iter_no + 1)%Z in
          if match max_iter with Some m => (m <? iter_no)%Z | None => false end then (BOutOfIter, call)
          else
            match divide_tree None t with
            | None => (BError, call)
            | Some t1 =>
                let '(t2, a2) := forbid t1 a in
                if (iter_no <? sat_iter)%Z then bisect_loop fuel' solver sched max_iter t2 a2 iter_no sat_iter call
                else match ad_solve solver call a2 with
                     | None => (BNone, S call)
                     | Some _ => bisect_loop fuel' solver sched max_iter t2 a2 iter_no (sched sat_iter) (S call)
                     end
            end
      end
  end.
(** dilation.py:459-551  (part of) *)
Definition bisect_dilation_fuzzy (fuel : nat) (solver : sat_solver) (sched : Z -> Z) (max_iter : option Z) (c : curve) (good bad : Qc)
    (init_tree : option tree) (init_adapter : option adapter) (call : nat) : bisect_result * nat :=
  match match init_tree with
        | None => create_tree fuel c (Some good) (Some bad) false None
        | Some t => bh_copy bp_lo bp_up hq t (Some good) (Some bad)
        end,
        match init_adapter with
        | None => ad_load fuel c
        | Some a => Some (ad_copy a)
        end with
  | Some t, Some a => let '(t1, a1) := forbid t a in bisect_loop fuel solver sched max_iter t1 a1 0 1 call
  | _, _ => (BError, call)
  end.

(** dilation.py:553-655  [estimate_dilation_fuzzy]; result (curve, lo, up) and the number of solver calls. The curve is
    None only if start_upper_bound is given without start_curve. *)
Definition third (a b : Z) (lo up : Qc) : Qc := ((Zq a / Zq 3) * lo + (Zq b / Zq 3) * up)%Qc.
(** dilation.py:553-655  (part of) *)
Fixpoint fuzzy_loop (fuel : nat) (solver : sat_solver) (sched : Z -> Z) (max_iter : option Z) (c : curve) (tol : Qc) (stop : option Qc)
    (t : tree) (a : adapter) (cur : option curve) (lo up : Qc) (call : nat) : option (option curve * Qc * Qc * nat) :=
  if qltb (lo * tol)%Qc up then
    match fuel with
    | 0 => None
    | S fuel' =>
        let zero := Qc_eq_bool lo 0%Qc in
        let test_lo := if zero then (Zq 1 / Zq 2 * up)%Qc else third 2 1 lo up in
        let test_up := if zero then (Zq 2 / Zq 3 * up)%Qc else third 1 2 lo up in
        let next cur lo up call :=
          if match stop with Some s => qltb s lo | None => false end then Some (cur, lo, up, call)
          else fuzzy_loop fuel' solver sched max_iter c tol stop t a cur lo up call in
        match bisect_dilation_fuzzy fuel solver sched max_iter c test_up test_lo (Some t) (Some a) call with
        | (BError, _) => None
        | (BOutOfIter, call') => Some (cur, lo, up, call')
        | (BFound x, call') => next (Some x) lo test_up call'
        | (BNone, call') => next cur test_lo up call'
        end
    end
  else Some (cur, lo, up, call).
(** dilation.py:553-655  (part of) *)
Definition estimate_dilation_fuzzy (fuel : nat) (solver : sat_solver) (sched : Z -> Z) (max_iter : option Z) (c : curve)
    (rel_tol_inv : Z) (stop start_lo start_up : option Qc) (start_curve : option curve) (call : nat) : option (option curve * Qc * Qc * nat) :=
  let lo := match start_lo with None => 0%Qc | Some l => l end in
  match match start_up with
        | None => match get_curve_example c with
                  | Some c0 => match estimate_dilation_regular fuel c0 (Some rel_tol_inv) None None None with
                               | Some (_, up, _) => Some (Some c0, up)
                               | None => None
                               end
                  | None => None
                  end
        | Some u => Some (start_curve, u)
        end, create_tree fuel c None None false None, ad_load fuel c, tolerance_of rel_tol_inv with
  | Some (cur, up), Some t, Some a, Some tol => fuzzy_loop fuel solver sched max_iter c tol stop t a cur lo up call
  | _, _, _, _ => None
  end.
End Estimator.

(** dilation.py:688-693  CurveItem (priority is -lo; the tuples are compared by priority and idx). *)
Record citem : Type := CI { ci_idx : nat; ci_lo : option Qc; ci_up : option Qc; ci_curve : curve; ci_example : option curve }.
(** dilation.py:739-741: cleanup of the heap; [fuel] is the number of its nodes *)
Fixpoint seq_cleanup (fuel : nat) (hs : heap_impl citem) (up : Qc) (h : list (node citem)) : option (list (node citem)) :=
  match hd_error h with
  | Some n => if match ci_lo (nd_item n) with Some lo => qltb up lo | None => false end then
                match fuel with
                | 0 => None
                | S fuel' => match hq_pop hs h with Some (_, h') => seq_cleanup fuel' hs up h' | None => None end
                end
              else Some h
  | None => Some h
  end.
Section Sequence.
Context (ratio : ratio_func) (hq : heap_impl bpair) (hs : heap_impl citem).
(** dilation.py:714-743: one item of the loop over [active]; state: (curr_up, new_active, solver calls) *)
Definition seq_step (fuel : nat) (solver : sat_solver) (sched : Z -> Z) (max_iter : option Z) (rel_tol_inv : Z)
    (st : option Qc * list (node citem) * nat) (it : citem) : option (option Qc * list (node citem) * nat) :=
  let '(curr_up, new_active, call) := st in
  match estimate_dilation_fuzzy ratio hq fuel solver sched max_iter (ci_curve it) rel_tol_inv curr_up (ci_lo it) (ci_up it) (ci_example it) call with
  | None => None
  | Some (ex, lo, up, call') =>
      let cu := match curr_up with None => up | Some u => if qltb up u then up else u end in
      let h := if qleb lo cu then hq_push hs new_active (Nd (- lo)%Qc (ci_idx it) (CI (ci_idx it) (Some lo) (Some up) (ci_curve it) ex)) else new_active in
      option_map (fun h' => (Some cu, h', call')) (seq_cleanup (length h) hs cu h)
  end.
(** dilation.py:700-757  order of the bounds *)
Definition oq_cmp (a b : citem) : comparison := match ci_up a, ci_up b with Some x, Some y => Qccompare x y | _, _ => Eq end.
(** min(...) of a non-empty sequence *)
Definition qmin (x y : Qc) : Qc := if qltb y x then y else x.
(** dilation.py:700-757  min of the lower bounds *)
Definition min_lo (l : list citem) : option Qc :=
  match omap ci_lo l with Some (x :: xs) => Some (fold_left qmin xs x) | _ => None end.
(** dilation.py:657-757  [estimate_dilation_sequence].
    Result: None: exception or fuel exhausted; Some None: the method returns None; Some (Some (lo, up, curves, idxs)).
    [fuel] bounds the epochs and the inner loops; [mult]: rel_tol_inv_mult. count_possible_curves (called for the
    statistics only) is not modelled. *)
Fixpoint seq_loop (fuel : nat) (solver : sat_solver) (sched : Z -> Z) (max_iter : option Z) (tol : Qc) (mult : Z)
    (active : list citem) (lo : Qc) (up : option Qc) (cur_tol : Z) (call : nat) : option (option (Qc * Qc * list (option curve) * list nat)) :=
  match (match up with None => None | Some u => if qltb (lo * tol)%Qc u then None else Some u end) with
  | Some u => Some (Some (lo, u, map ci_example active, map ci_idx active))
  | None =>
      match fuel with
      | 0 => None
      | S fuel' =>
          let cur_tol := (cur_tol * mult)%Z in
          match fold_left (fun acc it => obind acc (fun st => seq_step fuel solver sched max_iter cur_tol st it)) active (Some (up, [], call)) with
          | None => None
          | Some (_, [], _) => Some None
          | Some (up', h, call') =>
              let act := sorted oq_cmp (map nd_item h) in
              match min_lo act with
              | None => None
              | Some lo' => seq_loop fuel' solver sched max_iter tol mult act lo' up' cur_tol call'
              end
          end
      end
  end.
(** dilation.py:657-757  (part of) *)
Definition estimate_dilation_sequence (fuel : nat) (solver : sat_solver) (sched : Z -> Z) (max_iter : option Z)
    (curves : list curve) (rel_tol_inv mult : Z) (upper_bound : option Qc) : option (option (Qc * Qc * list (option curve) * list nat)) :=
  match tolerance_of rel_tol_inv with
  | None => None
  | Some tol => seq_loop fuel solver sched max_iter tol mult (map (fun ic => CI (fst ic) None None (snd ic) None) (enumerate curves)) 0%Qc upper_bound 1 0
  end.
End Sequence.
