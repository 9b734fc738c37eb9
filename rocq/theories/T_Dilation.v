(** Property theorems C35, C37, C42: bounds of piece pairs, division of pieces, the estimate for regular curves. *)
From Verif Require Import Py L_Qc M_BaseMaps M_Subsets M_Paths M_Curves M_Zoo M_Utils M_Heap M_Dilation S_BaseMaps S_Subsets S_Utils S_Curves S_Fuzzy S_Heap S_Ratio S_Dilation
  L_BaseMaps P_Valid P_Ratio P_Heap P_Check P_DilPieces P_DilRegular P_DilSpec T_Fuzzy.
From Coq Require Import Reals.
Local Open Scope nat_scope.

(** C35: for two fractions that are apart in time, the computed bounds exist and enclose the ratios of the moments of the
    two fractions, for every curve the (fuzzy) curve of the pair allows; the reported argmax is a pair of points in the two
    fractions whose ratio is lo. *)
Theorem C35_bounds_enclose : forall (ratio : ratio_func) (rR : list R -> R -> R) (P : piece_pair) (x : curve) (st : stash),
  let c := pp_curve P in let j := pp_junc P in let d := cv_dim c in
  let in1 := on_piece x (j_spec1 j) (po_cnums (pp_pos1 P)) in
  let in2 := on_piece x (j_spec2 j) (po_cnums (pp_pos2 P)) in
  estimable c -> chosen_from c x -> ratio_ok d (ratio d) rR ->
  wf_spec d (cv_mult c) (j_spec1 j) -> wf_spec d (cv_mult c) (j_spec2 j) -> length (j_dx j) = d ->
  position_of c (sp_pnum (j_spec1 j)) (pp_pos1 P) -> position_of c (sp_pnum (j_spec2 j)) (pp_pos2 P) ->
  po_depth (pp_pos1 P) = po_depth (pp_pos2 P) \/ po_depth (pp_pos1 P) = po_depth (pp_pos2 P) + 1 ->
  (forall s u t w, in1 s u -> in2 t w -> (0 < junction_dt j s t)%R) ->
  st = None \/ valid_curve c /\ stash_on c st ->
  exists lo up am, get_bounds ratio P st = Some (lo, up, am) /\
    (forall s u t w, in1 s u -> in2 t w -> (junction_ratio rR d j s u t w <= qR up)%R) /\
    (exists s u t w, in1 s u /\ in2 t w /\ (qR lo <= junction_ratio rR d j s u t w)%R) /\
    (forall a, am = Some a -> am_junc a = j /\ am_pos1 a = pp_pos1 P /\ am_pos2 a = pp_pos2 P /\
       exists w, in1 (qR (am_t1 a)) (map qR (am_x1 a)) /\ in2 (qR (am_t2 a) - IZR (j_dt j))%R w /\ length (am_x2 a) = d /\
         (forall i, (i < d)%nat -> nth i (map qR (am_x2 a)) 0 = nth i w 0 + IZR (nth i (j_dx j) 0%Z))%R /\
         qR lo = rR (diffs d (map qR (am_x1 a)) (map qR (am_x2 a))) (qR (am_t2 a) - qR (am_t1 a))%R) /\
    (st = None -> am = None).
Proof. exact pair_bounds. Qed.
Print Assumptions C35_bounds_enclose.
(** C35: the shipped norms satisfy the assumption on the ratio function (ratio_l2 asserts that the dimension is even). *)
Theorem C35_norms : forall d, 1 <= d ->
  ratio_ok d (ratio_linf d) (norm_ratio norm_linf d) /\ ratio_ok d (ratio_l1 d) (norm_ratio norm_l1 d) /\
  (Nat.even d = true -> ratio_ok d (ratio_l2 d) (norm_ratio norm_l2 d)) /\
  ratio_ok d (ratio_l2_squared d) (fun dv dt => (norm_ratio norm_l2 d dv dt)²)%R.
Proof. exact norms_ok. Qed.
Print Assumptions C35_norms.

(** Two fractions of depth 2 of the Hilbert curve, with the vertex moments: all assumptions hold, and the bounds carry an argmax. *)
Example C35_example : let c := curve_or zoo_hilbert in
  let P := PP c (auto_junction 2 0) (Pos 2 2 [0; 3] [[0; 0]; [0; 1]]%Z) (Pos 2 2 [2; 1] [[1; 1]; [0; 1]]%Z) in
  exists pts, face_points c 0 = Some pts /\ stash_on c (Some pts) /\ estimable c /\ chosen_from c c /\
    wf_spec 2 1 (j_spec1 (pp_junc P)) /\ position_of c 0 (pp_pos1 P) /\ position_of c 0 (pp_pos2 P) /\
    (forall s u t w, on_piece c (j_spec1 (pp_junc P)) (po_cnums (pp_pos1 P)) s u -> on_piece c (j_spec2 (pp_junc P)) (po_cnums (pp_pos2 P)) t w -> (0 < junction_dt (pp_junc P) s t)%R) /\
    exists lo up a, get_bounds ratio_linf P (Some pts) = Some (lo, up, Some a) /\ (0 < lo)%Qc /\ (lo < up)%Qc.
Proof.
  intros c P. assert (HC : valid_curve c) by (apply valid_curveb_ok; vm_compute; reflexivity).
  destruct (face_points_stash c 0 HC (Nat.le_0_l _)) as (pts & E & HP). exists pts. split; [exact E|]. split; [exact HP|]. split; [apply dcls_curve; exact HC|]. split; [apply chosen_self; exact HC|].
  assert (W : wf_spec 2 1 (j_spec1 (pp_junc P))) by (split; [apply wf_bmb_ok; vm_compute; reflexivity|auto]).
  split; [exact W|]. split; [|split; [|split]].
  - split; [auto|]. split; [reflexivity|]. split; [reflexivity|]. exists [0], 3, [[0; 0]%Z]. do 2 eexists. exists [0; 1]%Z. repeat split; try (vm_compute; reflexivity).
  - split; [auto|]. split; [reflexivity|]. split; [reflexivity|]. exists [2], 1, [[1; 1]%Z]. do 2 eexists. exists [0; 1]%Z. repeat split; try (vm_compute; reflexivity).
  - apply apart_numbers; [exact HC|exact W|exact W| | |reflexivity|vm_compute; reflexivity]; repeat constructor; vm_compute; auto 10.
  - assert (E' : exists p, face_points c 0 = Some p) by eauto. vm_compute in E. injection E as <-. do 3 eexists. split; [vm_compute; reflexivity|]. split; vm_compute; reflexivity.
Qed.

(** C42 (and C35, C38): the curves concerned: valid curves and the fuzzy curves a user can build are estimable. *)
Theorem C42_estimable : (forall c, valid_curve c -> estimable c /\ chosen_from c c) /\
  forall d N group no_time_rev paths c, valid_group d group -> valid_paths d N paths -> built group no_time_rev paths c -> estimable c.
Proof. exact estimable_curves. Qed.
Print Assumptions C42_estimable.
(** C42: dividing a piece gives, for every curve chosen from the piece's curve, each fraction of the next depth in exactly
    one of the parts, and every part is a fraction of the next depth of a narrower curve. *)
Theorem C42_divide_piece : forall c p pos, estimable c -> position_of c p pos -> exists l, piece_divide c p pos = Some l /\
  Forall (fun cp => part_of c p pos (fst cp) (snd cp)) l /\
  forall x k, chosen_from c x -> k < cv_genus c ->
    exists i cp, nth_error l i = Some cp /\ chosen_from (fst cp) x /\ po_cnums (snd cp) = po_cnums pos ++ [k] /\
      forall i' cp', nth_error l i' = Some cp' -> chosen_from (fst cp') x -> po_cnums (snd cp') = po_cnums pos ++ [k] -> i' = i.
Proof. exact divide_exact. Qed.
Print Assumptions C42_divide_piece.
(** C42: dividing a pair divides its shallower piece (the first one if the depths are equal). *)
Theorem C42_divide_pair : forall P, estimable (pp_curve P) ->
  position_of (pp_curve P) (sp_pnum (j_spec1 (pp_junc P))) (pp_pos1 P) -> position_of (pp_curve P) (sp_pnum (j_spec2 (pp_junc P))) (pp_pos2 P) ->
  let first := Nat.leb (po_depth (pp_pos1 P)) (po_depth (pp_pos2 P)) in
  let other P := if first then pp_pos2 P else pp_pos1 P in
  let divided P := if first then pp_pos1 P else pp_pos2 P in
  let pn1 := sp_pnum (j_spec1 (pp_junc P)) in let pn2 := sp_pnum (j_spec2 (pp_junc P)) in
  exists l, divide_balanced P = Some l /\
    Forall (fun P' => pp_junc P' = pp_junc P /\ other P' = other P /\
                      part_of (pp_curve P) (if first then pn1 else pn2) (divided P) (pp_curve P') (divided P') /\
                      position_of (pp_curve P') (if first then pn2 else pn1) (other P')) l /\
    forall x k, chosen_from (pp_curve P) x -> k < cv_genus (pp_curve P) ->
      exists i P', nth_error l i = Some P' /\ chosen_from (pp_curve P') x /\ po_cnums (divided P') = po_cnums (divided P) ++ [k] /\
        forall i' P'', nth_error l i' = Some P'' -> chosen_from (pp_curve P'') x -> po_cnums (divided P'') = po_cnums (divided P) ++ [k] -> i' = i.
Proof. exact divide_pair_exact. Qed.
Print Assumptions C42_divide_pair.
(** C42: the integer coordinates of a position continued by the fraction k with the cube: nested in those of the position. *)
Theorem C42_nested : forall d N pos pos' k cube, po_dim pos = d -> po_div pos = N -> po_dim pos' = d -> po_div pos' = N -> 1 <= N ->
  po_cnums pos' = po_cnums pos ++ [k] -> po_cubes pos' = po_cubes pos ++ [cube] -> k < N ^ d -> grid_cube d N cube ->
  (snd (po_coords pos') = snd (po_coords pos) * Z.of_nat (N ^ d) + Z.of_nat k)%Z /\
  length (fst (po_coords pos')) = d /\
  forall i, i < d ->
    (Z.of_nat N * nth i (fst (po_coords pos)) 0 <= nth i (fst (po_coords pos')) 0 < Z.of_nat N * (nth i (fst (po_coords pos)) 0 + 1))%Z /\
    nth i (fst (po_coords pos')) 0%Z = (Z.of_nat N * nth i (fst (po_coords pos)) 0 + nth i cube 0)%Z.
Proof. exact coords_nested. Qed.
Print Assumptions C42_nested.
(** C42: the positions of depth n of a pattern: exactly one for every time number below genus^n, *)
Theorem C42_times_bijective : forall c p n T, valid_curve c -> p < cv_mult c -> 1 <= n -> (0 <= T < Z.of_nat (cv_genus c) ^ Z.of_nat n)%Z ->
  exists pos, (position_of c p pos /\ po_depth pos = n /\ snd (po_coords pos) = T) /\
    forall pos', position_of c p pos' -> po_depth pos' = n -> snd (po_coords pos') = T -> pos' = pos.
Proof. exact positions_time. Qed.
Print Assumptions C42_times_bijective.
(** and exactly one for every cube of the div^n grid. *)
Theorem C42_cubes_bijective : forall c p n q, valid_curve c -> p < cv_mult c -> 1 <= n -> grid_cube (cv_dim c) (cv_div c ^ n) q ->
  exists pos, (position_of c p pos /\ po_depth pos = n /\ fst (po_coords pos) = q) /\
    forall pos', position_of c p pos' -> po_depth pos' = n -> fst (po_coords pos') = q -> pos' = pos.
Proof. exact positions_cube. Qed.
Print Assumptions C42_cubes_bijective.
(** C42: and all coordinates are in these ranges. *)
Theorem C42_ranges : forall c p pos, valid_curve c -> position_of c p pos ->
  (0 <= snd (po_coords pos) < Z.of_nat (cv_genus c) ^ Z.of_nat (po_depth pos))%Z /\ grid_cube (cv_dim c) (cv_div c ^ po_depth pos) (fst (po_coords pos)).
Proof. exact position_ranges. Qed.
Print Assumptions C42_ranges.

(** A fuzzy curve: dividing its fraction 0 gives, for each of the two allowed specs, the four fractions of the next depth. *)
Example C42_example : estimable hilbert_fuzzy /\ position_of hilbert_fuzzy 0 (Pos 2 2 [0] [[0; 0]]%Z) /\
  option_map (@length _) (piece_divide hilbert_fuzzy 0 (Pos 2 2 [0] [[0; 0]]%Z)) = Some 8.
Proof.
  split; [|split; [|vm_compute; reflexivity]].
  - destruct C25_example as (HG & HP & E & _). apply (proj2 C42_estimable 2 2 None false hilbert_paths); auto. apply built_init; auto.
  - split; [vm_compute; auto|]. split; [reflexivity|]. split; [reflexivity|]. exists [], 0, []. do 2 eexists. exists [0; 0]%Z. split; [reflexivity|]. split; [reflexivity|]. split; [vm_compute; reflexivity|]. split; vm_compute; reflexivity.
Qed.

(** C37: whatever the limits, the tolerance and the face moments, a returned interval encloses the dilation; without limits
    up <= lo * (1 + 1/rel_tol_inv); a reported argmax is a pair of points with ratio lo. *)
Theorem C37_regular_encloses : forall hq, heapq_ok hq -> forall (ratio : ratio_func) (rR : list R -> R -> R) c fuel rel_tol_inv max_iter face_dim max_depth lo up am,
  valid_curve c -> ratio_ok (cv_dim c) (ratio (cv_dim c)) rR ->
  match face_dim with Some f => f <= cv_dim c | None => True end ->
  estimate_dilation_regular ratio hq fuel c rel_tol_inv max_iter face_dim max_depth = Some (lo, up, am) ->
  dilation_le rR c (qR up) /\ dilation_ge rR c (qR lo) /\
  (forall r, rel_tol_inv = Some r -> (0 < r)%Z -> max_iter = None -> max_depth = None -> (qR up * IZR r <= qR lo * IZR (r + 1))%R) /\
  forall a, am = Some a -> In (am_junc a) (gen_auto_junctions c ++ fst (gen_regular_junctions fuel c)) /\ argmax_attains rR c lo a.
Proof. exact regular_spec. Qed.
Print Assumptions C37_regular_encloses.

(** The Hilbert curve: the estimate with face moments returns an interval with an argmax; without them too. *)
Example C37_example : let c := curve_or zoo_hilbert in
  valid_curve c /\ heapq_ok (@sorted_hq bpair) /\ ratio_ok 2 (ratio_linf 2) (norm_ratio norm_linf 2) /\
  (exists lo up a, estimate_dilation_regular ratio_linf sorted_hq 200 c (Some 2%Z) None (Some 0) None = Some (lo, up, Some a) /\ (0 < lo)%Qc) /\
  (exists lo up, estimate_dilation_regular ratio_linf sorted_hq 200 c None (Some 3%Z) None None = Some (lo, up, None) /\ (0 < lo)%Qc).
Proof.
  split; [apply valid_curveb_ok; vm_compute; reflexivity|]. split; [exact sorted_hq_ok|]. split; [apply norms_ok; auto|]. split.
  - do 3 eexists. split; [vm_compute; reflexivity|]. vm_compute; reflexivity.
  - do 2 eexists. split; [vm_compute; reflexivity|]. vm_compute; reflexivity.
Qed.
