(** Specification vocabulary for dilation estimates. *)
From Verif Require Import Py M_BaseMaps M_Curves M_Heap M_Sat M_Dilation S_Subsets S_Utils S_Curves S_Fuzzy.
From Coq Require Import Reals.
Local Open Scope R_scope.

(** Coordinate differences of two points, the second one shifted by an integer vector v. *)
Definition diffs (d : nat) (u w : list R) : list R := map (fun i => nth i u 0 - nth i w 0) (seq 0 d).
Definition diffs_shifted (d : nat) (v : list Z) (u w : list R) : list R := map (fun i => nth i u 0 - (nth i w 0 + IZR (nth i v 0%Z))) (seq 0 d).

(** Dilation of a curve with respect to a ratio function: the supremum of ratio(g(s) - g(t), t - s) over all moments s < t
    of all patterns.  It is at most M; it is at least m. *)
Definition dilation_le (rR : list R -> R -> R) (c : curve) (M : R) : Prop :=
  forall p s t u w, (p < cv_mult c)%nat -> graph (pattern_curve c p) s u -> graph (pattern_curve c p) t w -> s < t ->
    rR (diffs (cv_dim c) u w) (t - s) <= M.
Definition dilation_ge (rR : list R -> R -> R) (c : curve) (m : R) : Prop :=
  exists p s t u w, (p < cv_mult c)%nat /\ graph (pattern_curve c p) s u /\ graph (pattern_curve c p) t w /\ s < t /\
    m <= rR (diffs (cv_dim c) u w) (t - s).

(** The fraction of the transformed curve S*c whose number in the untransformed pattern is cnums (under a time reversal
    the digits are counted from the end), and a moment and point (s, u) of it: the curve f in the fraction, scaled and
    put to its place. *)
Definition on_piece (c : curve) (S : spec) (cnums : list nat) (s : R) (u : list R) : Prop :=
  let cs := map (flip_num (sp_bm S) (cv_genus c)) cnums in
  length u = cv_dim c /\
  exists cubes f s0 u0, walk (cv_mul_sp S c) cs = Some (cubes, f) /\ graph f s0 u0 /\
    s * IZR (Z.of_nat (cv_genus c)) ^ length cs = IZR (value (Z.of_nat (cv_genus c)) (map Z.of_nat cs)) + s0 /\
    forall i, (i < cv_dim c)%nat -> nth i u 0 * IZR (Z.of_nat (cv_div c)) ^ length cs = IZR (place_of i (cv_div c) cubes) + nth i u0 0.
(** A junction puts spec1*c into the unit cube and the times [0,1], and spec2*c into the cube shifted by delta_x and the
    times shifted by delta_t; the ratio of a moment of the first and a moment of the second. *)
Definition junction_dt (j : junction) (s t : R) : R := t + IZR (j_dt j) - s.
Definition junction_ratio (rR : list R -> R -> R) (d : nat) (j : junction) (s : R) (u : list R) (t : R) (w : list R) : R :=
  rR (diffs_shifted d (j_dx j) u w) (junction_dt j s t).

(** Curves an estimator can work with: a fuzzy curve with at least one allowed spec at every position, none twice.
    Valid curves and the curves built from paths are of this kind. *)
Definition estimable (c : curve) : Prop := valid_fuzzy c /\
  forall p k, (p < cv_mult c)%nat -> (k < cv_genus c)%nat -> exists l, gen_allowed_specs c p k = Some l /\ NoDup l /\ l <> [] /\ forall s, In s l -> wf_spec (cv_dim c) (cv_mult c) s.
(** pos is the position of a fraction of pattern p of c: descending to it, through defined specs, the cubes met are those
    of pos; the spec of the fraction itself need not be defined. *)
Definition position_of (c : curve) (p : nat) (pos : position) : Prop :=
  (p < cv_mult c)%nat /\ po_dim pos = cv_dim c /\ po_div pos = cv_div c /\
  exists init lst cubes f pat cube, po_cnums pos = init ++ [lst] /\ po_cubes pos = cubes ++ [cube] /\
    walk (pattern_curve c p) init = Some (cubes, f) /\ cv_pattern f = Some pat /\ nth_error (pr_cubes (pat_proto pat)) lst = Some (Some cube).
(** Points for better lower bounds: none, or for each pattern some rational points (x, t) of its graph. *)
Definition stash_on (c : curve) (st : stash) : Prop := match st with
  | None => True
  | Some pts => length pts = cv_mult c /\
      forall p l x t, nth_error pts p = Some l -> In (x, t) l -> graph (pattern_curve c p) (qR t) (map qR x)
  end.
(** The two points of an argmax: moments of spec1*c and of spec2*c, the latter moved by the junction, in that order, and
    lo is their ratio. *)
Definition argmax_attains (rR : list R -> R -> R) (c : curve) (lo : Qc) (a : argmax) : Prop :=
  let j := am_junc a in
  exists w, graph (cv_mul_sp (j_spec1 j) c) (qR (am_t1 a)) (map qR (am_x1 a)) /\
    graph (cv_mul_sp (j_spec2 j) c) (qR (am_t2 a) - IZR (j_dt j)) w /\
    length (am_x2 a) = cv_dim c /\
    (forall i, (i < cv_dim c)%nat -> nth i (map qR (am_x2 a)) 0 = nth i w 0 + IZR (nth i (j_dx j) 0%Z)) /\
    qR (am_t1 a) < qR (am_t2 a) /\
    qR lo = rR (diffs (cv_dim c) (map qR (am_x1 a)) (map qR (am_x2 a))) (qR (am_t2 a) - qR (am_t1 a)).
(** c' with position pos' is a part of c with position pos (in pattern p): the curves chosen from c' are chosen from c and
    pos' continues pos by one fraction. *)
Definition part_of (c : curve) (p : nat) (pos : position) (c' : curve) (pos' : position) : Prop :=
  estimable c' /\ position_of c' p pos' /\ (forall x, chosen_from c' x -> chosen_from c x) /\
  exists k cube, (k < cv_genus c)%nat /\ po_cnums pos' = po_cnums pos ++ [k] /\ po_cubes pos' = po_cubes pos ++ [cube] /\ grid_cube (cv_dim c) (cv_div c) cube.

(** The optional arguments init_pairs_tree and init_sat_adapter of bisect_dilation_fuzzy: if given, the tree made without
    thresholds and the adapter made for the same curve, by the same estimator. *)
Definition cached_tree (ratio : ratio_func) (hq : heap_impl bpair) (c : curve) (it : option tree) : Prop :=
  forall t, it = Some t -> exists fuel, create_tree ratio hq fuel c None None false None = Some t.
Definition cached_adapter (c : curve) (ia : option adapter) : Prop := forall a, ia = Some a -> exists fuel, ad_load fuel c = Some a.

(** The same curve, apart from the class of the object and the selected pattern. *)
Definition same_curve (r y : curve) : Prop := cv_dim r = cv_dim y /\ cv_div r = cv_div y /\ cv_pats r = cv_pats y.
(** r is one of the curves of the fuzzy curve c and its dilation is at most M. *)
Definition possible_within (rR : list R -> R -> R) (c r : curve) (M : R) : Prop := exists y, chosen_from c y /\ same_curve r y /\ dilation_le rR y M.
(** Bounds on the minimal dilation of the curves of the fuzzy curve c. *)
Definition min_dilation_ge (rR : list R -> R -> R) (c : curve) (m : R) : Prop := forall x, chosen_from c x -> dilation_ge rR x m.
Definition min_dilation_le (rR : list R -> R -> R) (c : curve) (M : R) : Prop := exists x, chosen_from c x /\ dilation_le rR x M.
(** The start arguments of estimate_dilation_fuzzy are correct (start_curve is used only with start_upper_bound). *)
Definition correct_start (rR : list R -> R -> R) (c : curve) (start_lo start_up : option Qc) (start_curve : option curve) : Prop :=
  (forall l, start_lo = Some l -> min_dilation_ge rR c (qR l)) /\
  (forall u, start_up = Some u -> min_dilation_le rR c (qR u)) /\
  (forall u r, start_up = Some u -> start_curve = Some r -> possible_within rR c r (qR u)).

(** A fuzzy curve of dimension d that a user can build from paths. *)
Definition fuzzy_input (d : nat) (c : curve) : Prop :=
  exists N group no_time_rev paths, valid_group d group /\ valid_paths d N paths /\ built group no_time_rev paths c.
(** The dilation of every curve of c is above u. *)
Definition min_dilation_above (rR : list R -> R -> R) (c : curve) (u : Qc) : Prop := exists l, (u < l)%Qc /\ min_dilation_ge rR c (qR l).
