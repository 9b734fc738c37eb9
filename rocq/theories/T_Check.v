(** Property theorems C20: the continuity check of curves and what it guarantees. *)
From Verif Require Import Py M_BaseMaps M_Subsets M_Paths M_Curves M_Zoo S_Curves P_Valid P_Check P_Subdiv.
From Coq Require Import Reals.
Local Open Scope nat_scope.

(** C20: check() of a fully specified curve never fails and returns true exactly when in every pattern each fraction
    ends where the next one begins. *)
Theorem C20_check_exact : forall c, valid_curve c -> exists r, check c = Some r /\ (r = true <-> joined_curve c).
Proof. exact check_joined. Qed.
Print Assumptions C20_check_exact.
(** C20: then the same holds for consecutive fractions of every depth. *)
Theorem C20_all_depths : forall c, valid_curve c -> forall n, check c = Some true -> joined_at_depth c n.
Proof. exact check_depth. Qed.
Print Assumptions C20_all_depths.
(** C20: a curve that passes is a single-valued map, defined for all times of [0,1] ... *)
Theorem C20_defined : forall c, valid_curve c -> forall p t, p < cv_mult c -> (0 <= t <= 1)%R -> exists x, graph (pattern_curve c p) t x.
Proof. exact graph_total. Qed.
Print Assumptions C20_defined.
Theorem C20_single_valued : forall c, valid_curve c -> forall p t x y, check c = Some true -> p < cv_mult c ->
  graph (pattern_curve c p) t x -> graph (pattern_curve c p) t y -> x = y.
Proof. exact graph_single. Qed.
Print Assumptions C20_single_valued.
(** C20, the converse: check() passes exactly the curves that are single-valued maps. *)
Theorem C20_check_iff_single_valued : forall c, valid_curve c ->
  (check c = Some true <-> forall p t x y, p < cv_mult c -> graph (pattern_curve c p) t x -> graph (pattern_curve c p) t y -> x = y).
Proof. exact check_single. Qed.
Print Assumptions C20_check_iff_single_valued.
(** ... into and onto the unit cube ... *)
Theorem C20_into_cube : forall c, valid_curve c -> forall p t x, p < cv_mult c -> graph (pattern_curve c p) t x ->
  (0 <= t <= 1)%R /\ in_unit_cube (cv_dim c) x.
Proof. exact graph_range. Qed.
Print Assumptions C20_into_cube.
Theorem C20_onto_cube : forall c, valid_curve c -> forall p x, p < cv_mult c -> in_unit_cube (cv_dim c) x -> exists t, graph (pattern_curve c p) t x.
Proof. exact graph_onto. Qed.
Print Assumptions C20_onto_cube.
(** ... and uniformly continuous, with an explicit modulus: times closer than G^-n have images within 2 N^-n. *)
Theorem C20_continuous : forall c, valid_curve c -> forall p eps, check c = Some true -> p < cv_mult c -> (0 < eps)%R ->
  exists del, (0 < del)%R /\
  forall t t' x x' j, (Rabs (t - t') < del)%R -> graph (pattern_curve c p) t x -> graph (pattern_curve c p) t' x' -> j < cv_dim c ->
    (Rabs (nth j x 0 - nth j x' 0) < eps)%R.
Proof. exact graph_continuous. Qed.
Print Assumptions C20_continuous.
Theorem C20_modulus : forall c, valid_curve c -> forall p n t t' x x' j, check c = Some true -> p < cv_mult c ->
  (Rabs (t - t') * IZR (Z.of_nat (cv_genus c)) ^ n < 1)%R ->
  graph (pattern_curve c p) t x -> graph (pattern_curve c p) t' x' -> j < cv_dim c ->
  (Rabs (nth j x 0 - nth j x' 0) * IZR (Z.of_nat (cv_div c)) ^ n <= 2)%R.
Proof. exact graph_modulus. Qed.
Print Assumptions C20_modulus.
(** The Hilbert curve passes; the same path with other specs does not. *)
Example C20_example : let c := curve_or zoo_hilbert in
  let bad := Cv 2 2 [Pat (match cv_pats c with p :: _ => pat_proto p | [] => Pr 0 0 [] end) (repeat (Some (Sp (id_map 2) 0)) 4)] 0 KCurve in
  valid_curve c /\ check c = Some true /\ valid_curve bad /\ check bad = Some false.
Proof. cbn zeta. repeat split; try (apply valid_curveb_ok); vm_compute; auto. Qed.
