(** What it means that the information recorded about a curve is true. *)
From Verif Require Import Py M_BaseMaps M_Subsets M_Curves S_Utils S_Curves S_Junctions S_Ratio S_Dilation S_Main M_Main M_ZooInfo L_R.
From Coq Require Import Reals Qreals Permutation.
Local Open Scope nat_scope.

(** The recorded dilation: an interval contains the dilation; an exact value is a lower bound of the dilation, attained or
    approached by pairs of moments, and the dilation exceeds it by no more than 1/prec of it. *)
Definition dilation_true (prec : Z) (c : curve) (m : metric) (v : dil_value) : Prop :=
  let f := metric_fun m (cv_dim c) in
  match v with
  | DEq q => dilation_ge f c (Q2R q) /\ dilation_le f c (Q2R q * (1 + / IZR prec))
  | DIn lo up => dilation_ge f c (Q2R lo) /\ dilation_le f c (Q2R up)
  end.
(** The recorded gates: the ends of the patterns. *)
Definition gates_true (c : curve) (gs : list (option plink)) : Prop :=
  length gs = cv_mult c /\ forall p, p < cv_mult c -> exists g, nth_error gs p = Some (Some g) /\
    (forall y, graph (pattern_curve c p) 0 y <-> y = map qR (entrance g)) /\ (forall y, graph (pattern_curve c p) 1 y <-> y = map qR (exit g)).
(** The moment t is the first (last) one at which the curve is on the face. *)
Definition extreme_moment (lst : bool) (c : curve) (face : list (option Z)) (t : Qc) : Prop :=
  (exists x, graph c (qR t) x /\ on_face face x) /\
  forall t' x', graph c t' x' -> on_face face x' -> if lst then (t' <= qR t)%R else (qR t <= t')%R.
(** The recorded moments ts under the key k: the first (k >= 0) or last (k < 0) moments of the faces of dimension |k|, in some order. *)
Definition moments_true (c : curve) (k : Z) (ts : list Qc) : Prop :=
  exists faces ts', NoDup faces /\ (forall f, In f faces <-> valid_face (cv_dim c) f /\ face_free f = Z.to_nat (Z.abs k)) /\
    Permutation ts ts' /\ Forall2 (extreme_moment (k <? 0)%Z (pattern_curve c 0)) faces ts'.
(** The recorded depth: every two consecutive fractions of any depth look like two of at most this depth. *)
Definition depth_true (c : curve) (n : nat) : Prop :=
  forall p cnums1 cnums2 X1 X2 dx, neighbours c p cnums1 cnums2 X1 X2 dx ->
  exists q cnums3 cnums4 Y1 Y2 dy, length cnums3 <= n /\ neighbours c q cnums3 cnums4 Y1 Y2 dy /\ isometric (cv_dim c) X1 X2 dx Y1 Y2 dy.
(** The recorded number of junctions: so many pairs of consecutive fractions such that every such pair looks like exactly one of them. *)
Definition junctions_true (c : curve) (n : nat) : Prop :=
  exists js : list (spec * spec * list Z), length js = n /\
    (forall i X1 X2 dx, nth_error js i = Some (X1, X2, dx) -> exists p cnums1 cnums2 Y1 Y2 dy, neighbours c p cnums1 cnums2 Y1 Y2 dy /\ isometric (cv_dim c) Y1 Y2 dy X1 X2 dx) /\
    (forall p cnums1 cnums2 X1 X2 dx, neighbours c p cnums1 cnums2 X1 X2 dx ->
       exists i Y1 Y2 dy, nth_error js i = Some (Y1, Y2, dy) /\ isometric (cv_dim c) X1 X2 dx Y1 Y2 dy) /\
    (forall i k X1 X2 dx Y1 Y2 dy, nth_error js i = Some (X1, X2, dx) -> nth_error js k = Some (Y1, Y2, dy) -> isometric (cv_dim c) X1 X2 dx Y1 Y2 dy -> i = k).
