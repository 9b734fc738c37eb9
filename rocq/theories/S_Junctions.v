(** Specification vocabulary for junctions: pairs of consecutive fractions, and pairs equal up to an isometry and a
    reversal of time. *)
From Verif Require Import Py M_BaseMaps M_Curves S_BaseMaps S_Utils S_Curves.
Local Open Scope nat_scope.

(** The fractions number T and T+1 of depth n = length cnums of pattern p (the digits of T, T+1 are cnums1, cnums2):
    their specs, and the difference of the positions of their cubes in the grid of division N^n. *)
Definition neighbours (c : curve) (p : nat) (cnums1 cnums2 : list nat) (X1 X2 : spec) (dx : list Z) : Prop :=
  p < cv_mult c /\ length cnums2 = length cnums1 /\
  value (Z.of_nat (cv_genus c)) (map Z.of_nat cnums2) = (value (Z.of_nat (cv_genus c)) (map Z.of_nat cnums1) + 1)%Z /\
  exists cubes1 cubes2,
    walk (pattern_curve c p) cnums1 = Some (cubes1, cv_mul_sp X1 c) /\ get_deep_spec c p (map Z.of_nat cnums1) = Some X1 /\
    walk (pattern_curve c p) cnums2 = Some (cubes2, cv_mul_sp X2 c) /\ get_deep_spec c p (map Z.of_nat cnums2) = Some X2 /\
    length dx = cv_dim c /\
    forall j, j < cv_dim c -> nth j dx 0%Z = (place_of j (cv_div c) cubes2 - place_of j (cv_div c) cubes1)%Z.
(** The pair (Y1, Y2, dy) is the image of the pair (X1, X2, dx) under a base map; reversing time swaps the fractions. *)
Definition isometric (d : nat) (X1 X2 : spec) (dx : list Z) (Y1 Y2 : spec) (dy : list Z) : Prop :=
  exists g, wf_bm d g /\
    if time_rev g then Y1 = bm_mul_sp g X2 /\ Y2 = bm_mul_sp g X1 /\ dy = apply_vec g (map Z.opp dx)
    else Y1 = bm_mul_sp g X1 /\ Y2 = bm_mul_sp g X2 /\ dy = apply_vec g dx.
