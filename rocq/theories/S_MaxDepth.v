(** Specification vocabulary for the max_depth argument of the dilation estimate. *)
From Verif Require Import Py M_BaseMaps M_Curves M_Utils S_Utils S_Curves S_Fuzzy S_Dilation.
From Coq Require Import Reals.
Local Open Scope R_scope.

(** (s, u) is a moment and point of the curve f: the first or the last one on some face of dimension fd. *)
Definition face_moment_of (f : curve) (fd : nat) (s : R) (u : list R) : Prop :=
  graph f s u /\ exists face, valid_face (cv_dim f) face /\ face_free face = fd /\ on_face face u /\
    ((forall s' u', graph f s' u' -> on_face face u' -> s <= s') \/ (forall s' u', graph f s' u' -> on_face face u' -> s' <= s)).
(** As on_piece of S_Dilation.v, for such a moment of the curve in the fraction. *)
Definition key_on_piece (c : curve) (S : spec) (cnums : list nat) (fd : nat) (s : R) (u : list R) : Prop :=
  let cs := map (flip_num (sp_bm S) (cv_genus c)) cnums in
  length u = cv_dim c /\
  exists cubes f s0 u0, walk (cv_mul_sp S c) cs = Some (cubes, f) /\ face_moment_of f fd s0 u0 /\
    s * IZR (Z.of_nat (cv_genus c)) ^ length cs = IZR (value (Z.of_nat (cv_genus c)) (map Z.of_nat cs)) + s0 /\
    forall i, (i < cv_dim c)%nat -> nth i u 0 * IZR (Z.of_nat (cv_div c)) ^ length cs = IZR (place_of i (cv_div c) cubes) + nth i u0 0.
(** The pairs of fractions (cs1 of spec1*c and cs2 of spec2*c) that the estimate looks at in a junction: their first
    fractions, in the order of time, are not neighbours; the first is as deep as the second, or one level deeper. *)
Definition fraction_pair (c : curve) (j : junction) (cs1 cs2 : list nat) : Prop :=
  let G := cv_genus c in
  Forall (fun k => (k < G)%nat) cs1 /\ Forall (fun k => (k < G)%nat) cs2 /\
  (length cs1 = length cs2 \/ length cs1 = length cs2 + 1)%nat /\
  exists k1 r1 k2 r2, cs1 = k1 :: r1 /\ cs2 = k2 :: r2 /\
    (Z.of_nat (flip_num (sp_bm (j_spec1 j)) G k1) + 1 < Z.of_nat (flip_num (sp_bm (j_spec2 j)) G k2) + j_dt j * Z.of_nat G)%Z.
(** The moments s of the fraction cs1 and t of the fraction cs2 are not both extreme: s before the end of its fraction, or t
    after the beginning of its fraction. *)
Definition inner_moment (c : curve) (j : junction) (cs1 cs2 : list nat) (s t : R) : Prop :=
  let G := cv_genus c in
  let cs1' := map (flip_num (sp_bm (j_spec1 j)) G) cs1 in let cs2' := map (flip_num (sp_bm (j_spec2 j)) G) cs2 in
  s * IZR (Z.of_nat G) ^ length cs1 < IZR (value (Z.of_nat G) (map Z.of_nat cs1')) + 1 \/
  IZR (value (Z.of_nat G) (map Z.of_nat cs2')) < t * IZR (Z.of_nat G) ^ length cs2.
