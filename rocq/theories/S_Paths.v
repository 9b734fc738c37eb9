(** Specification vocabulary for point paths (paths.py). *)
From Verif Require Import Py M_BaseMaps M_Subsets M_Paths S_Subsets.
Local Open Scope nat_scope.

(** A point path of dimension d: as many links as cubes, no unknown cubes, and it was built by the constructor. *)
Record valid_ppath (d : nat) (p : path (list Qc)) : Prop := {
  vp_dim : pr_dim (pa_proto p) = d;
  vp_div : 1 <= pr_div (pa_proto p);
  vp_cubes : Forall (fun oc => exists q, oc = Some q /\ length q = d) (pr_cubes (pa_proto p));
  vp_links : Forall (pl_dim d) (pa_links p);
  vp_len : length (pa_links p) = length (pr_cubes (pa_proto p));
  vp_ne : pa_links p <> [];
  vp_mk : mk_path point_ops (pa_proto p) (pa_links p) = Some p }.

(** The exit of each fraction and the entrance of the next one are the same point of the unit cube
    (positions: (cube + point) / div). *)
Definition joined_path (p : path (list Qc)) : Prop :=
  forall i c l c' l' y,
    nth_error (pr_cubes (pa_proto p)) i = Some (Some c) -> nth_error (pa_links p) i = Some l ->
    nth_error (pr_cubes (pa_proto p)) (S i) = Some (Some c') -> nth_error (pa_links p) (S i) = Some l' ->
    (place_in (pr_div (pa_proto p)) c (exit l) y <-> place_in (pr_div (pa_proto p)) c' (entrance l') y).
