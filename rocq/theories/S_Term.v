(** Specification for termination of the estimators: how a ratio depends on the time difference. *)
From Verif Require Import Py L_Qc S_Ratio.
From Coq Require Import Reals.
Local Open Scope R_scope.

(** The ratio is inversely proportional to a positive power of dt, and is positive if the points differ.
    All norms shipped with the program satisfy this (p = 1; p = 2 for the squared Euclidean ratio). *)
Record ratio_power (p : nat) (rR : list R -> R -> R) : Prop := {
  rp_p : (1 <= p)%nat;
  rp_dt : forall dv dt, 0 < dt -> rR dv dt * dt ^ p = rR dv 1;
  rp_pos : forall dv, Exists (fun x => x <> 0) dv -> 0 < rR dv 1 }.

(** The ratio is a power of ||dx||^d / dt for a norm that depends only on the |dx_j| and does not decrease with them.
    All norms shipped with the program satisfy this, again with p = 2 for the squared Euclidean ratio. *)
Definition vec_sum (v w : list R) : list R := map (fun xy => fst xy + snd xy) (combine v w).
Record ratio_norm (d p : nat) (N : list R -> R) (rR : list R -> R -> R) : Prop := {
  rn_p : (1 <= p)%nat;
  rn_value : forall dv dt, 0 < dt -> rR dv dt = (N dv ^ d / dt) ^ p;
  rn_nonneg : forall v, 0 <= N v;
  rn_pos : forall v, Exists (fun x => x <> 0) v -> 0 < N v;
  rn_mono : forall v w, Forall2 (fun x y => Rabs x <= Rabs y) v w -> N v <= N w;
  rn_triangle : forall v w, length v = length w -> N (vec_sum v w) <= N v + N w }.

From Verif Require Import M_BaseMaps M_Paths M_Curves S_Paths S_Curves S_Fuzzy S_Dilation.
(** A fuzzy curve of dimension d that a user can build from continuous paths: each fraction of a path starts where the
    previous one ends. *)
Definition joined_input (d : nat) (c : curve) : Prop :=
  exists N group no_time_rev paths, valid_group d group /\ valid_paths d N paths /\ (forall p, In p paths -> joined_path p) /\ built group no_time_rev paths c.
