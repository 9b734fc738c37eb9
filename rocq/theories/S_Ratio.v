(** Specification of ratio functions: ||dx||^d / dt for the usual norms, over the reals. *)
From Verif Require Import Py L_Qc S_Utils.
From Coq Require Import Reals Permutation.
Local Open Scope R_scope.

Definition norm_linf (v : list R) : R := fold_right Rmax 0 (map Rabs v).
Definition norm_l1 (v : list R) : R := fold_right Rplus 0 (map Rabs v).
Definition norm_l2 (v : list R) : R := sqrt (fold_right Rplus 0 (map (fun x => x * x) v)).
Definition norm_ratio (N : list R -> R) (d : nat) (dv : list R) (dt : R) : R := N dv ^ d / dt.

(** What the dilation estimates need: rQ computes, on rational arguments with positive dt, the real-valued
    ratio rR; rR is non-negative, uniform, depends only on the multiset of |dx_j|, and is monotone. *)
Record ratio_ok (d : nat) (rQ : list Qc -> Qc -> option Qc) (rR : list R -> R -> R) : Prop := {
  ro_value : forall dv dt, length dv = d -> (0 < dt)%Qc ->
    exists v, rQ dv dt = Some v /\ qR v = rR (map qR dv) (qR dt);
  ro_nonneg : forall dv dt, 0 < dt -> 0 <= rR dv dt;
  ro_uniform : forall k dv dt, 0 < k -> 0 < dt -> rR (map (Rmult k) dv) (k ^ d * dt) = rR dv dt;
  ro_sym : forall dv dv' dt, Permutation (map Rabs dv) (map Rabs dv') -> rR dv dt = rR dv' dt;
  ro_mono : forall dv dv' dt dt', Forall2 (fun x y => Rabs x <= Rabs y) dv dv' -> 0 < dt' <= dt ->
    rR dv dt <= rR dv' dt' }.
