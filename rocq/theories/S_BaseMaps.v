(** Specification vocabulary for base maps (independent of the proofs). *)
From Verif Require Import Py M_BaseMaps L_Qc.
From Coq Require Qcabs.
Local Open Scope nat_scope.

(** n-fold product b * b * ... * b; the empty product is the identity. *)
Fixpoint npow (d : nat) (b : base_map) (n : nat) : base_map :=
  match n with 0 => id_map d | S n' => bm_mul b (npow d b n') end.

(** The point y lies in the (closed) sub-cube c of the N-grid of [0,1]^d: c_j/N <= y_j <= (c_j+1)/N. *)
Definition in_cube (N : Z) (c : list Z) (y : list Qc) : Prop :=
  Forall2 (fun cj yj => (Zq cj <= yj * Zq N)%Qc /\ (yj * Zq N <= Zq cj + 1)%Qc) c y.
(** The point y lies in the cube with minimal vertex s and side len. *)
Definition in_box (s : list Z) (len : Z) (y : list Qc) : Prop :=
  Forall2 (fun sj yj => (Zq sj <= yj)%Qc /\ (yj <= Zq sj + Zq len)%Qc) s y.
(** |x_0 - y_0|, ..., |x_{d-1} - y_{d-1}|: every l_p distance is a symmetric function of these. *)
Definition abs_diffs (x y : list Qc) : list Qc := map (fun p => Qcabs.Qcabs (fst p - snd p)%Qc) (combine x y).
Definition vsubQ (x y : list Qc) : list Qc := map (fun p => (fst p - snd p)%Qc) (combine x y).
Definition in_cube01 (mx : Qc) (x : list Qc) : Prop := Forall (fun v => (0 <= v)%Qc /\ (v <= mx)%Qc) x.

(** s times the k-th standard basis vector of dimension d. *)
Definition basis_vec (d k : nat) (s : Z) : list Z := map (fun j => if Nat.eqb j k then s else 0%Z) (seq 0 d).
