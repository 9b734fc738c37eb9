(** Specification vocabulary for YE-proof.py. *)
From Verif Require Import Py M_BaseMaps M_Subsets M_Paths M_Curves M_Search S_BaseMaps S_Curves S_Utils S_Ratio S_Dilation S_PathGen S_Gates S_Search.
From Coq Require Import Reals.
Local Open Scope nat_scope.

(** c is Y placed differently: the image of Y under a base map (an isometry of the cube, perhaps with time reversal). *)
Definition image_of (Y c : curve) : Prop := exists b, wf_bm (cv_dim Y) b /\ c = cv_mul_bm b Y.
(** The prototype of c (the order of the cubes) is the image of the prototype of Y under a base map. *)
Definition proto_image_of (Y c : curve) : Prop :=
  exists pat pat' b, cv_pattern Y = Some pat /\ cv_pattern c = Some pat' /\ wf_bm (cv_dim Y) b /\ pat_proto pat' = pr_mul b (pat_proto pat).
(** The dilation of c is at least the lower bound reported. *)
Definition reported_bound (rR : list R -> R -> R) (result : option seq_result) (c : curve) : Prop :=
  match result with Some (lo, _, _, _) => dilation_ge rR c (qR lo) | None => False end.

(** A plain monofractal curve with division N, continuous, and without diagonal steps (as tested with max_cdist = 1). *)
Definition plain (N : nat) (max_cdist : option Z) (c : curve) : Prop := search_curve 2 N 1 max_cdist c.
(** The gates (0,0)->(1,0), (0,0)->(1,1), (0,0)->(1,1/2). *)
Definition side_gates : plink := Lk [0; 0]%Qc [1; 0]%Qc.
Definition diag_gates : plink := Lk [0; 0]%Qc [1; 1]%Qc.
Definition median_gates : plink := Lk [0; 0]%Qc [1; 1 / (1 + 1)]%Qc.
(** The curves of the case analysis: all curves on 2x2, 3x3 and 4x4 with gates on the boundary; side and median curves on 6x6, and
    side, median and diagonal curves on 5x5, without diagonal steps. *)
Definition ye_cases (c : curve) : Prop :=
  (exists N, (N = 2 \/ N = 3 \/ N = 4) /\ plain N None c /\ gates_on_faces false c) \/
  (plain 6 (Some 1%Z) c /\ (has_gates 2 c [side_gates] \/ has_gates 2 c [median_gates])) \/
  (plain 5 (Some 1%Z) c /\ (has_gates 2 c [side_gates] \/ has_gates 2 c [median_gates] \/ has_gates 2 c [diag_gates])).
