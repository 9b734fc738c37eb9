(** Specification vocabulary for the generation of gates (gates.py). *)
From Verif Require Import Py L_Qc M_BaseMaps M_Subsets M_Paths M_Curves S_BaseMaps S_Subsets S_Curves.
From Coq Require Import Sorting.Sorted.
Local Open Scope nat_scope.

(** Coordinate j of the point is 0 or 1. *)
Definition edge_coord (x : list Qc) (j : nat) : Prop := j < length x /\ (nth j x 0%Qc = 0%Qc \/ nth j x 0%Qc = 1%Qc).
(** The point of the unit cube is on the boundary of the cube; it is strictly inside a facet (a face of dimension d-1). *)
Definition on_boundary (x : list Qc) : Prop := exists j, edge_coord x j.
Definition inside_facet (x : list Qc) : Prop := exists j, edge_coord x j /\ forall i, edge_coord x i -> i = j.
Definition good_face (only_facet : bool) (x : list Qc) : Prop := if only_facet then inside_facet x else on_boundary x.

(** [c] is a curve with m patterns, continuous by its own test check(), whose patterns have the entrances and exits [gs], all
    of them on the boundary (strictly inside facets if only_facet). *)
Record gated (d N m : nat) (only_facet : bool) (c : curve) (gs : list plink) : Prop := {
  gd_curve : valid_curve c;
  gd_dim : cv_dim c = d; gd_div : cv_div c = N; gd_mult : cv_mult c = m;
  gd_check : check c = Some true;
  gd_len : length gs = m;
  gd_gates : forall p l, nth_error gs p = Some l -> get_entrance c (Some p) = Some (entrance l) /\ get_exit c (Some p) = Some (exit l);
  gd_face : Forall (fun l => good_face only_facet (entrance l) /\ good_face only_facet (exit l)) gs }.
(** The gate is the smallest of its images under the isometries of the cube, with and without time reversal. *)
Definition standard (d : nat) (l : plink) : Prop := forall b, wf_bm d b -> pl_le l (pl_mul b l).
Definition nondecreasing (gs : list plink) : Prop := StronglySorted pl_le gs.
