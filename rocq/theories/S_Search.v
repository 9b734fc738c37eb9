(** Specification vocabulary for search.py: the class of curves that is searched. *)
From Verif Require Import Py L_Qc M_BaseMaps M_Subsets M_Paths M_Curves S_BaseMaps S_Subsets S_Paths S_Curves S_PathGen S_Gates S_Utils S_Ratio S_Dilation.
From Coq Require Import Reals Permutation.
Local Open Scope nat_scope.

(** A regular curve with the given dimension, division and number of patterns, continuous by its own test check(), such that
    the cubes of adjacent fractions are within max_cdist. *)
Record search_curve (d N m : nat) (max_cdist : option Z) (c : curve) : Prop := {
  sc_curve : valid_curve c;
  sc_dim : cv_dim c = d; sc_div : cv_div c = N; sc_mult : cv_mult c = m;
  sc_check : check c = Some true;
  sc_near : forall pat k q q', In pat (cv_pats c) -> nth_error (pr_cubes (pat_proto pat)) k = Some (Some q) ->
              nth_error (pr_cubes (pat_proto pat)) (S k) = Some (Some q') -> near max_cdist q q' }.
(** The entrances and exits of the patterns of c. *)
Definition curve_gates_are (c : curve) (gs : list plink) : Prop :=
  length gs = cv_mult c /\
  forall p l, nth_error gs p = Some l -> get_entrance c (Some p) = Some (entrance l) /\ get_exit c (Some p) = Some (exit l).
(** The patterns of c have the gates [gs], up to a base map for each pattern and the order of the patterns. *)
Definition has_gates (d : nat) (c : curve) (gs : list plink) : Prop :=
  exists gs0 gs1, curve_gates_are c gs0 /\ Forall2 (fun l l' => exists b, wf_bm d b /\ l' = pl_mul b l) gs0 gs1 /\ Permutation gs1 gs.
(** All gates of c are on the boundary of the cube (strictly inside facets if facet_gated). *)
Definition gates_on_faces (facet_gated : bool) (c : curve) : Prop :=
  exists gs, curve_gates_are c gs /\ Forall (fun l => good_face facet_gated (entrance l) /\ good_face facet_gated (exit l)) gs.
(** The curves searched by the generator [gen_id]: those with the gates [gen_id]; for None (all gates) those with gates from
    the given list, or, if no list is given, those with gates on the faces. *)
Definition searched (d N m : nat) (max_cdist : option Z) (gate_list : option (list (list plink))) (facet_gated : bool)
    (gen_id : option (list plink)) (c : curve) : Prop :=
  search_curve d N m max_cdist c /\
  match gen_id, gate_list with
  | Some gs, _ => has_gates d c gs
  | None, Some gl => exists gs, In gs gl /\ has_gates d c gs
  | None, None => gates_on_faces facet_gated c
  end.

(** What a report (lo, up, curves, indices) of the generator [gen_id] means: lo is a lower bound of the dilation of all curves
    searched, up is an upper bound of the dilation of one of them (or the given upper bound), the bounds are within the
    tolerance, and the curves printed are among the curves searched. *)
Definition report_ok (d N m : nat) (max_cdist : option Z) (gate_list : option (list (list plink))) (facet_gated : bool)
    (rR : list R -> R -> R) (rel_tol_inv : Z) (upper_bound : option Qc) (gen_id : option (list plink))
    (lo up : Qc) (examples : list (option curve)) : Prop :=
  (forall c, searched d N m max_cdist gate_list facet_gated gen_id c -> dilation_ge rR c (qR lo)) /\
  (upper_bound = Some up \/ exists c, searched d N m max_cdist gate_list facet_gated gen_id c /\ dilation_le rR c (qR up)) /\
  ((0 < rel_tol_inv)%Z -> (qR up * IZR rel_tol_inv <= qR lo * IZR (rel_tol_inv + 1))%R) /\
  (forall r, In (Some r) examples -> exists c, searched d N m max_cdist gate_list facet_gated gen_id c /\ same_curve r c).
(** There is nothing to report: there are no curves in the class, or all of them are above the given bound. *)
Definition nothing_found (d N m : nat) (max_cdist : option Z) (gate_list : option (list (list plink))) (facet_gated : bool)
    (rR : list R -> R -> R) (upper_bound : option Qc) (gen_id : option (list plink)) : Prop :=
  (forall c, ~ searched d N m max_cdist gate_list facet_gated gen_id c) \/
  exists u, upper_bound = Some u /\ forall c, searched d N m max_cdist gate_list facet_gated gen_id c -> exists l, (u < l)%Qc /\ dilation_ge rR c (qR l).
