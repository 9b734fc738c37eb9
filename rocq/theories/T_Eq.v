(** Property theorems C36: equality of curves. The property as a user expects it is refuted: [Curve.__eq__] returns a
    non-empty tuple, which is always true. *)
From Verif Require Import Py M_BaseMaps M_Subsets M_Paths M_Curves M_Zoo P_Valid.
Local Open Scope nat_scope.

(** What [==] should mean: same patterns and same selected pattern. *)
Definition same_curve (a b : curve) : Prop := cv_pats a = cv_pats b /\ cv_pnum a = cv_pnum b.
(** C36: every two curves are equal as seen by if, in, assert, list.index ... *)
Theorem C36_equal_always : forall a b, curve_eq_truth a b = true.
Proof. exact (fun _ _ => eq_refl). Qed.
Print Assumptions C36_equal_always.
(** C36 refuted: the truth of a == b is not equality, even for valid curves of the same dimension and division. *)
Theorem C36_equality_refuted : ~ (forall a b, S_Curves.valid_curve a -> S_Curves.valid_curve b -> (curve_eq_truth a b = true <-> same_curve a b)).
Proof.
  intros H. pose (a := curve_or zoo_hilbert). pose (b := cv_mul_bm (bm_rev (id_map 2)) a).
  assert (Ha : S_Curves.valid_curve a) by (apply valid_curveb_ok; vm_compute; auto).
  assert (Hb : S_Curves.valid_curve b) by (apply valid_curveb_ok; vm_compute; auto).
  destruct (H a b Ha Hb) as [H1 _]. destruct (H1 eq_refl) as [E _]. vm_compute in E. discriminate.
Qed.
Print Assumptions C36_equality_refuted.
Example C36_example : curve_eq_truth (curve_or zoo_hilbert) (curve_or zoo_peano) = true /\ cv_div (curve_or zoo_hilbert) <> cv_div (curve_or zoo_peano).
Proof. split; [reflexivity|vm_compute; discriminate]. Qed.
