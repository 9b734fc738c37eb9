(** Property theorem C54: equality, hash and order of values. *)
From Verif Require Import Py L_Py L_Qc M_BaseMaps M_Subsets M_Paths M_Curves M_Dilation M_Session M_Order S_Order P_Subsets P_Order.
Local Open Scope nat_scope.

(** C54: values that compare equal have the same hash. *)
Theorem C54_hash_contract : hash_contract.
Proof. intros hn h0 ht a b E. apply py_hash_seen, py_eq_true, E. Qed.
Print Assumptions C54_hash_contract.
(** C54: == never raises on two values of the same class, and is reflexive, symmetric and transitive. *)
Theorem C54_equality :
  equality (fun w => exists p, w = v_point p) /\ equality (fun w => exists b, w = v_bm b) /\ equality (fun w => exists s, w = v_spec s) /\
  equality (fun w => exists s, w = v_facet s) /\ equality (fun w => exists l, w = v_link v_point l) /\ equality (fun w => exists l, w = v_link v_facet l) /\
  equality (fun w => exists p, w = v_proto p) /\ equality (fun w => exists p, w = v_path v_point p) /\ equality (fun w => exists p, w = v_path v_facet p) /\
  equality (fun w => exists j, w = v_junction j) /\ equality (fun w => exists p, w = v_position p).
Proof.
  repeat match goal with |- _ /\ _ => split end; eapply eqs_equality.
  - apply eqs_point.
  - apply eqs_bm.
  - apply eqs_spec.
  - apply eqs_facet.
  - apply eqs_link, eqs_point.
  - apply eqs_link, eqs_facet.
  - apply eqs_proto.
  - apply (eqs_path _ point_ops), eqs_point.
  - apply (eqs_path _ facet_ops), eqs_facet.
  - apply eqs_junction.
  - apply eqs_position.
Qed.
Print Assumptions C54_equality.
(** C54: what is compared. Base maps, specs, points, facet subsets and links are equal only to themselves; prototypes if they visit the same
    cubes (dim and div do not count); junctions if they differ at most in depth. *)
Theorem C54_equal_data :
  (forall p q, py_eq (v_point p) (v_point q) = Some true <-> p = q) /\ (forall a b, py_eq (v_bm a) (v_bm b) = Some true <-> a = b) /\
  (forall s t, py_eq (v_spec s) (v_spec t) = Some true <-> s = t) /\ (forall s t, py_eq (v_facet s) (v_facet t) = Some true <-> s = t) /\
  (forall l m, py_eq (v_link v_point l) (v_link v_point m) = Some true <-> l = m) /\ (forall l m, py_eq (v_link v_facet l) (v_link v_facet m) = Some true <-> l = m) /\
  (forall p q, py_eq (v_proto p) (v_proto q) = Some true <-> pr_cubes p = pr_cubes q) /\
  (forall p q, py_eq (v_path v_point p) (v_path v_point q) = Some true <->
     pa_link p = pa_link q /\ pr_cubes (pa_proto p) = pr_cubes (pa_proto q) /\ pa_links p = pa_links q) /\
  (forall p q, py_eq (v_path v_facet p) (v_path v_facet q) = Some true <->
     pa_link p = pa_link q /\ pr_cubes (pa_proto p) = pr_cubes (pa_proto q) /\ pa_links p = pa_links q) /\
  (forall a b, py_eq (v_junction a) (v_junction b) = Some true <->
     j_dx a = j_dx b /\ j_dt a = j_dt b /\ j_spec1 a = j_spec1 b /\ j_spec2 a = j_spec2 b) /\
  (forall p q, py_eq (v_position p) (v_position q) = Some true <-> p = q).
Proof.
  repeat match goal with |- _ /\ _ => split end; intros a b.
  - rewrite (eqs_iff _ _ eqs_point). apply dec_point.
  - rewrite (eqs_iff _ _ eqs_bm). apply dec_bm.
  - rewrite (eqs_iff _ _ eqs_spec). apply dec_spec.
  - rewrite (eqs_iff _ _ eqs_facet). apply dec_facet.
  - rewrite (eqs_iff _ _ (eqs_link _ _ eqs_point)). apply dec_link, dec_point.
  - rewrite (eqs_iff _ _ (eqs_link _ _ eqs_facet)). apply dec_link, dec_facet.
  - rewrite (eqs_iff _ _ eqs_proto). apply dec_proto.
  - rewrite (eqs_iff _ _ (eqs_path _ point_ops eqs_point)). apply dec_path, dec_point.
  - rewrite (eqs_iff _ _ (eqs_path _ facet_ops eqs_facet)). apply dec_path, dec_facet.
  - rewrite (eqs_iff _ _ eqs_junction). apply dec_junction.
  - rewrite (eqs_iff _ _ eqs_position). apply dec_position.
Qed.
Print Assumptions C54_equal_data.
(** C54: sorted(), min(): < is a strict total order, that never raises, on points, facet subsets, links and, if all cubes are known, prototypes
    and paths; it is the lexicographic order of the data. *)
Theorem C54_order :
  totally_ordered (fun w => exists p, True /\ w = v_point p) /\ totally_ordered (fun w => exists s, True /\ w = v_facet s) /\
  totally_ordered (fun w => exists l, True /\ w = v_link v_point l) /\ totally_ordered (fun w => exists l, True /\ w = v_link v_facet l) /\
  totally_ordered (fun w => exists p, full_proto p /\ w = v_proto p) /\
  totally_ordered (fun w => exists p, full_proto (pa_proto p) /\ w = v_path v_point p) /\
  totally_ordered (fun w => exists p, full_proto (pa_proto p) /\ w = v_path v_facet p).
Proof.
  pose proof pt_cmp_ok as HP. pose proof fs_cmp_ok as HF. pose proof (lk_cmp_ok _ HP) as HLP. pose proof (lk_cmp_ok _ HF) as HLF. pose proof (lex_ok _ ocube_ok) as HC.
  repeat match goal with |- _ /\ _ => split end; eapply ords_total.
  3: apply ords_point. 1,2: apply HP.
  3: apply ords_facet. 1,2: apply HF.
  3: apply (ords_link _ _ ords_point). 1,2: apply HLP.
  3: apply (ords_link _ _ ords_facet). 1,2: apply HLF.
  3: apply ords_proto. 1: intros a b c; apply (cmp_trans _ HC). 1: intros a b; apply (cmp_opp _ HC).
  3: apply (ords_path _ point_ops), ords_point. 1: apply (pa_trans point_ops), HP. 1: apply (pa_opp point_ops), HP.
  3: apply (ords_path _ facet_ops), ords_facet. 1: apply (pa_trans facet_ops), HF. apply (pa_opp facet_ops), HF.
Qed.
Print Assumptions C54_order.
(** C54: the orders are lexicographic: tuples of numbers for points; (dim, div, facet, cubes) for facet subsets; (entrance, exit) for links;
    (link, cubes, links) for paths. *)
Theorem C54_lexicographic :
  (forall p q, py_lt (v_point p) (v_point q) = Some true <-> point_less p q) /\ (forall s t, py_lt (v_facet s) (v_facet t) = Some true <-> facet_less s t) /\
  (forall l m, py_lt (v_link v_point l) (v_link v_point m) = Some true <-> link_less point_less l m) /\
  (forall l m, py_lt (v_link v_facet l) (v_link v_facet m) = Some true <-> link_less facet_less l m) /\
  (forall p q, full_proto p -> full_proto q -> py_lt (v_proto p) (v_proto q) = Some true <-> lex_less known_less (pr_cubes p) (pr_cubes q)) /\
  (forall p q, full_proto (pa_proto p) -> full_proto (pa_proto q) -> py_lt (v_path v_point p) (v_path v_point q) = Some true <-> path_less point_less p q) /\
  (forall p q, full_proto (pa_proto p) -> full_proto (pa_proto q) -> py_lt (v_path v_facet p) (v_path v_facet q) = Some true <-> path_less facet_less p q).
Proof.
  repeat match goal with |- _ /\ _ => split end; intros a b.
  - apply (ords_less _ _ _ _ ords_point (fun x y _ _ => pt_less_iff x y)); auto.
  - apply (ords_less _ _ _ _ ords_facet (fun x y _ _ => fs_less_iff x y)); auto.
  - apply (ords_less _ _ _ _ (ords_link _ _ ords_point) (fun x y _ _ => lk_less_iff _ _ pt_cmp_ok pt_less_iff x y)); auto.
  - apply (ords_less _ _ _ _ (ords_link _ _ ords_facet) (fun x y _ _ => lk_less_iff _ _ fs_cmp_ok fs_less_iff x y)); auto.
  - intros Ha Hb. apply (ords_less _ _ _ (fun p q => lex_less known_less (pr_cubes p) (pr_cubes q)) ords_proto (fun x y Hx Hy => lex_known _ _ Hx Hy)); auto.
  - apply (ords_less _ _ _ _ (ords_path _ point_ops ords_point) (pa_less_iff point_ops _ pt_cmp_ok pt_less_iff)); auto.
  - apply (ords_less _ _ _ _ (ords_path _ facet_ops ords_facet) (pa_less_iff facet_ops _ fs_cmp_ok fs_less_iff)); auto.
Qed.
Print Assumptions C54_lexicographic.
(** C54: the comparisons used in the rest of the model are those of Python. *)
Theorem C54_model_comparisons :
  (forall p q, py_eq (v_point p) (v_point q) = Some (pt_eqb p q) /\ py_lt (v_point p) (v_point q) = Some (ltb_of pt_cmp p q)) /\
  (forall a b, py_eq (v_bm a) (v_bm b) = Some (bm_eqb a b)) /\ (forall s t, py_eq (v_spec s) (v_spec t) = Some (spec_eqb s t)) /\
  (forall s t, py_eq (v_facet s) (v_facet t) = Some (fs_eqb s t) /\ py_lt (v_facet s) (v_facet t) = Some (ltb_of fs_cmp s t)) /\
  (forall l m, py_eq (v_link v_point l) (v_link v_point m) = Some (pl_eqb l m) /\ py_lt (v_link v_point l) (v_link v_point m) = Some (ltb_of pl_cmp l m)) /\
  (forall l m, py_eq (v_link v_facet l) (v_link v_facet m) = Some (lk_eqb fs_eqb l m) /\ py_lt (v_link v_facet l) (v_link v_facet m) = Some (ltb_of (lk_cmp fs_cmp) l m)) /\
  (forall p q, py_eq (v_proto p) (v_proto q) = Some (pr_eqb p q) /\ (full_proto p -> full_proto q -> py_lt (v_proto p) (v_proto q) = Some (ltb_of pr_cmp p q))) /\
  (forall p q, py_eq (v_path v_point p) (v_path v_point q) = Some (pa_eqb point_ops p q) /\
     (full_proto (pa_proto p) -> full_proto (pa_proto q) -> py_lt (v_path v_point p) (v_path v_point q) = Some (ltb_of (pa_cmp point_ops) p q))) /\
  (forall p q, py_eq (v_path v_facet p) (v_path v_facet q) = Some (pa_eqb facet_ops p q) /\
     (full_proto (pa_proto p) -> full_proto (pa_proto q) -> py_lt (v_path v_facet p) (v_path v_facet q) = Some (ltb_of (pa_cmp facet_ops) p q))) /\
  (forall a b, py_eq (v_junction a) (v_junction b) = Some (junc_eqb a b)) /\ (forall p q, py_eq (v_position p) (v_position q) = Some (pos_eqb p q)).
Proof.
  repeat match goal with |- _ /\ _ => split end; intros a b; try split; try intros Ha Hb.
  - apply eqs_point.
  - apply (ords_point a b); auto.
  - apply eqs_bm.
  - apply eqs_spec.
  - apply eqs_facet.
  - apply (ords_facet a b); auto.
  - apply (eqs_link _ _ eqs_point).
  - apply (ords_link _ _ ords_point a b); auto.
  - apply (eqs_link _ _ eqs_facet).
  - apply (ords_link _ _ ords_facet a b); auto.
  - apply eqs_proto.
  - apply (ords_proto a b); auto.
  - apply (eqs_path _ point_ops eqs_point).
  - apply (ords_path _ point_ops ords_point a b); auto.
  - apply (eqs_path _ facet_ops eqs_facet).
  - apply (ords_path _ facet_ops ords_facet a b); auto.
  - apply eqs_junction.
  - apply eqs_position.
Qed.
Print Assumptions C54_model_comparisons.
(** C54: prototypes with unknown cubes can be compared by ==, but < raises TypeError. *)
Theorem C54_unknown_cubes_refuted : ~ totally_ordered (fun w => exists p, w = v_proto p).
Proof.
  intros H. destruct (to_trichotomy _ H (v_proto (Pr 1 2 [None])) (v_proto (Pr 1 2 [Some [0%Z]]))) as [X|[X|X]]; [eauto|eauto|..];
    destruct X as (X & _); vm_compute in X; discriminate.
Qed.
Print Assumptions C54_unknown_cubes_refuted.
(** C54: equal prototypes may have different div: the Peano and Hilbert grids share the cubes of a short prototype. *)
Theorem C54_proto_div_refuted : ~ (forall p q, py_eq (v_proto p) (v_proto q) = Some true -> p = q).
Proof.
  intros H. assert (X : Pr 1 2 [Some [0%Z]; Some [1%Z]] = Pr 1 3 [Some [0%Z]; Some [1%Z]]) by (apply H; vm_compute; reflexivity). discriminate.
Qed.
Print Assumptions C54_proto_div_refuted.

(** Two junctions that differ in depth are equal and have the same hash; two points and two facet subsets in order; a path before another. *)
Definition jn (d : option nat) : junction := Jn (Sp (id_map 2) 0) (Sp (BM [(1, false); (0, true)] true) 1) [1%Z; 0%Z] 0%Z d.
Definition pth (c : list Z) : path (list Qc) :=
  Pa (Pr 2 2 [Some [0; 0]%Z; Some c]) [Lk [0%Qc; 0%Qc] [0%Qc; 1%Qc]; Lk [0%Qc; 0%Qc] [half; 1%Qc]] (Lk [0%Qc; 0%Qc] [half; half]).
Example C54_example :
  py_eq (v_junction (jn (Some 3))) (v_junction (jn None)) = Some true /\ jn (Some 3) <> jn None /\
  py_eq (v_junction (jn None)) (v_junction (Jn (Sp (id_map 2) 0) (Sp (id_map 2) 1) [1%Z; 0%Z] 0%Z None)) = Some false /\
  py_lt (v_point [0%Qc; 1%Qc]) (v_point [half; 0%Qc]) = Some true /\ py_lt (v_point [0%Qc]) (v_point [0%Qc; 0%Qc]) = Some true /\
  py_lt (v_facet (FS 2 2 (0, 1%Z) [[0%Z]; [1%Z]])) (v_facet (FS 2 2 (1, 0%Z) [[0%Z]])) = Some true /\
  full_proto (pa_proto (pth [0; 1]%Z)) /\ py_lt (v_path v_point (pth [0; 1]%Z)) (v_path v_point (pth [1; 0]%Z)) = Some true /\
  py_lt (v_junction (jn None)) (v_junction (jn None)) = None.
Proof. repeat match goal with |- _ /\ _ => split end; try (vm_compute; reflexivity); [discriminate|]. repeat constructor; discriminate. Qed.
