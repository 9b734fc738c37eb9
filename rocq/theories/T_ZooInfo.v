(** C57: what the zoo records about its curves is true. *)
From Verif Require Import Py L_R M_BaseMaps M_Subsets M_Curves M_Zoo M_Main M_ZooInfo S_Utils S_Curves S_Junctions S_Ratio S_Dilation S_Main S_ZooInfo
  P_Valid P_JuncFacts P_ZooInfo P_ZooDil.
From Coq Require Import Reals Lra Qreals Permutation String.
Local Open Scope nat_scope.

Definition okb (i : curve_info) : bool := match ci_curve i with Some c => valid_curveb c && match check c with Some b => b | None => false end | None => false end.
Lemma infos_ok i : In i zoo_infos -> okb i = true.
Proof. assert (H : forallb okb zoo_infos = true) by (vm_compute; reflexivity). intros Hi. exact (proj1 (forallb_forall _ _) H i Hi). Qed.
(** C57: all 21 curves are defined (the constructors in zoo.py do not raise), valid and continuous. *)
Theorem C57_curves : List.length zoo_infos = 21 /\ forall i, In i zoo_infos -> exists c, ci_curve i = Some c /\ valid_curve c /\ check c = Some true.
Proof.
  split; [reflexivity|]. intros i Hi. pose proof (infos_ok i Hi) as H. unfold okb in H. destruct (ci_curve i) as [c|]; [|discriminate]. apply andb_true_iff in H as [H1 H2].
  exists c. split; [reflexivity|]. split; [apply valid_curveb_ok; exact H1|]. destruct (check c) as [[|]|]; congruence.
Qed.
Print Assumptions C57_curves.
Lemma info_valid i c : In i zoo_infos -> ci_curve i = Some c -> valid_curve c.
Proof. intros Hi E. destruct (proj2 C57_curves i Hi) as (c' & E' & V & _). congruence. Qed.
(** the remaining entries, checked by one computation *)
Definition restb (i : curve_info) : bool :=
  match ci_curve i with
  | None => false
  | Some c => forallb (moments_ok c) (ci_moments i) && match ci_gates i with Some gs => gates_ok c gs | None => true end &&
      match ci_depth i with Some n => match get_depth 100 c with Some m => Nat.eqb n m | None => false end | None => true end &&
      match ci_junctions i with Some n => junctions_ok 100 c n | None => true end
  end.
Lemma infos_rest i c : In i zoo_infos -> ci_curve i = Some c -> restb i = true.
Proof. assert (H : forallb restb zoo_infos = true) by (vm_compute; reflexivity). intros Hi _. exact (proj1 (forallb_forall _ _) H i Hi). Qed.
(** C57: the recorded gates are the ends of the patterns. *)
Theorem C57_gates : forall i c gs, In i zoo_infos -> ci_curve i = Some c -> ci_gates i = Some gs -> gates_true c gs.
Proof.
  intros i c gs Hi E Eg. pose proof (infos_rest i c Hi E) as H. unfold restb in H. rewrite E, Eg, !andb_true_iff in H. apply gates_sound; [eapply info_valid; eauto|apply H].
Qed.
Print Assumptions C57_gates.
(** C57: the recorded moments are the first and the last moments of the faces. *)
Theorem C57_moments : forall i c k ts, In i zoo_infos -> ci_curve i = Some c -> In (k, ts) (ci_moments i) -> moments_true c k ts.
Proof.
  intros i c k ts Hi E Ek. pose proof (infos_rest i c Hi E) as H. unfold restb in H. rewrite E, !andb_true_iff in H. destruct H as [[[H _] _] _].
  rewrite forallb_forall in H. apply moments_sound; [eapply info_valid; eauto|apply H; exact Ek].
Qed.
Print Assumptions C57_moments.
(** (the moments of a curve are determined up to their order) *)
Theorem C57_moments_unique : forall c k ts us, moments_true c k ts -> moments_true c k us -> Permutation ts us.
Proof. exact moments_unique. Qed.
Print Assumptions C57_moments_unique.
(** C57: the recorded depths are those of get_depth, and every two consecutive fractions look like two of this depth at most. *)
Theorem C57_depth : forall i c n, In i zoo_infos -> ci_curve i = Some c -> ci_depth i = Some n -> get_depth 100 c = Some n /\ depth_true c n.
Proof.
  intros i c n Hi E En. pose proof (infos_rest i c Hi E) as H. unfold restb in H. rewrite E, En, !andb_true_iff in H. destruct H as [[_ H] _].
  destruct (get_depth 100 c) as [m|] eqn:D; [|discriminate]. apply Nat.eqb_eq in H. subst m. split; [reflexivity|]. exact (depth_enough c 100 n (info_valid i c Hi E) D).
Qed.
Print Assumptions C57_depth.
(** C57: the recorded number of junctions is their number up to isometries. *)
Theorem C57_junctions : forall i c n, In i zoo_infos -> ci_curve i = Some c -> ci_junctions i = Some n -> junctions_true c n.
Proof.
  intros i c n Hi E En. pose proof (infos_rest i c Hi E) as H. unfold restb in H. rewrite E, En, !andb_true_iff in H. destruct H as [_ H].
  eapply junctions_sound; [eapply info_valid; eauto|exact H].
Qed.
Print Assumptions C57_junctions.

(** C57: the recorded dilations: an interval contains the dilation, an exact value is attained and not exceeded by more than a millionth of it. *)
Theorem C57_dilation : forall i c m v, In i zoo_infos -> ci_curve i = Some c -> In (m, v) (ci_dilation i) -> dilation_true 1000000 c m v.
Proof. exact (infos_in zoo_infos witnesses infos_dil). Qed.
Print Assumptions C57_dilation.
(** C22: the list of junctions is without repetition, but two junctions may be isometric: with a fraction passed backwards and
    one passed forwards of the same pattern the normal form leaves two possibilities.  The curve l1_best_3d of the zoo has
    13 junctions but only 11 up to isometries. *)
Theorem C22_up_to_isometry_refuted : exists c fuel js i k j j', valid_curve c /\ check c = Some true /\ gen_regular_junctions fuel c = (js, GDone) /\
  nth_error js i = Some j /\ nth_error js k = Some j' /\ i <> k /\ isometric (cv_dim c) (j_spec1 j) (j_spec2 j) (j_dx j) (j_spec1 j') (j_spec2 j') (j_dx j').
Proof.
  assert (Hi : In info_l1_best_3d zoo_infos) by (unfold zoo_infos; repeat (first [left; reflexivity | right])).
  destruct (proj2 C57_curves _ Hi) as (c & E & V & K). assert (H : match gen_regular_junctions 100 c with
    | (js, GDone) => match nth_error js 2, nth_error js 4 with Some j, Some j' => iso_eqb (cv_dim c) (junc_tri j) (junc_tri j') | _, _ => false end | _ => false end = true).
  { assert (Ec : c = curve_or (ci_curve info_l1_best_3d)) by (rewrite E; reflexivity). rewrite Ec. vm_compute. reflexivity. }
  destruct (gen_regular_junctions 100 c) as [js [| |]] eqn:G; try discriminate H. destruct (nth_error js 2) as [j|] eqn:E1; [|discriminate H]. destruct (nth_error js 4) as [j'|] eqn:E2; [|discriminate H].
  exists c, 100, js, 2, 4, j, j'. apply iso_eqb_ok in H. split; [exact V|]. split; [exact K|]. split; [exact G|]. split; [exact E1|]. split; [exact E2|]. split; [lia|exact H].
Qed.
Print Assumptions C22_up_to_isometry_refuted.
(** The entries of tokarev: moments of the vertices, edges and sides, the depth and 9 junctions; the gates of beta_omega and the dilation of serpentine. *)
Example C57_example : In info_tokarev zoo_infos /\ map fst (ci_moments info_tokarev) = [0; 1; -1; 2; -2]%Z /\ In (2%Z, fracs 224 [0; 0; 0; 37; 72; 128]%Z) (ci_moments info_tokarev) /\
  ci_depth info_tokarev = Some 3 /\ ci_junctions info_tokarev = Some 9 /\
  In info_beta_omega zoo_infos /\ option_map (@List.length _) (ci_gates info_beta_omega) = Some 2 /\
  In info_serpentine zoo_infos /\ In (M_linf, DEq (45 # 8)) (ci_dilation info_serpentine) /\ option_map cv_dim (ci_curve info_serpentine) = Some 2 /\
  (exists c, ci_curve info_serpentine = Some c /\ dilation_ge (norm_ratio norm_linf 2) c (45 / 8)%R /\ dilation_le (norm_ratio norm_linf 2) c (45 / 8 * (1 + / 1000000))%R) /\
  exists c, ci_curve info_tokarev = Some c /\ ~ moments_true c 2 (fracs 224 [0; 0; 0; 37; 72; 129]%Z).
Proof.
  split; [unfold zoo_infos; do 14 right; left; reflexivity|]. split; [reflexivity|]. split; [do 3 right; left; reflexivity|]. split; [reflexivity|]. split; [reflexivity|].
  split; [unfold zoo_infos; do 10 right; left; reflexivity|]. split; [vm_compute; reflexivity|]. assert (Hs : In info_serpentine zoo_infos) by (unfold zoo_infos; do 7 right; left; reflexivity).
  assert (Hv : In (M_linf, DEq (45 # 8)) (ci_dilation info_serpentine)) by (right; right; left; reflexivity).
  assert (Hd : option_map cv_dim (ci_curve info_serpentine) = Some 2) by (vm_compute; reflexivity). split; [exact Hs|]. split; [exact Hv|]. split; [exact Hd|]. split.
  - destruct (proj2 C57_curves _ Hs) as (c & E & _). exists c. split; [exact E|]. rewrite E in Hd. assert (D : cv_dim c = 2) by (cbn [option_map] in Hd; congruence).
    destruct (C57_dilation _ c _ _ Hs E Hv) as [A B]. rewrite D in A, B. unfold metric_fun, Q2R in A, B. cbn [Qnum Qden] in A, B. split; [exact A|exact B].
  - assert (Ht : In info_tokarev zoo_infos) by (unfold zoo_infos; do 14 right; left; reflexivity). destruct (proj2 C57_curves _ Ht) as (c & E & _). exists c. split; [exact E|]. intros H.
    assert (G : moments_true c 2 (fracs 224 [0; 0; 0; 37; 72; 128]%Z)) by (apply (C57_moments _ c _ _ Ht E); do 3 right; left; reflexivity).
    pose proof (moments_unique _ _ _ _ G H) as P. assert (X : In (Q2Qc (128 # 224)) (fracs 224 [0; 0; 0; 37; 72; 129]%Z)) by (apply (Permutation_in _ P); do 5 right; left; reflexivity).
    assert (Y : existsb (qc_eqb (Q2Qc (128 # 224))) (fracs 224 [0; 0; 0; 37; 72; 129]%Z) = false) by (vm_compute; reflexivity).
    rewrite (proj2 (existsb_exists _ _)) in Y; [discriminate|]. exists (Q2Qc (128 # 224)). split; [exact X|apply qc_dec_ok; reflexivity].
Qed.
