(** Computations about the YE curve: the paths with its prototype, its dilation. *)
From Verif Require Import Py L_Py L_Qc M_BaseMaps M_Subsets M_Paths M_Curves M_PathTree M_PathGen M_Gates M_Utils M_Heap M_Sat M_Dilation M_Search M_Zoo
  S_BaseMaps S_Subsets S_Utils S_Curves S_PathGen S_PathTree S_Gates S_Heap S_Ratio S_Dilation S_Search
  P_Valid P_Heap T_Search M_Heapq M_YE S_YE S_YECurves P_YE P_YEMain.
From Coq Require Import Reals Permutation.
Local Open Scope nat_scope.

Definition ye : curve := curve_or zoo_ye.
Lemma ye_zoo : zoo_ye = Some ye. Proof. vm_compute. reflexivity. Qed.
Lemma ye_unique Y : zoo_ye = Some Y -> Y = ye. Proof. intros E. unfold ye. rewrite E. reflexivity. Qed.
Lemma ye_class : search_curve 2 5 1 (Some 1%Z) ye. Proof. apply search_curve_check; vm_compute; reflexivity. Qed.
Lemma ye_side : has_gates 2 ye [side_gates]. Proof. apply gate_test_ok; [reflexivity|apply dim3|vm_compute; reflexivity]. Qed.

Definition count_test (par : search_par (list Qc)) : bool :=
  match image_protos ye, link_paths 2 5 (Some 1%Z) par side_gates with
  | Some protos, Some sres => Nat.eqb (length (filter (first_proto_in protos) sres)) 1 && existsb (fun ps => negb (first_proto_in protos ps)) sres
  | _, _ => false
  end.
Lemma count_true : count_test (M_Gates.SP (fun _ => 0%Z) (Z.to_nat 1000000) 5 (Some 3)) = true.
Proof. vm_cast_no_check (eq_refl true). Qed.
Lemma count_one : exists protos fuel sres, image_protos ye = Some protos /\ link_paths 2 5 (Some 1%Z) (M_Gates.SP (fun _ => 0%Z) fuel 5 (Some 3)) side_gates = Some sres /\
  length (filter (first_proto_in protos) sres) = 1 /\ exists ps, In ps sres /\ first_proto_in protos ps = false.
Proof.
  pose proof count_true as H. revert H. generalize (Z.to_nat 1000000) as n. intros n H. unfold count_test in H. destruct (image_protos ye) as [protos|]; [|discriminate]. destruct (link_paths _ _ _ _ _) as [sres|] eqn:E in H; [|discriminate].
  apply andb_prop in H. destruct H as [H1 H2]. apply Nat.eqb_eq in H1. apply existsb_exists in H2. destruct H2 as (ps & H2 & H3). apply negb_true_iff in H3. exists protos, n, sres. split; [reflexivity|]. split; [exact E|]. split; [exact H1|]. exists ps. split; [exact H2|exact H3].
Qed.

Definition bounds_test (r : option (Qc * Qc * option argmax)) : bool :=
  match r with Some (lo, up, Some _) => Qc_eq_bool lo (Zq 408 / Zq 73) && Qc_eq_bool up (Zq 13281250 / Zq 2376291) | _ => false end.
Lemma bounds_true : bounds_test (check_ye ye ratio_l2 cpython_heapq (Z.to_nat 1000000) 5 100000) = true.
Proof. vm_cast_no_check (eq_refl true). Qed.
Lemma ye_bounds : exists fuel am, check_ye ye ratio_l2 cpython_heapq fuel 5 100000 = Some ((Zq 408 / Zq 73)%Qc, (Zq 13281250 / Zq 2376291)%Qc, Some am).
Proof.
  pose proof bounds_true as H. revert H. generalize (Z.to_nat 1000000) as n. intros n H. exists n. destruct (check_ye _ _ _ _ _ _) as [[[lo up] [am|]]|]; try discriminate. cbn [bounds_test] in H. apply andb_prop in H. destruct H as [H1 H2].
  apply Qc_eq_bool_correct in H1, H2. exists am. rewrite H1, H2. reflexivity.
Qed.
