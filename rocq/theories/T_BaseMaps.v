(** Property theorems C01-C04, C06 (base maps). Nothing else is in this file. *)
From Verif Require Import Py L_Py L_Qc M_BaseMaps S_BaseMaps L_BaseMaps P_Actions P_GenMaps.
Local Open Scope nat_scope.

(** C01: base maps form a group; time reversal is a central involution; conjugation is an automorphism. *)
Theorem C01_group : forall d a b c, wf_bm d a -> wf_bm d b -> wf_bm d c ->
  wf_bm d (bm_mul a b) /\ wf_bm d (id_map d) /\ wf_bm d (bm_inv a) /\
  bm_mul (bm_mul a b) c = bm_mul a (bm_mul b c) /\
  bm_mul (id_map d) a = a /\ bm_mul a (id_map d) = a /\
  bm_mul a (bm_inv a) = id_map d /\ bm_mul (bm_inv a) a = id_map d.
Proof.
  intros d a b c Ha Hb Hc.
  exact (conj (wf_mul d a b Ha Hb) (conj (wf_id d) (conj (wf_inv d a Ha) (conj (mul_assoc d a b c Ha Hb Hc)
    (conj (mul_id_l d a Ha) (conj (mul_id_r d a Ha) (conj (mul_inv_r d a Ha) (mul_inv_l d a Ha)))))))).
Qed.
Print Assumptions C01_group.

Theorem C01_time_reversal : forall d a b, wf_bm d a ->
  wf_bm d (bm_rev a) /\ bm_rev (bm_rev a) = a /\ bm_rev a <> a /\
  bm_mul (bm_rev a) b = bm_rev (bm_mul a b) /\ bm_mul a (bm_rev b) = bm_rev (bm_mul a b) /\
  bm_inv (bm_rev a) = bm_rev (bm_inv a) /\ bm_rev a = bm_mul (bm_rev (id_map d)) a.
Proof.
  intros d a b Ha. split; [exact (wf_rev d a Ha)|]. split; [exact (rev_rev a)|]. split.
  - intros E. apply (f_equal time_rev) in E. cbn in E. destruct (time_rev a); discriminate.
  - split; [exact (rev_mul_l a b)|]. split; [exact (rev_mul_r a b)|]. split; [exact (inv_rev a)|].
    rewrite rev_mul_l, (mul_id_l d a Ha). reflexivity.
Qed.
Print Assumptions C01_time_reversal.

Theorem C01_conjugation : forall d a b g h, wf_bm d a -> wf_bm d b -> wf_bm d g -> wf_bm d h ->
  wf_bm d (bm_conj a g) /\
  bm_conj (bm_mul a b) g = bm_mul (bm_conj a g) (bm_conj b g) /\
  bm_conj (id_map d) g = id_map d /\
  bm_conj (bm_conj a g) h = bm_conj a (bm_mul h g) /\
  bm_conj a (id_map d) = a /\
  (bm_conj a g = bm_conj b g -> a = b) /\
  bm_conj a g = bm_mul (bm_mul g a) (bm_inv g).
Proof.
  intros d a b g h Ha Hb Hg Hh.
  exact (conj (wf_conj d a g Ha Hg) (conj (conj_mul d a b g Ha Hb Hg) (conj (conj_id d g Hg)
    (conj (conj_conj d a g h Ha Hg Hh) (conj (conj_by_id d a Ha) (conj (conj_inj d a b g Ha Hb Hg) eq_refl)))))).
Qed.
Print Assumptions C01_conjugation.

(** The hypotheses are met by a non-trivial (non-commuting) pair in dimension 3. *)
Example C01_example :
  let a := BM [(1, true); (2, false); (0, true)] true in
  let b := BM [(2, false); (1, true); (0, false)] false in
  wf_bm 3 a /\ wf_bm 3 b /\ bm_mul a b <> bm_mul b a.
Proof.
  cbn zeta. split; [|split].
  - apply wf_bmb_ok; reflexivity.
  - apply wf_bmb_ok; reflexivity.
  - vm_compute. congruence.
Qed.

(** C02: the coordinates of the image, as documented: y_i = x_k or mx - x_k for (k, b) = coords[i]. *)
Theorem C02_coordinates : forall d b mx x i, wf_bm d b -> length x = d -> i < d ->
  exists k f xk, nth_error (coords b) i = Some (k, f) /\ nth_error x k = Some xk /\
    nth_error (apply_x b mx x) i = Some (if f then (mx - xk)%Qc else xk).
Proof. exact apply_x_coord. Qed.
Print Assumptions C02_coordinates.

(** C02: group actions. *)
Theorem C02_action_x : forall d a b mx x, wf_bm d a -> wf_bm d b -> length x = d ->
  length (apply_x a mx x) = d /\
  apply_x (bm_mul a b) mx x = apply_x a mx (apply_x b mx x) /\ apply_x (id_map d) mx x = x /\
  apply_x (bm_inv a) mx (apply_x a mx x) = x /\ apply_x a mx (apply_x (bm_inv a) mx x) = x.
Proof. exact action_x. Qed.
Print Assumptions C02_action_x.

Theorem C02_action_vec : forall d a b x, wf_bm d a -> wf_bm d b -> length x = d ->
  length (apply_vec a x) = d /\
  apply_vec (bm_mul a b) x = apply_vec a (apply_vec b x) /\ apply_vec (id_map d) x = x /\
  apply_vec (bm_inv a) (apply_vec a x) = x /\ apply_vec a (apply_vec (bm_inv a) x) = x.
Proof. exact action_vec. Qed.
Print Assumptions C02_action_vec.

Theorem C02_action_cube : forall d a b N x, wf_bm d a -> wf_bm d b -> length x = d ->
  length (apply_cube a N x) = d /\
  apply_cube (bm_mul a b) N x = apply_cube a N (apply_cube b N x) /\ apply_cube (id_map d) N x = x /\
  apply_cube (bm_inv a) N (apply_cube a N x) = x /\ apply_cube a N (apply_cube (bm_inv a) N x) = x.
Proof. exact action_cube. Qed.
Print Assumptions C02_action_cube.

Theorem C02_action_cube_start : forall d a b len x, wf_bm d a -> wf_bm d b -> length x = d ->
  length (apply_cube_start a x len) = d /\
  apply_cube_start (bm_mul a b) x len = apply_cube_start a (apply_cube_start b x len) len /\
  apply_cube_start (id_map d) x len = x /\
  apply_cube_start (bm_inv a) (apply_cube_start a x len) len = x /\
  apply_cube_start a (apply_cube_start (bm_inv a) x len) len = x.
Proof. exact action_cube_start. Qed.
Print Assumptions C02_action_cube_start.

Theorem C02_action_t : forall d a b mt t,
  apply_t (bm_mul a b) mt t = apply_t a mt (apply_t b mt t) /\ apply_t (id_map d) mt t = t /\
  apply_t (bm_inv a) mt (apply_t a mt t) = t /\ apply_t (bm_rev a) mt t = (mt - apply_t a mt t)%Qc /\
  ((0 <= t)%Qc /\ (t <= mt)%Qc -> (0 <= apply_t a mt t)%Qc /\ (apply_t a mt t <= mt)%Qc).
Proof. exact action_t. Qed.
Print Assumptions C02_action_t.

Theorem C02_action_cnum : forall d a b G c,
  apply_cnum (bm_mul a b) G c = apply_cnum a G (apply_cnum b G c) /\ apply_cnum (id_map d) G c = c /\
  apply_cnum (bm_inv a) G (apply_cnum a G c) = c /\
  apply_cnum (bm_rev a) G c = (G - 1 - apply_cnum a G c)%Z /\
  ((0 <= c < G)%Z -> (0 <= apply_cnum a G c < G)%Z).
Proof. exact action_cnum. Qed.
Print Assumptions C02_action_cnum.

(** C02: apply_x keeps the cube and all distances; apply_vec is its linear part. *)
Theorem C02_isometry : forall d b mx x y, wf_bm d b -> length x = d -> length y = d ->
  Permutation (abs_diffs (apply_x b mx x) (apply_x b mx y)) (abs_diffs x y) /\
  (in_cube01 mx x -> in_cube01 mx (apply_x b mx x)) /\
  vsubQ (apply_x b mx x) (apply_x b mx y) = apply_vecQ b (vsubQ x y).
Proof.
  intros d b mx x y Hb Hx Hy.
  exact (conj (apply_x_isometry d b mx x y Hb Hx Hy) (conj (apply_x_in d b mx x Hb Hx) (apply_x_vec d b mx x y Hb Hx Hy))).
Qed.
Print Assumptions C02_isometry.

(** C02: apply_cube / apply_cube_start give exactly the image of the sub-cube. *)
Theorem C02_cube_image : forall d b N c y, wf_bm d b -> length c = d -> length y = d ->
  (in_cube N (apply_cube b N c) (apply_x b 1%Qc y) <-> in_cube N c y) /\
  (Forall (fun v => 0 <= v < N)%Z c -> Forall (fun v => 0 <= v < N)%Z (apply_cube b N c)).
Proof.
  intros d b N c y Hb Hc Hy.
  exact (conj (in_cube_iff d b N c y Hb Hc Hy) (apply_cube_range d b N c Hb Hc)).
Qed.
Print Assumptions C02_cube_image.
Theorem C02_cube_start_image : forall d b s len y, wf_bm d b -> length s = d -> length y = d ->
  (in_box (apply_cube_start b s len) len (apply_x b 1%Qc y) <-> in_box s len y).
Proof. exact in_box_iff. Qed.
Print Assumptions C02_cube_start_image.

Example C02_example :
  let b := BM [(1, true); (0, false)] true in
  wf_bm 2 b /\ apply_cube b 3 [0; 1]%Z = [1; 0]%Z /\ apply_vec b [5; -2]%Z = [2; 5]%Z
  /\ in_cube 3 [0; 1]%Z [0%Qc; Q2Qc (1#3)].
Proof.
  split; [|split; [|split]].
  - apply wf_bmb_ok; reflexivity.
  - reflexivity.
  - reflexivity.
  - repeat constructor; vm_compute; congruence.
Qed.

(** C03: powers. *)
Theorem C03_powers : forall d b p, wf_bm d b ->
  ((0 < p)%Z -> exists fuel, bm_pow fuel b p = Some (npow d b (Z.to_nat p))) /\
  ((p < 0)%Z -> exists fuel, bm_pow fuel b p = Some (npow d (bm_inv b) (Z.to_nat (- p)))) /\
  (forall fuel r, bm_pow fuel b p = Some r -> (0 < p)%Z \/ (p < 0)%Z).
Proof. exact powers. Qed.
Print Assumptions C03_powers.
Theorem C03_zeroth_power_diverges_refuted : forall b fuel, bm_pow fuel b 0 = None.
Proof. exact pow_0_diverges. Qed.
Print Assumptions C03_zeroth_power_diverges_refuted.
Example C03_example : let b := BM [(1, true); (0, false)] false in
  bm_pow 9 b 3 = Some (BM [(1, false); (0, true)] false) /\ bm_pow 9 b (-1) = Some (bm_inv b).
Proof. split; reflexivity. Qed.

(** C04: gen_base_maps enumerates the group, each element once. *)
Theorem C04_gen_base_maps : forall d tr,
  NoDup (gen_base_maps d tr) /\
  forall b, In b (gen_base_maps d tr) <-> wf_bm d b /\ (tr = None \/ tr = Some (time_rev b)).
Proof. intros d tr. exact (conj (NoDup_gen_base_maps d tr) (In_gen_base_maps d tr)). Qed.
Print Assumptions C04_gen_base_maps.
Example C04_example : length (gen_base_maps 3 None) = 96 /\ length (gen_base_maps 3 (Some true)) = 48.
Proof. split; reflexivity. Qed.

(** C06: gen_constraint_fast is exact. *)
Theorem C06_gen_constraint_fast : forall src dst, length src = length dst ->
  NoDup (gen_constraint_fast src dst) /\
  forall b, In b (gen_constraint_fast src dst) <->
    wf_bm (length src) b /\ time_rev b = false /\ apply_x b 1%Qc src = dst.
Proof. intros src dst H. exact (conj (NoDup_gen_constraint src dst H) (In_gen_constraint src dst H)). Qed.
Print Assumptions C06_gen_constraint_fast.
Example C06_example : let h := Q2Qc (1#2) in let t := Q2Qc (1#3) in
  length (gen_constraint_fast [h; t; (1 - t)%Qc] [t; t; h]) = 4 /\ gen_constraint_fast [0%Qc; t] [h; t] = [].
Proof. split; vm_compute; reflexivity. Qed.
