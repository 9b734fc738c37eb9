(** Proofs about the ratio functions. *)
From Verif Require Import Py L_Py L_Qc M_Utils S_Utils L_R S_Ratio.
From Coq Require Import Reals Qreals Lra Permutation.
Local Open Scope R_scope.

Record norm_laws (N : list R -> R) : Prop := {
  nl_pos : forall v, 0 <= N v;
  nl_hom : forall k v, 0 < k -> N (map (Rmult k) v) = k * N v;
  nl_sym : forall v w, Permutation (map Rabs v) (map Rabs w) -> N v = N w;
  nl_mono : forall v w, Forall2 (fun x y => Rabs x <= Rabs y) v w -> N v <= N w }.

Lemma linf_laws : norm_laws norm_linf.
Proof.
  constructor; unfold norm_linf.
  - induction v; cbn; [lra|]. eapply Rle_trans; [apply IHv|apply Rmax_r].
  - intros k v Hk. induction v; cbn; [lra|]. rewrite IHv, Rabs_mult, (Rabs_right k) by lra.
    rewrite RmaxRmult by lra. auto.
  - intros v w HP. induction HP; cbn; try congruence. rewrite !Rmax_assoc, (Rmax_comm x y). auto.
  - induction 1; cbn; [lra|]. apply Rle_max_compat_l with (z := Rabs y) in IHForall2.
    eapply Rle_trans; [apply Rle_max_compat_r|]; eauto.
Qed.
Lemma fold_plus_perm l l' : Permutation l l' -> fold_right Rplus 0 l = fold_right Rplus 0 l'.
Proof. induction 1; cbn; lra. Qed.
Lemma l1_laws : norm_laws norm_l1.
Proof.
  constructor; unfold norm_l1.
  - induction v; cbn; [lra|]. pose proof (Rabs_pos a); lra.
  - intros k v Hk. induction v; cbn; [lra|]. rewrite IHv, Rabs_mult, (Rabs_right k) by lra. lra.
  - intros v w HP. apply fold_plus_perm; auto.
  - induction 1; cbn; lra.
Qed.
Lemma sq_abs x : x * x = Rabs x * Rabs x.
Proof. unfold Rabs; destruct (Rcase_abs x); lra. Qed.
Definition sumsq (v : list R) : R := fold_right Rplus 0 (map (fun x => x * x) v).
Lemma sumsq_pos v : 0 <= sumsq v.
Proof. unfold sumsq. induction v; cbn; [lra|nra]. Qed.
Lemma l2_laws : norm_laws norm_l2.
Proof.
  constructor; unfold norm_l2; fold sumsq.
  - intros; apply sqrt_pos.
  - intros k v Hk. fold (sumsq (map (Rmult k) v)). fold (sumsq v).
    replace (sumsq (map (Rmult k) v)) with ((k * k) * sumsq v).
    + rewrite sqrt_mult by (try apply sumsq_pos; nra). rewrite sqrt_square by lra. auto.
    + unfold sumsq. induction v; cbn; [lra|]. rewrite <- IHv. lra.
  - intros v w HP. f_equal. rewrite (map_ext _ _ sq_abs v), (map_ext _ _ sq_abs w).
    rewrite <- (map_map Rabs (fun x => x * x)), <- (map_map Rabs (fun x => x * x) w). apply fold_plus_perm, Permutation_map; auto.
  - intros v w HF. apply sqrt_le_1_alt. induction HF; cbn; [lra|]. rewrite (sq_abs x), (sq_abs y).
    pose proof (Rabs_pos x). pose proof (Rabs_pos y). nra.
Qed.

Lemma norm_ratio_laws N d rQ : norm_laws N ->
  (forall dv dt, length dv = d -> (0 < dt)%Qc -> exists v, rQ dv dt = Some v /\ qR v = norm_ratio N d (map qR dv) (qR dt)) ->
  ratio_ok d rQ (norm_ratio N d).
Proof.
  intros HN HQ. constructor; auto; unfold norm_ratio.
  - intros dv dt Hdt. apply Rmult_le_pos; [apply pow_le, nl_pos; auto|]. left. apply Rinv_0_lt_compat; auto.
  - intros k dv dt Hk Hdt. rewrite (nl_hom N HN), Rpow_mult_distr by auto. pose proof (pow_lt k d Hk). field. lra.
  - intros dv dv' dt HP. rewrite (nl_sym N HN dv dv' HP). auto.
  - intros dv dv' dt dt' HF [H1 H2]. apply Rmult_le_compat.
    + apply pow_le, nl_pos; auto.
    + left; apply Rinv_0_lt_compat; lra.
    + apply pow_incr. split; [apply nl_pos; auto|apply nl_mono; auto].
    + apply Rinv_le_contravar; auto.
Qed.
Lemma norm_ratio_sq_laws N d rQ : norm_laws N ->
  (forall dv dt, length dv = d -> (0 < dt)%Qc -> exists v, rQ dv dt = Some v /\ qR v = (norm_ratio N d (map qR dv) (qR dt))²) ->
  ratio_ok d rQ (fun dv dt => (norm_ratio N d dv dt)²).
Proof.
  intros HN HQ.
  assert (H : ratio_ok 0 (fun _ _ => Some 0%Qc) (fun _ _ => 0)).
  { constructor; intros; try lra. exists 0%Qc. rewrite qR_0. auto. }
  assert (HL : forall dv dt, 0 < dt -> 0 <= norm_ratio N d dv dt).
  { intros dv dt Hdt. unfold norm_ratio. apply Rmult_le_pos; [apply pow_le, nl_pos; auto|]. left. apply Rinv_0_lt_compat; auto. }
  constructor; auto.
  - intros dv dt Hdt. apply Rle_0_sqr.
  - intros k dv dt Hk Hdt. f_equal. unfold norm_ratio. rewrite (nl_hom N HN), Rpow_mult_distr by auto. pose proof (pow_lt k d Hk). field. lra.
  - intros dv dv' dt HP. f_equal. unfold norm_ratio. rewrite (nl_sym N HN dv dv' HP). auto.
  - intros dv dv' dt dt' HF [H1 H2]. apply Rsqr_incr_1; try (apply HL; lra).
    unfold norm_ratio. apply Rmult_le_compat.
    + apply pow_le, nl_pos; auto.
    + left; apply Rinv_0_lt_compat; lra.
    + apply pow_incr. split; [apply nl_pos; auto|apply nl_mono; auto].
    + apply Rinv_le_contravar; auto.
Qed.

(** the code's values *)
Lemma qR_abs x : qR (qabs x) = Rabs (qR x).
Proof.
  unfold Qcabs.Qcabs. unfold qR. cbn [this].
  apply Qabs_case; intros H; apply Qle_Rle in H; rewrite RMicromega.Q2R_0 in H.
  - rewrite Rabs_right; auto. lra.
  - rewrite Rabs_left1, Q2R_opp; auto.
Qed.
Lemma qR_qmax x y : qR (qmax x y) = Rmax (qR x) (qR y).
Proof.
  unfold qmax. destruct (Qclt_le_dec x y) as [H|H].
  - apply qR_lt in H. rewrite Rmax_right; lra.
  - apply qR_le in H. rewrite Rmax_left; lra.
Qed.
Lemma fold_qmax xs : forall x, qR (fold_left qmax xs x) = fold_right Rmax (qR x) (map qR xs).
Proof.
  induction xs as [|y xs IH]; intros x; cbn; auto. rewrite IH, qR_qmax.
  generalize (qR x) (qR y). clear. intros a b. induction xs; cbn; [apply Rmax_comm|]. rewrite IHxs, !Rmax_assoc. f_equal. apply Rmax_comm.
Qed.
Lemma qmax_list_abs dv : dv <> [] -> exists m, qmax_list (map qabs dv) = Some m /\ qR m = norm_linf (map qR dv).
Proof.
  destruct dv as [|x xs]; [congruence|]. intros _. cbn [map qmax_list]. eexists; split; [reflexivity|].
  rewrite fold_qmax, map_map. unfold norm_linf. cbn [map fold_right]. rewrite qR_abs, map_map.
  rewrite (map_ext _ _ (fun a => qR_abs a)).
  pose proof (Rabs_pos (qR x)). generalize (Rabs (qR x)) H. clear. intros a Ha.
  induction xs; cbn; [rewrite Rmax_left; auto; lra|]. rewrite IHxs, !Rmax_assoc. f_equal. apply Rmax_comm.
Qed.
Lemma fold_qsum xs : forall x, qR (fold_left Qcplus xs x) = qR x + fold_right Rplus 0 (map qR xs).
Proof. induction xs as [|y xs IH]; intros x; cbn; [lra|]. rewrite IH, qR_add. lra. Qed.
Lemma qsum_R xs : qR (qsum xs) = fold_right Rplus 0 (map qR xs).
Proof. unfold qsum. rewrite fold_qsum, qR_0. lra. Qed.
Lemma qsum_abs dv : qR (qsum (map qabs dv)) = norm_l1 (map qR dv).
Proof. rewrite qsum_R. unfold norm_l1. rewrite !map_map. rewrite (map_ext _ _ qR_abs). auto. Qed.
Lemma qsum_sq dv : qR (qsum (map (fun x => (x ^ 2)%Qc) dv)) = sumsq (map qR dv).
Proof.
  rewrite qsum_R. unfold sumsq. rewrite !map_map. f_equal. apply map_ext. intros x. rewrite qR_pow. ring.
Qed.
Lemma frac_pos a b : (0 < b)%Qc -> exists v, frac a b = Some v /\ qR v = qR a / qR b.
Proof.
  intros H. unfold frac. assert (b <> 0%Qc) by (intros ->; revert H; unfold Qclt; cbn; apply Qlt_irrefl).
  destruct (Qc_eq_dec b 0); [contradiction|]. eexists; split; [reflexivity|]. apply qR_div; auto.
Qed.

Lemma linf_value d dv dt : (1 <= d)%nat -> length dv = d -> (0 < dt)%Qc ->
  exists v, ratio_linf d dv dt = Some v /\ qR v = norm_ratio norm_linf d (map qR dv) (qR dt).
Proof.
  intros Hd HL Hdt. unfold ratio_linf. destruct (qmax_list_abs dv) as (m & -> & Hm).
  { intros ->. cbn in HL. lia. }
  destruct (frac_pos (m ^ d)%Qc dt Hdt) as (v & Hv & E). exists v. split; auto. rewrite E, qR_pow, Hm. reflexivity.
Qed.
Lemma l1_value d dv dt : length dv = d -> (0 < dt)%Qc ->
  exists v, ratio_l1 d dv dt = Some v /\ qR v = norm_ratio norm_l1 d (map qR dv) (qR dt).
Proof.
  intros HL Hdt. unfold ratio_l1. destruct (frac_pos (qsum (map qabs dv) ^ d)%Qc dt Hdt) as (v & Hv & E).
  exists v. split; auto. rewrite E, qR_pow, qsum_abs. reflexivity.
Qed.
Lemma sq_norm_l2 v : sumsq v = norm_l2 v * norm_l2 v.
Proof. unfold norm_l2. fold (sumsq v). rewrite sqrt_sqrt; auto. apply sumsq_pos. Qed.
Lemma l2sq_value d dv dt : length dv = d -> (0 < dt)%Qc ->
  exists v, ratio_l2_squared d dv dt = Some v /\ qR v = (norm_ratio norm_l2 d (map qR dv) (qR dt))².
Proof.
  intros HL Hdt. unfold ratio_l2_squared.
  pose proof Hdt as Hdt'. apply qR_lt in Hdt'. rewrite qR_0 in Hdt'.
  assert (Hd2 : (0 < dt ^ 2)%Qc).
  { apply qR_lt. rewrite qR_0, qR_pow. apply pow_lt; auto. }
  destruct (frac_pos (qsum (map (fun x => (x ^ 2)%Qc) dv) ^ d)%Qc _ Hd2) as (v & Hv & E).
  exists v. split; auto. rewrite E, !qR_pow, qsum_sq, sq_norm_l2. unfold norm_ratio, Rsqr. rewrite Rpow_mult_distr.
  field. lra.
Qed.
Lemma l2_value d dv dt : Nat.even d = true -> length dv = d -> (0 < dt)%Qc ->
  exists v, ratio_l2 d dv dt = Some v /\ qR v = norm_ratio norm_l2 d (map qR dv) (qR dt).
Proof.
  intros He HL Hdt. unfold ratio_l2. apply Nat.even_spec in He as [k Hk].
  assert ((d mod 2)%nat = 0%nat /\ (d / 2)%nat = k) as [-> ->].
  { subst d. rewrite Nat.mul_comm, Nat.mod_mul, Nat.div_mul by lia. auto. }
  cbn [Nat.eqb]. destruct (frac_pos (qsum (map (fun x => (x ^ 2)%Qc) dv) ^ k)%Qc dt Hdt) as (v & Hv & E).
  exists v. split; auto. rewrite E, !qR_pow, qsum_sq, sq_norm_l2. unfold norm_ratio. rewrite Hk, pow_sqr. auto.
Qed.

Lemma linf_ok d : (1 <= d)%nat -> ratio_ok d (ratio_linf d) (norm_ratio norm_linf d).
Proof. intros H. apply norm_ratio_laws; [apply linf_laws|]. intros; apply linf_value; auto. Qed.
Lemma l1_ok d : ratio_ok d (ratio_l1 d) (norm_ratio norm_l1 d).
Proof. apply norm_ratio_laws; [apply l1_laws|]. intros; apply l1_value; auto. Qed.
Lemma l2_ok d : Nat.even d = true -> ratio_ok d (ratio_l2 d) (norm_ratio norm_l2 d).
Proof. intros H. apply norm_ratio_laws; [apply l2_laws|]. intros; apply l2_value; auto. Qed.
Lemma l2sq_ok d : ratio_ok d (ratio_l2_squared d) (fun dv dt => (norm_ratio norm_l2 d dv dt)²).
Proof. apply norm_ratio_sq_laws; [apply l2_laws|]. intros; apply l2sq_value; auto. Qed.

Lemma l2_square d dv dt v : Nat.even d = true -> length dv = d -> (0 < dt)%Qc ->
  ratio_l2 d dv dt = Some v -> ratio_l2_squared d dv dt = Some (v * v)%Qc.
Proof.
  intros He HL Hdt Hv. destruct (l2_value d dv dt He HL Hdt) as (v' & Hv' & E).
  destruct (l2sq_value d dv dt HL Hdt) as (w & Hw & Ew). rewrite Hw. f_equal. apply qR_inj.
  rewrite qR_mul, Ew. assert (v = v') by congruence. subst. rewrite E. reflexivity.
Qed.
Lemma ratio_errors d dv : ratio_linf d dv 0 = None /\ ratio_l1 d dv 0 = None /\ ratio_l2_squared d dv 0 = None /\
  ratio_l2 d dv 0 = None /\ (forall dt, Nat.even d = false -> ratio_l2 d dv dt = None).
Proof.
  unfold ratio_linf, ratio_l1, ratio_l2_squared, ratio_l2, frac. repeat split.
  - destruct (qmax_list _); auto.
  - destruct (Nat.eqb _ _); auto.
  - intros dt H. destruct (Nat.eqb_spec (d mod 2) 0) as [E|]; auto. exfalso.
    pose proof (Nat.div_mod d 2 ltac:(lia)). rewrite E, Nat.add_0_r in H0.
    assert (Nat.even d = true) by (apply Nat.even_spec; exists (d / 2)%nat; auto). congruence.
Qed.

(** the same laws for the rational functions *)
Lemma ratio_ok_Q d rQ rR dv dv' dt dt' k : ratio_ok d rQ rR -> length dv = d -> length dv' = d ->
  (0 < dt')%Qc -> (dt' <= dt)%Qc -> (0 < k)%Qc ->
  exists v v', rQ dv dt = Some v /\ rQ dv' dt' = Some v' /\ (0 <= v)%Qc /\
   rQ (map (Qcmult k) dv) (k ^ d * dt)%Qc = Some v /\
   (Permutation (map qabs dv) (map qabs dv') -> rQ dv' dt = Some v) /\
   (Forall2 (fun x y => (qabs x <= qabs y)%Qc) dv dv' -> (v <= v')%Qc).
Proof.
  intros H HL HL' Hdt' Hle Hk.
  assert (Hdt : (0 < dt)%Qc) by (apply Qclt_le_trans with dt'; auto).
  destruct (ro_value _ _ _ H dv dt HL Hdt) as (v & Hv & E). destruct (ro_value _ _ _ H dv' dt' HL' Hdt') as (v' & Hv' & E').
  exists v, v'. split; auto. split; auto.
  pose proof Hdt as D. pose proof Hdt' as D'. pose proof Hk as K. pose proof Hle as LE.
  apply qR_lt in D, D', K. apply qR_le in LE. rewrite qR_0 in *.
  assert (Hkd : (0 < k ^ d * dt)%Qc).
  { apply qR_lt. rewrite qR_0, qR_mul, qR_pow. apply Rmult_lt_0_compat; auto. apply pow_lt; auto. }
  split; [|split; [|split]].
  - apply qR_le. rewrite qR_0, E. apply (ro_nonneg _ _ _ H); auto.
  - destruct (ro_value _ _ _ H (map (Qcmult k) dv) _ ltac:(rewrite map_length; auto) Hkd) as (w & Hw & Ew).
    rewrite Hw. f_equal. apply qR_inj. rewrite Ew, E. rewrite qR_mul, qR_pow.
    replace (map qR (map (Qcmult k) dv)) with (map (Rmult (qR k)) (map qR dv)).
    + apply (ro_uniform _ _ _ H); auto.
    + rewrite !map_map. apply map_ext. intros; rewrite qR_mul; auto.
  - intros HP. destruct (ro_value _ _ _ H dv' dt HL' Hdt) as (w & Hw & Ew). rewrite Hw. f_equal. apply qR_inj.
    rewrite Ew, E. apply (ro_sym _ _ _ H). apply (Permutation_map qR) in HP.
    rewrite !map_map in *. rewrite !(map_ext _ _ qR_abs) in HP. apply Permutation_sym; auto.
  - intros HF. apply qR_le. rewrite E, E'. apply (ro_mono _ _ _ H); auto.
    clear - HF. induction HF; cbn; constructor; auto. rewrite <- !qR_abs. apply qR_le; auto.
Qed.
