(** The norms shipped with the program: the dependence of their ratios on time. *)
From Verif Require Import Py L_Qc S_Ratio S_Term P_Ratio.
From Coq Require Import Reals Lra Lia.
Local Open Scope R_scope.

Lemma linf_nonneg dv : 0 <= norm_linf dv.
Proof. unfold norm_linf. induction dv as [|x l IH]; cbn; [lra|]. apply Rle_trans with (1 := IH). apply Rmax_r. Qed.
Lemma linf_pos dv : Exists (fun x => x <> 0) dv -> 0 < norm_linf dv.
Proof.
  unfold norm_linf. induction 1 as [x l Hx|x l _ IH]; cbn.
  - apply Rlt_le_trans with (1 := Rabs_pos_lt _ Hx). apply Rmax_l.
  - apply Rlt_le_trans with (1 := IH). apply Rmax_r.
Qed.
Lemma l1_nonneg dv : 0 <= norm_l1 dv.
Proof. unfold norm_l1. induction dv as [|x l IH]; cbn; [lra|]. pose proof (Rabs_pos x). lra. Qed.
Lemma l1_pos dv : Exists (fun x => x <> 0) dv -> 0 < norm_l1 dv.
Proof.
  induction 1 as [x l Hx|x l _ IH]; unfold norm_l1 in *; cbn.
  - pose proof (Rabs_pos_lt _ Hx). pose proof (l1_nonneg l). unfold norm_l1 in *. lra.
  - pose proof (Rabs_pos x). lra.
Qed.
Lemma sq_nonneg dv : 0 <= fold_right Rplus 0 (map (fun x => x * x) dv).
Proof. induction dv as [|x l IH]; cbn; [lra|]. pose proof (Rle_0_sqr x). unfold Rsqr in *. lra. Qed.
Lemma l2_pos dv : Exists (fun x => x <> 0) dv -> 0 < norm_l2 dv.
Proof.
  intro H. unfold norm_l2. apply sqrt_lt_R0. induction H as [x l Hx|x l _ IH]; cbn.
  - pose proof (Rsqr_pos_lt _ Hx). pose proof (sq_nonneg l). unfold Rsqr in *. lra.
  - pose proof (Rle_0_sqr x). unfold Rsqr in *. lra.
Qed.
Lemma power_one N d : (forall dv, Exists (fun x => x <> 0) dv -> 0 < N dv) -> ratio_power 1 (norm_ratio N d).
Proof.
  intro HN. split; auto.
  - intros dv dt Ht. unfold norm_ratio. field. lra.
  - intros dv Hd. unfold norm_ratio. apply Rdiv_lt_0_compat; [apply pow_lt; auto|lra].
Qed.
Theorem norms_power d : ratio_power 1 (norm_ratio norm_linf d) /\ ratio_power 1 (norm_ratio norm_l1 d) /\ ratio_power 1 (norm_ratio norm_l2 d) /\
  ratio_power 2 (fun dv dt => (norm_ratio norm_l2 d dv dt)²).
Proof.
  split; [apply power_one, linf_pos|]. split; [apply power_one, l1_pos|]. split; [apply power_one, l2_pos|]. split; [lia| |].
  - intros dv dt Ht. unfold norm_ratio, Rsqr. field. lra.
  - intros dv Hd. apply Rlt_0_sqr. apply Rgt_not_eq. apply Rdiv_lt_0_compat; [apply pow_lt, l2_pos; auto|lra].
Qed.

(** They are norms. *)
Lemma triangle_linf v : forall w, length v = length w -> norm_linf (vec_sum v w) <= norm_linf v + norm_linf w.
Proof.
  unfold norm_linf, vec_sum. induction v as [|x v IH]; intros [|y w] H; try discriminate; cbn; [lra|]. injection H as H. specialize (IH w H).
  pose proof (linf_nonneg v) as Nv. pose proof (linf_nonneg w) as Nw. unfold norm_linf in Nv, Nw. pose proof (Rabs_triang x y).
  pose proof (Rmax_l (Rabs x) (fold_right Rmax 0 (map Rabs v))). pose proof (Rmax_r (Rabs x) (fold_right Rmax 0 (map Rabs v))).
  pose proof (Rmax_l (Rabs y) (fold_right Rmax 0 (map Rabs w))). pose proof (Rmax_r (Rabs y) (fold_right Rmax 0 (map Rabs w))). apply Rmax_lub; lra.
Qed.
Lemma triangle_l1 v : forall w, length v = length w -> norm_l1 (vec_sum v w) <= norm_l1 v + norm_l1 w.
Proof.
  unfold norm_l1, vec_sum. induction v as [|x v IH]; intros [|y w] H; try discriminate; cbn; [lra|]. injection H as H. specialize (IH w H). pose proof (Rabs_triang x y). lra.
Qed.
Lemma minkowski a b x y s : 0 <= a -> 0 <= b -> 0 <= s <= a + b -> sqrt ((x + y) * (x + y) + s * s) <= sqrt (x * x + a * a) + sqrt (y * y + b * b).
Proof.
  intros Ha Hb Hs. set (p := sqrt (x * x + a * a)). set (q := sqrt (y * y + b * b)).
  assert (Hp : p * p = x * x + a * a) by (apply sqrt_sqrt; nra). assert (Hq : q * q = y * y + b * b) by (apply sqrt_sqrt; nra).
  assert (P0 : 0 <= p) by apply sqrt_pos. assert (Q0 : 0 <= q) by apply sqrt_pos.
  rewrite <- (sqrt_square (p + q)) by lra. apply sqrt_le_1_alt.
  assert (C : x * y + a * b <= p * q).
  { apply Rsqr_incr_0_var; [|nra]. unfold Rsqr. replace (p * q * (p * q)) with ((p * p) * (q * q)) by ring. rewrite Hp, Hq. pose proof (Rle_0_sqr (x * b - y * a)). unfold Rsqr in *. nra. }
  assert (s * s <= (a + b) * (a + b)) by nra. nra.
Qed.
Lemma l2_cons x v : norm_l2 (x :: v) = sqrt (x * x + norm_l2 v * norm_l2 v).
Proof. unfold norm_l2. cbn. rewrite sqrt_sqrt by apply sq_nonneg. reflexivity. Qed.
Lemma triangle_l2 v : forall w, length v = length w -> norm_l2 (vec_sum v w) <= norm_l2 v + norm_l2 w.
Proof.
  induction v as [|x v IH]; intros [|y w] H; try discriminate; [unfold norm_l2, vec_sum; cbn; rewrite sqrt_0; lra|]. injection H as H. specialize (IH w H).
  change (vec_sum (x :: v) (y :: w)) with ((x + y) :: vec_sum v w). rewrite !l2_cons. apply minkowski; try apply sqrt_pos. split; [apply sqrt_pos|auto].
Qed.
Lemma norm_one N d : norm_laws N -> (forall dv, Exists (fun x => x <> 0) dv -> 0 < N dv) -> (forall v w, length v = length w -> N (vec_sum v w) <= N v + N w) ->
  ratio_norm d 1 N (norm_ratio N d) /\ ratio_norm d 2 N (fun dv dt => (norm_ratio N d dv dt)²).
Proof.
  intros HN HP HT. split; (split; auto; [|apply (nl_pos N HN)|apply (nl_mono N HN)]); intros dv dt Ht; unfold norm_ratio, Rsqr; cbn [pow]; lra.
Qed.
Theorem norms_norm d : ratio_norm d 1 norm_linf (norm_ratio norm_linf d) /\ ratio_norm d 1 norm_l1 (norm_ratio norm_l1 d) /\ ratio_norm d 1 norm_l2 (norm_ratio norm_l2 d) /\
  ratio_norm d 2 norm_l2 (fun dv dt => (norm_ratio norm_l2 d dv dt)²).
Proof.
  split; [apply norm_one; [exact linf_laws|exact linf_pos|exact triangle_linf]|]. split; [apply norm_one; [exact l1_laws|exact l1_pos|exact triangle_l1]|].
  split; apply norm_one; (exact l2_laws || exact l2_pos || exact triangle_l2).
Qed.
Lemma norm_power d p N rR : ratio_norm d p N rR -> ratio_power p rR.
Proof.
  intros H. split; [apply H| |].
  - intros dv dt Ht. rewrite !(rn_value _ _ _ _ H) by lra. rewrite <- Rpow_mult_distr. f_equal. field. lra.
  - intros dv Hd. rewrite (rn_value _ _ _ _ H) by lra. apply pow_lt. apply Rdiv_lt_0_compat; [apply pow_lt, (rn_pos _ _ _ _ H); auto|lra].
Qed.
