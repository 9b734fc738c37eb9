(** Digit streams and real numbers. *)
From Verif Require Import Py L_Py S_Utils P_Utils.
From Coq Require Import Reals Lra Lia.
Local Open Scope nat_scope.

Definition dpre (e : nat -> Z) (n : nat) : list Z := map e (seq 0 n).
Lemma dpre_length e n : length (dpre e n) = n.
Proof. unfold dpre. rewrite map_length, seq_length; auto. Qed.
Lemma dpre_S e n : dpre e (S n) = dpre e n ++ [e n].
Proof. unfold dpre. rewrite seq_S, map_app; auto. Qed.
Lemma dpre_cons e n : dpre e (S n) = e 0 :: dpre (fun k => e (S k)) n.
Proof. unfold dpre. cbn [seq map]. f_equal. rewrite <- seq_shift, map_map; auto. Qed.
Lemma dpre_plus e n k : dpre e (n + k) = dpre e n ++ dpre (fun i => e (n + i)) k.
Proof.
  induction k as [|k IH]; [rewrite Nat.add_0_r; cbn; rewrite app_nil_r; auto|].
  rewrite Nat.add_succ_r, !dpre_S, IH, app_assoc; auto.
Qed.
Lemma dpre_Forall (P : Z -> Prop) e n : (forall k, P (e k)) -> Forall P (dpre e n).
Proof. intros H. unfold dpre. apply Forall_forall. intros z. rewrite in_map_iff. intros (k & <- & _); auto. Qed.

(** digits flipped: c -> N-1-c *)
Lemma value_flip N l : value N (map (fun c => N - 1 - c)%Z l) = (N ^ Z.of_nat (length l) - 1 - value N l)%Z.
Proof.
  induction l as [|c l IH] using rev_ind; [reflexivity|].
  rewrite map_app. cbn [map]. rewrite !value_snoc, IH, app_length. cbn [length].
  rewrite Nat.add_1_r, Nat2Z.inj_succ, Z.pow_succ_r by lia. ring.
Qed.

Local Open Scope R_scope.
Lemma IZRn_ge2 N : (2 <= N)%nat -> 2 <= IZR (Z.of_nat N).
Proof. intros. apply IZR_le. lia. Qed.
Lemma powN_pos N n : (2 <= N)%nat -> 0 < IZR (Z.of_nat N) ^ n.
Proof. intros. apply pow_lt. pose proof (IZRn_ge2 N H). lra. Qed.

Lemma value_prefix_mono N e n k : (2 <= N)%Z -> (forall i, (0 <= e i < N)%Z) ->
  IZR (value N (dpre e n)) / IZR N ^ n <= IZR (value N (dpre e (n + k))) / IZR N ^ (n + k) /\
  IZR (value N (dpre e (n + k))) / IZR N ^ (n + k) <= (IZR (value N (dpre e n)) + 1) / IZR N ^ n.
Proof.
  intros HN He. rewrite dpre_plus, value_app, dpre_length.
  pose proof (value_range N (dpre (fun i => e (n + i)%nat) k) ltac:(lia) (dpre_Forall _ _ _ (fun i => He _))) as HV.
  rewrite dpre_length in HV. rewrite plus_IZR, mult_IZR, IZR_pow.
  destruct HV as [HV1 HV2]. apply IZR_le in HV1. apply IZR_lt in HV2. rewrite IZR_pow in HV2. rewrite pow_add.
  pose proof (powG_pos N n HN). pose proof (powG_pos N k HN).
  set (V := IZR (value N (dpre e n))) in *. set (W := IZR (value N (dpre (fun i => e (n + i)%nat) k))) in *.
  replace ((V * IZR N ^ k + W) / (IZR N ^ n * IZR N ^ k)) with (V / IZR N ^ n + (W / IZR N ^ k) / IZR N ^ n) by (field; lra).
  assert (0 <= W / IZR N ^ k) by (apply Rmult_le_pos; [lra|left; apply Rinv_0_lt_compat; lra]).
  assert (W / IZR N ^ k <= 1) by (apply Rmult_le_reg_r with (IZR N ^ k); [lra|]; unfold Rdiv; rewrite Rmult_assoc, Rinv_l; lra).
  assert (Hi : 0 < / IZR N ^ n) by (apply Rinv_0_lt_compat; lra).
  unfold Rdiv at 1 2 4 5 6. unfold Rdiv at 1. split; nra.
Qed.

Lemma digits_real N e : (2 <= N)%Z -> (forall i, (0 <= e i < N)%Z) ->
  exists y, forall n, IZR (value N (dpre e n)) <= y * IZR N ^ n <= IZR (value N (dpre e n)) + 1.
Proof.
  intros HN He.
  set (E := fun y => exists n, y = IZR (value N (dpre e n)) / IZR N ^ n).
  assert (Hub : forall n, is_upper_bound E ((IZR (value N (dpre e n)) + 1) / IZR N ^ n)).
  { intros n y (k & ->). destruct (Nat.le_ge_cases n k) as [H|H].
    - replace k with (n + (k - n))%nat by lia. apply value_prefix_mono; auto.
    - pose proof (proj1 (value_prefix_mono N e k (n - k) HN He)) as H1.
      replace (k + (n - k))%nat with n in H1 by lia. eapply Rle_trans; [apply H1|].
      pose proof (powG_pos N n HN). unfold Rdiv. apply Rmult_le_compat_r; [left; apply Rinv_0_lt_compat; lra|lra]. }
  destruct (completeness E) as (y & Hy1 & Hy2).
  - exists ((IZR (value N (dpre e 0)) + 1) / IZR N ^ 0). apply Hub.
  - exists (IZR (value N (dpre e 0)) / IZR N ^ 0). exists 0%nat; auto.
  - exists y. intros n. pose proof (powG_pos N n HN) as Hp.
    assert (H1 : IZR (value N (dpre e n)) / IZR N ^ n <= y) by (apply Hy1; exists n; auto).
    assert (H2 : y <= (IZR (value N (dpre e n)) + 1) / IZR N ^ n) by (apply Hy2; apply Hub).
    split.
    + apply Rmult_le_reg_r with (/ IZR N ^ n); [apply Rinv_0_lt_compat; lra|]. rewrite Rmult_assoc, Rinv_r by lra.
      unfold Rdiv in H1. lra.
    + apply Rmult_le_reg_r with (/ IZR N ^ n); [apply Rinv_0_lt_compat; lra|]. rewrite Rmult_assoc, Rinv_r by lra.
      unfold Rdiv in H2. lra.
Qed.

(** uniqueness: two reals in all the same intervals coincide *)
Lemma pow_unbounded N (r : R) : (2 <= N)%Z -> exists n, r < IZR N ^ n.
Proof.
  intros HN. destruct (Pow_x_infinity (IZR N)) with (b := r + 1) as (n & Hn).
  - apply (IZR_le 2) in HN. rewrite Rabs_right; lra.
  - exists n. specialize (Hn n (le_n n)). rewrite Rabs_right in Hn; [lra|]. left; apply powG_pos; auto.
Qed.
Lemma close_eq N y z b : (2 <= N)%Z -> (forall n, Rabs (y - z) * IZR N ^ n <= b) -> y = z.
Proof.
  intros HN H. destruct (Req_dec y z) as [|Hne]; auto. exfalso.
  assert (Hp : 0 < Rabs (y - z)) by (apply Rabs_pos_lt; lra).
  destruct (pow_unbounded N (b / Rabs (y - z)) HN) as (n & Hn). specialize (H n).
  assert (b / Rabs (y - z) * Rabs (y - z) < IZR N ^ n * Rabs (y - z)) by (apply Rmult_lt_compat_r; auto).
  unfold Rdiv in H0. rewrite Rmult_assoc, Rinv_l in H0 by lra. lra.
Qed.
Lemma le_by_cells N y z b : (2 <= N)%Z -> (forall n, (y - z) * IZR N ^ n <= b) -> y <= z.
Proof.
  intros HN H. destruct (Rle_or_lt y z) as [|Hlt]; auto. exfalso.
  destruct (pow_unbounded N (b / (y - z)) HN) as (n & Hn). specialize (H n).
  assert (b / (y - z) * (y - z) < IZR N ^ n * (y - z)) by (apply Rmult_lt_compat_r; lra).
  unfold Rdiv in H0. rewrite Rmult_assoc, Rinv_l in H0 by lra. lra.
Qed.
Lemma digits_real_unique N (V : nat -> Z) y z : (2 <= N)%Z ->
  (forall n, IZR (V n) <= y * IZR N ^ n <= IZR (V n) + 1) ->
  (forall n, IZR (V n) <= z * IZR N ^ n <= IZR (V n) + 1) -> y = z.
Proof.
  intros HN Hy Hz. apply (close_eq N y z 1 HN). intros n. specialize (Hy n). specialize (Hz n).
  pose proof (powG_pos N n HN). rewrite <- (Rabs_right (IZR N ^ n)) by lra. rewrite <- Rabs_mult.
  apply Rabs_le. lra.
Qed.

(** digits of a real of [0,1] *)
Definition dig (N : Z) (r : R) : Z := Z.min (N - 1) (Int_part (IZR N * r)).
Fixpoint drem (N : Z) (y : R) (n : nat) : R :=
  match n with O => y | S n' => let r := drem N y n' in IZR N * r - IZR (dig N r) end.
Definition ddig (N : Z) (y : R) (n : nat) : Z := dig N (drem N y n).
Lemma Int_part_spec r : IZR (Int_part r) <= r < IZR (Int_part r) + 1.
Proof. destruct (base_Int_part r). lra. Qed.
Lemma dig_spec N r : (2 <= N)%Z -> 0 <= r <= 1 -> (0 <= dig N r < N)%Z /\ 0 <= IZR N * r - IZR (dig N r) <= 1.
Proof.
  intros HN Hr. pose proof (Int_part_spec (IZR N * r)) as [H1 H2]. unfold dig.
  assert (HN' : 2 <= IZR N) by (apply (IZR_le 2); auto).
  assert (H0 : (0 <= Int_part (IZR N * r))%Z).
  { assert (0 < Int_part (IZR N * r) + 1)%Z; [|lia]. apply lt_IZR. rewrite plus_IZR. nra. }
  destruct (Z.min_spec (N - 1) (Int_part (IZR N * r))) as [[Hl ->]|[Hl ->]].
  - split; [lia|]. assert (Int_part (IZR N * r) <= N)%Z.
    { assert (Int_part (IZR N * r) < N + 1)%Z; [|lia]. apply lt_IZR. rewrite plus_IZR. nra. }
    assert (HE : Int_part (IZR N * r) = N) by lia. rewrite HE in *. rewrite minus_IZR. nra.
  - split; [lia|]. lra.
Qed.
Lemma drem_range N y n : (2 <= N)%Z -> 0 <= y <= 1 -> 0 <= drem N y n <= 1.
Proof. intros HN Hy. induction n; cbn [drem]; auto. apply dig_spec; auto. Qed.
Lemma ddig_range N y n : (2 <= N)%Z -> 0 <= y <= 1 -> (0 <= ddig N y n < N)%Z.
Proof. intros. apply dig_spec; auto. apply drem_range; auto. Qed.
Lemma ddig_value N y n : (2 <= N)%Z -> y * IZR N ^ n = IZR (value N (dpre (ddig N y) n)) + drem N y n.
Proof.
  intros HN. induction n as [|n IH]; [cbn; lra|].
  rewrite dpre_S, value_snoc, plus_IZR, mult_IZR. cbn [pow drem].
  replace (y * (IZR N * IZR N ^ n)) with (IZR N * (y * IZR N ^ n)) by ring. rewrite IH. unfold ddig. ring.
Qed.
Lemma real_digits N y : (2 <= N)%Z -> 0 <= y <= 1 ->
  forall n, IZR (value N (dpre (ddig N y) n)) <= y * IZR N ^ n <= IZR (value N (dpre (ddig N y) n)) + 1.
Proof. intros HN Hy n. rewrite ddig_value by auto. pose proof (drem_range N y n HN Hy). lra. Qed.
