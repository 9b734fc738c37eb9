(** Proofs about utils.py: positional values and periodic sums. *)
From Verif Require Import Py L_Py L_Qc M_Utils S_Utils L_R.
From Coq Require Import Reals Qreals Lra Permutation.
Local Open Scope nat_scope.

Lemma value_app G l l' : (value G (l ++ l') = value G l * G ^ Z.of_nat (length l') + value G l')%Z.
Proof.
  induction l' as [|c l' IH] using rev_ind; cbn.
  - rewrite app_nil_r. unfold value; cbn. lia.
  - rewrite app_assoc. unfold value at 1 3. rewrite fold_left_app. cbn. fold (value G (l ++ l')). rewrite IH.
    rewrite app_length, Nat2Z.inj_add; cbn. rewrite Z.pow_add_r by lia. cbn. rewrite fold_left_app. cbn.
    fold (value G l'). unfold Z.pow_pos; cbn. ring.
Qed.
Lemma value_snoc G l c : (value G (l ++ [c]) = value G l * G + c)%Z.
Proof. unfold value. rewrite fold_left_app. reflexivity. Qed.
Lemma value_cons G c l : (value G (c :: l) = c * G ^ Z.of_nat (length l) + value G l)%Z.
Proof. change (c :: l) with ([c] ++ l). rewrite value_app. unfold value at 1; cbn. reflexivity. Qed.
Lemma value_nil G : value G [] = 0%Z. Proof. reflexivity. Qed.
Lemma value_range G l : (0 < G)%Z -> Forall (fun c => 0 <= c < G)%Z l -> (0 <= value G l < G ^ Z.of_nat (length l))%Z.
Proof.
  intros HG. induction 1 as [|c l Hc _ IH]; [cbn; lia|]. rewrite value_cons. cbn [length].
  rewrite Nat2Z.inj_succ, Z.pow_succ_r by lia. nia.
Qed.

Lemma horner_value G l : horner G l = (value G l, G ^ Z.of_nat (length l))%Z.
Proof.
  induction l as [|c l IH]; [reflexivity|]. unfold horner in *. cbn [rev]. rewrite fold_left_app, IH. cbn [fold_left horner_step fst snd].
  unfold horner_step. cbn [fst snd].
  rewrite value_cons. cbn [length]. rewrite Nat2Z.inj_succ, Z.pow_succ_r by lia. f_equal; ring.
Qed.
Lemma get_int_time_value dim div l : get_int_time dim div l = value (div ^ Z.of_nat dim) l.
Proof. unfold get_int_time. rewrite horner_value. reflexivity. Qed.

Definition coordj (j : nat) (cubes : list (list Z)) : list Z := map (fun c => nth j c 0%Z) cubes.
Lemma get_int_cube_value dim div cubes :
  get_int_cube dim div cubes = map (fun j => value div (coordj j cubes)) (seq 0 dim).
Proof.
  unfold get_int_cube.
  assert (H : fold_left (int_cube_step dim div) (rev cubes) (repeat 0%Z dim, 1%Z) =
              (map (fun j => value div (coordj j cubes)) (seq 0 dim), div ^ Z.of_nat (length cubes))%Z).
  { induction cubes as [|c cubes IH]; [cbn; f_equal; apply nth_ext_lt with (d := 0%Z);
      [rewrite repeat_length, map_length, seq_length; auto|]|].
    - intros i Hi. rewrite repeat_length in Hi. rewrite nth_repeat, map_nth_lt with (d := 0) by (rewrite seq_length; auto). auto.
    - cbn [rev]. rewrite fold_left_app, IH. cbn [fold_left]. unfold int_cube_step; cbn [fst snd length].
      rewrite Nat2Z.inj_succ, Z.pow_succ_r by lia. f_equal; [|ring]. apply map_ext_in. intros j Hj. apply in_seq in Hj.
      rewrite map_nth_lt with (d := 0) by (rewrite seq_length; lia). rewrite seq_nth by lia. cbn [plus coordj map].
      rewrite value_cons. unfold coordj. rewrite map_length. ring. }
  rewrite H. reflexivity.
Qed.

(** periodic sums over the reals *)
Local Open Scope R_scope.
Lemma IZR_pow G n : IZR (G ^ Z.of_nat n) = IZR G ^ n.
Proof. symmetry. apply pow_IZR. Qed.

Definition VR (G : Z) (s p : list Z) : R :=
  IZR (value G s) / IZR G ^ length s + IZR (value G p) / (IZR G ^ length s * (IZR G ^ length p - 1)).

Lemma powG_gt1 G n : (2 <= G)%Z -> (0 < n)%nat -> 1 < IZR G ^ n.
Proof. intros HG Hn. apply Rlt_pow_R1; auto. apply (IZR_lt 1); lia. Qed.
Lemma powG_pos G n : (2 <= G)%Z -> 0 < IZR G ^ n.
Proof. intros HG. apply pow_lt, (IZR_lt 0); lia. Qed.

Lemma get_periodic_sum_VR s p G : (2 <= G)%Z -> p <> [] ->
  exists v, get_periodic_sum s p G = Some v /\ qR v = VR G s p.
Proof.
  intros HG Hp. unfold get_periodic_sum. rewrite !horner_value. unfold frac.
  assert (Hl : (0 < length p)%nat) by (destruct p; cbn; [congruence|lia]).
  pose proof (powG_gt1 G _ HG Hl) as H1. pose proof (powG_pos G (length s) HG) as H2.
  assert (N1 : Zq (G ^ Z.of_nat (length s)) <> 0%Qc).
  { rewrite qR_neq0, qR_Zq, IZR_pow. lra. }
  assert (N2 : Zq (G ^ Z.of_nat (length s) * (G ^ Z.of_nat (length p) - 1)) <> 0%Qc).
  { rewrite qR_neq0, qR_Zq, mult_IZR, minus_IZR, !IZR_pow. apply Rmult_integral_contrapositive; split; lra. }
  destruct (Qc_eq_dec _ _); [contradiction|]. destruct (Qc_eq_dec _ _); [contradiction|].
  eexists; split; [reflexivity|]. rewrite qR_add, !qR_div, !qR_Zq by auto. rewrite mult_IZR, minus_IZR, !IZR_pow.
  reflexivity.
Qed.

Lemma VR_cons G c s p : (2 <= G)%Z -> p <> [] -> VR G (c :: s) p = (IZR c + VR G s p) / IZR G.
Proof.
  intros HG Hp. unfold VR. rewrite value_cons, plus_IZR, mult_IZR, IZR_pow. cbn [length pow].
  assert (Hl : (0 < length p)%nat) by (destruct p; cbn; [congruence|lia]).
  pose proof (powG_gt1 G _ HG Hl) as H1. pose proof (powG_pos G (length s) HG) as H2.
  assert (0 < IZR G) by (apply (IZR_lt 0); lia). field. repeat split; lra.
Qed.
Lemma VR_rot G c p : (2 <= G)%Z -> VR G [] (c :: p) = (IZR c + VR G [] (p ++ [c])) / IZR G.
Proof.
  intros HG. unfold VR. rewrite value_cons, value_snoc, !plus_IZR, !mult_IZR, IZR_pow, value_nil.
  rewrite app_length. cbn [length pow]. rewrite Nat.add_1_r. cbn [pow].
  assert (0 < length (c :: p))%nat as Hl by (cbn; lia).
  pose proof (powG_gt1 G _ HG Hl) as H1. cbn in H1.
  assert (0 < IZR G) by (apply (IZR_lt 0); lia). field. repeat split; lra.
Qed.

Definition shift_digits (sp : list Z * list Z) : list Z * list Z :=
  match fst sp, snd sp with
  | _ :: s, p => (s, p)
  | [], c :: p => ([], p ++ [c])
  | [], [] => ([], [])
  end.
Lemma shift_period sp : snd sp <> [] -> snd (shift_digits sp) <> [].
Proof. destruct sp as [[|c s] [|c' p]]; cbn; auto. intros _ E. destruct p; discriminate. Qed.
Lemma stream_digit_shift sp k : snd sp <> [] ->
  stream_digit (fst (shift_digits sp)) (snd (shift_digits sp)) k = stream_digit (fst sp) (snd sp) (S k).
Proof.
  destruct sp as [[|c s] [|c' p]]; cbn [fst snd shift_digits]; intros H; try congruence.
  - unfold stream_digit. cbn [length Nat.ltb Nat.leb]. rewrite !Nat.sub_0_r, app_length. cbn [length].
    rewrite Nat.add_1_r. set (m := S (length p)).
    pose proof (Nat.mod_upper_bound k m ltac:(lia)) as HB.
    destruct (Nat.eq_dec (k mod m) (length p)) as [E|E].
    + rewrite E. replace (S k mod m)%nat with 0%nat.
      * rewrite app_nth2, Nat.sub_diag by lia. reflexivity.
      * pose proof (Nat.div_mod k m ltac:(lia)). apply Nat.mod_unique with (q := S (k / m)); unfold m in *; nia.
    + replace (S k mod m)%nat with (S (k mod m)).
      * rewrite app_nth1 by lia. reflexivity.
      * pose proof (Nat.div_mod k m ltac:(lia)). apply Nat.mod_unique with (q := (k / m)%nat); unfold m in *; lia.
  - unfold stream_digit. cbn [length]. replace (S k <? S (length s)) with (k <? length s)%nat; [reflexivity|].
    destruct (Nat.ltb_spec k (length s)), (Nat.ltb_spec (S k) (S (length s))); lia.
Qed.
Lemma VR_shift G sp : (2 <= G)%Z -> snd sp <> [] ->
  VR G (fst sp) (snd sp) = (IZR (stream_digit (fst sp) (snd sp) 0) + VR G (fst (shift_digits sp)) (snd (shift_digits sp))) / IZR G.
Proof.
  intros HG. destruct sp as [[|c s] [|c' p]]; cbn [fst snd shift_digits]; intros H; try congruence.
  - rewrite VR_rot by auto. f_equal. f_equal. f_equal. unfold stream_digit. cbn [length Nat.ltb Nat.leb Nat.sub].
    rewrite Nat.mod_0_l by lia. reflexivity.
  - rewrite VR_cons by auto. reflexivity.
Qed.
Definition shift_n (n : nat) (sp : list Z * list Z) := Nat.iter n shift_digits sp.
Lemma shift_n_period n sp : snd sp <> [] -> snd (shift_n n sp) <> [].
Proof. intros H; induction n; auto. apply shift_period; auto. Qed.
Lemma stream_digit_shift_n n sp k : snd sp <> [] ->
  stream_digit (fst (shift_n n sp)) (snd (shift_n n sp)) k = stream_digit (fst sp) (snd sp) (n + k).
Proof.
  intros H. revert k; induction n as [|n IH]; intros k; auto. change (shift_n (S n) sp) with (shift_digits (shift_n n sp)).
  rewrite stream_digit_shift by (apply shift_n_period; auto). rewrite IH. f_equal. lia.
Qed.
(** the first n digits *)
Lemma VR_prefix G s p n : (2 <= G)%Z -> p <> [] ->
  VR G s p * IZR G ^ n = IZR (value G (stream_prefix s p n)) + VR G (fst (shift_n n (s, p))) (snd (shift_n n (s, p))).
Proof.
  intros HG Hp. assert (0 < IZR G) by (apply (IZR_lt 0); lia).
  induction n as [|n IH]; [change (value G (stream_prefix s p 0)) with 0%Z; cbn; lra|]. unfold stream_prefix. rewrite seq_S, map_app. cbn [map plus].
  rewrite value_snoc, plus_IZR, mult_IZR. cbn [pow]. fold (stream_prefix s p n).
  replace (VR G s p * (IZR G * IZR G ^ n)) with (VR G s p * IZR G ^ n * IZR G) by ring. rewrite IH.
  rewrite (VR_shift G (shift_n n (s, p))) by (auto; apply shift_n_period; auto).
  rewrite stream_digit_shift_n by auto. rewrite Nat.add_0_r. cbn [fst snd].
  change (shift_digits (shift_n n (s, p))) with (shift_n (S n) (s, p)). field. lra.
Qed.

Lemma value_abs G B l : (2 <= G)%Z -> (forall c, In c l -> (Z.abs c <= B)%Z) -> (0 <= B)%Z ->
  (Z.abs (value G l) <= B * (G ^ Z.of_nat (length l) - 1))%Z.
Proof.
  intros HG Hc HB. induction l as [|c l IH]; [cbn; lia|]. rewrite value_cons. cbn [length].
  rewrite Nat2Z.inj_succ, Z.pow_succ_r by lia. specialize (IH ltac:(intros; apply Hc; cbn; auto)).
  pose proof (Hc c (or_introl eq_refl)). pose proof (Z.pow_pos_nonneg G (Z.of_nat (length l)) ltac:(lia) ltac:(lia)). nia.
Qed.
Lemma VR_abs G B s p : (2 <= G)%Z -> p <> [] -> (0 <= B)%Z ->
  (forall c, In c s \/ In c p -> (Z.abs c <= B)%Z) -> Rabs (VR G s p) <= IZR B.
Proof.
  intros HG Hp HB Hc. unfold VR.
  assert (Hl : (0 < length p)%nat) by (destruct p; cbn; [congruence|lia]).
  pose proof (powG_gt1 G _ HG Hl) as H1. pose proof (powG_pos G (length s) HG) as H2.
  pose proof (value_abs G B s HG ltac:(auto) HB) as Hs. pose proof (value_abs G B p HG ltac:(auto) HB) as Hpp.
  apply IZR_le in Hs, Hpp. rewrite abs_IZR, mult_IZR, minus_IZR, IZR_pow in Hs, Hpp.
  eapply Rle_trans; [apply Rabs_triang|]. unfold Rdiv. rewrite !Rabs_mult, !Rabs_inv, Rabs_mult.
  rewrite (Rabs_right (IZR G ^ length s)), (Rabs_right (IZR G ^ length p - 1)) by lra.
  apply Rle_trans with (IZR B * (IZR G ^ length s - 1) * / IZR G ^ length s +
     IZR B * (IZR G ^ length p - 1) * / (IZR G ^ length s * (IZR G ^ length p - 1))).
  - apply Rplus_le_compat; apply Rmult_le_compat_r; auto; left; apply Rinv_0_lt_compat; auto. apply Rmult_lt_0_compat; lra.
  - apply Req_le. field. split; lra.
Qed.
Lemma shift_n_digits n sp c : In c (fst (shift_n n sp)) \/ In c (snd (shift_n n sp)) -> In c (fst sp) \/ In c (snd sp).
Proof.
  revert c; induction n as [|n IH]; intros c; auto. change (shift_n (S n) sp) with (shift_digits (shift_n n sp)). intros H. apply IH.
  destruct (shift_n n sp) as [[|c' s'] [|c'' p']]; cbn in *; auto.
  - rewrite in_app_iff in H; cbn in H; tauto.
  - tauto.
  - tauto.
Qed.

Lemma partial_sum G s p n : (2 <= G)%Z -> p <> [] ->
  sum_f_R0 (fun k => IZR (stream_digit s p k) / IZR G ^ (S k)) n = IZR (value G (stream_prefix s p (S n))) / IZR G ^ (S n).
Proof.
  intros HG Hp. assert (0 < IZR G) by (apply (IZR_lt 0); lia). induction n as [|n IH].
  - cbn. unfold value; cbn. rewrite Z.mul_0_l || idtac. lra.
  - cbn [sum_f_R0]. rewrite IH. unfold stream_prefix. rewrite (seq_S (S n)), map_app. cbn [map plus]. rewrite value_snoc.
    rewrite plus_IZR, mult_IZR. pose proof (pow_lt (IZR G) n H). cbn [pow]. field. lra.
Qed.

Lemma maxabs_spec l : (0 <= fold_right Z.max 0 (map Z.abs l))%Z /\
  forall c, In c l -> (Z.abs c <= fold_right Z.max 0 (map Z.abs l))%Z.
Proof.
  induction l as [|a l [IH1 IH2]]; cbn [map fold_right]; split; try lia.
  - intros c [].
  - intros c [->|H]; [lia|]. specialize (IH2 c H). lia.
Qed.
Lemma periodic_sum_exact start period G : (2 <= G)%Z -> period <> [] ->
  exists v, get_periodic_sum start period G = Some v /\
    infinite_sum (fun k => IZR (stream_digit start period k) / IZR G ^ (S k)) (qR v).
Proof.
  intros HG Hp. destruct (get_periodic_sum_VR start period G HG Hp) as (v & Hv & E). exists v. split; auto. rewrite E.
  set (B := fold_right Z.max 0%Z (map Z.abs (start ++ period))).
  destruct (maxabs_spec (start ++ period)) as [HB HBc0]. fold B in HB, HBc0.
  assert (HBc : forall c, In c start \/ In c period -> (Z.abs c <= B)%Z) by (intros c Hc; apply HBc0, in_app_iff; auto).
  assert (HG0 : 0 < IZR G) by (apply (IZR_lt 0); lia).
  intros eps Heps.
  assert (Hq : Rabs (/ IZR G) < 1).
  { rewrite Rabs_right by (left; apply Rinv_0_lt_compat; auto). rewrite <- Rinv_1. apply Rinv_lt_contravar; [lra|].
    apply (IZR_lt 1); lia. }
  assert (Hpos : 0 < eps / (IZR B + 1)).
  { apply Rdiv_lt_0_compat; auto. pose proof (IZR_le _ _ HB). lra. }
  destruct (pow_lt_1_zero _ Hq _ Hpos) as (N & HN). exists N. intros n Hn.
  rewrite partial_sum by auto. unfold R_dist.
  pose proof (VR_prefix G start period (S n) HG Hp) as HP.
  pose proof (pow_lt (IZR G) (S n) HG0) as HGn.
  set (T := VR G (fst (shift_n (S n) (start, period))) (snd (shift_n (S n) (start, period)))) in *.
  assert (HT : Rabs T <= IZR B).
  { apply VR_abs; auto; [apply (shift_n_period (S n) (start, period)); auto|].
    intros c Hc. apply (shift_n_digits (S n) (start, period)) in Hc. auto. }
  replace (IZR (value G (stream_prefix start period (S n))) / IZR G ^ S n - VR G start period) with (- T * (/ IZR G) ^ S n).
  2:{ rewrite pow_inv. apply Rmult_eq_reg_r with (IZR G ^ S n); [|lra]. field_simplify; [|lra|lra]. lra. }
  rewrite Rabs_mult, Rabs_Ropp. specialize (HN (S n) ltac:(lia)).
  apply Rle_lt_trans with (IZR B * Rabs ((/ IZR G) ^ S n)); [apply Rmult_le_compat_r; auto; apply Rabs_pos|].
  pose proof (Rabs_pos ((/ IZR G) ^ S n)) as Hpp. pose proof (IZR_le _ _ HB) as HB'.
  apply Rle_lt_trans with ((IZR B + 1) * Rabs ((/ IZR G) ^ S n)); [nra|].
  apply Rmult_lt_reg_r with (/ (IZR B + 1)); [apply Rinv_0_lt_compat; lra|].
  replace ((IZR B + 1) * Rabs ((/ IZR G) ^ S n) * / (IZR B + 1)) with (Rabs ((/ IZR G) ^ S n)) by (field; lra). apply HN.
Qed.

(** digits in range: every truncation encloses the value *)
Lemma VR_range G s p : (2 <= G)%Z -> p <> [] -> (forall c, In c s \/ In c p -> (0 <= c < G)%Z) -> 0 <= VR G s p <= 1.
Proof.
  intros HG Hp Hc. unfold VR.
  assert (Hl : (0 < length p)%nat) by (destruct p; cbn; [congruence|lia]).
  pose proof (powG_gt1 G _ HG Hl) as H1. pose proof (powG_pos G (length s) HG) as H2.
  assert (Hs : (0 <= value G s <= G ^ Z.of_nat (length s) - 1)%Z).
  { pose proof (value_range G s ltac:(lia) ltac:(apply Forall_forall; auto)). lia. }
  assert (Hpp : (0 <= value G p <= G ^ Z.of_nat (length p) - 1)%Z).
  { pose proof (value_range G p ltac:(lia) ltac:(apply Forall_forall; auto)). lia. }
  destruct Hs as [Hs1 Hs2], Hpp as [Hp1 Hp2]. apply IZR_le in Hs1, Hs2, Hp1, Hp2.
  rewrite minus_IZR, IZR_pow in Hs2, Hp2. split.
  - apply Rplus_le_le_0_compat; apply Rmult_le_pos; auto; left; apply Rinv_0_lt_compat; auto. apply Rmult_lt_0_compat; lra.
  - apply Rle_trans with ((IZR G ^ length s - 1) * / IZR G ^ length s +
     (IZR G ^ length p - 1) * / (IZR G ^ length s * (IZR G ^ length p - 1))).
    + apply Rplus_le_compat; apply Rmult_le_compat_r; auto; left; apply Rinv_0_lt_compat; auto. apply Rmult_lt_0_compat; lra.
    + apply Req_le. field. split; lra.
Qed.
Lemma periodic_sum_enclosed s p G n : (2 <= G)%Z -> p <> [] -> (forall c, In c s \/ In c p -> (0 <= c < G)%Z) ->
  IZR (value G (stream_prefix s p n)) <= VR G s p * IZR G ^ n <= IZR (value G (stream_prefix s p n)) + 1.
Proof.
  intros HG Hp Hc. rewrite VR_prefix by auto.
  pose proof (VR_range G (fst (shift_n n (s, p))) (snd (shift_n n (s, p))) HG) as HR.
  assert (snd (shift_n n (s, p)) <> []) by (apply (shift_n_period n (s, p)); auto).
  specialize (HR H). rewrite <- Rplus_0_r at 1. split; apply Rplus_le_compat_l; apply HR;
  intros c Hin; apply Hc; apply (shift_n_digits n (s, p)); auto.
Qed.
Lemma periodic_sum_enclosure s p G n : (2 <= G)%Z -> p <> [] -> (forall c, In c s \/ In c p -> (0 <= c < G)%Z) ->
  exists v, get_periodic_sum s p G = Some v /\
  IZR (value G (stream_prefix s p n)) <= qR v * IZR G ^ n <= IZR (value G (stream_prefix s p n)) + 1.
Proof.
  intros HG Hp Hc. destruct (get_periodic_sum_VR s p G HG Hp) as (v & Hv & E). exists v. split; auto. rewrite E.
  apply periodic_sum_enclosed; auto.
Qed.
