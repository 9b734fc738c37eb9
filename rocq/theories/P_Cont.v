(** Continuity of the functional core: one-step junctions give junctions at every depth, a modulus of continuity and
    single-valuedness (C20). *)
From Verif Require Import Py L_Py L_Qc M_BaseMaps S_BaseMaps L_BaseMaps P_Actions M_Subsets S_Subsets S_Utils L_R P_Utils
  M_Paths M_Curves S_Curves L_Digits P_Core P_CurveAct P_Paths P_Entrance.
From Coq Require Import Reals Lra Lia.
Local Open Scope nat_scope.

Section Cont.
Context (K : core) (HK : core_ok K).
Notation d := (kd K). Notation N := (kN K). Notation G := (kG K).
Notation RN := (IZR (Z.of_nat (kN K))). Notation RG := (IZR (Z.of_nat (kG K))).

Lemma kend_step S k t x : wfS K S -> (t = 0%R /\ k = 0 \/ t = 1%R /\ k = G - 1) -> kgraph K (kstep K S k) t x ->
  kgraph K S t (unzoom K (kcb K S k) x).
Proof.
  intros HS Ht H. apply kgraph_step; auto. split; [apply unzoom_length|]. pose proof (kG_ge2 K HK) as HG. exists k.
  split; [destruct Ht as [[_ ->]|[_ ->]]; lia|]. rewrite zoom_unzoom by (auto; apply H).
  replace (RG * t - IZR (Z.of_nat k))%R with t; auto. destruct Ht as [[-> ->]|[-> ->]].
  - cbn. ring.
  - rewrite Nat2Z.inj_sub by lia. rewrite minus_IZR. cbn. ring.
Qed.

(** positions in the whole cube of a point given in the innermost fraction *)
Fixpoint unzooms (S : spec) (cs : list nat) (x : list R) : list R :=
  match cs with [] => x | c :: cs' => unzoom K (kcb K S c) (unzooms (kstep K S c) cs' x) end.
Lemma unzooms_length cs : forall S x, length x = d -> length (unzooms S cs x) = d.
Proof. induction cs; intros S x Hx; cbn; auto. apply unzoom_length. Qed.
Lemma nth_unzooms cs : forall S x j, j < d -> nth j (unzooms S cs x) 0%R = ((nth j x 0 + IZR (kX K S cs j)) / RN ^ length cs)%R.
Proof.
  induction cs as [|c cs IH]; intros S x j Hj; cbn [unzooms].
  - cbn. field.
  - rewrite nth_unzoom by auto. rewrite IH by auto. rewrite kX_cons. rewrite plus_IZR, mult_IZR, IZR_pow. cbn [length pow].
    pose proof (RN_ge2 K HK). pose proof (RNp K HK (length cs)). field. lra.
Qed.
Lemma kends t k n : forall S x, wfS K S -> (t = 0%R /\ k = 0 \/ t = 1%R /\ k = G - 1) -> kgraph K (kst K S (repeat k n)) t x ->
  kgraph K S t (unzooms S (repeat k n) x).
Proof.
  induction n as [|n IH]; intros S x HS Ht H; cbn [repeat kst unzooms] in *; auto. apply kend_step; auto. apply IH; auto.
  apply kstep_wf; auto. pose proof (kG_ge2 K HK). destruct Ht as [[_ ->]|[_ ->]]; lia.
Qed.

Lemma unzoom_gx b q x : wf_bm d b -> length q = d -> length x = d ->
  unzoom K (apply_cube b (Z.of_nat N) q) (gx b x) = gx b (unzoom K q x).
Proof.
  intros Hb Hq Hx. apply nth_ext with 0%R 0%R; [rewrite unzoom_length, (gx_length K); auto|]. rewrite unzoom_length. intros j Hj.
  rewrite nth_unzoom by auto. unfold gx. rewrite nth_act by (rewrite (wf_length d); auto). rewrite nth_act by (rewrite (wf_length d); auto).
  rewrite (nth_apply_cube d) by auto. cbv zeta.
  pose proof (RN_ge2 K HK). pose proof (wf_nth_lt d b j Hb Hj) as Hk.
  destruct (nth j (coords b) (0, false)) as [k []]; cbn [fst snd] in *; rewrite nth_unzoom by auto.
  - rewrite !minus_IZR. field. lra.
  - reflexivity.
Qed.
Lemma unzoom_inj q x y : length x = d -> length y = d -> unzoom K q x = unzoom K q y -> x = y.
Proof. intros Hx Hy E. apply (f_equal (zoom K q)) in E. rewrite !zoom_unzoom in E; auto. Qed.

Definition kcont : Prop := forall p k x x', p < km K -> k + 1 < G -> kgraph K (kspec K p k) 1 x -> kgraph K (kspec K p (k + 1)) 0 x' ->
  unzoom K (kcube K p k) x = unzoom K (kcube K p (k + 1)) x'.

Lemma kcont_step (HC : kcont) S k x x' : wfS K S -> k + 1 < G -> kgraph K (kstep K S k) 1 x -> kgraph K (kstep K S (k + 1)) 0 x' ->
  unzoom K (kcb K S k) x = unzoom K (kcb K S (k + 1)) x'.
Proof.
  intros HS Hk Hx Hx'. destruct HS as [Hb Hp]. set (b := sp_bm S) in *. set (p := sp_pnum S) in *.
  assert (Lx : length x = d) by apply Hx. assert (Lx' : length x' = d) by apply Hx'.
  set (y := gx (bm_inv b) x). set (y' := gx (bm_inv b) x').
  assert (Ly : length y = d) by (apply (gx_length K); auto using wf_inv). assert (Ly' : length y' = d) by (apply (gx_length K); auto using wf_inv).
  assert (Ex : x = gx b y) by (unfold y; rewrite (gx_inv_r K); auto). assert (Ex' : x' = gx b y') by (unfold y'; rewrite (gx_inv_r K); auto).
  rewrite Ex in *. rewrite Ex' in *. unfold kstep in Hx, Hx'. fold b p in Hx, Hx'. unfold kcb. fold b p.
  assert (HW : forall k, k < G -> wfS K (kspec K p (kflip K b k))) by (intros; apply (ok_spec K HK); auto; apply kflip_lt; auto).
  assert (HQ : forall k, k < G -> length (kcube K p (kflip K b k)) = d) by (intros; apply (ok_cube K HK); auto; apply kflip_lt; auto).
  rewrite !unzoom_gx by (auto; apply HQ; lia). f_equal.
  replace 1%R with (gt b (gt b 1)) in Hx by apply gt_gt. replace 0%R with (gt b (gt b 0)) in Hx' by apply gt_gt.
  apply (kgraph_mul_iff K HK) in Hx; auto; [|apply HW; lia]. apply (kgraph_mul_iff K HK) in Hx'; auto.
  unfold kflip, gt in *. destruct (time_rev b).
  - replace (1 - 1)%R with 0%R in Hx by ring. replace (1 - 0)%R with 1%R in Hx' by ring. symmetry.
    replace (G - 1 - k) with (G - 1 - (k + 1) + 1) in * by lia. apply HC; auto. lia.
  - apply HC; auto.
Qed.

(** same number, same digits *)
Lemma kT_inj cs : forall cs', wfc K cs -> wfc K cs' -> length cs = length cs' -> kT K cs = kT K cs' -> cs = cs'.
Proof.
  induction cs as [|c cs IH]; intros [|c' cs'] H H' HL E; try discriminate; auto. inversion H; inversion H'; subst. cbn [length] in HL.
  injection HL as HL. rewrite !kT_cons, HL in E. pose proof (kT_range K HK cs H3) as R1. pose proof (kT_range K HK cs' H7) as R2. rewrite HL in R1.
  assert (c = c') by nia. subst. f_equal. apply IH; auto. lia.
Qed.
Lemma kT_succ c c' cs cs' : c < G -> c' < G -> wfc K cs -> wfc K cs' -> length cs = length cs' -> (kT K (c' :: cs') = kT K (c :: cs) + 1)%Z ->
  (c' = c /\ (kT K cs' = kT K cs + 1)%Z) \/ (c' = c + 1 /\ Forall (fun a => a = G - 1) cs /\ Forall (fun a => a = 0) cs').
Proof.
  intros Hc Hc' H H' HL E. rewrite !kT_cons, HL in E. pose proof (kT_range K HK cs H) as R1. pose proof (kT_range K HK cs' H') as R2. rewrite HL in R1.
  set (P := (Z.of_nat G ^ Z.of_nat (length cs'))%Z) in *. set (a := kT K cs) in *. set (b := kT K cs') in *.
  destruct (Nat.eq_dec c' c) as [->|Hn]; [left; split; auto; lia|right]. assert (c' = c + 1) by nia. subst c'.
  split; auto. assert (b = 0 /\ a = P - 1)%Z as [Eb Ea] by nia. split.
  - apply (kT_last K HK); auto. rewrite HL. fold P a. lia.
  - clear - HK H' Eb. unfold b in Eb. clear b. induction cs' as [|c cs IH]; [constructor|]. inversion H'; subst.
    rewrite kT_cons in Eb. pose proof (kT_range K HK cs H2) as R. pose proof (kG_ge2 K HK).
    assert (0 < Z.of_nat G ^ Z.of_nat (length cs))%Z by (apply Z.pow_pos_nonneg; lia). constructor; [nia|]. apply IH; auto. nia.
Qed.
(** consecutive fractions at any depth share the exit / entrance point *)
Lemma kcont_deep (HC : kcont) cs : forall cs' S x x', wfS K S -> wfc K cs -> wfc K cs' -> length cs = length cs' -> (kT K cs' = kT K cs + 1)%Z ->
  kgraph K (kst K S cs) 1 x -> kgraph K (kst K S cs') 0 x' -> unzooms S cs x = unzooms S cs' x'.
Proof.
  induction cs as [|c cs IH]; intros [|c' cs'] S x x' HS H H' HL E Hx Hx'; try discriminate HL.
  - unfold kT in E. cbn in E. lia.
  - cbn [kst unzooms] in *. assert (HLc := HL). cbn [length] in HL. injection HL as HL.
    assert (Hc : c < G) by (inversion H; auto). assert (Hc' : c' < G) by (inversion H'; auto).
    assert (Hw : wfc K cs) by (inversion H; auto). assert (Hw' : wfc K cs') by (inversion H'; auto).
    destruct (kT_succ c c' cs cs' Hc Hc' Hw Hw' HL E) as [[-> E']|[-> [F F']]].
    + f_equal. apply IH; auto. apply kstep_wf; auto.
    + apply all_repeat in F, F'. rewrite F, F' in *. apply kcont_step; auto; apply kends; auto; apply kstep_wf; auto; lia.
Qed.

Local Open Scope R_scope.
Lemma point_kX S cs x j : (j < d)%nat -> point_in d N (kcubes K S cs) x ->
  IZR (kX K S cs j) <= nth j x 0 * RN ^ length cs <= IZR (kX K S cs j) + 1.
Proof. intros Hj H. apply (point_in_kX K) in H. apply H; auto. Qed.
Lemma unzooms_in S cs y j : (j < d)%nat -> 0 <= nth j y 0 <= 1 ->
  IZR (kX K S cs j) <= nth j (unzooms S cs y) 0 * RN ^ length cs <= IZR (kX K S cs j) + 1.
Proof.
  intros Hj Hy. rewrite nth_unzooms by auto. pose proof (RNp K HK (length cs)). unfold Rdiv. rewrite Rmult_assoc, Rinv_l; lra.
Qed.
Lemma kadjacent (HC : kcont) S cs cs' x x' j : wfS K S -> wfc K cs -> wfc K cs' -> length cs = length cs' ->
  (kT K cs' = kT K cs + 1)%Z -> point_in d N (kcubes K S cs) x -> point_in d N (kcubes K S cs') x' -> (j < d)%nat ->
  Rabs (nth j x 0 - nth j x' 0) * RN ^ length cs <= 2.
Proof.
  intros HS H H' HL E Hx Hx' Hj.
  destruct (kgraph_total K HK (kst K S cs) 1) as (y & Hy); [apply kst_wf; auto|lra|].
  destruct (kgraph_total K HK (kst K S cs') 0) as (y' & Hy'); [apply kst_wf; auto|lra|].
  pose proof (kcont_deep HC cs cs' S y y' HS H H' HL E Hy Hy') as EU. apply (f_equal (fun l => nth j l 0)) in EU.
  apply (point_kX S cs x j Hj) in Hx. apply (point_kX S cs' x' j Hj) in Hx'.
  apply kgraph_range in Hy as (_ & _ & Hy). apply kgraph_range in Hy' as (_ & _ & Hy').
  pose proof (unzooms_in S cs y j Hj (Hy j Hj)) as U. pose proof (unzooms_in S cs' y' j Hj (Hy' j Hj)) as U'. rewrite <- EU in U'.
  rewrite <- HL in *. pose proof (RNp K HK (length cs)) as HP.
  rewrite <- (Rabs_pos_eq (RN ^ length cs)) by lra. rewrite <- Rabs_mult. apply Rabs_le. split; lra.
Qed.
Lemma ksame S cs x x' j : point_in d N (kcubes K S cs) x -> point_in d N (kcubes K S cs) x' -> (j < d)%nat ->
  Rabs (nth j x 0 - nth j x' 0) * RN ^ length cs <= 1.
Proof.
  intros Hx Hx' Hj. apply (point_kX S cs x j Hj) in Hx. apply (point_kX S cs x' j Hj) in Hx'. pose proof (RNp K HK (length cs)) as HP.
  rewrite <- (Rabs_pos_eq (RN ^ length cs)) by lra. rewrite <- Rabs_mult. apply Rabs_le. split; lra.
Qed.
(** a modulus of continuity *)
Lemma kmodulus (HC : kcont) S n t t' x x' j : wfS K S -> Rabs (t - t') * RG ^ n < 1 -> kgraph K S t x -> kgraph K S t' x' -> (j < d)%nat ->
  Rabs (nth j x 0 - nth j x' 0) * RN ^ n <= 2.
Proof.
  intros HS Ht (Lx & dl & Hd & H) (Lx' & dl' & Hd' & H') Hj.
  destruct (H n) as [T1 P1]. destruct (H' n) as [T2 P2]. pose proof (proj1 (time_in_kT K _ _) T1) as T1'. pose proof (proj1 (time_in_kT K _ _) T2) as T2'. clear T1 T2. rename T1' into T1. rename T2' into T2. rewrite prefix_length in T1, T2.
  set (cs := prefix dl n) in *. set (cs' := prefix dl' n) in *.
  assert (W : wfc K cs) by (apply prefix_wfc; auto). assert (W' : wfc K cs') by (apply prefix_wfc; auto).
  assert (L : length cs = n) by apply prefix_length. assert (L' : length cs' = n) by apply prefix_length.
  pose proof (RGp K HK n) as HP. rewrite <- (Rabs_pos_eq (RG ^ n)) in Ht by lra. rewrite <- Rabs_mult in Ht. apply Rabs_def2 in Ht as [Ht1 Ht2].
  assert (IZR (kT K cs) - IZR (kT K cs') < 2) as D1 by lra. assert (IZR (kT K cs') - IZR (kT K cs) < 2) as D2 by lra.
  rewrite <- minus_IZR in D1, D2. apply lt_IZR in D1, D2.
  destruct (Z.eq_dec (kT K cs) (kT K cs')) as [E|NE].
  - apply kT_inj in E; auto; [|lia]. rewrite <- E in P2. pose proof (ksame S cs x x' j P1 P2 Hj) as B. rewrite L in B. lra.
  - destruct (Z_lt_le_dec (kT K cs) (kT K cs')) as [Hlt|Hge].
    + pose proof (kadjacent HC S cs cs' x x' j HS W W' ltac:(lia) ltac:(lia) P1 P2 Hj) as B. rewrite L in B. auto.
    + pose proof (kadjacent HC S cs' cs x' x j HS W' W ltac:(lia) ltac:(lia) P2 P1 Hj) as B. rewrite L' in B. rewrite Rabs_minus_sym. auto.
Qed.
Lemma INR_unb r : exists n, r < INR n.
Proof. exists (Z.to_nat (up r)). rewrite INR_IZR_INZ. pose proof (archimed r) as [H _]. apply Rlt_le_trans with (IZR (up r)); [lra|]. apply IZR_le. lia. Qed.
Lemma pow_big n : INR n < 2 ^ n.
Proof. induction n; [cbn; lra|]. rewrite S_INR. cbn [pow]. assert (1 <= 2 ^ n) by (apply pow_R1_Rle; lra). lra. Qed.
Lemma RN_pow_ge n : 2 ^ n <= RN ^ n.
Proof. apply pow_incr. pose proof (RN_ge2 K HK). lra. Qed.
Lemma small_zero a : 0 <= a -> (forall n, a * RN ^ n <= 2) -> a = 0.
Proof.
  intros Ha H. destruct (Req_dec a 0) as [|Hn]; auto. exfalso. assert (0 < a) by lra.
  destruct (INR_unb (2 / a)) as (n & Hn'). pose proof (H n) as Hb. pose proof (pow_big n). pose proof (RN_pow_ge n).
  assert (2 / a * a < INR n * a) by (apply Rmult_lt_compat_r; lra). unfold Rdiv in H3. rewrite Rmult_assoc, Rinv_l in H3 by lra. nra.
Qed.
Lemma kunique (HC : kcont) S t x x' : wfS K S -> kgraph K S t x -> kgraph K S t x' -> x = x'.
Proof.
  intros HS H H'. apply nth_ext with 0 0; [destruct H, H'; congruence|]. intros j Hj. rewrite (proj1 H) in Hj.
  assert (E : Rabs (nth j x 0 - nth j x' 0) = 0).
  { apply small_zero; [apply Rabs_pos|]. intros n. eapply kmodulus; eauto. replace (t - t) with 0 by ring. rewrite Rabs_R0. lra. }
  destruct (Req_dec (nth j x 0 - nth j x' 0) 0) as [|Hn]; [lra|]. apply Rabs_no_R0 in Hn. contradiction.
Qed.
Lemma kcontinuous (HC : kcont) S eps : wfS K S -> 0 < eps -> exists del, 0 < del /\
  forall t t' x x' j, Rabs (t - t') < del -> kgraph K S t x -> kgraph K S t' x' -> (j < d)%nat -> Rabs (nth j x 0 - nth j x' 0) < eps.
Proof.
  intros HS He. destruct (INR_unb (2 / eps)) as (n & Hn). exists (/ RG ^ n). pose proof (RGp K HK n) as HP.
  split; [apply Rinv_0_lt_compat; auto|]. intros t t' x x' j Ht H H' Hj.
  assert (Ht' : Rabs (t - t') * RG ^ n < 1).
  { apply Rmult_lt_compat_r with (r := RG ^ n) in Ht; auto. rewrite Rinv_l in Ht; lra. }
  pose proof (kmodulus HC S n t t' x x' j HS Ht' H H' Hj) as B. pose proof (pow_big n). pose proof (RN_pow_ge n).
  assert (2 / eps * eps < INR n * eps) as Hq by (apply Rmult_lt_compat_r; lra). unfold Rdiv in Hq. rewrite Rmult_assoc, Rinv_l in Hq by lra.
  pose proof (RNp K HK n). set (a := Rabs (nth j x 0 - nth j x' 0)) in *. destruct (Rlt_le_dec a eps) as [|Hge]; auto. exfalso.
  assert (eps * RN ^ n <= a * RN ^ n) by (apply Rmult_le_compat_r; lra). nra.
Qed.
End Cont.
