(** Convergence of the bounds of pairs of fractions with their depth. *)
From Verif Require Import Py L_Py L_Qc L_R M_BaseMaps S_BaseMaps L_BaseMaps P_Actions M_Subsets S_Subsets P_Subsets P_Facets
  M_Paths M_Curves M_Utils M_Heap M_Sat M_Dilation S_Heap P_Heap S_Utils P_Utils S_Curves S_Fuzzy P_CurveAct L_Digits P_Core P_Bridge P_Cont P_Subdiv P_Faces P_FuzzyInit P_FuzzyOps P_FuzzyBuilt
  S_Ratio S_Term S_Dilation P_Junctions P_DilGeo P_DilRatio P_DilBounds P_DilPieces P_DilTree.
From Coq Require Import Reals Lra Lia Permutation.
Local Open Scope nat_scope.

Lemma pow_tol p tol : (1 < tol)%R -> exists eps, (0 < eps)%R /\ ((1 + eps) ^ p <= tol)%R.
Proof.
  intros Ht. assert (H3 : forall n, (1 <= 3 ^ n)%R) by (intros n; apply pow_R1_Rle; lra).
  assert (A : forall eps n, (0 <= eps <= 1)%R -> ((1 + eps) ^ n <= 1 + 3 ^ n * eps)%R).
  { intros eps n He. induction n as [|n IH]; cbn [pow]; [lra|]. pose proof (H3 n). assert (0 <= (1 + eps))%R by lra.
    apply (Rmult_le_compat_l (1 + eps)) in IH; auto. assert (eps <= 3 ^ n * eps)%R by nra. assert (3 ^ n * eps * eps <= 3 ^ n * eps)%R by nra. nra. }
  exists (Rmin 1 ((tol - 1) / 3 ^ p)). pose proof (H3 p).
  assert (0 < (tol - 1) / 3 ^ p)%R by (apply Rdiv_lt_0_compat; lra).
  assert (0 < Rmin 1 ((tol - 1) / 3 ^ p))%R by (apply Rmin_glb_lt; lra). split; auto.
  eapply Rle_trans; [apply A; split; [lra|apply Rmin_l]|]. pose proof (Rmin_r 1 ((tol - 1) / 3 ^ p)) as Hr.
  apply (Rmult_le_compat_l (3 ^ p)) in Hr; [|lra]. replace (3 ^ p * ((tol - 1) / 3 ^ p))%R with (tol - 1)%R in Hr by (field; lra). lra.
Qed.
Lemma pow_big (a b : R) : (1 < a)%R -> exists n, forall k, n <= k -> (b <= a ^ k)%R.
Proof.
  intros Ha. destruct (Pow_x_infinity a) with (b := b) as (n & Hn); [rewrite Rabs_right; lra|]. exists n. intros k Hk. specialize (Hn k ltac:(lia)).
  rewrite Rabs_right in Hn; [lra|]. apply Rle_ge. apply pow_le. lra.
Qed.
Lemma Rlt_pow_base a b n : (0 < a)%R -> (a < b)%R -> 1 <= n -> (a ^ n < b ^ n)%R.
Proof.
  intros Ha Hab Hn. destruct n as [|n]; [lia|]. clear Hn. induction n as [|n IH]; cbn [pow] in *; [lra|]. pose proof (pow_lt a n Ha). apply Rmult_gt_0_lt_compat; try lra. apply Rmult_lt_0_compat; auto.
Qed.
Lemma gap_deep2 K k1 r1 k2 r2 dt e : core_ok K -> wfc K (k1 :: r1) -> wfc K (k2 :: r2) -> length (k1 :: r1) = length (k2 :: r2) + e ->
  (Z.of_nat k1 + 1 < Z.of_nat k2 + dt * Z.of_nat (kG K))%Z ->
  (Z.of_nat (kG K) ^ Z.of_nat (length r1) <= pt2 K dt e (k1 :: r1) (k2 :: r2) - (kT K (k1 :: r1) + 1))%Z.
Proof.
  intros HK W1 W2 HL Hg. unfold pt2. rewrite !kT_cons. inversion W1 as [|? ? _ V1]; inversion W2 as [|? ? _ V2]; subst.
  pose proof (kT_range K HK r1 V1) as R1. pose proof (kT_range K HK r2 V2) as R2. cbn [length] in *. pose proof (kG_ge2 K HK) as HG.
  assert (EL : length r1 = length r2 + e) by lia.
  assert (P1 : (Z.of_nat (kG K) ^ Z.of_nat (S (length r1)) = Z.of_nat (kG K) * Z.of_nat (kG K) ^ Z.of_nat (length r1))%Z) by (rewrite Nat2Z.inj_succ, Z.pow_succ_r; lia).
  assert (P2 : (Z.of_nat (kG K) ^ Z.of_nat (length r1) = Z.of_nat (kG K) ^ Z.of_nat (length r2) * Z.of_nat (kG K) ^ Z.of_nat e)%Z) by (rewrite EL, Nat2Z.inj_add, Z.pow_add_r; lia).
  assert (P3 : (0 < Z.of_nat (kG K) ^ Z.of_nat e)%Z) by (apply Z.pow_pos_nonneg; lia).
  assert (P4 : (0 < Z.of_nat (kG K) ^ Z.of_nat (length r1))%Z) by (apply Z.pow_pos_nonneg; lia).
  rewrite P1. set (g := (Z.of_nat (kG K) ^ Z.of_nat (length r1))%Z) in *. set (h := (Z.of_nat (kG K) ^ Z.of_nat (length r2))%Z) in *. set (f := (Z.of_nat (kG K) ^ Z.of_nat e)%Z) in *.
  clearbody f g h. assert (0 <= kT K r2 * f)%Z by nia. rewrite Z.mul_add_distr_r.
  replace (Z.of_nat k2 * h * f)%Z with (Z.of_nat k2 * g)%Z by (rewrite P2; ring). nia.
Qed.
Definition ones (d : nat) : list R := map (fun _ => 1%R) (seq 0 d).
Lemma bx_ones K m x1 x2 : (1 <= m)%Z -> Forall2 (fun x y => (Rabs x <= Rabs y)%R) (ones (kd K)) (bx K m x1 x2).
Proof.
  intros Hm. unfold bx, ones. apply Forall2_map_seq. intros j Hj. rewrite Rabs_right by lra. rewrite Rabs_right by (apply Rle_ge, IZR_le; lia).
  apply (IZR_le 1). lia.
Qed.
Lemma ones_ex d : 1 <= d -> Exists (fun x => x <> 0%R) (ones d).
Proof. intros Hd. unfold ones. destruct d; [lia|]. cbn. constructor. lra. Qed.

Section Conv.
Context (ratio : ratio_func) (rR : list R -> R -> R) (c0 : curve) (HD : dcls c0) (RO : ratio_ok (cv_dim c0) (ratio (cv_dim c0)) rR).
Context (p : nat) (RP : ratio_power p rR).
Context (JP : junction -> Prop) (HJ : forall j, JP j -> wft (core_of c0) (jt j)).
Notation pair_ok := (pair_ok c0 JP).
Notation G := (cv_genus c0).
Notation RG := (IZR (Z.of_nat (cv_genus c0))).
Let HK0 : core_ok (core_of c0) := full_ok _ (core_of_full c0 (proj1 HD)).
Lemma RG2 : (2 <= RG)%R. Proof. apply (RG_ge2 _ HK0). Qed.
Definition floor1 : R := rR (ones (cv_dim c0)) 1.
Lemma floor_pos : (0 < floor1)%R.
Proof.
  apply (rp_pos _ _ RP). apply ones_ex. exact (ok_d _ HK0).
Qed.
Lemma pow_dt dv s t : (0 < s)%R -> (0 < t)%R -> (rR dv s * s ^ p = rR dv t * t ^ p)%R.
Proof. intros Hs Ht. rewrite !(rp_dt _ _ RP) by auto. auto. Qed.
Lemma conv_bounds P : pair_ok P -> exists lo up, get_bounds ratio P None = Some (lo, up, None) /\
  exists dv e (m : R), e <= 1 /\ (RG ^ (po_depth (pp_pos1 P) - 1) <= m)%R /\ qR up = rR dv m /\ qR lo = rR dv (m + 1 + RG ^ e)%R /\ (floor1 <= rR dv 1)%R.
Proof.
  intros HP. pose proof HP as (HR & Hj & P1 & P2 & HDp & k1 & r1 & k2 & r2 & E1 & E2 & HA). pose proof (refines_dcls c0 _ HD HR) as HDc. pose proof (refines_sub _ _ HR) as HS0.
  unfold get_bounds. destruct (pair_setup ratio rR c0 RO JP HJ P (pp_curve P) HP (sub_refl _) (proj1 HDc)) as (e & He & HF & RO' & HW & O1 & O2 & HLd & Hg).
  destruct (gpb_spec _ HF ratio rR RO' (pp_junc P) (pp_pos1 P) (pp_pos2 P) e He HW O1 O2 HLd Hg [] [] (Forall_nil _) (Forall_nil _)) as (lo & up & am & EG & Eup & HA').
  assert (Eam : am = None).
  { rewrite (gpb_eq _ HF ratio (pp_junc P) (pp_pos1 P) (pp_pos2 P) e He HW O1 O2 HLd) in EG. cbv zeta in EG.
    destruct (ratio _ _ _); [|discriminate]. destruct (ratio _ _ _); [|discriminate]. cbn in EG. congruence. }
  subst am. destruct HA' as [_ Elo]. exists lo, up. split; auto.
  set (K := core_of (pp_curve P)) in *. set (t1 := kT K (jcs1 K (pp_junc P) (pp_pos1 P))) in *. set (t2 := pt2 K (j_dt (pp_junc P)) e (jcs1 K (pp_junc P) (pp_pos1 P)) (jcs2 K (pp_junc P) (pp_pos2 P))) in *.
  assert (EG' : kG K = G) by apply (sub_G c0 _ HS0).
  exists (pbx K (jt (pp_junc P)) e (jcs1 K (pp_junc P) (pp_pos1 P)) (jcs2 K (pp_junc P) (pp_pos2 P))), e, (IZR (t2 - (t1 + 1))).
  split; auto. split; [|split; [auto|split]].
  - rewrite <- IZR_pow. apply IZR_le. rewrite <- EG'. unfold t1, t2, jcs1, jcs2. unfold po_depth in *. rewrite E1, E2 in *. cbn [map length].
    replace (S (length r1) - 1) with (length (map (kflip K (sp_bm (j_spec1 (pp_junc P)))) r1)) by (rewrite map_length; lia).
    destruct O1 as (_ & _ & W1 & _). destruct O2 as (_ & _ & W2 & _). rewrite E1 in W1. rewrite E2 in W2. apply gap_deep2.
    + apply full_ok; auto.
    + apply (wfc_flip K (sp_bm (j_spec1 (pp_junc P))) _ W1).
    + apply (wfc_flip K (sp_bm (j_spec2 (pp_junc P))) _ W2).
    + cbn [length]. rewrite !map_length. cbn [length] in *. lia.
    + unfold apart_first in HA. unfold K. rewrite !(sub_flip c0 _ HS0), (sub_G c0 _ HS0). exact HA.
  - rewrite Elo. f_equal. rewrite EG'. rewrite <- IZR_pow, <- !plus_IZR. f_equal. lia.
  - apply (ro_mono _ _ _ RO); [|lra]. unfold floor1. replace (cv_dim c0) with (kd K) by apply HS0. apply bx_ones.
    pose proof (ok_N _ (full_ok _ HF)). assert (0 < Z.of_nat (kN K) ^ Z.of_nat e)%Z by (apply Z.pow_pos_nonneg; lia). lia.
Qed.

Lemma conv_facts P lo up am : pair_ok P -> get_bounds ratio P None = Some (lo, up, am) -> am = None /\ (0 < qR lo)%R /\ (qR lo < qR up)%R.
Proof.
  intros HP E. destruct (conv_bounds P HP) as (lo' & up' & E' & dv & e & m & He & Hm & Eu & El & Hf). rewrite E in E'. injection E' as -> -> ->. split; auto.
  pose proof RG2 as HG. pose proof floor_pos as HF. assert (Gp : forall n, (1 <= RG ^ n)%R) by (intros n; apply pow_R1_Rle; lra). pose proof (Gp (po_depth (pp_pos1 P) - 1)). pose proof (Gp e).
  assert (M0 : (0 < m)%R) by lra. assert (M1 : (0 < m + 1 + RG ^ e)%R) by lra. pose proof (pow_lt _ p M0) as Q0. pose proof (pow_lt _ p M1) as Q1.
  pose proof (rp_dt _ _ RP dv _ M0) as D0. pose proof (rp_dt _ _ RP dv _ M1) as D1. rewrite Eu, El. rewrite <- D1 in D0.
  assert (L0 : (0 < rR dv (m + 1 + RG ^ e))%R). { apply (Rmult_lt_reg_r ((m + 1 + RG ^ e) ^ p)); auto. lra. }
  split; auto. apply (Rmult_lt_reg_r (m ^ p)); auto. rewrite D0. apply Rmult_lt_compat_l; auto.
  pose proof (rp_p _ _ RP). apply Rlt_pow_base; auto; lra.
Qed.
Lemma conv_deep tol : (1 < tol)%R -> exists D, forall P lo up am, pair_ok P -> D <= po_depth (pp_pos1 P) -> get_bounds ratio P None = Some (lo, up, am) -> (qR up <= qR lo * tol)%R.
Proof.
  intros Ht. destruct (pow_tol p tol Ht) as (eps & He0 & He). pose proof RG2 as HG. destruct (pow_big RG ((1 + RG) / eps)) as (n & Hn); [lra|]. exists (S n). intros P lo up am HP HL E.
  destruct (conv_bounds P HP) as (lo' & up' & E' & dv & e & m & Hle & Hm & Eu & El & Hf). rewrite E in E'. injection E' as -> -> ->.
  pose proof (conv_facts P _ _ _ HP E) as (_ & L0 & _). assert (Gp : forall n, (1 <= RG ^ n)%R) by (intros k; apply pow_R1_Rle; lra).
  specialize (Hn (po_depth (pp_pos1 P) - 1) ltac:(lia)). pose proof (Gp (po_depth (pp_pos1 P) - 1)). pose proof (Gp e).
  assert (M0 : (0 < m)%R) by lra. assert (M1 : (0 < m + 1 + RG ^ e)%R) by lra. pose proof (pow_lt _ p M0) as Q0.
  pose proof (pow_dt dv _ _ M0 M1) as D0. rewrite <- Eu, <- El in D0. apply (Rmult_le_reg_r (m ^ p)); auto. rewrite D0, Rmult_assoc. apply Rmult_le_compat_l; [lra|].
  assert (Ge : (RG ^ e <= RG)%R) by (destruct e as [|[|e]]; cbn; lra || lia).
  apply Rle_trans with (((1 + eps) * m) ^ p)%R.
  - apply pow_incr. split; [lra|]. assert ((1 + RG) <= eps * m)%R; [|lra]. apply (Rmult_le_reg_r (/ eps)); [apply Rinv_0_lt_compat; auto|].
    replace (eps * m * / eps)%R with m by (field; lra). unfold Rdiv in Hn. lra.
  - rewrite Rpow_mult_distr. apply Rmult_le_compat_r; lra.
Qed.
End Conv.
