(** Ratios of pairs of points of two fractions (core level): invariance, reduction to pairs of fractions that are not
    neighbours, bounds. *)
From Verif Require Import Py L_Py L_Qc M_BaseMaps S_BaseMaps L_BaseMaps P_Actions P_GenMaps M_Subsets S_Subsets P_Subsets P_Points P_Facets
  M_Paths M_Utils M_Curves S_Utils L_R P_Utils S_Curves S_Junctions P_CurveAct L_Digits P_Core P_Bridge P_Paths P_Entrance P_Cont P_Check P_Subdiv
  P_Junctions P_JuncLoop P_JuncMain S_Ratio S_Dilation P_DilGeo.
From Coq Require Import Reals Lra Lia Permutation.
Local Open Scope nat_scope.

Section Ratio.
Context (K : core) (HF : core_full K) (rQ : list Qc -> Qc -> option Qc) (rR : list R -> R -> R) (RO : ratio_ok (kd K) rQ rR).
Let HK := full_ok K HF.
Notation G := (kG K). Notation N := (kN K). Notation d := (kd K).
Notation RN := (IZR (Z.of_nat N)). Notation RG := (IZR (Z.of_nat G)).
Local Open Scope R_scope.

Definition rho (dt : Z) (v : list Z) (s : R) (u : list R) (t : R) (w : list R) : R := rR (diffs_shifted d v u w) (t + IZR dt - s).
(** a pair of points of a configuration (X, Y, v) with time shift dt *)
Definition kq (t : tri) (cs1 cs2 : list nat) (s : R) (u : list R) (t' : R) (w : list R) : Prop :=
  let '(X, Y, v) := t in kpt K X cs1 s u /\ kpt K Y cs2 t' w.

Lemma RG_RN n : RG ^ n = (RN ^ n) ^ d.
Proof. unfold kG. rewrite Nat2Z.inj_pow, IZR_pow, <- !pow_mult. f_equal. lia. Qed.
Lemma rho_jact g v dt s u t w : wf_bm d g -> length v = d -> length u = d -> length w = d ->
  rho dt v s u t w = if time_rev g then rho dt (apply_vec g (map Z.opp v)) (gt g t) (gx g w) (gt g s) (gx g u)
                     else rho dt (apply_vec g v) (gt g s) (gx g u) (gt g t) (gx g w).
Proof.
  intros Hg Lv Lu Lw. pose proof (proj1 (conj Hg I)) as Hp. unfold wf_bm in Hp. unfold rho, gt.
  set (f := fun j => Rabs (nth j u 0 - (nth j w 0 + IZR (nth j v 0%Z)))).
  assert (P : Permutation (map f (seq 0 d)) (map f (map fst (coords g)))) by (apply Permutation_map; symmetry; apply Hg).
  assert (E0 : map Rabs (diffs_shifted d v u w) = map f (seq 0 d)) by (unfold diffs_shifted; rewrite map_map; auto).
  assert (E2 : map f (map fst (coords g)) = map (fun i => f (fst (nth i (coords g) (0%nat, false)))) (seq 0 d)).
  { apply nth_ext_lt with 0; [rewrite !map_length, seq_length; apply wf_length; auto|]. intros i Hi. rewrite !map_length, (wf_length d) in Hi by auto.
    rewrite (nth_map_seq (fun i => f (fst (nth i (coords g) (0%nat, false))))) by auto.
    rewrite map_map. rewrite (map_nth_lt _ _ _ (0%nat, false)) by (rewrite (wf_length d); auto). auto. }
  destruct (time_rev g).
  - replace (1 - s + IZR dt - (1 - t)) with (t + IZR dt - s) by lra. apply (ro_sym _ _ _ RO).
    rewrite E0, P, E2. unfold diffs_shifted. rewrite map_map. apply Permutation_refl'. apply map_ext_in. intros i Hi%in_seq.
    unfold f, gx, apply_vec. rewrite !nth_act by (rewrite (wf_length d); auto; lia). pose proof (wf_nth_lt d g i Hg ltac:(lia)) as Hk.
    rewrite (map_nth_lt _ _ _ 0%Z) by lia.
    destruct (snd (nth i (coords g) (0%nat, false))); rewrite ?opp_IZR, ?Z.opp_involutive.
    + f_equal. lra.
    + rewrite <- Rabs_Ropp. f_equal. lra.
  - apply (ro_sym _ _ _ RO).
    rewrite E0, P, E2. unfold diffs_shifted. rewrite map_map. apply Permutation_refl'. apply map_ext_in. intros i Hi%in_seq.
    unfold f, gx, apply_vec. rewrite !nth_act by (rewrite (wf_length d); auto; lia).
    destruct (snd (nth i (coords g) (0%nat, false))); rewrite ?opp_IZR.
    + rewrite <- Rabs_Ropp. f_equal. lra.
    + f_equal.
Qed.
(** transport of a pair of points along an isometry of configurations *)
Lemma kq_jact g t cs1 cs2 dt s u t' w : wf_bm d g -> wft K t -> wfc K cs1 -> wfc K cs2 -> kq t cs1 cs2 s u t' w ->
  exists cs1' cs2' s1 u1 t1 w1, kq (jact g t) cs1' cs2' s1 u1 t1 w1 /\ rho dt (snd (jact g t)) s1 u1 t1 w1 = rho dt (snd t) s u t' w /\
    (t1 - s1 = t' - s) /\
    (if time_rev g then cs1' = map (kflip K g) cs2 /\ cs2' = map (kflip K g) cs1 else cs1' = map (kflip K g) cs1 /\ cs2' = map (kflip K g) cs2).
Proof.
  intros Hg HW W1 W2 HQ. destruct t as [[X Y] v]. destruct HW as (HX & HY & Hv). destruct HQ as (HA & HB).
  pose proof (kpt_mul K HF g _ _ _ _ Hg HX W1 HA) as HA'. pose proof (kpt_mul K HF g _ _ _ _ Hg HY W2 HB) as HB'.
  pose proof (rho_jact g v dt s u t' w Hg Hv (proj1 HA) (proj1 HB)) as E. unfold jact. destruct (time_rev g) eqn:T.
  - do 6 eexists. split; [split; [exact HB'|exact HA']|]. cbn [snd]. split; [symmetry; exact E|]. split; [unfold gt; rewrite T; lra|auto].
  - do 6 eexists. split; [split; [exact HA'|exact HB']|]. cbn [snd]. split; [symmetry; exact E|]. split; [unfold gt; rewrite T; lra|auto].
Qed.
Lemma rho_zero s u t w : rho 0 (repeat 0%Z d) s u t w = rR (diffs d u w) (t - s).
Proof.
  unfold rho. f_equal; [|lra]. unfold diffs_shifted, diffs. apply map_ext_in. intros i Hi%in_seq.
  assert (E : nth i (repeat 0%Z d) 0%Z = 0%Z) by (clear; revert i; induction d; intros [|i]; cbn; auto). rewrite E. lra.
Qed.
(** points of two fractions of one curve, and the points of the curves in the fractions *)
Lemma rho_zoom S cs cs' s u t w s0 u0 t0 w0 : length cs' = length cs -> s < t ->
  s * RG ^ length cs = IZR (kT K cs) + s0 -> t * RG ^ length cs = IZR (kT K cs') + t0 ->
  (forall j, (j < d)%nat -> nth j u 0 * RN ^ length cs = IZR (kX K S cs j) + nth j u0 0) ->
  (forall j, (j < d)%nat -> nth j w 0 * RN ^ length cs = IZR (kX K S cs' j) + nth j w0 0) ->
  rho (kT K cs' - kT K cs) (vdiff K (kX K S cs') (kX K S cs)) s0 u0 t0 w0 = rR (diffs d u w) (t - s).
Proof.
  intros L Hst E1 E2 F1 F2. pose proof (RNp K HK (length cs)) as HP.
  rewrite <- (ro_uniform _ _ _ RO (RN ^ length cs) (diffs d u w) (t - s)) by lra. unfold rho. f_equal.
  - unfold diffs_shifted, diffs. rewrite map_map. apply map_ext_in. intros i Hi%in_seq. rewrite (nth_vdiff K) by lia.
    specialize (F1 i ltac:(lia)). specialize (F2 i ltac:(lia)). rewrite minus_IZR. lra.
  - rewrite <- RG_RN, minus_IZR. lra.
Qed.

(** Every pair of neighbouring fractions, and every fraction, is realised in the curve. *)
Lemma kgraph_zoom p cs s0 u0 : (p < km K)%nat -> wfc K cs -> kgraph K (kst K (Sp (id_map d) p) cs) s0 u0 ->
  exists s u, kgraph K (Sp (id_map d) p) s u /\ s * RG ^ length cs = IZR (kT K cs) + s0 /\
   (forall j, (j < d)%nat -> nth j u 0 * RN ^ length cs = IZR (kX K (Sp (id_map d) p) cs j) + nth j u0 0).
Proof.
  intros Hp W H. pose proof (kpt_make K HF _ _ _ _ H) as HM. do 2 eexists. split; [apply (kpt_graph K HF cs); eauto; apply (wfS_idp K); auto|].
  pose proof (RGp K HK (length cs)). pose proof (RNp K HK (length cs)).
  split; [field; lra|]. intros j Hj. rewrite (nth_map_seq (fun j => (IZR (kX K (Sp (id_map d) p) cs j) + nth j u0 0) / RN ^ length cs)) by auto. field. lra.
Qed.
Definition attained (r : R) : Prop := exists p s t u w, (p < km K)%nat /\ kgraph K (Sp (id_map d) p) s u /\ kgraph K (Sp (id_map d) p) t w /\ s < t /\
  rR (diffs d u w) (t - s) = r.
Lemma real_pair p cs cs' s0 u0 t0 w0 : (p < km K)%nat -> consec K cs cs' ->
  kq (kpair K p cs cs') [] [] s0 u0 t0 w0 -> s0 < t0 + 1 -> attained (rho 1 (snd (kpair K p cs cs')) s0 u0 t0 w0).
Proof.
  intros Hp HC (HA & HB) Hlt. pose proof HC as (W & W' & L & E). apply kpt_nil in HA; auto. apply kpt_nil in HB; auto.
  apply (kgraph_zoom p cs) in HA; auto. apply (kgraph_zoom p cs') in HB; auto. destruct HA as (s & u & GA & E1 & F1). destruct HB as (t & w & GB & E2 & F2).
  rewrite L in E2, F2. assert (Hst : s < t). { pose proof (RGp K HK (length cs)). rewrite E, plus_IZR in E2. nra. }
  exists p, s, t, u, w. repeat (split; auto). rewrite <- (rho_zoom (Sp (id_map d) p) cs cs' s u t w s0 u0 t0 w0); auto.
  replace (kT K cs' - kT K cs)%Z with 1%Z by lia. reflexivity.
Qed.
(** ... also up to isometry *)
Lemma real_jeq t p cs cs' s0 u0 t0 w0 : (p < km K)%nat -> consec K cs cs' -> jeq d (kpair K p cs cs') t ->
  kq t [] [] s0 u0 t0 w0 -> s0 < t0 + 1 -> attained (rho 1 (snd t) s0 u0 t0 w0).
Proof.
  intros Hp HC HE HQ Hlt. pose proof (kpair_wf K HK p cs cs' Hp HC) as HW. pose proof (jeq_wf K _ _ HW HE) as HWt.
  apply (jeq_sym K) in HE; auto. destruct HE as (g & Hg & E).
  destruct (kq_jact g t [] [] 1 s0 u0 t0 w0 Hg HWt (Forall_nil _) (Forall_nil _) HQ) as (c1 & c2 & s1 & u1 & t1 & w1 & HQ1 & ER & ED & EC).
  rewrite <- E in *. rewrite <- ER. apply real_pair; auto; [|lra].
  destruct (time_rev g); destruct EC as [-> ->]; exact HQ1.
Qed.
Definition auto_tri (p : nat) : tri := (Sp (id_map d) p, Sp (id_map d) p, repeat 0%Z d).
Lemma auto_wf p : (p < km K)%nat -> wft K (auto_tri p).
Proof. intros Hp. repeat split; try (apply (wfS_idp K); auto). apply repeat_length. Qed.
Definition cfg (t : tri) (dt : Z) : Prop :=
  (dt = 1%Z /\ exists p cs cs', (p < km K)%nat /\ consec K cs cs' /\ jeq d (kpair K p cs cs') t) \/
  (dt = 0%Z /\ exists p, (p < km K)%nat /\ t = auto_tri p).
Lemma cfg_wf t dt : cfg t dt -> wft K t.
Proof.
  intros [(_ & p & cs & cs' & Hp & HC & HE)|(_ & p & Hp & ->)]; [|apply auto_wf; auto].
  apply (jeq_wf K _ _ (kpair_wf K HK p cs cs' Hp HC) HE).
Qed.
Lemma cfg_real t dt s u t' w : cfg t dt -> kq t [] [] s u t' w -> s < t' + IZR dt -> attained (rho dt (snd t) s u t' w).
Proof.
  intros [(-> & p & cs & cs' & Hp & HC & HE)|(-> & p & Hp & ->)] HQ Hlt; [eapply real_jeq; eauto|].
  destruct HQ as (HA & HB). apply kpt_nil in HA; auto. apply kpt_nil in HB; auto. exists p, s, t', u, w. repeat (split; auto); [lra|].
  rewrite <- rho_zero. reflexivity.
Qed.
Lemma kq_up t cs1 cs2 s u t' w : wft K t -> wfc K cs1 -> wfc K cs2 -> kq t cs1 cs2 s u t' w -> kq t [] [] s u t' w.
Proof.
  destruct t as [[X Y] v]. intros (HX & HY & _) W1 W2 (HA & HB). split; apply kpt_nil; auto; [apply (kpt_graph K HF cs1)|apply (kpt_graph K HF cs2)]; auto.
Qed.

(** Any two moments of the curve are seen in a pair of first-order fractions which are not neighbours. *)
Lemma digits_apart (dl el : nat -> nat) s t : (forall k, (dl k < G)%nat) -> (forall k, (el k < G)%nat) -> s < t ->
  (forall n, IZR (kT K (prefix dl n)) <= s * RG ^ n <= IZR (kT K (prefix dl n)) + 1) ->
  (forall n, IZR (kT K (prefix el n)) <= t * RG ^ n <= IZR (kT K (prefix el n)) + 1) ->
  exists n, (kT K (prefix dl (S n)) + 2 <= kT K (prefix el (S n)))%Z /\
    ((kT K (prefix el n) = kT K (prefix dl n))%Z \/ (kT K (prefix el n) = kT K (prefix dl n) + 1)%Z).
Proof.
  intros Hd He Hst H1 H2.
  assert (HB : exists n, (kT K (prefix dl n) + 2 <= kT K (prefix el n))%Z).
  { pose proof (kG_ge2 K HK) as HG. assert (R2 : 2 <= RG) by (apply (IZR_le 2); lia).
    destruct (Pow_x_infinity RG ltac:(rewrite Rabs_right; lra) (3 / (t - s))) as (n & Hn). specialize (Hn n ltac:(lia)).
    exists n. specialize (H1 n). specialize (H2 n). assert (HP : 0 < RG ^ n) by (apply pow_lt; lra).
    rewrite Rabs_right in Hn by lra. assert (3 <= (t - s) * RG ^ n).
    { apply Rmult_le_reg_r with (/ (t - s)); [apply Rinv_0_lt_compat; lra|]. unfold Rdiv in Hn.
      replace ((t - s) * RG ^ n * / (t - s)) with (RG ^ n) by (field; lra). lra. }
    assert (IZR (kT K (prefix dl n)) + 2 <= IZR (kT K (prefix el n))) by lra.
    apply le_IZR. rewrite plus_IZR. lra. }
  destruct HB as (n & Hn).
  assert (HM : exists m, (kT K (prefix dl (S m)) + 2 <= kT K (prefix el (S m)))%Z /\ ~ (kT K (prefix dl m) + 2 <= kT K (prefix el m))%Z).
  { induction n as [|n IH]; [exfalso; revert Hn; cbn; lia|].
    destruct (Z_le_dec (kT K (prefix dl n) + 2) (kT K (prefix el n))) as [Hy|Hx]; [apply IH; auto|exists n; auto]. }
  destruct HM as (m & Hm & Hx). exists m. split; auto. rewrite !prefix_S, !(kT_snoc K) in Hm.
  pose proof (Hd m). pose proof (He m). nia.
Qed.
Lemma apart p s u t w : (p < km K)%nat -> kgraph K (Sp (id_map d) p) s u -> kgraph K (Sp (id_map d) p) t w -> s < t ->
  exists c1 c2 s' u' t' w', (c1 < G)%nat /\ (c2 < G)%nat /\
    ((exists q, (q < km K)%nat /\ (c1 + 2 <= c2)%nat /\ kq (auto_tri q) [c1] [c2] s' u' t' w' /\
        rho 0 (repeat 0%Z d) s' u' t' w' = rR (diffs d u w) (t - s)) \/
     (exists q cs cs', (q < km K)%nat /\ consec K cs cs' /\ (c1, c2) <> (G - 1, 0)%nat /\ kq (kpair K q cs cs') [c1] [c2] s' u' t' w' /\
        rho 1 (snd (kpair K q cs cs')) s' u' t' w' = rR (diffs d u w) (t - s))).
Proof.
  intros Hp (Lu & dl & Hd & HA) (Lw & el & He & HB) Hst. pose proof (wfS_idp K p Hp) as HS.
  destruct (digits_apart dl el s t Hd He Hst) as (n & Hn & HE).
  { intros k. pose proof (kpt_stream K HF k _ _ _ _ HS Lu Hd HA) as X. apply (kpt_box K) in X; auto; [|apply prefix_wfc; auto]. destruct X as [X _]. rewrite prefix_length in X. exact X. }
  { intros k. pose proof (kpt_stream K HF k _ _ _ _ HS Lw He HB) as X. apply (kpt_box K) in X; auto; [|apply prefix_wfc; auto]. destruct X as [X _]. rewrite prefix_length in X. exact X. }
  pose proof (kpt_stream K HF (S n) _ _ _ _ HS Lu Hd HA) as PA. pose proof (kpt_stream K HF (S n) _ _ _ _ HS Lw He HB) as PB.
  rewrite prefix_S in PA, PB. pose proof (prefix_wfc K dl n Hd) as W1. pose proof (prefix_wfc K el n He) as W2.
  rewrite !prefix_S, !(kT_snoc K) in Hn. pose proof (Hd n) as Dn. pose proof (He n) as En.
  assert (LL : length (prefix el n) = length (prefix dl n)) by (rewrite !prefix_length; auto).
  set (ds := prefix dl n) in *. set (es := prefix el n) in *. set (c1 := dl n) in *. set (c2 := el n) in *. clearbody c1 c2 ds es.
  (* the points of the curves in the fractions ds, es *)
  assert (Hin : forall cs c s u, wfc K cs -> (c < G)%nat -> kpt K (Sp (id_map d) p) (cs ++ [c]) s u -> exists s0 u0, kpt K (kst K (Sp (id_map d) p) cs) [c] s0 u0 /\
     s * RG ^ length cs = IZR (kT K cs) + s0 /\ forall j, (j < d)%nat -> nth j u 0 * RN ^ length cs = IZR (kX K (Sp (id_map d) p) cs j) + nth j u0 0).
  { intros cs c s1 u1 W Hc HP.
    exists (s1 * RG ^ length cs - IZR (kT K cs)), (map (fun j => nth j u1 0 * RN ^ length cs - IZR (kX K (Sp (id_map d) p) cs j)) (seq 0 d)).
    split; [|split; [lra|intros j Hj; rewrite (nth_map_seq (fun j => nth j u1 0 * RN ^ length cs - IZR (kX K (Sp (id_map d) p) cs j))) by auto; lra]].
    destruct HP as (L1 & s0 & u0 & H0 & E1 & E2). split; [rewrite map_length, seq_length; auto|]. exists s0, u0.
    rewrite kst_app in H0. split; auto. cbn [length pow]. rewrite app_length in E1, E2. cbn [length] in E1, E2. rewrite Nat.add_1_r in E1, E2. cbn [pow] in E1, E2.
    split.
    - rewrite (kT_snoc K), plus_IZR, mult_IZR in E1. rewrite (kT_cons K). cbn [length]. rewrite kT_nil. change (Z.of_nat 0) with 0%Z. rewrite Z.pow_0_r, Z.mul_1_r, Z.add_0_r. lra.
    - intros j Hj. specialize (E2 j Hj). rewrite (kX_snoc K), plus_IZR, mult_IZR in E2. rewrite (kX_cons K). cbn [length]. rewrite kX_nil.
      change (Z.of_nat 0) with 0%Z. rewrite Z.pow_0_r, Z.mul_1_r, Z.add_0_r.
      rewrite (nth_map_seq (fun j => nth j u1 0 * RN ^ length cs - IZR (kX K (Sp (id_map d) p) cs j))) by auto. lra. }
  apply Hin in PA; auto. apply Hin in PB; auto. clear Hin. destruct PA as (s0 & u0 & PA & E1 & F1). destruct PB as (t0 & w0 & PB & E2 & F2).
  rewrite LL in E2, F2. pose proof (rho_zoom (Sp (id_map d) p) ds es s u t w s0 u0 t0 w0 LL Hst E1 E2 F1 F2) as ER.
  destruct HE as [HE|HE].
  - assert (es = ds) as -> by (symmetry; apply (kT_inj K HK); auto). set (X := kst K (Sp (id_map d) p) ds) in *.
    assert (HX : wfS K X) by (apply (kst_wf K HK); auto). pose proof HX as [Hb Hq].
    set (g := bm_inv (sp_bm X)). assert (Hg : wf_bm d g) by (apply wf_inv; auto).
    assert (EX : bm_mul_sp g X = Sp (id_map d) (sp_pnum X)). { unfold g, bm_mul_sp. cbn [sp_pnum]. rewrite (mul_inv_l d); auto. }
    rewrite Z.sub_diag in ER. assert (Ev : vdiff K (kX K (Sp (id_map d) p) ds) (kX K (Sp (id_map d) p) ds) = repeat 0%Z d).
    { unfold vdiff. rewrite map_ext with (g := fun _ => 0%Z) by (intros; lia). clear. generalize 0%nat. induction d as [|k IH]; intros a; cbn; auto. f_equal. apply IH. }
    rewrite Ev in ER.
    assert (HW : wft K (X, X, repeat 0%Z d)) by (repeat split; auto; apply repeat_length).
    destruct (kq_jact g (X, X, repeat 0%Z d) [c1] [c2] 0 s0 u0 t0 w0 Hg HW) as (a1 & a2 & s1 & u1 & t1 & w1 & HQ1 & ER1 & ED & EC); [repeat constructor; auto|repeat constructor; auto|split; auto|].
    assert (Eg : forall v, v = repeat 0%Z d -> apply_vec g v = repeat 0%Z d).
    { intros v ->. apply nth_ext_lt with 0%Z; [rewrite (length_vec K), repeat_length; auto|]. intros i Hi. rewrite (length_vec K) in Hi by auto.
      assert (RZ : forall k, nth k (repeat 0%Z d) 0%Z = 0%Z) by (clear; intros k; revert k; induction d; intros [|k]; cbn; auto).
      unfold apply_vec. rewrite nth_act by (rewrite (wf_length d); auto). rewrite !RZ. destruct (snd (nth i (coords g) (0%nat, false))); auto. }
    assert (Ej : jact g (X, X, repeat 0%Z d) = auto_tri (sp_pnum X)).
    { unfold jact, auto_tri. rewrite EX. destruct (time_rev g); rewrite Eg; auto.
      clear. induction d; cbn; auto. f_equal; auto. }
    rewrite Ej in *. assert (c1 + 2 <= c2)%nat by nia. cbn [map] in EC. unfold kflip in EC.
    exists (if time_rev g then G - 1 - c2 else c1)%nat, (if time_rev g then G - 1 - c1 else c2)%nat, s1, u1, t1, w1.
    split; [destruct (time_rev g); lia|]. split; [destruct (time_rev g); lia|]. left. exists (sp_pnum X). split; auto.
    split; [destruct (time_rev g); lia|]. split; [destruct (time_rev g); destruct EC as [<- <-]; auto|]. unfold auto_tri in ER1. cbn [snd] in ER1. rewrite ER1. auto.
  - exists c1, c2, s0, u0, t0, w0. split; auto. split; auto. right. exists p, ds, es. split; auto.
    assert (HC : consec K ds es) by (repeat split; auto). split; auto. split; [intros [=]; nia|]. split; [split; auto|].
    replace (kT K es - kT K ds)%Z with 1%Z in ER by lia. exact ER.
Qed.
(** the same for the representatives of the classes of neighbours *)
Lemma apart_rep (J : tri -> Prop) p s u t w :
  (forall p cs cs', (p < km K)%nat -> consec K cs cs' -> exists t, J t /\ jeq d (kpair K p cs cs') t) ->
  (p < km K)%nat -> kgraph K (Sp (id_map d) p) s u -> kgraph K (Sp (id_map d) p) t w -> s < t ->
  exists c1 c2 s' u' t' w', (c1 < G)%nat /\ (c2 < G)%nat /\
    ((exists q, (q < km K)%nat /\ (c1 + 2 <= c2)%nat /\ kq (auto_tri q) [c1] [c2] s' u' t' w' /\
        rho 0 (repeat 0%Z d) s' u' t' w' = rR (diffs d u w) (t - s)) \/
     (exists j, J j /\ (c1, c2) <> (G - 1, 0)%nat /\ kq j [c1] [c2] s' u' t' w' /\ rho 1 (snd j) s' u' t' w' = rR (diffs d u w) (t - s))).
Proof.
  intros HJ Hp HA HB Hst. destruct (apart p s u t w Hp HA HB Hst) as (c1 & c2 & s' & u' & t' & w' & H1 & H2 & [HL|HR]).
  { exists c1, c2, s', u', t', w'. split; auto. }
  destruct HR as (q & cs & cs' & Hq & HC & Hne & HQ & ER). destruct (HJ q cs cs' Hq HC) as (j & Hj & (g & Hg & ->)).
  pose proof (kpair_wf K HK q cs cs' Hq HC) as HW.
  destruct (kq_jact g _ [c1] [c2] 1 s' u' t' w' Hg HW) as (a1 & a2 & s1 & u1 & t1 & w1 & HQ1 & ER1 & ED & EC); [repeat constructor; auto|repeat constructor; auto|auto|].
  cbn [map] in EC. unfold kflip in EC. pose proof (kG_ge2 K HK) as HG.
  exists (if time_rev g then G - 1 - c2 else c1)%nat, (if time_rev g then G - 1 - c1 else c2)%nat, s1, u1, t1, w1.
  split; [destruct (time_rev g); lia|]. split; [destruct (time_rev g); lia|]. right. eexists. split; [exact Hj|].
  split. { destruct (time_rev g); intros [=]; auto. apply Hne. f_equal; lia. }
  split; [destruct (time_rev g); destruct EC as [<- <-]; auto|]. rewrite ER1. auto.
Qed.

(** Bounds: X1, X2 are the positions of the two cubes in the grid of division N^n1, m = N^(n1-n2). *)
Definition bx (m : Z) (x1 x2 : nat -> Z) : list R := map (fun j => IZR (Z.max (Z.abs (x1 j - x2 j + 1)) (Z.abs (x1 j - x2 j - m)))) (seq 0 d).
Definition px1 (t : tri) (cs1 : list nat) (j : nat) : Z := kX K (fst (fst t)) cs1 j.
Definition px2 (t : tri) (e : nat) (cs1 cs2 : list nat) (j : nat) : Z :=
  (kX K (snd (fst t)) cs2 j * Z.of_nat N ^ Z.of_nat e + nth j (snd t) 0%Z * Z.of_nat N ^ Z.of_nat (length cs1))%Z.
Definition pt2 (dt : Z) (e : nat) (cs1 cs2 : list nat) : Z :=
  (kT K cs2 * Z.of_nat G ^ Z.of_nat e + dt * Z.of_nat G ^ Z.of_nat (length cs1))%Z.
Definition pbx (t : tri) (e : nat) (cs1 cs2 : list nat) : list R := bx (Z.of_nat N ^ Z.of_nat e) (px1 t cs1) (px2 t e cs1 cs2).
Lemma pair_box t dt e cs1 cs2 s u t' w : wft K t -> wfc K cs1 -> wfc K cs2 -> length cs1 = (length cs2 + e)%nat -> kq t cs1 cs2 s u t' w ->
  (IZR (kT K cs1) <= s * RG ^ length cs1 <= IZR (kT K cs1) + 1) /\
  (IZR (pt2 dt e cs1 cs2) <= (t' + IZR dt) * RG ^ length cs1 <= IZR (pt2 dt e cs1 cs2) + RG ^ e) /\
  (forall j, (j < d)%nat -> IZR (px1 t cs1 j) <= nth j u 0 * RN ^ length cs1 <= IZR (px1 t cs1 j) + 1) /\
  (forall j, (j < d)%nat -> IZR (px2 t e cs1 cs2 j) <= (nth j w 0 + IZR (nth j (snd t) 0%Z)) * RN ^ length cs1 <= IZR (px2 t e cs1 cs2 j) + RN ^ e).
Proof.
  destruct t as [[X Y] v]. intros (HX & HY & Hv) W1 W2 L (HA & HB). apply (kpt_box K) in HA as [HA1 HA2]; auto. apply (kpt_box K) in HB as [HB1 HB2]; auto.
  split; auto. split; [|split; auto].
  - unfold pt2. rewrite plus_IZR, !mult_IZR, !IZR_pow. rewrite L, pow_add. pose proof (RGp K HK e). nra.
  - intros j Hj. specialize (HB2 j Hj). unfold px2. cbn [fst snd]. rewrite plus_IZR, !mult_IZR, !IZR_pow, L, pow_add. pose proof (RNp K HK e). nra.
Qed.
Lemma abs_max (x1 x2 m : Z) (a b M : R) : M = IZR m -> IZR x1 <= a <= IZR x1 + 1 -> IZR x2 <= b <= IZR x2 + M ->
  Rabs (a - b) <= IZR (Z.max (Z.abs (x1 - x2 + 1)) (Z.abs (x1 - x2 - m))).
Proof.
  intros -> Ha Hb. apply Rabs_le.
  assert (H1 : a - b <= IZR (Z.max (Z.abs (x1 - x2 + 1)) (Z.abs (x1 - x2 - m)))).
  { apply Rle_trans with (IZR (x1 - x2 + 1)); [rewrite plus_IZR, minus_IZR; lra|]. apply IZR_le. lia. }
  assert (H2 : IZR (- (x1 - x2 - m)) <= IZR (Z.max (Z.abs (x1 - x2 + 1)) (Z.abs (x1 - x2 - m)))) by (apply IZR_le; lia).
  rewrite opp_IZR, !minus_IZR in H2. lra.
Qed.
Lemma rho_scaled dt v n s u t w : s < t + IZR dt ->
  rho dt v s u t w = rR (map (fun j => nth j u 0 * RN ^ n - (nth j w 0 + IZR (nth j v 0%Z)) * RN ^ n) (seq 0 d)) ((t + IZR dt) * RG ^ n - s * RG ^ n).
Proof.
  intros H. unfold rho. rewrite <- (ro_uniform _ _ _ RO (RN ^ n)) by (try lra; apply (RNp K HK)). f_equal.
  - unfold diffs_shifted. rewrite map_map. apply map_ext. intros i. lra.
  - rewrite <- RG_RN. lra.
Qed.
Lemma Forall2_map_seq (f g : nat -> R) n : (forall j, (j < n)%nat -> Rabs (f j) <= Rabs (g j)) -> Forall2 (fun x y => Rabs x <= Rabs y) (map f (seq 0 n)) (map g (seq 0 n)).
Proof.
  intros H. assert (forall a, (forall j, (a <= j < a + n)%nat -> Rabs (f j) <= Rabs (g j)) -> Forall2 (fun x y => Rabs x <= Rabs y) (map f (seq a n)) (map g (seq a n))) as A.
  { clear H. induction n as [|n IH]; intros a Ha; cbn; constructor; [apply Ha; lia|]. apply IH. intros. apply Ha. lia. }
  apply A. intros. apply H. lia.
Qed.
(** the ratio of any pair of points is at most the ratio of the extreme differences *)
Lemma bound_pre t dt e cs1 cs2 s u t' w : wft K t -> wfc K cs1 -> wfc K cs2 -> length cs1 = (length cs2 + e)%nat -> kq t cs1 cs2 s u t' w ->
  s < t' + IZR dt -> forall D, 0 < D <= (t' + IZR dt) * RG ^ length cs1 - s * RG ^ length cs1 ->
  rho dt (snd t) s u t' w <= rR (pbx t e cs1 cs2) D.
Proof.
  intros HW W1 W2 L HQ Hlt D HD. destruct (pair_box t dt e cs1 cs2 s u t' w HW W1 W2 L HQ) as (B1 & B2 & B3 & B4).
  rewrite (rho_scaled dt (snd t) (length cs1)) by auto. apply (ro_mono _ _ _ RO); auto. unfold pbx, bx. apply Forall2_map_seq. intros j Hj.
  rewrite (Rabs_right (IZR _)) by (apply Rle_ge, IZR_le; lia). apply abs_max with (M := RN ^ e); auto. symmetry; apply IZR_pow.
Qed.
Lemma bound_gap t dt e cs1 cs2 s u t' w : wft K t -> wfc K cs1 -> wfc K cs2 -> length cs1 = (length cs2 + e)%nat -> kq t cs1 cs2 s u t' w ->
  (kT K cs1 + 1 < pt2 dt e cs1 cs2)%Z -> s < t' + IZR dt.
Proof.
  intros HW W1 W2 L HQ Hgap. destruct (pair_box t dt e cs1 cs2 s u t' w HW W1 W2 L HQ) as (B1 & B2 & _ & _). apply IZR_lt in Hgap. rewrite plus_IZR in Hgap.
  pose proof (RGp K HK (length cs1)). nra.
Qed.
Lemma bound_up t dt e cs1 cs2 s u t' w : wft K t -> wfc K cs1 -> wfc K cs2 -> length cs1 = (length cs2 + e)%nat -> kq t cs1 cs2 s u t' w ->
  (kT K cs1 + 1 < pt2 dt e cs1 cs2)%Z ->
  rho dt (snd t) s u t' w <= rR (pbx t e cs1 cs2) (IZR (pt2 dt e cs1 cs2 - (kT K cs1 + 1))).
Proof.
  intros HW W1 W2 L HQ Hgap. destruct (pair_box t dt e cs1 cs2 s u t' w HW W1 W2 L HQ) as (B1 & B2 & _ & _).
  pose proof (bound_gap t dt e cs1 cs2 s u t' w HW W1 W2 L HQ Hgap). apply bound_pre; auto. apply IZR_lt in Hgap. rewrite minus_IZR. rewrite plus_IZR in *. lra.
Qed.
(** and some pair attains at least the ratio with the largest time difference *)
Lemma bound_lo t dt e cs1 cs2 : wft K t -> wfc K cs1 -> wfc K cs2 -> length cs1 = (length cs2 + e)%nat ->
  (kT K cs1 + 1 < pt2 dt e cs1 cs2)%Z ->
  exists s u t' w, kq t cs1 cs2 s u t' w /\ rR (pbx t e cs1 cs2) (IZR (pt2 dt e cs1 cs2 + Z.of_nat G ^ Z.of_nat e - kT K cs1)) <= rho dt (snd t) s u t' w.
Proof.
  intros HW W1 W2 L Hgap. set (m := (Z.of_nat N ^ Z.of_nat e)%Z).
  set (E := fun j => (Z.abs (px1 t cs1 j - px2 t e cs1 cs2 j - m) <=? Z.abs (px1 t cs1 j - px2 t e cs1 cs2 j + 1))%Z).
  pose proof HW as HW'. destruct t as [[X Y] v]. destruct HW as (HX & HY & Hv).
  destruct (kpt_corner K HF X cs1 E HX W1) as (s & u & HA & EA). destruct (kpt_corner K HF Y cs2 (fun j => negb (E j)) HY W2) as (t' & w & HB & EB).
  exists s, u, t', w. assert (HQ : kq (X, Y, v) cs1 cs2 s u t' w) by (split; auto). split; auto.
  destruct (pair_box _ dt e cs1 cs2 s u t' w HW' W1 W2 L HQ) as (B1 & B2 & _ & _).
  pose proof (bound_gap _ dt e cs1 cs2 s u t' w HW' W1 W2 L HQ Hgap) as Hlt. rewrite (rho_scaled dt _ (length cs1)) by auto.
  apply (ro_mono _ _ _ RO).
  2:{ rewrite minus_IZR, plus_IZR, IZR_pow. apply IZR_lt in Hgap. rewrite plus_IZR in Hgap. lra. }
  unfold pbx, bx. apply Forall2_map_seq. intros j Hj. rewrite (Rabs_right (IZR _)) by (apply Rle_ge, IZR_le; lia).
  rewrite (EA j Hj). assert (EW : (nth j w 0 + IZR (nth j v 0%Z)) * RN ^ length cs1 = IZR (px2 (X, Y, v) e cs1 cs2 j) + (if E j then 0 else IZR m)).
  { unfold px2. cbn [fst snd]. rewrite plus_IZR, !mult_IZR, !IZR_pow, L, pow_add. unfold m. rewrite IZR_pow. specialize (EB j Hj). destruct (E j); cbn in EB; nra. }
  cbn [snd]. rewrite EW. change (kX K X cs1 j) with (px1 (X, Y, v) cs1 j). fold m. unfold E. destruct (Z.leb_spec (Z.abs (px1 (X, Y, v) cs1 j - px2 (X, Y, v) e cs1 cs2 j - m)) (Z.abs (px1 (X, Y, v) cs1 j - px2 (X, Y, v) e cs1 cs2 j + 1))) as [Hl|Hl].
  - rewrite Z.max_l by lia. rewrite abs_IZR. apply Req_le. f_equal. rewrite plus_IZR, minus_IZR. lra.
  - rewrite Z.max_r by lia. rewrite abs_IZR. apply Req_le. f_equal. rewrite !minus_IZR. lra.
Qed.
End Ratio.
