(** Digit expansions of two moments of a curve: the fractions of the junctions that they meet, at every depth, such that the
    time difference is never the least one between the fractions. *)
From Verif Require Import Py L_Py L_Qc M_BaseMaps S_BaseMaps L_BaseMaps P_Actions P_GenMaps M_Subsets S_Subsets P_Subsets P_Points P_Facets
  M_Paths M_Utils M_Curves S_Utils L_R P_Utils S_Curves S_Junctions P_CurveAct L_Digits P_Core P_Bridge P_Paths P_Entrance P_Cont P_Check P_Subdiv
  P_Junctions P_JuncLoop P_JuncMain S_Ratio S_Dilation P_DilGeo P_DilRatio.
From Coq Require Import Reals Lra Lia Permutation.
Local Open Scope nat_scope.

Lemma prefix_app dl n m : prefix dl (n + m) = prefix dl n ++ prefix (fun k => dl (n + k)) m.
Proof. induction m as [|m IH]; [rewrite Nat.add_0_r, app_nil_r; auto|]. rewrite Nat.add_succ_r, !prefix_S, IH, app_assoc. auto. Qed.
Lemma drem_lt N y n : (2 <= N)%Z -> (0 <= y < 1)%R -> (0 <= drem N y n < 1)%R.
Proof.
  intros HN Hy. induction n as [|n IH]; cbn [drem]; auto. set (r := drem N y n) in *. pose proof (Int_part_spec (IZR N * r)) as [H1 H2].
  assert (HN' : (2 <= IZR N)%R) by (apply (IZR_le 2); auto). unfold dig. assert (Int_part (IZR N * r) < N)%Z by (apply lt_IZR; nra). rewrite Z.min_r by lia. lra.
Qed.

Section Stream.
Context (K : core) (HF : core_full K) (rQ : list Qc -> Qc -> option Qc) (rR : list R -> R -> R) (RO : ratio_ok (kd K) rQ rR).
Let HK := full_ok K HF.
Notation G := (kG K). Notation N := (kN K). Notation d := (kd K).
Notation RN := (IZR (Z.of_nat N)). Notation RG := (IZR (Z.of_nat G)).
Local Open Scope R_scope.
(** the point (s, u) lies in all the fractions along dl *)
Definition along (X : spec) (dl : nat -> nat) (s : R) (u : list R) : Prop := (forall k, (dl k < G)%nat) /\ forall n, kpt K X (prefix dl n) s u.
(** and is never the end, or the beginning, of the fraction *)
Definition early (dl : nat -> nat) (s : R) : Prop := forall n, s * RG ^ n < IZR (kT K (prefix dl n)) + 1.
Definition late (dl : nat -> nat) (s : R) : Prop := forall n, IZR (kT K (prefix dl n)) < s * RG ^ n.

Lemma along_any X s u : wfS K X -> kgraph K X s u -> exists dl, along X dl s u.
Proof. intros HX (Lu & dl & Hd & HA). exists dl. split; auto. intros n. apply (kpt_stream K HF n); auto. Qed.
Lemma along_early X s : wfS K X -> 0 <= s < 1 -> exists dl u, along X dl s u /\ early dl s.
Proof.
  intros HX Hs. pose proof (ZG_ge2 K HK) as HG. set (dl := fun k => Z.to_nat (ddig (Z.of_nat G) s k)).
  assert (Hd : forall n, (dl n < G)%nat). { intros n. unfold dl. pose proof (ddig_range (Z.of_nat G) s n HG ltac:(lra)). lia. }
  assert (EV : forall n, s * RG ^ n = IZR (kT K (prefix dl n)) + drem (Z.of_nat G) s n).
  { intros n. rewrite (ddig_value (Z.of_nat G) s n HG). f_equal. unfold kT. f_equal. f_equal. unfold prefix, dpre. rewrite map_map. apply map_ext. intros k. unfold dl. rewrite Z2Nat.id; auto. apply (ddig_range (Z.of_nat G) s k HG); lra. }
  assert (ER : forall n, 0 <= drem (Z.of_nat G) s n < 1) by (intros n; apply drem_lt; auto).
  destruct (kgraph_digits K HK X dl s HX Hd) as (u & Lu & HU). { intros n. rewrite (time_in_kT K), prefix_length. rewrite EV. specialize (ER n). lra. }
  exists dl, u. split; [split; auto; intros n; apply (kpt_stream K HF n); auto|]. intros n. rewrite EV. specialize (ER n). lra.
Qed.
Lemma along_zoom X dl s u n : wfS K X -> along X dl s u -> exists s0 u0, along (kst K X (prefix dl n)) (fun k => dl (n + k)%nat) s0 u0 /\
  s * RG ^ n = IZR (kT K (prefix dl n)) + s0 /\ (forall j, (j < d)%nat -> nth j u 0 * RN ^ n = IZR (kX K X (prefix dl n) j) + nth j u0 0) /\
  (early dl s -> early (fun k => dl (n + k)%nat) s0).
Proof.
  intros HX [Hd HA]. set (cs := prefix dl n). exists (s * RG ^ n - IZR (kT K cs)), (map (fun j => nth j u 0 * RN ^ n - IZR (kX K X cs j)) (seq 0 d)).
  assert (ET : forall m, kT K (prefix dl (n + m)) = (kT K cs * Z.of_nat G ^ Z.of_nat m + kT K (prefix (fun k => dl (n + k)%nat) m))%Z) by (intros m; rewrite prefix_app, (kT_app K), prefix_length; auto).
  split; [split; auto|split; [lra|split]].
  - intros m. destruct (HA (n + m)%nat) as (Lu & s1 & u1 & H1 & E1 & E2). split; [rewrite map_length, seq_length; auto|]. exists s1, u1. rewrite prefix_length in *.
    rewrite prefix_app in H1. fold cs in H1. rewrite kst_app in H1. split; auto. split.
    + rewrite ET, plus_IZR, mult_IZR, IZR_pow, pow_add in E1. lra.
    + intros j Hj. specialize (E2 j Hj). rewrite prefix_app, (kX_app K), prefix_length, plus_IZR, mult_IZR, IZR_pow, pow_add in E2. fold cs in E2.
      rewrite (nth_map_seq (fun j => nth j u 0 * RN ^ n - IZR (kX K X cs j))) by auto. lra.
  - intros j Hj. rewrite (nth_map_seq (fun j => nth j u 0 * RN ^ n - IZR (kX K X cs j))) by auto. lra.
  - intros HE m. specialize (HE (n + m)%nat). rewrite ET, plus_IZR, mult_IZR, IZR_pow, pow_add in HE. lra.
Qed.
Lemma along_mul g X dl s u : wf_bm d g -> wfS K X -> along X dl s u -> along (bm_mul_sp g X) (fun k => kflip K g (dl k)) (gt g s) (gx g u) /\
  (early dl s -> if time_rev g then late (fun k => kflip K g (dl k)) (gt g s) else early (fun k => kflip K g (dl k)) (gt g s)).
Proof.
  intros Hg HX [Hd HA]. split; [split; [intros k; apply kflip_lt; auto|]|].
  - intros n. rewrite prefix_flip. apply (kpt_mul K HF); auto. apply prefix_wfc; auto.
  - intros HE. unfold gt. assert (ET : forall n, kT K (prefix (fun k => kflip K g (dl k)) n) = if time_rev g then (Z.of_nat G ^ Z.of_nat n - 1 - kT K (prefix dl n))%Z else kT K (prefix dl n)).
    { intros n. rewrite prefix_flip, (kT_flip K) by (apply prefix_wfc; auto). rewrite prefix_length. auto. }
    destruct (time_rev g) eqn:T; intros n; specialize (HE n); rewrite ET; [|lra]. rewrite !minus_IZR, IZR_pow. lra.
Qed.
(** two points of a configuration along two expansions *)
Definition along2 (t : tri) (dl el : nat -> nat) s u t' w : Prop := along (fst (fst t)) dl s u /\ along (snd (fst t)) el t' w.
Definition never_tight (dl el : nat -> nat) (s t : R) : Prop := early dl s \/ late el t.
Lemma along_jact g t dt dl el s u t' w : wf_bm d g -> wft K t -> along2 t dl el s u t' w -> early dl s -> (Z.of_nat (dl 0%nat) + 1 < Z.of_nat (el 0%nat) + dt * Z.of_nat G)%Z ->
  exists a b s1 u1 t1 w1, along2 (jact g t) a b s1 u1 t1 w1 /\ never_tight a b s1 t1 /\ rho K rR dt (snd (jact g t)) s1 u1 t1 w1 = rho K rR dt (snd t) s u t' w /\
    (Z.of_nat (a 0%nat) + 1 < Z.of_nat (b 0%nat) + dt * Z.of_nat G)%Z.
Proof.
  intros Hg HW [HA HB] HE Hap. destruct t as [[X Y] v]. destruct HW as (HX & HY & Hv). cbn [fst snd] in *.
  assert (Lu : length u = d) by apply (proj2 HA 0%nat). assert (Lw : length w = d) by apply (proj2 HB 0%nat).
  pose proof (rho_jact K rQ rR RO g v dt s u t' w Hg Hv Lu Lw) as E.
  destruct (along_mul g X dl s u Hg HX HA) as [A1 A2]. destruct (along_mul g Y el t' w Hg HY HB) as [B1 _]. specialize (A2 HE).
  pose proof (proj1 HA 0%nat). pose proof (proj1 HB 0%nat). unfold jact. destruct (time_rev g) eqn:T.
  - do 6 eexists. split; [split; [exact B1|exact A1]|]. split; [right; exact A2|]. cbn [snd]. split; [symmetry; exact E|]. unfold kflip. rewrite T. lia.
  - do 6 eexists. split; [split; [exact A1|exact B1]|]. split; [left; exact A2|]. cbn [snd]. split; [symmetry; exact E|]. unfold kflip. rewrite T. lia.
Qed.
Lemma apart_along (J : tri -> Prop) r :
  (forall X t x y, wfS K X -> kgraph K X t x -> kgraph K X t y -> x = y) ->
  (forall p cs cs', (p < km K)%nat -> consec K cs cs' -> exists t, J t /\ jeq d (kpair K p cs cs') t) -> attained K rR r ->
  exists t dt dl el s u t' w, ((exists q, (q < km K)%nat /\ t = auto_tri K q /\ dt = 0%Z) \/ (J t /\ dt = 1%Z)) /\ along2 t dl el s u t' w /\ never_tight dl el s t' /\
    rho K rR dt (snd t) s u t' w = r /\ (Z.of_nat (dl 0%nat) + 1 < Z.of_nat (el 0%nat) + dt * Z.of_nat G)%Z.
Proof.
  intros HU HJ (p & s & t & u & w & Hp & HA & HB & Hst & ER). pose proof (wfS_idp K p Hp) as HS.
  pose proof (P_Core.kgraph_range K _ _ _ HA) as [Rs _]. pose proof (P_Core.kgraph_range K _ _ _ HB) as [Rt _].
  destruct (along_early _ s HS ltac:(lra)) as (dl & u1 & LA & HE). assert (u1 = u). { apply (HU _ s u1 u HS); auto. apply (kpt_nil K). apply (proj2 LA 0%nat). } subst u1.
  destruct (along_any _ t w HS HB) as (el & LB).
  assert (BX : forall dl s u, along (Sp (id_map d) p) dl s u -> forall n, IZR (kT K (prefix dl n)) <= s * RG ^ n <= IZR (kT K (prefix dl n)) + 1).
  { intros dl' s' u' [Hd HX] k. specialize (HX k). apply (kpt_box K) in HX; auto; [|apply prefix_wfc; auto]. destruct HX as [HX _]. rewrite prefix_length in HX. exact HX. }
  destruct (digits_apart K HF dl el s t (proj1 LA) (proj1 LB) Hst (BX _ _ _ LA) (BX _ _ _ LB)) as (n & Hn & Heq). clear BX.
  destruct (along_zoom _ dl s u n HS LA) as (s0 & u0 & LA0 & E1 & F1 & HE0). specialize (HE0 HE). destruct (along_zoom _ el t w n HS LB) as (t0 & w0 & LB0 & E2 & F2 & _).
  pose proof (prefix_wfc K dl n (proj1 LA)) as W1. pose proof (prefix_wfc K el n (proj1 LB)) as W2. rewrite !prefix_S, !(kT_snoc K) in Hn. pose proof (proj1 LA n) as Dn. pose proof (proj1 LB n) as En.
  assert (LL : length (prefix el n) = length (prefix dl n)) by (rewrite !prefix_length; auto). assert (LD : length (prefix dl n) = n) by apply prefix_length.
  pose proof (rho_zoom K HF rQ rR RO (Sp (id_map d) p) (prefix dl n) (prefix el n) s u t w s0 u0 t0 w0 LL Hst) as EZ. rewrite LD in EZ. specialize (EZ E1 E2 F1 F2). rewrite ER in EZ.
  set (dl0 := fun k => dl (n + k)%nat) in *. set (el0 := fun k => el (n + k)%nat) in *.
  assert (D0 : dl0 0%nat = dl n) by (unfold dl0; f_equal; lia). assert (E0 : el0 0%nat = el n) by (unfold el0; f_equal; lia).
  set (ds := prefix dl n) in *. set (es := prefix el n) in *. clearbody ds es dl0 el0. destruct Heq as [Heq|Heq].
  - assert (es = ds) as -> by (symmetry; apply (kT_inj K HK); auto). set (X := kst K (Sp (id_map d) p) ds) in *.
    assert (HX : wfS K X) by (apply (kst_wf K HK); auto). pose proof HX as [Hb Hq].
    set (g := bm_inv (sp_bm X)). assert (Hg : wf_bm d g) by (apply wf_inv; auto).
    assert (EX : bm_mul_sp g X = Sp (id_map d) (sp_pnum X)). { unfold g, bm_mul_sp. cbn [sp_pnum]. rewrite (mul_inv_l d); auto. }
    rewrite Z.sub_diag in EZ. assert (Ev : vdiff K (kX K (Sp (id_map d) p) ds) (kX K (Sp (id_map d) p) ds) = repeat 0%Z d).
    { unfold vdiff. rewrite map_ext with (g := fun _ => 0%Z) by (intros; lia). clear. generalize 0%nat. induction d as [|k IH]; intros a; cbn; auto. f_equal. apply IH. }
    rewrite Ev in EZ. assert (HW : wft K (X, X, repeat 0%Z d)) by (repeat split; auto; apply repeat_length).
    assert (Hap : (Z.of_nat (dl0 0%nat) + 1 < Z.of_nat (el0 0%nat) + 0 * Z.of_nat G)%Z) by (rewrite D0, E0; nia).
    destruct (along_jact g (X, X, repeat 0%Z d) 0 dl0 el0 s0 u0 t0 w0 Hg HW (conj LA0 LB0) HE0 Hap) as (a & b & s1 & u1 & t1 & w1 & C1 & C2 & C3 & C4).
    assert (Eg : forall v, v = repeat 0%Z d -> apply_vec g v = repeat 0%Z d).
    { intros v ->. apply nth_ext_lt with 0%Z; [rewrite (length_vec K), repeat_length; auto|]. intros i Hi. rewrite (length_vec K) in Hi by auto.
      assert (RZ : forall k, nth k (repeat 0%Z d) 0%Z = 0%Z) by (clear; intros k; revert k; induction d; intros [|k]; cbn; auto).
      unfold apply_vec. rewrite nth_act by (rewrite (wf_length d); auto). rewrite !RZ. destruct (snd (nth i (coords g) (0%nat, false))); auto. }
    assert (Ej : jact g (X, X, repeat 0%Z d) = auto_tri K (sp_pnum X)).
    { unfold jact, auto_tri. rewrite EX. destruct (time_rev g); rewrite Eg; auto. clear. induction d; cbn; auto. f_equal; auto. }
    rewrite Ej in *. exists (auto_tri K (sp_pnum X)), 0%Z, a, b, s1, u1, t1, w1. split; [left; eauto|]. split; auto. split; auto. split; [rewrite C3; exact EZ|exact C4].
  - assert (HC : consec K ds es) by (repeat split; auto). destruct (HJ p ds es Hp HC) as (j & Hj & (g & Hg & ->)). pose proof (kpair_wf K HK p ds es Hp HC) as HW.
    replace (kT K es - kT K ds)%Z with 1%Z in EZ by lia.
    assert (Hap : (Z.of_nat (dl0 0%nat) + 1 < Z.of_nat (el0 0%nat) + 1 * Z.of_nat G)%Z) by (rewrite D0, E0; nia).
    destruct (along_jact g (kpair K p ds es) 1 dl0 el0 s0 u0 t0 w0 Hg HW (conj LA0 LB0) HE0 Hap) as (a & b & s1 & u1 & t1 & w1 & C1 & C2 & C3 & C4).
    exists (jact g (kpair K p ds es)), 1%Z, a, b, s1, u1, t1, w1. split; [right; auto|]. split; auto. split; auto. split; [rewrite C3; exact EZ|exact C4].
Qed.
(** the ratio is reached with a larger time difference than the least one of the fractions *)
Lemma never_tight_gap t dt e dl el n m s u t' w : wft K t -> along2 t dl el s u t' w -> never_tight dl el s t' -> n = (m + e)%nat ->
  IZR (pt2 K dt e (prefix dl n) (prefix el m)) - IZR (kT K (prefix dl n)) - 1 < (t' + IZR dt) * RG ^ n - s * RG ^ n.
Proof.
  intros HW [[Hd HA] [He HB]] HT En. pose proof (prefix_wfc K dl n Hd) as W1. pose proof (prefix_wfc K el m He) as W2.
  assert (HQ : kq K t (prefix dl n) (prefix el m) s u t' w) by (destruct t as [[X Y] v]; split; [apply HA|apply HB]).
  destruct (pair_box K HF t dt e (prefix dl n) (prefix el m) s u t' w HW W1 W2) as (B1 & B2 & _ & _); [rewrite !prefix_length; auto|auto|]. rewrite prefix_length in *.
  destruct HT as [HT|HT].
  - specialize (HT n). lra.
  - specialize (HT m). assert (IZR (pt2 K dt e (prefix dl n) (prefix el m)) < (t' + IZR dt) * RG ^ n); [|lra].
    unfold pt2. rewrite plus_IZR, !mult_IZR, !IZR_pow, prefix_length. pose proof (RGp K HK e). rewrite En, pow_add. nra.
Qed.
End Stream.
