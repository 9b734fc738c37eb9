(** Geometry of pairs of fractions (core level): points of fractions, ratios, bounds. *)
From Verif Require Import Py L_Py L_Qc M_BaseMaps S_BaseMaps L_BaseMaps P_Actions M_Subsets S_Subsets P_Subsets
  M_Utils M_Curves S_Utils L_R P_Utils S_Curves L_Digits P_Core P_Bridge P_Junctions S_Ratio S_Dilation.
From Coq Require Import Reals Lra Lia Permutation.
Local Open Scope nat_scope.

Section Geo.
Context (K : core) (HF : core_full K).
Let HK := full_ok K HF.
Notation G := (kG K). Notation N := (kN K). Notation d := (kd K).
Notation RN := (IZR (Z.of_nat N)). Notation RG := (IZR (Z.of_nat G)).
Local Open Scope R_scope.

(** the point (s, u) of the fraction cs of the curve of spec S *)
Definition kpt (S : spec) (cs : list nat) (s : R) (u : list R) : Prop :=
  length u = d /\ exists s0 u0, kgraph K (kst K S cs) s0 u0 /\ s * RG ^ length cs = IZR (kT K cs) + s0 /\
    forall j, (j < d)%nat -> nth j u 0 * RN ^ length cs = IZR (kX K S cs j) + nth j u0 0.

Lemma kgraph_len S s u : kgraph K S s u -> length u = d. Proof. intros []; auto. Qed.
Lemma kT_nil : kT K [] = 0%Z. Proof. reflexivity. Qed.
Lemma kX_nil S j : kX K S [] j = 0%Z. Proof. reflexivity. Qed.
Lemma nth_eq_len (x y : list R) : length x = d -> length y = d -> (forall j, (j < d)%nat -> nth j x 0 = nth j y 0) -> x = y.
Proof. intros H1 H2 H. apply nth_ext_lt with 0; [congruence|]. rewrite H1. auto. Qed.
Lemma kpt_nil S s u : kpt S [] s u <-> kgraph K S s u.
Proof.
  unfold kpt. cbn [length pow kst]. rewrite kT_nil. split.
  - intros (L & s0 & u0 & H & E1 & E2). assert (s0 = s) by lra. assert (u0 = u).
    { apply nth_eq_len; auto; [apply (kgraph_len _ _ _ H)|]. intros j Hj. specialize (E2 j Hj). rewrite kX_nil in E2. lra. }
    subst. auto.
  - intros H. split; [apply (kgraph_len _ _ _ H)|]. exists s, u. split; auto. split; [lra|]. intros j Hj. rewrite kX_nil. lra.
Qed.
Lemma kpt_cons S c cs s u : length u = d -> kpt S (c :: cs) s u <-> kpt (kstep K S c) cs (RG * s - IZR (Z.of_nat c)) (zoom K (kcb K S c) u).
Proof.
  intros L. unfold kpt. cbn [kst length pow]. rewrite zoom_length.
  assert (forall s0, s * (RG * RG ^ length cs) = IZR (kT K (c :: cs)) + s0 <-> (RG * s - IZR (Z.of_nat c)) * RG ^ length cs = IZR (kT K cs) + s0) as ET.
  { intros s0. rewrite (kT_cons K), plus_IZR, mult_IZR, IZR_pow. split; intros; nra. }
  assert (forall j u0, (j < d)%nat -> (nth j u 0 * (RN * RN ^ length cs) = IZR (kX K S (c :: cs) j) + u0 <->
                        nth j (zoom K (kcb K S c) u) 0 * RN ^ length cs = IZR (kX K (kstep K S c) cs j) + u0)) as EX.
  { intros j u0 Hj. rewrite (kX_cons K), plus_IZR, mult_IZR, IZR_pow, nth_zoom by auto. split; intros; nra. }
  split; intros (_ & s0 & u0 & H & E1 & E2); (split; [auto|]); exists s0, u0; (split; [auto|]); (split; [apply ET; auto|]);
    intros j Hj; apply EX; auto.
Qed.
Lemma kpt_join S c cs s u : wfS K S -> wfc K cs -> (c < G)%nat -> kpt S (cs ++ [c]) s u -> kpt S cs s u.
Proof.
  revert S s u. induction cs as [|c0 cs IH]; intros S s u HS Hc Hcc (L & H').
  - cbn [app] in H'. assert (H : kpt S [c] s u) by (split; auto). apply kpt_cons in H; auto. apply kpt_nil in H. apply kpt_nil.
    apply (kgraph_step K HK); auto. split; auto. exists c. split; auto.
  - inversion Hc; subst. assert (H : kpt S (c0 :: (cs ++ [c])) s u) by (split; auto). apply kpt_cons in H; auto. apply kpt_cons; auto.
    apply IH; auto. apply (kstep_wf K HK); auto.
Qed.
Lemma kpt_split S cs s u : wfS K S -> wfc K cs -> kpt S cs s u -> exists c, (c < G)%nat /\ kpt S (cs ++ [c]) s u.
Proof.
  revert S s u. induction cs as [|c0 cs IH]; intros S s u HS Hc H; pose proof H as (L & _).
  - apply kpt_nil in H. apply (kgraph_step K HK) in H; auto. destruct H as (_ & c & Hcc & H). exists c. split; auto.
    cbn [app]. apply kpt_cons; auto. apply kpt_nil. auto.
  - inversion Hc; subst. apply kpt_cons in H; auto. apply IH in H; auto; [|apply (kstep_wf K HK); auto].
    destruct H as (c & Hcc & H). exists c. split; auto. cbn [app]. apply kpt_cons; auto.
Qed.
Lemma kpt_graph cs : forall S s u, wfS K S -> wfc K cs -> kpt S cs s u -> kgraph K S s u.
Proof.
  induction cs as [|c cs IH] using rev_ind; intros S s u HS Hc H; [apply kpt_nil; auto|].
  apply Forall_app in Hc as [Hc1 Hc2]. inversion Hc2; subst. apply IH; auto. apply kpt_join with c; auto.
Qed.
Lemma kpt_box S cs s u : wfS K S -> wfc K cs -> kpt S cs s u ->
  IZR (kT K cs) <= s * RG ^ length cs <= IZR (kT K cs) + 1 /\
  forall j, (j < d)%nat -> IZR (kX K S cs j) <= nth j u 0 * RN ^ length cs <= IZR (kX K S cs j) + 1.
Proof.
  intros HS Hc (L & s0 & u0 & H & E1 & E2). pose proof (P_Core.kgraph_range K _ _ _ H) as (R1 & R2 & R3). split; [lra|].
  intros j Hj. specialize (E2 j Hj). specialize (R3 j Hj). lra.
Qed.
(** from a point of the curve in the fraction to the point of the curve *)
Lemma kpt_make S cs s0 u0 : kgraph K (kst K S cs) s0 u0 ->
  kpt S cs ((IZR (kT K cs) + s0) / RG ^ length cs) (map (fun j => (IZR (kX K S cs j) + nth j u0 0) / RN ^ length cs) (seq 0 d)).
Proof.
  intros H. pose proof (RGp K HK (length cs)). pose proof (RNp K HK (length cs)). split; [rewrite map_length, seq_length; auto|].
  exists s0, u0. split; auto. split; [field; lra|]. intros j Hj. rewrite (nth_map_seq (fun j => (IZR (kX K S cs j) + nth j u0 0) / RN ^ length cs)) by auto. field. lra.
Qed.
Lemma kpt_corner S cs (e : nat -> bool) : wfS K S -> wfc K cs ->
  exists s u, kpt S cs s u /\ forall j, (j < d)%nat -> nth j u 0 * RN ^ length cs = IZR (kX K S cs j) + (if e j then 1 else 0).
Proof.
  intros HS Hc. pose proof (RNp K HK (length cs)).
  destruct (kgraph_surj K HF (kst K S cs) (map (fun j => if e j then 1 else 0) (seq 0 d))) as (s0 & H0).
  - apply (kst_wf K HK); auto.
  - rewrite map_length, seq_length; auto.
  - intros j Hj. rewrite (nth_map_seq (fun j => if e j then 1 else 0)) by auto. destruct (e j); lra.
  - eexists. eexists. split; [apply kpt_make; eauto|]. intros j Hj. cbv beta.
    rewrite (nth_map_seq (fun j => (IZR (kX K S cs j) + nth j (map (fun j => if e j then 1 else 0) (seq 0 d)) 0) / RN ^ length cs)) by auto.
    rewrite (nth_map_seq (fun j => if e j then 1 else 0)) by auto. field. lra.
Qed.
(** all fractions along a digit expansion *)
Lemma kpt_stream n : forall S dl s u, wfS K S -> length u = d -> (forall k, (dl k < G)%nat) -> (forall k, kin K S (prefix dl k) s u) ->
  kpt S (prefix dl n) s u.
Proof.
  induction n as [|n IH]; intros S dl s u HS L Hd H.
  - apply kpt_nil. split; auto. exists dl. auto.
  - rewrite prefix_cons. apply kpt_cons; auto. apply IH.
    + apply (kstep_wf K HK); auto.
    + apply zoom_length.
    + auto.
    + intros k. specialize (H (Datatypes.S k)). rewrite prefix_cons in H. apply (kin_cons K) in H; auto.
Qed.
Lemma kpt_mul g S cs s u : wf_bm d g -> wfS K S -> wfc K cs -> kpt S cs s u -> kpt (bm_mul_sp g S) (map (kflip K g) cs) (gt g s) (gx g u).
Proof.
  intros Hg HS Hc (L & s0 & u0 & H & E1 & E2). split; [apply (gx_length K); auto|].
  exists (gt g s0), (gx g u0). rewrite (kst_mul K HK), (map_flip_flip K) by (auto; apply wfc_flip; auto).
  split; [apply (kgraph_mul K HK); auto; apply (kst_wf K HK); auto|]. rewrite map_length. split.
  - rewrite (kT_flip K) by auto. unfold gt. destruct (time_rev g); auto. rewrite !minus_IZR, IZR_pow. lra.
  - intros j Hj. unfold kX. rewrite (kcubes_mul K HK) by (auto; apply wfc_flip; auto). rewrite (map_flip_flip K) by auto.
    pose proof (kcubes_grid K HK _ S HS Hc) as Hgr. rewrite (place_apply K); auto using grid_len. cbn zeta. rewrite (kcubes_length K).
    unfold gx. rewrite !nth_act by (rewrite (wf_length d); auto). pose proof (wf_nth_lt d g j Hg Hj) as Hk. specialize (E2 _ Hk).
    unfold kX in E2. destruct (snd (nth j (coords g) (0%nat, false))); auto. rewrite !minus_IZR, IZR_pow. lra.
Qed.
End Geo.
