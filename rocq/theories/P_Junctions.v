(** Regular junctions: completeness, genuineness, normal form, depth, termination (C22, C23, C24). *)
From Verif Require Import Py L_Py L_Qc M_BaseMaps S_BaseMaps L_BaseMaps P_Actions P_GenMaps M_Subsets S_Subsets P_Subsets P_Points P_Facets
  M_Paths M_Utils M_Curves S_Utils L_R P_Utils S_Curves S_Junctions P_CurveAct L_Digits P_Core P_Bridge P_Paths P_Entrance P_Cont P_Check P_Subdiv.
From Coq Require Import Reals Lra Lia Factorial.
Local Open Scope nat_scope.

Lemma memb_key {A B} (key : A -> B) (eqb : A -> A -> bool) (H : forall a b, eqb a b = true <-> key a = key b) x l :
  memb eqb x l = true <-> In (key x) (map key l).
Proof.
  unfold memb. rewrite existsb_exists, in_map_iff. split; intros (y & H1 & H2); exists y; [apply H in H2|rewrite H]; auto.
Qed.
Lemma dedup_aux_key {A B} (key : A -> B) (eqb : A -> A -> bool) (H : forall a b, eqb a b = true <-> key a = key b) l : forall seen,
  (forall j, In j (dedup_aux eqb seen l) -> In j l) /\
  (forall j, In j l -> In (key j) (map key seen) \/ In (key j) (map key (dedup_aux eqb seen l))) /\
  NoDup (map key (dedup_aux eqb seen l)) /\
  (forall j, In j (dedup_aux eqb seen l) -> ~ In (key j) (map key seen)).
Proof.
  induction l as [|a l IH]; intros seen; cbn [dedup_aux].
  - split; [contradiction|]. split; [contradiction|]. split; [constructor|contradiction].
  - destruct (memb eqb a seen) eqn:E.
    + apply (memb_key key eqb H) in E. destruct (IH seen) as (H1 & H2 & H3 & H4). split; [cbn; auto|]. split; [|split; auto].
      intros j [->|Hj]; auto.
    + assert (Hn : ~ In (key a) (map key seen)) by (rewrite <- (memb_key key eqb H); congruence).
      destruct (IH (a :: seen)) as (H1 & H2 & H3 & H4). split; [|split; [|split]].
      * intros j [->|Hj]; cbn; auto.
      * intros j [->|Hj]; [cbn; auto|]. destruct (H2 j Hj) as [[Hin|Hin]|Hin]; cbn; auto.
      * cbn. constructor; auto. intros Hin. apply in_map_iff in Hin as (j & E' & Hj). apply H4 in Hj. apply Hj. cbn. auto.
      * intros j [->|Hj]; auto. apply H4 in Hj. cbn in Hj. tauto.
Qed.

Definition jkey (j : junction) : spec * spec * list Z * Z := (j_spec1 j, j_spec2 j, j_dx j, j_dt j).
Lemma junc_eqb_key a b : junc_eqb a b = true <-> jkey a = jkey b.
Proof.
  unfold junc_eqb, jkey. rewrite !andb_true_iff, Z.eqb_eq. rewrite (z_list_eqb_ok _ _), (spec_eqb_ok (j_spec1 a) _), (spec_eqb_ok (j_spec2 a) _). split.
  - intros (((-> & ->) & ->) & ->). auto.
  - intros E. injection E as -> -> -> ->. auto.
Qed.

(** triples *)
Definition tri := (spec * spec * list Z)%type.
Definition jact (g : base_map) (t : tri) : tri :=
  let '(X, Y, v) := t in
  if time_rev g then (bm_mul_sp g Y, bm_mul_sp g X, apply_vec g (map Z.opp v)) else (bm_mul_sp g X, bm_mul_sp g Y, apply_vec g v).
Definition jt (j : junction) : tri := (j_spec1 j, j_spec2 j, j_dx j).
Definition jeq (d : nat) (t u : tri) : Prop := exists g, wf_bm d g /\ u = jact g t.

Section Core.
Context (K : core) (HK : core_ok K).
Notation d := (kd K). Notation N := (kN K). Notation G := (kG K).
Definition wft (t : tri) : Prop := let '(X, Y, v) := t in wfS K X /\ wfS K Y /\ length v = d.
Lemma length_vec g v : wf_bm d g -> length (apply_vec g v) = d.
Proof. intros. unfold apply_vec. rewrite length_act. apply (wf_length d); auto. Qed.
Lemma jact_wf g t : wf_bm d g -> wft t -> wft (jact g t).
Proof.
  intros Hg. destruct t as [[X Y] v]. intros (HX & HY & Hv). unfold jact. destruct (time_rev g); (split; [apply (wfS_mul K); auto|split; [apply (wfS_mul K); auto|apply length_vec; auto]]).
Qed.
Lemma sp_mul_assoc a b X : wf_bm d a -> wf_bm d b -> wfS K X -> bm_mul_sp (bm_mul a b) X = bm_mul_sp a (bm_mul_sp b X).
Proof. intros Ha Hb HX. unfold bm_mul_sp. cbn [sp_bm sp_pnum]. f_equal. apply (mul_assoc d); auto. apply HX. Qed.
Lemma vec_mul a b v : wf_bm d a -> wf_bm d b -> length v = d -> apply_vec (bm_mul a b) v = apply_vec a (apply_vec b v).
Proof. intros. apply (action_vec d a b v); auto. Qed.
Lemma vec_opp g v : wf_bm d g -> length v = d -> apply_vec g (map Z.opp v) = map Z.opp (apply_vec g v).
Proof.
  intros Hg Hv. apply nth_ext with 0%Z 0%Z; [rewrite map_length, !length_vec; auto|]. rewrite length_vec by auto. intros j Hj.
  rewrite map_nth_lt with (d := 0%Z) by (rewrite length_vec; auto). unfold apply_vec. rewrite !nth_act by (rewrite (wf_length d); auto).
  pose proof (wf_nth_lt d g j Hg Hj) as Hk. rewrite map_nth_lt with (d := 0%Z) by lia.
  destruct (snd (nth j (coords g) (0%nat, false))); lia.
Qed.
Lemma opp_opp v : map Z.opp (map Z.opp v) = v.
Proof. rewrite map_map. rewrite <- (map_id v) at 2. apply map_ext. intros. lia. Qed.
Lemma jact_mul a b t : wf_bm d a -> wf_bm d b -> wft t -> jact (bm_mul a b) t = jact a (jact b t).
Proof.
  intros Ha Hb. destruct t as [[X Y] v]. intros (HX & HY & Hv). unfold jact. rewrite mul_time_rev.
  destruct (time_rev a) eqn:Ta, (time_rev b) eqn:Tb; cbn [xorb]; rewrite !sp_mul_assoc, !vec_mul by (auto; rewrite map_length; auto); auto.
  - rewrite <- vec_opp by (auto; rewrite map_length; auto). rewrite opp_opp. auto.
  - f_equal. rewrite vec_opp by auto. auto.
Qed.
Lemma jact_id t : wft t -> jact (id_map d) t = t.
Proof.
  destruct t as [[X Y] v]. intros (HX & HY & Hv). unfold jact. cbn [time_rev id_map]. unfold bm_mul_sp. rewrite !(mul_id_l d) by (apply HX || apply HY).
  rewrite (proj1 (proj2 (proj2 (action_vec d (id_map d) (id_map d) v (wf_id d) (wf_id d) Hv)))). destruct X, Y; auto.
Qed.
Lemma jeq_refl t : wft t -> jeq d t t.
Proof. intros H. exists (id_map d). split; [apply wf_id|rewrite jact_id; auto]. Qed.
Lemma jeq_sym t u : wft t -> jeq d t u -> jeq d u t.
Proof.
  intros H (g & Hg & ->). exists (bm_inv g). split; [apply wf_inv; auto|]. rewrite <- jact_mul by (auto; apply wf_inv; auto). rewrite (mul_inv_l d) by auto. rewrite jact_id; auto.
Qed.
Lemma jeq_trans t u w : wft t -> jeq d t u -> jeq d u w -> jeq d t w.
Proof. intros H (g & Hg & ->) (h & Hh & ->). exists (bm_mul h g). split; [apply wf_mul; auto|]. rewrite jact_mul; auto. Qed.
Lemma jeq_wf t u : wft t -> jeq d t u -> wft u.
Proof. intros H (g & Hg & ->). apply jact_wf; auto. Qed.

(** derived and base triples *)
Definition vdiff (u v : nat -> Z) : list Z := map (fun j => (u j - v j)%Z) (seq 0 d).
Lemma vdiff_length u v : length (vdiff u v) = d. Proof. unfold vdiff. rewrite map_length, seq_length; auto. Qed.
Lemma nth_vdiff u v j : j < d -> nth j (vdiff u v) 0%Z = (u j - v j)%Z.
Proof. intros. unfold vdiff. apply (nth_map_seq (fun j => (u j - v j)%Z)); auto. Qed.
Definition kder (t : tri) : tri :=
  let '(X, Y, v) := t in
  (kstep K X (G - 1), kstep K Y 0,
   vdiff (fun j => nth j (kcb K Y 0) 0 + nth j v 0 * Z.of_nat N)%Z (fun j => nth j (kcb K X (G - 1)) 0%Z)).
Lemma G2 : 2 <= G. Proof. apply kG_ge2; auto. Qed.
Lemma kder_wf t : wft t -> wft (kder t).
Proof.
  pose proof G2. destruct t as [[X Y] v]. intros (HX & HY & Hv). unfold kder. split; [apply (kstep_wf K HK); auto; lia|]. split; [apply (kstep_wf K HK); auto; lia|apply vdiff_length].
Qed.
Lemma kflip_ends g : kflip K g (G - 1) = (if time_rev g then 0 else G - 1) /\ kflip K g 0 = (if time_rev g then G - 1 else 0).
Proof. pose proof G2. unfold kflip. destruct (time_rev g); split; lia. Qed.
Lemma kder_jact g t : wf_bm d g -> wft t -> kder (jact g t) = jact g (kder t).
Proof.
  intros Hg. destruct t as [[X Y] v]. intros (HX & HY & Hv). pose proof G2 as HG2. pose proof (kflip_ends g) as [F1 F2].
  unfold jact at 2, kder at 2. unfold jact. destruct (time_rev g) eqn:T; unfold kder.
  - rewrite !(kstep_mul K HK) by (auto; lia). rewrite F1, F2. f_equal. apply nth_ext with 0%Z 0%Z; [rewrite vdiff_length, length_vec; auto|].
    rewrite vdiff_length. intros j Hj. rewrite nth_vdiff by auto. rewrite !(kcb_mul K HK) by (auto; lia). rewrite F1, F2.
    unfold apply_vec. rewrite !nth_act by (rewrite (wf_length d); auto). rewrite !(nth_apply_cube d) by auto. cbv zeta.
    pose proof (wf_nth_lt d g j Hg Hj) as Hk. rewrite !map_nth_lt with (d := 0%Z) by (rewrite ?vdiff_length; lia). rewrite nth_vdiff by auto.
    destruct (snd (nth j (coords g) (0%nat, false))); lia.
  - rewrite !(kstep_mul K HK) by (auto; lia). rewrite F1, F2. f_equal. apply nth_ext with 0%Z 0%Z; [rewrite vdiff_length, length_vec; auto|].
    rewrite vdiff_length. intros j Hj. rewrite nth_vdiff by auto. rewrite !(kcb_mul K HK) by (auto; lia). rewrite F1, F2.
    unfold apply_vec. rewrite !nth_act by (rewrite (wf_length d); auto). rewrite !(nth_apply_cube d) by auto. cbv zeta.
    pose proof (wf_nth_lt d g j Hg Hj) as Hk. rewrite !nth_vdiff by auto.
    destruct (snd (nth j (coords g) (0%nat, false))); lia.
Qed.
Lemma kder_jeq t u : wft t -> jeq d t u -> jeq d (kder t) (kder u).
Proof. intros H (g & Hg & ->). exists g. split; auto. apply kder_jact; auto. Qed.
Definition kbase (p k : nat) : tri :=
  (kspec K p k, kspec K p (k + 1), vdiff (fun j => nth j (kcube K p (k + 1)) 0%Z) (fun j => nth j (kcube K p k) 0%Z)).
Lemma kbase_wf p k : p < km K -> k + 1 < G -> wft (kbase p k).
Proof. intros Hp Hk. split; [apply (ok_spec K HK); auto; lia|]. split; [apply (ok_spec K HK); auto|apply vdiff_length]. Qed.

(** pairs of consecutive fractions *)
Definition consec (cs cs' : list nat) : Prop := wfc K cs /\ wfc K cs' /\ length cs' = length cs /\ (kT K cs' = kT K cs + 1)%Z.
Definition kpair (p : nat) (cs cs' : list nat) : tri :=
  (kst K (Sp (id_map d) p) cs, kst K (Sp (id_map d) p) cs', vdiff (kX K (Sp (id_map d) p) cs') (kX K (Sp (id_map d) p) cs)).
Lemma kpair_wf p cs cs' : p < km K -> consec cs cs' -> wft (kpair p cs cs').
Proof. intros Hp (H1 & H2 & _). split; [apply (kst_wf K HK); auto; apply wfS_idp; auto|]. split; [apply (kst_wf K HK); auto; apply wfS_idp; auto|apply vdiff_length]. Qed.
Lemma consec_snoc cs cs' k k' : consec (cs ++ [k]) (cs' ++ [k']) -> (cs' = cs /\ k' = k + 1 /\ wfc K cs /\ k' < G) \/ (k = G - 1 /\ k' = 0 /\ consec cs cs').
Proof.
  intros (W & W' & L & E). pose proof G2. apply Forall_app in W as [W1 W2]. apply Forall_app in W' as [W1' W2']. inversion W2; inversion W2'; subst.
  rewrite !app_length in L. cbn in L. rewrite !kT_snoc in E.
  assert (HH : kT K cs' = kT K cs /\ k' = k + 1 \/ (kT K cs' = kT K cs + 1)%Z /\ k = G - 1 /\ k' = 0).
  { assert (EU : (kT K cs' = kT K cs + (kT K cs' - kT K cs))%Z) by lia. set (u := (kT K cs' - kT K cs)%Z) in *. rewrite EU in E |- *. clearbody u.
    assert (HU : (u * Z.of_nat G = Z.of_nat k + 1 - Z.of_nat k')%Z) by nia.
    assert (u = 0 \/ u = 1)%Z as [-> | ->] by nia; [left|right]; split; lia. }
  destruct HH as [[E1 E2]|(E1 & E2 & E3)].
  - left. split; [|repeat split; auto]. apply (kT_inj K HK); auto; lia.
  - right. repeat split; auto. lia.
Qed.
Lemma consec_next cs cs' : consec cs cs' -> consec (cs ++ [G - 1]) (cs' ++ [0]).
Proof.
  intros (W & W' & L & E). pose proof G2. split; [apply Forall_app; split; auto; constructor; auto; lia|]. split; [apply Forall_app; split; auto; constructor; auto; lia|].
  split; [rewrite !app_length; cbn; lia|]. rewrite !kT_snoc. lia.
Qed.
Lemma consec_base cs k : wfc K cs -> k + 1 < G -> consec (cs ++ [k]) (cs ++ [k + 1]).
Proof.
  intros W Hk. split; [apply Forall_app; split; auto; constructor; auto; lia|]. split; [apply Forall_app; split; auto|].
  split; [rewrite !app_length; auto|]. rewrite !kT_snoc. lia.
Qed.
Lemma kpair_next p cs cs' : p < km K -> consec cs cs' -> kpair p (cs ++ [G - 1]) (cs' ++ [0]) = kder (kpair p cs cs').
Proof.
  intros Hp HC. unfold kpair, kder. rewrite !kst_app. cbn [kst]. f_equal. apply nth_ext with 0%Z 0%Z; [rewrite !vdiff_length; auto|].
  rewrite vdiff_length. intros j Hj. rewrite !nth_vdiff by auto. rewrite !(kX_snoc K). lia.
Qed.
Lemma kpair_base p cs k : p < km K -> wfc K cs -> k + 1 < G ->
  exists q i, q < km K /\ i + 1 < G /\ jeq d (kbase q i) (kpair p (cs ++ [k]) (cs ++ [k + 1])).
Proof.
  intros Hp W Hk. set (X := kst K (Sp (id_map d) p) cs). assert (HX : wfS K X) by (apply (kst_wf K HK); auto; apply wfS_idp; auto).
  exists (sp_pnum X). destruct HX as [Hb Hq]. exists (if time_rev (sp_bm X) then G - 2 - k else k). split; auto.
  split; [destruct (time_rev (sp_bm X)); lia|]. exists (sp_bm X). split; auto. unfold kpair, kbase, jact. rewrite !kst_app. cbn [kst]. fold X.
  unfold kstep, kflip. destruct (time_rev (sp_bm X)) eqn:T.
  - replace (G - 2 - k + 1) with (G - 1 - k) by lia. replace (G - 1 - (k + 1)) with (G - 2 - k) by lia. f_equal.
    apply nth_ext with 0%Z 0%Z; [rewrite vdiff_length, length_vec; auto|]. rewrite vdiff_length. intros j Hj. rewrite nth_vdiff by auto.
    rewrite !(kX_snoc K). fold X. unfold kcb, kflip. rewrite T. replace (G - 1 - (k + 1)) with (G - 2 - k) by lia.
    unfold apply_vec. rewrite !nth_act by (rewrite (wf_length d); auto). rewrite !(nth_apply_cube d) by auto. cbv zeta.
    pose proof (wf_nth_lt d (sp_bm X) j Hb Hj) as Hk'. rewrite !map_nth_lt with (d := 0%Z) by (rewrite ?vdiff_length; lia). rewrite nth_vdiff by auto.
    destruct (snd (nth j (coords (sp_bm X)) (0%nat, false))); lia.
  - f_equal. apply nth_ext with 0%Z 0%Z; [rewrite vdiff_length, length_vec; auto|]. rewrite vdiff_length. intros j Hj. rewrite nth_vdiff by auto.
    rewrite !(kX_snoc K). fold X. unfold kcb, kflip. rewrite T.
    unfold apply_vec. rewrite !nth_act by (rewrite (wf_length d); auto). rewrite !(nth_apply_cube d) by auto. cbv zeta.
    pose proof (wf_nth_lt d (sp_bm X) j Hb Hj) as Hk'. rewrite nth_vdiff by auto.
    destruct (snd (nth j (coords (sp_bm X)) (0%nat, false))); lia.
Qed.
(** the pairs of depth one are the base pairs *)
Lemma kpair_one p k : p < km K -> k + 1 < G -> kpair p [k] [k + 1] = kbase p k.
Proof.
  intros Hp Hk. unfold kpair, kbase. cbn [kst]. unfold kstep. cbn [sp_bm sp_pnum]. rewrite !kflip_id.
  assert (E : forall i, i < G -> bm_mul_sp (id_map d) (kspec K p i) = kspec K p i).
  { intros i Hi. pose proof (ok_spec K HK p i Hp Hi) as [H _]. unfold bm_mul_sp. rewrite (mul_id_l d) by auto. destruct (kspec K p i); auto. }
  rewrite !E by lia. f_equal. apply nth_ext with 0%Z 0%Z; [rewrite !vdiff_length; auto|]. rewrite vdiff_length. intros j Hj. rewrite !nth_vdiff by auto.
  assert (E2 : forall i, i < G -> kX K (Sp (id_map d) p) [i] j = nth j (kcube K p i) 0%Z).
  { intros i Hi. rewrite (kX_cons K). unfold kX, place_of. cbn [kcubes map length]. rewrite value_nil. unfold kcb. cbn [sp_bm sp_pnum]. rewrite kflip_id.
    pose proof (ok_cube K HK p i Hp Hi) as [HL _]. rewrite (apply_cube_id d) by auto. cbn. lia. }
  rewrite !E2 by lia. auto.
Qed.
(** completeness of a closed set of classes *)
Lemma pair_classes (P : tri -> Prop) :
  (forall p k, p < km K -> k + 1 < G -> exists t, P t /\ jeq d (kbase p k) t) ->
  (forall t, P t -> wft t -> exists u, P u /\ jeq d (kder t) u) ->
  forall p cs cs', p < km K -> consec cs cs' -> exists t, P t /\ jeq d (kpair p cs cs') t.
Proof.
  intros HB HD p cs. induction cs as [|k cs IH] using rev_ind; intros cs' Hp HC.
  - destruct HC as (_ & _ & L & E). destruct cs'; [|discriminate]. unfold kT in E. cbn in E. lia.
  - destruct (exists_last (l := cs')) as (cs1 & k' & ->).
    { destruct HC as (_ & _ & L & _). rewrite app_length in L. destruct cs'; [cbn in L; lia|discriminate]. }
    pose proof (consec_snoc _ _ _ _ HC) as [(-> & -> & W & Hk)|(-> & -> & HC')].
    + destruct (kpair_base p cs k Hp W Hk) as (q & i & Hq & Hi & He). destruct (HB q i Hq Hi) as (t & Ht & Et). exists t. split; auto.
      apply jeq_trans with (kbase q i); auto; [apply kpair_wf; auto|]. apply jeq_sym; auto. apply kbase_wf; auto.
    + destruct (IH cs1 Hp HC') as (t & Ht & Et). pose proof (kpair_wf p cs cs1 Hp HC') as Wp. destruct (HD t Ht (jeq_wf _ _ Wp Et)) as (u & Hu & Eu).
      exists u. split; auto. rewrite kpair_next by auto. apply jeq_trans with (kder t); auto; [apply kder_wf; auto|]. apply kder_jeq; auto.
Qed.
(** what the continuity of the curve means for a triple *)
Definition kmeets (t : tri) : Prop := let '(X, Y, v) := t in
  forall x y, kgraph K X 1 x -> kgraph K Y 0 y -> forall j, j < d -> (nth j x 0 = nth j y 0 + IZR (nth j v 0%Z))%R.
Lemma kmeets_jact g t : wf_bm d g -> wft t -> kmeets t -> kmeets (jact g t).
Proof.
  intros Hg. destruct t as [[X Y] v]. intros (HX & HY & Hv) HM.
  assert (A : forall Z0 t0 x, wfS K Z0 -> kgraph K (bm_mul_sp g Z0) t0 x -> kgraph K Z0 (gt g t0) (gx (bm_inv g) x)).
  { intros Z0 t0 x HZ Hx. assert (Hgi : wf_bm d (bm_inv g)) by (apply wf_inv; auto).
    pose proof (kgraph_mul K HK (bm_inv g) _ _ _ Hgi (wfS_mul K g Z0 Hg HZ) Hx) as H. rewrite (sp_mul_inv_l K) in H by auto. rewrite gt_inv in H. auto. }
  assert (B : forall x j, length x = d -> j < d -> nth j x 0%R = nth j (gx g (gx (bm_inv g) x)) 0%R) by (intros; rewrite (gx_inv_r K); auto).
  unfold jact. unfold gt in A. destruct (time_rev g) eqn:T; intros x y Hx Hy j Hj.
  - pose proof (proj1 Hx) as Lx. pose proof (proj1 Hy) as Ly. rewrite (B x j), (B y j) by auto.
    apply A in Hx; auto. apply A in Hy; auto. replace (1 - 1)%R with 0%R in Hx by lra. replace (1 - 0)%R with 1%R in Hy by lra.
    unfold gx at 1 3. unfold apply_vec. rewrite !nth_act by (rewrite (wf_length d); auto). pose proof (wf_nth_lt d g j Hg Hj) as Hk.
    rewrite map_nth_lt with (d := 0%Z) by lia. specialize (HM _ _ Hy Hx _ Hk). destruct (snd (nth j (coords g) (0%nat, false))); rewrite ?opp_IZR, ?Z.opp_involutive; lra.
  - pose proof (proj1 Hx) as Lx. pose proof (proj1 Hy) as Ly. rewrite (B x j), (B y j) by auto.
    apply A in Hx; auto. apply A in Hy; auto.
    unfold gx at 1 3. unfold apply_vec. rewrite !nth_act by (rewrite (wf_length d); auto). pose proof (wf_nth_lt d g j Hg Hj) as Hk.
    specialize (HM _ _ Hx Hy _ Hk). destruct (snd (nth j (coords g) (0%nat, false))); rewrite ?opp_IZR; lra.
Qed.
Lemma kmeets_pair (HC : kcont K) p cs cs' : p < km K -> consec cs cs' -> kmeets (kpair p cs cs').
Proof.
  intros Hp (W & W' & L & E) x y Hx Hy j Hj. rewrite nth_vdiff by auto.
  pose proof (kcont_deep K HK HC cs cs' _ x y (wfS_idp K p Hp) W W' (eq_sym L) E Hx Hy) as EU.
  apply (f_equal (fun l => nth j l 0%R)) in EU. rewrite !(nth_unzooms K HK) in EU by auto. rewrite L in EU.
  pose proof (RNp K HK (length cs)) as HP. apply (f_equal (fun r => (r * IZR (Z.of_nat (kN K)) ^ length cs)%R)) in EU. unfold Rdiv in EU. rewrite !Rmult_assoc, Rinv_l in EU by lra.
  rewrite minus_IZR. lra.
Qed.
End Core.
