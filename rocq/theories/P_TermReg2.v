(** Termination of estimate_dilation_regular: the initial tree, and the whole method. *)
From Verif Require Import Py L_Py L_Qc L_R M_BaseMaps S_BaseMaps L_BaseMaps P_Actions M_Subsets S_Subsets P_Subsets P_Facets P_Combi
  M_Paths M_Curves M_Utils M_Heap M_Sat M_Dilation S_Heap P_Heap S_Utils P_Utils S_Curves S_Fuzzy P_CurveAct L_Digits P_Core P_Bridge P_Cont P_Subdiv P_Faces P_FuzzyInit P_FuzzyOps P_FuzzyBuilt
  S_Ratio S_Term S_Dilation P_Junctions P_JuncLoop P_JuncMain P_JuncFacts P_DilGeo P_DilRatio P_DilBounds P_DilPieces P_DilTree P_DilOps P_DilCreate P_DilRegular P_Conv P_TermOps P_TermReg.
From Coq Require Import Reals Lra Lia Permutation.
Local Open Scope nat_scope.

Lemma omap_len {A B} (f : A -> option B) l : forall r, omap f l = Some r -> length r = length l.
Proof. induction l as [|a l IH]; cbn; intros r E; [injection E as <-; auto|]. destruct (f a); [|discriminate]. cbn in E. destruct (omap f l) as [r'|]; [|discriminate]. injection E as <-. cbn. rewrite (IH r'); auto. Qed.
Lemma create_x ratio rR c0 js st hq is_heap b keep g fuel : dcls c0 -> points_ok c0 st -> ratio_ok (cv_dim c0) (ratio (cv_dim c0)) rR ->
  (forall j, In j js -> wft (core_of c0) (jt j) /\ j_dt j = 1%Z) -> IH_ok hq is_heap -> regular_junctions fuel c0 = Some js ->
  exists t ps, create_tree ratio hq fuel c0 g b keep st = Some t /\ omap (fun jcc : junction * nat * nat => init_first_order c0 (fst (fst jcc)) (snd (fst jcc)) (snd jcc)) (pair_data c0 js) = Some ps /\
    pushed ratio rR c0 (all_juncs c0 js) st is_heap b keep (bh_new g b keep) ps t.
Proof.
  intros HD HST RO HJS HH EJ. unfold create_tree. rewrite EJ.
  destruct (push_list_x ratio rR c0 HD RO (all_juncs c0 js) (juncs_wft c0 js HJS) st HST hq is_heap HH b keep (fun jcc : junction * nat * nat => init_first_order c0 (fst (fst jcc)) (snd (fst jcc)) (snd jcc)) (pair_data c0 js) (bh_new g b keep)) as (t & ps & E & EO & HP).
  - apply new_x with (hq := hq); auto.
  - intros [[j k1] k2] Hin. cbn [fst snd]. destruct (init_ok c0 HD js HJS j k1 k2 Hin) as (P & E & HP & _). eauto.
  - exists t, ps. split; [exact E|]. split; auto.
Qed.
Lemma juncs_nonempty c js : valid_fuzzy c -> (forall p cs cs', p < cv_mult c -> consec (core_of c) cs cs' -> exists j, In j js /\ jeq (cv_dim c) (kpair (core_of c) p cs cs') (jt j)) -> exists j, In j js.
Proof.
  intros HV HCov. pose proof (core_of_full c HV) as HF. pose proof (kG_ge2 _ (full_ok _ HF)) as HG. destruct HV as (_ & _ & Hp & _).
  destruct (HCov (cv_pnum c) [0] [1] Hp) as (j & Hj & _); [|eauto]. repeat split; auto; repeat constructor; lia || (rewrite !kT_cons; cbn; lia).
Qed.
Lemma pair_data_nonempty c js j : valid_fuzzy c -> dcls c -> (forall j, In j js -> wft (core_of c) (jt j) /\ j_dt j = 1%Z) -> In j js -> pair_data c js <> [].
Proof.
  intros HV HD HJS Hj E. pose proof (core_of_full c HV) as HF. pose proof (kG_ge2 _ (full_ok _ HF)) as HG. rewrite kG_genus in HG.
  assert (H : In (j, kflip (core_of c) (sp_bm (j_spec1 j)) 0, 0) (pair_data c js)).
  { apply (pair_data_in c HD js). right. split; auto. split; [apply (kflip_lt (core_of c)); rewrite kG_genus; lia|]. split; [lia|]. rewrite kflip_flip by (rewrite kG_genus; lia). intros X. injection X as X _. lia. }
  rewrite E in H. destruct H.
Qed.
Lemma regular_loop_mono ratio hq st tol mi md fuel : forall fuel' t lo up am n r, fuel <= fuel' ->
  regular_loop ratio hq fuel st tol mi md t lo up am n = Some r -> regular_loop ratio hq fuel' st tol mi md t lo up am n = Some r.
Proof.
  induction fuel as [|fuel IH]; intros fuel' t lo up am n r HL E; [discriminate|]. destruct fuel' as [|fuel']; [lia|]. cbn [regular_loop] in *.
  destruct (match tol with Some tl => _ | None => false end); auto. destruct (match mi with Some m => _ | None => false end); auto. destruct (match md with Some m => _ | None => false end); auto.
  destruct (divide_tree ratio hq st t) as [t1|]; auto. destruct (bh_max t1) as [item|]; auto. destruct (if qltb lo (bp_lo item) then _ else _) as [t2|]; auto. destruct (bh_top t2); auto. apply IH; auto. lia.
Qed.
Lemma tolerance_gt1 r : (0 < r)%Z -> exists tl, tolerance_of r = Some tl /\ (1 < qR tl)%R /\ (qR tl * IZR r = IZR (r + 1))%R.
Proof.
  intros Hr. unfold tolerance_of. assert (Hz : Zq r <> 0%Qc) by (apply qR_neq0; rewrite qR_Zq; apply not_0_IZR; lia). unfold frac. destruct (Qc_eq_dec (Zq r) 0) as [E|_]; [congruence|].
  eexists. split; [reflexivity|]. rewrite qR_div by auto. rewrite !qR_Zq. assert (0 < IZR r)%R by (apply (IZR_lt 0); auto). rewrite plus_IZR. split; [|field; lra].
  apply (Rmult_lt_reg_r (IZR r)); auto. unfold Rdiv. rewrite Rmult_assoc, Rinv_l by lra. lra.
Qed.
(** For any curve whose junctions are found and cover the adjacent fractions. *)
Theorem regular_total_gen ratio rR pw c js hq is_heap F0 : dcls c -> ratio_ok (cv_dim c) (ratio (cv_dim c)) rR -> ratio_power pw rR -> IH_ok hq is_heap ->
  (forall fuel, F0 <= fuel -> regular_junctions fuel c = Some js) -> (forall j, In j js -> wft (core_of c) (jt j) /\ j_dt j = 1%Z) -> (exists j, In j js) ->
  forall rti max_iter max_depth, match rti with Some r => (0 < r)%Z | None => max_iter <> None end ->
  exists F r, forall fuel, F <= fuel -> estimate_dilation_regular ratio hq fuel c rti max_iter None max_depth = Some r.
Proof.
  intros HD RO RP HH EJR HJS (j & Hj) rti max_iter max_depth Hr.
  destruct (create_x ratio rR c js None hq is_heap None true None F0 HD I RO HJS HH (EJR F0 (le_n _))) as (t & ps & EC & LP & (X1 & X2 & X3 & X4 & X5 & X6 & _)).
  assert (ECT : forall fuel, F0 <= fuel -> create_tree ratio hq fuel c None None true None = Some t) by (intros fuel Hf; unfold create_tree in *; rewrite (EJR fuel Hf); rewrite (EJR F0 (le_n _)) in EC; exact EC).
  apply omap_len in LP. pose proof (pair_data_nonempty c js j (proj1 HD) HD HJS Hj) as NE.
  assert (NP : ps <> []) by (intros ->; cbn in LP; destruct (pair_data c js); [congruence|discriminate]).
  destruct (X6 eq_refl NP) as (m & EM). destruct X5 as [X5|(m' & M1 & M2 & M3 & M4)]; [cbn in X5; congruence|]. assert (m' = m) by congruence. subst m'. specialize (M4 eq_refl).
  destruct (update_x ratio rR c (all_juncs c js) None hq is_heap HH None true t (bp_lo m) X1) as (t1 & E1 & Y1 & Y2 & Y3 & _ & Y5 & _). { rewrite X2. exact I. }
  pose proof (juncs_wft c js HJS) as HW. destruct (items_ok ratio rR c is_heap (all_juncs c js) t m X1 M4) as [HPm _].
  pose proof (wit_self ratio rR c HD RO pw RP (all_juncs c js) HW m HPm M2) as Hw. pose proof (wit_up ratio rR c HD RO pw RP (all_juncs c js) HW m (bp_lo m) HPm M2 Hw) as HU. apply qR_lt in HU.
  assert (IN : In m (bh_items t1)). { apply Y5. split; auto. apply act_up. auto. }
  destruct (top_some ratio rR c hq is_heap HH (all_juncs c js) t1 m Y1 IN) as (top & ET).
  assert (HI : linv ratio rR c is_heap (all_juncs c js) t1 (bp_lo m) (bp_up top)).
  { split; auto. split; auto. split; [exists m; split; [congruence|apply Qcle_refl]|]. split; [exists m; auto|]. intros top' E'. assert (top' = top) by congruence. subst. apply Qcle_refl. }
  assert (FIN : exists tol F1 r, match rti with None => Some None | Some r => option_map Some (tolerance_of r) end = Some tol /\ regular_loop ratio hq F1 None tol max_iter max_depth t1 (bp_lo m) (bp_up top) (bp_argmax m) 0 = Some r).
  { destruct rti as [r|].
    - destruct (tolerance_gt1 r Hr) as (tl & Etl & Htl & _). destruct (conv_deep ratio rR c HD RO pw RP (all_juncs c js) HW (qR tl) Htl) as (D & HDp).
      exists (Some tl), (S (mass (2 * D) t1)).
      destruct (regular_total_tol ratio rR c HD RO pw RP hq is_heap HH (all_juncs c js) HW tl max_iter max_depth D HDp ltac:(lra) (S (mass (2 * D) t1)) t1 (bp_lo m) (bp_up top) (bp_argmax m) 0 HI ltac:(lia)) as (r0 & Er). exists r0. rewrite Etl. auto.
    - destruct max_iter as [mi|]; [|congruence]. exists None, (S (Z.to_nat mi)).
      destruct (regular_total_iter ratio rR c HD RO pw RP hq is_heap HH (all_juncs c js) HW None mi max_depth (S (Z.to_nat mi)) t1 (bp_lo m) (bp_up top) (bp_argmax m) 0 HI) as (r0 & Er); [lia|lia|]. exists r0. auto. }
  destruct FIN as (tol & F1 & r & Et & Er). exists (F0 + F1), r. intros fuel Hf. unfold estimate_dilation_regular. rewrite Et, ECT by lia. rewrite EM, E1, ET. eapply regular_loop_mono; [|exact Er]. lia.
Qed.
Theorem regular_total ratio rR pw c hq is_heap : valid_curve c -> check c = Some true -> ratio_ok (cv_dim c) (ratio (cv_dim c)) rR -> ratio_power pw rR -> IH_ok hq is_heap ->
  forall rti max_iter max_depth, match rti with Some r => (0 < r)%Z | None => max_iter <> None end ->
  exists F r, forall fuel, F <= fuel -> estimate_dilation_regular ratio hq fuel c rti max_iter None max_depth = Some r.
Proof.
  intros HC HCk RO RP HH. pose proof (dcls_curve c HC) as HD. destruct (junc_terminates c HC HCk) as (F0 & js & HJ0).
  pose proof (gen_spec c HC F0) as GS. rewrite (HJ0 F0 (le_n _)) in GS. cbn [fst snd] in GS. cbv zeta in GS. destruct GS as (G1 & _ & _ & G4). specialize (G4 eq_refl).
  pose proof (js_wft c HC js G1) as HJS. assert (EK : cv_kind c = KCurve) by apply HC.
  apply (regular_total_gen ratio rR pw c js hq is_heap F0); auto.
  - intros fuel Hf. unfold regular_junctions. rewrite EK, HJ0; auto.
  - apply (juncs_nonempty c js (proj1 HD) G4).
Qed.
