(** The n-th power of a core: nested fractions of depth n as fractions of a curve with division N^n (C17). *)
From Verif Require Import Py L_Py L_Qc M_BaseMaps S_BaseMaps L_BaseMaps P_Actions M_Subsets S_Subsets P_Subsets P_Facets
  M_Paths M_Curves S_Utils L_R P_Utils S_Curves P_CurveAct L_Digits P_Core P_Bridge P_Paths P_Entrance P_Cont P_Check.
From Coq Require Import Reals Lra Lia.
Local Open Scope nat_scope.

(** digits, most significant first *)
Fixpoint ndig (G n i : nat) : list nat := match n with 0 => [] | S n' => ndig G n' (i / G) ++ [i mod G] end.
Lemma ndig_length G n : forall i, length (ndig G n i) = n.
Proof. induction n; intros i; cbn; auto. rewrite app_length, IHn. cbn. lia. Qed.
Lemma ndig_lt G n : 0 < G -> forall i, Forall (fun c => c < G) (ndig G n i).
Proof. intros HG. induction n; intros i; cbn; auto. apply Forall_app. split; auto. constructor; auto. apply Nat.mod_upper_bound. lia. Qed.
Definition nval (G : nat) (cs : list nat) : nat := fold_left (fun a c => a * G + c) cs 0.
Lemma nval_snoc G cs c : nval G (cs ++ [c]) = nval G cs * G + c.
Proof. unfold nval. rewrite fold_left_app. auto. Qed.
Lemma nval_value G cs : Z.of_nat (nval G cs) = value (Z.of_nat G) (map Z.of_nat cs).
Proof.
  induction cs as [|c cs IH] using rev_ind; auto. rewrite nval_snoc, map_app. cbn [map]. rewrite value_snoc, <- IH. lia.
Qed.
Lemma nval_ndig G n : 0 < G -> forall i, i < G ^ n -> nval G (ndig G n i) = i.
Proof.
  intros HG. induction n as [|n IH]; intros i Hi; cbn [ndig Nat.pow] in *; [cbn; lia|]. rewrite nval_snoc, IH.
  - rewrite (Nat.div_mod i G) at 3 by lia. lia.
  - apply Nat.div_lt_upper_bound; lia.
Qed.
Lemma ndig_nval G cs : Forall (fun c => c < G) cs -> ndig G (length cs) (nval G cs) = cs.
Proof.
  induction cs as [|c cs IH] using rev_ind; intros H; auto. apply Forall_app in H as [H1 H2]. inversion H2; subst.
  rewrite app_length. cbn [length]. rewrite Nat.add_1_r. cbn [ndig]. rewrite nval_snoc.
  rewrite (Nat.add_comm _ c), Nat.div_add, Nat.mod_add by lia. rewrite Nat.div_small, Nat.mod_small by auto. cbn [Nat.add]. rewrite IH by auto. auto.
Qed.
Lemma nval_lt G cs : Forall (fun c => c < G) cs -> nval G cs < G ^ length cs.
Proof.
  induction cs as [|c cs IH] using rev_ind; intros H; [cbn; lia|]. apply Forall_app in H as [H1 H2]. inversion H2; subst.
  rewrite nval_snoc, app_length. cbn [length]. rewrite Nat.add_1_r. cbn. specialize (IH H1). nia.
Qed.

Definition kpow (K : core) (n : nat) : core :=
  Core (kd K) (kN K ^ n) (km K)
    (fun p i => map (kX K (Sp (id_map (kd K)) p) (ndig (kG K) n i)) (seq 0 (kd K)))
    (fun p i => kst K (Sp (id_map (kd K)) p) (ndig (kG K) n i)).

Section Pow.
Context (K : core) (HK : core_ok K) (n : nat) (Hn : 1 <= n).
Notation d := (kd K). Notation N := (kN K). Notation G := (kG K). Notation P := (kpow K n).
Notation RN := (IZR (Z.of_nat (kN K))). Notation RG := (IZR (Z.of_nat (kG K))).

Lemma kG_pow : kG P = G ^ n.
Proof. unfold kG. cbn. rewrite <- !Nat.pow_mul_r. f_equal. lia. Qed.
Lemma ndig_wfc i : wfc K (ndig G n i).
Proof. apply ndig_lt. pose proof (kG_ge2 K HK). lia. Qed.
Lemma wfS_idp p : p < km K -> wfS K (Sp (id_map d) p).
Proof. split; cbn; auto. apply wf_id. Qed.
Lemma kX_app S cs cs' j : kX K S (cs ++ cs') j = (kX K S cs j * Z.of_nat N ^ Z.of_nat (length cs') + kX K (kst K S cs) cs' j)%Z.
Proof. unfold kX, place_of. rewrite kcubes_app, map_app, value_app, map_length, kcubes_length. auto. Qed.
Lemma kT_app cs cs' : kT K (cs ++ cs') = (kT K cs * Z.of_nat G ^ Z.of_nat (length cs') + kT K cs')%Z.
Proof. unfold kT. rewrite map_app, value_app, map_length. auto. Qed.
Lemma kT_nval cs : kT K cs = Z.of_nat (nval G cs).
Proof. unfold kT. rewrite nval_value. auto. Qed.

Lemma ndig_flip b i : i < G ^ n -> map (kflip K b) (ndig G n i) = ndig G n (kflip P b i).
Proof.
  intros Hi. pose proof (kG_ge2 K HK) as HG. rewrite <- (ndig_nval G (map (kflip K b) (ndig G n i))) by (apply (wfc_flip K), ndig_wfc).
  rewrite map_length, ndig_length. f_equal. apply Nat2Z.inj. rewrite <- kT_nval. rewrite (kT_flip K) by apply ndig_wfc.
  unfold kflip. rewrite kG_pow, kT_nval, nval_ndig, ndig_length by lia.
  destruct (time_rev b); auto. rewrite <- Nat2Z.inj_pow. lia.
Qed.
Lemma sp_eta S : wfS K S -> bm_mul_sp (sp_bm S) (Sp (id_map d) (sp_pnum S)) = S.
Proof. intros [H _]. destruct S as [b p]. unfold bm_mul_sp. cbn in *. rewrite (mul_id_r d); auto. Qed.
Lemma pow_step S i : wfS K S -> i < G ^ n -> kstep P S i = kst K S (ndig G n i).
Proof.
  intros HS Hi. unfold kstep. cbn [kspec kpow]. rewrite <- ndig_flip by auto.
  pose proof (kst_mul K HK (sp_bm S) (ndig G n i) (Sp (id_map d) (sp_pnum S)) (proj1 HS) (wfS_idp _ (proj2 HS)) (ndig_wfc i)) as E.
  rewrite (sp_eta S HS) in E. auto.
Qed.
Lemma pow_cb S i j : wfS K S -> i < G ^ n -> j < d -> nth j (kcb P S i) 0%Z = kX K S (ndig G n i) j.
Proof.
  intros HS Hi Hj. unfold kcb. cbn [kcube kpow kN]. rewrite (nth_apply_cube d) by (try apply HS; auto).
  pose proof (wf_nth_lt d (sp_bm S) j (proj1 HS) Hj) as Hk.
  cbn zeta. rewrite (nth_map_seq (kX K (Sp (id_map d) (sp_pnum S)) (ndig G n (kflip P (sp_bm S) i)))) by auto.
  rewrite <- ndig_flip by auto. 
  pose proof (kcubes_mul K HK (sp_bm S) (ndig G n i) (Sp (id_map d) (sp_pnum S)) (proj1 HS) (wfS_idp _ (proj2 HS)) (ndig_wfc i)) as E.
  rewrite (sp_eta S HS) in E. unfold kX. rewrite E.
  rewrite (place_apply K); auto; [|apply HS|].
  2:{ apply (grid_len K). apply (kcubes_grid K HK); [apply wfS_idp, HS|apply (wfc_flip K), ndig_wfc]. }
  cbn zeta. rewrite kcubes_length, map_length, ndig_length, Nat2Z.inj_pow.
  destruct (snd (nth j (coords (sp_bm S)) (0%nat, false))); auto. lia.
Qed.
Lemma pow_st is : forall S, wfS K S -> Forall (fun i => i < G ^ n) is -> kst P S is = kst K S (flat_map (ndig G n) is).
Proof.
  induction is as [|i is IH]; intros S HS Hi; cbn [kst flat_map]; auto. inversion Hi; subst. rewrite kst_app, pow_step by auto.
  apply IH; auto. apply (kst_wf K HK); auto. apply ndig_wfc.
Qed.
Lemma flat_ndig_length is : length (flat_map (ndig G n) is) = n * length is.
Proof. induction is; cbn; [lia|]. rewrite app_length, ndig_length, IHis. lia. Qed.
Lemma pow_X is j : forall S, wfS K S -> Forall (fun i => i < G ^ n) is -> j < d -> kX P S is j = kX K S (flat_map (ndig G n) is) j.
Proof.
  induction is as [|i is IH]; intros S HS Hi Hj; [reflexivity|]. cbn [flat_map]. inversion Hi; subst. rewrite (kX_cons P), kX_app.
  rewrite pow_cb, pow_step by auto. rewrite IH; auto; [|apply (kst_wf K HK); auto; apply ndig_wfc]. cbn [kN kpow]. rewrite flat_ndig_length.
  rewrite Nat2Z.inj_pow, <- Z.pow_mul_r by lia. rewrite Nat2Z.inj_mul. auto.
Qed.
Lemma pow_T is : Forall (fun i => i < G ^ n) is -> kT P is = kT K (flat_map (ndig G n) is).
Proof.
  induction is as [|i is IH]; intros Hi; [reflexivity|]. cbn [flat_map]. inversion Hi; subst. rewrite (kT_cons P), kT_app, IH by auto.
  rewrite kG_pow, flat_ndig_length, (kT_nval (ndig G n i)), nval_ndig by (auto; pose proof (kG_ge2 K HK); lia).
  rewrite Nat2Z.inj_pow, <- Z.pow_mul_r by lia. rewrite Nat2Z.inj_mul. auto.
Qed.
Lemma pow_in S is t x : wfS K S -> Forall (fun i => i < G ^ n) is -> kin P S is t x <-> kin K S (flat_map (ndig G n) is) t x.
Proof.
  intros HS Hi. unfold kin. rewrite !(time_in_kT P), !(time_in_kT K), (point_in_kX P), (point_in_kX K). rewrite pow_T, flat_ndig_length by auto.
  rewrite kG_pow. cbn [kN kpow kd]. rewrite !Nat2Z.inj_pow, !IZR_pow, <- !pow_mult.
  split; intros (H1 & H2 & H3); (split; [auto|split; [auto|]]); intros j Hj; specialize (H3 j Hj); rewrite pow_X in *; auto.
Qed.
Lemma kin_app_l S cs cs' t x : wfS K S -> wfc K cs -> wfc K cs' -> kin K S (cs ++ cs') t x -> kin K S cs t x.
Proof.
  revert S t x. induction cs as [|c cs IH]; intros S t x HS Hc Hc' H.
  - assert (Hx : length x = d) by apply H. cbn [app] in H.
    destruct H as [H1 H2]. apply (proj1 (time_in_kT K _ _)) in H1. apply (proj1 (point_in_kX K _ _ _)) in H2 as [_ H2]. apply (kin_nil K).
    pose proof (kT_range K HK cs' Hc') as HT. pose proof (RGp K HK (length cs')) as HP. pose proof (RNp K HK (length cs')) as HP'.
    split; [|split; auto].
    + assert (0 <= IZR (kT K cs') /\ IZR (kT K cs') + 1 <= RG ^ length cs')%R.
      { split; [apply (IZR_le 0); lia|]. rewrite <- plus_IZR. rewrite <- IZR_pow. apply IZR_le. lia. }
      split; [apply Rmult_le_reg_r with (RG ^ length cs')%R; lra|apply Rmult_le_reg_r with (RG ^ length cs')%R; lra].
    + intros j Hj. specialize (H2 j Hj). pose proof (kX_range K HK S cs' j HS Hc' Hj) as HX.
      assert (0 <= IZR (kX K S cs' j) /\ IZR (kX K S cs' j) + 1 <= RN ^ length cs')%R.
      { split; [apply (IZR_le 0); lia|]. rewrite <- plus_IZR. rewrite <- IZR_pow. apply IZR_le. lia. }
      split; [apply Rmult_le_reg_r with (RN ^ length cs')%R; lra|apply Rmult_le_reg_r with (RN ^ length cs')%R; lra].
  - assert (Hx : length x = d) by apply H. cbn [app] in H. inversion Hc; subst. apply (kin_cons K) in H; auto. apply (kin_cons K); auto. apply IH; auto.
    apply (kstep_wf K HK); auto.
Qed.
Lemma prefix_plus (dl : nat -> nat) a b : prefix dl (a + b) = prefix dl a ++ prefix (fun i => dl (a + i)) b.
Proof.
  unfold prefix. rewrite seq_app, map_app. f_equal. cbn. clear. revert a. induction b as [|b IH]; intros a; auto. cbn [seq map].
  rewrite Nat.add_0_r. f_equal. rewrite IH, <- seq_shift, map_map. apply map_ext. intros i. f_equal. lia.
Qed.
Lemma pow_graph S t x : wfS K S -> kgraph P S t x <-> kgraph K S t x.
Proof.
  intros HS. pose proof (kG_ge2 K HK) as HG. split.
  - intros (Hx & dl & Hd & H). split; auto. rewrite kG_pow in Hd.
    set (e := fun i => nth (i mod n) (ndig G n (dl (i / n))) 0).
    assert (He : forall i, e i < G).
    { intros i. unfold e. pose proof (ndig_wfc (dl (i / n))) as W. unfold wfc in W. rewrite Forall_nth_lt with (d := 0) in W. apply W.
      rewrite ndig_length. apply Nat.mod_upper_bound. lia. }
    exists e. split; auto.
    assert (Q : forall r, prefix e (n * r) = flat_map (ndig G n) (prefix dl r)).
    { induction r as [|r IH]; [rewrite Nat.mul_0_r; auto|]. replace (n * Datatypes.S r) with (n * r + n) by lia.
      rewrite prefix_plus, IH, prefix_S, flat_map_app. cbn [flat_map]. rewrite app_nil_r. f_equal. unfold prefix.
      symmetry. apply list_as_map; [apply ndig_length|]. intros k Hk. unfold e.
      replace ((n * r + k) / n) with r by (rewrite Nat.mul_comm, Nat.div_add_l, Nat.div_small; lia).
      replace ((n * r + k) mod n) with k by (rewrite Nat.add_comm, Nat.mul_comm, Nat.mod_add, Nat.mod_small; lia).
      apply nth_error_nth'. rewrite ndig_length; auto. }
    intros k. assert (n * k = k + (n * k - k)) by nia.
    apply kin_app_l with (cs' := prefix (fun i => e (k + i)) (n * k - k)); auto; try (apply (prefix_wfc K); auto).
    rewrite <- prefix_plus, <- H0, Q. apply pow_in; auto. apply Forall_forall. intros i Hi. unfold prefix in Hi. apply in_map_iff in Hi as (? & <- & _). auto.
  - intros (Hx & dl & Hd & H). split; auto.
    set (e := fun r => nval G (prefix (fun i => dl (n * r + i)) n)).
    assert (He : forall i, e i < G ^ n).
    { intros i. unfold e. rewrite <- (prefix_length (fun k => dl (n * i + k)) n) at 2. apply nval_lt. apply (prefix_wfc K); auto. }
    exists e. rewrite kG_pow. split; auto.
    assert (Q : forall r, prefix dl (n * r) = flat_map (ndig G n) (prefix e r)).
    { induction r as [|r IH]; [rewrite Nat.mul_0_r; auto|]. replace (n * Datatypes.S r) with (n * r + n) by lia.
      rewrite prefix_plus, IH, prefix_S, flat_map_app. cbn [flat_map]. rewrite app_nil_r. f_equal. unfold e.
      rewrite <- (prefix_length (fun k => dl (n * r + k)) n) at 2. rewrite ndig_nval; auto. apply (prefix_wfc K); auto. }
    intros k. apply pow_in; auto; [|rewrite <- Q; auto]. apply Forall_forall. intros i Hi. unfold prefix in Hi. apply in_map_iff in Hi as (? & <- & _). auto.
Qed.
Lemma pow_ok : core_ok P.
Proof.
  constructor.
  - apply HK.
  - cbn. pose proof (ok_N K HK). destruct n as [|n']; [lia|]. cbn. assert (1 <= N ^ n') by (apply Nat.neq_0_lt_0, Nat.pow_nonzero; lia). nia.
  - intros p i Hp Hi. cbn in Hp. cbn [kcube kpow kd kN]. split; [rewrite map_length, seq_length; auto|].
    rewrite Forall_map, Forall_forall. intros j Hj. apply in_seq in Hj.
    pose proof (kX_range K HK (Sp (id_map d) p) (ndig G n i) j (wfS_idp p Hp) (ndig_wfc i) ltac:(lia)) as H. rewrite ndig_length in H. rewrite Nat2Z.inj_pow. auto.
  - intros p i Hp Hi. cbn in *. apply (kst_wf K HK); [apply wfS_idp; auto|apply ndig_wfc].
Qed.
End Pow.

Section PowFull.
Context (K : core) (HF : core_full K) (n : nat) (Hn : 1 <= n).
Let HK := full_ok K HF.
Notation d := (kd K). Notation N := (kN K). Notation G := (kG K). Notation P := (kpow K n).
Lemma kX_inj cs : forall cs' S, wfS K S -> wfc K cs -> wfc K cs' -> length cs = length cs' ->
  (forall j, j < d -> kX K S cs j = kX K S cs' j) -> cs = cs'.
Proof.
  induction cs as [|c cs IH]; intros [|c' cs'] S HS Hc Hc' HL HX; try discriminate; auto. cbn in HL. injection HL as HL.
  inversion Hc; inversion Hc'; subst.
  assert (E : forall j, j < d -> nth j (kcb K S c) 0%Z = nth j (kcb K S c') 0%Z /\ kX K (kstep K S c) cs j = kX K (kstep K S c') cs' j).
  { intros j Hj. specialize (HX j Hj). rewrite !(kX_cons K), HL in HX.
    pose proof (kX_range K HK (kstep K S c) cs j (kstep_wf K HK S c HS H1) H2 Hj) as R1.
    pose proof (kX_range K HK (kstep K S c') cs' j (kstep_wf K HK S c' HS H5) H6 Hj) as R2. rewrite HL in R1.
    remember (Z.of_nat N ^ Z.of_nat (length cs'))%Z as M.
    apply Z.div_mod_unique with M; lia. }
  assert (c = c').
  { apply (kcb_inj K HF S); auto. pose proof (kcb_grid K HK S c HS H1) as [L1 _]. pose proof (kcb_grid K HK S c' HS H5) as [L2 _].
    apply nth_ext with 0%Z 0%Z; [congruence|]. rewrite L1. intros j Hj. apply E; auto. }
  subst c'. f_equal. apply (IH cs' (kstep K S c)); auto; [apply (kstep_wf K HK); auto|]. intros j Hj. apply E; auto.
Qed.
Lemma kX_surj r : forall S q, wfS K S -> length q = d -> Forall (fun v => 0 <= v < Z.of_nat N ^ Z.of_nat r)%Z q ->
  exists cs, length cs = r /\ wfc K cs /\ forall j, j < d -> kX K S cs j = nth j q 0%Z.
Proof.
  pose proof (ZN_ge2 K HK) as HN2.
  induction r as [|r IH]; intros S q HS HL Hq; rewrite Forall_nth_lt with (d := 0%Z) in Hq.
  - exists []. split; auto. split; [constructor|]. intros j Hj. specialize (Hq j ltac:(lia)). unfold kX, place_of. cbn. cbn in Hq. lia.
  - set (M := (Z.of_nat N ^ Z.of_nat r)%Z) in *. assert (HM : (0 < M)%Z) by (apply Z.pow_pos_nonneg; lia).
    assert (EM : (Z.of_nat N ^ Z.of_nat (Datatypes.S r) = Z.of_nat N * M)%Z) by (unfold M; rewrite Nat2Z.inj_succ, Z.pow_succ_r; lia).
    rewrite EM in Hq.
    destruct (kcb_surj K HF S (map (fun v => v / M)%Z q) HS) as (c & Hc & Ec).
    { split; [rewrite map_length; auto|]. rewrite Forall_map. apply Forall_nth_lt with (d := 0%Z). intros j Hj. specialize (Hq j Hj).
      split; [apply Z.div_pos; lia|apply Z.div_lt_upper_bound; lia]. }
    destruct (IH (kstep K S c) (map (fun v => v mod M)%Z q)) as (cs & L & W & E).
    { apply (kstep_wf K HK); auto. } { rewrite map_length; auto. }
    { rewrite Forall_map. apply Forall_forall. intros v _. apply Z.mod_pos_bound; auto. }
    exists (c :: cs). cbn [length]. split; [auto|]. split; [constructor; auto|]. intros j Hj. rewrite (kX_cons K), L, Ec, E by auto.
    rewrite !map_nth_lt with (d := 0%Z) by lia. fold M. rewrite (Z.div_mod (nth j q 0%Z) M) at 3 by lia. lia.
Qed.
Lemma pow_full : core_full P.
Proof.
  pose proof (kG_ge2 K HK) as HG.
  constructor; [apply pow_ok; auto|..].
  - intros p i i' Hp Hi Hi' E. rewrite kG_pow in * by auto. cbn in Hp, E.
    assert (E2 : ndig G n i = ndig G n i').
    { apply kX_inj with (S := Sp (id_map d) p); [apply wfS_idp; auto|apply ndig_wfc; auto|apply ndig_wfc; auto|rewrite !ndig_length; auto|].
      intros j Hj. apply (f_equal (fun l => nth j l 0%Z)) in E. rewrite !nth_map_seq in E by auto. auto. }
    rewrite <- (nval_ndig G n ltac:(lia) i Hi), E2, nval_ndig by lia. auto.
  - intros p q Hp [HL Hq]. cbn in Hp. cbn [kd kN kpow] in *. rewrite Nat2Z.inj_pow in Hq.
    destruct (kX_surj n (Sp (id_map d) p) q (wfS_idp K p Hp) HL Hq) as (cs & L & W & E).
    exists (nval G cs). rewrite kG_pow by auto. split; [rewrite <- L; apply nval_lt; auto|]. cbn [kcube kpow]. pose proof (ndig_nval G cs W) as EE. rewrite L in EE. rewrite EE.
    apply nth_ext with 0%Z 0%Z; rewrite map_length, seq_length; auto. intros j Hj. rewrite nth_map_seq by auto. auto.
Qed.
End PowFull.

(** extensionality of the core *)
Section Ext.
Context (K K' : core) (HK : core_ok K) (Ed : kd K' = kd K) (EN : kN K' = kN K) (Em : km K' = km K)
  (Ec : forall p k, p < km K -> k < kG K -> kcube K' p k = kcube K p k) (Es : forall p k, p < km K -> k < kG K -> kspec K' p k = kspec K p k).
Lemma kG_ext : kG K' = kG K. Proof. unfold kG. congruence. Qed.
Lemma kflip_ext b k : kflip K' b k = kflip K b k. Proof. unfold kflip. rewrite kG_ext. auto. Qed.
Lemma kstep_ext S k : wfS K S -> k < kG K -> kstep K' S k = kstep K S k.
Proof. intros HS Hk. unfold kstep. rewrite kflip_ext, Es; auto; [apply HS|apply kflip_lt; auto]. Qed.
Lemma kcb_ext S k : wfS K S -> k < kG K -> kcb K' S k = kcb K S k.
Proof. intros HS Hk. unfold kcb. rewrite kflip_ext, EN, Ec; auto; [apply HS|apply kflip_lt; auto]. Qed.
Lemma kcubes_ext cs : forall S, wfS K S -> wfc K cs -> kcubes K' S cs = kcubes K S cs.
Proof.
  induction cs as [|k cs IH]; intros S HS Hc; auto. inversion Hc; subst. cbn [kcubes]. rewrite kcb_ext, kstep_ext by auto. rewrite IH; auto.
  apply kstep_wf; auto.
Qed.
Lemma kgraph_ext S t x : wfS K S -> kgraph K' S t x <-> kgraph K S t x.
Proof.
  intros HS. unfold kgraph, kin. rewrite Ed, EN, kG_ext. split; intros (Hx & dl & Hd & H); split; auto; exists dl; split; auto; intros i; specialize (H i);
    [rewrite <- kcubes_ext|rewrite kcubes_ext]; auto; apply prefix_wfc; auto.
Qed.
End Ext.


Lemma seq_shift_n a n : seq a n = map (fun k => a + k) (seq 0 n).
Proof.
  revert a. induction n as [|n IH]; intros a; auto. cbn [seq map]. rewrite Nat.add_0_r. f_equal. rewrite IH, <- seq_shift, map_map.
  apply map_ext. intros. lia.
Qed.
Lemma concat_map_seq {A} (f : nat -> A) G M : concat (map (fun i => map (fun k => f (i * G + k)) (seq 0 G)) (seq 0 M)) = map f (seq 0 (M * G)).
Proof.
  induction M as [|M IH]; auto. rewrite seq_S, map_app, concat_app, IH. cbn [map concat Nat.add]. rewrite app_nil_r.
  replace (S M * G) with (M * G + G) by lia. rewrite seq_app, map_app. f_equal. cbn [Nat.add]. rewrite (seq_shift_n (M * G)), map_map. auto.
Qed.
Lemma combine_map2 {A B C} (f : A -> B) (g : A -> C) l : combine (map f l) (map g l) = map (fun a => (f a, g a)) l.
Proof. induction l; cbn; congruence. Qed.
Lemma omap_ext_in {A B} (f g : A -> option B) l : (forall a, In a l -> f a = g a) -> omap f l = omap g l.
Proof. induction l as [|a l IH]; intros H; cbn; auto. rewrite (H a), IH; cbn; auto. intros; apply H; cbn; auto. Qed.
Lemma omap_some_map {A B} (g : A -> B) l : omap (fun a => Some (g a)) l = Some (map g l).
Proof. induction l; cbn; auto. rewrite IHl; auto. Qed.
Lemma omap_map' {A B C} (f : A -> B) (g : B -> option C) l : omap g (map f l) = omap (fun a => g (f a)) l.
Proof. induction l; cbn; auto. rewrite IHl; auto. Qed.

Section Sub.
Context (c : curve) (HC : valid_curve c).
Notation K := (core_of c). Notation d := (cv_dim c). Notation N := (cv_div c). Notation G := (cv_genus c). Notation m := (cv_mult c).
Let HV : valid_fuzzy c := valid_curve_fuzzy c HC.
Let HF : core_full K := core_of_full c HV.
Let HK : core_ok K := full_ok K HF.

Definition pow_pat (n p : nat) : pattern :=
  Pat (Pr d (N ^ n) (map (fun i => Some (kcube (kpow K n) p i)) (seq 0 (G ^ n))))
      (map (fun i => Some (kspec (kpow K n) p i)) (seq 0 (G ^ n))).
Definition pow_curve (n : nat) : curve := Cv d (N ^ n) (map (pow_pat n) (seq 0 m)) (cv_pnum c) KCurve.

Lemma pow_curve_1 : pow_curve 1 = c.
Proof.
  pose proof (kG_ge2 K HK) as HG. change (kG K) with G in HG.
  destruct c as [d0 N0 ps0 q0 k0] eqn:Ec0. rewrite <- Ec0 in *. assert (Ek : k0 = KCurve). { pose proof HC as (_ & _ & _ & E & _). rewrite Ec0 in E. auto. }
  transitivity (Cv d N (cv_pats c) (cv_pnum c) KCurve); [|rewrite Ec0; cbn; congruence].
  unfold pow_curve. f_equal; [rewrite Nat.pow_1_r; auto|].
  symmetry. apply list_as_map; auto. intros p Hp. destruct (nth_pat c HV p Hp) as (pat & E & _). rewrite E. f_equal.
  destruct pat as [pr ss] eqn:Epat. rewrite <- Epat in E. unfold pow_pat. f_equal.
  - change pr with (pat_proto (Pat pr ss)). rewrite <- Epat. rewrite (pat_proto_eq c HC p pat E). rewrite !Nat.pow_1_r. f_equal. apply map_ext_in. intros i Hi.
    apply in_seq in Hi. f_equal. cbn [kcube kpow ndig]. cbn [app]. rewrite Nat.mod_small by (change (kG K) with G; lia).
    assert (Hq : length (kcube K p i) = d) by (apply (ok_cube K HK); auto; change (kG K) with G; lia).
    apply nth_ext with 0%Z 0%Z; rewrite ?map_length, ?seq_length; auto. rewrite Hq. intros j Hj. rewrite nth_map_seq by auto.
    rewrite (kX_cons K). unfold kX, place_of. cbn [length kcubes map]. rewrite value_nil. rewrite (kcb_id c HV) by (auto; lia). cbn. lia.
  - change ss with (pat_specs (Pat pr ss)). rewrite <- Epat. rewrite (pat_specs_eq c HC p pat E). rewrite !Nat.pow_1_r. apply map_ext_in. intros i Hi.
    apply in_seq in Hi. f_equal. cbn [kspec kpow ndig]. cbn [app]. rewrite Nat.mod_small by (change (kG K) with G; lia). cbn [kst].
    symmetry. apply (kstep_id c HV); auto. apply defined_kspec, all_defined; auto; lia.
Qed.
Lemma pow_Gn n : (N ^ n) ^ d = G ^ n.
Proof. unfold cv_genus. rewrite <- !Nat.pow_mul_r. f_equal. lia. Qed.
Lemma pow_curve_valid n : 1 <= n -> valid_curve (pow_curve n).
Proof.
  intros Hn. pose proof (pow_full K HF n Hn) as PF. pose proof (full_ok _ PF) as PO. pose proof HC as (H1 & H2 & H3 & H4 & H5).
  split; [auto|]. split; [apply (ok_N _ PO)|]. split; [unfold cv_mult; cbn; rewrite map_length, seq_length; auto|]. split; [auto|].
  apply Forall_forall. intros pat Hin. cbn in Hin. apply in_map_iff in Hin as (p & <- & Hp). apply in_seq in Hp.
  unfold pow_curve, pow_pat, valid_pattern, cv_mult; cbn [cv_dim cv_div cv_pats pat_proto pat_specs]. rewrite !map_length, !seq_length. split; [|split].
  - split; [auto|]. split; [auto|]. exists (map (kcube (kpow K n) p) (seq 0 (G ^ n))). split; [cbn; rewrite map_map; auto|]. split.
    + apply NoDup_nth with (d := []). rewrite map_length, seq_length. intros i i' Hi Hi' E. rewrite !nth_map_seq in E by auto.
      apply (full_inj _ PF p); auto; try (rewrite kG_pow; auto); cbn; lia.
    + intros q. rewrite in_map_iff. split.
      * intros (i & <- & Hi). apply in_seq in Hi. apply (ok_cube _ PO p i); [cbn; lia|rewrite kG_pow; auto; change (kG K) with G; lia].
      * intros Hq. destruct (full_surj _ PF p q) as (i & Hi & E); [cbn; lia|auto|]. exists i. split; auto. apply in_seq. rewrite kG_pow in Hi; auto.
        change (kG K) with G in Hi. lia.
  - rewrite pow_Gn. auto.
  - apply Forall_forall. intros os Hos. apply in_map_iff in Hos as (i & <- & Hi). apply in_seq in Hi. eexists. split; [reflexivity|].
    apply (ok_spec _ PO p i); [cbn; lia|rewrite kG_pow; auto; change (kG K) with G; lia].
Qed.
Lemma ndig_snoc n i k : k < G -> ndig G (S n) (i * G + k) = ndig G n i ++ [k].
Proof. intros Hk. cbn [ndig]. rewrite (Nat.add_comm _ k), Nat.div_add, Nat.mod_add by lia. rewrite Nat.div_small, Nat.mod_small by auto. auto. Qed.
Lemma subdivide_pow n p : 1 <= n -> p < m -> subdivide_pattern c (N ^ S n) (pow_pat n p) = Some (pow_pat (S n) p).
Proof.
  intros Hn Hp. pose proof (kG_ge2 K HK) as HG. change (kG K) with G in HG. unfold subdivide_pattern, pow_pat. cbn [pat_proto pat_specs pr_cubes].
  rewrite combine_map2, omap_map'.
  rewrite (omap_ext_in _ (fun i => Some (map (fun k => Some (kcube (kpow K (S n)) p (i * G + k))) (seq 0 G),
      map (fun k => Some (kspec (kpow K (S n)) p (i * G + k))) (seq 0 G)))).
  - rewrite omap_some_map, !map_map. cbn [fst snd]. do 2 f_equal.
    + f_equal. rewrite (concat_map_seq (fun i => Some (kcube (kpow K (S n)) p i))). f_equal. f_equal. cbn. lia.
    + rewrite (concat_map_seq (fun i => Some (kspec (kpow K (S n)) p i))). f_equal. f_equal. cbn. lia.
  - intros i Hi. apply in_seq in Hi. cbn [fst snd kspec kpow]. change (kG K) with G. change (kd K) with d.
    set (X := kst K (Sp (id_map d) p) (ndig G n i)).
    assert (HX : wfS K X) by (apply (kst_wf K HK); [apply (wfS_id c); auto|apply (ndig_wfc K HK); auto]).
    destruct (nth_pat c HV _ (proj2 HX)) as (pat & Ep & _). rewrite Ep.
    rewrite (list_as_map (pr_cubes (pr_mul (sp_bm X) (pat_proto pat))) (fun k => Some (kcb K X k)) G).
    2:{ unfold pr_mul. cbn [pr_cubes]. rewrite map_length. destruct (time_rev (sp_bm X)); rewrite ?rev_length; apply (cubes_length c HV _ _ Ep). }
    2:{ intros k Hk. apply (pat_mul_cube c HV); auto. }
    rewrite (list_as_map (if time_rev (sp_bm X) then rev (pat_specs pat) else pat_specs pat) (fun k => Some (kspec K (sp_pnum X) (kflip K (sp_bm X) k))) G).
    2:{ destruct (time_rev (sp_bm X)); rewrite ?rev_length; apply (specs_length c HV _ _ Ep). }
    2:{ intros k Hk. rewrite (pat_specs_eq c HC _ _ Ep). unfold kflip. destruct (time_rev (sp_bm X)); [|apply (nth_error_seq_map (fun k => Some (kspec K (sp_pnum X) k))); auto].
        rewrite nth_error_rev; rewrite map_length, seq_length; auto. rewrite (nth_error_seq_map (fun k => Some (kspec K (sp_pnum X) k))) by lia. auto. }
    rewrite !omap_map'. cbn [option_map]. rewrite !omap_some_map, !map_map. do 2 f_equal; apply map_ext_in; intros k Hk; apply in_seq in Hk; f_equal.
    + cbn [kcube kpow]. change (kG K) with G. change (kd K) with d. rewrite ndig_snoc by lia.
      pose proof (kcb_grid K HK X k HX ltac:(change (kG K) with G; lia)) as [HL _]. change (kd K) with d in HL.
      apply nth_ext with 0%Z 0%Z; [rewrite !map_length, combine_length, map_length, !seq_length; lia|].
      rewrite map_length, combine_length, map_length, seq_length, HL. intros j Hj. rewrite nth_map_seq by lia.
      rewrite map_nth_lt with (d := (0%Z, 0%Z)) by (rewrite combine_length, map_length, seq_length, HL; lia).
      rewrite combine_nth by (rewrite map_length, seq_length, HL; auto). cbn [fst snd]. rewrite nth_map_seq by lia. rewrite (kX_snoc K). auto.
    + rewrite ndig_snoc, kst_app by lia. cbn [kst]. fold X. reflexivity.
Qed.
Lemma subdivision_pow k : forall n, 1 <= n -> get_subdivision_loop c (pow_curve n) k = Some (pow_curve (n + k)).
Proof.
  induction k as [|k IH]; intros n Hn; cbn [get_subdivision_loop]; [rewrite Nat.add_0_r; auto|].
  cbn [pow_curve cv_div cv_pats]. replace (N ^ n * N) with (N ^ S n) by (cbn; lia). rewrite omap_map'.
  rewrite (omap_ext_in _ (fun p => Some (pow_pat (S n) p))).
  - rewrite omap_some_map. change (Cv d (N ^ S n) (map (pow_pat (S n)) (seq 0 m)) (cv_pnum c) KCurve) with (pow_curve (S n)). rewrite IH by lia. do 2 f_equal. lia.
  - intros p Hp. apply in_seq in Hp. apply subdivide_pow; auto; lia.
Qed.
Lemma get_subdivision_eq k : get_subdivision c k = Some (pow_curve (S k)).
Proof. unfold get_subdivision. rewrite <- pow_curve_1 at 2. rewrite subdivision_pow; auto. Qed.
Lemma core_pow_ext n p i : 1 <= n -> p < m -> i < G ^ n ->
  kcube (core_of (pow_curve n)) p i = kcube (kpow K n) p i /\ kspec (core_of (pow_curve n)) p i = kspec (kpow K n) p i.
Proof.
  intros Hn Hp Hi. cbn [core_of kcube kspec]. unfold get_spec. cbn [pow_curve cv_pats cv_dim]. rewrite (nth_error_seq_map (pow_pat n)) by auto.
  unfold pow_pat; cbn [pat_proto pat_specs pr_cubes]. rewrite (nth_error_seq_map (fun i => Some (kcube (kpow K n) p i))) by auto.
  rewrite (nth_error_seq_map (fun i => Some (kspec (kpow K n) p i))) by auto. auto.
Qed.
Lemma pow_curve_graph n p t x : 1 <= n -> p < m -> graph (pattern_curve (pow_curve n) p) t x <-> graph (pattern_curve c p) t x.
Proof.
  intros Hn Hp. assert (Em : cv_mult (pow_curve n) = m) by (unfold cv_mult; cbn; rewrite map_length, seq_length; auto).
  rewrite (graph_pattern _ (pow_curve_valid n Hn)) by (rewrite Em; auto). rewrite (graph_pattern c HC) by auto.
  cbn [cv_dim pow_curve].
  rewrite (kgraph_ext (kpow K n) (core_of (pow_curve n)) (pow_ok K HK n Hn)); try (cbn; auto; fail).
  - apply (pow_graph K HK n Hn). apply (wfS_id c); auto.
  - intros q k Hq Hk. rewrite kG_pow in Hk by auto. apply core_pow_ext; auto.
  - intros q k Hq Hk. rewrite kG_pow in Hk by auto. apply core_pow_ext; auto.
  - split; cbn; auto. apply wf_id.
Qed.
Lemma pow_mult n : cv_mult (pow_curve n) = m.
Proof. unfold cv_mult. cbn. rewrite map_length, seq_length. auto. Qed.

Lemma check_single : check c = Some true <-> forall p t x y, p < m -> graph (pattern_curve c p) t x -> graph (pattern_curve c p) t y -> x = y.
Proof.
  split.
  - intros E p t x y Hp. apply (graph_single c HC p t x y E Hp).
  - intros H. destruct (check_exact c HC) as (r & E & Hr). rewrite E. f_equal. apply Hr. clear r E Hr.
    intros p k x x' Hp Hk Hx Hx'. change (kG K) with G in Hk. change (km K) with m in Hp. pose proof (RG_ge2 K HK) as HG2.
    assert (W : wfS K (Sp (id_map d) p)) by (apply (wfS_id c); auto).
    assert (Q : forall i t y, i < G -> kgraph K (kspec K p i) t y -> kgraph K (Sp (id_map d) p) ((t + IZR (Z.of_nat i)) / IZR (Z.of_nat (kG K)))%R (unzoom K (kcube K p i) y)).
    { intros i t y Hi Hy. apply (kgraph_step K HK); auto. split; [apply unzoom_length|]. exists i. split; auto.
      rewrite (kcb_id c HV) by auto. rewrite (kstep_id c HV p i (kspec K p i)) by (auto; apply defined_kspec, all_defined; auto).
      rewrite zoom_unzoom by (auto; apply Hy). replace (IZR (Z.of_nat (kG K)) * ((t + IZR (Z.of_nat i)) / IZR (Z.of_nat (kG K))) - IZR (Z.of_nat i))%R with t; auto. field. lra. }
    apply (H p ((1 + IZR (Z.of_nat k)) / IZR (Z.of_nat (kG K)))%R); auto; apply (graph_pattern c HC); auto.
    + apply Q; auto; lia.
    + replace (1 + IZR (Z.of_nat k))%R with (0 + IZR (Z.of_nat (k + 1)))%R by (rewrite Nat2Z.inj_add, plus_IZR; cbn; ring). apply Q; auto.
Qed.
Lemma pow_nested n p cnums : 1 <= n -> p < m -> length cnums = n -> Forall (fun k => k < G) cnums ->
  exists X cubes q pat, walk (pattern_curve c p) cnums = Some (cubes, cv_mul_sp X c) /\
    nth_error (cv_pats (pow_curve n)) p = Some pat /\
    nth_error (pr_cubes (pat_proto pat)) (Z.to_nat (value (Z.of_nat G) (map Z.of_nat cnums))) = Some (Some q) /\
    nth_error (pat_specs pat) (Z.to_nat (value (Z.of_nat G) (map Z.of_nat cnums))) = Some (Some X) /\
    length q = d /\ forall j, j < d -> nth j q 0%Z = place_of j N cubes.
Proof.
  intros Hn Hp HL Hc. assert (W : wfS K (Sp (id_map d) p)) by (apply (wfS_id c); auto).
  rewrite <- nval_value, Nat2Z.id. pose proof (nval_lt G cnums Hc) as HI. rewrite HL in HI.
  exists (kst K (Sp (id_map d) p) cnums), (kcubes K (Sp (id_map d) p) cnums), (kcube (kpow K n) p (nval G cnums)), (pow_pat n p).
  split; [rewrite (pattern_curve_eq c HC); apply (walk_eq c HC); auto|].
  split; [apply (nth_error_seq_map (pow_pat n)); auto|]. unfold pow_pat; cbn [pat_proto pat_specs pr_cubes].
  rewrite (nth_error_seq_map (fun i => Some (kcube (kpow K n) p i))) by auto. rewrite (nth_error_seq_map (fun i => Some (kspec (kpow K n) p i))) by auto.
  cbn [kcube kspec kpow]. change (kG K) with G. pose proof (ndig_nval G cnums Hc) as E. rewrite HL in E. rewrite E.
  repeat split; auto; [rewrite map_length, seq_length; auto|]. intros j Hj. rewrite nth_map_seq; auto.
Qed.
Lemma subdivision_ok k : exists s, get_subdivision c k = Some s /\ valid_curve s /\ cv_dim s = d /\ cv_div s = N ^ S k /\
  cv_mult s = m /\ cv_pnum s = cv_pnum c.
Proof. exists (pow_curve (S k)). rewrite get_subdivision_eq. repeat split; auto using pow_mult. all: apply pow_curve_valid; lia. Qed.
Lemma subdivision_nested k s p cnums : get_subdivision c k = Some s -> p < m -> length cnums = S k -> Forall (fun i => i < G) cnums ->
  exists X cubes q pat, walk (pattern_curve c p) cnums = Some (cubes, cv_mul_sp X c) /\
    nth_error (cv_pats s) p = Some pat /\
    nth_error (pr_cubes (pat_proto pat)) (Z.to_nat (value (Z.of_nat G) (map Z.of_nat cnums))) = Some (Some q) /\
    nth_error (pat_specs pat) (Z.to_nat (value (Z.of_nat G) (map Z.of_nat cnums))) = Some (Some X) /\
    length q = d /\ forall j, j < d -> nth j q 0%Z = place_of j N cubes.
Proof. rewrite get_subdivision_eq. intros E. injection E as <-. intros. apply pow_nested; auto. lia. Qed.
Lemma subdivision_graph k s p t x : get_subdivision c k = Some s -> p < m -> graph (pattern_curve s p) t x <-> graph (pattern_curve c p) t x.
Proof. rewrite get_subdivision_eq. intros E. injection E as <-. intros. apply pow_curve_graph; auto. lia. Qed.
End Sub.
Lemma subdivision_gates c k s p : valid_curve c -> get_subdivision c k = Some s -> p < cv_mult c ->
  get_entrance s (Some p) = get_entrance c (Some p) /\ get_exit s (Some p) = get_exit c (Some p).
Proof.
  intros HC E Hp. pose proof (get_subdivision_eq c HC k) as E'. assert (s = pow_curve c (S k)) by congruence. subst s.
  assert (HS : valid_curve (pow_curve c (S k))) by (apply pow_curve_valid; auto; lia).
  assert (Hp' : p < cv_mult (pow_curve c (S k))) by (rewrite pow_mult; auto).
  destruct (entrance_graph _ (valid_curve_fuzzy _ HC) (curve_ends_def _ HC) p Hp) as (e & Ee & _ & He).
  destruct (entrance_graph _ (valid_curve_fuzzy _ HS) (curve_ends_def _ HS) p Hp') as (e' & Ee' & _ & He').
  destruct (exit_graph _ (valid_curve_fuzzy _ HC) (curve_ends_def _ HC) p Hp) as (x & Ex & _ & Hx).
  destruct (exit_graph _ (valid_curve_fuzzy _ HS) (curve_ends_def _ HS) p Hp') as (x' & Ex' & _ & Hx').
  rewrite Ee, Ee', Ex, Ex'. split; f_equal; apply map_qR_inj; symmetry.
  - apply He'. apply pow_curve_graph; auto; [lia|]. apply He; auto.
  - apply Hx'. apply pow_curve_graph; auto; [lia|]. apply Hx; auto.
Qed.
Lemma subdivision_check c k s : valid_curve c -> get_subdivision c k = Some s -> (check s = Some true <-> check c = Some true).
Proof.
  intros HC E. pose proof (get_subdivision_eq c HC k) as E'. assert (s = pow_curve c (S k)) by congruence. subst s.
  assert (HS : valid_curve (pow_curve c (S k))) by (apply pow_curve_valid; auto; lia).
  rewrite (check_single c HC), (check_single _ HS), pow_mult. split; intros H p t x y Hp Hx Hy.
  - apply (H p t); auto; apply pow_curve_graph; auto; lia.
  - apply pow_curve_graph in Hx; auto; [|lia]. apply pow_curve_graph in Hy; auto; [|lia]. apply (H p t); auto.
Qed.
