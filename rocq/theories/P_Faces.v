(** Moments of faces and vertices (C21). *)
From Verif Require Import Py L_Py L_Qc M_BaseMaps S_BaseMaps L_BaseMaps P_Actions P_GenMaps M_Subsets S_Subsets P_Subsets P_Points P_Facets
  M_Paths M_Utils M_Curves S_Utils L_R P_Utils S_Curves P_CurveAct L_Digits P_Core P_Bridge P_Paths P_Entrance P_Cont P_Check P_Subdiv.
From Coq Require Import Reals Lra Lia Factorial.
Local Open Scope nat_scope.

Lemma find_seq_first (P : nat -> bool) n a k : find P (seq a n) = Some k -> a <= k < a + n /\ P k = true /\ forall i, a <= i < k -> P i = false.
Proof.
  revert a. induction n as [|n IH]; intros a; cbn; [discriminate|]. destruct (P a) eqn:E.
  - intros H. injection H as <-. repeat split; auto; try lia.
  - intros H. apply IH in H as (H1 & H2 & H3). repeat split; auto; try lia. intros i Hi. destruct (Nat.eq_dec i a) as [->|]; auto. apply H3. lia.
Qed.
Lemma find_seq_last (P : nat -> bool) n k : find P (rev (seq 0 n)) = Some k -> k < n /\ P k = true /\ forall i, k < i < n -> P i = false.
Proof.
  induction n as [|n IH]; [discriminate|]. rewrite seq_S, rev_app_distr. cbn [rev app find Nat.add]. destruct (P n) eqn:E.
  - intros H. injection H as <-. repeat split; auto; intros; lia.
  - intros H. apply IH in H as (H1 & H2 & H3). repeat split; auto. intros i Hi. destruct (Nat.eq_dec i n) as [->|]; auto. apply H3; lia.
Qed.
Lemma find_none_all {A} (P : A -> bool) l a : find P l = None -> In a l -> P a = false.
Proof. intros. eapply find_none; eauto. Qed.

Lemma touches_ok N face q d : valid_face d face -> length q = d ->
  (touches_face N face q = true <-> forall j e, nth_error face j = Some (Some e) -> nth j q 0%Z = if (e =? 1)%Z then (N - 1)%Z else 0%Z).
Proof.
  intros [HL HF] Hq. rewrite <- HL in Hq. clear HL d. unfold touches_face. revert q Hq. induction HF as [|o face Ho HF IH]; intros [|v q] Hq; try discriminate; cbn [combine forallb].
  - split; auto. intros _ [|j] e; discriminate.
  - injection Hq as Hq. rewrite andb_true_iff, IH by auto. cbn [fst snd]. split.
    + intros [H1 H2] [|j] e E; cbn in *; auto. injection E as ->. destruct Ho as [Ho|[Ho|Ho]]; try discriminate; injection Ho as ->; cbn in *.
      * destruct (Z.eqb_spec v 0); auto. discriminate.
      * destruct (Z.eqb_spec v (N - 1)); auto. discriminate.
    + intros H. split; [|intros j e E; apply (H (S j) e E)]. destruct Ho as [ -> |[ -> | -> ]]; auto; specialize (H 0 _ eq_refl); cbn in *; subst.
      * reflexivity.
      * rewrite Z.eqb_refl. reflexivity.
Qed.

Section Faces.
Context (c : curve) (HC : valid_curve c) (face : list (option Z)) (HFc : valid_face (cv_dim c) face) (lst : bool).
Notation K := (core_of c). Notation d := (cv_dim c). Notation N := (cv_div c). Notation G := (cv_genus c). Notation m := (cv_mult c).
Notation RN := (IZR (Z.of_nat (kN (core_of c)))). Notation RG := (IZR (Z.of_nat (kG (core_of c)))).
Let HV : valid_fuzzy c := valid_curve_fuzzy c HC.
Let HF : core_full K := core_of_full c HV.
Let HK : core_ok K := full_ok K HF.

Definition ftouch (X : spec) (k : nat) : bool := touches_face (Z.of_nat N) face (kcb K X k).
Definition ffind (X : spec) : option nat := find (ftouch X) (if lst then rev (seq 0 G) else seq 0 G).
Definition fmom (X : spec) : nat := match ffind X with Some k => k | None => 0 end.
Lemma ffind_some X : wfS K X -> ffind X = Some (fmom X) /\ fmom X < G /\ ftouch X (fmom X) = true /\
  forall k, k < G -> ftouch X k = true -> if lst then k <= fmom X else fmom X <= k.
Proof.
  intros HX. unfold fmom. destruct (ffind X) as [k|] eqn:E.
  - split; auto. unfold ffind in E. destruct lst.
    + apply find_seq_last in E as (H1 & H2 & H3). repeat split; auto. intros i Hi Ht. destruct (le_lt_dec i k); auto. rewrite H3 in Ht by lia. discriminate.
    + apply find_seq_first in E as (H1 & H2 & H3). repeat split; auto; [lia|]. intros i Hi Ht. destruct (le_lt_dec k i); auto. rewrite H3 in Ht by lia. discriminate.
  - exfalso. pose proof (ok_N K HK) as HN. change (kN K) with N in HN.
    set (q := map (fun o : option Z => match o with Some e => if (e =? 1)%Z then (Z.of_nat N - 1)%Z else 0%Z | None => 0%Z end) face).
    assert (Lq : length q = d) by (unfold q; rewrite map_length; apply HFc).
    destruct (kcb_surj K HF X q HX) as (k & Hk & Ek).
    { split; auto. unfold q. rewrite Forall_map. destruct HFc as [_ HFF]. eapply Forall_impl; [|apply HFF]. cbn.
      intros o [->|[->| ->]]; cbn; change (kN K) with N; lia. }
    assert (Ht : ftouch X k = true).
    { unfold ftouch. rewrite Ek. apply (touches_ok _ _ _ d); auto. intros j e E'. unfold q.
      rewrite map_nth_lt with (d := None) by (apply nth_error_Some; congruence). rewrite (nth_error_nth _ _ None E'). auto. }
    assert (ftouch X k = false); [|congruence]. unfold ffind in E. eapply find_none_all; eauto.
    assert (In k (seq 0 G)) by (apply in_seq; change (kG K) with G in Hk; lia). destruct lst; auto. apply in_rev in H; auto.
Qed.
Lemma enum_map_seq {A} (g : nat -> A) n : enumerate (map g (seq 0 n)) = map (fun k => (k, g k)) (seq 0 n).
Proof.
  unfold enumerate. rewrite map_length, seq_length. unfold range. clear. assert (H : forall l, combine l (map g l) = map (fun k => (k, g k)) l) by (induction l; cbn; congruence).
  apply H.
Qed.
Lemma face_loop_find (g : nat -> list Z) (l : list nat) D : face_loop D face (map (fun k => (k, Some (g k))) l) = find (fun k => touches_face D face (g k)) l.
Proof. unfold face_loop. induction l as [|k l IH]; cbn; auto. destruct (touches_face D face (g k)); auto. Qed.
Lemma proto_list X : wfS K X -> exists p, proto_of c X = Some p /\ pr_div p = N /\ pr_cubes p = map (fun k => Some (kcb K X k)) (seq 0 G).
Proof.
  intros HX. destruct (nth_pat c HV _ (proj2 HX)) as (pat & Ep & Hpat). unfold proto_of. rewrite Ep. eexists. split; [reflexivity|]. split.
  - cbn. apply Hpat.
  - apply list_as_map.
    + unfold pr_mul. cbn [pr_cubes]. rewrite map_length. destruct (time_rev (sp_bm X)); rewrite ?rev_length; apply (cubes_length c HV _ _ Ep).
    + intros k Hk. apply (pat_mul_cube c HV); auto.
Qed.
Lemma face_cnum_eq X p : wfS K X -> pr_div p = N -> pr_cubes p = map (fun k => Some (kcb K X k)) (seq 0 G) ->
  get_face_cnum p face lst = Some (fmom X).
Proof.
  intros HX E1 E2. unfold get_face_cnum. rewrite E1, E2, enum_map_seq. pose proof (proj1 (ffind_some X HX)) as E. unfold ffind in E. rewrite <- E.
  destruct lst; [rewrite <- map_rev|]; rewrite face_loop_find; reflexivity.
Qed.
Notation f := fmom.
Let Hf : forall S, wfS K S -> f S < kG K.
Proof. intros S HS. apply (ffind_some S HS). Qed.
Definition findex (X : spec) (i : nat) : list (spec * nat) := map (fun n => (orb K f X n, n)) (seq 0 i).
Lemma face_run X i idx : wfS K X -> idx < i -> orb K f X i = orb K f X idx -> NoDup (map (orb K f X) (seq 0 i)) ->
  forall r n, n + r = i -> forall fuel, r < fuel ->
  face_moment_loop fuel c face lst (orb K f X n) (map Z.of_nat (prefix (odl K f X) n)) (kcubes K X (prefix (odl K f X) n)) (findex X n)
  = Some (map Z.of_nat (prefix (odl K f X) i), kcubes K X (prefix (odl K f X) i), idx).
Proof.
  intros HX Hi E ND. induction r as [|r IH]; intros n Hn fuel Hm; (destruct fuel as [|fuel]; [lia|]); cbn [face_moment_loop].
  - assert (n = i) by lia. subst n. rewrite E.
    assert (HD : dget spec_eqb (findex X i) (orb K f X idx) = Some idx).
    { apply In_dget; [apply spec_eqb_ok| |].
      - unfold findex. rewrite map_map. cbn [fst]. auto.
      - unfold findex. apply in_map_iff. exists idx. split; auto. apply in_seq. lia. }
    rewrite HD. auto.
  - assert (NDn : NoDup (map (orb K f X) (seq 0 n) ++ [orb K f X n])).
    { replace i with (S n + r) in ND by lia. rewrite seq_app, map_app, seq_S, map_app in ND. cbn [map] in ND. rewrite Nat.add_0_l in ND.
      eapply NoDup_app_left; eauto. }
    apply NoDup_snoc_inv in NDn as [NDn Hnin].
    assert (EF : map fst (findex X n) = map (orb K f X) (seq 0 n)) by (unfold findex; rewrite map_map; auto).
    rewrite (dget_absent _ spec_eqb_ok) by (rewrite EF; auto).
    assert (HW : wfS K (orb K f X n)) by (apply orb_wf; auto).
    destruct (proto_list _ HW) as (p & Ep & Ed & Ec). rewrite Ep, (face_cnum_eq _ p HW Ed Ec). rewrite Ec.
    pose proof (Hf _ HW) as Hlt. change (kG K) with G in Hlt.
    rewrite (nth_error_seq_map (fun k => Some (kcb K (orb K f X n) k))) by auto. rewrite (compose_reg c HC) by auto.
    rewrite (dset_absent _ spec_eqb_ok) by (rewrite EF; auto).
    assert (E0 : map Z.of_nat (prefix (odl K f X) n) ++ [Z.of_nat (f (orb K f X n))] = map Z.of_nat (prefix (odl K f X) (S n))).
    { rewrite prefix_S, map_app. reflexivity. }
    assert (E1 : kcubes K X (prefix (odl K f X) n) ++ [kcb K (orb K f X n) (f (orb K f X n))] = kcubes K X (prefix (odl K f X) (S n))).
    { rewrite prefix_S, kcubes_app. rewrite (orb_kst K f). reflexivity. }
    assert (E2 : findex X n ++ [(orb K f X n, length (map Z.of_nat (prefix (odl K f X) n)))] = findex X (S n)).
    { rewrite map_length, prefix_length. unfold findex. rewrite seq_S, map_app. reflexivity. }
    rewrite E0, E1, E2. change (kstep K (orb K f X n) (f (orb K f X n))) with (orb K f X (S n)). apply IH; lia.
Qed.

(** coordinates on faces *)
Lemma all_zero_value B l : Forall (fun v => v = 0%Z) l -> value B l = 0%Z.
Proof. intros H. induction l as [|a l IH] using rev_ind; auto. apply Forall_app in H as [H1 H2]. inversion H2; subst. rewrite value_snoc, IH by auto. lia. Qed.
Lemma all_max_value B l : Forall (fun v => v = (B - 1)%Z) l -> value B l = (B ^ Z.of_nat (length l) - 1)%Z.
Proof.
  intros H. induction l as [|a l IH] using rev_ind; auto. apply Forall_app in H as [H1 H2]. inversion H2; subst. rewrite value_snoc, IH by auto.
  rewrite app_length. cbn [length]. rewrite Nat2Z.inj_add, Z.pow_add_r by lia. change (B ^ Z.of_nat 1)%Z with (B ^ 1)%Z. rewrite Z.pow_1_r. ring.
Qed.
Lemma value_zero_all B l : (1 <= B)%Z -> Forall (fun v => 0 <= v)%Z l -> (value B l <= 0)%Z -> Forall (fun v => v = 0%Z) l.
Proof.
  intros HB H. induction l as [|a l IH] using rev_ind; auto. apply Forall_app in H as [H1 H2]. inversion H2; subst. rewrite value_snoc. intros HV0.
  assert (0 <= value B l)%Z. { clear - HB H1. induction l as [|b l IH] using rev_ind; [reflexivity|]. apply Forall_app in H1 as [H1 H2]. inversion H2; subst. rewrite value_snoc. specialize (IH H1). nia. }
  apply Forall_app. split; [apply IH; auto; nia|]. constructor; auto. nia.
Qed.
Definition digit_of (e : Z) : Z := if (e =? 1)%Z then (Z.of_nat N - 1)%Z else 0%Z.
Lemma face_e j e : nth_error face j = Some (Some e) -> j < d /\ (e = 0%Z \/ e = 1%Z).
Proof.
  intros E. destruct HFc as [HL HFF]. split; [rewrite <- HL; apply nth_error_Some; congruence|].
  rewrite Forall_forall in HFF. pose proof (HFF _ (nth_error_In _ _ E)) as [H|[H|H]]; try discriminate; injection H as ->; auto.
Qed.
Lemma touch_iff X k : wfS K X -> k < G -> (ftouch X k = true <-> forall j e, nth_error face j = Some (Some e) -> nth j (kcb K X k) 0%Z = digit_of e).
Proof. intros HX Hk. apply (touches_ok _ _ _ d); auto. apply (kcb_grid K HK); auto. Qed.
Lemma point_touch X cs x : wfS K X -> wfc K cs -> point_in d N (kcubes K X cs) x -> on_face face x ->
  forall j e, nth_error face j = Some (Some e) -> Forall (fun q => nth j q 0%Z = digit_of e) (kcubes K X cs).
Proof.
  intros HX Hc HP Hx j e E. destruct (face_e j e E) as [Hj He]. specialize (Hx j e E). destruct HP as [_ HP]. specialize (HP j Hj).
  rewrite Hx, kcubes_length in HP. unfold place_of in HP.
  pose proof (kcubes_grid K HK cs X HX Hc) as Hg.
  assert (Hr : Forall (fun v => 0 <= v < Z.of_nat N)%Z (map (fun q => nth j q 0%Z) (kcubes K X cs))).
  { rewrite Forall_map. eapply Forall_impl; [|apply Hg]. intros q Hq. apply (grid_nth K); auto. }
  pose proof (ok_N K HK) as HN. change (kN K) with N in HN.
  destruct He; subst e; cbn [digit_of Z.eqb Pos.eqb].
  - rewrite Rmult_0_l in HP. destruct HP as [HP _]. apply (le_IZR _ 0) in HP. apply value_zero_all in HP; [|lia|eapply Forall_impl; [|apply Hr]; cbn; lia].
    rewrite Forall_map in HP. auto.
  - rewrite Rmult_1_l, <- IZR_pow, <- plus_IZR in HP. destruct HP as [_ HP]. apply le_IZR in HP.
    set (l := map (fun q => nth j q 0%Z) (kcubes K X cs)) in *.
    assert (Ll : length l = length cs) by (unfold l; rewrite map_length, kcubes_length; auto).
    assert (H0 : Forall (fun v => v = 0%Z) (map (fun v => Z.of_nat N - 1 - v)%Z l)).
    { apply value_zero_all with (Z.of_nat N); [lia| |rewrite value_flip, Ll; lia]. rewrite Forall_map. eapply Forall_impl; [|apply Hr]. cbn. lia. }
    rewrite Forall_map in H0. unfold l in H0. rewrite Forall_map in H0. eapply Forall_impl; [|apply H0]. unfold digit_of. cbn. lia.
Qed.
Lemma touch_point X dl x : wfS K X -> (forall n, dl n < G) -> (forall n, point_in d N (kcubes K X (prefix dl n)) x) ->
  (forall n j e, nth_error face j = Some (Some e) -> Forall (fun q => nth j q 0%Z = digit_of e) (kcubes K X (prefix dl n))) -> on_face face x.
Proof.
  intros HX Hd HP HT j e E. destruct (face_e j e E) as [Hj He]. pose proof (ok_N K HK) as HN. change (kN K) with N in HN.
  apply digits_real_unique with (Z.of_nat N) (fun n => place_of j N (kcubes K X (prefix dl n))).
  - lia.
  - intros n. destruct (HP n) as [_ H]. specialize (H j Hj). rewrite kcubes_length, prefix_length in H. auto.
  - intros n. specialize (HT n j e E). unfold place_of.
    assert (Ll : length (map (fun q => nth j q 0%Z) (kcubes K X (prefix dl n))) = n) by (rewrite map_length, kcubes_length, prefix_length; auto).
    rewrite <- Forall_map with (P := fun v => v = digit_of e) in HT.
    destruct He; subst e; unfold digit_of in HT; cbn [Z.eqb Pos.eqb] in HT.
    + rewrite (all_zero_value _ _ HT). lra.
    + rewrite (all_max_value _ _ HT), Ll, minus_IZR, IZR_pow. lra.
Qed.

(** lexicographic comparison with any sequence of touching fractions *)
Lemma face_digits X dl x : wfS K X -> (forall n, dl n < G) -> (forall n, point_in d N (kcubes K X (prefix dl n)) x) -> on_face face x ->
  forall n, ftouch (kst K X (prefix dl n)) (dl n) = true.
Proof.
  intros HX Hd HP Hx n. pose proof (prefix_wfc K dl n Hd) as W. apply touch_iff; auto; [apply (kst_wf K HK); auto|]. intros j e E.
  pose proof (point_touch X (prefix dl (S n)) x HX (prefix_wfc K dl (S n) Hd) (HP (S n)) Hx j e E) as H.
  rewrite prefix_S, kcubes_app in H. apply Forall_app in H as [_ H]. cbn [kcubes] in H. inversion H; auto.
Qed.
Lemma face_lex X dl : wfS K X -> (forall n, dl n < G) -> (forall n, ftouch (kst K X (prefix dl n)) (dl n) = true) -> forall n,
  prefix dl n = prefix (odl K f X) n \/ (if lst then kT K (prefix dl n) < kT K (prefix (odl K f X) n) else kT K (prefix (odl K f X) n) < kT K (prefix dl n))%Z.
Proof.
  intros HX Hd HT. induction n as [|n IH]; [left; auto|]. pose proof (odl_lt K HK f Hf X n HX) as Ho. specialize (Hd n) as Hdn. change (kG K) with G in Ho.
  rewrite !prefix_S, !kT_snoc. change (kG K) with G. destruct IH as [IH|IH].
  - specialize (HT n). rewrite IH, (orb_kst K f) in HT. assert (HW : wfS K (orb K f X n)) by (apply orb_wf; auto).
    pose proof (proj2 (proj2 (proj2 (ffind_some _ HW))) (dl n) Hdn HT) as Hle. fold (odl K f X n) in Hle. rewrite IH.
    destruct (Nat.eq_dec (dl n) (odl K f X n)) as [-> | Hne]; [left; auto|]. right. destruct lst; lia.
  - right. destruct lst; nia.
Qed.
Lemma face_extreme X t x t0 : wfS K X -> kgraph K X t x -> on_face face x -> (forall n, time_in G (prefix (odl K f X) n) t0) ->
  if lst then (t <= t0)%R else (t0 <= t)%R.
Proof.
  intros HX (Hx & dl & Hd & H) Hface H0. change (kG K) with G in Hd.
  assert (HP : forall n, point_in d N (kcubes K X (prefix dl n)) x) by (intros n; apply (H n)).
  pose proof (face_lex X dl HX Hd (face_digits X dl x HX Hd HP Hface)) as HL.
  assert (HLe : forall n, if lst then (kT K (prefix dl n) <= kT K (prefix (odl K f X) n))%Z else (kT K (prefix (odl K f X) n) <= kT K (prefix dl n))%Z).
  { intros n. destruct (HL n) as [-> |Hlt]; destruct lst; lia. }
  pose proof (ZG_ge2 K HK) as HG2. destruct lst; apply le_by_cells with (Z.of_nat G) 1%R; auto; intros n; specialize (HLe n); apply IZR_le in HLe.
  all: destruct (H n) as [Ht _]; specialize (H0 n); apply (proj1 (time_in_kT K _ _)) in Ht; apply (proj1 (time_in_kT K _ _)) in H0;
    rewrite prefix_length in Ht, H0; change (kG K) with G in *; lra.
Qed.
Lemma odl_touch X n : wfS K X -> ftouch (kst K X (prefix (odl K f X) n)) (odl K f X n) = true.
Proof.
  intros HX. rewrite (orb_kst K f). unfold odl. apply ffind_some. apply orb_wf; auto.
Qed.
Lemma odl_on_face X x : wfS K X -> (forall n, point_in d N (kcubes K X (prefix (odl K f X) n)) x) -> on_face face x.
Proof.
  intros HX HP. assert (Ho : forall n, odl K f X n < G) by (intros; apply (odl_lt K HK f Hf X n HX)).
  apply (touch_point X (odl K f X)); auto. intros n j e E. induction n as [|n IH]; [constructor|].
  rewrite prefix_S, kcubes_app. apply Forall_app. split; auto. cbn [kcubes]. constructor; [|constructor].
  pose proof (odl_touch X n HX) as HT. rewrite (touch_iff _ _ (kst_wf K HK _ _ HX (prefix_wfc K _ n Ho)) (Ho n)) in HT. auto.
Qed.
Lemma face_moment_spec p : p < m -> exists x t,
  get_face_moment c face (Some p) lst = Some t /\ get_face_moment_point c face (Some p) lst = Some (x, t) /\
  length x = d /\ kgraph K (Sp (id_map d) p) (qR t) (map qR x) /\ on_face face (map qR x) /\
  (forall n, time_in G (prefix (odl K f (Sp (id_map d) p)) n) (qR t)).
Proof.
  intros Hp. assert (HX : wfS K (Sp (id_map d) p)) by (apply (wfS_id c); auto). set (X := Sp (id_map d) p) in *.
  destruct (orb_repeat K HK f Hf X HX) as (i & idx & H1 & H2 & H3 & H4).
  destruct (orbit_point K HK f Hf X i idx HX H2 H3) as (x & Ex & HL & Hpt).
  destruct (orbit_time K HK f Hf X i idx HX H2 H3) as (t & Et & Ht). exists x, t.
  assert (HR : face_moment_loop (spec_fuel c) c face lst X [] [] [] = Some (map Z.of_nat (prefix (odl K f X) i), kcubes K X (prefix (odl K f X) i), idx)).
  { pose proof (face_run X i idx HX H2 H3 H4 i 0 eq_refl (spec_fuel c)) as HR. apply HR. unfold spec_fuel. change (cv_mult c) with (km K). change d with (kd K). lia. }
  unfold get_face_moment, get_face_moment_point. cbn [default_pnum]. fold X. rewrite HR. unfold get_limit_point.
  change (kG K) with G in Et. rewrite Et.
  split; auto. split; [change (kN K) with N in Ex; change (kd K) with d in Ex; rewrite Ex; auto|]. split; auto. split; [|split; auto].
  - split; [rewrite map_length; auto|]. exists (odl K f X). split; [intros; apply (odl_lt K HK f Hf X n HX)|]. intros n. split; auto.
  - apply (odl_on_face X); auto.
Qed.
Lemma face_moment_ok p : p < m -> exists x t,
  get_face_moment c face (Some p) lst = Some t /\ get_face_moment_point c face (Some p) lst = Some (x, t) /\
  graph (pattern_curve c p) (qR t) (map qR x) /\ on_face face (map qR x) /\
  forall t' x', graph (pattern_curve c p) t' x' -> on_face face x' -> if lst then (t' <= qR t)%R else (qR t <= t')%R.
Proof.
  intros Hp. destruct (face_moment_spec p Hp) as (x & t & E1 & E2 & HL & Hg & Hface & Ht). exists x, t. split; auto. split; auto.
  split; [apply (graph_pattern c HC); auto|]. split; auto. intros t' x' Hg' Hf'. apply (graph_pattern c HC) in Hg'; auto.
  apply (face_extreme (Sp (id_map d) p) t' x'); auto. apply (wfS_id c); auto.
Qed.
End Faces.

Section Vertex.
Context (c : curve) (HC : valid_curve c).
Notation K := (core_of c). Notation d := (cv_dim c). Notation N := (cv_div c). Notation G := (cv_genus c). Notation m := (cv_mult c).
Let HV : valid_fuzzy c := valid_curve_fuzzy c HC.
Let HF : core_full K := core_of_full c HV.
Let HK : core_ok K := full_ok K HF.
Lemma vertex_face v : length v = d -> Forall (fun e => e = 0%Z \/ e = 1%Z) v -> valid_face d (map Some v).
Proof. intros HL H. split; [rewrite map_length; auto|]. rewrite Forall_map. eapply Forall_impl; [|apply H]. cbn. intros e [->| ->]; auto. Qed.
Lemma on_vertex v x : length x = length v -> on_face (map Some v) x <-> x = map IZR v.
Proof.
  intros HL. split.
  - intros H. apply nth_ext with 0%R 0%R; [rewrite map_length; auto|]. intros j Hj. rewrite HL in Hj. rewrite map_nth_lt with (d := 0%Z) by auto.
    apply H. rewrite nth_error_map, (nth_error_nth' v 0%Z Hj). auto.
  - intros -> j e E. rewrite nth_error_map in E. destruct (nth_error v j) as [e'|] eqn:E'; [|discriminate]. injection E as ->.
    rewrite map_nth_lt with (d := 0%Z) by (apply nth_error_Some; congruence). rewrite (nth_error_nth _ _ 0%Z E'). auto.
Qed.
Lemma vertex_moment p v : p < m -> length v = d -> Forall (fun e => e = 0%Z \/ e = 1%Z) v ->
  exists t, get_face_moment c (map Some v) (Some p) false = Some t /\ forall t', graph (pattern_curve c p) t' (map IZR v) <-> t' = qR t.
Proof.
  intros Hp HL Hv. pose proof (vertex_face v HL Hv) as HFc. assert (HX : wfS K (Sp (id_map d) p)) by (apply (wfS_id c); auto).
  destruct (face_moment_spec c HC (map Some v) HFc false p Hp) as (x & t & E1 & E2 & Hx & Hg & Hface & Ht). exists t. split; auto.
  apply on_vertex in Hface; [|rewrite map_length; congruence]. rewrite Hface in Hg.
  intros t'. split; [|intros ->; apply (graph_pattern c HC); auto].
  intros Hg'. apply (graph_pattern c HC) in Hg'; auto. destruct Hg' as (_ & dl & Hd & H). change (kG K) with G in Hd.
  assert (HP : forall n, point_in d N (kcubes K (Sp (id_map d) p) (prefix dl n)) (map IZR v)) by (intros n; apply (H n)).
  assert (HonF : on_face (map Some v) (map IZR v)) by (apply on_vertex; rewrite ?map_length; auto).
  pose proof (face_digits c HC _ HFc _ dl _ HX Hd HP HonF) as HT.
  set (f := fmom c (map Some v) false) in *. set (X := Sp (id_map d) p) in *.
  assert (Hf : forall S, wfS K S -> f S < kG K) by (intros S HS; apply (ffind_some c HC _ HFc false S HS)).
  assert (E : forall n, prefix dl n = prefix (odl K f X) n).
  { induction n as [|n IH]; auto. rewrite !prefix_S, IH. do 2 f_equal. specialize (HT n). rewrite IH in HT.
    pose proof (odl_touch c HC _ HFc false X n HX) as HT'. fold f in HT'.
    assert (W : wfS K (kst K X (prefix (odl K f X) n))).
    { apply (kst_wf K HK); auto. apply (prefix_wfc K). intros. apply (odl_lt K HK f Hf); auto. }
    apply (kcb_inj K HF (kst K X (prefix (odl K f X) n))); auto; [apply (odl_lt K HK f Hf); auto|].
    rewrite (touch_iff c HC _ HFc) in HT, HT'; auto; [|apply (odl_lt K HK f Hf); auto].
    pose proof (kcb_grid K HK _ (dl n) W (Hd n)) as [L1 _]. pose proof (kcb_grid K HK _ (odl K f X n) W (odl_lt K HK f Hf X n HX)) as [L2 _].
    apply nth_ext with 0%Z 0%Z; [congruence|]. rewrite L1. change (kd K) with d. intros j Hj.
    assert (Ej : nth_error (map Some v) j = Some (Some (nth j v 0%Z))) by (rewrite nth_error_map, (nth_error_nth' v 0%Z) by lia; auto).
    rewrite (HT j _ Ej), (HT' j _ Ej). auto. }
  pose proof (ZG_ge2 K HK) as HG2.
  apply digits_real_unique with (Z.of_nat G) (fun n => kT K (prefix dl n)); auto.
  - intros n. destruct (H n) as [H1 _]. apply (proj1 (time_in_kT K _ _)) in H1. rewrite prefix_length in H1. auto.
  - intros n. specialize (Ht n). fold f in Ht. fold X in Ht. rewrite <- E in Ht. apply (proj1 (time_in_kT K _ _)) in Ht. rewrite prefix_length in Ht. auto.
Qed.
Lemma vertex_moments_ok p : p < m -> exists vs, get_vertex_moments c (Some p) = Some vs /\
  NoDup (map fst vs) /\
  (forall v, In v (map fst vs) <-> length v = d /\ Forall (fun e => e = 0%Z \/ e = 1%Z) v) /\
  forall v t, In (v, t) vs -> forall t', graph (pattern_curve c p) t' (map IZR v) <-> t' = qR t.
Proof.
  intros Hp.
  assert (Hin : forall v, In v (lprod_rep [0%Z; 1%Z] d) <-> length v = d /\ Forall (fun e => e = 0%Z \/ e = 1%Z) v).
  { intros v. rewrite In_lprod_rep. split; intros [H1 H2]; split; auto; eapply Forall_impl; try apply H2; cbn; intros a Ha; intuition. }
  unfold get_vertex_moments.
  assert (Q : forall l, (forall v, In v l -> length v = d /\ Forall (fun e => e = 0%Z \/ e = 1%Z) v) ->
    exists vs, omap (fun v => option_map (pair v) (get_face_moment c (map Some v) (Some p) false)) l = Some vs /\ map fst vs = l /\
      forall v t, In (v, t) vs -> forall t', graph (pattern_curve c p) t' (map IZR v) <-> t' = qR t).
  { induction l as [|v l IH]; intros Hl; [exists []; repeat split; auto; contradiction|]. destruct IH as (vs & E & Em & Hvs); [intros; apply Hl; cbn; auto|].
    destruct (Hl v) as [H1 H2]; [cbn; auto|]. destruct (vertex_moment p v Hp H1 H2) as (t & Et & Ht). exists ((v, t) :: vs). cbn [omap]. rewrite Et, E. cbn.
    split; auto. split; [congruence|]. intros v' t' [Hin'|Hin']; [injection Hin' as <- <-; auto|eauto]. }
  destruct (Q (lprod_rep [0%Z; 1%Z] d)) as (vs & E & Em & Hvs); [intros v Hv; apply Hin; auto|]. exists vs. split; auto. rewrite Em. split; [|split; auto].
  apply NoDup_lprod_rep. repeat constructor; cbn; intuition discriminate.
Qed.
End Vertex.
