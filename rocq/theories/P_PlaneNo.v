(** There are no median curves of division 2 and of division 4k+3. *)
From Verif Require Import S_YE Py L_Py L_Qc L_R L_BaseMaps M_BaseMaps M_Subsets M_Paths M_Curves M_PathGen S_BaseMaps S_Subsets S_Paths S_Curves S_PathGen S_Search
  P_Points P_PathLaws P_Check P_GateSys P_PlaneCurve P_PlaneEx P_PlaneWalks.
From Coq Require Import Permutation.
Local Open Scope Z_scope.

(** From a chain over the whole square to a walk. *)
Lemma hq_inj a b : hq a = hq b -> a = b.
Proof.
  unfold hq. intros H. apply Zq_inj. apply (f_equal (fun q => (q * Zq 2)%Qc)) in H. assert (E : (half * Zq 2 = 1)%Qc) by (apply Qc_is_canon; reflexivity).
  rewrite <- !Qcmult_assoc, E, !Qcmult_1_r in H. exact H.
Qed.
Lemma hq_place_inv s t b a : (hq b + Zq s = hq a + Zq t)%Qc -> 2 * s + b = 2 * t + a.
Proof.
  intros H. apply hq_inj. pose proof (hq_place s 0 b (2 * s + b) ltac:(lia)) as H1. pose proof (hq_place t 0 a (2 * t + a) ltac:(lia)) as H2. change (Zq 0) with 0%Qc in *. rewrite Qcplus_0_r in *. congruence.
Qed.
Lemma place2q N c0 c1 x0 x1 y : place_in N [c0; c1] [x0; x1] y -> exists y0 y1, y = [y0; y1] /\ (y0 * Nq N = x0 + Zq c0)%Qc /\ (y1 * Nq N = x1 + Zq c1)%Qc.
Proof.
  intros [F _]. cbn [combine] in F. inversion F as [|? y0 ? r A F1]; subst. inversion F1 as [|? y1 ? r' B F2]; subst. inversion F2; subst. exists y0, y1. auto.
Qed.
Lemma ok_inv X Y s : ok (gate X Y) s -> exists sw fx fy : bool,
  (ax s = zf fx 0 /\ ay s = zf fy 0 /\ bx s = zf fx (if sw then Y else X) /\ by_ s = zf fy (if sw then X else Y)) \/
  (bx s = zf fx 0 /\ by_ s = zf fy 0 /\ ax s = zf fx (if sw then Y else X) /\ ay s = zf fy (if sw then X else Y)).
Proof.
  intros (g & b & [<-|[]] & W & E). destruct (wf_sq b W) as (sw & fx & fy & tr & ->). exists sw, fx, fy. cbn [time_rev sq] in E. unfold gate, st_link in E. cbn [entrance exit] in E. rewrite !sq_mul in E.
  assert (K : forall f z, qflip f (hq z) = hq (zf f z)) by (intros; rewrite hq_flip; auto).
  destruct tr; [right|left]; injection E as E1 E2 E3 E4; destruct sw; rewrite K in E1, E2, E3, E4; apply hq_inj in E1, E2, E3, E4; auto.
Qed.
Lemma nodes_steps X Y N z : Forall (fun cl : list Z * link (list Qc) => grid_cube 2 N (fst cl) /\ image_of pt_mul 2 [gate X Y] (snd cl)) z ->
  exists l, map st_node l = z /\ Forall (ok (gate X Y)) l.
Proof.
  induction 1 as [|[c k] z [[L _] (g & b & Hg & W & E)] _ (l & E1 & E2)]; [exists []; auto|]. cbn [fst snd] in *. destruct (list2 _ L) as (x & y & ->). pose proof Hg as [<-|[]].
  destruct (wf_sq b W) as (sw & fx & fy & tr & ->). cbn [time_rev sq] in E. destruct tr.
  - exists (St x y (zf fx (if sw then Y else X)) (zf fy (if sw then X else Y)) (zf fx 0) (zf fy 0) :: l). split; [|constructor; auto; apply ok_bwd]. cbn [map]. f_equal; auto. unfold st_node, st_link. cbn [sx sy ax ay bx by_]. f_equal. rewrite E. unfold gate. cbn [entrance exit].
    rewrite !sq_mul, !hq_flip. destruct sw; auto.
  - exists (St x y (zf fx 0) (zf fy 0) (zf fx (if sw then Y else X)) (zf fy (if sw then X else Y)) :: l). split; [|constructor; auto; apply ok_fwd]. cbn [map]. f_equal; auto. unfold st_node, st_link. cbn [sx sy ax ay bx by_]. f_equal. rewrite E. unfold gate. cbn [entrance exit].
    rewrite !sq_mul, !hq_flip. destruct sw; auto.
Qed.
Lemma joins_make l : forall a b c d, (forall s, hd_error l = Some s -> a = 2 * sx s + ax s /\ b = 2 * sy s + ay s) ->
  (forall i s s', nth_error l i = Some s -> nth_error l (S i) = Some s' -> 2 * sx s + bx s = 2 * sx s' + ax s' /\ 2 * sy s + by_ s = 2 * sy s' + ay s') ->
  (exists s, hd_error (rev l) = Some s /\ 2 * sx s + bx s = c /\ 2 * sy s + by_ s = d) -> joins a b l c d.
Proof.
  induction l as [|s l IH]; intros a b c d H1 H2 (t & H3 & H4); [discriminate|]. cbn [joins]. split; [apply H1; auto|]. destruct l as [|s' l].
  - cbn in H3. injection H3 as <-. cbn. tauto.
  - apply IH.
    + intros t' E. cbn in E. injection E as <-. apply (H2 0%nat s s'); auto.
    + intros i u v E1 E2. apply (H2 (S i) u v); auto.
    + exists t. split; auto. cbn [rev] in H3 |- *. destruct (rev l ++ [s']) eqn:E; [destruct (rev l); discriminate|]. cbn in H3 |- *. auto.
Qed.
Lemma chain_walk N X Y z : (2 <= N)%nat -> good_chain is_point pt_mul 2 N [gate X Y] None z -> good_ends is_point N (gate X Y) z ->
  walk (gate X Y) 0 0 (box 0 (Z.of_nat N) 0 (Z.of_nat N)) (Z.of_nat N * X) (Z.of_nat N * Y).
Proof.
  intros HN [C1 C2 C3 C4] [(c0 & l0 & E0 & M0) (c1 & l1 & E1 & M1)]. pose proof (Nq_neq0 N ltac:(lia)) as HZ.
  destruct (nodes_steps X Y N z) as (l & EL & OL).
  { rewrite Forall_forall in C3 |- *. intros [c k] H. split; [|apply C3; auto]. apply C2. apply in_map_iff. exists (c, k). auto. }
  subst z. exists l. split; auto.
  assert (EF : map fst (map st_node l) = map (fun c => [fst c; snd c]) (map cell l)) by (rewrite !map_map; apply map_ext; reflexivity). rewrite EF in *.
  assert (HM : forall s u v U V, @meets (list Qc) is_point N [sx s; sy s] [hq u; hq v] [hq U; hq V] -> 2 * sx s + u = Z.of_nat N * U /\ 2 * sy s + v = Z.of_nat N * V).
  { intros s u v U V (x & y & X1 & P & X2). unfold is_point in X1, X2. subst x y. destruct (place2q _ _ _ _ _ _ P) as (y0 & y1 & EY & Q1 & Q2). injection EY as <- <-.
    rewrite hq_scale in Q1, Q2 by lia. fold (hq (Z.of_nat N * U)) in Q1. fold (hq (Z.of_nat N * V)) in Q2.
    split; [pose proof (hq_place_inv (sx s) 0 u (Z.of_nat N * U)) as K|pose proof (hq_place_inv (sy s) 0 v (Z.of_nat N * V)) as K]; change (Zq 0) with 0%Qc in K; rewrite Qcplus_0_r in K; rewrite K; auto; lia. }
  split; [apply joins_make|split].
  - intros s Hs. destruct l as [|s' l']; [discriminate|]. injection Hs as ->. cbn [map hd_error] in E0. unfold st_node in E0. injection E0 as <- <-. unfold st_link, gate in M0. cbn [entrance exit] in M0. destruct (HM s _ _ _ _ M0). lia.
  - intros i s s' H1 H2. destruct (C4 i [sx s; sy s] (st_link s) [sx s'; sy s'] (st_link s')) as ((x & x' & y & X1 & X2 & P1 & P2) & _); [apply map_nth_error with (f := st_node); auto|apply map_nth_error with (f := st_node); auto|].
    unfold is_point in X1, X2. subst x x'. unfold st_link in P1, P2. cbn [entrance exit] in P1, P2. destruct (place2q _ _ _ _ _ _ P1) as (y0 & y1 & -> & Q1 & Q2). destruct (place2q _ _ _ _ _ _ P2) as (u0 & u1 & EY & Q3 & Q4). injection EY as <- <-.
    split; apply hq_place_inv; congruence.
  - rewrite <- map_rev in E1. destruct (rev l) as [|s r] eqn:ER; [discriminate|]. exists s. split; auto. cbn [map hd_error] in E1. unfold st_node in E1. injection E1 as <- <-. unfold st_link, gate in M1. cbn [entrance exit] in M1. apply (HM s _ _ _ _ M1).
  - apply (NoDup_map_inv (fun c => [fst c; snd c])). auto.
  - intros x y. specialize (C2 [x; y]). rewrite in_map_iff in C2. split.
    + intros [B1 B2]. destruct (proj1 C2) as ([x' y'] & E & H); [split; [reflexivity|repeat constructor; lia]|]. cbn in E. injection E as -> ->. auto.
    + intros H. destruct (proj2 C2) as [_ F]; [exists (x, y); auto|]. inversion F as [|? ? F1 F2]; subst. inversion F2; subst. split; lia.
Qed.

Local Notation M := (gate 2 1).
(** Colours of the board. *)
Definition col (c : Z * Z) : Z := if Z.even (fst c + snd c) then 1 else -1.
Definition csum (l : list (Z * Z)) : Z := fold_right (fun c s => col c + s) 0 l.
Lemma csum_app l l' : csum (l ++ l') = csum l + csum l'.
Proof. induction l as [|c l IH]; cbn [csum fold_right app] in *; [auto|]. fold (csum (l ++ l')). fold (csum l). rewrite IH. lia. Qed.
Lemma csum_perm l l' : Permutation l l' -> csum l = csum l'.
Proof. induction 1; cbn [csum fold_right] in *; unfold csum in *; lia. Qed.
Fixpoint upto (n : nat) : list Z := match n with O => [] | S n => Z.of_nat n :: upto n end.
Lemma in_upto n x : In x (upto n) <-> 0 <= x < Z.of_nat n.
Proof. induction n as [|n IH]; cbn [upto In]; [lia|]. rewrite IH. lia. Qed.
Lemma nodup_upto n : NoDup (upto n).
Proof. induction n as [|n IH]; cbn [upto]; constructor; auto. rewrite in_upto. lia. Qed.
Lemma csum_row x k : csum (map (fun y => (x, y)) (upto (2 * k + 1))) = col (x, 0).
Proof.
  induction k as [|k IH]; [cbn; lia|]. replace (2 * S k + 1)%nat with (S (S (2 * k + 1))) by lia. cbn [upto map csum fold_right]. fold (csum (map (fun y => (x, y)) (upto (2 * k + 1)))). rewrite IH.
  replace (Z.of_nat (S (2 * k + 1))) with (Z.of_nat (2 * k + 1) + 1) by lia. unfold col at 1 2. cbn [fst snd]. rewrite (Z.add_assoc x), (Z.even_add _ 1). change (Z.even 1) with false; destruct (Z.even (x + Z.of_nat (2 * k + 1))); cbn [Bool.eqb]; lia.
Qed.
Lemma csum_board k n : csum (list_prod (upto n) (upto (2 * k + 1))) = csum (map (fun x => (x, 0)) (upto n)).
Proof. induction n as [|n IH]; auto. cbn [upto list_prod]. rewrite csum_app, csum_row, IH. reflexivity. Qed.
Lemma csum_col k : csum (map (fun x => (x, 0)) (upto (2 * k + 1))) = 1.
Proof.
  induction k as [|k IH]; [reflexivity|]. replace (2 * S k + 1)%nat with (S (S (2 * k + 1))) by lia. cbn [upto map csum fold_right]. fold (csum (map (fun x => (x, 0)) (upto (2 * k + 1)))). rewrite IH.
  replace (Z.of_nat (S (2 * k + 1))) with (Z.of_nat (2 * k + 1) + 1) by lia. unfold col. cbn [fst snd]. rewrite !Z.add_0_r, (Z.even_add _ 1). destruct (Z.even (Z.of_nat (2 * k + 1))); cbn; lia.
Qed.
Lemma nodup_prod {A B} (l : list A) (m : list B) : NoDup l -> NoDup m -> NoDup (list_prod l m).
Proof.
  intros Hl Hm. induction Hl as [|x l Hx Hl IH]; cbn [list_prod]; [constructor|]. apply NoDup_app_intro; auto.
  - apply FinFun.Injective_map_NoDup; auto. intros a b E. congruence.
  - intros [u v] H1 H2. apply in_map_iff in H1. destruct H1 as (w & E & _). injection E as -> ->. apply in_prod_iff in H2. tauto.
Qed.
Lemma cells_perm N l : NoDup l -> (forall x y, box 0 (Z.of_nat N) 0 (Z.of_nat N) x y <-> In (x, y) l) -> Permutation l (list_prod (upto N) (upto N)).
Proof.
  intros ND H. apply NoDup_Permutation; auto; [apply nodup_prod; apply nodup_upto|]. intros [x y]. rewrite in_prod_iff, !in_upto, <- H. unfold box. tauto.
Qed.

(** A median walk that starts at a corner meets corners and midpoints by turns. *)
Lemma median_sum n : forall l a b c d, (length l <= n)%nat -> Forall (ok M) l -> joins a b l c d -> NoDup (map cell l) -> Z.even a = true -> Z.even b = true ->
  (Z.even c = true /\ Z.even d = true /\ csum (map cell l) = 0) \/ (exists l0 s, l = l0 ++ [s] /\ csum (map cell l) = col (cell s) /\ Z.even c = negb (Z.even d)).
Proof.
  assert (EV : forall z, Z.even z = true <-> exists k, z = 2 * k) by (intros; apply Z.even_spec).
  assert (OD : forall z, Z.even z = false <-> exists k, z = 2 * k + 1) by (intros; rewrite <- Z.negb_odd, negb_false_iff; apply Z.odd_spec).
  assert (EM : forall u v, Z.even (2 * u + v) = Z.even v) by (intros; rewrite Z.even_add, Z.even_mul; cbn; destruct (Z.even v); auto).
  induction n as [|n IH]; intros l a b c d Hl HO HJ ND Ea Eb.
  - destruct l; [|cbn in Hl; lia]. cbn in HJ. destruct HJ as [-> ->]. left. auto.
  - destruct l as [|s [|s' l]].
    + cbn in HJ. destruct HJ as [-> ->]. left. auto.
    + right. exists [], s. split; auto. split; [cbn; lia|]. cbn [joins] in HJ. destruct HJ as [[J1 J2] [<- <-]]. subst a b. rewrite EM in Ea, Eb. inversion HO as [|? ? O1 _]; subst.
      destruct (ok_inv 2 1 s O1) as (sw & fx & fy & [(K1 & K2 & K3 & K4)|(K1 & K2 & K3 & K4)]); rewrite !EM.
      * rewrite K3, K4. destruct sw, fx, fy; reflexivity.
      * exfalso. rewrite K3 in Ea. rewrite K4 in Eb. destruct sw, fx, fy; cbn in Ea, Eb; discriminate.
    + inversion HO as [|? ? O1 HO1]; subst. inversion HO1 as [|? ? O2 HO2]; subst. destruct HJ as [[J1 J2] [[J3 J4] HJ]]. subst a b. rewrite EM in Ea, Eb.
      assert (T1 : exists sw fx fy : bool, bx s = zf fx (if sw then 1 else 2) /\ by_ s = zf fy (if sw then 2 else 1)).
      { destruct (ok_inv 2 1 s O1) as (sw & fx & fy & [(K1 & K2 & K3 & K4)|(K1 & K2 & K3 & K4)]); [exists sw, fx, fy; auto|].
        exfalso. rewrite K3 in Ea. rewrite K4 in Eb. destruct sw, fx, fy; cbn in Ea, Eb; discriminate. }
      destruct T1 as (sw & fx & fy & T1 & T2).
      assert (T3 : exists sw' fx' fy' : bool, ax s' = zf fx' (if sw' then 1 else 2) /\ ay s' = zf fy' (if sw' then 2 else 1) /\ Z.even (bx s') = true /\ Z.even (by_ s') = true).
      { destruct (ok_inv 2 1 s' O2) as (sw' & fx' & fy' & [(K1 & K2 & K3 & K4)|(K1 & K2 & K3 & K4)]); [|exists sw', fx', fy'; rewrite K1, K2; destruct fx', fy'; auto].
        exfalso. rewrite K1 in J3. rewrite K2 in J4. rewrite T1 in J3. rewrite T2 in J4. destruct sw, fx, fy, fx', fy'; unfold zf in J3, J4; lia. }
      destruct T3 as (sw' & fx' & fy' & T3 & T4 & T5 & T6). cbn [map] in ND. inversion ND as [|? ? N1 ND1]; subst. inversion ND1 as [|? ? N2 ND2]; subst.
      assert (NC : sx s <> sx s' \/ sy s <> sy s'). { destruct (Z.eq_dec (sx s) (sx s')) as [E1|]; auto. destruct (Z.eq_dec (sy s) (sy s')) as [E2|]; auto. exfalso. apply N1. left. unfold cell. congruence. }
      assert (CS : col (cell s) + col (cell s') = 0).
      { assert (D : sx s + sy s = sx s' + sy s' + 1 \/ sx s + sy s + 1 = sx s' + sy s').
        { rewrite T1, T3 in J3. rewrite T2, T4 in J4. destruct sw, sw', fx, fy, fx', fy'; unfold zf in J3, J4; lia. }
        unfold col, cell. cbn [fst snd]. destruct D as [D|D]; [rewrite D, Z.even_add; destruct (Z.even (sx s' + sy s')); reflexivity|rewrite <- D, (Z.even_add _ 1); destruct (Z.even (sx s + sy s)); reflexivity]. }
      destruct (IH l _ _ c d ltac:(cbn in Hl; lia) HO2 HJ ND2) as [(A1 & A2 & A3)|(l0 & t & A1 & A2 & A3)]; [rewrite EM; auto|rewrite EM; auto|left|right].
      * split; auto. split; auto. cbn [map csum fold_right]. fold (csum (map cell l)). lia.
      * exists (s :: s' :: l0), t. split; [rewrite A1; reflexivity|]. split; auto. cbn [map csum fold_right]. fold (csum (map cell l)). lia.
Qed.
Lemma median_odd N : (2 <= N)%nat -> Nat.odd N = true -> walk M 0 0 (box 0 (Z.of_nat N) 0 (Z.of_nat N)) (Z.of_nat N * 2) (Z.of_nat N * 1) -> (N mod 4 = 1)%nat.
Proof.
  intros HN HO (l & A1 & A2 & A3 & A4). apply Nat.odd_spec in HO. destruct HO as (h & EN). destruct (median_sum (length l) l 0 0 _ _ (le_n _) A1 A2 A3 eq_refl eq_refl) as [(B1 & B2 & _)|(l0 & s & B1 & B2 & _)].
  - exfalso. rewrite Z.mul_1_r in B2. apply Z.even_spec in B2. destruct B2 as (k & B2). lia.
  - assert (CT : csum (map cell l) = 1). { rewrite (csum_perm _ _ (cells_perm N _ A3 A4)). subst N. rewrite csum_board. apply csum_col. }
    rewrite B2 in CT. pose proof A2 as J. rewrite B1 in J. apply joins_last in J. destruct J as [J1 J2].
    assert (IB : box 0 (Z.of_nat N) 0 (Z.of_nat N) (sx s) (sy s)). { apply A4. rewrite B1, map_app, in_app_iff. right. left. reflexivity. }
    assert (OK : ok M s) by (rewrite B1 in A1; apply Forall_app in A1; destruct A1 as [_ A1]; inversion A1; auto). unfold box in IB.
    assert (K : sx s = Z.of_nat N - 1 /\ sy s = Z.of_nat h).
    { destruct (ok_inv 2 1 s OK) as (sw & fx & fy & [(K1 & K2 & K3 & K4)|(K1 & K2 & K3 & K4)]); destruct sw, fx, fy; unfold zf in *; lia. }
    destruct K as [K1 K2]. unfold col, cell in CT. cbn [fst snd] in CT. rewrite K1, K2 in CT. destruct (Z.even (Z.of_nat N - 1 + Z.of_nat h)) eqn:E; [|discriminate]. apply Z.even_spec in E. destruct E as (k & E).
    assert (EH : h = (2 * (h / 2))%nat) by (pose proof (Nat.div_mod h 2 ltac:(lia)); pose proof (Nat.mod_upper_bound h 2 ltac:(lia)); lia).
    replace N with (1 + (h / 2) * 4)%nat by lia. rewrite Nat.mod_add by lia. reflexivity.
Qed.
Ltac st s O := destruct (ok_inv 2 1 s O) as ([] & [] & [] & [(? & ? & ? & ?)|(? & ? & ? & ?)]); unfold zf in *; try lia.
Definition apart (s t : step) : Prop := sx s <> sx t \/ sy s <> sy t.
Lemma median_two : ~ walk M 0 0 (box 0 2 0 2) 4 2.
Proof.
  intros (l & A1 & A2 & A3 & A4). pose proof (Permutation_length (cells_perm 2 _ A3 A4)) as HL. rewrite map_length in HL. cbn in HL.
  destruct l as [|s1 [|s2 [|s3 [|s4 [|]]]]]; try discriminate HL. cbn [joins] in A2. destruct A2 as ((P1 & P2) & (P3 & P4) & (P5 & P6) & (P7 & P8) & P9 & P10).
  inversion A1 as [|? ? O1 F1]; subst. inversion F1 as [|? ? O2 F2]; subst. inversion F2 as [|? ? O3 F3]; subst. inversion F3 as [|? ? O4 _]; subst.
  assert (IB : forall s, In s [s1; s2; s3; s4] -> (0 <= sx s < 2) /\ (0 <= sy s < 2)). { intros s Hs. apply (A4 (sx s) (sy s)). apply (in_map cell) in Hs. exact Hs. }
  pose proof (IB s1 ltac:(cbn; auto)) as [B1 B2]. pose proof (IB s2 ltac:(cbn; auto)) as [B3 B4]. pose proof (IB s3 ltac:(cbn; auto)) as [B5 B6]. pose proof (IB s4 ltac:(cbn; auto)) as [B7 B8]. clear IB A4 A1 F1 F2 F3 HL.
  assert (NE : forall s t r, NoDup (map cell (s :: r)) -> In t r -> apart s t).
  { intros s t r H Ht. inversion H as [|? ? H1 _]; subst. unfold apart. destruct (Z.eq_dec (sx s) (sx t)) as [E1|]; auto. destruct (Z.eq_dec (sy s) (sy t)) as [E2|]; auto. exfalso. apply H1. apply in_map_iff. exists t. unfold cell. split; auto. congruence. }
  pose proof (NE _ s2 _ A3 ltac:(cbn; auto)) as D12. pose proof (NE _ s3 _ A3 ltac:(cbn; auto)) as D13. pose proof (NE _ s4 _ A3 ltac:(cbn; auto)) as D14. apply NoDup_cons_iff in A3. destruct A3 as [_ A3]. change (NoDup (map cell [s2; s3; s4])) in A3.
  pose proof (NE _ s3 _ A3 ltac:(cbn; auto)) as D23. pose proof (NE _ s4 _ A3 ltac:(cbn; auto)) as D24. apply NoDup_cons_iff in A3. destruct A3 as [_ A3]. change (NoDup (map cell [s3; s4])) in A3. pose proof (NE _ s4 _ A3 ltac:(cbn; auto)) as D34. clear NE A3.
  assert (E1 : sx s1 = 0 /\ sy s1 = 0). { clear P3 P4 P5 P6 P7 P8 P9 P10 B3 B4 B5 B6 B7 B8. st s1 O1. }
  destruct E1 as [E1 E2]. unfold apart in D12, D13, D14. rewrite E1, E2 in *.
  assert (T1 : (bx s1 = 2 /\ by_ s1 = 1) \/ (bx s1 = 1 /\ by_ s1 = 2)). { clear P3 P4 P5 P6 P7 P8 P9 P10 B3 B4 B5 B6 B7 B8 D12 D13 D14. st s1 O1. }
  assert (T2 : (sx s2 = 1 /\ sy s2 = 0 /\ bx s2 = 2) \/ (sx s2 = 0 /\ sy s2 = 1 /\ by_ s2 = 2)). { clear P5 P6 P7 P8 P9 P10 B5 B6 B7 B8 D13 D14 O1. st s2 O2. }
  assert (T2' : bx s2 = 0 \/ bx s2 = 2). { clear P5 P6 P7 P8 P9 P10 B5 B6 B7 B8 D13 D14 O1. st s2 O2. }
  assert (T2'' : by_ s2 = 0 \/ by_ s2 = 2). { clear P5 P6 P7 P8 P9 P10 B5 B6 B7 B8 D13 D14 O1. st s2 O2. }
  clear P1 P2 P3 P4 O1 O2 D12 B1 B2 B3 B4 E1 E2. unfold apart in *. destruct T2 as [(E1 & E2 & E3)|(E1 & E2 & E3)]; rewrite E1, E2, E3 in *; clear E1 E2 E3 T1.
  - assert (E : sx s3 = 1 /\ sy s3 = 1) by (clear P7 P8 P9 P10 D14 D24 D34 B7 B8; st s3 O3). destruct E as [E1 E2]. rewrite E1, E2 in *. assert (E : sx s4 = 0 /\ sy s4 = 1) by (clear - D14 D24 D34 B7 B8; lia). destruct E as [E3 E4]. rewrite E3, E4 in *. clear - P9 O4. st s4 O4.
  - assert (E : sx s3 = 1 /\ sy s3 = 1) by (clear P7 P8 P9 P10 D14 D24 D34 B7 B8; st s3 O3). destruct E as [E1 E2]. rewrite E1, E2 in *. assert (E : sx s4 = 1 /\ sy s4 = 0) by (clear - D14 D24 D34 B7 B8; lia). destruct E as [E3 E4]. rewrite E3, E4 in *.
    assert (Q : by_ s3 = 0) by (clear - P7 P8 O3 O4 P5 P6 T2' T2''; st s4 O4; st s3 O3). clear - P8 P10 O4 Q. st s4 O4.
Qed.

(** The gates of S_YE are [gate] of small numbers. *)
Lemma side_gate : side_gates = gate 2 0. Proof. unfold side_gates, gate. f_equal; repeat (f_equal; try (apply Qc_is_canon; reflexivity)). Qed.
Lemma diag_gate : diag_gates = gate 2 2. Proof. unfold diag_gates, gate. f_equal; repeat (f_equal; try (apply Qc_is_canon; reflexivity)). Qed.
Lemma median_gate : median_gates = gate 2 1. Proof. unfold median_gates, gate. f_equal; repeat (f_equal; try (apply Qc_is_canon; reflexivity)). Qed.
Lemma gate0 X Y : gate X Y = Lk [0; 0]%Qc [hq X; hq Y].
Proof. unfold gate. f_equal; repeat (f_equal; try (apply Qc_is_canon; reflexivity)). Qed.
Lemma chain_median N z : (2 <= N)%nat -> good_chain is_point pt_mul 2 N [median_gates] None z -> good_ends is_point N median_gates z -> (4 <= N /\ N mod 4 <> 3)%nat.
Proof.
  intros HN HZ HE. rewrite median_gate in HZ, HE. pose proof (chain_walk N 2 1 z HN HZ HE) as W. destruct (Nat.odd N) eqn:O.
  - pose proof (median_odd N HN O W) as E. split; [|lia]. destruct N as [|[|[|[|N]]]]; try lia; discriminate E.
  - rewrite <- Nat.negb_even in O. apply negb_false_iff in O. apply Nat.even_spec in O. destruct O as (k & O). assert (K : k <> 1%nat) by (intros ->; subst N; apply median_two; exact W). split; [lia|].
    intros E. pose proof (Nat.div_mod N 4 ltac:(lia)). lia.
Qed.
Lemma curve_median N c l b : (2 <= N)%nat -> search_curve 2 N 1 None c -> curve_gates_are c [l] -> wf_bm 2 b -> pl_mul b l = median_gates -> (4 <= N /\ N mod 4 <> 3)%nat.
Proof.
  intros HN [HC D1 D2 D3 HK _] [_ GA] W E. pose proof (P_GateSys.curve_sys c HC HK 0%nat ltac:(lia)) as (_ & V & Z1 & Z2). pose proof (P_Check.klink_is c HC 0%nat ltac:(lia)) as HL. rewrite D1, D2, D3 in *. change (map (P_Check.klink c) (range 1)) with [P_Check.klink c 0%nat] in Z1.
  assert (EL : P_Check.klink c 0%nat = l). { destruct (GA 0%nat l eq_refl) as [X1 X2]. destruct HL as [Y1 Y2]. destruct (P_Check.klink c 0%nat), l; simpl in X1, X2, Y1, Y2; congruence. }
  rewrite EL in *. destruct (moved N HN l V _ Z1 Z2 b W) as (_ & z' & Z3 & Z4). rewrite E in Z3, Z4. exact (chain_median N z' HN Z3 Z4).
Qed.

(** Curves of the three kinds. *)
Lemma gate_curve N X Y u v u' v' : (2 <= N)%nat -> 0 <= X <= 2 -> 0 <= Y <= 2 -> nwalk (gate X Y) 0 0 u v (box 0 (Z.of_nat N) 0 (Z.of_nat N)) (Z.of_nat N * X) (Z.of_nat N * Y) u' v' ->
  exists c, search_curve 2 N 1 (Some 1) c /\ curve_gates_are c [gate X Y].
Proof. intros HN HX HY W. rewrite gate0 in *. apply (walk_curve N X Y u v u' v'); auto. Qed.
Lemma side_curve N : (2 <= N)%nat -> exists c, search_curve 2 N 1 (Some 1) c /\ curve_gates_are c [side_gates].
Proof. intros HN. rewrite side_gate. eapply gate_curve; try lia. apply side_walk. lia. Qed.
Lemma diag_curve N : (2 <= N)%nat -> Nat.odd N = true -> exists c, search_curve 2 N 1 (Some 1) c /\ curve_gates_are c [diag_gates].
Proof.
  intros HN O. apply Nat.odd_spec in O. destruct O as (k & O). rewrite diag_gate. eapply gate_curve; try lia. replace (Z.of_nat N) with (2 * Z.of_nat k + 1) by lia. apply diag_walk. lia.
Qed.
Lemma median_curve N : (4 <= N)%nat -> (N mod 4 <> 3)%nat -> exists c, search_curve 2 N 1 (Some 1) c /\ curve_gates_are c [median_gates].
Proof.
  intros HN H3. rewrite median_gate. pose proof (Nat.div_mod N 4 ltac:(lia)) as E. pose proof (Nat.mod_upper_bound N 4 ltac:(lia)) as B. set (k := (N / 4)%nat) in *.
  assert (N mod 4 = 0 \/ N mod 4 = 1 \/ N mod 4 = 2)%nat as [R|[R|R]] by lia; rewrite R in E; clear R H3 B; rewrite E.
  - eapply gate_curve; try lia. replace (Z.of_nat (4 * k + 0)) with (4 * Z.of_nat k) by lia. apply median_4k. lia.
  - eapply gate_curve; try lia. replace (Z.of_nat (4 * k + 1)) with (4 * Z.of_nat k + 1) by lia. apply median_4k1. lia.
  - eapply gate_curve; try lia. replace (Z.of_nat (4 * k + 2)) with (4 * Z.of_nat k + 2) by lia. apply median_4k2. lia.
Qed.
