(** estimate_dilation_sequence (C40). *)
From Verif Require Import Py L_Py L_Qc L_R M_BaseMaps M_Subsets M_Paths M_Curves M_Utils M_Heap M_Sat M_Dilation S_BaseMaps S_Subsets S_Utils S_Heap S_Paths S_Curves S_Fuzzy S_Sat S_Ratio S_Dilation
  P_Heap P_FuzzyExample P_FuzzyEst.
From Coq Require Import Reals Lra Permutation.
Local Open Scope nat_scope.

Lemma dil_le_ge rR x m M : dilation_ge rR x m -> dilation_le rR x M -> (m <= M)%R.
Proof. intros (p & s & t & u & w & Hp & H1 & H2 & Hst & H) HL. specialize (HL p s t u w Hp H1 H2 Hst). lra. Qed.
Lemma min_le_ge rR c m M : min_dilation_ge rR c m -> min_dilation_le rR c M -> (m <= M)%R.
Proof. intros HG (x & HX & HL). eapply dil_le_ge; eauto. Qed.
Lemma min_ge_mono rR c m m' : (m' <= m)%R -> min_dilation_ge rR c m -> min_dilation_ge rR c m'.
Proof. intros Hm H x HX. destruct (H x HX) as (p & s & t & u & w & Hp & H1 & H2 & Hst & HL). exists p, s, t, u, w. repeat (split; auto). lra. Qed.
Section Cleanup.
Context (hs : heap_impl citem) (is_heap : list (node citem) -> Prop) (HH : IH_ok hs is_heap).
Definition node_good (n : node citem) : Prop := exists l, ci_lo (nd_item n) = Some l /\ nd_pri n = (- l)%Qc.
Lemma cleanup_ok up : forall fuel h, is_heap h -> length h <= fuel -> Forall node_good h ->
  exists h' dr, seq_cleanup fuel hs up h = Some h' /\ is_heap h' /\ Permutation h (dr ++ h') /\
    Forall (fun n => exists l, ci_lo (nd_item n) = Some l /\ (up < l)%Qc) dr /\ Forall (fun n => exists l, ci_lo (nd_item n) = Some l /\ (l <= up)%Qc) h'.
Proof.
  induction fuel as [|fuel IH]; intros h Hh Hl HF; cbn [seq_cleanup].
  - destruct h; [|cbn in Hl; lia]. cbn. exists [], []. repeat split; auto.
  - destruct h as [|n0 h0]; [exists [], []; cbn; repeat split; auto|]. set (h := n0 :: h0) in *. cbn [hd_error h]. destruct HH as (_ & _ & _ & HPop). destruct (HPop h Hh) as (n & h1 & E1 & Hh1 & HPm & Ehd & Hmin); [discriminate|].
    cbn in Ehd. injection Ehd as ->. assert (Hn : node_good n) by (rewrite Forall_forall in HF; apply HF; left; auto). destruct Hn as (l & El & Ep). rewrite El.
    destruct (qltb up l) eqn:EQ.
    + rewrite E1. destruct (IH h1 Hh1) as (h' & dr & F1 & F2 & F3 & F4 & F5).
      * apply Permutation_length in HPm. cbn in HPm, Hl. lia.
      * eapply Permutation_Forall in HF; [|exact HPm]. inversion HF; auto.
      * exists h', (n :: dr). split; auto. split; auto. split; [rewrite HPm; cbn; constructor; auto|]. split; auto. constructor; auto. exists l. split; auto. apply qltb_ok; auto.
    + exists h, []. split; auto. split; auto. split; auto. split; auto. apply Forall_forall. intros x Hx. rewrite Forall_forall in HF. destruct (HF x Hx) as (lx & Elx & Epx). exists lx. split; auto.
      specialize (Hmin x Hx). unfold node_ltb in Hmin. apply orb_false_iff in Hmin as [Hmin _]. apply qltb_false in Hmin. apply qltb_false in EQ. rewrite Ep, Epx in Hmin. apply Qcopp_le_compat in Hmin. rewrite !Qcopp_involutive in Hmin. eapply Qcle_trans; eauto.
Qed.
End Cleanup.
Section Seq.
Context (ratio : ratio_func) (rR : list R -> R -> R) (hq : heap_impl bpair) (HQ : heapq_ok hq) (hs : heap_impl citem) (is_heap : list (node citem) -> Prop) (HH : IH_ok hs is_heap).
Context (d : nat) (RO : ratio_ok d (ratio d) rR) (solver : sat_solver) (HS : sat_ok solver) (sched : Z -> Z) (max_iter : option Z).
Context (curves : list curve) (HCs : Forall (fuzzy_input d) curves) (ub : option Qc).
Definition citem_ok (it : citem) : Prop := nth_error curves (ci_idx it) = Some (ci_curve it) /\ correct_start rR (ci_curve it) (ci_lo it) (ci_up it) (ci_example it) /\ (ci_example it = None <-> ci_up it = None).
Notation idx := (map ci_idx).
Notation hidx h := (map ci_idx (map nd_item h)).
Definition dropped (cu : option Qc) (c : curve) : Prop := exists u, cu = Some u /\ min_dilation_above rR c u.
Definition witness (l : list nat) (u : Qc) : Prop := exists i c, nth_error curves i = Some c /\ In i l /\ min_dilation_le rR c (qR u).
Definition up_ok (l : list nat) (cu : option Qc) : Prop := match cu with None => ub = None | Some u => ub = Some u \/ witness l u end.
Definition node_in (cu : option Qc) (n : node citem) : Prop := node_good n /\ citem_ok (nd_item n) /\ ci_up (nd_item n) <> None /\ exists u l, cu = Some u /\ ci_lo (nd_item n) = Some l /\ (l <= u)%Qc.
Definition step_inv (rem : list citem) (cu : option Qc) (h : list (node citem)) : Prop :=
  is_heap h /\ Forall citem_ok rem /\ Forall (node_in cu) h /\ NoDup (idx rem ++ hidx h) /\
  (forall i c, nth_error curves i = Some c -> In i (idx rem ++ hidx h) \/ dropped cu c) /\ up_ok (idx rem ++ hidx h) cu.
Lemma step_ok fuel rti it rem cu h call st' : step_inv (it :: rem) cu h -> seq_step ratio hq hs fuel solver sched max_iter rti (cu, h, call) it = Some st' ->
  exists cu' h' call', st' = (cu', h', call') /\ step_inv rem cu' h' /\ cu' <> None.
Proof.
  intros (I1 & I2 & I3 & I4 & I5 & I6) E. unfold seq_step in E. inversion I2 as [|? ? (C1 & C2 & C3) I2']; subst.
  destruct (estimate_dilation_fuzzy _ _ _ _ _ _ _ _ _ _ _ _ _) as [[[[ex lo] up] call']|] eqn:EE; [|discriminate].
  assert (exists N group ntr paths, valid_group d group /\ valid_paths d N paths /\ built group ntr paths (ci_curve it)) as (N & group & ntr & paths & HG & HP & HB).
  { rewrite Forall_forall in HCs. apply HCs. apply nth_error_In with (ci_idx it). auto. }
  destruct (fuzzy_spec hq HQ ratio rR d N group ntr paths _ _ _ _ _ _ _ _ _ _ _ _ _ _ _ HG HP HB RO HS C2 EE) as (F1 & F2 & F3 & _).
  set (u := match cu with None => up | Some u => if qltb up u then up else u end) in E.
  assert (Hu : (u <= up)%Qc /\ match cu with Some u0 => (u <= u0)%Qc | None => True end /\ (u = up \/ cu = Some u)).
  { unfold u. destruct cu as [u0|]; [|split; [apply Qcle_refl|auto]]. destruct (qltb up u0) eqn:EQ.
    - apply qltb_ok in EQ. split; [apply Qcle_refl|]. split; auto. apply Qclt_le_weak; auto.
    - apply qltb_false in EQ. split; auto. split; auto. apply Qcle_refl. }
  destruct Hu as (U1 & U2 & U3).
  set (nit := CI (ci_idx it) (Some lo) (Some up) (ci_curve it) ex) in E. set (nn := Nd (- lo)%Qc (ci_idx it) nit) in E.
  set (h1 := if qleb lo u then hq_push hs h nn else h) in E.
  assert (OK : citem_ok nit).
  { split; [exact C1|]. split.
    - split; [|split]; cbn.
      + intros l X. injection X as <-. exact F1.
      + intros w X. injection X as <-. exact F2.
      + intros w r X Y. injection X as <-. rewrite Y in F3. exact F3.
    - cbn. split; [|discriminate]. intros ->. destruct F3 as [X Y]. exfalso. apply X, C3, Y. }
  assert (H1 : is_heap h1 /\ exists added, Permutation h1 (added ++ h) /\ ((added = [nn] /\ (lo <= u)%Qc) \/ (added = [] /\ (u < lo)%Qc))).
  { unfold h1. destruct (qleb lo u) eqn:EQ.
    - destruct HH as (_ & HPush & _). destruct (HPush h nn I1) as [A B]. split; auto. exists [nn]. split; auto. left. split; auto. apply qleb_ok; auto.
    - split; auto. exists []. split; auto. right. split; auto. apply qleb_false; auto. }
  destruct H1 as (H1 & added & HA & HAD).
  assert (GD : Forall node_good h1).
  { eapply Permutation_Forall; [symmetry; exact HA|]. apply Forall_app. split; [|eapply Forall_impl; [|exact I3]; intros n (X & _); exact X]. destruct HAD as [[-> _]|[-> _]]; auto. constructor; auto. exists lo. auto. }
  destruct (cleanup_ok hs is_heap HH u (length h1) h1 H1 (le_n _) GD) as (h' & dr & E1 & H' & HPm & HDr & HK). rewrite E1 in E. cbn [option_map] in E. injection E as <-.
  exists (Some u), h', call'. split; auto. split; [|discriminate].
  assert (SUB : forall n, In n h' -> n = nn \/ In n h).
  { intros n Hn. assert (X : In n (added ++ h)) by (apply (Permutation_in _ HA), (Permutation_in _ (Permutation_sym HPm)), in_or_app; auto). apply in_app_or in X as [X|X]; auto. destruct HAD as [[-> _]|[-> _]]; [|destruct X]. destruct X as [<-|[]]; auto. }
  assert (BACK : forall n, In n h \/ (n = nn /\ (lo <= u)%Qc) -> In n h' \/ exists l, ci_lo (nd_item n) = Some l /\ (u < l)%Qc).
  { intros n Hn. assert (X : In n (dr ++ h')). { apply (Permutation_in _ HPm), (Permutation_in _ (Permutation_sym HA)), in_or_app. destruct Hn as [Hn|[-> Hn]]; auto. left. destruct HAD as [[-> _]|[_ X]]; [left; auto|]. exfalso. apply (Qcle_not_lt _ _ Hn X). }
    apply in_app_or in X as [X|X]; auto. right. rewrite Forall_forall in HDr. exact (HDr n X). }
  assert (GE : forall n, In n h -> exists l, ci_lo (nd_item n) = Some l /\ nth_error curves (ci_idx (nd_item n)) = Some (ci_curve (nd_item n)) /\ min_dilation_ge rR (ci_curve (nd_item n)) (qR l)).
  { intros n Hn. rewrite Forall_forall in I3. destruct (I3 n Hn) as ((l & El & _) & (B1 & (B2 & _) & _) & _). exists l. split; auto. }
  (* an index that is still present stays, unless its curve is above u *)
  assert (STAY : forall i c, nth_error curves i = Some c -> In i (idx (it :: rem) ++ hidx h) -> In i (idx rem ++ hidx h') \/ min_dilation_above rR c u).
  { intros i c Ei Hi. cbn [map app] in Hi. destruct Hi as [<-|Hi].
    - assert (c = ci_curve it) by congruence. subst c. destruct (Qclt_le_dec u lo) as [X|X]; [right; exists lo; auto|]. destruct (BACK nn (or_intror (conj eq_refl X))) as [Y|(l & Y1 & Y2)].
      + left. apply in_or_app. right. apply in_map_iff. exists nit. split; auto. apply in_map_iff. exists nn. auto.
      + cbn in Y1. injection Y1 as <-. right. exists lo. auto.
    - apply in_app_or in Hi as [Hi|Hi]; [left; apply in_or_app; auto|]. apply in_map_iff in Hi as (it' & <- & Hi). apply in_map_iff in Hi as (n & <- & Hn).
      destruct (GE n Hn) as (l & G1 & G2 & G3). assert (c = ci_curve (nd_item n)) by congruence. subst c. destruct (BACK n (or_introl Hn)) as [Y|(l' & Y1 & Y2)].
      + left. apply in_or_app. right. apply in_map, in_map. auto.
      + assert (l' = l) by congruence. subst l'. right. exists l. auto. }
  split; auto. split; auto. split; [|split; [|split]].
  - apply Forall_forall. intros n Hn. rewrite Forall_forall in HK. destruct (HK n Hn) as (l & Y1 & Y2). destruct (SUB n Hn) as [->|X].
    + split; [exists lo; auto|]. split; auto. split; [discriminate|]. exists u, l. auto.
    + rewrite Forall_forall in I3. destruct (I3 n X) as (B1 & B2 & B3 & _). split; auto. split; auto. split; auto. exists u, l. auto.
  - assert (ND : NoDup (idx rem ++ ci_idx it :: hidx h)) by (eapply Permutation_NoDup; [|exact I4]; cbn [map app]; apply Permutation_middle).
    assert (ND1 : NoDup (idx rem ++ hidx h1)).
    { destruct HAD as [[-> _]|[-> _]]; cbn in HA.
      - eapply Permutation_NoDup; [|exact ND]. apply Permutation_app_head. symmetry. exact (Permutation_map ci_idx (Permutation_map nd_item HA)).
      - apply NoDup_remove_1 in ND. eapply Permutation_NoDup; [|exact ND]. apply Permutation_app_head. symmetry. exact (Permutation_map ci_idx (Permutation_map nd_item HA)). }
    assert (ND2 : NoDup (hidx dr ++ (idx rem ++ hidx h'))).
    { eapply Permutation_NoDup; [|exact ND1]. etransitivity; [apply Permutation_app_head; exact (Permutation_map ci_idx (Permutation_map nd_item HPm))|]. rewrite !map_app. apply Permutation_app_swap_app. }
    revert ND2. generalize (hidx dr) as l0. induction l0; cbn; auto. intros X. inversion X; auto.
  - intros i c Ei. destruct (I5 i c Ei) as [Hi|(u0 & X & l & X1 & X2)].
    + destruct (STAY i c Ei Hi) as [Y|Y]; auto. right. exists u. auto.
    + right. exists u. split; auto. exists l. split; auto. subst cu. exact (Qcle_lt_trans _ _ _ U2 X1).
  - cbn. destruct U3 as [U3|U3].
    + right. exists (ci_idx it), (ci_curve it). split; auto. split; [|rewrite U3; auto].
      destruct (STAY (ci_idx it) (ci_curve it) C1) as [Y|(l & Y1 & Y2)]; [left; auto|auto|]. exfalso. rewrite <- U3 in F2. pose proof (min_le_ge _ _ _ _ Y2 F2) as Z. apply qR_lt in Y1. lra.
    + rewrite U3 in I6. destruct I6 as [I6|(i & c & W1 & W2 & W3)]; auto. right. exists i, c. split; auto. split; auto.
      destruct (STAY i c W1 W2) as [Y|(l & Y1 & Y2)]; auto. exfalso. pose proof (min_le_ge _ _ _ _ Y2 W3) as Z. apply qR_lt in Y1. lra.
Qed.
Lemma fold_ok fuel rti : forall rem cu h call st', step_inv rem cu h -> fold_left (fun acc it => obind acc (fun st => seq_step ratio hq hs fuel solver sched max_iter rti st it)) rem (Some (cu, h, call)) = Some st' ->
  exists cu' h' call', st' = (cu', h', call') /\ step_inv [] cu' h' /\ (cu <> None \/ rem <> [] -> cu' <> None).
Proof.
  induction rem as [|it rem IH]; intros cu h call st' HI E; cbn [fold_left obind] in E.
  - injection E as <-. exists cu, h, call. split; auto. split; auto. intros [H|H]; congruence.
  - destruct (seq_step ratio hq hs fuel solver sched max_iter rti (cu, h, call) it) as [st1|] eqn:E1.
    + destruct (step_ok _ _ _ _ _ _ _ _ HI E1) as (cu1 & h1 & call1 & -> & HI1 & HN). destruct (IH _ _ _ _ HI1 E) as (cu' & h' & call' & -> & A & B). exists cu', h', call'. split; auto.
    + exfalso. revert E. clear. induction rem; cbn; auto. discriminate.
Qed.
Definition loop_inv (active : list citem) (lo : Qc) (up : option Qc) : Prop :=
  Forall citem_ok active /\ NoDup (idx active) /\ (forall i c, nth_error curves i = Some c -> In i (idx active) \/ dropped up c) /\ up_ok (idx active) up /\
  (forall c, In c curves -> min_dilation_ge rR c (qR lo)).
Definition seq_result (tol : Qc) (r : option (Qc * Qc * list (option curve) * list nat)) : Prop := match r with
  | Some (lo, up, exs, idxs) => exists active, loop_inv active lo (Some up) /\ exs = map ci_example active /\ idxs = idx active /\ qltb (lo * tol)%Qc up = false
  | None => curves = [] \/ exists u, ub = Some u /\ forall c, In c curves -> min_dilation_above rR c u
  end.
Lemma min_fold : forall l x, let m := fold_left qmin l x in (m <= x)%Qc /\ (forall y, In y l -> (m <= y)%Qc) /\ In m (x :: l).
Proof.
  induction l as [|y l IH]; intros x; cbn [fold_left].
  - split; [apply Qcle_refl|]. split; [intros y []|left; auto].
  - destruct (IH (qmin x y)) as (A & B & C). assert (Q : (qmin x y <= x)%Qc /\ (qmin x y <= y)%Qc /\ (qmin x y = x \/ qmin x y = y)).
    { unfold qmin. destruct (qltb y x) eqn:E; [apply qltb_ok in E; split; [apply Qclt_le_weak; auto|split; [apply Qcle_refl|auto]]|apply qltb_false in E; split; [apply Qcle_refl|auto]]. }
    destruct Q as (Q1 & Q2 & Q3). split; [eapply Qcle_trans; eauto|]. split.
    + intros z [<-|Hz]; auto. eapply Qcle_trans; eauto.
    + destruct C as [C|C]; [|right; right; auto]. destruct Q3 as [Q3|Q3]; [left|right; left]; congruence.
Qed.
Lemma min_lo_ok l lo : min_lo l = Some lo -> (forall it, In it l -> exists x, ci_lo it = Some x /\ (lo <= x)%Qc) /\ exists it, In it l /\ ci_lo it = Some lo.
Proof.
  unfold min_lo. destruct (omap ci_lo l) as [[|x xs]|] eqn:E; try discriminate. intros X. injection X as <-. destruct (min_fold xs x) as (A & B & C).
  split.
  - intros it Hit. apply In_nth_error in Hit as (i & Hi). assert (exists y, ci_lo it = Some y /\ In y (x :: xs)) as (y & Y1 & Y2).
    { revert E i Hi. generalize (x :: xs) as r. induction l as [|a l IH]; intros r E [|i] Hi; cbn in *; try discriminate.
      - injection Hi as ->. destruct (ci_lo it) as [y|]; [|discriminate]. destruct (omap ci_lo l); [|discriminate]. injection E as <-. exists y. split; auto. left. auto.
      - destruct (ci_lo a); [|discriminate]. destruct (omap ci_lo l) as [r'|]; [|discriminate]. injection E as <-. destruct (IH r' eq_refl i Hi) as (y & Y1 & Y2). exists y. split; auto. right. auto. }
    exists y. split; auto. destruct Y2 as [<-|Y2]; auto.
  - revert E C. generalize (fold_left qmin xs x) as m. generalize (x :: xs) as r. induction l as [|a l IH]; intros r m E Hm; cbn in E; [injection E as <-; destruct Hm|].
    destruct (ci_lo a) as [y|] eqn:EY; [|discriminate]. destruct (omap ci_lo l) as [r'|]; [|discriminate]. injection E as <-. destruct Hm as [<-|Hm]; [exists a; split; [left; auto|auto]|]. destruct (IH r' m eq_refl Hm) as (it & H1 & H2). exists it. split; [right|]; auto.
Qed.
Lemma loop_spec tol mult : forall fuel active lo up ctol call r, loop_inv active lo up ->
  seq_loop ratio hq hs fuel solver sched max_iter tol mult active lo up ctol call = Some r -> seq_result tol r.
Proof.
  induction fuel as [|fuel IH]; intros active lo up ctol call r HI E; cbn [seq_loop] in E.
  - destruct up as [u|]; [|discriminate]. destruct (qltb (lo * tol)%Qc u) eqn:EQ; [discriminate|]. injection E as <-. exists active. auto.
  - destruct (match up with None => None | Some u => if qltb (lo * tol)%Qc u then None else Some u end) as [u|] eqn:EU.
    { destruct up as [u'|]; [|discriminate]. destruct (qltb (lo * tol)%Qc u') eqn:EQ; [discriminate|]. injection EU as ->. injection E as <-. exists active. auto. }
    clear EU. destruct HI as (I1 & I2 & I3 & I4 & I5).
    match type of E with match ?X with _ => _ end = _ => destruct X as [st|] eqn:EF end; [|discriminate].
    assert (S0 : step_inv active up []).
    { split; [apply HH|]. split; auto. split; auto. cbn [map]. rewrite app_nil_r. auto. }
    destruct (fold_ok _ _ _ _ _ _ _ S0 EF) as (cu & h & call' & -> & (J1 & _ & J3 & J4 & J5 & J6) & J7). cbn [map app] in J4, J5, J6.
    destruct h as [|n0 h0].
    { injection E as <-. cbn in *. destruct cu as [u|].
      - destruct J6 as [J6|(i & c & _ & [] & _)]. right. exists u. split; auto. intros c Hc. apply In_nth_error in Hc as (i & Hi). destruct (J5 i c Hi) as [[]|(u' & X & Y)]. congruence.
      - left. destruct curves as [|c0 cs]; auto. destruct (J5 0 c0 eq_refl) as [[]|(u' & X & _)]. discriminate. }
    set (h := n0 :: h0) in *. set (act := sorted oq_cmp (map nd_item h)) in E. destruct (min_lo act) as [lo'|] eqn:EM; [|discriminate].
    assert (PA : Permutation act (map nd_item h)) by apply sorted_perm.
    destruct (min_lo_ok act lo' EM) as (M1 & it0 & M2 & M3).
    apply IH in E; auto. split; [|split; [|split; [|split]]].
    + eapply Permutation_Forall; [symmetry; exact PA|]. apply Forall_map. eapply Forall_impl; [|exact J3]. intros n (_ & X & _). exact X.
    + eapply Permutation_NoDup; [symmetry; exact (Permutation_map ci_idx PA)|]. auto.
    + intros i c Hi. destruct (J5 i c Hi) as [X|X]; auto. left. apply (Permutation_in _ (Permutation_sym (Permutation_map ci_idx PA))). auto.
    + destruct cu as [u|]; auto. destruct J6 as [J6|(i & c & W1 & W2 & W3)]; [left; auto|right; exists i, c; split; auto; split; auto]. apply (Permutation_in _ (Permutation_sym (Permutation_map ci_idx PA))). auto.
    + intros c Hc. apply In_nth_error in Hc as (i & Hi). destruct (J5 i c Hi) as [X|(u & X & l & X1 & X2)].
      * apply (Permutation_in _ (Permutation_sym (Permutation_map ci_idx PA))) in X. apply in_map_iff in X as (it & X1 & X2). destruct (M1 it X2) as (x & Y1 & Y2).
        apply (Permutation_in _ PA) in X2. apply in_map_iff in X2 as (n & <- & X2). rewrite Forall_forall in J3. destruct (J3 n X2) as (_ & (B1 & (B2 & _) & _) & _).
        assert (c = ci_curve (nd_item n)) by congruence. subst c. eapply min_ge_mono; [|apply B2; eauto]. apply qR_le. auto.
      * eapply min_ge_mono; [|exact X2]. apply qR_le. apply (Permutation_in _ PA) in M2. apply in_map_iff in M2 as (n & <- & M2). rewrite Forall_forall in J3. destruct (J3 n M2) as (_ & _ & _ & u' & l' & Z1 & Z2 & Z3).
        assert (l' = lo') by congruence. assert (u' = u) by congruence. subst l' u'. eapply Qcle_trans; [exact Z3|]. apply Qclt_le_weak; auto.
Qed.
End Seq.
From Verif Require Import P_DilSpec P_DilPieces P_BisectEnd.
Theorem seq_spec : forall hq, heapq_ok hq -> forall hs, heapq_ok hs -> forall (ratio : ratio_func) (rR : list R -> R -> R) d
    fuel solver sched max_iter curves rel_tol_inv mult upper_bound result,
  Forall (fuzzy_input d) curves -> ratio_ok d (ratio d) rR -> sat_ok solver ->
  estimate_dilation_sequence ratio hq hs fuel solver sched max_iter curves rel_tol_inv mult upper_bound = Some result ->
  match result with
  | Some (lo, up, examples, idxs) =>
      (forall c, In c curves -> min_dilation_ge rR c (qR lo)) /\
      (upper_bound = Some up \/ exists i c, In i idxs /\ nth_error curves i = Some c /\ min_dilation_le rR c (qR up)) /\
      ((0 < rel_tol_inv)%Z -> (qR up * IZR rel_tol_inv <= qR lo * IZR (rel_tol_inv + 1))%R) /\
      NoDup idxs /\ (forall i c, nth_error curves i = Some c -> ~ In i idxs -> min_dilation_above rR c up) /\
      Forall2 (fun ex i => exists c, nth_error curves i = Some c /\ forall r, ex = Some r -> exists M, possible_within rR c r M) examples idxs
  | None => curves = [] \/ exists u, upper_bound = Some u /\ forall c, In c curves -> min_dilation_above rR c u
  end.
Proof.
  intros hq HQ hs HQs ratio rR d fuel solver sched max_iter curves rti mult ub result HC RO HS E. unfold estimate_dilation_sequence in E. destruct (tolerance_of rti) as [tol|] eqn:ET; [|discriminate].
  destruct (heapq_inv hs HQs) as (is_heap & HH).
  set (act := map (fun ic => CI (fst ic) None None (snd ic) None) (enumerate curves)) in E. assert (EI : map ci_idx act = seq 0 (length curves)) by (unfold act; rewrite map_map; cbn; apply enum_fst).
  apply (loop_spec ratio rR hq HQ hs is_heap HH d RO solver HS sched max_iter curves HC ub) in E.
  - unfold seq_result in E. destruct result as [[[[lo up] exs] idxs]|]; auto. destruct E as (active & (I1 & I2 & I3 & I4 & I5) & -> & -> & EQ). split; auto. split; [|split; [|split; [auto|split]]].
    + destruct I4 as [I4|(i & c & A & B & C)]; auto. right. exists i, c. auto.
    + intros Hr. eapply tolerance_le; eauto.
    + intros i c Hi Hn. destruct (I3 i c Hi) as [X|(u & X & Y)]; [contradiction|]. assert (u = up) by congruence. subst u. auto.
    + clear - I1. induction I1 as [|it l H HF IH]; cbn; constructor; auto. destruct H as (H1 & (H2 & H3 & H4) & H5). exists (ci_curve it). split; auto. intros r Er.
      destruct (ci_up it) as [u|] eqn:EU; [exists (qR u); auto|]. exfalso. rewrite (proj2 H5 eq_refl) in Er. discriminate.
  - split; [|split; [|split; [|split]]].
    + apply Forall_forall. intros it Hit. apply in_map_iff in Hit as ([i c] & <- & Hit). apply in_enum in Hit. split; [exact Hit|]. split; [split; [discriminate|split; discriminate]|]. cbn. tauto.
    + rewrite EI. apply seq_NoDup.
    + intros i c Hi. left. rewrite EI. apply in_seq. split; [lia|]. apply nth_error_Some. congruence.
    + unfold up_ok. destruct ub; auto.
    + intros c Hc x HX. rewrite Forall_forall in HC. destruct (HC c Hc) as (N & group & ntr & paths & HG & HP & HB). change (qR 0%Qc) with (qR (Zq 0)). rewrite qR_Zq. eapply dilation_pos; eauto. exact (built_estimable d N group ntr paths c HG HP HB).
Qed.
