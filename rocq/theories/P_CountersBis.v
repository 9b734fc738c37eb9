(** The number of bisection steps: proofs. *)
From Verif Require Import Py L_Qc L_R S_Utils M_BaseMaps M_Curves M_Utils M_Heap M_Sat M_Dilation M_Counters P_Heap P_Counters.
From Coq Require Import Reals Lra.
Local Open Scope R_scope.

Section Bis.
Context (ratio : ratio_func) (hq : heap_impl bpair) (solver : sat_solver) (sched : Z -> Z) (max_iter : option Z).
Definition width_rel (b : nat) (w0 w : R) : Prop :=
  w0 <= 2 ^ b * w /\ 3 ^ (b - 1) * w <= 2 ^ (b - 1) * w0 /\ (max_iter = None -> 3 ^ b * w <= 2 ^ b * w0).
Lemma width_zero w : width_rel 0 w w.
Proof. unfold width_rel. cbn. split; [lra|]. split; [lra|]. intros; lra. Qed.
Lemma width_step b w0 w1 w : w0 <= 2 * w1 -> 3 * w1 <= 2 * w0 -> w1 <= w0 -> width_rel b w1 w -> width_rel (S b) w0 w.
Proof.
  unfold width_rel. intros H1 H2 H3 (A & B & C). split; [cbn [pow]; lra|].
  assert (P2 : forall n, 0 < 2 ^ n) by (intros; apply pow_lt; lra). split.
  - replace (S b - 1)%nat with b by lia. destruct b as [|b]; [cbn in *; lra|]. replace (S b - 1)%nat with b in B by lia. cbn [pow]. specialize (P2 b). assert (2 ^ b * (3 * w1) <= 2 ^ b * (2 * w0)) by (apply Rmult_le_compat_l; lra). lra.
  - intros E. specialize (C E). cbn [pow]. specialize (P2 b). assert (2 ^ b * (3 * w1) <= 2 ^ b * (2 * w0)) by (apply Rmult_le_compat_l; lra). lra.
Qed.
Lemma zq3 : Zq 3 <> 0%Qc. Proof. apply qR_neq0. rewrite qR_Zq. lra. Qed.
Lemma zq2 : Zq 2 <> 0%Qc. Proof. apply qR_neq0. rewrite qR_Zq. lra. Qed.
Lemma loop_width c tol stop t a fuel : 1 <= qR tol -> forall cur lo up call k ex lo' up' call' k', 0 <= qR lo ->
  fuzzy_loop_k ratio hq fuel solver sched max_iter c tol stop t a cur lo up call k = Some (ex, lo', up', call', k') ->
  width_rel (k_bisect k' - k_bisect k) (qR up - qR lo) (qR up' - qR lo').
Proof.
  intros HT. induction fuel as [|fuel IH]; intros cur lo up call k ex lo' up' call' k' HL; cbn [fuzzy_loop_k]; destruct (qltb (lo * tol)%Qc up) eqn:EQ; try discriminate;
    try (intros E; injection E as _ <- <- _ <-; rewrite Nat.sub_diag; apply width_zero).
  apply qltb_ok in EQ. apply qR_lt in EQ. rewrite qR_mul in EQ. assert (HW : qR lo < qR up) by nra.
  set (tu := if Qc_eq_bool lo 0%Qc then (Zq 2 / Zq 3 * up)%Qc else third 1 2 lo up). set (tl := if Qc_eq_bool lo 0%Qc then (Zq 1 / Zq 2 * up)%Qc else third 2 1 lo up).
  assert (U : qR tu = qR lo + 2 / 3 * (qR up - qR lo)).
  { unfold tu. destruct (Qc_eq_bool lo 0%Qc) eqn:E0; [apply Qc_eq_bool_correct in E0; subst lo; rewrite qR_0|unfold third]; rewrite ?qR_add, !qR_mul, ?qR_div, ?qR_Zq by exact zq3; lra. }
  assert (L : qR lo + 1 / 3 * (qR up - qR lo) <= qR tl <= qR lo + 1 / 2 * (qR up - qR lo)).
  { unfold tl. destruct (Qc_eq_bool lo 0%Qc) eqn:E0; [apply Qc_eq_bool_correct in E0; subst lo; rewrite qR_0 in *|unfold third]; rewrite ?qR_add, !qR_mul, ?qR_div, ?qR_Zq by (exact zq3 || exact zq2); lra. }
  clearbody tu tl. pose proof (bisect_rel ratio hq solver sched max_iter (S fuel) c tu tl (Some t) (Some a) call (inc_bisect k)) as H.
  destruct (bisect_k _ _ _ _ _ _ _ _ _ _ _ _ _) as [[s call1] k1]. destruct H as (K1 & _ & _ & _ & _ & _ & _ & _ & _ & K2). cbn [inc_bisect k_bisect] in K1.
  assert (ONE : forall w1, qR up - qR lo <= 2 * w1 -> 3 * w1 <= 2 * (qR up - qR lo) -> width_rel (k_bisect k1 - k_bisect k) (qR up - qR lo) w1).
  { intros w1 X1 X2. replace (k_bisect k1 - k_bisect k)%nat with 1%nat by lia. apply (width_step 0 _ w1); auto; [lra|apply width_zero]. }
  assert (MORE : forall cur lo1 up1, 0 <= qR lo1 -> qR up - qR lo <= 2 * (qR up1 - qR lo1) -> 3 * (qR up1 - qR lo1) <= 2 * (qR up - qR lo) ->
     fuzzy_loop_k ratio hq fuel solver sched max_iter c tol stop t a cur lo1 up1 call1 k1 = Some (ex, lo', up', call', k') -> width_rel (k_bisect k' - k_bisect k) (qR up - qR lo) (qR up' - qR lo')).
  { intros cur1 lo1 up1 X1 X2 X3 E. pose proof (fuzzy_loop_rel ratio hq solver sched max_iter c tol stop t a fuel cur1 lo1 up1 call1 k1 (ex, lo', up') call' k' E) as (_ & _ & _ & _ & M & _).
    apply IH in E; auto. replace (k_bisect k' - k_bisect k)%nat with (S (k_bisect k' - k_bisect k1)) by lia. eapply width_step; [exact X2|exact X3|lra|exact E]. }
  destruct s; try discriminate.
  - destruct (match stop with Some s => _ | None => false end); intros E; [injection E as _ <- <- _ <-; apply ONE; lra|]. apply MORE in E; auto; lra.
  - destruct (match stop with Some s => _ | None => false end); intros E; [injection E as _ <- <- _ <-; apply ONE; lra|]. apply MORE in E; auto; lra.
  - intros E; injection E as _ <- <- _ <-. replace (k_bisect k1 - k_bisect k)%nat with 1%nat by lia. unfold width_rel. cbn. split; [lra|]. split; [lra|]. destruct (K2 eq_refl) as (m & Em & _). intros En. congruence.
Qed.
Lemma tolerance_ge r tol : (0 < r)%Z -> tolerance_of r = Some tol -> 1 <= qR tol.
Proof.
  intros Hr ET. unfold tolerance_of in ET. assert (HI : 0 < IZR r) by (apply IZR_lt; lia). assert (Hz : Zq r <> 0%Qc) by (apply qR_neq0; rewrite qR_Zq; lra).
  unfold frac in ET. destruct (Qc_eq_dec (Zq r) 0%Qc) as [X|_]; [contradiction|]. injection ET as <-. rewrite qR_div, !qR_Zq, plus_IZR by auto. apply (Rmult_le_reg_r (IZR r)); auto. unfold Rdiv. rewrite Rmult_assoc, Rinv_l; lra.
Qed.
Lemma fuzzy_width fuel c rti stop lo up sc call k ex lo' up' call' k' : (0 < rti)%Z -> 0 <= qR lo ->
  estimate_fuzzy_k ratio hq fuel solver sched max_iter c rti stop (Some lo) (Some up) sc call k = Some (ex, lo', up', call', k') ->
  width_rel (k_bisect k' - k_bisect k) (qR up - qR lo) (qR up' - qR lo').
Proof.
  unfold estimate_fuzzy_k. intros Hr HL. destruct (create_tree _ _ _ _ _ _ _ _); try discriminate. destruct (ad_load fuel c); try discriminate. destruct (tolerance_of rti) as [tol|] eqn:ET; try discriminate.
  apply loop_width; auto. eapply tolerance_ge; eauto.
Qed.
End Bis.
