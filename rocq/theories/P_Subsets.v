(** Proofs about subsets.py. *)
From Verif Require Import Py L_Py L_Qc M_BaseMaps L_BaseMaps P_GenMaps M_Subsets S_BaseMaps S_Utils S_Subsets P_Actions P_Utils.
From Coq Require Import Permutation Sorting.Sorted FinFun.
Local Open Scope nat_scope.

(** comparisons *)
Lemma Qccompare_eq x y : Qccompare x y = Eq <-> x = y.
Proof. unfold Qccompare. rewrite <- Qeq_alt. apply this_eq. Qed.
Lemma Qccompare_lt x y : Qccompare x y = Lt <-> (x < y)%Qc.
Proof. unfold Qccompare, Qclt. rewrite <- Qlt_alt. tauto. Qed.
Lemma Qccompare_gt x y : Qccompare x y = Gt <-> (y < x)%Qc.
Proof. unfold Qccompare, Qclt. rewrite <- Qgt_alt. tauto. Qed.
Lemma Qccompare_ok : cmp_ok Qccompare.
Proof.
  constructor; intros.
  - apply Qccompare_eq.
  - destruct (Qccompare x y) eqn:E; cbn.
    + apply Qccompare_eq in E. subst. apply Qccompare_eq; auto.
    + apply Qccompare_gt, Qccompare_lt; auto.
    + apply Qccompare_lt, Qccompare_gt; auto.
  - rewrite Qccompare_lt in *. qclra.
Qed.
Lemma leq_Qc x y : leq_of Qccompare x y <-> (x <= y)%Qc.
Proof.
  unfold leq_of. split.
  - intros H. apply Qcnot_lt_le. intros HL. apply H, Qccompare_gt; auto.
  - intros H E. apply Qccompare_gt in E. qclra.
Qed.
Lemma pt_cmp_ok : cmp_ok pt_cmp. Proof. apply lex_ok, Qccompare_ok. Qed.
Lemma pt_eqb_ok : eqb_ok pt_eqb. Proof. apply list_eqb_ok, qc_eqb_ok. Qed.
Lemma lk_cmp_ok {S} (cmp : S -> S -> comparison) : cmp_ok cmp -> cmp_ok (lk_cmp cmp).
Proof.
  intros H. pose proof (lex2_ok cmp cmp H H) as H2. unfold lk_cmp. constructor; intros.
  - destruct x, y; cbn. rewrite (cmp_eq _ H2). split; intros E; inversion E; auto.
  - apply (cmp_opp _ H2).
  - eapply (cmp_trans _ H2); eauto.
Qed.
Lemma pl_cmp_ok : cmp_ok pl_cmp. Proof. apply lk_cmp_ok, pt_cmp_ok. Qed.
Lemma lk_eqb_ok {S} (eqb : S -> S -> bool) : eqb_ok eqb -> eqb_ok (lk_eqb eqb).
Proof. intros H [a b] [c e]. unfold lk_eqb; cbn. rewrite andb_true_iff, (H a c), (H b e). split; [intros [-> ->]|intros E; inversion E]; auto. Qed.
Lemma pl_eqb_ok : eqb_ok pl_eqb. Proof. apply lk_eqb_ok, pt_eqb_ok. Qed.
Lemma leq_lex_cons {A} (cmp : A -> A -> comparison) (H : cmp_ok cmp) x y l l' : leq_of cmp x y -> leq_of (lex cmp) l l' ->
  leq_of (lex cmp) (x :: l) (y :: l').
Proof. unfold leq_of. cbn. destruct (cmp x y); auto. Qed.
Lemma leq_lex_pointwise {A} (cmp : A -> A -> comparison) (H : cmp_ok cmp) l l' : Forall2 (leq_of cmp) l l' -> leq_of (lex cmp) l l'.
Proof. induction 1; [unfold leq_of; cbn; congruence|]. apply leq_lex_cons; auto. Qed.
Lemma sorted_min {A} (cmp : A -> A -> comparison) (H : cmp_ok cmp) l : forall l', StronglySorted (leq_of cmp) l -> Permutation l l' ->
  leq_of (lex cmp) l l'.
Proof.
  induction l as [|x l IH]; intros l' HS HP.
  - apply Permutation_nil in HP. subst. unfold leq_of; cbn; congruence.
  - destruct l' as [|y l']; [apply Permutation_sym, Permutation_nil in HP; discriminate|].
    inversion HS; subst. rewrite Forall_forall in H3.
    assert (Hy : In y (x :: l)) by (eapply Permutation_in; [apply Permutation_sym; eauto|cbn; auto]).
    destruct Hy as [->|Hy].
    + apply leq_lex_cons; auto; [apply leq_of_refl; auto|]. apply IH; auto. eapply Permutation_cons_inv; eauto.
    + specialize (H3 y Hy). destruct (cmp x y) eqn:E.
      * apply H in E. subst y. apply leq_lex_cons; auto. apply IH; auto. eapply Permutation_cons_inv; eauto.
      * unfold leq_of. cbn. rewrite E. congruence.
      * unfold leq_of in H3. congruence.
Qed.

(** point products *)
Lemma pt_mul_length d b p : wf_bm d b -> length (pt_mul b p) = d.
Proof. intros. unfold pt_mul, apply_x. rewrite length_act. apply wf_length; auto. Qed.
Lemma pt_mul_mul d a b p : wf_bm d a -> wf_bm d b -> length p = d -> pt_mul (bm_mul a b) p = pt_mul a (pt_mul b p).
Proof. intros. unfold pt_mul, apply_x. apply act_mul with d; auto. apply invol_q. Qed.
Lemma pt_mul_id d p : length p = d -> pt_mul (id_map d) p = p.
Proof. intros. unfold pt_mul, apply_x. apply act_id; auto. Qed.
Lemma pt_mul_inv d b p : wf_bm d b -> length p = d -> pt_mul (bm_inv b) (pt_mul b p) = p.
Proof. intros. unfold pt_mul, apply_x. apply act_inv_l with d; auto. apply invol_q. Qed.
Lemma pt_mul_rev b p : pt_mul (bm_rev b) p = pt_mul b p. Proof. reflexivity. Qed.
Lemma pt_mul_cube_map b p : pt_mul (cube_map b) p = pt_mul b p. Proof. reflexivity. Qed.

Global Arguments pt_mul : simpl never.
Global Arguments pt_std : simpl never.

(** standard form of points *)
Definition fold1 (x : Qc) : Qc := if qc_leb x half then x else (1 - x)%Qc.
Lemma qc_leb_le x y : qc_leb x y = true <-> (x <= y)%Qc.
Proof.
  unfold qc_leb. destruct (Qccompare x y) eqn:E; split; auto; try discriminate; intros _ || intros H.
  - apply Qccompare_eq in E. subst. apply Qcle_refl.
  - apply Qccompare_lt in E. apply Qclt_le_weak; auto.
Qed.
Lemma this_half : (this half == 1 # 2)%Q. Proof. apply this_Q2Qc. Qed.
Lemma fold1_cases x : fold1 x = x \/ fold1 x = (1 - x)%Qc.
Proof. unfold fold1. destruct (qc_leb x half); auto. Qed.
Lemma fold1_le x : (fold1 x <= x)%Qc.
Proof.
  unfold fold1. destruct (qc_leb x half) eqn:E; [apply Qcle_refl|].
  assert (H : ~ (x <= half)%Qc) by (intros H; apply qc_leb_le in H; congruence).
  apply Qcnot_le_lt in H. qc_push. pose proof this_half. lra.
Qed.
Lemma fold1_flip x : fold1 (1 - x)%Qc = fold1 x.
Proof.
  unfold fold1. destruct (qc_leb (1 - x)%Qc half) eqn:E1, (qc_leb x half) eqn:E2.
  - apply qc_leb_le in E1, E2. qc_push. pose proof this_half. lra.
  - ring.
  - ring.
  - assert (H1 : ~ (x <= half)%Qc) by (intros H; apply qc_leb_le in H; congruence).
    assert (H2 : ~ (1 - x <= half)%Qc) by (intros H; apply qc_leb_le in H; congruence).
    apply Qcnot_le_lt in H1, H2. exfalso. qc_push. pose proof this_half. lra.
Qed.
Lemma signed_perm_bm d (p y q : list Qc) : length p = d -> Permutation p y ->
  Forall2 (fun u v => v = u \/ v = (1 - u)%Qc) y q -> exists b, wf_bm d b /\ time_rev b = false /\ pt_mul b p = q.
Proof.
  intros HL HP HF. pose proof (Forall2_length HF) as HLy. apply (Permutation_nth p y 0%Qc) in HP as (HLp & f & Hb & Hi & Hn).
  set (flag := fun i => if Qc_eq_dec (nth i q 0%Qc) (nth i y 0%Qc) then false else true).
  set (b := BM (map (fun i => (f i, flag i)) (seq 0 d)) false).
  assert (Hnth : forall i, i < d -> nth i (coords b) (0, false) = (f i, flag i)).
  { intros i Hlt. cbn. rewrite map_nth_lt with (d := 0) by (rewrite seq_length; auto). rewrite seq_nth by auto. auto. }
  assert (Hw : wf_bm d b).
  { apply wf_of_nth.
    - cbn. rewrite map_length, seq_length. auto.
    - intros i Hlt. rewrite Hnth by auto. cbn. rewrite <- HL. apply Hb. lia.
    - intros i j Hi' Hj. rewrite !Hnth by auto. cbn. intros E. apply Hi; auto; lia. }
  exists b. split; auto. split; auto. apply nth_ext_lt with (d := 0%Qc).
  - rewrite (pt_mul_length d); auto. lia.
  - rewrite (pt_mul_length d) by auto. intros i Hlt. unfold pt_mul, apply_x. rewrite nth_act by (rewrite (wf_length d); auto).
    rewrite Hnth by auto. cbn. rewrite <- Hn by lia. unfold flag.
    apply Forall2_nth with (da := 0%Qc) (db := 0%Qc) in HF as [_ HF]. specialize (HF i ltac:(lia)).
    destruct (Qc_eq_dec (nth i q 0%Qc) (nth i y 0%Qc)) as [E|E]; auto. destruct HF as [HF|HF]; [congruence|]. rewrite HF. auto.
Qed.
Lemma pt_std_length p : length (pt_std p) = length p.
Proof. unfold pt_std. rewrite (Permutation_length (sorted_perm _ _)), map_length. auto. Qed.
Lemma Forall2_map_r {A B C} (P : A -> C -> Prop) (f : B -> C) l l' : Forall2 P l (map f l') <-> Forall2 (fun a b => P a (f b)) l l'.
Proof. revert l'; induction l; intros [|b l']; cbn; split; intros H; inversion H; subst; constructor; auto; apply IHl; auto. Qed.
Lemma Forall2_map_l {A B C} (P : A -> C -> Prop) (f : B -> A) l l' : Forall2 P (map f l) l' <-> Forall2 (fun a b => P (f a) b) l l'.
Proof. revert l'; induction l; intros [|b l']; cbn; split; intros H; inversion H; subst; constructor; auto; apply IHl; auto. Qed.
Lemma Forall2_impl' {A B} (P Q : A -> B -> Prop) l l' : (forall a b, P a b -> Q a b) -> Forall2 P l l' -> Forall2 Q l l'.
Proof. induction 2; constructor; auto. Qed.
Lemma Forall2_diag {A} (P : A -> A -> Prop) l : (forall x, In x l -> P x x) -> Forall2 P l l.
Proof. induction l; constructor; cbn in *; auto. Qed.

Lemma pt_std_image p : exists b, wf_bm (length p) b /\ time_rev b = false /\ pt_mul b p = pt_std p.
Proof.
  set (q := map fold1 p).
  destruct (signed_perm_bm (length p) p p q eq_refl (Permutation_refl p)) as (b1 & W1 & T1 & E1).
  { apply Forall2_map_r. apply Forall2_diag. intros x _. apply fold1_cases. }
  destruct (signed_perm_bm (length p) q (pt_std p) (pt_std p)) as (b2 & W2 & T2 & E2).
  { unfold q. rewrite map_length. auto. }
  { apply Permutation_sym. exact (sorted_perm _ _). }
  { apply Forall2_diag. auto. }
  exists (bm_mul b2 b1). split; [apply wf_mul; auto|]. split; [rewrite mul_time_rev, T1, T2; auto|].
  rewrite (pt_mul_mul (length p)) by auto. rewrite E1. auto.
Qed.
Lemma pt_std_inv d b p : wf_bm d b -> length p = d -> pt_std (pt_mul b p) = pt_std p.
Proof.
  intros Hb Hp. unfold pt_std. apply sorted_ext; [apply Qccompare_ok|]. fold fold1.
  destruct (act_Permutation (fun v => (1 - v)%Qc) 0%Qc d b p Hb Hp) as (y & HP & HF). change (act _ _ b p) with (pt_mul b p) in HF.
  apply Permutation_trans with (map fold1 y).
  - replace (map fold1 (pt_mul b p)) with (map fold1 y); auto. clear HP. induction HF as [|u v l l' H HF IH]; cbn; auto.
    rewrite IH. f_equal. destruct H as [-> | ->]; auto. symmetry; apply fold1_flip.
  - apply Permutation_map, Permutation_sym; auto.
Qed.
Lemma pt_std_le p : pt_le (pt_std p) p.
Proof.
  unfold pt_le. apply (leq_of_trans pt_cmp pt_cmp_ok _ (map fold1 p)).
  - apply sorted_min; [apply Qccompare_ok|apply sorted_Sorted, Qccompare_ok|]. exact (sorted_perm _ _).
  - apply leq_lex_pointwise; [apply Qccompare_ok|]. apply Forall2_map_l, Forall2_diag. intros x _. apply leq_Qc, fold1_le.
Qed.
Lemma pt_std_min d b p : wf_bm d b -> length p = d -> pt_le (pt_std p) (pt_mul b p).
Proof. intros Hb Hp. rewrite <- (pt_std_inv d b p) by auto. apply pt_std_le. Qed.
Lemma pt_std_idem p : pt_std (pt_std p) = pt_std p.
Proof. destruct (pt_std_image p) as (b & Hb & _ & E). rewrite <- E at 1. apply pt_std_inv with (length p); auto. Qed.
Lemma pt_std_orbit d p q : length p = d -> length q = d ->
  (pt_std p = pt_std q <-> exists b, wf_bm d b /\ time_rev b = false /\ pt_mul b p = q).
Proof.
  intros Hp Hq. split.
  - intros E. destruct (pt_std_image p) as (b & Hb & Tb & Eb). destruct (pt_std_image q) as (c & Hc & Tc & Ec).
    rewrite Hp in Hb. rewrite Hq in Hc. exists (bm_mul (bm_inv c) b). split; [apply wf_mul; auto; apply wf_inv; auto|].
    split; [rewrite mul_time_rev, inv_time_rev, Tb, Tc; auto|]. rewrite (pt_mul_mul d); auto; [|apply wf_inv; auto].
    rewrite Eb, E, <- Ec. apply pt_mul_inv with d; auto.
  - intros (b & Hb & _ & <-). symmetry. apply pt_std_inv with d; auto.
Qed.

(** argstd *)
Lemma In_pt_argstd p b : In b (pt_argstd p) <-> wf_bm (length p) b /\ time_rev b = false /\ pt_mul b p = pt_std p.
Proof. unfold pt_argstd. rewrite In_gen_constraint; [tauto|]. rewrite pt_std_length. auto. Qed.
Lemma pt_argstd_nonempty p : pt_argstd p <> [].
Proof. destruct (pt_std_image p) as (b & H). apply In_pt_argstd in H. intros E. rewrite E in H. auto. Qed.

(** point links *)
Lemma pl_mul_mul d a b l : wf_bm d a -> wf_bm d b -> length (entrance l) = d -> length (exit l) = d ->
  pl_mul (bm_mul a b) l = pl_mul a (pl_mul b l).
Proof.
  intros Ha Hb He Hx. unfold pl_mul, lk_mul. rewrite mul_time_rev, !(pt_mul_mul d) by auto.
  destruct (time_rev a), (time_rev b); auto.
Qed.
Lemma pl_mul_id d l : length (entrance l) = d -> length (exit l) = d -> pl_mul (id_map d) l = l.
Proof. intros. unfold pl_mul, lk_mul. rewrite !pt_mul_id by auto. destruct l; auto. Qed.
Lemma pl_mul_dim d b l : wf_bm d b -> pl_dim d (pl_mul b l).
Proof. intros. unfold pl_dim, pl_mul, lk_mul. destruct (time_rev b); cbn; rewrite !(pt_mul_length d); auto. Qed.

Lemma min_map_exists {A} (f : A -> list Qc) l : l <> [] -> exists m, min_list pt_cmp (map f l) = Some m /\
   (exists x, In x l /\ f x = m) /\ forall x, In x l -> pt_le m (f x).
Proof.
  intros H. destruct (min_list_some pt_cmp (map f l)) as (m & Hm); [destruct l; cbn; congruence|]. exists m. split; auto.
  apply (min_list_spec pt_cmp pt_cmp_ok) in Hm as [H1 H2]. split.
  - apply in_map_iff in H1 as (x & E & Hx). eauto.
  - intros x Hx. apply H2, in_map; auto.
Qed.
Lemma pl_le_pair s s' t t' : pt_cmp s s' = Lt \/ (s = s' /\ pt_le t t') -> pl_le (Lk s t) (Lk s' t').
Proof.
  unfold pl_le, pt_le, pl_cmp, lk_cmp, lex2; cbn. intros [-> | [-> H]]; [congruence|]. rewrite (cmp_refl _ pt_cmp_ok). auto.
Qed.
Lemma pt_le_cases s s' : pt_le s s' -> pt_cmp s s' = Lt \/ s = s'.
Proof. unfold pt_le. destruct (pt_cmp s s') eqn:E; auto; [|congruence]. apply pt_cmp_ok in E. auto. Qed.

Lemma pl_std_spec d l : pl_dim d l -> exists m, pl_std l = Some m /\
  (exists b, wf_bm d b /\ pl_mul b l = m) /\ (forall b, wf_bm d b -> pl_le m (pl_mul b l)).
Proof.
  intros [He Hx]. destruct l as [e x]; cbn in He, Hx. unfold pl_std; cbn [entrance exit].
  destruct (min_map_exists (fun b => pt_mul b x) (pt_argstd e) (pt_argstd_nonempty e)) as (o1 & M1 & (b1 & I1 & E1) & L1).
  destruct (min_map_exists (fun b => pt_mul b e) (pt_argstd x) (pt_argstd_nonempty x)) as (o2 & M2 & (b2 & I2 & E2) & L2).
  rewrite M1, M2. apply In_pt_argstd in I1 as (W1 & T1 & S1). apply In_pt_argstd in I2 as (W2 & T2 & S2).
  rewrite He in W1. rewrite Hx in W2.
  assert (A1 : pl_mul b1 (Lk e x) = Lk (pt_std e) o1) by (unfold pl_mul, lk_mul; rewrite T1; cbn; rewrite S1, E1; auto).
  assert (A2 : pl_mul (bm_rev b2) (Lk e x) = Lk (pt_std x) o2).
  { unfold pl_mul, lk_mul; cbn. rewrite T2. cbn. rewrite !pt_mul_rev, S2, E2; auto. }
  assert (B1 : forall b, wf_bm d b -> pt_mul b e = pt_std e -> pt_le o1 (pt_mul b x)).
  { intros b Hb E. rewrite <- (pt_mul_cube_map b x). apply L1, In_pt_argstd. rewrite He. split; [apply wf_cube_map; auto|]. split; auto. }
  assert (B2 : forall b, wf_bm d b -> pt_mul b x = pt_std x -> pt_le o2 (pt_mul b e)).
  { intros b Hb E. rewrite <- (pt_mul_cube_map b e). apply L2, In_pt_argstd. rewrite Hx. split; [apply wf_cube_map; auto|]. split; auto. }
  assert (C1 : forall b, wf_bm d b -> pl_le (Lk (pt_std e) o1) (Lk (pt_mul b e) (pt_mul b x))).
  { intros b Hb. apply pl_le_pair. destruct (pt_le_cases _ _ (pt_std_min d b e Hb He)) as [H|H]; auto. }
  assert (C2 : forall b, wf_bm d b -> pl_le (Lk (pt_std x) o2) (Lk (pt_mul b x) (pt_mul b e))).
  { intros b Hb. apply pl_le_pair. destruct (pt_le_cases _ _ (pt_std_min d b x Hb Hx)) as [H|H]; auto. }
  assert (T : forall a b c, pl_le a b -> pl_le b c -> pl_le a c) by (intros; eapply (leq_of_trans pl_cmp pl_cmp_ok); eauto).
  destruct (pt_cmp (pt_std e) (pt_std x)) eqn:C.
  - apply pt_cmp_ok in C. unfold min_of; cbn.
    assert (HM : pl_le (Lk (pt_std e) (if ltb_of pt_cmp o2 o1 then o2 else o1)) (Lk (pt_std e) o1) /\
                 pl_le (Lk (pt_std e) (if ltb_of pt_cmp o2 o1 then o2 else o1)) (Lk (pt_std x) o2)).
    { unfold ltb_of. rewrite <- C. destruct (pt_cmp o2 o1) eqn:E; split; apply pl_le_pair; right; split; auto;
        unfold pt_le; try (rewrite (cmp_refl _ pt_cmp_ok); congruence); try congruence;
        rewrite (cmp_opp _ pt_cmp_ok o2 o1), E; cbn; congruence. }
    eexists; split; [reflexivity|]. split.
    + unfold ltb_of. destruct (pt_cmp o2 o1).
      * exists b1. rewrite A1. auto.
      * exists (bm_rev b2). rewrite A2, C. split; auto.
      * exists b1. rewrite A1. auto.
    + intros b Hb. unfold pl_mul, lk_mul; cbn [entrance exit]. destruct (time_rev b); [exact (T _ _ _ (proj2 HM) (C2 b Hb))|exact (T _ _ _ (proj1 HM) (C1 b Hb))].
  - eexists; split; [reflexivity|]. split; [exists b1; auto|]. intros b Hb. unfold pl_mul, lk_mul; cbn [entrance exit].
    destruct (time_rev b); auto. apply pl_le_pair. left.
    destruct (pt_le_cases _ _ (pt_std_min d b x Hb Hx)) as [H|H]; [|rewrite <- H; auto].
    eapply (cmp_trans _ pt_cmp_ok); eauto.
  - eexists; split; [reflexivity|]. split; [exists (bm_rev b2); split; auto|].
    intros b Hb. unfold pl_mul, lk_mul; cbn [entrance exit].
    destruct (time_rev b); auto. apply pl_le_pair. left.
    assert (C' : pt_cmp (pt_std x) (pt_std e) = Lt) by (rewrite (cmp_opp _ pt_cmp_ok (pt_std e)), C; auto).
    destruct (pt_le_cases _ _ (pt_std_min d b e Hb He)) as [H|H]; [|rewrite <- H; auto].
    eapply (cmp_trans _ pt_cmp_ok); eauto.
Qed.
Lemma pl_le_antisym l m : pl_le l m -> pl_le m l -> l = m.
Proof. apply (leq_of_antisym pl_cmp pl_cmp_ok). Qed.
Lemma pl_std_inv d b l : wf_bm d b -> pl_dim d l -> pl_std (pl_mul b l) = pl_std l.
Proof.
  intros Hb Hl. destruct (pl_std_spec d l Hl) as (m & -> & (b1 & W1 & E1) & L1).
  destruct (pl_std_spec d (pl_mul b l) (pl_mul_dim d b l Hb)) as (m' & -> & (b2 & W2 & E2) & L2).
  f_equal. destruct Hl as [He Hx]. apply pl_le_antisym.
  - rewrite <- E1. replace (pl_mul b1 l) with (pl_mul (bm_mul b1 (bm_inv b)) (pl_mul b l)).
    + apply L2, wf_mul; auto. apply wf_inv; auto.
    + rewrite <- (pl_mul_mul d); auto. f_equal. rewrite (mul_assoc d), (mul_inv_l d), (mul_id_r d); auto. apply wf_inv; auto.
      apply wf_mul; auto. apply wf_inv; auto.
  - rewrite <- E2, <- (pl_mul_mul d) by auto. apply L1, wf_mul; auto.
Qed.
Lemma pl_std_idem d l m : pl_dim d l -> pl_std l = Some m -> pl_std m = Some m.
Proof.
  intros Hl E. destruct (pl_std_spec d l Hl) as (m' & E' & (b & W & Eb) & _). assert (H : m' = m) by congruence. rewrite <- H at 1.
  rewrite <- Eb. rewrite (pl_std_inv d) by auto. auto.
Qed.
Lemma pl_std_orbit d l l' : pl_dim d l -> pl_dim d l' ->
  (pl_std l = pl_std l' <-> exists b, wf_bm d b /\ pl_mul b l = l').
Proof.
  intros Hl Hl'. split.
  - intros E. destruct (pl_std_spec d l Hl) as (m & Em & (b & W & Eb) & _).
    destruct (pl_std_spec d l' Hl') as (m' & Em' & (b' & W' & Eb') & _).
    assert (H : m = m') by congruence. exists (bm_mul (bm_inv b') b).
    split; [apply wf_mul; auto; apply wf_inv; auto|]. destruct Hl, Hl'.
    rewrite (pl_mul_mul d), Eb, H, <- Eb', <- (pl_mul_mul d), (mul_inv_l d), pl_mul_id; auto; apply wf_inv; auto.
  - intros (b & Hb & <-). symmetry. apply pl_std_inv with d; auto.
Qed.
