(** Operations on the tree of pairs: nothing is lost. *)
From Verif Require Import Py L_Py L_Qc L_R M_BaseMaps S_BaseMaps L_BaseMaps P_Actions M_Subsets S_Subsets P_Subsets P_Facets
  M_Paths M_Curves M_Utils M_Heap M_Sat M_Dilation S_Heap P_Heap S_Utils S_Curves S_Fuzzy P_CurveAct L_Digits P_Core P_Bridge P_Cont P_Subdiv P_Faces P_FuzzyInit P_FuzzyOps P_FuzzyBuilt
  S_Ratio S_Dilation P_Junctions P_DilGeo P_DilRatio P_DilBounds P_DilPieces P_DilTree.
From Coq Require Import Reals Lra Permutation.
Local Open Scope nat_scope.

Section Ops.
Context (ratio : ratio_func) (rR : list R -> R -> R) (c0 : curve) (HD : dcls c0) (RO : ratio_ok (cv_dim c0) (ratio (cv_dim c0)) rR).
Context (JP : junction -> Prop) (HJ : forall j, JP j -> wft (core_of c0) (jt j)).
Context (st : stash) (HST : points_ok c0 st).
Context (hq : heap_impl bpair) (is_heap : list (node bpair) -> Prop) (HH : IH_ok hq is_heap) (b : option Qc) (keep : bool).
Notation pair_ok := (pair_ok c0 JP).
Notation act := (activeb bp_lo bp_up).

Definition item_ok (i : bpair) : Prop := pair_ok (bp_pair i) /\ bnd_ok rR (bp_pair i) (bp_lo i) (bp_up i) (bp_argmax i).
Definition tree_ok (t : tree) : Prop :=
  heap_ok bp_up is_heap b keep t /\ (forall i, In i (bh_items t) -> act (bh_good_thr t) b i = true) /\
  (forall i, In i (bh_items t) -> new_max bp_lo keep (bh_max t) i = bh_max t) /\
  (forall i, In i (bh_items t) \/ In i (bh_bad t) \/ bh_max t = Some i -> item_ok i) /\
  (forall i, In i (bh_bad t) -> badb bp_lo b i = true).
(** The moments (s, t) of the curve x, seen in the junction j, are accounted for. *)
Definition holds (i : bpair) (x : curve) (j : junction) s u t w : Prop :=
  pp_junc (bp_pair i) = j /\ chosen_from (pp_curve (bp_pair i)) x /\ pair_kq (bp_pair i) x s u t w.
Definition handled (tr : tree) (x : curve) (j : junction) s u t w : Prop :=
  (exists g, bh_good_thr tr = Some g /\ (jrho rR x j s u t w <= qR g)%R) \/
  exists i, (In i (bh_items tr) \/ In i (bh_bad tr)) /\ holds i x j s u t w.
Definition max_grows (t t' : tree) : Prop := match bh_max t with None => True | Some m => exists m', bh_max t' = Some m' /\ (bp_lo m <= bp_lo m')%Qc end.
Lemma max_grows_refl t : max_grows t t. Proof. unfold max_grows. destruct (bh_max t) as [m|]; auto. exists m. split; auto. apply Qcle_refl. Qed.
Lemma max_grows_trans t1 t2 t3 : max_grows t1 t2 -> max_grows t2 t3 -> max_grows t1 t3.
Proof. unfold max_grows. destruct (bh_max t1) as [m|]; auto. intros (m' & E & H). rewrite E. intros (m'' & E' & H'). exists m''. split; auto. eapply Qcle_trans; eauto. Qed.
Lemma new_max_some m i : exists m', new_max bp_lo true m i = Some m' /\ (bp_lo i <= bp_lo m')%Qc /\ (m' = i \/ m = Some m') /\ match m with Some m0 => (bp_lo m0 <= bp_lo m')%Qc | None => True end.
Proof.
  unfold new_max. destruct m as [m|]; [|exists i; repeat split; auto; apply Qcle_refl]. destruct (qltb (bp_lo m) (bp_lo i)) eqn:E.
  - apply qltb_ok in E. exists i. repeat split; auto; [apply Qcle_refl|apply Qclt_le_weak; auto].
  - apply qltb_false in E. exists m. repeat split; auto. apply Qcle_refl.
Qed.
Lemma new_max_stable m i : match m with Some m0 => (bp_lo i <= bp_lo m0)%Qc | None => keep = false end -> new_max bp_lo keep m i = m.
Proof. unfold new_max. destruct keep; auto. destruct m as [m|]; [|discriminate]. intros H. rewrite (proj2 (qltb_false _ _)); auto. Qed.
Lemma stable_new_max m i : new_max bp_lo keep m i = m -> keep = true -> exists m0, m = Some m0 /\ (bp_lo i <= bp_lo m0)%Qc.
Proof.
  intros E ->. destruct (new_max_some m i) as (m' & E' & H & _). exists m'. split; auto. congruence.
Qed.
(** push *)
Lemma push_item t i : tree_ok t -> item_ok i -> let t' := bh_push bp_lo bp_up hq t i in
  tree_ok t' /\ bh_good_thr t' = bh_good_thr t /\ max_grows t t' /\ (keep = true -> exists m, bh_max t' = Some m) /\
  (forall x j s u t0 w, handled t x j s u t0 w -> handled t' x j s u t0 w) /\
  (forall x j s u t0 w, holds i x j s u t0 w -> handled t' x j s u t0 w) /\ (forall k, In k (bh_bad t) -> In k (bh_bad t')).
Proof.
  intros (H1 & H2 & H3 & H4 & H5) Hi t'. destruct (push_ok bp_lo bp_up hq is_heap HH b keep t i H1) as (A1 & A2 & A3 & A4 & A5). fold t' in A1, A2, A3, A4, A5.
  assert (IN : forall k, In k (bh_items t') <-> (act (bh_good_thr t) b i = true /\ k = i) \/ In k (bh_items t)).
  { intros k. split; intros Hk.
    - apply (Permutation_in _ A5) in Hk. apply in_app_or in Hk as [Hk|Hk]; auto. destruct (act (bh_good_thr t) b i); [|destruct Hk]. destruct Hk as [<-|[]]. auto.
    - apply (Permutation_in _ (Permutation_sym A5)). apply in_or_app. destruct Hk as [[-> ->]|Hk]; auto. left; left; auto. }
  assert (INB : forall k, In k (bh_bad t') <-> In k (bh_bad t) \/ (goodb bp_up (bh_good_thr t) i = false /\ badb bp_lo b i = true /\ k = i)).
  { intros k. rewrite A4, in_app_iff. destruct (goodb bp_up (bh_good_thr t) i), (badb bp_lo b i); cbn; intuition congruence. }
  assert (HMX : forall k, In k (bh_items t) -> new_max bp_lo keep (bh_max t') k = bh_max t').
  { intros k Hk. specialize (H3 k Hk). rewrite A3. destruct (Bool.bool_dec keep true) as [EK|EK].
    - apply new_max_stable. destruct (stable_new_max _ _ H3 EK) as (m0 & E0 & L0). destruct (new_max_some (bh_max t) i) as (m' & E' & _ & _ & L'). rewrite EK, E'. rewrite E0 in L'. eapply Qcle_trans; eauto.
    - apply Bool.not_true_is_false in EK. unfold new_max. rewrite EK. auto. }
  split; [|split; [auto|split; [|split; [|split; [|split]]]]].
  - split; auto. split; [|split; [|split]].
    + intros k Hk. rewrite A2. apply IN in Hk as [[Hk ->]|Hk]; auto.
    + intros k Hk. apply IN in Hk as [[Hk ->]|Hk]; auto. rewrite A3. unfold new_max. destruct keep; auto. destruct (bh_max t) as [m|].
      * destruct (qltb (bp_lo m) (bp_lo i)) eqn:E; [rewrite (proj2 (qltb_false _ _)) by apply Qcle_refl; auto|]. rewrite E. auto.
      * rewrite (proj2 (qltb_false _ _)) by apply Qcle_refl; auto.
    + intros k [Hk|[Hk|Hk]].
      * apply IN in Hk as [[_ ->]|Hk]; auto.
      * apply INB in Hk as [Hk|(_ & _ & ->)]; auto.
      * rewrite A3 in Hk. unfold new_max in Hk. destruct keep; auto. destruct (bh_max t) as [m|]; [destruct (qltb (bp_lo m) (bp_lo i))|]; injection Hk as <-; auto.
    + intros k Hk. apply INB in Hk as [Hk|(_ & Hb & ->)]; auto.
  - unfold max_grows. destruct (bh_max t) as [m|] eqn:E; auto. rewrite A3. clear - E. destruct keep.
    + destruct (new_max_some (Some m) i) as (m' & E' & _ & _ & L'). eauto.
    + cbn. exists m. split; auto. apply Qcle_refl.
  - intros ->. rewrite A3. destruct (new_max_some (bh_max t) i) as (m' & E' & _). eauto.
  - intros x j s u t0 w [(g & Eg & Hg)|(k & Hk & Hh)]; [left; exists g; rewrite A2; auto|]. right. exists k. split; auto. destruct Hk as [Hk|Hk]; [left; apply IN|right; apply INB]; auto.
  - intros x j s u t0 w Hh. destruct (goodb bp_up (bh_good_thr t) i) eqn:EG.
    + unfold goodb in EG. destruct (bh_good_thr t) as [g|] eqn:Eg; [|discriminate]. apply qleb_ok in EG. left. exists g. rewrite A2. split; auto.
      destruct Hh as (<- & Hx & HQ). destruct Hi as [_ Hb]. destruct (Hb x Hx) as (Hb1 & _). destruct (Hb1 _ _ _ _ HQ) as [_ Hb1']. apply qR_le in EG. lra.
    + right. exists i. split; auto. destruct (badb bp_lo b i) eqn:EB; [right; apply INB; auto|]. left. apply IN. left. split; auto. unfold activeb. rewrite EG, EB. auto.
  - intros k Hk. apply INB; auto.
Qed.
Lemma push_tree_ok t P : tree_ok t -> pair_ok P -> exists t' i, push_tree ratio hq st t P = Some t' /\ bp_pair i = P /\ item_ok i /\ t' = bh_push bp_lo bp_up hq t i.
Proof.
  intros Ht HP. destruct (bounds_ok ratio rR c0 HD RO JP HJ st P HST HP) as (lo & up & am & E & HB). unfold push_tree. rewrite E. exists (bh_push bp_lo bp_up hq t (BP lo up P am)), (BP lo up P am).
  split; auto. split; auto. split; [exact (conj HP HB)|auto].
Qed.
Lemma push_list {A} (f : A -> option piece_pair) (l : list A) : forall t, tree_ok t -> (forall a, In a l -> exists P, f a = Some P /\ pair_ok P) ->
  exists t', fold_left (fun acc a => obind acc (fun t => match f a with Some p => push_tree ratio hq st t p | None => None end)) l (Some t) = Some t' /\
    tree_ok t' /\ bh_good_thr t' = bh_good_thr t /\ max_grows t t' /\ (keep = true -> l <> [] -> exists m, bh_max t' = Some m) /\
    (forall x j s u t0 w, handled t x j s u t0 w -> handled t' x j s u t0 w) /\
    (forall a P x s u t0 w, In a l -> f a = Some P -> chosen_from (pp_curve P) x -> pair_kq P x s u t0 w -> handled t' x (pp_junc P) s u t0 w) /\
    (forall k, In k (bh_bad t) -> In k (bh_bad t')).
Proof.
  induction l as [|a l IH]; intros t Ht HP; cbn [fold_left].
  - exists t. split; auto. split; auto. split; auto. split; [apply max_grows_refl|]. split; [congruence|]. split; auto. split; auto. intros a P x s u t0 w [].
  - destruct (HP a (or_introl eq_refl)) as (P & EP & HPP). destruct (push_tree_ok t P Ht HPP) as (t1 & i & E1 & Ei & Hi & Et1). unfold obind at 2. rewrite EP, E1.
    destruct (push_item t i Ht Hi) as (B1 & B2 & B3 & B4 & B5 & B6 & B7). rewrite <- Et1 in *.
    destruct (IH t1 B1) as (t' & C1 & C2 & C3 & C4 & C5 & C6 & C7 & C8); [intros a' Ha'; apply HP; right; auto|]. exists t'. split; auto. split; auto. split; [congruence|].
    split; [eapply max_grows_trans; eauto|]. split; [|split; [auto|split]].
    + intros EK _. destruct (B4 EK) as (m & Em). unfold max_grows in C4. rewrite Em in C4. destruct C4 as (m' & Em' & _). eauto.
    + intros a' P' x s u t0 w [<-|Ha'] EP' Hx HQ; [|eapply C7; eauto]. assert (P' = P) by congruence. subst P'. apply C6, B6. subst P. split; auto.
    + auto.
Qed.
Lemma push_all_ok t ps : tree_ok t -> Forall pair_ok ps -> exists t', push_all ratio hq st t ps = Some t' /\
    tree_ok t' /\ bh_good_thr t' = bh_good_thr t /\ max_grows t t' /\
    (forall x j s u t0 w, handled t x j s u t0 w -> handled t' x j s u t0 w) /\
    (forall P x s u t0 w, In P ps -> chosen_from (pp_curve P) x -> pair_kq P x s u t0 w -> handled t' x (pp_junc P) s u t0 w) /\
    (forall k, In k (bh_bad t) -> In k (bh_bad t')).
Proof.
  intros Ht HP. destruct (push_list Some ps t Ht) as (t' & C1 & C2 & C3 & C4 & C5 & C6 & C7 & C8).
  { intros a Ha. exists a. split; auto. rewrite Forall_forall in HP. auto. }
  exists t'. unfold push_all. cbn in C1. repeat (split; auto). intros P x s u t0 w Hin Hx HQ. eapply C7; eauto.
Qed.
Lemma pop_item t : tree_ok t -> bh_items t <> [] -> exists i t1, bh_pop hq t = Some (i, t1) /\ tree_ok t1 /\ item_ok i /\ bh_good_thr t1 = bh_good_thr t /\ bh_bad t1 = bh_bad t /\ bh_max t1 = bh_max t /\
  Permutation (bh_items t) (i :: bh_items t1) /\ bh_top t = Some i /\ (forall k, In k (bh_items t) -> (bp_up k <= bp_up i)%Qc).
Proof.
  intros (H1 & H2 & H3 & H4 & H5) NE. destruct (pop_ok bp_up hq is_heap HH b keep t H1) as (i & t1 & A1 & A2 & A3 & A4 & A5 & A6 & A7 & A8). { intros E. apply NE. unfold bh_items. rewrite E. auto. }
  assert (IN : forall k, In k (bh_items t1) -> In k (bh_items t)) by (intros k Hk; apply (Permutation_in _ (Permutation_sym A6)); right; auto).
  assert (Hi : In i (bh_items t)) by (apply (Permutation_in _ (Permutation_sym A6)); left; auto).
  exists i, t1. split; auto. split; [|repeat (split; auto)].
  split; auto. rewrite A3, A4, A5. split; auto. split; auto. split; auto. intros k [Hk|Hk]; auto.
Qed.
Lemma divide_tree_ok t : tree_ok t -> bh_items t <> [] -> exists t', divide_tree ratio hq st t = Some t' /\
    tree_ok t' /\ bh_good_thr t' = bh_good_thr t /\ max_grows t t' /\
    (forall x j s u t0 w, handled t x j s u t0 w -> handled t' x j s u t0 w) /\ (forall k, In k (bh_bad t) -> In k (bh_bad t')).
Proof.
  intros Ht NE. destruct (pop_item t Ht NE) as (i & t1 & A1 & A2 & A3 & A4 & A5 & A6 & A7 & A8 & A9). unfold divide_tree. rewrite A1.
  destruct (divide_pair c0 HD JP HJ (bp_pair i) (proj1 A3)) as (l & El & F & FJ & FX). rewrite El. unfold obind at 1.
  destruct (push_all_ok t1 l A2 F) as (t' & C1 & C2 & C3 & C4 & C5 & C6 & C7). exists t'. split; auto. split; auto. split; [congruence|].
  split; [unfold max_grows in *; rewrite A6 in C4; auto|]. split; [|rewrite <- A5; auto].
  intros x j s u t0 w [(g & Eg & Hg)|(k & Hk & Hh)].
  - apply C5. left. exists g. rewrite A4. auto.
  - destruct Hk as [Hk|Hk].
    + apply (Permutation_in _ A7) in Hk. destruct Hk as [<-|Hk]; [|apply C5; right; exists k; auto]. destruct Hh as (<- & Hx & HQ).
      destruct (FX x s u t0 w Hx HQ) as (P' & HP' & Hx' & HQ'). destruct (FJ P' HP') as (EJ & _). rewrite <- EJ. eapply C6; eauto.
    + apply C5. right. exists k. rewrite A5. auto.
Qed.
Lemma update_tree_ok t g : tree_ok t -> match bh_good_thr t with Some g0 => (g0 <= g)%Qc | None => True end -> exists t', bh_update bp_lo bp_up hq t g = Some t' /\
  tree_ok t' /\ bh_good_thr t' = Some g /\ bh_max t' = bh_max t /\ bh_bad t' = bh_bad t /\ (forall i, In i (bh_items t') <-> In i (bh_items t) /\ act (Some g) b i = true) /\
  (forall x j s u t0 w, handled t x j s u t0 w -> handled t' x j s u t0 w).
Proof.
  intros (H1 & H2 & H3 & H4 & H5) Hg. destruct (update_ok bp_lo bp_up hq is_heap HH b keep t g H1 H2 H3 Hg) as (t' & A1 & A2 & A3 & A4 & A5 & A6).
  assert (IN : forall i, In i (bh_items t') <-> In i (bh_items t) /\ act (Some g) b i = true).
  { intros i. rewrite <- filter_In. split; apply Permutation_in; auto. apply Permutation_sym; auto. }
  exists t'. split; auto. split.
  { split; auto. split; [intros i Hi; apply IN in Hi as [Hi Ha]; rewrite A3; auto|]. split; [intros i Hi; apply IN in Hi as [Hi _]; rewrite A4; auto|]. rewrite A5. split; auto.
    intros i [Hi|[Hi|Hi]]; [apply IN in Hi as [Hi _]| |rewrite A4 in Hi]; auto. }
  repeat (split; auto). intros x j s u t0 w [(g0 & Eg & Hr)|(k & Hk & Hh)].
  - left. exists g. split; auto. rewrite Eg in Hg. apply qR_le in Hg. lra.
  - destruct Hk as [Hk|Hk]; [|right; exists k; rewrite A5; auto]. destruct (act (Some g) b k) eqn:EA; [right; exists k; split; auto; left; apply IN; auto|].
    left. exists g. split; auto. unfold activeb in EA. pose proof (H2 k Hk) as EA'. unfold activeb in EA'. apply andb_true_iff in EA' as [_ EB]. rewrite EB, andb_true_r in EA. apply negb_false_iff in EA. apply qleb_ok in EA. apply qR_le in EA.
    destruct Hh as (<- & Hx & HQ). destruct (H4 k (or_introl Hk)) as [_ Hb]. destruct (Hb x Hx) as (Hb1 & _). destruct (Hb1 _ _ _ _ HQ) as [_ Hb1']. lra.
Qed.
Lemma new_ok g : tree_ok (bh_new g b keep).
Proof.
  split; [split; [apply HH|cbn; auto]|]. split; [intros i []|]. split; [intros i []|]. split; [|intros i []]. intros i [[]|[[]|H]]. discriminate.
Qed.
Lemma top_ok t : tree_ok t -> (bh_items t = [] -> bh_top t = None) /\ (bh_items t <> [] -> exists i, bh_top t = Some i /\ In i (bh_items t) /\ (forall k, In k (bh_items t) -> (bp_up k <= bp_up i)%Qc)).
Proof.
  intros Ht. split.
  - intros E. unfold bh_top. unfold bh_items in E. destruct (bh_heap t); [auto|discriminate].
  - intros NE. destruct (pop_item t Ht NE) as (i & t1 & A1 & A2 & A3 & A4 & A5 & A6 & A7 & A8 & A9). exists i. split; auto. split; auto. apply (Permutation_in _ (Permutation_sym A7)). left; auto.
Qed.
End Ops.
