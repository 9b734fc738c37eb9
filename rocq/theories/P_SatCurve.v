(** Valuations of the clauses and curves of the fuzzy curve; decoding of models. *)
From Verif Require Import Py L_Py M_BaseMaps M_Subsets M_Paths M_Curves M_Sat S_BaseMaps S_Subsets S_Utils S_Paths S_Curves S_Junctions S_Fuzzy S_Sat
  L_BaseMaps P_Junctions P_FuzzyInit P_FuzzyCurves P_FuzzyOps P_FuzzyBuilt P_TemplJunc P_Sat P_SatEnc.
From Coq Require Import Lia.
Local Open Scope nat_scope.
Implicit Types (V : vk -> bool).

Lemma defined_in f p k s : In (p, k, s) (gen_defined_specs f) <-> get_spec f p k = Some (Some s).
Proof.
  unfold gen_defined_specs, get_spec. rewrite in_flat_map. split.
  - intros ([q pat] & H1 & H2). apply In_enumerate in H1. apply in_flat_map in H2 as ([i os] & H2 & H3). apply In_enumerate in H2. cbn [fst snd] in *. destruct os as [s'|]; [|destruct H3]. destruct H3 as [E|[]]. injection E as <- <- <-. rewrite H1. auto.
  - destruct (nth_error (cv_pats f) p) as [pat|] eqn:E; [|discriminate]. intros E2. exists (p, pat). split; [apply In_enumerate; auto|]. apply in_flat_map. exists (k, Some s). split; [apply In_enumerate; auto|]. cbn. auto.
Qed.
Lemma consistent_all f x : consistent f x <-> forall t, In t (gen_defined_specs f) -> get_spec x (fst (fst t)) (snd (fst t)) = Some (Some (snd t)).
Proof.
  split.
  - intros H [[p k] s] Ht. apply defined_in in Ht. apply H. auto.
  - intros H p k s E. apply (H (p, k, s)), defined_in. auto.
Qed.
(** junctions found from base junctions are regular *)
Lemma reg_dt s1 s2 dx dep : j_dt (reg_junction s1 s2 dx dep) = 1%Z. Proof. reflexivity. Qed.
Lemma base_dt c p k dep j : get_base_junction c p k dep = Some j -> j_dt j = 1%Z.
Proof. unfold get_base_junction. repeat (match goal with |- context [match ?x with _ => _ end] => destruct x; try discriminate end). intros E. injection E as <-. auto. Qed.
Lemma derived_dt c j dj : get_derived_junction c j = Some dj -> j_dt dj = 1%Z.
Proof. unfold get_derived_junction. cbv zeta. repeat (match goal with |- context [match ?x with _ => _ end] => destruct x; try discriminate end). all: intros E; injection E as <-; auto. Qed.
Lemma loop_dt c fuel : forall seen stack, Forall (fun j => j_dt j = 1%Z) (fst (derive_loop fuel c seen stack)).
Proof.
  induction fuel as [|fuel IH]; intros seen stack; destruct stack as [|j stack]; cbn [derive_loop fst]; auto.
  destruct (get_derived_junction c j) as [dj|] eqn:E; cbn [fst]; auto. destruct (memb junc_eqb dj seen); auto. cbn [fst]. constructor; auto. eapply derived_dt; eauto.
Qed.
Lemma templates_dt fuel c T : get_junction_templates fuel c = Some T -> Forall (fun e => j_dt (fst e) = 1%Z) T.
Proof.
  unfold get_junction_templates. destruct (templates_of c) as [ts|]; [|discriminate].
  assert (GEN : forall ts T0, Forall (fun e : junction * list curve => j_dt (fst e) = 1%Z) T0 -> fold_left (fun acc t => obind acc (fun a => template_step fuel c a t)) ts (Some T0) = Some T -> Forall (fun e => j_dt (fst e) = 1%Z) T).
  { clear ts. induction ts as [|t ts IH]; intros T0 H0; cbn [fold_left obind]; [intros E; injection E as <-; auto|].
    destruct (template_step fuel c T0 t) as [T1|] eqn:E1.
    - apply IH. unfold template_step in E1. destruct (specify_allowed c (spec_dict_of (snd t))) as [cv|]; [|discriminate]. destruct (get_base_junction cv (fst (fst t)) (snd (fst t)) None) as [bj|] eqn:E2; [|discriminate].
      destruct (gen_junctions_from_base fuel cv [bj]) as [js e] eqn:E3. destruct e; try discriminate. injection E1 as <-.
      assert (HJ : Forall (fun j => j_dt j = 1%Z) js). { unfold gen_junctions_from_base in E3. injection E3 as <- _. constructor; [eapply base_dt; eauto|apply loop_dt]. }
      clear -H0 HJ. revert T0 H0. induction js as [|j js IH]; intros T0 H0; cbn [fold_left]; auto. inversion HJ as [|? ? HJ1 HJ2]; subst. apply (IH HJ2).
      generalize ((match dget junc_eqb T0 j with Some l => l | None => [] end) ++ [cv]). intros v. clear -H0 HJ1. induction T0 as [|[j0 l0] T0 IH]; cbn [dset]; [repeat constructor; auto|]. inversion H0; subst. destruct (junc_eqb j j0); constructor; auto.
    - assert (X : forall l, fold_left (fun acc t => obind acc (fun a => template_step fuel c a t)) l None = None) by (induction l; auto). rewrite X. discriminate. }
  apply GEN. constructor.
Qed.
(** the junctions do not depend on the selected pattern *)
Lemma loop_pnum c n fuel : forall seen stack, derive_loop fuel (cv_with_pnum c n) seen stack = derive_loop fuel c seen stack.
Proof.
  induction fuel as [|fuel IH]; intros seen stack; destruct stack as [|j stack]; cbn [derive_loop]; auto. change (get_derived_junction (cv_with_pnum c n) j) with (get_derived_junction c j). destruct (get_derived_junction c j); auto. rewrite IH. rewrite IH. auto.
Qed.
Lemma junctions_pnum c n fuel : gen_regular_junctions fuel (cv_with_pnum c n) = gen_regular_junctions fuel c.
Proof.
  unfold gen_regular_junctions. change (gen_base_junctions (cv_with_pnum c n)) with (gen_base_junctions c). destruct (gen_base_junctions c); auto. unfold gen_junctions_from_base. rewrite loop_pnum. auto.
Qed.
Lemma has_junction_pnum c n j : has_junction (cv_with_pnum c n) j <-> has_junction c j.
Proof.
  unfold has_junction. change (gen_auto_junctions (cv_with_pnum c n)) with (gen_auto_junctions c).
  split; intros (j' & [H|(fuel & js & H & H')] & E); exists j'; (split; [|exact E]); auto; right; exists fuel, js; [rewrite junctions_pnum in H|rewrite junctions_pnum]; auto.
Qed.
Lemma avoids_pnum c n forb : avoids (cv_with_pnum c n) forb <-> avoids c forb.
Proof.
  unfold avoids. split; intros H j f Hin HC; specialize (H j f Hin HC); [rewrite has_junction_pnum in H|rewrite has_junction_pnum]; auto.
Qed.

(** decoding of the integer model *)
Lemma dget_dset (d : list (bvar * bool)) w b v : dget bvar_eqb (dset bvar_eqb d w b) v = if bvar_eqb v w then Some b else dget bvar_eqb d v.
Proof.
  induction d as [|[u x] d IH]; cbn [dset dget]; auto. destruct (bvar_eqb w u) eqn:E; cbn [dget].
  - apply bvar_key in E. destruct (bvar_eqb v u) eqn:E1; destruct (bvar_eqb v w) eqn:E2; auto.
    + apply bvar_key in E1. assert (X : bvar_eqb v w = true) by (apply bvar_key; congruence). congruence.
    + apply bvar_key in E2. assert (X : bvar_eqb v u = true) by (apply bvar_key; congruence). congruence.
  - rewrite IH. destruct (bvar_eqb v u) eqn:E1; auto. destruct (bvar_eqb v w) eqn:E2; auto. apply bvar_key in E1, E2. assert (X : bvar_eqb w u = true) by (apply bvar_key; congruence). congruence.
Qed.
Lemma no_var_get (n : list (bvar * Z)) i v z : nos_ok n -> nth_error n i = Some (v, z) -> dget Z.eqb (map (fun vn => (snd vn, fst vn)) n) z = Some v.
Proof.
  intros HN Hi. pose proof (proj2 HN i v z Hi) as Ez. subst z. assert (GEN : forall (n : list (bvar * Z)) off i v, (forall i v z, nth_error n i = Some (v, z) -> z = (off + Z.of_nat i)%Z) -> nth_error n i = Some (v, (off + Z.of_nat i)%Z) -> dget Z.eqb (map (fun vn => (snd vn, fst vn)) n) (off + Z.of_nat i)%Z = Some v).
  { clear. induction n as [|[w z] n IH]; intros off i v HN Hi; [destruct i; discriminate|]. cbn [map dget fst snd]. pose proof (HN 0 w z eq_refl) as E0. destruct i as [|i].
    - cbn in Hi. assert (v = w) by congruence. subst. rewrite (proj2 (Z.eqb_eq _ _)) by auto. auto.
    - rewrite (proj2 (Z.eqb_neq _ _)) by lia. replace (off + Z.of_nat (S i))%Z with (off + 1 + Z.of_nat i)%Z by lia. apply IH.
      + intros i' v' z' H. specialize (HN (S i') v' z' H). lia.
      + cbn [nth_error] in Hi. replace (off + 1 + Z.of_nat i)%Z with (off + Z.of_nat (S i))%Z by lia. exact Hi. }
  apply GEN; auto. apply HN.
Qed.
Lemma model_val a cls m : enc a cls -> model_of m (ad_clauses a) -> exists dict V, get_model a m = Some dict /\ sat V cls /\
  forall v, (match dget bvar_eqb dict v with Some b => b | None => true end) = V (vkey v).
Proof.
  intros HE (M1 & M2 & M3). pose proof HE as (HN & HK & HC & HU). set (n := ad_var_no a) in *.
  assert (RNG : forall t, In t m -> exists v, nth_error n (Z.to_nat (Z.abs t - 1)) = Some (v, Z.abs t) /\ In (vkey v) (dkeys n) /\ num n v = Z.abs t).
  { intros t Ht. destruct (M3 t Ht) as (NZ & cl & t' & Hcl & Ht' & Hle). rewrite HC in Hcl. apply in_map_iff in Hcl as (c & <- & Hc). apply in_map_iff in Ht' as (vb & <- & Hvb).
    rewrite Forall_forall in HK. specialize (HK c Hc). unfold known in HK. rewrite Forall_forall in HK. destruct (num_nth n (fst vb) HN (HK vb Hvb)) as (i & w & A1 & A2 & A3).
    assert (EA : Z.abs (tok n vb) = num n (fst vb)) by (unfold tok; destruct (snd vb); lia). rewrite EA, A3 in Hle. pose proof (proj1 (nth_error_Some n i) ltac:(congruence)) as Hi.
    destruct (nth_error n (Z.to_nat (Z.abs t - 1))) as [[v z]|] eqn:E; [|apply nth_error_None in E; lia]. pose proof (proj2 HN _ _ _ E) as Ez. assert (EZ : z = Z.abs t) by lia. clear Ez. subst z.
    assert (Kv : In (vkey v) (dkeys n)) by (apply nth_error_In in E; apply (in_map (fun e => vkey (fst e)) _ _ E)). exists v. split; auto. split; auto.
    unfold num. rewrite (dget_nth n _ v (Z.abs t) v (proj1 HN) E eq_refl). auto. }
  set (step := fun acc tok => obind acc (fun m => option_map (fun v => dset bvar_eqb m v (0 <? tok)%Z) (dget Z.eqb (map (fun vn => (snd vn, fst vn)) n) (Z.abs tok)))).
  assert (FOLD : forall l d, (forall t, In t l -> In t m) -> exists d', fold_left step l (Some d) = Some d' /\
     (forall v b, dget bvar_eqb d' v = Some b -> dget bvar_eqb d v = Some b \/ (In (vkey v) (dkeys n) /\ exists t, In t l /\ Z.abs t = num n v /\ b = (0 <? t)%Z)) /\
     (forall v, dget bvar_eqb d' v = None -> dget bvar_eqb d v = None /\ (In (vkey v) (dkeys n) -> forall t, In t l -> Z.abs t <> num n v))).
  { induction l as [|t l IH]; intros d HL; cbn [fold_left].
    - exists d. split; [auto|]. split; [auto|]. intros v E. split; [auto|intros _ t []].
    - destruct (RNG t (HL t (or_introl eq_refl))) as (w & W1 & W2 & W3). unfold step at 2. cbn [obind]. rewrite (no_var_get n _ w (Z.abs t) HN W1). cbn [option_map].
      destruct (IH (dset bvar_eqb d w (0 <? t)%Z) ltac:(intros; apply HL; right; auto)) as (d' & E & S1 & S2). exists d'. split; auto. split.
      + intros v b Ev. destruct (S1 v b Ev) as [H|(H & t' & A & B & C)]; [|right; split; auto; exists t'; cbn; auto]. rewrite dget_dset in H. destruct (bvar_eqb v w) eqn:EK; auto. apply bvar_key in EK. right. rewrite EK. split; auto. exists t. split; [left; auto|]. split; [|congruence].
        unfold num. rewrite (dget_nth n _ w (Z.abs t) v (proj1 HN) W1 (eq_sym EK)). auto.
      + intros v Ev. destruct (S2 v Ev) as (H & H'). rewrite dget_dset in H. destruct (bvar_eqb v w) eqn:EK; [discriminate|]. split; auto. intros Kv t' [<-|Ht']; auto. rewrite <- W3. intros E'. apply (num_inj n w v HN W2 Kv) in E'. assert (X : bvar_eqb v w = true) by (apply bvar_key; auto). congruence. }
  destruct (FOLD m [] ltac:(auto)) as (dict & ED & S1 & S2). exists dict.
  assert (INZ : forall z, {In z m} + {~ In z m}) by (intros z; apply (in_dec Z.eq_dec)).
  set (val := fun z : Z => if INZ (- z)%Z then false else true).
  destruct (satisfies_sat a cls val HE) as (V0 & HV0 & HS0).
  { intros cl Hcl. destruct (M1 cl Hcl) as (t & T1 & T2). exists t. split; auto. unfold val. destruct (INZ (- Z.abs t)%Z) as [H|H].
    - symmetry. apply Z.ltb_ge. destruct (Z.le_gt_cases t 0); auto. rewrite Z.abs_eq in H by lia. exfalso. apply (M2 t T2 H).
    - symmetry. apply Z.ltb_lt. destruct (M3 t T2) as [NZ _]. destruct (Z.le_gt_cases t 0); [|lia]. exfalso. apply H. replace (- Z.abs t)%Z with t by lia. auto. }
  assert (KD : forall k k' : vk, {k = k'} + {k <> k'}) by (repeat decide equality; apply Z.eq_dec).
  exists (fun k => if in_dec KD k (dkeys n) then V0 k else true). split; auto. split.
  - unfold sat in *. rewrite Forall_forall in *. intros c Hc. destruct (HS0 c Hc) as (vb & Hvb & Ev). exists vb. split; auto. specialize (HK c Hc). unfold known in HK. rewrite Forall_forall in HK. destruct (in_dec KD (vkey (fst vb)) (dkeys n)) as [|N]; auto. exfalso. apply N. apply HK. auto.
  - intros v. destruct (in_dec KD (vkey v) (dkeys n)) as [Kv|Kv].
    + rewrite HV0 by auto. fold n. unfold val. destruct (dget bvar_eqb dict v) as [b|] eqn:E.
      * destruct (S1 v b E) as [H|(_ & t & T1 & T2 & T3)]; [discriminate|]. rewrite <- T2. destruct (M3 t T1) as [NZ _]. destruct (INZ (- Z.abs t)%Z) as [H|H].
        -- subst b. apply Z.ltb_ge. destruct (Z.le_gt_cases t 0); auto. rewrite Z.abs_eq in H by lia. exfalso. apply (M2 t T1 H).
        -- subst b. apply Z.ltb_lt. destruct (Z.le_gt_cases t 0); [|lia]. exfalso. apply H. replace (- Z.abs t)%Z with t by lia. auto.
      * destruct (S2 v E) as [_ H]. specialize (H Kv). destruct (INZ (- num n v)%Z) as [H'|H']; auto. exfalso. apply (H _ H'). destruct (num_nth n v HN Kv) as (i & w & _ & _ & E'). lia.
    + destruct (dget bvar_eqb dict v) as [b|] eqn:E; auto. destruct (S1 v b E) as [H|(H & _)]; [discriminate|contradiction].
Qed.

Section Load.
Context (d N : nat) (group : option (list base_map)) (dtr : bool) (paths : list (path (list Qc))).
Context (HG : valid_group d group) (HP : valid_paths d N paths) (c : curve) (HB : built group dtr paths c).
Notation m := (cv_mult c). Notation G := (cv_genus c).
Definition positions V : Prop := forall p k l, p < m -> k < G -> gen_allowed_specs c p k = Some l ->
  exists s, In s l /\ V (KS (p, k, s)) = true /\ forall s', In s' l -> V (KS (p, k, s')) = true -> s' = s.
Definition autos V : Prop := forall p, p < m -> V (KJ (jkey (auto_junction (cv_dim c) p))) = true.
Lemma in_positions p k : In (p, k) (list_prod (range m) (range G)) <-> p < m /\ k < G.
Proof. unfold range. rewrite in_prod_iff, !in_seq. lia. Qed.
Lemma load_inv fuel a0 : ad_load fuel c = Some a0 -> exists T, get_junction_templates fuel c = Some T /\ ad_curve a0 = c /\ inv a0 (fun V => positions V /\ autos V /\ Forall (tmeans V) T).
Proof.
  unfold ad_load. set (L := list_prod (range m) (range G)). destruct (omap _ L) as [vars|] eqn:EV; [|discriminate]. destruct (get_junction_templates fuel c) as [T|]; [|discriminate]. intros E. injection E as <-. exists T. split; auto.
  destruct (built_good d N group dtr paths HG HP c HB) as (_ & _ & _ & _ & _ & _ & A).
  assert (VN : forall i p k, nth_error L i = Some (p, k) -> exists l, gen_allowed_specs c p k = Some l /\ NoDup l /\ nth_error vars i = Some (map (VSpec p k) l)).
  { intros i p k Hi. destruct (omap_nth _ _ _ _ _ EV Hi) as (b & B1 & B2). cbn [fst snd] in B2. pose proof (nth_error_In _ _ Hi) as Hin. apply in_positions in Hin as [Hp Hk]. destruct (A p k Hp Hk) as (l & L1 & L2 & _). rewrite L1 in B2. cbn [option_map] in B2. exists l. split; auto. split; auto. congruence. }
  assert (ND : Forall (fun vs => NoDup (map vkey vs)) vars).
  { apply Forall_forall. intros vs Hvs. apply In_nth_error in Hvs as (i & Hi). destruct (omap_nth' _ _ _ _ _ EV Hi) as ([p k] & A1 & _). destruct (VN i p k A1) as (l & _ & L2 & L3). assert (vs = map (VSpec p k) l) by congruence. subst vs. rewrite map_map. apply NoDup_map_inj; auto. intros x y _ _ E. cbn [vkey] in E. congruence. }
  destruct (inv_onlys vars (AD [] [] [] c) _ ND (inv_empty c)) as [I1 C1]. cbn [ad_curve] in C1.
  assert (I2 := inv_appends (map (fun j => clause_of [(VJunc j, true)]) (gen_auto_junctions c)) _ _ I1).
  destruct (inv_juncs T _ _ I2) as [C3 I3]. split; [rewrite C3, appends_curve; auto|]. eapply inv_ext; [|exact I3]. intros V. cbv beta. rewrite Forall_map.
  assert (AU : Forall (fun j => sat1 V (clause_of [(VJunc j, true)])) (gen_auto_junctions c) <-> autos V).
  { unfold gen_auto_junctions. rewrite Forall_map, Forall_forall. unfold autos. assert (S1 : forall j, sat1 V (clause_of [(VJunc j, true)]) <-> V (KJ (jkey j)) = true) by (intros j; unfold sat1, clause_of; cbn; split; [intros (vb & [<-|[]] & E); auto|intros E; exists (VJunc j, true); auto]).
    split; intros H p Hp; [apply S1, H; unfold range; apply in_seq; lia|apply S1, H; unfold range in Hp; apply in_seq in Hp; lia]. }
  rewrite AU. assert (PO : Forall (one V) vars <-> positions V); [|rewrite PO; tauto]. split.
  - intros HF p k l Hp Hk El. destruct (VN _ p k (nth_positions m G p k Hp Hk)) as (l' & L1 & L2 & L3). assert (l' = l) by congruence. subst l'. rewrite Forall_forall in HF. destruct (HF _ (nth_error_In _ _ L3)) as (v & Hv & Ev & HU). apply in_map_iff in Hv as (s & <- & Hs).
    exists s. split; auto. split; auto. intros s' Hs' E'. specialize (HU (VSpec p k s') ltac:(apply in_map; auto) E'). cbn [vkey] in HU. congruence.
  - intros HPO. apply Forall_forall. intros vs Hvs. apply In_nth_error in Hvs as (i & Hi). destruct (omap_nth' _ _ _ _ _ EV Hi) as ([p k] & A1 & _). destruct (VN i p k A1) as (l & L1 & L2 & L3). assert (vs = map (VSpec p k) l) by congruence. subst vs.
    pose proof (nth_error_In _ _ A1) as Hin. apply in_positions in Hin as [Hp Hk]. destruct (HPO p k l Hp Hk L1) as (s & Hs & Es & HU). exists (VSpec p k s). split; [apply in_map; auto|]. split; auto. intros w Hw Ew. apply in_map_iff in Hw as (s' & <- & Hs'). cbn [vkey] in *. rewrite (HU s' Hs' Ew). auto.
Qed.
Lemma spec_range x p k s : chosen_from c x -> get_spec x p k = Some (Some s) -> p < m /\ k < G.
Proof.
  intros (_ & _ & _ & _ & K5 & K6 & _). unfold get_spec. destruct (nth_error (cv_pats x) p) as [pat|] eqn:E; [|discriminate]. intros E2. split.
  - unfold cv_mult. rewrite <- (map_length pat_proto (cv_pats c)), <- K5, map_length. apply nth_error_Some. congruence.
  - rewrite Forall_forall in K6. rewrite <- (K6 pat (nth_error_In _ _ E)). apply nth_error_Some. congruence.
Qed.
Context (fuel : nat) (T : list (junction * list curve)) (ET : get_junction_templates fuel c = Some T).
Lemma T_dget j cs : In (j, cs) T -> dget junc_eqb T j = Some cs.
Proof.
  destruct (templates_reach d N group dtr paths HG HP c HB fuel T ET) as [ND _]. revert ND. clear. induction T as [|[j0 l0] T' IH]; intros ND; [intros []|]. cbn [tkeys map fst] in ND. inversion ND as [|? ? NI ND']; subst. cbn [dget]. intros [E|Hin].
  - injection E as -> ->. rewrite (proj2 (junc_eqb_key j j)) by auto. auto.
  - destruct (junc_eqb j j0) eqn:E; [|apply IH; auto]. apply junc_eqb_key in E. exfalso. apply NI. rewrite <- E. apply in_map_iff. exists (j, cs). auto.
Qed.
Lemma dget_T j cs : dget junc_eqb T j = Some cs -> exists j', jkey j' = jkey j /\ In (j', cs) T.
Proof.
  clear. induction T as [|[j0 l0] T' IH]; cbn [dget]; [discriminate|]. destruct (junc_eqb j j0) eqn:E.
  - intros X. injection X as ->. apply junc_eqb_key in E. exists j0. cbn. auto.
  - intros X. destruct (IH X) as (j' & A & B). exists j'. cbn. auto.
Qed.
(** a chosen curve is a valuation *)
Lemma chosen_val x : chosen_from c x -> exists V, (positions V /\ autos V /\ Forall (tmeans V) T) /\
  (forall p k s, V (KS (p, k, s)) = true <-> get_spec x p k = Some (Some s)) /\ forall j, V (KJ (jkey j)) = true <-> has_junction x j.
Proof.
  intros HX. destruct (templates_x_end d N group dtr paths HG HP c HB fuel T x ET HX) as (fuel0 & HF). specialize (HF fuel0 (le_n _)). destruct (gen_regular_junctions fuel0 x) as [js e] eqn:EJ. cbn [snd] in HF. subst e.
  assert (JD : forall k k' : jk, {k = k'} + {k <> k'}) by (repeat decide equality; apply Z.eq_dec).
  assert (OD : forall k k' : option (option spec), {k = k'} + {k <> k'}) by (repeat decide equality; apply Z.eq_dec).
  set (V := fun k => match k with
     | KS t => if OD (get_spec x (fst (fst t)) (snd (fst t))) (Some (Some (snd t))) then true else false
     | KJ key => if in_dec JD key (map jkey (gen_auto_junctions x ++ js)) then true else false
     | KC l => forallb (fun t => if OD (get_spec x (fst (fst t)) (snd (fst t))) (Some (Some (snd t))) then true else false) l
     end).
  assert (TE := templates_exact d N group dtr paths HG HP c HB fuel T ET x).
  assert (VS : forall p k s, V (KS (p, k, s)) = true <-> get_spec x p k = Some (Some s)).
  { intros p k s. cbn [V fst snd]. destruct (OD _ _); split; auto; discriminate. }
  assert (VC : forall f, V (KC (gen_defined_specs f)) = true <-> consistent f x).
  { intros f. cbn [V]. rewrite forallb_forall, consistent_all. split; intros H t Ht; specialize (H t Ht); destruct (OD _ _); auto; discriminate. }
  assert (VJ : forall j, V (KJ (jkey j)) = true <-> has_junction x j).
  { intros j. cbn [V]. destruct (in_dec JD (jkey j) (map jkey (gen_auto_junctions x ++ js))) as [H|H].
    - split; auto. intros _. apply in_map_iff in H as (j' & E & Hj). exists j'. split; [|exact E]. apply in_app_or in Hj as [Hj|Hj]; auto. right. eauto.
    - split; [discriminate|]. intros (j' & Hj & E). exfalso. apply H. apply in_map_iff. exists j'. split; [exact E|]. apply in_or_app. destruct Hj as [Hj|(f2 & js2 & E2 & Hj)]; auto. right.
      destruct (proj1 (TE f2 js2 HX E2 j) (ex_intro _ j' (conj Hj E))) as (cvs & cv & Q). destruct (proj2 (TE fuel0 js HX EJ j) (ex_intro _ cvs (ex_intro _ cv Q))) as (j2 & J1 & J2).
      exfalso. apply H. apply in_map_iff. exists j2. split; auto. apply in_or_app. auto. }
  exists V. split; [|auto]. split; [|split].
  - intros p k l Hp Hk El. pose proof HX as (_ & _ & _ & _ & _ & _ & H). destruct (H p k Hp Hk) as (s & l' & E1 & E2 & E3). assert (l' = l) by congruence. subst l'. exists s. split; auto. split; [apply VS; auto|]. intros s' _ E'. apply VS in E'. congruence.
  - intros p Hp. apply VJ. exists (auto_junction (cv_dim c) p). split; [|auto]. left. unfold gen_auto_junctions. pose proof HX as (_ & K2 & _). rewrite K2. apply in_map. rewrite (x_m c x HX). unfold range. apply in_seq. lia.
  - apply Forall_forall. intros [j cs] Hin. unfold tmeans. cbn [fst snd]. split.
    + apply Forall_forall. intros f Hf. unfold cdef. rewrite VC, consistent_all, Forall_forall. split; intros H [[p k] s] Ht; [apply VS, (H (p, k, s)); auto|apply VS, (H (p, k, s)); auto].
    + pose proof (TE fuel0 js HX EJ j) as Q. rewrite (T_dget j cs Hin) in Q. rewrite VJ. split.
      * intros (j' & Hj & E). destruct Hj as [Hj|(f2 & js2 & E2 & Hj)].
        -- exfalso. unfold gen_auto_junctions in Hj. apply in_map_iff in Hj as (p & <- & _). pose proof (templates_dt fuel c T ET) as DT. rewrite Forall_forall in DT. specialize (DT _ Hin). cbn [fst] in DT. assert (X : j_dt (auto_junction (cv_dim x) p) = j_dt j) by congruence. rewrite DT in X. discriminate X.
        -- destruct (proj1 (TE f2 js2 HX E2 j) (ex_intro _ j' (conj Hj E))) as (cvs & cv & Q1 & Q2 & Q3). rewrite (T_dget j cs Hin) in Q1. injection Q1 as <-. exists cv. split; auto. apply VC. auto.
      * intros (cv & Hcv & Ev). apply VC in Ev. destruct (proj2 Q) as (j' & J1 & J2); [exists cs, cv; auto|]. exists j'. split; [right; eauto|exact J2].
Qed.
(** a curve whose specs are true in a valuation *)
Lemma val_avoids V y forb : chosen_from c y -> autos V -> Forall (tmeans V) T -> Forall (fmeans V) forb ->
  (forall p k s, get_spec y p k = Some (Some s) -> V (KS (p, k, s)) = true) -> avoids y forb.
Proof.
  intros HY HA HT HF HS j f Hin HC (j' & Hj & E). change (jkey j' = jkey j) in E.
  assert (VJ : V (KJ (jkey j)) = true).
  { rewrite <- E. destruct Hj as [Hj|(f2 & js2 & E2 & Hj)].
    - unfold gen_auto_junctions in Hj. apply in_map_iff in Hj as (p & <- & Hp). pose proof HY as (_ & K2 & _). rewrite K2. apply HA. unfold range in Hp. apply in_seq in Hp. rewrite (x_m c y HY) in Hp. lia.
    - destruct (proj1 (templates_exact d N group dtr paths HG HP c HB fuel T ET y f2 js2 HY E2 j') (ex_intro _ j' (conj Hj eq_refl))) as (cvs & cv & Q1 & Q2 & Q3). apply dget_T in Q1 as (j2 & J1 & J2). rewrite Forall_forall in HT. destruct (HT _ J2) as [T1 T2]. cbn [fst snd] in *. rewrite <- J1. apply T2. exists cv. split; auto.
      rewrite Forall_forall in T1. apply (T1 cv Q2). apply Forall_forall. intros [[p k] s] Ht. apply HS. apply Q3. apply defined_in. auto. }
  rewrite Forall_forall in HF. destruct (HF _ Hin) as [H|(x & Hx & H)]; cbn [fst snd] in *; [congruence|]. destruct x as [[p k] s]. rewrite HS in H; [discriminate|]. apply HC. apply defined_in. auto.
Qed.
Lemma chosen_fmeans V x forb : (forall p k s, V (KS (p, k, s)) = true <-> get_spec x p k = Some (Some s)) -> (forall j, V (KJ (jkey j)) = true <-> has_junction x j) -> avoids x forb -> Forall (fmeans V) forb.
Proof.
  intros VS VJ HA. apply Forall_forall. intros [j f] Hin. unfold fmeans. cbn [fst snd]. destruct (V (KJ (jkey j))) eqn:EJ; auto. right. apply VJ in EJ.
  assert (HN : ~ consistent f x) by (intros HC; apply (HA j f Hin HC EJ)). rewrite consistent_all in HN.
  assert (HN' : ~ forall t, In t (gen_defined_specs f) -> V (KS t) = true) by (intros H; apply HN; intros [[p k] s] Ht; apply VS, (H (p, k, s)); auto).
  clear -HN'. induction (gen_defined_specs f) as [|t l IH]; [exfalso; apply HN'; intros t []|]. destruct (V (KS t)) eqn:E; [|exists t; cbn; auto]. destruct IH as (y & Hy & Ey); [intros H; apply HN'; intros y [<-|Hy]; auto|exists y; cbn; auto].
Qed.
Lemma curve_of_specs_chosen ss : length ss = m * G -> (forall p k, p < m -> k < G -> exists s l, nth_error ss (p * G + k) = Some s /\ gen_allowed_specs c p k = Some l /\ In s l) -> chosen_from c (curve_of_specs c ss).
Proof.
  intros HL HS. split; [|split; [|split; [|split; [|split; [|split]]]]]; auto.
  - apply nth_error_ext. intros p. rewrite !nth_error_map, pats_curve_of. destruct (nth_error (cv_pats c) p); auto.
  - apply Forall_forall. intros pat Hpat. apply In_nth_error in Hpat as (p & Hp). rewrite pats_curve_of in Hp. destruct (nth_error (cv_pats c) p) as [pat0|] eqn:E; [|discriminate]. injection Hp as <-. cbn [pat_specs]. rewrite map_length, slice_length; [lia|]. rewrite HL.
    assert (p < m) by (apply nth_error_Some; congruence). nia.
  - intros p k Hp Hk. destruct (HS p k Hp Hk) as (s & l & A & B & D). exists s, l. split; auto. rewrite (get_spec_curve_of c ss p k HL Hp Hk), A. auto.
Qed.
Lemma decode a V mm dict : ad_curve a = c -> get_model a mm = Some dict -> positions V -> (forall v, (match dget bvar_eqb dict v with Some b => b | None => true end) = V (vkey v)) ->
  exists y, get_model_curve a mm = Some (cv_with_pnum y 0) /\ chosen_from c y /\ forall p k s, get_spec y p k = Some (Some s) -> V (KS (p, k, s)) = true.
Proof.
  intros EC EM HPO HV. unfold get_model_curve. rewrite EC, EM. cbv zeta.
  destruct (built_good d N group dtr paths HG HP c HB) as (_ & _ & _ & _ & _ & _ & A).
  assert (FD : forall p k, p < m -> k < G -> exists s l, gen_allowed_specs c p k = Some l /\ find (allowed_by_model dict p k) l = Some s /\ In s l /\ V (KS (p, k, s)) = true).
  { intros p k Hp Hk. destruct (A p k Hp Hk) as (l & L1 & _). destruct (HPO p k l Hp Hk L1) as (s & Hs & Es & _). destruct (find (allowed_by_model dict p k) l) as [s'|] eqn:EF.
    - pose proof (find_some _ _ EF) as [F1 F2]. exists s', l. split; [auto|]. split; [auto|]. split; [auto|]. unfold allowed_by_model in F2. rewrite HV in F2. auto.
    - exfalso. pose proof (find_none _ _ EF s Hs) as X. unfold allowed_by_model in X. rewrite HV in X. cbn [vkey] in X. congruence. }
  destruct (omap_some_all (fun pc => obind (gen_allowed_specs c (fst pc) (snd pc)) (fun l => find (allowed_by_model dict (fst pc) (snd pc)) l)) (list_prod (range m) (range G))) as (ss & ES).
  { intros [p k] Hin. apply in_positions in Hin as [Hp Hk]. destruct (FD p k Hp Hk) as (s & l & L1 & L2 & _). exists s. cbn [fst snd]. rewrite L1. auto. }
  rewrite ES. pose proof (omap_length _ _ _ ES) as HL. rewrite length_positions in HL.
  assert (AT : forall p k, p < m -> k < G -> exists s l, nth_error ss (p * G + k) = Some s /\ gen_allowed_specs c p k = Some l /\ In s l /\ V (KS (p, k, s)) = true).
  { intros p k Hp Hk. destruct (omap_nth _ _ _ _ _ ES (nth_positions m G p k Hp Hk)) as (s & S1 & S2). destruct (FD p k Hp Hk) as (s' & l & L1 & L2 & L3 & L4). cbn [fst snd] in S2. rewrite L1 in S2. cbn [obind] in S2. assert (s' = s) by congruence. subst s'. exists s, l. auto. }
  exists (curve_of_specs c ss). split; [|split].
  - unfold cv_with_pnum, curve_of_specs. cbn [cv_dim cv_div cv_pats cv_kind]. do 2 f_equal. apply map_ext. intros [p pat]. cbn [fst snd]. do 3 f_equal; apply Nat.mul_comm.
  - apply curve_of_specs_chosen; auto. intros p k Hp Hk. destruct (AT p k Hp Hk) as (s & l & B1 & B2 & B3 & _). eauto.
  - intros p k s E. assert (HC : chosen_from c (curve_of_specs c ss)) by (apply curve_of_specs_chosen; auto; intros p' k' Hp Hk; destruct (AT p' k' Hp Hk) as (s' & l & B1 & B2 & B3 & _); eauto).
    destruct (spec_range _ p k s HC E) as [Hp Hk]. destruct (AT p k Hp Hk) as (s' & l & B1 & _ & _ & B4). rewrite (get_spec_curve_of c ss p k HL Hp Hk), B1 in E. cbn [option_map] in E. assert (s' = s) by congruence. subst. auto.
Qed.
End Load.

(** C30 *)
Section Main.
Context (d N : nat) (group : option (list base_map)) (dtr : bool) (paths : list (path (list Qc))).
Context (HG : valid_group d group) (HP : valid_paths d N paths) (c : curve) (HB : built group dtr paths c).
Context (fuel : nat) (a0 : adapter) (HL : ad_load fuel c = Some a0) (forb : list (junction * curve)).
Let a := forbid_all a0 forb.
Lemma all_inv : exists T, get_junction_templates fuel c = Some T /\ ad_curve a = c /\ inv a (fun V => (positions c V /\ autos c V /\ Forall (tmeans V) T) /\ Forall (fmeans V) forb).
Proof.
  destruct (load_inv d N group dtr paths HG HP c HB fuel a0 HL) as (T & ET & EC & HI). destruct (inv_forbid forb a0 _ HI) as [C I]. exists T. split; auto. split; [unfold a; congruence|auto].
Qed.
Theorem satisfiable_iff : (exists val, satisfies val (ad_clauses a)) <-> exists x, chosen_from c x /\ avoids x forb.
Proof.
  destruct all_inv as (T & ET & EC & ((cls & HE & HS) & _)). split.
  - intros (val & HV). destruct (satisfies_sat a cls val HE HV) as (V & _ & SV). apply HS in SV as ((P1 & P2 & P3) & P4).
    destruct (built_good d N group dtr paths HG HP c HB) as (_ & _ & _ & _ & _ & _ & A).
    set (L := list_prod (range (cv_mult c)) (range (cv_genus c))).
    destruct (omap_some_all (fun pc => obind (gen_allowed_specs c (fst pc) (snd pc)) (fun l => find (fun s => V (KS (fst pc, snd pc, s))) l)) L) as (ss & ES).
    { intros [p k] Hin. apply in_positions in Hin as [Hp Hk]. destruct (A p k Hp Hk) as (l & L1 & _). destruct (P1 p k l Hp Hk L1) as (s & Hs & Es & _). cbn [fst snd]. rewrite L1. cbn [obind]. destruct (find _ l) eqn:EF; [eauto|]. exfalso. pose proof (find_none _ _ EF s Hs) as X. cbv beta in X. congruence. }
    assert (LN : length ss = cv_mult c * cv_genus c) by (rewrite (omap_length _ _ _ ES); apply length_positions).
    assert (AT : forall p k, p < cv_mult c -> k < cv_genus c -> exists s l, nth_error ss (p * cv_genus c + k) = Some s /\ gen_allowed_specs c p k = Some l /\ In s l /\ V (KS (p, k, s)) = true).
    { intros p k Hp Hk. destruct (omap_nth _ _ _ _ _ ES (nth_positions _ _ p k Hp Hk)) as (s & S1 & S2). cbn [fst snd] in S2. destruct (A p k Hp Hk) as (l & L1 & _). rewrite L1 in S2. cbn [obind] in S2. apply find_some in S2 as [F1 F2]. exists s, l. auto. }
    assert (CH : chosen_from c (curve_of_specs c ss)) by (apply curve_of_specs_chosen; auto; intros p k Hp Hk; destruct (AT p k Hp Hk) as (s & l & B1 & B2 & B3 & _); eauto).
    exists (curve_of_specs c ss). split; auto. apply (val_avoids d N group dtr paths HG HP c HB fuel T ET V); auto.
    intros p k s E. destruct (spec_range c _ p k s CH E) as [Hp Hk]. destruct (AT p k Hp Hk) as (s' & l & B1 & _ & _ & B4). rewrite (get_spec_curve_of c ss p k LN Hp Hk), B1 in E. cbn [option_map] in E. assert (s' = s) by congruence. subst. auto.
  - intros (x & HX & HA). destruct (chosen_val d N group dtr paths HG HP c HB fuel T ET x HX) as (V & P & VS & VJ). apply (sat_satisfies a cls V HE). apply HS. split; auto. apply (chosen_fmeans V x); auto.
Qed.
Theorem decode_avoids mm : model_of mm (ad_clauses a) -> exists y, get_model_curve a mm = Some (pattern_curve y 0) /\ chosen_from c y /\ avoids y forb /\ avoids (pattern_curve y 0) forb.
Proof.
  intros HM. destruct all_inv as (T & ET & EC & ((cls & HE & HS) & _)). destruct (model_val a cls mm HE HM) as (dict & V & D1 & D2 & D3). apply HS in D2 as ((P1 & P2 & P3) & P4).
  destruct (decode d N group dtr paths HG HP c HB a V mm dict EC D1 P1 D3) as (y & Y1 & Y2 & Y3). assert (A : avoids y forb) by (apply (val_avoids d N group dtr paths HG HP c HB fuel T ET V); auto). exists y. split; auto. split; auto. split; auto. apply avoids_pnum. auto.
Qed.
Theorem clauses_nonzero : forall cl t, In cl (ad_clauses a) -> In t cl -> t <> 0%Z.
Proof. destruct all_inv as (T & ET & EC & ((cls & HE & HS) & _)). apply (enc_nonzero a cls HE). Qed.
Theorem solve_exact solver call : sat_ok solver ->
  match ad_solve solver call a with
  | None => forall x, chosen_from c x -> ~ avoids x forb
  | Some mm => exists y, get_model_curve a mm = Some (pattern_curve y 0) /\ chosen_from c y /\ avoids y forb /\ avoids (pattern_curve y 0) forb
  end.
Proof.
  intros HS. specialize (HS call (ad_clauses a) clauses_nonzero). unfold ad_solve. destruct (solver call (ad_clauses a)) as [mm|].
  - apply decode_avoids; auto.
  - intros x HX HA. destruct (proj2 satisfiable_iff) as (val & HV); [eauto|]. apply (HS val HV).
Qed.
End Main.
