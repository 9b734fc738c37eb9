(** Fuzzy curves under base maps (C27) and specify (C28). *)
From Verif Require Import Py L_Py L_Qc M_BaseMaps S_BaseMaps L_BaseMaps P_Actions P_GenMaps M_Subsets S_Subsets P_Subsets P_Points
  M_Paths M_Utils M_Curves S_Utils S_Curves S_Paths S_Fuzzy P_CurveAct P_Core P_Bridge P_Paths P_Entrance P_Cont P_Check P_Fuzzy P_FuzzyInit P_FuzzyCurves P_FuzzyMain.
From Coq Require Import Lia.
Local Open Scope nat_scope.

Lemma dget_mapv {K A B} (keqb : K -> K -> bool) (f : A -> B) (ls : list (K * A)) k :
  dget keqb (map (fun e => (fst e, f (snd e))) ls) k = option_map f (dget keqb ls k).
Proof. induction ls as [|[a b] ls IH]; cbn; auto. destruct (keqb k a); auto. Qed.
Lemma conj_cube d a b : wf_bm d a -> wf_bm d b -> bm_conj a (cube_map b) = bm_mul (bm_mul b a) (bm_inv b).
Proof.
  intros Ha Hb. rewrite <- (conj_cube_mul (Cv d 0 [] 0 KFuzzy) b a) by auto. rewrite (mul_assoc d), (mul_inv_r d), (mul_id_r d); auto using wf_inv, wf_conj, wf_cube_map.
Qed.
Lemma flat_map_map {A B C} (f : B -> list C) (g : A -> B) l : flat_map f (map g l) = flat_map (fun x => f (g x)) l.
Proof. induction l; cbn; congruence. Qed.
Lemma map_flat_map {A B C} (f : B -> C) (g : A -> list B) l : map f (flat_map g l) = flat_map (fun x => map f (g x)) l.
Proof. induction l; cbn; rewrite ?map_app; congruence. Qed.
Lemma flat_map_ext_in {A B} (f g : A -> list B) l : (forall a, In a l -> f a = g a) -> flat_map f l = flat_map g l.
Proof. induction l; cbn; intros H; auto. rewrite H, IHl; auto. Qed.

Definition path_data_ok (c : curve) : Prop :=
  match cv_kind c with
  | KPath f => Forall (fun ld => Forall (wf_bm (cv_dim c)) (snd ld)) (links_symm f) /\
      length (pat_links f) = cv_mult c /\ length (pat_reprs f) = cv_mult c /\
      Forall (fun l => length l = cv_genus c) (pat_links f) /\ Forall (fun l => length l = cv_genus c) (pat_reprs f)
  | _ => True
  end.

Section Mul.
Context (c : curve) (HV : valid_fuzzy c) (HD : path_data_ok c) (b : base_map) (Hb : wf_bm (cv_dim c) b) (q : nat).
Notation G := (cv_genus c). Notation m := (cv_mult c). Notation d := (cv_dim c).
Lemma get_spec_mul p k : p < m -> k < G ->
  get_spec (cv_mul b q c) p k = option_map (option_map (fun s => sp_conj s (cube_map b))) (get_spec c p (flip_num b G k)).
Proof.
  intros Hp Hk. unfold get_spec. rewrite cv_mul_eq. cbn [cv_pats]. rewrite nth_error_map. destruct (nth_error (cv_pats c) p) as [pat|] eqn:E; auto.
  cbn [option_map pat_mul pat_specs]. rewrite nth_error_map. f_equal. unfold flip_num.
  destruct HV as (_ & _ & _ & _ & HF). rewrite Forall_forall in HF. destruct (HF pat (nth_error_In _ _ E)) as (_ & HL & _).
  destruct (time_rev b); auto. rewrite nth_error_rev; rewrite HL; auto.
Qed.
Lemma pf_allowed_mul f p k : cv_kind c = KPath f -> p < m -> k < G ->
  pf_allowed (pf_mul b f) p k = option_map (map (fun s => sp_conj s (cube_map b))) (pf_allowed f p (flip_num b G k)).
Proof.
  intros EK Hp Hk. unfold path_data_ok in HD. rewrite EK in HD. destruct HD as (D1 & D2 & D3 & D4 & D5).
  destruct HV as (_ & _ & _ & HK & _). rewrite EK in HK. destruct HK as [K1 K2].
  unfold pf_allowed, pf_mul. cbn [links_symm links_std pat_links pat_reprs].
  destruct (nth_error (pat_links f) p) as [ls|] eqn:E1; [|apply nth_error_None in E1; lia].
  destruct (nth_error (pat_reprs f) p) as [rs|] eqn:E2; [|apply nth_error_None in E2; lia].
  rewrite Forall_forall in D4, D5, K2. pose proof (D4 _ (nth_error_In _ _ E1)) as L1. pose proof (D5 _ (nth_error_In _ _ E2)) as L2. pose proof (K2 _ (nth_error_In _ _ E2)) as W2.
  assert (E1' : nth_error (if time_rev b then map (@rev plink) (pat_links f) else pat_links f) p = Some (if time_rev b then rev ls else ls)).
  { destruct (time_rev b); auto. rewrite nth_error_map, E1. auto. }
  rewrite E1'. rewrite nth_error_map, E2. cbn [option_map]. rewrite nth_error_map.
  assert (F1 : nth_error (if time_rev b then rev ls else ls) k = nth_error ls (flip_num b G k)) by (unfold flip_num; destruct (time_rev b); auto; rewrite nth_error_rev; rewrite L1; auto).
  assert (F2 : nth_error (if time_rev b then rev rs else rs) k = nth_error rs (flip_num b G k)) by (unfold flip_num; destruct (time_rev b); auto; rewrite nth_error_rev; rewrite L2; auto).
  rewrite F1, F2. destruct (nth_error ls (flip_num b G k)) as [lk|]; auto. destruct (nth_error rs (flip_num b G k)) as [r|] eqn:Er; cbn [option_map]; auto.
  rewrite Forall_forall in W2. pose proof (W2 _ (nth_error_In _ _ Er)) as Wr.
  rewrite (dget_mapv pl_eqb (fun ms => map (fun pm : nat * base_map => (fst pm, bm_mul (snd pm) (bm_inv b))) ms)).
  destruct (dget pl_eqb (links_symm f) lk) as [symms|] eqn:ES; auto. destruct (dget pl_eqb (links_std f) lk) as [std|] eqn:EST; auto. cbn [option_map]. f_equal.
  apply (dget_In _ pl_eqb_ok) in ES, EST. rewrite Forall_forall in D1, K1. pose proof (D1 _ ES) as Ws. pose proof (K1 _ EST) as Wd. cbn [snd] in Ws, Wd. rewrite Forall_forall in Ws, Wd.
  rewrite flat_map_map, map_flat_map. apply flat_map_ext_in. intros pm Hpm. rewrite map_map. apply map_ext_in. intros sy Hsy. cbn [fst snd].
  unfold sp_conj. cbn [sp_bm sp_pnum]. f_equal. rewrite (conj_cube d) by auto using wf_mul.
  rewrite !(mul_assoc d); auto 8 using wf_mul, wf_inv.
Qed.
Theorem allowed_mul p k : p < m -> k < G ->
  gen_allowed_specs (cv_mul b q c) p k = option_map (map (fun s => sp_conj s (cube_map b))) (gen_allowed_specs c p (flip_num b G k)).
Proof.
  intros Hp Hk. unfold gen_allowed_specs. rewrite get_spec_mul by auto. rewrite cv_mul_eq. cbn [cv_kind]. destruct (cv_kind c) as [| |f] eqn:EK; cbn [kind_mul]; auto.
  - destruct (get_spec c p (flip_num b G k)) as [[s|]|]; auto.
  - destruct (get_spec c p (flip_num b G k)) as [[s|]|]; auto. cbn [option_map]. apply pf_allowed_mul; auto.
Qed.
Lemma data_mul : path_data_ok (cv_mul b q c).
Proof.
  unfold path_data_ok in *. unfold cv_genus, cv_mult in *. rewrite cv_mul_eq. cbn [cv_kind cv_dim cv_div cv_pats]. rewrite map_length.
  destruct (cv_kind c) as [| |f]; cbn [kind_mul pf_mul links_symm pat_links pat_reprs]; auto. destruct HD as (D1 & D2 & D3 & D4 & D5).
  repeat split; auto.
  - destruct (time_rev b); rewrite ?map_length; auto.
  - rewrite map_length; auto.
  - destruct (time_rev b); auto. rewrite Forall_map. eapply Forall_impl; [|exact D4]. intros l. rewrite rev_length. auto.
  - rewrite Forall_map. eapply Forall_impl; [|exact D5]. intros l. rewrite map_length. destruct (time_rev b); rewrite ?rev_length; auto.
Qed.
End Mul.

Section Spec.
Context (c : curve).
Notation G := (cv_genus c). Notation m := (cv_mult c). Notation d := (cv_dim c).
Lemma specify_one p k s c' : specify_allowed c [(p, [(k, s)])] = Some c' ->
  cv_kind c' = cv_kind c /\ cv_dim c' = d /\ cv_div c' = cv_div c /\ cv_pnum c' = cv_pnum c /\
  map pat_proto (cv_pats c') = map pat_proto (cv_pats c) /\
  map (fun pat => length (pat_specs pat)) (cv_pats c') = map (fun pat => length (pat_specs pat)) (cv_pats c) /\
  forall p' k', get_spec c' p' k' = if Nat.eqb p p' && Nat.eqb k k' then Some (Some s) else get_spec c p' k'.
Proof.
  unfold specify_allowed. cbn [fold_left obind fst snd]. destruct (nth_error (cv_pats c) p) as [pat|] eqn:E; [|discriminate].
  unfold set_specs. cbn [fold_left obind fst snd]. destruct (Nat.ltb_spec k (length (pat_specs pat))) as [Hk|]; [|discriminate]. cbn [option_map]. intros EC. injection EC as <-.
  assert (Hp : p < length (cv_pats c)) by (apply nth_error_Some; congruence).
  cbn [cv_with_pats cv_kind cv_dim cv_div cv_pnum cv_pats]. repeat split; auto.
  - apply nth_error_ext. intros i. rewrite !nth_error_map, nth_error_upd. destruct (Nat.eqb_spec p i); auto. subst i. rewrite E. destruct (Nat.ltb_spec p (length (cv_pats c))); [auto|lia].
  - apply nth_error_ext. intros i. rewrite !nth_error_map, nth_error_upd. destruct (Nat.eqb_spec p i); auto. subst i. rewrite E. destruct (Nat.ltb_spec p (length (cv_pats c))); [|lia].
    cbn. rewrite length_upd. auto.
  - intros p' k'. unfold get_spec. cbn [cv_pats cv_with_pats]. rewrite nth_error_upd. destruct (Nat.eqb_spec p p'); cbn [andb]; auto. subst p'.
    destruct (Nat.ltb_spec p (length (cv_pats c))); [|lia]. cbn [pat_specs]. rewrite nth_error_upd. rewrite E. destruct (Nat.eqb_spec k k'); auto. destruct (Nat.ltb_spec k (length (pat_specs pat))); [auto|lia].
Qed.
Lemma specify_raises p k s : specify c p k s = None <-> ~ exists l, gen_allowed_specs c p k = Some l /\ In s l.
Proof.
  unfold specify. destruct (gen_allowed_specs c p k) as [l|] eqn:E; [|split; auto; intros _ (l & F & _); discriminate].
  destruct (memb spec_eqb s l) eqn:EM.
  - apply (memb_In _ spec_eqb_ok) in EM. split; [|intros H; exfalso; apply H; eauto]. intros H. exfalso.
    unfold gen_allowed_specs in E. destruct (get_spec c p k) as [[s'|]|] eqn:ES; [discriminate| |destruct (cv_kind c); discriminate].
    unfold specify_allowed in H. cbn [fold_left obind fst snd] in H. unfold get_spec in ES. destruct (nth_error (cv_pats c) p) as [pat|]; [|discriminate].
    unfold set_specs in H. cbn [fold_left obind fst snd] in H. assert (Hk : k < length (pat_specs pat)) by (apply nth_error_Some; congruence).
    destruct (Nat.ltb_spec k (length (pat_specs pat))); [discriminate|lia].
  - apply (memb_false _ spec_eqb_ok) in EM. split; auto. intros _ (l' & F & Hin). congruence.
Qed.
Lemma specify_keeps p k s c' : specify c p k s = Some c' ->
  cv_kind c' = cv_kind c /\ cv_dim c' = d /\ cv_div c' = cv_div c /\ cv_pnum c' = cv_pnum c /\
  map pat_proto (cv_pats c') = map pat_proto (cv_pats c) /\
  map (fun pat => length (pat_specs pat)) (cv_pats c') = map (fun pat => length (pat_specs pat)) (cv_pats c) /\
  forall p' k', get_spec c' p' k' = if Nat.eqb p p' && Nat.eqb k k' then Some (Some s) else get_spec c p' k'.
Proof.
  intros E. assert (HS : exists l, gen_allowed_specs c p k = Some l /\ In s l).
  { unfold specify in E. destruct (gen_allowed_specs c p k) as [l|]; [|discriminate]. destruct (memb spec_eqb s l) eqn:EM; [|discriminate]. apply (memb_In _ spec_eqb_ok) in EM. eauto. }
  destruct HS as (l & El & Hs). unfold specify in E. rewrite El in E. rewrite (proj2 (memb_In _ spec_eqb_ok _ _) Hs) in E.
  destruct (get_spec c p k) as [[s0|]|] eqn:ES; try (apply specify_one; auto; fail). injection E as <-. repeat split; auto.
  intros p' k'. destruct (Nat.eqb_spec p p'); auto. destruct (Nat.eqb_spec k k'); auto. cbn. subst. rewrite ES.
  unfold gen_allowed_specs in El. rewrite ES in El. assert (l = [s0]) by (destruct (cv_kind c); congruence). subst l. destruct Hs as [->|[]]. auto.
Qed.
Lemma specify_allowed_specs p k s c' : specify c p k s = Some c' -> forall p' k',
  gen_allowed_specs c' p' k' = if Nat.eqb p p' && Nat.eqb k k' then Some [s] else gen_allowed_specs c p' k'.
Proof.
  intros E p' k'. destruct (specify_keeps p k s c' E) as (E1 & E2 & E3 & E4 & E5 & E6 & E7). unfold gen_allowed_specs. rewrite E1, E7.
  destruct (Nat.eqb p p' && Nat.eqb k k'); auto. destruct (cv_kind c) eqn:EK; auto.
  unfold specify, gen_allowed_specs in E. rewrite EK in E. discriminate.
Qed.
Lemma specify_genus p k s c' : specify c p k s = Some c' -> cv_genus c' = G /\ cv_mult c' = m.
Proof.
  intros E. destruct (specify_keeps p k s c' E) as (E1 & E2 & E3 & E4 & E5 & _). unfold cv_genus, cv_mult. rewrite E2, E3. split; auto.
  rewrite <- (map_length pat_proto (cv_pats c')), E5, map_length. auto.
Qed.
Theorem specify_chosen p k s c' x : p < m -> k < G -> specify c p k s = Some c' ->
  (chosen_from c' x <-> chosen_from c x /\ get_spec x p k = Some (Some s)).
Proof.
  intros Hp Hk E. destruct (specify_keeps p k s c' E) as (E1 & E2 & E3 & E4 & E5 & E6 & E7). destruct (specify_genus p k s c' E) as [EG EM].
  pose proof (specify_allowed_specs p k s c' E) as EA. assert (HS : exists l, gen_allowed_specs c p k = Some l /\ In s l).
  { unfold specify in E. destruct (gen_allowed_specs c p k) as [l|]; [|discriminate]. destruct (memb spec_eqb s l) eqn:EMB; [|discriminate]. apply (memb_In _ spec_eqb_ok) in EMB. eauto. }
  unfold chosen_from. rewrite E2, E3, E4, E5, EG, EM. split.
  - intros (K1 & K2 & K3 & K4 & K5 & K6 & K7). destruct (K7 p k Hp Hk) as (s0 & l & A & B & C). rewrite EA, !Nat.eqb_refl in B. cbn in B. injection B as <-. destruct C as [<-|[]].
    repeat (split; auto). intros p' k' Hp' Hk'. destruct (K7 p' k' Hp' Hk') as (s1 & l1 & A1 & B1 & C1). rewrite EA in B1.
    destruct (Nat.eqb_spec p p'); cbn [andb] in B1; [|exists s1, l1; auto]. destruct (Nat.eqb_spec k k'); [|exists s1, l1; auto].
    subst p' k'. destruct HS as (l & EL & HL). exists s, l. auto.
  - intros ((K1 & K2 & K3 & K4 & K5 & K6 & K7) & HX). repeat (split; auto). intros p' k' Hp' Hk'. destruct (K7 p' k' Hp' Hk') as (s1 & l1 & A1 & B1 & C1).
    destruct (Nat.eqb p p' && Nat.eqb k k') eqn:EE; [|exists s1, l1; rewrite EA, EE; auto].
    exists s, [s]. rewrite EA, EE. apply andb_true_iff in EE as [X1 X2]. apply Nat.eqb_eq in X1, X2. subst. repeat split; cbn; auto.
Qed.
End Spec.

(** the curves a user can build *)
Section Built.
Context (d N : nat) (group : option (list base_map)) (dtr : bool) (paths : list (path (list Qc))).
Context (HG : valid_group d group) (HP : valid_paths d N paths).
Definition good (c : curve) : Prop := valid_fuzzy c /\ path_data_ok c /\ cv_dim c = d /\ cv_div c = N /\ cv_mult c = length paths /\ cv_genus c = N ^ d /\
  forall p k, p < cv_mult c -> k < cv_genus c -> exists l, gen_allowed_specs c p k = Some l /\ NoDup l /\ l <> [] /\ forall s, In s l -> wf_spec d (cv_mult c) s.
Lemma init_data c : init_from_paths paths group dtr = Some c -> path_data_ok c.
Proof.
  intros EC. destruct (init_attrs d N group dtr paths HG HP c EC) as (E1 & E2 & E3 & E4 & E5 & _). unfold path_data_ok. rewrite E1, E4, E5.
  pose proof (path_len d N paths HP) as PL.
  rewrite (init_unfold d N group dtr paths HP) in EC. set (g := opt_group group dtr d) in *. pose proof (opt_group_subgroup d group dtr HG) as Hg. fold g in Hg.
  destruct (init_std_ok d g Hg paths) as (D & ED & HD). rewrite ED in EC. destruct (omap _ paths) as [frs|] eqn:E; [|discriminate]. injection EC as <-.
  cbn [cv_kind links_symm pat_links pat_reprs]. unfold symm_of. rewrite !map_length. rewrite !Forall_map. pose proof (omap_length _ _ _ E) as EL. repeat split; auto.
  - apply Forall_forall. intros ld _. cbn [snd]. apply Forall_forall. intros b Hb. apply filter_In in Hb as [Hb _]. apply (g_wf d g Hg); auto.
  - apply Forall_forall. intros fr Hin. rewrite map_length. apply In_nth_error in Hin as (i & Hi). destruct (omap_nth' _ _ _ _ _ E Hi) as (pth & A & B).
    rewrite (omap_length _ _ _ B). apply (PL i); auto.
  - apply Forall_forall. intros fr Hin. rewrite map_length. apply In_nth_error in Hin as (i & Hi). destruct (omap_nth' _ _ _ _ _ E Hi) as (pth & A & B).
    rewrite (omap_length _ _ _ B). apply (PL i); auto.
Qed.
Lemma built_good c : built group dtr paths c -> good c.
Proof.
  induction 1 as [c EC|c b q HB IH Hb Hq|c p k s c' HB IH ES].
  - destruct (init_attrs d N group dtr paths HG HP c EC) as (E1 & E2 & E3 & E4 & E5 & _).
    split; [apply (init_valid d N group dtr paths HG HP c EC)|]. split; [apply (init_data c EC)|]. repeat (split; auto). rewrite E4, E5. intros p k Hp Hk.
    destruct (init_allowed d N group dtr paths HG HP c p k EC Hp Hk) as (R & A & B & C). exists R. repeat split; auto.
    + destruct (fits_nonempty d N group dtr paths HG HP c p k EC Hp Hk) as (s & Hs). apply C in Hs. intros ->. destruct Hs.
    + destruct (fits_wf d group dtr paths p k s) as [W _]; [apply C; auto|auto].
    + destruct (fits_wf d group dtr paths p k s) as [_ W]; [apply C; auto|auto].
  - destruct IH as (V & D & E1 & E2 & E3 & E4 & A). unfold cv_mul_sp. cbn [sp_bm sp_pnum]. unfold good. rewrite cv_dim_mul, cv_div_mul, cv_mult_mul.
    assert (EG : cv_genus (cv_mul b q c) = cv_genus c) by (unfold cv_genus; rewrite cv_dim_mul, cv_div_mul; auto). rewrite EG.
    split; [apply valid_fuzzy_mul; auto|]. split; [apply data_mul; auto|]. repeat (split; auto).
    intros p k Hp Hk. rewrite (allowed_mul c V D b Hb q p k Hp Hk). assert (Hk' : flip_num b (cv_genus c) k < cv_genus c) by (unfold flip_num; destruct (time_rev b); lia).
    destruct (A p _ Hp Hk') as (l & L1 & L2 & L3 & L4). rewrite L1. cbn [option_map]. eexists. split; [reflexivity|]. split; [|split].
    + apply NoDup_map_inj; auto. intros x y Hx Hy EE. apply L4 in Hx, Hy. destruct x as [xb xp], y as [yb yp]. unfold sp_conj in EE. cbn [sp_bm sp_pnum] in EE.
      pose proof (f_equal sp_pnum EE) as F1. pose proof (f_equal sp_bm EE) as F2. cbn [sp_bm sp_pnum] in F1, F2. rewrite E1 in Hb.
      apply (conj_inj d) in F2; [congruence|apply Hx|apply Hy|apply wf_cube_map; auto].
    + destruct l; [congruence|discriminate].
    + intros s Hs. apply in_map_iff in Hs as (s' & <- & Hs'). rewrite E1 in Hb. apply wf_spec_conj; auto using wf_cube_map.
  - destruct IH as (V & D & E1 & E2 & E3 & E4 & A). destruct (specify_keeps c p k s c' ES) as (F1 & F2 & F3 & F4 & F5 & F6 & F7). destruct (specify_genus c p k s c' ES) as [EG EM].
    assert (HS : exists l, gen_allowed_specs c p k = Some l /\ In s l).
    { destruct (specify_raises c p k s) as [_ H]. destruct (gen_allowed_specs c p k) as [l|] eqn:EL.
      - destruct (memb spec_eqb s l) eqn:EMB; [apply (memb_In _ spec_eqb_ok) in EMB; eauto|]. unfold specify in ES. rewrite EL, EMB in ES. discriminate.
      - unfold specify in ES. rewrite EL in ES. discriminate. }
    destruct HS as (l & EL & Hin). assert (Hpk : p < cv_mult c /\ k < cv_genus c).
    { unfold gen_allowed_specs in EL. destruct (get_spec c p k) as [os|] eqn:EG'; [|destruct (cv_kind c); discriminate]. unfold get_spec in EG'.
      destruct (nth_error (cv_pats c) p) as [pat|] eqn:EP; [|discriminate]. split; [unfold cv_mult; apply nth_error_Some; congruence|].
      destruct V as (_ & _ & _ & _ & HF). rewrite Forall_forall in HF. destruct (HF pat (nth_error_In _ _ EP)) as (_ & HL & _). unfold cv_genus. rewrite <- HL. apply nth_error_Some. congruence. }
    destruct (A p k (proj1 Hpk) (proj2 Hpk)) as (l' & A1 & A2 & A3 & A4). assert (l' = l) by congruence. subst l'. pose proof (A4 s Hin) as Ws.
    unfold good. rewrite EG, EM, F2, F3. split; [|split; [|repeat (split; auto)]].
    + destruct V as (V1 & V2 & V3 & V4 & V5). unfold valid_fuzzy. rewrite F1, F2, F3, F4, EM. repeat (split; auto). apply Forall_forall. intros pat' Hp'.
      apply In_nth_error in Hp' as (i & Hi). pose proof (f_equal (fun l => nth_error l i) F5) as G5. pose proof (f_equal (fun l => nth_error l i) F6) as G6. cbn in G5, G6.
      rewrite !nth_error_map, Hi in G5, G6. destruct (nth_error (cv_pats c) i) as [pat|] eqn:Ei; [|discriminate]. cbn in G5, G6. rewrite Forall_forall in V5.
      destruct (V5 pat (nth_error_In _ _ Ei)) as (W1 & W2 & W3). injection G5 as G5. injection G6 as G6. split; [rewrite G5; auto|]. split; [congruence|].
      apply Forall_forall. intros os Hos s' ->. apply In_nth_error in Hos as (j & Hj). specialize (F7 i j). unfold get_spec in F7. rewrite Hi, Hj, Ei in F7.
      destruct (Nat.eqb p i && Nat.eqb k j); [injection F7 as ->; rewrite E1; auto|]. rewrite Forall_forall in W3. apply (W3 (Some s')); auto. apply nth_error_In with j; auto.
    + unfold path_data_ok in *. rewrite F1, F2, EG, EM. auto.
    + intros p' k' Hp' Hk'. rewrite (specify_allowed_specs c p k s c' ES). destruct (Nat.eqb p p' && Nat.eqb k k'); auto. exists [s]. repeat split; auto.
      * constructor; auto. constructor.
      * discriminate.
      * destruct H as [<-|[]]. apply Ws.
      * destruct H as [<-|[]]. apply Ws.
Qed.
End Built.
