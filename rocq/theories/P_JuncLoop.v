(** The code of junction generation: normal form, base and derived junctions, the work list. *)
From Verif Require Import Py L_Py L_Qc M_BaseMaps S_BaseMaps L_BaseMaps P_Actions P_GenMaps M_Subsets S_Subsets P_Subsets P_Points P_Facets
  M_Paths M_Utils M_Curves S_Utils L_R P_Utils S_Curves S_Junctions P_CurveAct L_Digits P_Core P_Bridge P_Paths P_Entrance P_Cont P_Check P_Subdiv P_Junctions.
From Coq Require Import Reals Lra Lia.
Local Open Scope nat_scope.

Lemma NoDup_app_inv' {A} (l l' : list A) : NoDup (l ++ l') -> NoDup l /\ NoDup l' /\ forall x, In x l -> ~ In x l'.
Proof.
  induction l as [|a l IH]; cbn; intros H; [repeat split; auto; constructor|]. inversion H; subst. destruct (IH H3) as (H4 & H5 & H6).
  split; [constructor; auto; intros Hin; apply H2, in_or_app; auto|]. split; auto. intros x [->|Hx]; auto. intros Hin. apply H2, in_or_app; auto.
Qed.
Definition reg_of (t : tri) (dep : option nat) : junction := let '(X, Y, v) := t in reg_junction X Y v dep.
Definition normal (d : nat) (j : junction) : Prop :=
  cube_map (sp_bm (j_spec1 j)) = id_map d /\ sp_pnum (j_spec1 j) <= sp_pnum (j_spec2 j) /\
  (sp_pnum (j_spec1 j) = sp_pnum (j_spec2 j) -> time_rev (sp_bm (j_spec1 j)) && time_rev (sp_bm (j_spec2 j)) = false) /\ j_dt j = 1%Z.
Lemma jkey_jt j : j_dt j = 1%Z -> jkey j = (jt j, 1%Z).
Proof. unfold jkey, jt. intros ->. auto. Qed.

Section Norm.
Context (K : core) (HK : core_ok K).
Notation d := (kd K).
Lemma reg_of_jact t dep : wft K t -> exists g, wf_bm d g /\ jt (reg_of t dep) = jact g t.
Proof.
  destruct t as [[X Y] v]. intros (HX & HY & Hv). cbn [reg_of]. unfold reg_junction.
  set (sw := Nat.ltb (sp_pnum Y) (sp_pnum X) || (Nat.eqb (sp_pnum X) (sp_pnum Y) && time_rev (sp_bm X) && time_rev (sp_bm Y))). cbv zeta. destruct sw.
  - exists (bm_rev (bm_inv (cube_map (sp_bm Y)))). split; [apply wf_rev, wf_inv, wf_cube_map; apply HY|].
    unfold jact. cbn [time_rev bm_rev]. rewrite inv_time_rev. cbn [cube_map time_rev negb]. unfold jt, bm_mul_sp, sp_rev. cbn [j_spec1 j_spec2 j_dx sp_bm sp_pnum].
    rewrite !rev_mul_r, !rev_mul_l. reflexivity.
  - exists (bm_inv (cube_map (sp_bm X))). split; [apply wf_inv, wf_cube_map; apply HX|].
    unfold jact. rewrite inv_time_rev. cbn [cube_map time_rev]. reflexivity.
Qed.
Lemma reg_of_jeq t dep : wft K t -> jeq d t (jt (reg_of t dep)).
Proof. intros H. destruct (reg_of_jact t dep H) as (g & Hg & E). exists g. auto. Qed.
Lemma reg_of_depth t dep : j_depth (reg_of t dep) = dep.
Proof. destruct t as [[X Y] v]. reflexivity. Qed.
Lemma reg_of_key t dep dep' : jkey (reg_of t dep) = jkey (reg_of t dep').
Proof. destruct t as [[X Y] v]. reflexivity. Qed.
Lemma cube_norm b : wf_bm d b -> cube_map (bm_mul (bm_inv (cube_map b)) b) = id_map d.
Proof. intros Hb. rewrite cube_map_mul, cube_map_inv, cube_map_cube_map. apply (mul_inv_l d). apply wf_cube_map; auto. Qed.
Lemma reg_of_normal t dep : wft K t -> normal d (reg_of t dep).
Proof.
  destruct t as [[X Y] v]. intros (HX & HY & Hv). cbn [reg_of]. unfold reg_junction, normal.
  destruct (Nat.ltb (sp_pnum Y) (sp_pnum X) || (Nat.eqb (sp_pnum X) (sp_pnum Y) && time_rev (sp_bm X) && time_rev (sp_bm Y))) eqn:E; cbv zeta;
    cbn [j_spec1 j_spec2 j_dx j_dt sp_bm sp_pnum bm_mul_sp sp_rev]; rewrite !mul_time_rev, inv_time_rev; cbn [cube_map time_rev xorb].
  - split; [apply cube_norm; apply wf_rev; apply HY|]. apply orb_true_iff in E as [E|E].
    + apply Nat.ltb_lt in E. split; [lia|]. split; auto. intros; lia.
    + apply andb_true_iff in E as [E E3]. apply andb_true_iff in E as [E1 E2]. apply Nat.eqb_eq in E1. split; [lia|]. split; auto.
      intros _. cbn [bm_rev time_rev]. rewrite E2, E3. auto.
  - split; [apply cube_norm; apply HX|]. apply orb_false_iff in E as [E1 E2]. apply Nat.ltb_ge in E1. split; [lia|]. split; auto.
    intros EE. rewrite (proj2 (Nat.eqb_eq _ _) EE) in E2. destruct (time_rev (sp_bm X)), (time_rev (sp_bm Y)); auto.
Qed.
Lemma reg_of_wf t dep : wft K t -> wft K (jt (reg_of t dep)).
Proof. intros H. destruct (reg_of_jact t dep H) as (g & Hg & ->). apply jact_wf; auto. Qed.
End Norm.

(** the two generators of junctions *)
Section Gen.
Context (c : curve) (HV : valid_fuzzy c).
Notation K := (core_of c). Notation d := (cv_dim c). Notation N := (cv_div c). Notation G := (cv_genus c). Notation m := (cv_mult c).
Let HK : core_ok K := full_ok K (core_of_full c HV).

Lemma map_combine2 {A B C} (f : A * B -> C) l1 l2 n da db : length l1 = n -> length l2 = n ->
  map f (combine l1 l2) = map (fun j => f (nth j l1 da, nth j l2 db)) (seq 0 n).
Proof.
  intros H1 H2. apply nth_ext with (f (da, db)) (f (da, db)).
  - rewrite !map_length, combine_length, seq_length. lia.
  - rewrite map_length, combine_length. intros j Hj. rewrite map_nth, combine_nth by lia. symmetry. apply (nth_map_seq (fun j => f (nth j l1 da, nth j l2 db))). lia.
Qed.
Lemma base_eq p k dep : p < m -> k + 1 < G -> defined_at c p k -> defined_at c p (k + 1) ->
  get_base_junction c p k dep = Some (reg_of (kbase K p k) dep).
Proof.
  intros Hp Hk D1 D2. destruct (nth_pat c HV p Hp) as (pat & Ep & _). unfold get_base_junction. rewrite Ep.
  apply defined_kspec in D1, D2. unfold get_spec in D1, D2. rewrite Ep in D1, D2. rewrite D1, D2.
  destruct (nth_cube c HV p k pat Ep ltac:(lia)) as [E1 [L1 _]]. destruct (nth_cube c HV p (k + 1) pat Ep ltac:(lia)) as [E2 [L2 _]]. rewrite E1, E2.
  unfold kbase, reg_of, vdiff. f_equal. f_equal. rewrite (map_combine2 _ _ _ d 0%Z 0%Z) by auto. reflexivity.
Qed.
Context (HE : ends_def c).
Lemma derived_eq j : wft K (jt j) -> get_derived_junction c j = Some (reg_of (kder K (jt j)) (option_map S (j_depth j))).
Proof.
  destruct j as [X Y v dt dep]. unfold jt. cbn [j_spec1 j_spec2 j_dx j_depth]. intros (HX & HY & Hv).
  destruct (nth_pat c HV (sp_pnum X) (proj2 HX)) as (p1 & E1 & _). destruct (nth_pat c HV (sp_pnum Y) (proj2 HY)) as (p2 & E2 & _).
  unfold get_derived_junction. cbn [j_spec1 j_spec2 j_dx j_depth]. rewrite E1, E2. cbv zeta.
  pose proof (G_pos c HV) as HG. pose proof (kflip_ends K HK (sp_bm X)) as [F1 _]. pose proof (kflip_ends K HK (sp_bm Y)) as [_ F2]. rewrite kG_genus in F1, F2.
  assert (A1 : pyget (pat_specs p1) (if time_rev (sp_bm X) then 0%Z else (-1)%Z) = Some (Some (kspec K (sp_pnum X) (kflip K (sp_bm X) (G - 1)))) /\
               pyget (pr_cubes (pat_proto p1)) (if time_rev (sp_bm X) then 0%Z else (-1)%Z) = Some (Some (kcube K (sp_pnum X) (kflip K (sp_bm X) (G - 1))))).
  { rewrite F1. destruct (HE (sp_pnum X) (proj2 HX)) as [D0 D1]. apply defined_kspec in D0, D1. unfold get_spec in D0, D1. rewrite E1 in D0, D1.
    pose proof (specs_length c HV _ _ E1). pose proof (cubes_length c HV _ _ E1). destruct (time_rev (sp_bm X)).
    - rewrite !pyget_0. split; auto. apply (nth_cube c HV); auto.
    - rewrite !pyget_m1 by (intros E; rewrite E in *; cbn in *; lia). rewrite H, H0. split; auto. apply (nth_cube c HV); auto. lia. }
  assert (A2 : pyget (pat_specs p2) (if time_rev (sp_bm Y) then (-1)%Z else 0%Z) = Some (Some (kspec K (sp_pnum Y) (kflip K (sp_bm Y) 0))) /\
               pyget (pr_cubes (pat_proto p2)) (if time_rev (sp_bm Y) then (-1)%Z else 0%Z) = Some (Some (kcube K (sp_pnum Y) (kflip K (sp_bm Y) 0)))).
  { rewrite F2. destruct (HE (sp_pnum Y) (proj2 HY)) as [D0 D1]. apply defined_kspec in D0, D1. unfold get_spec in D0, D1. rewrite E2 in D0, D1.
    pose proof (specs_length c HV _ _ E2). pose proof (cubes_length c HV _ _ E2). destruct (time_rev (sp_bm Y)).
    - rewrite !pyget_m1 by (intros E; rewrite E in *; cbn in *; lia). rewrite H, H0. split; auto. apply (nth_cube c HV); auto. lia.
    - rewrite !pyget_0. split; auto. apply (nth_cube c HV); auto. }
  unfold pr_cube. destruct A1 as [A1 A1']. destruct A2 as [A2 A2']. rewrite A1, A2, A1', A2'. cbn [obind]. f_equal. unfold kder, reg_of.
  unfold kstep at 1 2. rewrite kG_genus. f_equal. unfold vdiff.
  assert (LX : length (kcb K X (G - 1)) = d) by (apply (length_apply_cube d); apply HX).
  assert (LY : length (kcb K Y 0) = d) by (apply (length_apply_cube d); apply HY).
  fold (kcb K X (G - 1)). fold (kcb K Y 0). change (Z.of_nat (cv_div c)) with (Z.of_nat (kN K)).
  change (apply_cube (sp_bm X) (Z.of_nat (kN K)) (kcube K (sp_pnum X) (kflip K (sp_bm X) (G - 1)))) with (kcb K X (G - 1)).
  change (apply_cube (sp_bm Y) (Z.of_nat (kN K)) (kcube K (sp_pnum Y) (kflip K (sp_bm Y) 0))) with (kcb K Y 0).
  rewrite (map_combine2 _ _ _ d (0%Z, 0%Z) 0%Z) by (auto; rewrite combine_length, LX, LY; apply Nat.min_id).
  apply map_ext_in. intros j Hj. rewrite combine_nth by lia. cbn [fst snd]. reflexivity.
Qed.

(** the work list *)
Section Loop.
Context (P : junction -> Prop).
Hypothesis Pder : forall j, P j -> exists dj, get_derived_junction c j = Some dj /\ P dj.
Definition keys (js : list junction) := map jkey js.
Lemma loop_spec fuel : forall seen stack, Forall P seen -> Forall P stack -> NoDup (keys seen) ->
  let r := derive_loop fuel c seen stack in
  Forall P (fst r) /\ NoDup (keys (fst r) ++ keys seen) /\ snd r <> GRaise /\
  (snd r = GDone -> forall j dj, In j stack \/ In j (fst r) -> get_derived_junction c j = Some dj -> In (jkey dj) (keys (fst r) ++ keys seen)).
Proof.
  induction fuel as [|fuel IH]; intros seen stack HP HS ND; destruct stack as [|j stack]; cbn [derive_loop]; cbn zeta.
  - cbn [fst snd keys app map]. split; [constructor|]. split; auto. split; [discriminate|]. intros _ j dj [[]|[]].
  - cbn [fst snd keys app map]. split; [constructor|]. split; auto. split; discriminate.
  - cbn [fst snd keys app map]. split; [constructor|]. split; auto. split; [discriminate|]. intros _ j dj [[]|[]].
  - inversion HS as [|? ? Hj HS']; subst. destruct (Pder j Hj) as (dj & Ed & Pd). rewrite Ed. destruct (memb junc_eqb dj seen) eqn:EM.
    + apply (memb_key jkey junc_eqb junc_eqb_key) in EM. destruct (IH seen stack HP HS' ND) as (H1 & H2 & H3 & H4).
      split; auto. split; auto. split; auto. intros HD i di [[->|Hi]|Hi] Ei; eauto. rewrite Ed in Ei. injection Ei as <-. apply in_or_app. auto.
    + assert (NI : ~ In (jkey dj) (map jkey seen)) by (rewrite <- (memb_key jkey junc_eqb junc_eqb_key); congruence).
      destruct (IH (dj :: seen) (dj :: stack)) as (H1 & H2 & H3 & H4); try (constructor; auto; fail).
      set (r := derive_loop fuel c (dj :: seen) (dj :: stack)) in *. cbn [fst snd].
      assert (Pm : forall x, In x (keys (fst r) ++ keys (dj :: seen)) <-> In x (keys (dj :: fst r) ++ keys seen)).
      { intros x. unfold keys. cbn [map]. rewrite !in_app_iff. cbn. tauto. }
      split; [constructor; auto|]. split.
      { unfold keys in *. cbn [map app] in *. apply NoDup_remove in H2 as [Ha Hb]. constructor; auto. }
      split; auto. intros HD i di Hi Ei. rewrite <- Pm. cbn [In] in Hi. destruct Hi as [[Hi|Hi]|Hi].
      * subst i. rewrite Ed in Ei. injection Ei as <-. apply in_or_app. right. cbn. auto.
      * apply (H4 HD i di); auto. left. cbn. auto.
      * apply (H4 HD i di); auto. destruct Hi as [Hi|Hi]; auto. left. cbn. auto.
Qed.
Lemma loop_mono fuel : forall fuel' seen stack, fuel <= fuel' -> snd (derive_loop fuel c seen stack) <> GFuel ->
  derive_loop fuel' c seen stack = derive_loop fuel c seen stack.
Proof.
  induction fuel as [|fuel IH]; intros fuel' seen stack HL HN; destruct fuel' as [|fuel']; try lia; destruct stack as [|j stack]; cbn [derive_loop] in *; auto.
  - cbn in HN. congruence.
  - destruct (get_derived_junction c j) as [dj|]; auto. destruct (memb junc_eqb dj seen).
    + apply IH; auto. lia.
    + cbn [snd] in HN. rewrite (IH fuel') by (auto; lia). auto.
Qed.
(** a finite universe of junctions makes the work list run dry *)
Lemma loop_ends (U : list (spec * spec * list Z * Z)) (HU : forall j, P j -> In (jkey j) U) fuel : forall seen stack,
  Forall P seen -> Forall P stack -> NoDup (keys seen) -> length stack + (length U - length seen) <= fuel ->
  snd (derive_loop fuel c seen stack) = GDone.
Proof.
  induction fuel as [|fuel IH]; intros seen stack HP HS ND HF; destruct stack as [|j stack]; cbn [derive_loop]; auto.
  - cbn in HF. lia.
  - inversion HS as [|? ? Hj HS']; subst. destruct (Pder j Hj) as (dj & Ed & Pd). rewrite Ed. cbn [length] in HF. destruct (memb junc_eqb dj seen) eqn:EM.
    + apply IH; auto. lia.
    + assert (NI : ~ In (jkey dj) (map jkey seen)) by (rewrite <- (memb_key jkey junc_eqb junc_eqb_key); congruence).
      assert (ND' : NoDup (keys (dj :: seen))) by (constructor; auto). assert (HP' : Forall P (dj :: seen)) by (constructor; auto).
      assert (HL : length (dj :: seen) <= length U).
      { rewrite <- (map_length jkey). apply NoDup_incl_length; auto. intros x Hx. apply in_map_iff in Hx as (y & <- & Hy). rewrite Forall_forall in HP'. auto. }
      cbn [snd]. apply IH; auto. cbn [length] in *. lia.
Qed.
End Loop.
Definition is_tri (t : tri) (j : junction) : Prop := jt j = t.
(** generation from a list of base junctions *)
Lemma from_base_spec (P : junction -> Prop) (Pder : forall j, P j -> exists dj, get_derived_junction c j = Some dj /\ P dj) fuel base :
  Forall P base -> NoDup (keys base) ->
  let r := gen_junctions_from_base fuel c base in
  Forall P (fst r) /\ NoDup (keys (fst r)) /\ snd r <> GRaise /\ incl base (fst r) /\
  (snd r = GDone -> forall j dj, In j (fst r) -> get_derived_junction c j = Some dj -> In (jkey dj) (keys (fst r))).
Proof.
  intros HP ND. unfold gen_junctions_from_base. cbn zeta.
  assert (HP' : Forall P (rev base)) by (apply Forall_forall; intros x Hx; apply in_rev in Hx; rewrite Forall_forall in HP; auto).
  assert (ND' : NoDup (keys (rev base))) by (unfold keys; rewrite map_rev; apply NoDup_rev; auto).
  destruct (loop_spec P Pder fuel (rev base) (rev base) HP' HP' ND') as (H1 & H2 & H3 & H4). set (r := derive_loop fuel c (rev base) (rev base)) in *. cbn [fst snd].
  assert (Pm : forall x, In x (keys (fst r) ++ keys (rev base)) <-> In x (keys (base ++ fst r))).
  { intros x. unfold keys. rewrite map_app, map_rev, !in_app_iff, <- in_rev. tauto. }
  split; [apply Forall_app; auto|]. split.
  { unfold keys in *. rewrite map_app. apply NoDup_app_inv' in H2 as (Ha & Hb & Hc). apply NoDup_app_intro; auto. intros x Hx Hx'. apply (Hc x); auto. rewrite map_rev, <- in_rev. auto. }
  split; auto. split; [apply incl_appl, incl_refl|]. intros HD j dj Hj Ej. apply Pm. apply (H4 HD j dj); auto. apply in_app_or in Hj as [Hj|Hj]; auto. left. apply in_rev in Hj. auto.
Qed.
End Gen.
