(** The junction properties in the vocabulary of the specification, and the counterexamples. *)
From Verif Require Import Py L_Py L_Qc M_BaseMaps S_BaseMaps L_BaseMaps P_Actions M_Subsets S_Subsets
  M_Paths M_Utils M_Curves M_Zoo S_Utils L_R P_Utils S_Curves S_Junctions P_CurveAct L_Digits P_Core P_Bridge P_Cont P_Check P_Subdiv P_Valid P_Junctions P_JuncLoop P_JuncMain.
From Coq Require Import Reals Lra Lia.
Local Open Scope nat_scope.

Lemma junc_complete c fuel js : valid_curve c -> gen_regular_junctions fuel c = (js, GDone) ->
  forall p cnums1 cnums2 X1 X2 dx, neighbours c p cnums1 cnums2 X1 X2 dx ->
  exists j, In j js /\ isometric (cv_dim c) X1 X2 dx (j_spec1 j) (j_spec2 j) (j_dx j).
Proof.
  intros HC E p cs1 cs2 X1 X2 dx HN. apply (neighbours_kpair c HC) in HN as (Hp & Hc & Et). destruct (gen_spec c HC fuel) as (_ & _ & _ & H). rewrite E in H. cbn [fst snd] in H.
  destruct (H eq_refl p cs1 cs2 Hp Hc) as (j & Hj & He). exists j. split; auto. apply isometric_jeq. rewrite Et. exact He.
Qed.
Lemma junc_genuine c fuel j : valid_curve c -> In j (fst (gen_regular_junctions fuel c)) ->
  exists p cnums1 cnums2 X1 X2 dx, neighbours c p cnums1 cnums2 X1 X2 dx /\
    isometric (cv_dim c) X1 X2 dx (j_spec1 j) (j_spec2 j) (j_dx j) /\ j_depth j = Some (length cnums1).
Proof.
  intros HC Hj. destruct (gen_spec c HC fuel) as (H & _). rewrite Forall_forall in H. destruct (H j Hj) as (_ & p & cs & cs' & Hp & Hc & Hd & He).
  destruct (kpair (core_of c) p cs cs') as [[X1 X2] dx] eqn:Ek. exists p, cs, cs', X1, X2, dx. split; [apply (neighbours_kpair c HC); auto|]. split; auto.
  apply isometric_jeq. exact He.
Qed.
Lemma junc_normal c fuel j : valid_curve c -> In j (fst (gen_regular_junctions fuel c)) ->
  coords (sp_bm (j_spec1 j)) = coords (id_map (cv_dim c)) /\ sp_pnum (j_spec1 j) <= sp_pnum (j_spec2 j) /\
  (sp_pnum (j_spec1 j) = sp_pnum (j_spec2 j) -> time_rev (sp_bm (j_spec1 j)) = true -> time_rev (sp_bm (j_spec2 j)) = false) /\ j_dt j = 1%Z.
Proof.
  intros HC Hj. destruct (gen_spec c HC fuel) as (H & _). rewrite Forall_forall in H. destruct (H j Hj) as ((H1 & H2 & H3 & H4) & _).
  split; [apply (f_equal coords) in H1; exact H1|]. split; auto. split; auto. intros E T. specialize (H3 E). rewrite T in H3. exact H3.
Qed.
Lemma junc_nodup c fuel : valid_curve c ->
  NoDup (map (fun j => (j_spec1 j, j_spec2 j, j_dx j, j_dt j)) (fst (gen_regular_junctions fuel c))).
Proof. intros HC. apply (gen_spec c HC fuel). Qed.
Lemma junc_noraise c fuel : valid_curve c -> snd (gen_regular_junctions fuel c) <> GRaise.
Proof. intros HC. apply (gen_spec c HC fuel). Qed.
Lemma junc_terminates c : valid_curve c -> check c = Some true -> exists fuel0 js, forall fuel, fuel0 <= fuel -> gen_regular_junctions fuel c = (js, GDone).
Proof. exact (gen_ends c). Qed.
Lemma junc_delta c fuel j : valid_curve c -> check c = Some true -> In j (fst (gen_regular_junctions fuel c)) ->
  length (j_dx j) = cv_dim c /\ Forall (fun z => (-1 <= z <= 1)%Z) (j_dx j) /\ exists i, i < cv_dim c /\ nth i (j_dx j) 0%Z <> 0%Z.
Proof.
  intros HC HK Hj. destruct (gen_spec c HC fuel) as (H & _). rewrite Forall_forall in H. split; [apply (genuine_wf c HC); auto|]. apply (genuine_good c HC HK); auto.
Qed.
Lemma junc_meets c fuel j : valid_curve c -> check c = Some true -> In j (fst (gen_regular_junctions fuel c)) ->
  forall x y, graph (cv_mul_sp (j_spec1 j) c) 1 x -> graph (cv_mul_sp (j_spec2 j) c) 0 y ->
  forall i, i < cv_dim c -> (nth i x 0 = nth i y 0 + IZR (nth i (j_dx j) 0%Z))%R.
Proof.
  intros HC HK Hj x y Hx Hy i Hi. destruct (gen_spec c HC fuel) as (H & _). rewrite Forall_forall in H. specialize (H j Hj).
  pose proof (genuine_wf c HC j H) as (W1 & W2 & _). pose proof (valid_curve_fuzzy c HC) as HV. apply (genuine_meets c HC HK j H); auto; apply (graph_sub c HV); auto.
Qed.
Lemma junc_specs_defined c fuel j : valid_curve c -> In j (fst (gen_regular_junctions fuel c)) ->
  (exists x, graph (cv_mul_sp (j_spec1 j) c) 1 x) /\ (exists y, graph (cv_mul_sp (j_spec2 j) c) 0 y).
Proof.
  intros HC Hj. destruct (gen_spec c HC fuel) as (H & _). rewrite Forall_forall in H. specialize (H j Hj). pose proof (genuine_wf c HC j H) as (W1 & W2 & _).
  pose proof (full_ok _ (core_of_full c (valid_curve_fuzzy c HC))) as HK.
  destruct (kgraph_total _ HK (j_spec1 j) 1 W1 ltac:(lra)) as [x Hx]. destruct (kgraph_total _ HK (j_spec2 j) 0 W2 ltac:(lra)) as [y Hy].
  split; [exists x|exists y]; apply (graph_kgraph c HC); auto.
Qed.
(** every number T with T+1 < G^n has its pair of fractions *)
Lemma neighbours_exist c p n T : valid_curve c -> p < cv_mult c -> (0 <= T)%Z -> (T + 1 < Z.of_nat (cv_genus c) ^ Z.of_nat n)%Z ->
  exists cnums1 cnums2 X1 X2 dx, length cnums1 = n /\ value (Z.of_nat (cv_genus c)) (map Z.of_nat cnums1) = T /\ neighbours c p cnums1 cnums2 X1 X2 dx.
Proof.
  intros HC Hp H0 H1. pose proof (full_ok _ (core_of_full c (valid_curve_fuzzy c HC))) as HK. pose proof (kG_ge2 _ HK) as HG. rewrite kG_genus in HG.
  set (B := Z.of_nat (cv_genus c)) in *. assert (HB : (2 <= B)%Z) by (unfold B; lia).
  assert (D : forall V, (0 <= V < B ^ Z.of_nat n)%Z -> exists cs, length cs = n /\ wfc (core_of c) cs /\ value B (map Z.of_nat cs) = V).
  { clear T H0 H1. induction n as [|n IH]; intros V HVr.
    - exists []. split; auto. split; [constructor|]. cbn in *. lia.
    - rewrite Nat2Z.inj_succ, Z.pow_succ_r in HVr by lia. destruct (IH (V / B)%Z) as (cs & L & W & E).
      { split; [apply Z.div_pos; lia|]. apply Z.div_lt_upper_bound; lia. }
      pose proof (Z.mod_pos_bound V B ltac:(lia)) as HM. exists (cs ++ [Z.to_nat (V mod B)]). split; [rewrite app_length; cbn; lia|]. split.
      + apply Forall_app. split; auto. constructor; auto. rewrite kG_genus. apply Nat2Z.inj_lt. rewrite Z2Nat.id by lia. fold B. lia.
      + rewrite map_app. cbn [map]. rewrite value_snoc, E, Z2Nat.id by lia. rewrite (Z.div_mod V B) at 3 by lia. lia. }
  destruct (D T ltac:(lia)) as (cs1 & L1 & W1 & E1). destruct (D (T + 1)%Z ltac:(lia)) as (cs2 & L2 & W2 & E2).
  destruct (kpair (core_of c) p cs1 cs2) as [[X1 X2] dx] eqn:Ek. exists cs1, cs2, X1, X2, dx. split; auto. split; auto. apply (neighbours_kpair c HC).
  split; auto. split; [|rewrite <- Ek; auto]. split; auto. split; auto. split; [congruence|]. unfold kT. rewrite kG_genus. fold B. lia.
Qed.
Lemma omap_fold_max l : forall (js : list junction) ds d0, omap j_depth js = Some ds -> l = fold_left Nat.max ds d0 ->
  d0 <= l /\ forall j, In j js -> exists n, j_depth j = Some n /\ n <= l.
Proof.
  intros js. induction js as [|j js IH]; intros ds d0 E El; cbn in E.
  - injection E as <-. cbn in El. subst. split; [auto|contradiction].
  - destruct (j_depth j) as [n|] eqn:En; [|discriminate]. destruct (omap j_depth js) as [ds'|]; [|discriminate]. injection E as <-. cbn in El.
    destruct (IH ds' (Nat.max d0 n) eq_refl El) as [H1 H2]. split; [lia|]. intros i [<-|Hi]; auto. exists n. split; auto. lia.
Qed.
Lemma depth_enough c fuel n : valid_curve c -> get_depth fuel c = Some n ->
  forall p cnums1 cnums2 X1 X2 dx, neighbours c p cnums1 cnums2 X1 X2 dx ->
  exists q cnums3 cnums4 Y1 Y2 dy, length cnums3 <= n /\ neighbours c q cnums3 cnums4 Y1 Y2 dy /\ isometric (cv_dim c) X1 X2 dx Y1 Y2 dy.
Proof.
  intros HC E p cs1 cs2 X1 X2 dx HN. unfold get_depth in E. destruct (gen_regular_junctions fuel c) as [js e] eqn:EG. destruct e; try discriminate.
  destruct (omap j_depth js) as [[|d0 ds]|] eqn:EO; try discriminate. injection E as E.
  destruct (junc_complete c fuel js HC EG _ _ _ _ _ _ HN) as (j & Hj & He).
  assert (EO' : omap j_depth js = Some (d0 :: ds)) by auto. assert (En : n = fold_left Nat.max (d0 :: ds) 0) by (cbn; auto).
  destruct (omap_fold_max n js _ _ EO' En) as [_ HM]. destruct (HM j Hj) as (k & Ek & Hk).
  destruct (junc_genuine c fuel j HC) as (q & cs3 & cs4 & Y1 & Y2 & dy & HN' & He' & Hd); [rewrite EG; auto|].
  exists q, cs3, cs4, Y1, Y2, dy. split; [rewrite Ek in Hd; injection Hd as ->; auto|]. split; auto.
  apply isometric_jeq in He, He'. apply isometric_jeq. apply (neighbours_kpair c HC) in HN, HN'. destruct HN as (Hp & Hc & E1). destruct HN' as (Hq & Hc' & E2).
  pose proof (full_ok _ (core_of_full c (valid_curve_fuzzy c HC))) as HK.
  pose proof (kpair_wf _ HK _ _ _ Hp Hc) as W1. pose proof (kpair_wf _ HK _ _ _ Hq Hc') as W2. rewrite <- E1 in W1. rewrite <- E2 in W2.
  apply (jeq_trans (core_of c)) with (jt j); auto. apply (jeq_sym (core_of c)); auto.
Qed.

(** the enumeration need not end for a discontinuous curve: four cubes in lexicographic order, all specs identical *)
Definition lex_curve : curve :=
  Cv 2 2 [Pat (Pr 2 2 [Some [0; 0]; Some [0; 1]; Some [1; 0]; Some [1; 1]]%Z) (repeat (Some (Sp (id_map 2) 0)) 4)] 0 KCurve.
Definition lexj (y : Z) (n : nat) : junction := Jn (Sp (id_map 2) 0) (Sp (id_map 2) 0) [1; y]%Z 1 (Some n).
Lemma lex_derived y n : get_derived_junction lex_curve (lexj y n) = Some (lexj (0 + y * 2 - 1) (S n)).
Proof. reflexivity. Qed.
Lemma lex_runs fuel : forall seen stack y n, (y <= -1)%Z -> Forall (fun j => (y <= nth 1 (j_dx j) 0)%Z) seen ->
  snd (derive_loop fuel lex_curve seen (lexj y n :: stack)) = GFuel.
Proof.
  induction fuel as [|fuel IH]; intros seen stack y n Hy HS; cbn [derive_loop]; auto. rewrite lex_derived.
  destruct (memb junc_eqb (lexj (0 + y * 2 - 1) (S n)) seen) eqn:E.
  - apply (memb_key jkey junc_eqb junc_eqb_key) in E. apply in_map_iff in E as (j & Ej & Hj). rewrite Forall_forall in HS. specialize (HS j Hj).
    apply (f_equal (fun k => nth 1 (snd (fst k)) 0%Z)) in Ej. cbn [jkey lexj fst snd j_dx nth] in Ej. cbn beta in HS. lia.
  - cbn [snd]. apply IH; [lia|]. constructor; [cbn [lexj j_dx nth]; lia|]. eapply Forall_impl; [|apply HS]. cbn beta. intros; lia.
Qed.
Lemma lex_forever : valid_curve lex_curve /\ forall fuel, snd (gen_regular_junctions fuel lex_curve) = GFuel.
Proof.
  split; [apply valid_curveb_ok; vm_compute; reflexivity|]. intros fuel. unfold gen_regular_junctions.
  assert (E : exists b, gen_base_junctions lex_curve = Some [b; lexj (-1) 1] /\ nth 1 (j_dx b) 0%Z = 1%Z) by (eexists; vm_compute; split; reflexivity).
  destruct E as (b & -> & Hb). unfold gen_junctions_from_base. cbn [snd rev app]. apply lex_runs; [lia|]. constructor; [cbn; lia|]. constructor; [lia|constructor].
Qed.

(** the least depth is not found: a pair of depth 2 is reported at depth 3 *)
Definition fg4 : curve := curve_or zoo_facet_gated_4d.
Definition fg4_j : junction :=
  Jn (Sp (BM [(0, false); (1, false); (2, false); (3, false)] true) 0) (Sp (BM [(0, true); (3, false); (2, false); (1, false)] false) 0) [-1; 0; 0; 0]%Z 1 (Some 3).
Lemma fg4_valid : valid_curve fg4 /\ check fg4 = Some true.
Proof. split; [apply valid_curveb_ok|]; vm_compute; reflexivity. Qed.
Definition fg4_X1 : spec := Sp (BM [(2, true); (1, true); (0, false); (3, true)] true) 0.
Definition fg4_X2 : spec := Sp (BM [(2, true); (3, true); (0, true); (1, true)] false) 0.
Lemma fg4_pair : neighbours fg4 0 [3; 15] [4; 0] fg4_X1 fg4_X2 [0; 0; -1; 0]%Z /\
  isometric 4 fg4_X1 fg4_X2 [0; 0; -1; 0]%Z (j_spec1 fg4_j) (j_spec2 fg4_j) (j_dx fg4_j).
Proof.
  split.
  - unfold neighbours. split; [vm_compute; lia|]. split; [reflexivity|]. split; [vm_compute; reflexivity|].
    destruct (walk (pattern_curve fg4 0) [3; 15]) as [[q1 c1]|] eqn:E1; [|vm_compute in E1; discriminate].
    destruct (walk (pattern_curve fg4 0) [4; 0]) as [[q2 c2]|] eqn:E2; [|vm_compute in E2; discriminate].
    exists q1, q2. destruct fg4_valid as [HC _].
    assert (H1 : get_deep_spec fg4 0 (map Z.of_nat [3; 15]) = Some fg4_X1) by (vm_compute; reflexivity).
    assert (H2 : get_deep_spec fg4 0 (map Z.of_nat [4; 0]) = Some fg4_X2) by (vm_compute; reflexivity).
    vm_compute in E1, E2. injection E1 as <- <-. injection E2 as <- <-.
    split; [vm_compute; reflexivity|]. split; [exact H1|]. split; [vm_compute; reflexivity|]. split; [exact H2|]. split; [reflexivity|].
    intros j Hj. change (cv_dim fg4) with 4 in Hj. do 4 (destruct j as [|j]; [vm_compute; reflexivity|]). lia.
  - exists (bm_inv (cube_map (sp_bm fg4_X1))). split; [apply wf_inv, wf_cube_map, wf_bmb_ok; vm_compute; reflexivity|]. vm_compute. auto.
Qed.
Lemma fg4_generated : exists js, gen_regular_junctions 100 fg4 = (js, GDone) /\ In fg4_j js /\ get_depth 100 fg4 = Some 3.
Proof.
  destruct (gen_regular_junctions 100 fg4) as [js e] eqn:E. exists js. vm_compute in E. injection E as <- <-. split; auto. split; [|vm_compute; reflexivity].
  cbn. repeat (first [left; reflexivity|right]).
Qed.
(** ... although every pair of fractions of this curve, of any depth, already occurs at depth 1 or 2 *)
Lemma fg4_two : forall p cnums1 cnums2 X1 X2 dx, neighbours fg4 p cnums1 cnums2 X1 X2 dx ->
  exists q cnums3 cnums4 Y1 Y2 dy, length cnums3 <= 2 /\ neighbours fg4 q cnums3 cnums4 Y1 Y2 dy /\ isometric 4 X1 X2 dx Y1 Y2 dy.
Proof.
  intros p cs1 cs2 X1 X2 dx HN. destruct fg4_valid as [HC _]. destruct fg4_generated as (js & EG & _ & _).
  destruct (junc_complete fg4 100 js HC EG _ _ _ _ _ _ HN) as (j & Hj & He).
  assert (A : exists q cs3 cs4 Y1 Y2 dy, length cs3 <= 2 /\ neighbours fg4 q cs3 cs4 Y1 Y2 dy /\ isometric 4 Y1 Y2 dy (j_spec1 j) (j_spec2 j) (j_dx j)).
  { destruct (le_lt_dec (match j_depth j with Some k => k | None => 0 end) 2) as [Hle|Hgt].
    - destruct (junc_genuine fg4 100 j HC) as (q & cs3 & cs4 & Y1 & Y2 & dy & HN' & He' & Hd); [rewrite EG; auto|]. rewrite Hd in Hle. exists q, cs3, cs4, Y1, Y2, dy. auto.
    - assert (j = fg4_j).
      { assert (F : forallb (fun j => match j_depth j with Some k => Nat.leb k 2 | None => true end || junc_eqb j fg4_j && match j_depth j with Some k => Nat.eqb k 3 | None => false end)
                      (fst (gen_regular_junctions 100 fg4)) = true) by (vm_compute; reflexivity).
        rewrite forallb_forall in F. rewrite EG in F. specialize (F j Hj). apply orb_true_iff in F as [F|F].
        - destruct (j_depth j); [apply Nat.leb_le in F|]; lia.
        - apply andb_true_iff in F as [F1 F2]. destruct (j_depth j) as [k|] eqn:Ek; [|discriminate]. apply Nat.eqb_eq in F2. subst k. apply junc_eqb_key in F1.
          unfold jkey in F1. destruct j; cbn in F1, Ek. unfold fg4_j. injection F1 as -> -> -> ->. subst. auto. }
      subst j. destruct fg4_pair as [P1 P2]. exists 0, [3; 15], [4; 0], fg4_X1, fg4_X2, [0; 0; -1; 0]%Z. split; auto. }
  destruct A as (q & cs3 & cs4 & Y1 & Y2 & dy & HL & HN' & He'). exists q, cs3, cs4, Y1, Y2, dy. split; auto. split; auto.
  apply (isometric_jeq fg4) in He, He'. apply (isometric_jeq fg4). apply (neighbours_kpair fg4 HC) in HN, HN'. destruct HN as (Hp & Hc & E1). destruct HN' as (Hq & Hc' & E2).
  pose proof (full_ok _ (core_of_full fg4 (valid_curve_fuzzy fg4 HC))) as HK.
  pose proof (kpair_wf _ HK _ _ _ Hp Hc) as W1. pose proof (kpair_wf _ HK _ _ _ Hq Hc') as W2. rewrite <- E1 in W1. rewrite <- E2 in W2.
  apply (jeq_trans (core_of fg4)) with (jt j); auto. apply (jeq_sym (core_of fg4)); auto.
Qed.
