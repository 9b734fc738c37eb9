(** Entrances and exits are determined by the first and last cubes and specs. *)
From Verif Require Import Py L_Py L_Qc L_R L_BaseMaps M_BaseMaps M_Subsets M_Paths M_Curves S_BaseMaps S_Subsets S_Paths S_Utils S_Curves
  P_Points P_Subsets P_Paths P_Core P_CurveAct P_Bridge P_Entrance P_FuzzyCurves.
From Coq Require Import Reals Lra.
Local Open Scope nat_scope.

Section Eqs.
Context (d N m : nat) (HN : 2 <= N) (cu : nat -> bool -> list Z) (sp : nat -> bool -> spec).
Context (HC : forall p w, p < m -> length (cu p w) = d) (HS : forall p w, p < m -> wf_spec d m (sp p w)).
(** the entrance ([w] = false) or exit of every pattern is that of its first or last fraction *)
Definition gate_eqs (g : nat -> plink) : Prop := forall p w, p < m ->
  pl_dim d (g p) /\ place_in N (cu p w) (side w (pl_mul (sp_bm (sp p w)) (g (sp_pnum (sp p w))))) (side w (g p)).
Context (g h : nat -> plink) (Hg : gate_eqs g) (Hh : gate_eqs h).
Definition gdist (x : nat * bool * nat) : R :=
  let '(p, w, j) := x in Rabs (qR (nth j (side w (g p)) 0%Qc) - qR (nth j (side w (h p)) 0%Qc))%R.
Lemma side_len w l : pl_dim d l -> length (side w l) = d. Proof. intros [A B]. destruct w; auto. Qed.
Lemma eqs_nth f p w j : gate_eqs f -> p < m -> j < d -> qR (nth j (side w (f p)) 0%Qc) =
   ((qR (nth j (pt_mul (sp_bm (sp p w)) (side (xorb w (time_rev (sp_bm (sp p w)))) (f (sp_pnum (sp p w))))) 0%Qc) + IZR (nth j (cu p w) 0%Z)) / INR N)%R.
Proof.
  intros Hf Hp Hj. destruct (Hf p w Hp) as (D & E). destruct (HS p w Hp) as (W1 & W2). rewrite side_mul in E.
  destruct (place_in_length _ _ _ _ E) as (L1 & L2). apply pt_map_to_cube_exact in E; [|lia|auto]. rewrite <- E.
  assert (HNq : Nq N <> 0%Qc) by (apply Nq_neq0; lia). rewrite nth_pt_map; [|rewrite <- L1, HC; auto|auto].
  rewrite qR_mul, qR_inv, qR_add by auto. rewrite qR_Zq. unfold Rdiv. f_equal. f_equal. unfold Nq. rewrite qR_Zq. rewrite INR_IZR_INZ. auto.
Qed.
Lemma gdist_step p w j : p < m -> j < d -> exists p' w' j', p' < m /\ j' < d /\ (gdist (p, w, j) = gdist (p', w', j') / INR N)%R.
Proof.
  intros Hp Hj. destruct (HS p w Hp) as [Wb Wp]. set (b := sp_bm (sp p w)) in *.
  exists (sp_pnum (sp p w)), (xorb w (time_rev b)), (fst (nth j (coords b) (0, false))). split; auto. split; [apply (wf_nth_lt d); auto|].
  unfold gdist. rewrite (eqs_nth g p w j Hg Hp Hj), (eqs_nth h p w j Hh Hp Hj). fold b. rewrite !(nth_pt_mul d) by auto. cbv zeta.
  assert (HNr : (0 < INR N)%R) by (apply lt_0_INR; lia). unfold Rdiv. rewrite <- (Rabs_pos_eq (/ INR N)) at 3 by (left; apply Rinv_0_lt_compat; auto). rewrite <- Rabs_mult.
  destruct (snd (nth j (coords b) (0, false))).
  - rewrite !qR_sub, !qR_1. rewrite <- Rabs_Ropp. f_equal. ring.
  - f_equal. ring.
Qed.
Lemma eqs_unique p : p < m -> g p = h p.
Proof.
  intros Hp. destruct (Hg p false Hp) as ([A B] & _). destruct (Hh p false Hp) as ([A' B'] & _). destruct (Nat.eq_dec d 0) as [Hd|Hd].
  - destruct (g p) as [e x], (h p) as [e' x']. cbn in *. clear Hg Hh. subst d. destruct e, x, e', x'; cbn in *; try lia; auto.
  - set (L := list_prod (list_prod (seq 0 m) [false; true]) (seq 0 d)).
    assert (HI : forall p w j, In (p, w, j) L <-> p < m /\ j < d).
    { intros q w j. unfold L. rewrite !in_prod_iff, !in_seq. split; [lia|]. intros [X Y]. repeat split; try lia. destruct w; cbn; auto. }
    destruct (max_arg gdist L) as ([[p0 w0] j0] & H0 & HM). { assert (In (p, false, 0) L) by (apply HI; lia). intros E. rewrite E in H. destruct H. }
    assert (HZ : forall q w j, q < m -> j < d -> gdist (q, w, j) = 0%R).
    { apply HI in H0 as [Hp0 Hj0]. destruct (gdist_step p0 w0 j0 Hp0 Hj0) as (p1 & w1 & j1 & Hp1 & Hj1 & E).
      pose proof (HM (p1, w1, j1) (proj2 (HI p1 w1 j1) (conj Hp1 Hj1))) as M1.
      assert (HNr : (2 <= INR N)%R) by (apply (le_INR 2); auto).
      assert (E' : (gdist (p0, w0, j0) * INR N = gdist (p1, w1, j1))%R) by (rewrite E; field; lra).
      assert (pos : forall q w j, (0 <= gdist (q, w, j))%R) by (intros; apply Rabs_pos).
      pose proof (pos p0 w0 j0). assert (Z0 : gdist (p0, w0, j0) = 0%R) by nra.
      intros q w j Hq Hj. pose proof (HM (q, w, j) (proj2 (HI q w j) (conj Hq Hj))). pose proof (pos q w j). lra. }
    assert (S : forall w, side w (g p) = side w (h p)).
    { intros w. apply list_ext_nth with (dflt := 0%Qc); [destruct w; cbn; lia|]. intros j Hj. assert (Hj' : j < d) by (destruct w; cbn in Hj; lia).
      specialize (HZ p w j Hp Hj'). unfold gdist in HZ. apply qR_inj. destruct (Req_dec (qR (nth j (side w (g p)) 0%Qc) - qR (nth j (side w (h p)) 0%Qc)) 0) as [Z|Z]; [lra|].
      apply Rabs_no_R0 in Z. lra. }
    pose proof (S false) as S0. pose proof (S true) as S1. cbn in S0, S1. destruct (g p), (h p); cbn in *; congruence.
Qed.
End Eqs.

(** Curves with the given first and last cubes and specs. *)
Section Bnd.
Context (d N m : nat) (Hd : 1 <= d) (HN : 2 <= N) (Hm : 1 <= m) (cu : nat -> bool -> list Z) (sp : nat -> bool -> spec).
Notation G := (N ^ d).
Definition endn (w : bool) : nat := if w then G - 1 else 0.
Record has_bnd (c : curve) : Prop := {
  hb_dim : cv_dim c = d; hb_div : cv_div c = N; hb_mult : cv_mult c = m;
  hb_pat : forall p, p < m -> exists pat, nth_error (cv_pats c) p = Some pat /\ pr_div (pat_proto pat) = N /\
    length (pr_cubes (pat_proto pat)) = G /\ length (pat_specs pat) = G /\
    forall w, nth_error (pr_cubes (pat_proto pat)) (endn w) = Some (Some (cu p w)) /\ nth_error (pat_specs pat) (endn w) = Some (Some (sp p w)) }.
Context (HC : forall p w, p < m -> grid_cube d N (cu p w)) (HS : forall p w, p < m -> wf_spec d m (sp p w)).
Lemma G_ge2 : 2 <= G. Proof. pose proof (Nat.pow_le_mono_l 2 N d HN). pose proof (Nat.pow_le_mono_r 2 1 d). cbn in H0. lia. Qed.
Lemma endn_lt w : endn w < G. Proof. pose proof G_ge2. destruct w; cbn; lia. Qed.
Lemma endn_flip w : G - 1 - endn w = endn (negb w). Proof. pose proof G_ge2. destruct w; cbn; lia. Qed.
Lemma bnd_proto c w cur : has_bnd c -> sp_pnum cur < m ->
  obind (proto_of c cur) (fun p => nth_error (pr_cubes p) (endn w)) = Some (Some (apply_cube (sp_bm cur) (Z.of_nat N) (cu (sp_pnum cur) (xorb w (time_rev (sp_bm cur)))))).
Proof.
  intros H Hp. destruct (hb_pat c H _ Hp) as (pat & E & E1 & E2 & E3 & E4). unfold proto_of. rewrite E. cbn [obind]. unfold pr_mul. cbn [pr_cubes]. rewrite nth_error_map, E1.
  destruct (time_rev (sp_bm cur)) eqn:ET.
  - rewrite nth_error_rev by (rewrite E2; apply endn_lt). rewrite E2, endn_flip. rewrite (proj1 (E4 (negb w))). rewrite xorb_true_r. reflexivity.
  - rewrite (proj1 (E4 w)). rewrite xorb_false_r. reflexivity.
Qed.
Lemma bnd_compose c w cur : has_bnd c -> sp_pnum cur < m ->
  compose_specs c cur (Z.of_nat (endn w)) = Some (bm_mul_sp (sp_bm cur) (sp (sp_pnum cur) (xorb w (time_rev (sp_bm cur))))).
Proof.
  intros H Hp. destruct (hb_pat c H _ Hp) as (pat & E & E1 & E2 & E3 & E4). unfold compose_specs. rewrite E. unfold apply_cnum.
  assert (EG : cv_genus c = G) by (unfold cv_genus; rewrite (hb_dim c H), (hb_div c H); auto). rewrite EG. pose proof (endn_lt w) as HL.
  assert (EI : (if time_rev (sp_bm cur) then Z.of_nat G - 1 - Z.of_nat (endn w) else Z.of_nat (endn w))%Z = Z.of_nat (endn (xorb w (time_rev (sp_bm cur))))).
  { destruct (time_rev (sp_bm cur)); [rewrite xorb_true_r, <- endn_flip; lia|rewrite xorb_false_r; auto]. }
  rewrite EI. unfold pyget. replace (0 <=? _)%Z with true by lia. rewrite Nat2Z.id. rewrite (proj2 (E4 _)). reflexivity.
Qed.
Lemma bnd_loop c1 c2 w : has_bnd c1 -> has_bnd c2 -> forall fuel cur cubes index, sp_pnum cur < m ->
  cube_limit_loop fuel c1 (endn w) cur cubes index = cube_limit_loop fuel c2 (endn w) cur cubes index.
Proof.
  intros H1 H2. induction fuel as [|fuel IH]; intros cur cubes index Hp; cbn [cube_limit_loop]; auto. destruct (dget spec_eqb index cur); auto.
  rewrite !bnd_proto, !bnd_compose by auto. apply IH. cbn. apply HS; auto.
Qed.
Lemma bnd_limit c1 c2 w p : has_bnd c1 -> has_bnd c2 -> p < m -> get_cube_limit c1 p (endn w) = get_cube_limit c2 p (endn w).
Proof.
  intros H1 H2 Hp. unfold get_cube_limit. assert (EF : spec_fuel c1 = spec_fuel c2).
  { unfold spec_fuel. rewrite (hb_dim c1 H1), (hb_dim c2 H2), (hb_mult c1 H1), (hb_mult c2 H2). auto. }
  rewrite EF, (hb_dim c1 H1), (hb_dim c2 H2). rewrite (bnd_loop c1 c2 w H1 H2) by auto. destruct (cube_limit_loop _ _ _ _ _ _) as [[cubes idx]|]; auto.
  unfold get_limit_point. rewrite (hb_dim c1 H1), (hb_dim c2 H2), (hb_div c1 H1), (hb_div c2 H2). auto.
Qed.
Lemma bnd_same c1 c2 p l : has_bnd c1 -> has_bnd c2 -> p < m -> is_link c1 p l -> is_link c2 p l.
Proof.
  intros H1 H2 Hp (E & X). assert (EG1 : cv_genus c1 = G) by (unfold cv_genus; rewrite (hb_dim c1 H1), (hb_div c1 H1); auto).
  assert (EG2 : cv_genus c2 = G) by (unfold cv_genus; rewrite (hb_dim c2 H2), (hb_div c2 H2); auto). split.
  - rewrite <- E. unfold get_entrance. cbn [default_pnum]. symmetry. apply (bnd_limit c1 c2 false p H1 H2 Hp).
  - rewrite <- X. unfold get_exit. cbn [default_pnum]. rewrite EG1, EG2. symmetry. apply (bnd_limit c1 c2 true p H1 H2 Hp).
Qed.
(** a curve with all cubes and these boundary data *)
Context (HNE : forall p, p < m -> cu p false <> cu p true).
Definition completed (p : nat) : list (list Z) :=
  cu p false :: filter (fun c => negb (z_list_eqb c (cu p false)) && negb (z_list_eqb c (cu p true))) (lprod_rep (zrange N) d) ++ [cu p true].
Definition full_curve : curve :=
  Cv d N (map (fun p => Pat (Pr d N (map Some (completed p))) (Some (sp p false) :: repeat None (G - 2) ++ [Some (sp p true)])) (range m)) 0 KFuzzy.
Lemma zl_eqb x y : z_list_eqb x y = true <-> x = y. Proof. apply (list_eqb_ok Z.eqb). intros a b. apply Z.eqb_eq. Qed.
Lemma completed_ok p : p < m -> NoDup (completed p) /\ (forall q, In q (completed p) <-> grid_cube d N q).
Proof.
  intros Hp. pose proof (HNE p Hp) as NE. pose proof (HC p false Hp) as H0. pose proof (HC p true Hp) as H1. unfold completed.
  assert (HF : forall c, In c (filter (fun c => negb (z_list_eqb c (cu p false)) && negb (z_list_eqb c (cu p true))) (lprod_rep (zrange N) d)) <-> grid_cube d N c /\ c <> cu p false /\ c <> cu p true).
  { intros c. rewrite filter_In, andb_true_iff, !negb_true_iff, <- !not_true_iff_false, !zl_eqb. rewrite P_Facets.In_grid. tauto. }
  split.
  - constructor.
    + rewrite in_app_iff, HF. cbn. intros [H|[H|[]]]; [tauto|]. congruence.
    + rewrite <- (rev_involutive (_ ++ _)). apply NoDup_rev. rewrite rev_app_distr. cbn. constructor.
      * rewrite <- in_rev, HF. tauto.
      * apply NoDup_rev. apply NoDup_filter. unfold lprod_rep. apply NoDup_lprod. apply Forall_forall. intros l Hl. apply repeat_spec in Hl. subst. apply P_Facets.NoDup_zrange.
  - intros q. cbn [In]. rewrite in_app_iff, HF. cbn [In]. destruct (list_eq_dec Z.eq_dec q (cu p false)) as [->|]; [tauto|]. destruct (list_eq_dec Z.eq_dec q (cu p true)) as [->|]; [tauto|].
    intuition congruence.
Qed.
Lemma full_bnd : has_bnd full_curve /\ valid_fuzzy full_curve /\ ends_def full_curve.
Proof.
  pose proof G_ge2 as G2.
  assert (HV : valid_fuzzy full_curve).
  { split; [|split; [|split; [|split]]]; cbn; auto. { unfold cv_mult. cbn. rewrite map_length. unfold range. rewrite seq_length. lia. }
    rewrite Forall_map, Forall_forall. intros p Hp. apply in_seq in Hp. assert (Hp' : p < m) by lia. unfold cv_mult. cbn [cv_pats full_curve]. rewrite map_length. unfold range. rewrite seq_length.
    split; [|split].
    - cbn [pat_proto]. split; auto. split; auto. exists (completed p). split; auto. apply completed_ok; auto.
    - cbn [pat_specs length]. rewrite app_length, repeat_length. cbn. lia.
    - cbn [pat_specs]. constructor; [intros s [= <-]; apply HS; auto|]. apply Forall_app. split; [|constructor; [intros s [= <-]; apply HS; auto|constructor]].
      apply Forall_forall. intros s Hs. apply repeat_spec in Hs. subst. discriminate. }
  assert (HB : has_bnd full_curve).
  { constructor; auto. { unfold cv_mult. cbn. rewrite map_length. unfold range. apply seq_length. }
    intros p Hp. assert (EP : nth_error (cv_pats full_curve) p = Some (Pat (Pr d N (map Some (completed p))) (Some (sp p false) :: repeat None (G - 2) ++ [Some (sp p true)]))).
    { cbn [cv_pats full_curve]. rewrite nth_error_map. unfold range. rewrite nth_error_seq by auto. reflexivity. }
    eexists. split; [exact EP|]. cbn [pat_proto pat_specs pr_div pr_cubes]. split; auto.
    assert (HL : length (completed p) = G).
    { pose proof (cubes_length full_curve HV p _ EP) as H. cbn [pat_proto pr_cubes] in H. rewrite map_length in H. exact H. }
    split; [rewrite map_length; auto|]. assert (HL2 : length (Some (sp p false) :: repeat None (G - 2) ++ [Some (sp p true)]) = G) by (cbn [length]; rewrite app_length, repeat_length; cbn; lia). split; auto.
    intros [|].
    - split; unfold endn.
      + rewrite nth_error_map. rewrite <- HL. unfold completed. cbn [length]. rewrite app_length. cbn [length]. replace (S (_ + 1) - 1) with (S (length (filter (fun c => negb (z_list_eqb c (cu p false)) && negb (z_list_eqb c (cu p true))) (lprod_rep (zrange N) d)))) by lia.
        cbn [nth_error]. rewrite nth_error_app2, Nat.sub_diag by lia. reflexivity.
      + replace (G - 1) with (S (G - 2)) by lia. cbn [nth_error]. rewrite nth_error_app2; rewrite repeat_length; [|lia]. rewrite Nat.sub_diag. reflexivity.
    - split; reflexivity. }
  split; auto. split; auto. intros p Hp. rewrite (hb_mult _ HB) in Hp. destruct (hb_pat _ HB p Hp) as (pat & E & _ & _ & _ & E4). split; unfold defined_at, get_spec; rewrite E; eexists.
  - apply (E4 false).
  - apply (E4 true).
Qed.
Lemma link_unit c p l : valid_fuzzy c -> ends_def c -> p < cv_mult c -> is_link c p l -> in_cube01 1 (entrance l) /\ in_cube01 1 (exit l).
Proof.
  intros HV HE Hp Hl. destruct (link_kgraph c HV HE p l Hp Hl) as (H0 & H1).
  assert (HU : forall t x, kgraph (core_of c) (Sp (id_map (cv_dim c)) p) t (map qR x) -> in_cube01 1 x).
  { intros t x (HL & delta & _ & Hd'). specialize (Hd' 0). destruct Hd' as (_ & Hp2). apply point_in_kX in Hp2. destruct Hp2 as (_ & Hp2). unfold in_cube01. apply Forall_forall. intros y Hy.
    apply (In_nth _ _ 0%Qc) in Hy. destruct Hy as (j & Hj & <-). rewrite map_length in HL. rewrite HL in Hj. specialize (Hp2 j Hj). cbn in Hp2.
    rewrite (nth_indep _ 0%R (qR 0%Qc)) in Hp2 by (rewrite map_length; congruence). rewrite map_nth in Hp2. rewrite Rmult_1_r in Hp2. unfold kX, place_of in Hp2. cbn in Hp2.
    split; apply qR_le; rewrite ?qR_0, ?qR_1; lra. }
  split; eapply HU; eauto.
Qed.
Lemma bnd_gates c : has_bnd c -> exists g, gate_eqs d N m cu sp g /\ forall p, p < m -> is_link c p (g p) /\ in_cube01 1 (entrance (g p)) /\ in_cube01 1 (exit (g p)).
Proof.
  intros HB. destruct full_bnd as (FB & FV & FE). 
  assert (HX : forall p, exists l, p < m -> is_link full_curve p l /\ pl_dim d l).
  { intros p. destruct (lt_dec p m) as [Hp|Hp]; [|exists (Lk [] []); lia]. rewrite <- (hb_mult _ FB) in Hp. destruct (link_exists full_curve FV FE p Hp) as (l & L1 & L2). exists l. auto. }
  assert (exists g : nat -> plink, forall p, p < m -> is_link full_curve p (g p) /\ pl_dim d (g p)) as (g & Hgl).
  { exists (fun p => match get_entrance full_curve (Some p), get_exit full_curve (Some p) with Some e, Some x => Lk e x | _, _ => Lk [] [] end).
    intros p Hp. destruct (HX p) as (l & Hl). destruct (Hl Hp) as ((E & X) & D). rewrite E, X. destruct l as [e x]. split; [split; auto|auto]. }
  exists g. split.
  - intros p w Hp. destruct (Hgl p Hp) as (G1 & G2). split; auto. destruct (hb_pat _ FB p Hp) as (pat & E & _ & _ & _ & E4).
    destruct (link_selfsim full_curve FV FE p (g p) (cu p false) (cu p true) (sp p false) (sp p true) (g (sp_pnum (sp p false))) (g (sp_pnum (sp p true)))) as (A & B); auto.
    + unfold cube_at. rewrite E. apply (E4 false).
    + unfold get_spec. rewrite E. apply (E4 false).
    + apply Hgl. apply HS; auto.
    + unfold cube_at. rewrite E. apply (E4 true).
    + unfold get_spec. rewrite E. apply (E4 true).
    + apply Hgl. apply HS; auto.
    + destruct w; auto.
  - intros p Hp. destruct (Hgl p Hp) as (G1 & _). split; [apply (bnd_same full_curve c p (g p)); auto|]. apply (link_unit full_curve p); auto. rewrite (hb_mult _ FB). auto.
Qed.
End Bnd.
