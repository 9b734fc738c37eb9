(** Junction templates, part 2: the junctions of the templates are the junctions of the chosen curves (C29). *)
From Verif Require Import Py L_Py L_Qc M_BaseMaps S_BaseMaps L_BaseMaps P_Actions P_GenMaps M_Subsets S_Subsets P_Subsets P_Points
  M_Paths M_Utils M_Curves S_Utils S_Curves S_Paths S_Fuzzy S_Junctions P_CurveAct P_Core P_Bridge P_Paths P_Entrance P_Cont P_Check P_Subdiv
  P_Junctions P_JuncLoop P_JuncMain P_Fuzzy P_FuzzyInit P_FuzzyCurves P_FuzzyMain P_FuzzyOps P_FuzzyBuilt P_Templates.
From Coq Require Import Lia.
Local Open Scope nat_scope.

(** iterated derivation *)
Fixpoint dern (c : curve) (n : nat) (j : junction) : option junction :=
  match n with 0 => Some j | S n' => obind (dern c n' j) (get_derived_junction c) end.
Lemma derived_key c j j' : jkey j = jkey j' -> option_map jkey (get_derived_junction c j) = option_map jkey (get_derived_junction c j').
Proof.
  destruct j as [s1 s2 dx dt dp], j' as [s1' s2' dx' dt' dp']. unfold jkey. cbn [j_spec1 j_spec2 j_dx j_dt]. intros E. injection E as <- <- <- <-.
  unfold get_derived_junction. cbn [j_spec1 j_spec2 j_dx j_depth]. destruct (nth_error (cv_pats c) (sp_pnum s1)); auto. destruct (nth_error (cv_pats c) (sp_pnum s2)); auto.
  destruct (pyget _ _) as [[?|]|]; auto. destruct (pyget _ _) as [[?|]|]; auto. destruct (pr_cube _ _); auto. destruct (pr_cube _ _); auto.
Qed.
Lemma dern_key c n : forall j j', jkey j = jkey j' -> option_map jkey (dern c n j) = option_map jkey (dern c n j').
Proof.
  induction n as [|n IH]; intros j j' E; cbn; [congruence|]. specialize (IH j j' E). destruct (dern c n j) as [a|], (dern c n j') as [b|]; cbn in *; try discriminate; auto.
  apply derived_key. congruence.
Qed.
Definition reach (c : curve) (b : junction) (key : spec * spec * list Z * Z) : Prop := exists n dj, dern c n b = Some dj /\ jkey dj = key.

Section Reach.
Context (c : curve) (P : junction -> Prop) (Pder : forall j, P j -> exists dj, get_derived_junction c j = Some dj /\ P dj).
Lemma dern_P n : forall j, P j -> exists dj, dern c n j = Some dj /\ P dj.
Proof.
  induction n as [|n IH]; intros j Hj; cbn; eauto. destruct (IH j Hj) as (a & -> & Ha). cbn. apply Pder; auto.
Qed.
Lemma reach_spec base fuel js : Forall P base -> NoDup (keys base) -> gen_junctions_from_base fuel c base = (js, GDone) ->
  forall key, In key (keys js) <-> exists b, In b base /\ reach c b key.
Proof.
  intros HP HN E key.
  assert (Q : forall j, (P j /\ exists b n, In b base /\ dern c n b = Some j) -> exists dj, get_derived_junction c j = Some dj /\ (P dj /\ exists b n, In b base /\ dern c n b = Some dj)).
  { intros j (Hj & b & n & Hb & Hn). destruct (Pder j Hj) as (dj & Ed & Hd). exists dj. split; auto. split; auto. exists b, (S n). split; auto. cbn. rewrite Hn. auto. }
  pose proof (from_base_spec c _ Q fuel base) as H. cbn zeta in H. rewrite E in H. cbn [fst snd] in H. destruct H as (H1 & H2 & H3 & H4 & H5); auto.
  { apply Forall_forall. intros b Hb. rewrite Forall_forall in HP. split; auto. exists b, 0. auto. }
  specialize (H5 eq_refl). split.
  - intros Hk. apply in_map_iff in Hk as (j & <- & Hj). rewrite Forall_forall in H1. destruct (H1 j Hj) as (_ & b & n & Hb & Hn). exists b. split; auto. exists n, j. auto.
  - intros (b & Hb & n & dj & Hn & <-). revert dj Hn. induction n as [|n IH]; intros dj Hn.
    + cbn in Hn. injection Hn as <-. apply in_map. apply H4. auto.
    + cbn in Hn. destruct (dern c n b) as [a|] eqn:Ea; [|discriminate]. cbn in Hn. specialize (IH a eq_refl). apply in_map_iff in IH as (a' & Ek & Ha').
      rewrite Forall_forall in H1. destruct (H1 a' Ha') as (Pa' & _). destruct (Pder a' Pa') as (da & Eda & _). pose proof (derived_key c a' a Ek) as X. rewrite Eda, Hn in X. cbn [option_map] in X. assert (X' : jkey da = jkey dj) by congruence.
      rewrite <- X'. apply (H5 a' da); auto.
Qed.
End Reach.

(** the work list only looks at the derivations *)
Lemma derive_loop_ext c c' (P : junction -> Prop) : (forall j, P j -> exists dj, get_derived_junction c' j = Some dj /\ P dj) -> (forall j, P j -> get_derived_junction c j = get_derived_junction c' j) ->
  forall fuel seen stack, Forall P stack -> derive_loop fuel c seen stack = derive_loop fuel c' seen stack.
Proof.
  intros Pder PE. induction fuel as [|fuel IH]; intros seen stack HS; destruct stack as [|j stack]; cbn [derive_loop]; auto. inversion HS; subst.
  rewrite (PE j) by auto. destruct (Pder j H1) as (dj & -> & Pd). destruct (memb junc_eqb dj seen); auto. rewrite IH; auto.
Qed.

Section Exact.
Context (d N : nat) (group : option (list base_map)) (dtr : bool) (paths : list (path (list Qc))).
Context (HG : valid_group d group) (HP : valid_paths d N paths) (c : curve) (HB : built group dtr paths c).
Notation G := (cv_genus c). Notation m := (cv_mult c).
Let GD := built_good d N group dtr paths HG HP c HB.
Lemma built_A p k : p < m -> k < G -> exists l, gen_allowed_specs c p k = Some l /\ l <> [].
Proof. intros Hp Hk. pose proof GD as (_ & _ & _ & _ & _ & _ & A). destruct (A p k Hp Hk) as (l & A1 & _ & A2 & _). eauto. Qed.
Lemma built_G2 : 2 <= G.
Proof.
  pose proof GD as (V & _). destruct V as (V1 & V2 & _). unfold cv_genus. transitivity (cv_div c ^ 1); [rewrite Nat.pow_1_r; auto|]. apply Nat.pow_le_mono_r; lia.
Qed.
Lemma built_len : Forall (fun pat => length (pat_specs pat) = G) (cv_pats c).
Proof. pose proof GD as ((_ & _ & _ & _ & V) & _). eapply Forall_impl; [|exact V]. intros pat (_ & HL & _). auto. Qed.

Section Curve.
Context (x : curve) (HX : chosen_from c x).
Let VX : valid_curve x := built_chosen_valid d N group dtr paths HG HP c x HB HX.
Let VF : valid_fuzzy x := valid_curve_fuzzy x VX.
Let HK : core_ok (core_of x) := full_ok _ (core_of_full x VF).
Lemma x_G : cv_genus x = G. Proof. pose proof HX as (_ & K2 & K3 & _). unfold cv_genus. congruence. Qed.
Lemma x_m : cv_mult x = m. Proof. pose proof HX as (_ & _ & _ & _ & K5 & _). unfold cv_mult. rewrite <- (map_length pat_proto (cv_pats x)), K5, map_length. auto. Qed.
Definition Wx (j : junction) : Prop := wft (core_of x) (jt j).
Lemma Wx_der j : Wx j -> exists dj, get_derived_junction x j = Some dj /\ Wx dj.
Proof.
  intros Hj. rewrite (derived_eq x VF (ends_ok x VX)) by auto. eexists. split; [reflexivity|]. apply reg_of_wf. apply kder_wf; auto.
Qed.
Lemma x_base p k dep : p < m -> k + 1 < G -> exists bj, get_base_junction x p k dep = Some bj /\ Wx bj.
Proof.
  intros Hp Hk. rewrite <- x_m in Hp. rewrite <- x_G in Hk. rewrite (base_eq x VF p k dep) by (auto; apply (all_defined x VX); auto; lia). eexists. split; [reflexivity|]. apply reg_of_wf. apply kbase_wf; auto.
Qed.
Lemma x_base_key p k dep dep' bj : get_base_junction x p k dep = Some bj -> exists bj', get_base_junction x p k dep' = Some bj' /\ jkey bj' = jkey bj.
Proof.
  unfold get_base_junction. destruct (nth_error (cv_pats x) p); [|discriminate]. destruct (nth_error _ k) as [[?|]|]; try discriminate. destruct (nth_error _ (k + 1)) as [[?|]|]; try discriminate.
  destruct (nth_error _ k) as [[?|]|]; try discriminate. destruct (nth_error _ (k + 1)) as [[?|]|]; try discriminate. intros E. injection E as <-. eexists. split; [reflexivity|]. reflexivity.
Qed.
(** the junctions of x *)
Lemma x_junctions fuel js : gen_regular_junctions fuel x = (js, GDone) ->
  forall key, In key (keys js) <-> exists p k bj, p < m /\ k + 1 < G /\ get_base_junction x p k None = Some bj /\ reach x bj key.
Proof.
  intros E key. unfold gen_regular_junctions in E. rewrite (gen_base_eq x VX) in E. destruct (base_dedup x VX) as (B1 & B2 & B3).
  assert (FW : Forall Wx (dedup junc_eqb (base_list x))) by (eapply Forall_impl; [|exact B1]; intros j Hj; apply (genuine_wf x VX j); auto).
  rewrite (reach_spec x Wx Wx_der _ fuel js FW B2 E). split.
  - intros (b & Hb & Hr). destruct (dedup_aux_key jkey junc_eqb junc_eqb_key (base_list x) []) as (D1 & _). fold (dedup junc_eqb (base_list x)) in D1. apply D1 in Hb.
    apply in_map_iff in Hb as ([p k] & <- & Hpk). cbn [fst snd] in Hr. apply (in_pk x) in Hpk as [Hp Hk].
    pose proof (base_eq x VF p k (Some 1) Hp Hk (all_defined x VX p k Hp ltac:(lia)) (all_defined x VX p (k + 1) Hp Hk)) as EB.
    destruct (x_base_key p k (Some 1) None _ EB) as (bj & Ebj & Ekey). exists p, k, bj. rewrite x_m in Hp. rewrite x_G in Hk. repeat split; auto.
    destruct Hr as (n & dj & Hn & <-). pose proof (dern_key x n _ _ Ekey) as X. rewrite Hn in X. destruct (dern x n bj) as [dj'|] eqn:Ed; [|discriminate]. exists n, dj'. cbn [option_map] in X. split; auto. congruence.
  - intros (p & k & bj & Hp & Hk & Ebj & Hr). rewrite <- x_m in Hp. rewrite <- x_G in Hk.
    pose proof (base_eq x VF p k (Some 1) Hp Hk (all_defined x VX p k Hp ltac:(lia)) (all_defined x VX p (k + 1) Hp Hk)) as EB.
    destruct (x_base_key p k None (Some 1) _ Ebj) as (bj' & Ebj' & Ekey). assert (bj' = reg_of (kbase (core_of x) p k) (Some 1)) by congruence. subst bj'.
    pose proof (B3 p k Hp Hk) as Hin. apply in_map_iff in Hin as (b & Eb & Hb). exists b. split; auto. destruct Hr as (n & dj & Hn & <-).
    assert (X : jkey b = jkey bj) by congruence. pose proof (dern_key x n _ _ X) as Y. rewrite Hn in Y. destruct (dern x n b) as [dj'|] eqn:Ed; [|discriminate]. exists n, dj'. cbn [option_map] in Y. split; auto. congruence.
Qed.

(** a template consistent with x derives the same junctions *)
Section Template.
Context (cv : curve) (SF : same_frame c cv) (HC : consistent cv x).
Context (EE : forall q, q < m -> (exists s, get_spec cv q 0 = Some (Some s)) /\ exists s, get_spec cv q (G - 1) = Some (Some s)).
Lemma cv_pat q : q < m -> exists pat pat', nth_error (cv_pats cv) q = Some pat /\ nth_error (cv_pats x) q = Some pat' /\ pat_proto pat = pat_proto pat' /\ length (pat_specs pat) = G /\ length (pat_specs pat') = G.
Proof.
  intros Hq. pose proof SF as (S1 & S2 & S3 & S4 & S5 & S6). pose proof HX as (K1 & K2 & K3 & K4 & K5 & K6 & _).
  pose proof (f_equal (fun l => nth_error l q) S5) as A. pose proof (f_equal (fun l => nth_error l q) K5) as B. pose proof (f_equal (fun l => nth_error l q) S6) as C. cbn in A, B, C. rewrite !nth_error_map in A, B, C.
  destruct (nth_error (cv_pats c) q) as [pc|] eqn:E; [|apply nth_error_None in E; unfold cv_mult in Hq; lia].
  destruct (nth_error (cv_pats cv) q) as [pat|]; [|discriminate]. destruct (nth_error (cv_pats x) q) as [pat'|] eqn:E'; [|discriminate]. cbn in A, B, C. exists pat, pat'.
  injection A as A. injection B as B. injection C as C. repeat split; auto; try congruence.
  - rewrite C. pose proof built_len as L. rewrite Forall_forall in L. apply L. apply nth_error_In with q; auto.
  - rewrite Forall_forall in K6. apply K6. apply nth_error_In with q; auto.
Qed.
Lemma end_spec q (e : bool) pat pat' : q < m -> nth_error (cv_pats cv) q = Some pat -> nth_error (cv_pats x) q = Some pat' ->
  exists s, pyget (pat_specs pat) (if e then 0%Z else (-1)%Z) = Some (Some s) /\ pyget (pat_specs pat') (if e then 0%Z else (-1)%Z) = Some (Some s).
Proof.
  intros Hq E E'. destruct (cv_pat q Hq) as (pat0 & pat0' & F & F' & _ & L & L'). assert (pat0 = pat) by congruence. assert (pat0' = pat') by congruence. subst pat0 pat0'.
  pose proof built_G2. destruct (EE q Hq) as [[s0 A0] [s1 A1]]. pose proof (HC q 0 s0 A0) as B0. pose proof (HC q (G - 1) s1 A1) as B1. unfold get_spec in A0, A1, B0, B1. rewrite E in A0, A1. rewrite E' in B0, B1. destruct e.
  - exists s0. rewrite !pyget_0. auto.
  - exists s1. rewrite !pyget_m1; rewrite ?L, ?L'; auto; intros Z; rewrite Z in *; cbn in *; lia.
Qed.
Lemma der_same j : Wx j -> get_derived_junction cv j = get_derived_junction x j.
Proof.
  destruct j as [X Y v dt dep]. intros ((HX1 & HX2) & (HY1 & HY2) & Hv). cbn [j_spec1 j_spec2] in *. change (km (core_of x)) with (cv_mult x) in *. rewrite x_m in *.
  destruct (cv_pat _ HX2) as (p1 & p1' & E1 & E1' & P1 & L1 & L1'). destruct (cv_pat _ HY2) as (p2 & p2' & E2 & E2' & P2 & L2 & L2').
  unfold get_derived_junction. cbn [j_spec1 j_spec2 j_dx j_depth]. rewrite E1, E1', E2, E2'. cbn zeta. rewrite P1, P2.
  destruct (end_spec _ (time_rev (sp_bm X)) _ _ HX2 E1 E1') as (s1 & -> & ->).
  assert (Q : exists s, pyget (pat_specs p2) (if time_rev (sp_bm Y) then (-1)%Z else 0%Z) = Some (Some s) /\ pyget (pat_specs p2') (if time_rev (sp_bm Y) then (-1)%Z else 0%Z) = Some (Some s)).
  { destruct (end_spec _ (negb (time_rev (sp_bm Y))) _ _ HY2 E2 E2') as (s & A & B). exists s. destruct (time_rev (sp_bm Y)); auto. }
  destruct Q as (s2 & -> & ->). assert (EN : cv_div cv = cv_div x) by (pose proof SF as (_ & _ & S3 & _); pose proof HX as (_ & _ & K3 & _); congruence). rewrite EN. auto.
Qed.
Lemma base_same p k dep : p < m -> k + 1 < G -> (exists s, get_spec cv p k = Some (Some s)) -> (exists s, get_spec cv p (k + 1) = Some (Some s)) ->
  get_base_junction cv p k dep = get_base_junction x p k dep.
Proof.
  intros Hp Hk (s1 & A1) (s2 & A2). pose proof (HC p k s1 A1) as B1. pose proof (HC p (k + 1) s2 A2) as B2. destruct (cv_pat p Hp) as (pat & pat' & E & E' & PP & _ & _).
  unfold get_base_junction, get_spec in *. rewrite E, E' in *. rewrite A1, A2, B1, B2, PP. auto.
Qed.
Lemma from_base_same fuel bj : Wx bj -> gen_junctions_from_base fuel cv [bj] = gen_junctions_from_base fuel x [bj].
Proof.
  intros H. unfold gen_junctions_from_base. rewrite (derive_loop_ext cv x Wx Wx_der der_same) by (constructor; auto). auto.
Qed.
Lemma template_junctions fuel js p k bj : p < m -> k + 1 < G -> get_base_junction x p k None = Some bj -> gen_junctions_from_base fuel cv [bj] = (js, GDone) ->
  forall key, In key (keys js) <-> reach x bj key.
Proof.
  intros Hp Hk EB E key. destruct (x_base p k None Hp Hk) as (bj' & EB' & W). assert (bj' = bj) by congruence. subst bj'. rewrite from_base_same in E by auto.
  rewrite (reach_spec x Wx Wx_der [bj] fuel js) by (auto; repeat constructor; auto). split; [intros (b & [<-|[]] & H); auto|]. intros H. exists bj. cbn. auto.
Qed.
End Template.
(** termination *)
Lemma x_ends p k bj : check x = Some true -> p < m -> k + 1 < G -> get_base_junction x p k None = Some bj -> exists fuel0, forall fuel, fuel0 <= fuel -> snd (gen_junctions_from_base fuel x [bj]) = GDone.
Proof.
  intros CK Hp Hk EB. set (U := universe x). exists (1 + length U). intros fuel HF. unfold gen_junctions_from_base. cbn [snd rev app].
  set (P := fun j => exists j', genuine x j' /\ jkey j' = jkey j).
  assert (PD : forall j, P j -> exists dj, get_derived_junction x j = Some dj /\ P dj).
  { intros j (j' & Hj' & E). destruct (genuine_der x VX j' Hj') as (dj' & Ed & Hd). pose proof (derived_key x j' j E) as X. rewrite Ed in X. destruct (get_derived_junction x j) as [dj|] eqn:Edj; [|discriminate].
    exists dj. split; auto. exists dj'. split; auto. cbn [option_map] in X. congruence. }
  assert (PB : P bj).
  { destruct (x_base_key p k None (Some 1) _ EB) as (bj' & EB' & Ek). exists bj'. split; auto. rewrite <- x_m in Hp. rewrite <- x_G in Hk.
    rewrite (base_eq x VF p k (Some 1)) in EB' by (auto; apply (all_defined x VX); auto; lia). injection EB' as <-. apply (base_genuine x VX). unfold base_list. apply in_map_iff. exists (p, k). split; auto. apply (in_pk x). auto. }
  apply (loop_ends x P PD U).
  - intros j (j' & Hj' & E). rewrite <- E. apply (genuine_universe x VX CK j' Hj').
  - constructor; auto.
  - constructor; auto.
  - repeat constructor; auto.
  - cbn [length]. lia.
Qed.
End Curve.

(** grouping by junction *)
Definition tbl (T : list (junction * list curve)) key cv : Prop := exists j l, In (j, l) T /\ jkey j = key /\ In cv l.
Definition tkeys (T : list (junction * list curve)) := map (fun e => jkey (fst e)) T.
Lemma dget_tbl T j : NoDup (tkeys T) -> forall cv, tbl T (jkey j) cv <-> exists l, dget junc_eqb T j = Some l /\ In cv l.
Proof.
  induction T as [|[j0 l0] T IH]; intros HN cv.
  - split; [intros (j' & l & [] & _)|intros (l & E & _); discriminate].
  - cbn [tkeys map fst] in HN. inversion HN as [|? ? HNI HN']; subst. cbn [dget]. destruct (junc_eqb j j0) eqn:E.
    + apply junc_eqb_key in E. split.
      * intros (j' & l & [H|H] & K & I). { injection H as <- <-. eauto. }
        exfalso. apply HNI. rewrite <- E, <- K. apply in_map_iff. exists (j', l). auto.
      * intros (l & X & I). injection X as <-. exists j0, l0. cbn. auto.
    + rewrite <- (IH HN'). split; intros (j' & l & H & K & I).
      * destruct H as [H|H]; [|exists j', l; auto]. injection H as <- <-. exfalso. apply not_true_iff_false in E. apply E. apply junc_eqb_key. auto.
      * exists j', l. cbn. auto.
Qed.
Lemma dset_tbl T j cv : tkeys T = tkeys T -> NoDup (tkeys T) ->
  let T' := dset junc_eqb T j ((match dget junc_eqb T j with Some l => l | None => [] end) ++ [cv]) in
  NoDup (tkeys T') /\ forall key cv', tbl T' key cv' <-> tbl T key cv' \/ (key = jkey j /\ cv' = cv).
Proof.
  intros _. induction T as [|[j0 l0] T IH]; intros HN; cbn zeta.
  - cbn. split; [repeat constructor; auto|]. intros key cv'. split.
    + intros (j' & l & [H|[]] & K & I). injection H as <- <-. destruct I as [<-|[]]. auto.
    + intros [(j' & l & [] & _)|[-> ->]]. exists j, [cv]. cbn. auto.
  - cbn [tkeys map fst] in HN. inversion HN as [|? ? HNI HN']; subst. cbn [dget dset]. destruct (junc_eqb j j0) eqn:E.
    + split; [exact HN|]. intros key cv'. split.
      * intros (j' & l & [H|H] & K & I).
        -- injection H as <- <-. apply in_app_or in I as [I|[<-|[]]]; [left; exists j0, l0; cbn; auto|right]. split; auto. apply junc_eqb_key in E. congruence.
        -- left. exists j', l. cbn. auto.
      * intros [(j' & l & [H|H] & K & I)|[-> ->]].
        -- injection H as <- <-. exists j0, (l0 ++ [cv]). cbn. split; auto. split; auto. apply in_or_app. auto.
        -- exists j', l. cbn. auto.
        -- exists j0, (l0 ++ [cv]). cbn. split; auto. apply junc_eqb_key in E. split; [congruence|]. apply in_or_app. cbn. auto.
    + destruct (IH HN') as [A B]. set (T' := dset junc_eqb T j _) in *. split.
      * cbn [tkeys map fst]. constructor; auto. intros Hin. apply in_map_iff in Hin as ([j1 l1] & E1 & H1). cbn in E1. assert (HE : l1 = [] \/ exists c1, In c1 l1) by (destruct l1; [auto|right; cbn; eauto]).
        assert (K1 : In (jkey j0) (tkeys T) \/ jkey j0 = jkey j).
        { assert (D : forall TT v, In (j1, l1) (dset junc_eqb TT j v) -> In (jkey j1) (tkeys TT) \/ jkey j1 = jkey j).
          { clear. induction TT as [|[a b] TT IH]; intros v; cbn [dset].
            - intros [H|[]]. injection H as <- <-. auto.
            - destruct (junc_eqb j a) eqn:E; intros [H|H].
              + injection H as <- <-. cbn. auto.
              + left. right. apply in_map_iff. exists (j1, l1). auto.
              + injection H as <- <-. cbn. auto.
              + apply IH in H as [H|H]; auto. left. right. auto. }
          apply D in H1. rewrite E1 in H1. auto. }
        destruct K1 as [K1|K1]; auto. apply not_true_iff_false in E. apply E. apply junc_eqb_key. auto.
      * intros key cv'. split.
        -- intros (j' & l & [H|H] & K & I).
           ++ injection H as <- <-. left. exists j0, l0. cbn. auto.
           ++ assert (X : tbl T' key cv') by (exists j', l; auto). apply B in X as [(j2 & l2 & X1 & X2)|X]; auto. left. exists j2, l2. cbn. auto.
        -- intros [(j' & l & [H|H] & K & I)|X].
           ++ injection H as <- <-. exists j0, l0. cbn. auto.
           ++ assert (X : tbl T' key cv') by (apply B; left; exists j', l; auto). destruct X as (j2 & l2 & X1 & X2). exists j2, l2. cbn. auto.
           ++ assert (Y : tbl T' key cv') by (apply B; auto). destruct Y as (j2 & l2 & X1 & X2). exists j2, l2. cbn. auto.
Qed.
Definition add_cv (cv : curve) (T : list (junction * list curve)) (j : junction) :=
  dset junc_eqb T j ((match dget junc_eqb T j with Some l => l | None => [] end) ++ [cv]).
Lemma add_all cv js : forall T, NoDup (tkeys T) -> NoDup (tkeys (fold_left (add_cv cv) js T)) /\
  forall key cv', tbl (fold_left (add_cv cv) js T) key cv' <-> tbl T key cv' \/ (In key (keys js) /\ cv' = cv).
Proof.
  induction js as [|j js IH]; intros T HN; cbn [fold_left].
  - split; auto. intros. cbn. tauto.
  - destruct (dset_tbl T j cv eq_refl HN) as [A B]. fold (add_cv cv T j) in A, B. destruct (IH _ A) as [C D]. split; auto. intros key cv'. rewrite D, B. unfold keys. cbn [map In]. split.
    + intros [[H|[-> ->]]|[H ->]]; auto.
    + intros [H|[[<-|H] ->]]; auto.
Qed.
Definition step_result (fuel : nat) (t : nat * nat * list (nat * nat * spec)) (cv : curve) (js : list junction) : Prop :=
  specify_allowed c (spec_dict_of (snd t)) = Some cv /\ exists bj, get_base_junction cv (fst (fst t)) (snd (fst t)) None = Some bj /\ gen_junctions_from_base fuel cv [bj] = (js, GDone).
Lemma steps fuel ts : forall T T', NoDup (tkeys T) -> fold_left (fun acc t => obind acc (fun a => template_step fuel c a t)) ts (Some T) = Some T' ->
  NoDup (tkeys T') /\ (forall t, In t ts -> exists cv js, step_result fuel t cv js) /\
  forall key cv, tbl T' key cv <-> tbl T key cv \/ exists t js, In t ts /\ step_result fuel t cv js /\ In key (keys js).
Proof.
  induction ts as [|t ts IH]; intros T T' HN; cbn [fold_left obind].
  - intros E. injection E as <-. split; auto. split; [intros t []|]. intros key cv. split; auto. intros [H|(t & js & [] & _)]; auto.
  - destruct (template_step fuel c T t) as [T1|] eqn:E1.
    + intros E. assert (SR : exists cv js, step_result fuel t cv js /\ T1 = fold_left (add_cv cv) js T).
      { unfold template_step in E1. destruct (specify_allowed c (spec_dict_of (snd t))) as [cv|] eqn:F1; [|discriminate].
        destruct (get_base_junction cv (fst (fst t)) (snd (fst t)) None) as [bj|] eqn:F2; [|discriminate]. destruct (gen_junctions_from_base fuel cv [bj]) as [js e] eqn:F3. destruct e; try discriminate.
        injection E1 as <-. exists cv, js. split; [|reflexivity]. split; auto. exists bj. auto. }
      destruct SR as (cv0 & js0 & SR & ->). destruct (add_all cv0 js0 T HN) as [A B]. destruct (IH _ _ A E) as (C & D & F). split; auto. split.
      * intros t' [<-|Ht']; eauto.
      * intros key cv. rewrite F, B. split.
        -- intros [[H|[H1 ->]]|(t' & js & Ht' & S' & Hk)]; auto; right; [exists t, js0; cbn; auto|exists t', js; cbn; auto].
        -- intros [H|(t' & js & [<-|Ht'] & S' & Hk)]; auto.
           ++ left. right. destruct S' as (S1 & bj & S2 & S3). destruct SR as (R1 & bj0 & R2 & R3). assert (cv = cv0) by congruence. subst cv. assert (bj = bj0) by congruence. subst bj. assert (js = js0) by congruence. subst. auto.
           ++ right. exists t', js. auto.
    + assert (X : forall l, fold_left (fun acc t => obind acc (fun a => template_step fuel c a t)) l None = None) by (induction l; auto). rewrite X. discriminate.
Qed.

(** C29 *)
Lemma templates_reach fuel T : get_junction_templates fuel c = Some T -> NoDup (tkeys T) /\ forall x, chosen_from c x ->
  forall j, (exists p k bj, p < m /\ k + 1 < G /\ get_base_junction x p k None = Some bj /\ reach x bj (jkey j)) <->
            exists cvs cv, dget junc_eqb T j = Some cvs /\ In cv cvs /\ consistent cv x.
Proof.
  intros ET. unfold get_junction_templates in ET. destruct (templates_of c) as [ts|] eqn:ETS; [|discriminate].
  destruct (steps fuel ts [] T ltac:(constructor) ET) as (ND & SA & SB). split; auto. intros x HX j.
  assert (DT : forall cv, tbl T (jkey j) cv <-> exists l, dget junc_eqb T j = Some l /\ In cv l) by (apply dget_tbl; auto).
  assert (TC := template_curve c built_G2 built_A built_len ts ETS). assert (TS := templates_sound c built_G2 ts ETS).
  assert (CM : forall t cv js0, In t ts -> step_result fuel t cv js0 -> consistent cv x -> forall key, In key (keys js0) <-> exists bj, get_base_junction x (fst (fst t)) (snd (fst t)) None = Some bj /\ reach x bj key).
  { intros t cv js0 Ht (S1 & bj & S2 & S3) HC key. destruct (TC t Ht) as (cv' & C1 & C2 & C3 & _). assert (cv' = cv) by congruence. subst cv'.
    pose proof (TS t Ht) as (I1 & I2 & I3 & I4 & I5 & I6 & I7).
    assert (Hdef : forall q i, dget pc_eqb (snd t) (q, i) <> None -> exists s, get_spec cv q i = Some (Some s)).
    { intros q i Hn. rewrite C3. destruct (dget pc_eqb (snd t) (q, i)) as [s|]; [eauto|congruence]. }
    assert (EE : forall q, q < m -> (exists s, get_spec cv q 0 = Some (Some s)) /\ exists s, get_spec cv q (G - 1) = Some (Some s)).
    { intros q Hq. destruct (I5 q Hq) as [Q1 Q2]. split; apply Hdef; auto. }
    rewrite (base_same x HX cv C2 HC _ _ None I1 I2 (Hdef _ _ I6) (Hdef _ _ I7)) in S2.
    rewrite (template_junctions x HX cv C2 HC EE fuel js0 _ _ bj I1 I2 S2 S3 key). split; [eauto|]. intros (bj' & E' & R). congruence. }
  split.
  - intros (p & k & bj & Hp & Hk & EB & HR). destruct (templates_complete c built_G2 ts ETS x p k HX Hp Hk) as (Tm & Ht & HTm). destruct (SA _ Ht) as (cv & js0 & SR).
    destruct (TC _ Ht) as (cv' & C1 & C2 & C3 & C4 & C5 & C6). assert (cv' = cv) by (destruct SR as (S1 & _); congruence). subst cv'.
    assert (HC : consistent cv x) by (apply (C6 x HX); auto). assert (HI : In (jkey j) (keys js0)) by (apply (CM _ _ _ Ht SR HC); cbn [fst snd]; eauto).
    assert (X : tbl T (jkey j) cv) by (apply SB; right; eauto). apply DT in X as (l & X1 & X2). exists l, cv. auto.
  - intros (cvs & cv & X1 & X2 & HC). assert (X : tbl T (jkey j) cv) by (apply DT; eauto). apply SB in X as [(j' & l & [] & _)|(t & js0 & Ht & SR & HI)].
    apply (CM _ _ _ Ht SR HC) in HI as (bj & EB & HR). pose proof (TS t Ht) as (I1 & I2 & _). exists (fst (fst t)), (snd (fst t)), bj. auto.
Qed.
Theorem templates_exact fuel T : get_junction_templates fuel c = Some T -> forall x fuel' js, chosen_from c x -> gen_regular_junctions fuel' x = (js, GDone) ->
  forall j, (exists j', In j' js /\ jkey j' = jkey j) <-> exists cvs cv, dget junc_eqb T j = Some cvs /\ In cv cvs /\ consistent cv x.
Proof.
  intros ET x fuel' js HX EJ j. rewrite <- (proj2 (templates_reach fuel T ET) x HX j). transitivity (In (jkey j) (keys js)).
  { unfold keys. rewrite in_map_iff. split; intros (j' & A & B); exists j'; auto. }
  apply (x_junctions x HX fuel' js EJ).
Qed.
(** where the templates are found, the enumeration of the junctions of every chosen curve ends *)
Lemma templates_x_end fuel T x : get_junction_templates fuel c = Some T -> chosen_from c x -> exists fuel0, forall fuel', fuel0 <= fuel' -> snd (gen_regular_junctions fuel' x) = GDone.
Proof.
  intros ET HX. destruct (templates_reach fuel T ET) as [ND TR]. pose proof (built_chosen_valid d N group dtr paths HG HP c x HB HX) as VX'.
  set (P := fun j => Wx x j /\ exists p k bj, p < m /\ k + 1 < G /\ get_base_junction x p k None = Some bj /\ reach x bj (jkey j)).
  assert (PD : forall j, P j -> exists dj, get_derived_junction x j = Some dj /\ P dj).
  { intros j (HW & p & k & bj & Hp & Hk & EB & (n & dj & Hn & Ek)). destruct (Wx_der x HX j HW) as (dj' & Ed & Wd). exists dj'. split; auto. split; auto. exists p, k, bj. repeat (split; auto).
    destruct (x_base x HX p k None Hp Hk) as (bj' & EB' & Wb). assert (bj' = bj) by congruence. subst bj'.
    pose proof (derived_key x dj j Ek) as X. rewrite Ed in X. destruct (get_derived_junction x dj) as [dj2|] eqn:E2; [|discriminate]. cbn [option_map] in X. exists (n + 1), dj2. split; [|congruence].
    rewrite Nat.add_1_r. cbn [dern]. rewrite Hn. exact E2. }
  assert (PU : forall j, P j -> In (jkey j) (tkeys T)).
  { intros j (_ & HR). apply (TR x HX j) in HR as (cvs & cv & E1 & E2 & _). clear -E1. induction T as [|[j0 l0] T IH]; [discriminate|]. cbn [dget] in E1. cbn [tkeys map fst]. destruct (junc_eqb j j0) eqn:E; [apply junc_eqb_key in E; left; auto|right; apply IH; auto]. }
  destruct (base_dedup x VX') as (B1 & B2 & _). set (base := dedup junc_eqb (base_list x)) in *.
  assert (FB : Forall P base).
  { apply Forall_forall. intros b Hb. split; [rewrite Forall_forall in B1; apply (genuine_wf x VX'); auto|]. destruct (dedup_aux_key jkey junc_eqb junc_eqb_key (base_list x) []) as (D1 & _). apply D1 in Hb.
    apply in_map_iff in Hb as ([p k] & <- & Hpk). apply (in_pk x) in Hpk as [Hp Hk]. cbn [fst snd].
    pose proof (base_eq x (valid_curve_fuzzy x VX') p k (Some 1) Hp Hk (all_defined x VX' p k Hp ltac:(lia)) (all_defined x VX' p (k + 1) Hp Hk)) as EB.
    destruct (x_base_key x p k (Some 1) None _ EB) as (bj & Ebj & Ekey). rewrite (x_m x HX) in Hp. rewrite (x_G x HX) in Hk. exists p, k, bj. repeat (split; auto). exists 0, bj. split; auto. }
  exists (length base + length (tkeys T)). intros fuel' Hf. unfold gen_regular_junctions. rewrite (gen_base_eq x VX'). fold base. unfold gen_junctions_from_base. cbn [snd].
  apply (loop_ends x P PD (tkeys T) PU); auto.
  - apply Forall_rev. auto.
  - apply Forall_rev. auto.
  - unfold keys. rewrite map_rev. apply NoDup_rev. auto.
  - rewrite ?rev_length. lia.
Qed.
Theorem templates_end : (forall p, In p paths -> joined_path p) -> exists fuel0 T, forall fuel, fuel0 <= fuel -> get_junction_templates fuel c = Some T.
Proof.
  intros HJ. destruct (templates_total c built_G2 built_A) as (ts & ETS). unfold get_junction_templates. rewrite ETS.
  assert (TC := template_curve c built_G2 built_A built_len ts ETS). assert (TS := templates_sound c built_G2 ts ETS).
  assert (ONE : forall t, In t ts -> exists f cv js, forall fuel, f <= fuel -> step_result fuel t cv js).
  { intros t Ht. destruct (TC t Ht) as (cv & C1 & C2 & C3 & C4 & C5 & C6). pose proof (TS t Ht) as (I1 & I2 & I3 & I4 & I5 & I6 & I7).
    pose proof C2 as (S1 & S2 & S3 & S4 & S5 & S6). assert (EG : cv_genus cv = G) by (unfold cv_genus; congruence). assert (EM : cv_mult cv = m) by (unfold cv_mult; rewrite <- (map_length pat_proto (cv_pats cv)), S5, map_length; auto).
    destruct (chosen_exists cv) as (x & HXc). { rewrite EG, EM. auto. } destruct (C5 x HXc) as [HX HC].
    assert (Hdef : forall q i, dget pc_eqb (snd t) (q, i) <> None -> exists s, get_spec cv q i = Some (Some s)).
    { intros q i Hn. rewrite C3. destruct (dget pc_eqb (snd t) (q, i)) as [s|]; [eauto|congruence]. }
    assert (EE : forall q, q < m -> (exists s, get_spec cv q 0 = Some (Some s)) /\ exists s, get_spec cv q (G - 1) = Some (Some s)).
    { intros q Hq. destruct (I5 q Hq) as [Q1 Q2]. split; apply Hdef; auto. }
    pose proof (built_check d N group dtr paths HG HP c x HJ HB HX) as CK. destruct (x_base x HX _ _ None I1 I2) as (bj & EB & W).
    destruct (x_ends x HX _ _ bj CK I1 I2 EB) as (f & Hf). exists f, cv, (fst (gen_junctions_from_base f x [bj])). intros fuel Hfu. split; auto. exists bj.
    rewrite (base_same x HX cv C2 HC _ _ None I1 I2 (Hdef _ _ I6) (Hdef _ _ I7)). split; auto. rewrite (from_base_same x HX cv C2 HC EE fuel bj W).
    pose proof (Hf f ltac:(lia)) as HF. assert (EQ : gen_junctions_from_base fuel x [bj] = gen_junctions_from_base f x [bj]).
    { unfold gen_junctions_from_base. cbn [rev app]. unfold gen_junctions_from_base in HF. cbn [rev app snd] in HF. rewrite (loop_mono x f fuel [bj] [bj]); auto. congruence. }
    rewrite EQ. destruct (gen_junctions_from_base f x [bj]) as [a b]. cbn in *. congruence. }
  assert (ALL : exists f, forall t, In t ts -> exists cv js, forall fuel, f <= fuel -> step_result fuel t cv js).
  { clear -ONE. induction ts as [|t ts IH]; [exists 0; intros t []|]. destruct IH as (f1 & H1); [intros t' Ht'; apply ONE; right; auto|]. destruct (ONE t (or_introl eq_refl)) as (f2 & cv & js & H2).
    exists (Nat.max f1 f2). intros t' [<-|Ht']; [exists cv, js; intros; apply H2; lia|]. destruct (H1 t' Ht') as (cv' & js' & H'). exists cv', js'. intros. apply H'. lia. }
  destruct ALL as (f & ALL). exists f. clear TC TS ONE ETS.
  assert (FOLD : forall T, exists T', forall fuel, f <= fuel -> fold_left (fun acc t => obind acc (fun a => template_step fuel c a t)) ts (Some T) = Some T').
  { induction ts as [|t ts IH]; intros T; [exists T; auto|]. destruct (ALL t (or_introl eq_refl)) as (cv & js & H). destruct (IH ltac:(intros t' Ht'; apply ALL; right; auto) (fold_left (add_cv cv) js T)) as (T' & HT').
    exists T'. intros fuel Hf. cbn [fold_left obind]. destruct (H fuel Hf) as (S1 & bj & S2 & S3). assert (E : template_step fuel c T t = Some (fold_left (add_cv cv) js T)) by (unfold template_step; rewrite S1, S2, S3; reflexivity).
    rewrite E. apply HT'; auto. }
  apply FOLD.
Qed.
(** every template has a curve of the family *)
Lemma templates_real fuel T j l : get_junction_templates fuel c = Some T -> In (j, l) T -> exists x cv, chosen_from c x /\ In cv l /\ consistent cv x.
Proof.
  intros ET Hin. pose proof ET as ET0. unfold get_junction_templates in ET. destruct (templates_of c) as [ts|] eqn:ETS; [|discriminate].
  destruct (steps fuel ts [] T ltac:(constructor) ET) as (ND & SA & SB).
  assert (NE : Forall (fun e : junction * list curve => snd e <> []) T).
  { revert ET. clear. assert (G : forall ts T0, Forall (fun e : junction * list curve => snd e <> []) T0 -> fold_left (fun acc t => obind acc (fun a => template_step fuel c a t)) ts (Some T0) = Some T -> Forall (fun e => snd e <> []) T).
    { clear ts. induction ts as [|t ts IH]; intros T0 H0; cbn [fold_left obind]; [intros E; injection E as <-; auto|]. destruct (template_step fuel c T0 t) as [T1|] eqn:E1.
      - apply IH. unfold template_step in E1. destruct (specify_allowed c (spec_dict_of (snd t))) as [cv|]; [|discriminate]. destruct (get_base_junction cv (fst (fst t)) (snd (fst t)) None) as [bj|]; [|discriminate].
        destruct (gen_junctions_from_base fuel cv [bj]) as [js e]. destruct e; try discriminate. injection E1 as <-. revert H0. clear. revert T0. induction js as [|j js IH]; intros T0 H0; cbn [fold_left]; auto. apply IH.
        revert H0. generalize (match dget junc_eqb T0 j with Some l => l | None => [] end). intros l H0. induction H0 as [|[a b] T0 H1 H2 IH0]; cbn [dset]; [|destruct (junc_eqb j a)]; constructor; auto; cbn; destruct l; discriminate.
      - assert (X : forall l, fold_left (fun acc t => obind acc (fun a => template_step fuel c a t)) l None = None) by (induction l; auto). rewrite X. discriminate. }
    intros H. eapply G; eauto. }
  rewrite Forall_forall in NE. specialize (NE _ Hin). cbn [snd] in NE. destruct l as [|cv l]; [congruence|].
  assert (X : tbl T (jkey j) cv) by (exists j, (cv :: l); cbn; auto). apply SB in X as [(j' & l' & [] & _)|(t & js0 & Ht & SR & HI)].
  assert (TC := template_curve c built_G2 built_A built_len ts ETS). destruct (TC _ Ht) as (cv' & C1 & C2 & C3 & C4 & C5 & C6). assert (cv' = cv) by (destruct SR as (S1 & _); congruence). subst cv'.
  pose proof C2 as (S1 & S2 & S3 & S4 & S5 & S6). assert (EG : cv_genus cv = G) by (unfold cv_genus; congruence). assert (EM : cv_mult cv = m) by (unfold cv_mult; rewrite <- (map_length pat_proto (cv_pats cv)), S5, map_length; auto).
  destruct (chosen_exists cv) as (x & HXc). { rewrite EG, EM. auto. } destruct (C5 x HXc) as [HX HC]. exists x, cv. cbn. auto.
Qed.
End Exact.
