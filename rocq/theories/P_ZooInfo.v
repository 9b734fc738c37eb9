(** The information recorded in the zoo: checkers and their soundness. *)
From Verif Require Import Py L_Py L_Qc L_R L_BaseMaps M_BaseMaps S_BaseMaps M_Subsets S_Subsets M_Paths M_Utils M_Curves M_Dilation M_Heap M_Zoo M_Main M_ZooInfo
  S_Utils S_Curves S_Fuzzy S_Junctions S_Heap S_Ratio S_Dilation S_Main S_ZooInfo P_Utils P_GenMaps P_CurveAct P_Core P_Bridge P_Cont P_Check P_Subdiv P_Heap P_Valid P_Entrance P_Faces P_JuncFacts P_DilCheck T_Utils T_Faces T_Curves T_Dilation.
From Coq Require Import Reals Lra Qreals Permutation.
Local Open Scope nat_scope.

(** * Gates *)
Lemma qc_dec_ok : eqb_ok qc_eqb.
Proof. intros x y. unfold qc_eqb. destruct (Qc_eq_dec x y); split; congruence. Qed.
Definition gates_ok (c : curve) (gs : list (option plink)) : bool :=
  Nat.eqb (length gs) (cv_mult c) && forallb (fun p => match nth_error gs p, get_entrance c (Some p), get_exit c (Some p) with
    | Some (Some g), Some e, Some x => list_eqb qc_eqb e (entrance g) && list_eqb qc_eqb x (exit g) | _, _, _ => false end) (range (cv_mult c)).
Lemma gates_sound c gs : valid_curve c -> gates_ok c gs = true -> gates_true c gs.
Proof.
  intros V H. apply andb_true_iff in H as [H1 H2]. apply Nat.eqb_eq in H1. split; [exact H1|]. intros p Hp. rewrite forallb_forall in H2.
  specialize (H2 p ltac:(apply in_seq; lia)). destruct (nth_error gs p) as [[g|]|]; try discriminate. exists g. split; [reflexivity|].
  pose proof (valid_curve_fuzzy c V) as VF. pose proof (curve_ends_def c V) as ED.
  destruct (C19_entrance c VF ED p Hp) as (e & E & _ & HE). destruct (C19_exit c VF ED p Hp) as (x & X & _ & HX). rewrite E, X in H2.
  apply andb_true_iff in H2 as [H2 H3]. apply (list_eqb_ok _ qc_dec_ok) in H2, H3. subst e x. auto.
Qed.

(** * Moments *)
Fixpoint take_out (x : Qc) (l : list Qc) : option (list Qc) :=
  match l with [] => None | y :: l' => if qc_eqb x y then Some l' else option_map (cons y) (take_out x l') end.
Fixpoint permb (l m : list Qc) : bool := match l with [] => match m with [] => true | _ => false end | x :: l' => match take_out x m with Some m' => permb l' m' | None => false end end.
Lemma take_out_ok x : forall l m, take_out x l = Some m -> Permutation l (x :: m).
Proof.
  induction l as [|y l IH]; intros m E; [discriminate|]. cbn in E. destruct (qc_eqb x y) eqn:Q.
  - apply qc_dec_ok in Q. subst y. assert (l = m) by congruence. subst m. reflexivity.
  - destruct (take_out x l) as [m'|]; [|discriminate]. cbn in E. assert (m = y :: m') by congruence. subst m. rewrite (IH m' eq_refl). apply perm_swap.
Qed.
Lemma permb_ok : forall l m, permb l m = true -> Permutation l m.
Proof.
  induction l as [|x l IH]; intros m E; cbn in E; [destruct m; [auto|discriminate]|]. destruct (take_out x m) as [m'|] eqn:T; [|discriminate].
  rewrite (take_out_ok _ _ _ T). constructor. auto.
Qed.
Definition moments_ok (c : curve) (kt : Z * list Qc) : bool :=
  let (k, ts) := kt in (Z.to_nat (Z.abs k) <=? cv_dim c) &&
  match gen_faces (cv_dim c) (Z.to_nat (Z.abs k)) with
  | Some fs => match omap (fun f => get_face_moment c f (Some 0) (k <? 0)%Z) fs with Some ts' => permb ts ts' | None => false end
  | None => false
  end.
Lemma moments_sound c k ts : valid_curve c -> moments_ok c (k, ts) = true -> moments_true c k ts.
Proof.
  intros V H. unfold moments_ok in H. apply andb_true_iff in H as [H1 H2]. apply Nat.leb_le in H1. destruct (C44_gen_faces _ _ H1) as (fs & E & ND & IN). rewrite E in H2.
  destruct (omap _ fs) as [ts'|] eqn:Eo; [|discriminate]. exists fs, ts'. split; [exact ND|]. assert (IN' : forall f, In f fs <-> valid_face (cv_dim c) f /\ face_free f = Z.to_nat (Z.abs k)).
  { intros f. rewrite (IN f). unfold valid_face. tauto. }
  split; [exact IN'|]. split; [apply permb_ok; exact H2|]. assert (M : 0 < cv_mult c) by (destruct V as (_ & _ & P & _); lia).
  assert (F : forall f, In f fs -> valid_face (cv_dim c) f) by (intros f Hf; apply IN'; exact Hf). clear - V Eo F M. revert ts' Eo. induction fs as [|f fs IH]; intros ts' Eo; cbn in Eo.
  - assert (ts' = []) by congruence. subst. constructor.
  - destruct (get_face_moment c f (Some 0) (k <? 0)%Z) as [t|] eqn:Et; [|discriminate]. destruct (omap _ fs) as [ts''|] eqn:Eo'; [|discriminate].
    assert (ts' = t :: ts'') by congruence. subst ts'. constructor.
    + destruct (C21_face_moment c V f (F f (or_introl eq_refl)) (k <? 0)%Z 0 M) as (x & t' & A & _ & B & C & D). assert (t' = t) by congruence. subst t'. split; [exists (map qR x); auto|exact D].
    + apply IH; auto. intros g Hg. apply F. right. exact Hg.
Qed.

Lemma extreme_unique l c f t u : extreme_moment l c f t -> extreme_moment l c f u -> t = u.
Proof.
  intros [(x & Gx & Fx) Ht] [(y & Gy & Fy) Hu]. specialize (Ht _ _ Gy Fy). specialize (Hu _ _ Gx Fx). apply qR_inj. destruct l; lra.
Qed.
Lemma moments_unique c k ts us : moments_true c k ts -> moments_true c k us -> Permutation ts us.
Proof.
  intros (fs & ts' & N & I & P & F) (gs & us' & N' & I' & P' & F'). rewrite P, P'. assert (PF : Permutation fs gs) by (apply NoDup_Permutation; auto; intros f; rewrite I, I'; tauto).
  destruct (Permutation_Forall2 PF F) as (ws & PW & FW). rewrite PW. assert (ws = us') as ->; [|reflexivity]. clear - FW F'. revert us' F'.
  induction FW as [|f t fs ts A _ IH]; intros us B; inversion B as [|? u ? us' A' B']; subst; [reflexivity|]. f_equal; [eapply extreme_unique; eauto|auto].
Qed.

(** * Depth and number of junctions *)
Definition iso_image (g : base_map) (t : spec * spec * list Z) : spec * spec * list Z :=
  let '(X1, X2, dx) := t in if time_rev g then (bm_mul_sp g X2, bm_mul_sp g X1, apply_vec g (map Z.opp dx)) else (bm_mul_sp g X1, bm_mul_sp g X2, apply_vec g dx).
Definition tri_eqb (t u : spec * spec * list Z) : bool :=
  let '(X1, X2, dx) := t in let '(Y1, Y2, dy) := u in spec_eqb X1 Y1 && spec_eqb X2 Y2 && list_eqb Z.eqb dx dy.
Definition iso_eqb (d : nat) (t u : spec * spec * list Z) : bool := existsb (fun g => tri_eqb (iso_image g t) u) (gen_base_maps d None).
Lemma tri_eqb_ok t u : tri_eqb t u = true <-> t = u.
Proof.
  destruct t as [[X1 X2] dx], u as [[Y1 Y2] dy]. unfold tri_eqb. rewrite !andb_true_iff, !(spec_eqb_ok _ _), (list_eqb_ok _ Z.eqb_eq dx dy). split.
  - intros [[-> ->] ->]. reflexivity.
  - intros E. assert (X1 = Y1) by congruence. assert (X2 = Y2) by congruence. assert (dx = dy) by congruence. auto.
Qed.
Lemma iso_eqb_ok d X1 X2 dx Y1 Y2 dy : iso_eqb d (X1, X2, dx) (Y1, Y2, dy) = true <-> isometric d X1 X2 dx Y1 Y2 dy.
Proof.
  unfold iso_eqb. rewrite existsb_exists. split.
  - intros (g & Hg & E). apply In_gen_base_maps in Hg as [Hg _]. apply tri_eqb_ok in E. exists g. split; [exact Hg|]. unfold iso_image in E. destruct (time_rev g); repeat split; congruence.
  - intros (g & Hg & E). exists g. split; [apply In_gen_base_maps; auto|]. apply tri_eqb_ok. unfold iso_image. destruct (time_rev g); destruct E as (-> & -> & ->); reflexivity.
Qed.
Definition junc_tri (j : junction) : spec * spec * list Z := (j_spec1 j, j_spec2 j, j_dx j).
Fixpoint distinctb (d : nat) (l : list (spec * spec * list Z)) : bool :=
  match l with [] => true | t :: l' => forallb (fun u => negb (iso_eqb d t u) && negb (iso_eqb d u t)) l' && distinctb d l' end.
Lemma distinctb_ok d : forall l, distinctb d l = true -> forall i k t u, nth_error l i = Some t -> nth_error l k = Some u -> iso_eqb d t u = true -> i = k.
Proof.
  induction l as [|x l IH]; intros H i k t u Hi Hk E; [destruct i; discriminate|]. cbn in H. apply andb_true_iff in H as [H1 H2]. rewrite forallb_forall in H1.
  destruct i as [|i], k as [|k]; cbn in Hi, Hk; auto.
  - exfalso. assert (x = t) by congruence. subst x. specialize (H1 u (nth_error_In _ _ Hk)). rewrite E in H1. discriminate.
  - exfalso. assert (x = u) by congruence. subst x. specialize (H1 t (nth_error_In _ _ Hi)). rewrite E, andb_false_r in H1. discriminate.
  - f_equal. eapply IH; eauto.
Qed.
Definition junctions_ok (fuel : nat) (c : curve) (n : nat) : bool :=
  match gen_regular_junctions fuel c with (js, GDone) => Nat.eqb (length js) n && distinctb (cv_dim c) (map junc_tri js) | _ => false end.
Lemma junctions_sound fuel c n : valid_curve c -> junctions_ok fuel c n = true -> junctions_true c n.
Proof.
  intros V H. unfold junctions_ok in H. destruct (gen_regular_junctions fuel c) as [js [| |]] eqn:E; try discriminate. apply andb_true_iff in H as [H1 H2]. apply Nat.eqb_eq in H1.
  exists (map junc_tri js). split; [rewrite map_length; exact H1|]. split; [|split].
  - intros i X1 X2 dx Hi. rewrite nth_error_map in Hi. destruct (nth_error js i) as [j|] eqn:Ej; [|discriminate]. cbn in Hi. apply nth_error_In in Ej.
    destruct (junc_genuine c fuel j V ltac:(rewrite E; exact Ej)) as (p & c1 & c2 & Y1 & Y2 & dy & N & I & _). exists p, c1, c2, Y1, Y2, dy. split; [exact N|].
    unfold junc_tri in Hi. assert (j_spec1 j = X1) by congruence. assert (j_spec2 j = X2) by congruence. assert (j_dx j = dx) by congruence. subst. exact I.
  - intros p c1 c2 X1 X2 dx N. destruct (junc_complete c fuel js V E _ _ _ _ _ _ N) as (j & Hj & I). apply In_nth_error in Hj as [i Hi].
    exists i, (j_spec1 j), (j_spec2 j), (j_dx j). split; [rewrite nth_error_map, Hi; reflexivity|exact I].
  - intros i k X1 X2 dx Y1 Y2 dy Hi Hk I. apply iso_eqb_ok in I. eapply distinctb_ok; eauto.
Qed.

(** * Dilation *)
Definition squared (m : metric) (d : nat) : bool := match m with M_l2 => Nat.odd d | _ => false end.
(** [w]: where to look for the lower bound *)
Definition dil_ok (prec : Z) (c : curve) (m : metric) (v : dil_value) (w : nat * nat * list nat) : bool :=
  let '(fd, start, path) := w in
  let le r x := dil_leb r (Q2Qc x) 1000 40 c in let ge r x := (fd <=? cv_dim c) && dil_geb r (Q2Qc x) 1000 c fd start path in
  match v with
  | DEq q => negb (squared m (cv_dim c)) && le (metric_ratio m) (q * (1 + / inject_Z prec))%Q && ge (metric_ratio m) q
  | DIn a b => if squared m (cv_dim c) then Qle_bool 0 a && Qle_bool 0 b && le (metric_ratio M_l2_squared) (b * b)%Q && ge (metric_ratio M_l2_squared) (a * a)%Q
               else le (metric_ratio m) b && ge (metric_ratio m) a
  end.
Lemma metric_ok m d : 1 <= d -> (m = M_l2 -> Nat.even d = true) -> ratio_ok d (metric_ratio m d) (metric_fun m d).
Proof. intros Hd He. destruct (C35_norms d Hd) as (A & B & C & D). destruct m; cbn; auto. Qed.
Lemma qR_Q2Qc q : qR (Q2Qc q) = Q2R q.
Proof. unfold qR. apply Qeq_eqR. apply Qred_correct. Qed.
Lemma metric_sq d dv dt : metric_fun M_l2_squared d dv dt = (metric_fun M_l2 d dv dt * metric_fun M_l2 d dv dt)%R.
Proof. reflexivity. Qed.
Lemma l2_nonneg d dv dt : (0 < dt)%R -> (0 <= metric_fun M_l2 d dv dt)%R.
Proof. intros H. unfold metric_fun, norm_ratio. apply Rmult_le_pos; [apply pow_le; apply sqrt_pos|]. apply Rlt_le, Rinv_0_lt_compat, H. Qed.
Lemma dil_sound prec c m v w : valid_curve c -> (0 < prec)%Z -> dil_ok prec c m v w = true -> dilation_true prec c m v.
Proof.
  intros V P H. destruct w as [[fd start] path]. assert (D : 1 <= cv_dim c) by (destruct V as (D & _); lia).
  assert (OK : forall m', squared m' (cv_dim c) = false -> ratio_ok (cv_dim c) (metric_ratio m' (cv_dim c)) (metric_fun m' (cv_dim c))).
  { intros m' E. apply metric_ok; [exact D|]. intros ->. cbn in E. rewrite <- Nat.negb_odd, E. reflexivity. }
  assert (LE : forall m' x, squared m' (cv_dim c) = false -> dil_leb (metric_ratio m') (Q2Qc x) 1000 40 c = true -> dilation_le (metric_fun m' (cv_dim c)) c (Q2R x)).
  { intros m' x E L. rewrite <- qR_Q2Qc. eapply dil_le_ok; [exact V|apply OK; exact E|exact L]. }
  assert (GE : forall m' x, squared m' (cv_dim c) = false -> (fd <=? cv_dim c) && dil_geb (metric_ratio m') (Q2Qc x) 1000 c fd start path = true -> dilation_ge (metric_fun m' (cv_dim c)) c (Q2R x)).
  { intros m' x E L. apply andb_true_iff in L as [L1 L2]. apply Nat.leb_le in L1. rewrite <- qR_Q2Qc. eapply dil_ge_ok; [exact V|apply OK; exact E|exact L1|exact L2]. }
  clear OK. set (ge := fun r x => (fd <=? cv_dim c) && dil_geb r (Q2Qc x) 1000 c fd start path) in *. set (le := fun r x => dil_leb r (Q2Qc x) 1000 40 c) in *.
  change (forall m' x, squared m' (cv_dim c) = false -> le (metric_ratio m') x = true -> dilation_le (metric_fun m' (cv_dim c)) c (Q2R x)) in LE.
  change (forall m' x, squared m' (cv_dim c) = false -> ge (metric_ratio m') x = true -> dilation_ge (metric_fun m' (cv_dim c)) c (Q2R x)) in GE.
  change (match v with
  | DEq q => negb (squared m (cv_dim c)) && le (metric_ratio m) (q * (1 + / inject_Z prec))%Q && ge (metric_ratio m) q
  | DIn a b => if squared m (cv_dim c) then Qle_bool 0 a && Qle_bool 0 b && le (metric_ratio M_l2_squared) (b * b)%Q && ge (metric_ratio M_l2_squared) (a * a)%Q
               else le (metric_ratio m) b && ge (metric_ratio m) a
  end = true) in H. clearbody ge le.
  assert (S2 : squared M_l2_squared (cv_dim c) = false) by reflexivity.
  destruct v as [q|a b]; [|destruct (squared m (cv_dim c)) eqn:E]; rewrite ?andb_true_iff in H.
  - destruct H as [[H1 H2] H3]. apply negb_true_iff in H1. split; [apply GE; auto|]. specialize (LE m _ H1 H2).
    assert (NZ : ~ (inject_Z prec == 0)%Q) by (intros X; unfold Qeq in X; cbn in X; lia). rewrite Q2R_mult, Q2R_plus, Q2R_inv in LE by exact NZ.
    replace (Q2R (inject_Z prec)) with (IZR prec) in LE by (unfold Q2R; cbn; lra). replace (Q2R 1) with 1%R in LE by (unfold Q2R; cbn; lra). exact LE.
  - destruct H as [[[Ha Hb] H1] H2]. assert (m = M_l2) as -> by (destruct m; cbn in E; congruence). apply Qle_bool_imp_le in Ha, Hb. apply Qle_Rle in Ha, Hb. replace (Q2R 0) with 0%R in Ha, Hb by (unfold Q2R; cbn; lra).
    specialize (LE M_l2_squared _ S2 H1). specialize (GE M_l2_squared _ S2 H2). rewrite Q2R_mult in LE, GE.
    assert (N0 : forall dv dt, (0 < dt)%R -> (0 <= metric_fun M_l2 (cv_dim c) dv dt)%R) by (intros dv dt Hdt; apply l2_nonneg; exact Hdt). split.
    + destruct GE as (p & s & t & u & w & A & B & C & F & G). exists p, s, t, u, w. split; [exact A|]. split; [exact B|]. split; [exact C|]. split; [exact F|]. rewrite metric_sq in G.
      specialize (N0 (diffs (cv_dim c) u w) (t - s)%R ltac:(lra)). apply Rnot_lt_le. intros X. nra.
    + intros p s t u w A B C F. specialize (LE p s t u w A B C F). rewrite metric_sq in LE. specialize (N0 (diffs (cv_dim c) u w) (t - s)%R ltac:(lra)). apply Rnot_lt_le. intros X. nra.
  - destruct H as [H1 H2]. split; [apply GE; auto|apply LE; auto].
Qed.
