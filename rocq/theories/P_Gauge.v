(** Curves that differ by a renumbering of the patterns and by a base map for each pattern have the same graphs up to these
    base maps, hence the same dilation. *)
From Verif Require Import Py L_Py L_Qc M_BaseMaps S_BaseMaps L_BaseMaps P_Actions M_Subsets S_Subsets P_Subsets M_Paths M_Curves S_Utils P_Utils S_Curves L_Digits
  P_CurveAct P_Core P_Bridge S_Ratio S_Dilation.
From Coq Require Import Reals Lra Lia Permutation.
Local Open Scope nat_scope.

Section Gauge.
Context (K K' : core) (HK : core_ok K) (HK' : core_ok K') (Ed : kd K' = kd K) (EN : kN K' = kN K).
Context (sg : nat -> nat) (bs : nat -> base_map).
Definition up (S : spec) : spec := Sp (bm_mul (sp_bm S) (bs (sp_pnum S))) (sg (sp_pnum S)).
Context (Hsg : forall p, p < km K' -> sg p < km K) (Hbs : forall p, p < km K' -> wf_bm (kd K) (bs p)).
Context (HC : forall p k, p < km K' -> k < kG K -> kcube K' p k = kcb K (Sp (bs p) (sg p)) k).
Context (HS : forall p k, p < km K' -> k < kG K -> up (kspec K' p k) = kstep K (Sp (bs p) (sg p)) k).

Lemma EG : kG K' = kG K. Proof. unfold kG. rewrite Ed, EN. auto. Qed.
Lemma kflip_same b k : kflip K' b k = kflip K b k. Proof. unfold kflip. rewrite EG. auto. Qed.
Lemma up_eq S : up S = bm_mul_sp (sp_bm S) (Sp (bs (sp_pnum S)) (sg (sp_pnum S))). Proof. reflexivity. Qed.
Lemma base_wf p : p < km K' -> wfS K (Sp (bs p) (sg p)). Proof. intros Hp. split; cbn; auto. Qed.
Lemma up_wf S : wfS K' S -> wfS K (up S).
Proof. intros [H1 H2]. rewrite Ed in H1. rewrite up_eq. apply wfS_mul; auto. apply base_wf; auto. Qed.
Lemma up_cb S k : wfS K' S -> k < kG K -> kcb K' S k = kcb K (up S) k.
Proof.
  intros [H1 H2] Hk. rewrite Ed in H1. rewrite up_eq, (kcb_mul K HK) by (auto using base_wf). unfold kcb at 1. rewrite EN, kflip_same, HC; auto. apply kflip_lt; auto.
Qed.
Lemma up_step S k : wfS K' S -> k < kG K -> up (kstep K' S k) = kstep K (up S) k.
Proof.
  intros [H1 H2] Hk. rewrite Ed in H1. rewrite (up_eq S), (kstep_mul K HK) by (auto using base_wf). rewrite <- HS by (auto; apply kflip_lt; auto).
  unfold kstep. rewrite kflip_same. set (s := kspec K' (sp_pnum S) (kflip K (sp_bm S) k)).
  assert (W : wf_spec (kd K') (km K') s) by (apply (ok_spec K' HK'); auto; rewrite EG; apply kflip_lt; auto). destruct W as [W1 W2]. rewrite Ed in W1.
  unfold up, bm_mul_sp. cbn [sp_bm sp_pnum]. f_equal. apply (mul_assoc (kd K)); auto.
Qed.
Lemma up_cubes cs : forall S, wfS K' S -> wfc K cs -> kcubes K' S cs = kcubes K (up S) cs.
Proof.
  induction cs as [|k cs IH]; intros S HW HF; cbn [kcubes]; auto. inversion HF; subst. rewrite up_cb by auto. f_equal. rewrite <- up_step by auto. apply IH; auto.
  apply (kstep_wf K' HK'); auto. rewrite EG. auto.
Qed.
Lemma up_graph S t x : wfS K' S -> (kgraph K' S t x <-> kgraph K (up S) t x).
Proof.
  intros HW. unfold kgraph. rewrite Ed, EG. split; intros (HL & dl & Hd & H); (split; [auto|]); exists dl; (split; [auto|]); intros n; specialize (H n); unfold kin in *;
    rewrite EG, Ed, EN in *; rewrite up_cubes in *; auto using prefix_wfc.
Qed.
Lemma pattern_graph p t x : p < km K' -> (kgraph K' (Sp (id_map (kd K')) p) t x <-> kgraph K (Sp (bs p) (sg p)) t x).
Proof.
  intros Hp. rewrite up_graph by (split; cbn; [apply wf_id|auto]). unfold up. cbn [sp_bm sp_pnum]. rewrite Ed, (mul_id_l (kd K)) by auto. tauto.
Qed.
End Gauge.

Local Open Scope R_scope.
Lemma diffs_swap d u w : map Rabs (diffs d u w) = map Rabs (diffs d w u).
Proof. unfold diffs. rewrite !map_map. apply map_ext. intros i. rewrite <- Rabs_Ropp. f_equal. lra. Qed.
Lemma diffs_gx d g u w : wf_bm d g -> Permutation (map Rabs (diffs d u w)) (map Rabs (diffs d (gx g u) (gx g w))).
Proof.
  intros Hg. set (f := fun j => Rabs (nth j u 0 - nth j w 0)).
  assert (P : Permutation (map f (seq 0 d)) (map f (map fst (coords g)))) by (apply Permutation_map; symmetry; apply Hg).
  assert (E0 : map Rabs (diffs d u w) = map f (seq 0 d)) by (unfold diffs; rewrite map_map; auto).
  assert (E2 : map f (map fst (coords g)) = map (fun i => f (fst (nth i (coords g) (0%nat, false)))) (seq 0 d)).
  { apply nth_ext_lt with 0; [rewrite !map_length, seq_length; apply wf_length; auto|]. intros i Hi. rewrite !map_length, (wf_length d) in Hi by auto.
    rewrite (nth_map_seq (fun i => f (fst (nth i (coords g) (0%nat, false))))) by auto.
    rewrite map_map. rewrite (map_nth_lt _ _ _ (0%nat, false)) by (rewrite (wf_length d); auto). auto. }
  rewrite E0, P, E2. unfold diffs. rewrite map_map. apply Permutation_refl'. apply map_ext_in. intros i Hi%in_seq.
  unfold f, gx. rewrite !nth_act by (rewrite (wf_length d); auto; lia). destruct (snd (nth i (coords g) (0%nat, false))); auto.
  rewrite <- Rabs_Ropp. f_equal. lra.
Qed.

(** x and y are the same curve up to numbers and orientations of the patterns: pattern p of y is pattern sg p of x
    transformed by bs p. *)
Record gauge (x y : curve) (sg : nat -> nat) (bs : nat -> base_map) : Prop := {
  ga_dim : cv_dim y = cv_dim x; ga_div : cv_div y = cv_div x;
  ga_sg : forall p, (p < cv_mult y)%nat -> (sg p < cv_mult x)%nat;
  ga_bs : forall p, (p < cv_mult y)%nat -> wf_bm (cv_dim x) (bs p);
  ga_cube : forall p k, (p < cv_mult y)%nat -> (k < cv_genus x)%nat -> kcube (core_of y) p k = kcb (core_of x) (Sp (bs p) (sg p)) k;
  ga_spec : forall p k, (p < cv_mult y)%nat -> (k < cv_genus x)%nat -> up sg bs (kspec (core_of y) p k) = kstep (core_of x) (Sp (bs p) (sg p)) k }.
Lemma gauge_graph x y sg bs p t u : valid_curve x -> valid_curve y -> gauge x y sg bs -> (p < cv_mult y)%nat -> graph (pattern_curve y p) t u ->
  graph (pattern_curve x (sg p)) (gt (bs p) t) (gx (bm_inv (bs p)) u).
Proof.
  intros VX VY [E1 E2 H1 H2 H3 H4] Hp HG. pose proof (full_ok _ (core_of_full x (valid_curve_fuzzy x VX))) as KX. pose proof (full_ok _ (core_of_full y (valid_curve_fuzzy y VY))) as KY.
  apply (graph_pattern y VY) in HG; auto. change (cv_dim y) with (kd (core_of y)) in HG.
  apply (pattern_graph (core_of x) (core_of y) KX KY E1 E2 sg bs H1 H2 H3 H4 p) in HG; auto.
  apply (graph_pattern x VX); auto. pose proof (H2 p Hp) as W. pose proof (H1 p Hp) as S.
  apply (kgraph_mul (core_of x) KX (bm_inv (bs p))) in HG; [|apply wf_inv; auto|split; cbn; auto].
  rewrite gt_inv in HG. unfold bm_mul_sp in HG. cbn [sp_bm sp_pnum] in HG. rewrite (mul_inv_l (cv_dim x)) in HG; auto.
Qed.
Lemma gauge_ge rQ rR x y sg bs m : ratio_ok (cv_dim x) rQ rR -> valid_curve x -> valid_curve y -> gauge x y sg bs -> dilation_ge rR y m -> dilation_ge rR x m.
Proof.
  intros RO VX VY HG (p & s & t & u & w & Hp & G1 & G2 & Hst & HR). apply (gauge_graph x y sg bs) in G1, G2; auto. pose proof (ga_bs _ _ _ _ HG p Hp) as W. apply wf_inv in W.
  pose proof (diffs_gx (cv_dim x) _ u w W) as P. rewrite (ga_dim _ _ _ _ HG) in HR. unfold gt in G1, G2. pose proof (ga_sg _ _ _ _ HG p Hp) as HS. destruct (time_rev (bs p)) eqn:T.
  - exists (sg p), (1 - t), (1 - s), (gx (bm_inv (bs p)) w), (gx (bm_inv (bs p)) u). repeat (split; [auto; lra|]). replace (1 - s - (1 - t)) with (t - s) by lra.
    rewrite (ro_sym _ _ _ RO _ (diffs (cv_dim x) u w)); auto. rewrite diffs_swap. symmetry. auto.
  - exists (sg p), s, t, (gx (bm_inv (bs p)) u), (gx (bm_inv (bs p)) w). repeat (split; [auto; lra|]).
    rewrite (ro_sym _ _ _ RO _ (diffs (cv_dim x) u w)); auto. symmetry. auto.
Qed.
Lemma gauge_le rQ rR x y sg bs M : ratio_ok (cv_dim x) rQ rR -> valid_curve x -> valid_curve y -> gauge x y sg bs -> dilation_le rR x M -> dilation_le rR y M.
Proof.
  intros RO VX VY HG HD p s t u w Hp G1 G2 Hst. apply (gauge_graph x y sg bs) in G1, G2; auto. pose proof (ga_bs _ _ _ _ HG p Hp) as W. apply wf_inv in W.
  pose proof (diffs_gx (cv_dim x) _ u w W) as P. rewrite (ga_dim _ _ _ _ HG). unfold gt in G1, G2. pose proof (ga_sg _ _ _ _ HG p Hp) as HS. destruct (time_rev (bs p)) eqn:T.
  - rewrite (ro_sym _ _ _ RO (diffs (cv_dim x) u w) (diffs (cv_dim x) (gx (bm_inv (bs p)) w) (gx (bm_inv (bs p)) u))).
    + replace (t - s) with (1 - s - (1 - t)) by lra. apply (HD (sg p)); auto; lra.
    + rewrite (diffs_swap (cv_dim x) (gx (bm_inv (bs p)) w)). auto.
  - rewrite (ro_sym _ _ _ RO (diffs (cv_dim x) u w) (diffs (cv_dim x) (gx (bm_inv (bs p)) u) (gx (bm_inv (bs p)) w))); auto. apply (HD (sg p)); auto.
Qed.
