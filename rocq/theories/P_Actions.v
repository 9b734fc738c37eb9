(** Actions of base maps on points, vectors, cubes, times and cube numbers. *)
From Verif Require Import Py L_Py L_Qc M_BaseMaps S_BaseMaps L_BaseMaps.
Local Open Scope nat_scope.

Lemma invol_q mx : invol (fun v : Qc => (mx - v)%Qc). Proof. intros x. ring. Qed.
Lemma invol_z k : invol (fun v : Z => (k - v)%Z). Proof. intros x. lia. Qed.
Lemma invol_cube N : invol (fun c : Z => (N - c - 1)%Z). Proof. intros x. lia. Qed.
Lemma invol_start len : invol (fun c : Z => (1 - c - len)%Z). Proof. intros x. lia. Qed.
Lemma invol_opp : invol Z.opp. Proof. intros x. lia. Qed.
Lemma invol_qopp : invol Qcopp. Proof. intros x. ring. Qed.

Lemma apply_t_mul a b mt t : apply_t (bm_mul a b) mt t = apply_t a mt (apply_t b mt t).
Proof. unfold apply_t. rewrite mul_time_rev. destruct (time_rev a), (time_rev b); cbn; auto; ring. Qed.
Lemma apply_t_inv b mt t : apply_t (bm_inv b) mt (apply_t b mt t) = t.
Proof. unfold apply_t. rewrite inv_time_rev. destruct (time_rev b); cbn; auto; ring. Qed.
Lemma apply_cnum_mul a b G t : apply_cnum (bm_mul a b) G t = apply_cnum a G (apply_cnum b G t).
Proof. unfold apply_cnum. rewrite mul_time_rev. destruct (time_rev a), (time_rev b); cbn; auto; lia. Qed.
Lemma apply_cnum_inv b G t : apply_cnum (bm_inv b) G (apply_cnum b G t) = t.
Proof. unfold apply_cnum. rewrite inv_time_rev. destruct (time_rev b); cbn; auto; lia. Qed.
Lemma apply_cnum_range b G c : (0 <= c < G)%Z -> (0 <= apply_cnum b G c < G)%Z.
Proof. unfold apply_cnum. destruct (time_rev b); lia. Qed.
Lemma apply_t_range b mt t : (0 <= t)%Qc /\ (t <= mt)%Qc -> (0 <= apply_t b mt t)%Qc /\ (apply_t b mt t <= mt)%Qc.
Proof. unfold apply_t. intros []. destruct (time_rev b); split; auto; revert H H0; qclra. Qed.

Lemma act_combine {A B} (f : A -> A) (g : B -> B) (h : A * B -> A * B) da db d b x y :
  wf_bm d b -> length x = d -> length y = d -> (forall u v, h (u, v) = (f u, g v)) ->
  combine (act f da b x) (act g db b y) = act h (da, db) b (combine x y).
Proof.
  intros Hb Hx Hy Hh. unfold act.
  assert (Hc : forall kb, In kb (coords b) -> fst kb < d) by (intros [k fl] ?; eapply wf_In_lt; eauto).
  induction (coords b) as [|[k fl] l IH]; cbn; auto.
  rewrite IH by (intros; apply Hc; cbn; auto). f_equal. rewrite combine_nth by congruence.
  destruct fl; auto.
Qed.

Lemma apply_x_vec d b mx x y : wf_bm d b -> length x = d -> length y = d ->
  vsubQ (apply_x b mx x) (apply_x b mx y) = apply_vecQ b (vsubQ x y).
Proof.
  intros Hb Hx Hy. unfold vsubQ, apply_x, apply_vecQ.
  rewrite (act_combine _ _ (fun p => ((mx - fst p)%Qc, (mx - snd p)%Qc)) 0%Qc 0%Qc d) by auto.
  apply (act_map _ _ _ _ _ d); auto.
  - rewrite combine_length; lia.
  - intros [u v]; cbn. ring.
Qed.

Lemma act_abs_perm {A} (flip : A -> A) (m : A -> Qc) dflt d b x : wf_bm d b -> length x = d ->
  (forall v, m (flip v) = m v) -> Permutation (map m (act flip dflt b x)) (map m x).
Proof.
  intros Hb Hx Hm. destruct (act_Permutation flip dflt d b x Hb Hx) as (y & HP & HF).
  transitivity (map m y); [|apply Permutation_map, Permutation_sym; auto]. apply Permutation_refl'.
  clear HP. induction HF as [|u v l l' H HF IH]; cbn; auto. f_equal; auto. destruct H; subst; auto.
Qed.

Lemma apply_x_isometry d b mx x y : wf_bm d b -> length x = d -> length y = d ->
  Permutation (abs_diffs (apply_x b mx x) (apply_x b mx y)) (abs_diffs x y).
Proof.
  intros Hb Hx Hy. unfold abs_diffs, apply_x.
  rewrite (act_combine _ _ (fun p => ((mx - fst p)%Qc, (mx - snd p)%Qc)) 0%Qc 0%Qc d) by auto.
  apply (act_abs_perm _ (fun p : Qc * Qc => Qcabs.Qcabs (fst p - snd p)%Qc) _ d); auto.
  - rewrite combine_length; lia.
  - intros [u v]; cbn. rewrite <- Qcabs.Qcabs_opp. f_equal. ring.
Qed.

Lemma apply_x_in d b mx x : wf_bm d b -> length x = d -> in_cube01 mx x -> in_cube01 mx (apply_x b mx x).
Proof.
  intros Hb Hx. apply (act_Forall _ _ d); auto. intros v []. split; revert H H0; qclra.
Qed.

Lemma in_cube_apply d b N c y : wf_bm d b -> length c = d -> in_cube N c y ->
  in_cube N (apply_cube b N c) (apply_x b 1%Qc y).
Proof.
  intros Hb Hc. apply (act_Forall2 _ _ _ _ d); auto. intros u v []. rewrite !Zq_sub, Zq_1.
  split; revert H H0; qclra.
Qed.
Lemma in_cube_iff d b N c y : wf_bm d b -> length c = d -> length y = d ->
  (in_cube N (apply_cube b N c) (apply_x b 1%Qc y) <-> in_cube N c y).
Proof.
  intros Hb Hc Hy. split; [|apply (in_cube_apply d); auto]. intros H.
  apply (in_cube_apply d (bm_inv b)) in H.
  - unfold apply_cube, apply_x in H. rewrite !(act_inv_l _ _ d) in H; auto using invol_q, invol_cube.
  - apply wf_inv; auto.
  - unfold apply_cube; rewrite length_act. apply wf_length; auto.
Qed.
Lemma in_box_apply d b s len y : wf_bm d b -> length s = d -> in_box s len y ->
  in_box (apply_cube_start b s len) len (apply_x b 1%Qc y).
Proof.
  intros Hb Hc. apply (act_Forall2 _ _ _ _ d); auto. intros u v []. rewrite !Zq_sub, Zq_1.
  split; revert H H0; qclra.
Qed.
Lemma in_box_iff d b s len y : wf_bm d b -> length s = d -> length y = d ->
  (in_box (apply_cube_start b s len) len (apply_x b 1%Qc y) <-> in_box s len y).
Proof.
  intros Hb Hc Hy. split; [|apply (in_box_apply d); auto]. intros H.
  apply (in_box_apply d (bm_inv b)) in H.
  - unfold apply_cube_start, apply_x in H. rewrite !(act_inv_l _ _ d) in H; auto using invol_q, invol_start.
  - apply wf_inv; auto.
  - unfold apply_cube_start; rewrite length_act. apply wf_length; auto.
Qed.
Lemma apply_cube_range d b N c : wf_bm d b -> length c = d ->
  Forall (fun v => 0 <= v < N)%Z c -> Forall (fun v => 0 <= v < N)%Z (apply_cube b N c).
Proof. intros Hb Hc. apply (act_Forall _ _ d); auto. intros; lia. Qed.

Lemma apply_x_coord d b mx x i : wf_bm d b -> length x = d -> i < d ->
  exists k f xk, nth_error (coords b) i = Some (k, f) /\ nth_error x k = Some xk /\
    nth_error (apply_x b mx x) i = Some (if f then (mx - xk)%Qc else xk).
Proof.
  intros Hb Hx Hi. destruct (nth_error (coords b) i) as [[k f]|] eqn:E.
  2:{ apply nth_error_None in E. rewrite (wf_length d b Hb) in E. lia. }
  assert (k < d) by (eapply wf_In_lt; eauto; eapply nth_error_In; eauto).
  destruct (nth_error x k) as [xk|] eqn:Ek.
  2:{ apply nth_error_None in Ek. lia. }
  exists k, f, xk. split; auto. split; auto. unfold apply_x, act. rewrite nth_error_map, E. cbn.
  apply nth_error_nth with (d := 0%Qc) in Ek. rewrite Ek. auto.
Qed.
Lemma action_gen {A} (flip : A -> A) dflt d a b x : invol flip -> wf_bm d a -> wf_bm d b -> length x = d ->
  length (act flip dflt a x) = d /\
  act flip dflt (bm_mul a b) x = act flip dflt a (act flip dflt b x) /\ act flip dflt (id_map d) x = x /\
  act flip dflt (bm_inv a) (act flip dflt a x) = x /\ act flip dflt a (act flip dflt (bm_inv a) x) = x.
Proof.
  intros Hf Ha Hb Hx. split; [rewrite length_act; apply wf_length; auto|].
  split; [apply (act_mul flip dflt d); auto|]. split; [apply act_id; auto|].
  split; [apply (act_inv_l flip dflt d); auto|apply (act_inv_r flip dflt d); auto].
Qed.
Lemma action_x d a b mx x : wf_bm d a -> wf_bm d b -> length x = d ->
  length (apply_x a mx x) = d /\
  apply_x (bm_mul a b) mx x = apply_x a mx (apply_x b mx x) /\ apply_x (id_map d) mx x = x /\
  apply_x (bm_inv a) mx (apply_x a mx x) = x /\ apply_x a mx (apply_x (bm_inv a) mx x) = x.
Proof. apply action_gen, invol_q. Qed.
Lemma action_vec d a b x : wf_bm d a -> wf_bm d b -> length x = d ->
  length (apply_vec a x) = d /\
  apply_vec (bm_mul a b) x = apply_vec a (apply_vec b x) /\ apply_vec (id_map d) x = x /\
  apply_vec (bm_inv a) (apply_vec a x) = x /\ apply_vec a (apply_vec (bm_inv a) x) = x.
Proof. apply action_gen, invol_opp. Qed.
Lemma action_cube d a b N x : wf_bm d a -> wf_bm d b -> length x = d ->
  length (apply_cube a N x) = d /\
  apply_cube (bm_mul a b) N x = apply_cube a N (apply_cube b N x) /\ apply_cube (id_map d) N x = x /\
  apply_cube (bm_inv a) N (apply_cube a N x) = x /\ apply_cube a N (apply_cube (bm_inv a) N x) = x.
Proof. apply action_gen, invol_cube. Qed.
Lemma action_cube_start d a b len x : wf_bm d a -> wf_bm d b -> length x = d ->
  length (apply_cube_start a x len) = d /\
  apply_cube_start (bm_mul a b) x len = apply_cube_start a (apply_cube_start b x len) len /\
  apply_cube_start (id_map d) x len = x /\
  apply_cube_start (bm_inv a) (apply_cube_start a x len) len = x /\
  apply_cube_start a (apply_cube_start (bm_inv a) x len) len = x.
Proof. apply action_gen, invol_start. Qed.
Lemma action_t d a b mt t :
  apply_t (bm_mul a b) mt t = apply_t a mt (apply_t b mt t) /\ apply_t (id_map d) mt t = t /\
  apply_t (bm_inv a) mt (apply_t a mt t) = t /\ apply_t (bm_rev a) mt t = (mt - apply_t a mt t)%Qc /\
  ((0 <= t)%Qc /\ (t <= mt)%Qc -> (0 <= apply_t a mt t)%Qc /\ (apply_t a mt t <= mt)%Qc).
Proof.
  split; [apply apply_t_mul|]. split; [reflexivity|]. split; [apply apply_t_inv|].
  split; [|apply apply_t_range]. unfold apply_t; cbn. destruct (time_rev a); cbn; auto. ring.
Qed.
Lemma action_cnum d a b G c :
  apply_cnum (bm_mul a b) G c = apply_cnum a G (apply_cnum b G c) /\ apply_cnum (id_map d) G c = c /\
  apply_cnum (bm_inv a) G (apply_cnum a G c) = c /\
  apply_cnum (bm_rev a) G c = (G - 1 - apply_cnum a G c)%Z /\
  ((0 <= c < G)%Z -> (0 <= apply_cnum a G c < G)%Z).
Proof.
  split; [apply apply_cnum_mul|]. split; [reflexivity|]. split; [apply apply_cnum_inv|].
  split; [|apply apply_cnum_range]. unfold apply_cnum; cbn. destruct (time_rev a); cbn; auto. lia.
Qed.
Lemma powers d b p : wf_bm d b ->
  ((0 < p)%Z -> exists fuel, bm_pow fuel b p = Some (npow d b (Z.to_nat p))) /\
  ((p < 0)%Z -> exists fuel, bm_pow fuel b p = Some (npow d (bm_inv b) (Z.to_nat (- p)))) /\
  (forall fuel r, bm_pow fuel b p = Some r -> (0 < p)%Z \/ (p < 0)%Z).
Proof.
  intros Hb. split; [|split].
  - intros Hp. exists (Z.to_nat p). apply pow_pos; auto. lia.
  - intros Hp. exists (S (Z.to_nat (- p))). apply (pow_neg d); auto. lia.
  - intros fuel r H. destruct (Z.eq_dec p 0) as [->|]; [|lia]. rewrite pow_0_diverges in H. discriminate.
Qed.
