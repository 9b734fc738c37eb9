(** Proofs about base maps. *)
From Verif Require Import Py L_Py L_Qc M_BaseMaps S_BaseMaps.
Local Open Scope nat_scope.

Definition invol {A} (f : A -> A) := forall x, f (f x) = x.

Lemma Forall2_length {A B} {P : A -> B -> Prop} {l l'} : Forall2 P l l' -> length l = length l'.
Proof. induction 1; cbn; auto. Qed.

Lemma wf_length d b : wf_bm d b -> length (coords b) = d.
Proof. intros H. apply Permutation_length in H. rewrite map_length, seq_length in H. auto. Qed.
Lemma wf_dim d b : wf_bm d b -> bm_dim b = d.
Proof. apply wf_length. Qed.
Lemma wf_nth_lt d b i : wf_bm d b -> i < d -> fst (nth i (coords b) (0, false)) < d.
Proof.
  intros H Hi. apply Permutation_seq_lt with (map fst (coords b)); auto.
  rewrite <- (map_nth fst). apply nth_In. rewrite map_length, (wf_length d); auto.
Qed.
Lemma wf_In_lt d b k f : wf_bm d b -> In (k, f) (coords b) -> k < d.
Proof. intros H Hi. apply (in_map fst) in Hi. eapply Permutation_seq_lt; eauto. Qed.
Lemma wf_nth_inj d b i j : wf_bm d b -> i < d -> j < d ->
  fst (nth i (coords b) (0, false)) = fst (nth j (coords b) (0, false)) -> i = j.
Proof.
  intros H Hi Hj E. rewrite <- !(map_nth fst) in E.
  eapply NoDup_nth_lt in E; auto.
  - eapply Permutation_seq_NoDup; eauto.
  - rewrite map_length, (wf_length d); auto.
  - rewrite map_length, (wf_length d); auto.
Qed.
Lemma wf_nth_surj d b k : wf_bm d b -> k < d -> exists i, i < d /\ fst (nth i (coords b) (0, false)) = k.
Proof.
  intros H Hk.
  assert (Hin : In k (map fst (coords b))).
  { apply Permutation_in with (seq 0 d). apply Permutation_sym; auto. apply in_seq; lia. }
  apply In_nth with (d := 0) in Hin as (i & Hi & E). rewrite map_length, (wf_length d) in Hi; auto.
  exists i. split; auto. rewrite <- E. symmetry. apply (map_nth fst (coords b) (0, false)).
Qed.
Lemma wf_of_nth d b : length (coords b) = d ->
  (forall i, i < d -> fst (nth i (coords b) (0, false)) < d) ->
  (forall i j, i < d -> j < d -> fst (nth i (coords b) (0, false)) = fst (nth j (coords b) (0, false)) -> i = j) ->
  wf_bm d b.
Proof.
  intros HL HB HI. apply NoDup_lt_Permutation.
  - apply NoDup_nth with 0. rewrite map_length. intros i j Hi Hj. change 0 with (fst (0, false)). rewrite !(map_nth fst (coords b)).
    apply HI; lia.
  - rewrite map_length; auto.
  - intros x Hx. apply In_nth with (d := 0) in Hx as (i & Hi & <-).
    rewrite map_length in Hi. change 0 with (fst (0, false)) at 1. rewrite !(map_nth fst (coords b)). apply HB; lia.
Qed.

Lemma bm_ext a b : time_rev a = time_rev b -> coords a = coords b -> a = b.
Proof. destruct a, b; cbn; congruence. Qed.
Lemma bm_ext_nth d a b : time_rev a = time_rev b -> length (coords a) = d -> length (coords b) = d ->
  (forall i, i < d -> nth i (coords a) (0, false) = nth i (coords b) (0, false)) -> a = b.
Proof.
  intros. apply bm_ext; auto. apply nth_ext_lt with (0, false); [congruence|]. intros; apply H2; lia.
Qed.

(** equality tests *)
Lemma list_eqb_ok {A} (eqb : A -> A -> bool) : eqb_ok eqb -> eqb_ok (list_eqb eqb).
Proof.
  intros H. unfold eqb_ok. induction x as [|a x IH]; intros [|b y]; cbn; try (split; congruence).
  rewrite andb_true_iff, (H a b), IH. split; [intros []; congruence|intros E; inversion E; auto].
Qed.
Lemma coord_eqb_ok : eqb_ok coord_eqb.
Proof.
  intros [a b] [c d]. unfold coord_eqb; cbn. rewrite andb_true_iff, Nat.eqb_eq, Bool.eqb_true_iff.
  split; [intros []; congruence|intros E; inversion E; auto].
Qed.
Lemma bm_eqb_ok : eqb_ok bm_eqb.
Proof.
  intros [a b] [c d]. unfold bm_eqb; cbn. rewrite andb_true_iff, (list_eqb_ok _ coord_eqb_ok a c), Bool.eqb_true_iff.
  split; [intros []; congruence|intros E; inversion E; auto].
Qed.
Lemma spec_eqb_ok : eqb_ok spec_eqb.
Proof.
  intros [a b] [c d]. unfold spec_eqb; cbn. rewrite andb_true_iff, (bm_eqb_ok a c), Nat.eqb_eq.
  split; [intros []; congruence|intros E; inversion E; auto].
Qed.

(** identity *)
Lemma nth_id d i : i < d -> nth i (coords (id_map d)) (0, false) = (i, false).
Proof.
  intros H. cbn. unfold range. rewrite map_nth_lt with (d := 0) by (rewrite seq_length; auto).
  rewrite seq_nth; auto.
Qed.
Lemma length_id d : length (coords (id_map d)) = d.
Proof. cbn. unfold range. rewrite map_length, seq_length; auto. Qed.
Lemma wf_id d : wf_bm d (id_map d).
Proof. unfold wf_bm, id_map, range; cbn. rewrite map_map, map_id. auto. Qed.

(** product *)
Lemma length_mul a b : length (coords (bm_mul a b)) = length (coords a).
Proof. cbn. apply map_length. Qed.
Lemma nth_mul a b i : i < length (coords a) ->
  nth i (coords (bm_mul a b)) (0, false) =
  (fst (nth (fst (nth i (coords a) (0, false))) (coords b) (0, false)),
   xorb (snd (nth i (coords a) (0, false))) (snd (nth (fst (nth i (coords a) (0, false))) (coords b) (0, false)))).
Proof. intros H. cbn. rewrite map_nth_lt with (d := (0, false)); auto. Qed.

Lemma wf_mul d a b : wf_bm d a -> wf_bm d b -> wf_bm d (bm_mul a b).
Proof.
  intros Ha Hb. pose proof (wf_length _ _ Ha). pose proof (wf_length _ _ Hb).
  apply wf_of_nth.
  - rewrite length_mul; auto.
  - intros i Hi. rewrite nth_mul by lia. cbn. apply wf_nth_lt; auto. apply wf_nth_lt; auto.
  - intros i j Hi Hj. rewrite !nth_mul by lia. cbn. intros E.
    apply (wf_nth_inj d b) in E; auto; try (apply wf_nth_lt; auto). apply (wf_nth_inj d a) in E; auto.
Qed.

Lemma mul_assoc d a b c : wf_bm d a -> wf_bm d b -> wf_bm d c ->
  bm_mul (bm_mul a b) c = bm_mul a (bm_mul b c).
Proof.
  intros Ha Hb Hc. pose proof (wf_length _ _ Ha). pose proof (wf_length _ _ Hb).
  apply bm_ext_nth with d; rewrite ?length_mul; auto.
  - cbn. symmetry. rewrite xorb_assoc. auto.
  - intros i Hi. rewrite !nth_mul; rewrite ?length_mul; try lia. cbn.
    f_equal. rewrite xorb_assoc; auto. rewrite H0; apply wf_nth_lt; auto; lia.
Qed.

Lemma mul_id_l d a : wf_bm d a -> bm_mul (id_map d) a = a.
Proof.
  intros Ha. pose proof (wf_length _ _ Ha).
  apply bm_ext_nth with d; rewrite ?length_mul, ?length_id; auto.
  - cbn. destruct (time_rev a); auto.
  - intros i Hi. rewrite nth_mul by (rewrite length_id; lia). rewrite nth_id by auto. cbn.
    destruct (nth i (coords a) (0, false)) as [k []]; auto.
Qed.
Lemma mul_id_r d a : wf_bm d a -> bm_mul a (id_map d) = a.
Proof.
  intros Ha. pose proof (wf_length _ _ Ha).
  apply bm_ext_nth with d; rewrite ?length_mul, ?length_id; auto.
  - cbn. destruct (time_rev a); auto.
  - intros i Hi. rewrite nth_mul by lia. rewrite nth_id by (apply wf_nth_lt; auto). cbn.
    rewrite xorb_false_r. destruct (nth i (coords a) (0, false)) as [k []]; auto.
Qed.

(** inverse *)
Section FoldUpd.
  Context {E V : Type} (key : E -> nat) (val : E -> V).
  Let step := fun acc e => upd (key e) (val e) acc.
  Lemma fold_upd_length es init : length (fold_left step es init) = length init.
  Proof. revert init; induction es; intros; cbn; auto. rewrite IHes. apply length_upd. Qed.
  Lemma fold_upd_notin es init k d : ~ In k (map key es) -> nth k (fold_left step es init) d = nth k init d.
  Proof.
    revert init; induction es as [|e es IH]; intros init H; cbn in *; auto.
    rewrite IH by tauto. unfold step. apply nth_upd_ne. tauto.
  Qed.
  Lemma fold_upd_in es init e d : NoDup (map key es) -> In e es -> key e < length init ->
    nth (key e) (fold_left step es init) d = val e.
  Proof.
    revert init; induction es as [|e' es IH]; intros init HN Hin Hl; cbn in *; [tauto|].
    inversion HN; subst. destruct Hin as [->|Hin].
    - rewrite fold_upd_notin by auto. unfold step. apply nth_upd_eq; auto.
    - apply IH; auto. unfold step. rewrite length_upd; auto.
  Qed.
End FoldUpd.

Lemma length_inv b : length (coords (bm_inv b)) = length (coords b).
Proof.
  cbn. rewrite (fold_upd_length (fun ikb : nat * coord => fst (snd ikb)) (fun ikb => (fst ikb, snd (snd ikb)))).
  apply repeat_length.
Qed.

Lemma nth_inv d b i : wf_bm d b -> i < d ->
  nth (fst (nth i (coords b) (0, false))) (coords (bm_inv b)) (0, false) = (i, snd (nth i (coords b) (0, false))).
Proof.
  intros Hb Hi. pose proof (wf_length _ _ Hb) as HL.
  set (e := (i, nth i (coords b) (0, false))).
  change (i, snd (nth i (coords b) (0, false))) with ((fun ikb : nat * coord => (fst ikb, snd (snd ikb))) e).
  change (fst (nth i (coords b) (0, false))) with ((fun ikb : nat * coord => fst (snd ikb)) e).
  cbn [bm_inv coords].
  apply (fold_upd_in (fun ikb : nat * coord => fst (snd ikb)) (fun ikb => (fst ikb, snd (snd ikb)))).
  - rewrite <- (map_map snd fst). rewrite enumerate_snd. eapply Permutation_seq_NoDup; eauto.
  - apply In_enumerate. apply nth_error_nth'. lia.
  - rewrite repeat_length. unfold bm_dim. rewrite HL. cbn. apply wf_nth_lt; auto.
Qed.

Lemma wf_inv d b : wf_bm d b -> wf_bm d (bm_inv b).
Proof.
  intros Hb. pose proof (wf_length _ _ Hb) as HL.
  apply wf_of_nth.
  - rewrite length_inv; auto.
  - intros k Hk. destruct (wf_nth_surj d b k Hb Hk) as (i & Hi & <-). rewrite (nth_inv d) by auto. auto.
  - intros k k' Hk Hk'. destruct (wf_nth_surj d b k Hb Hk) as (i & Hi & <-).
    destruct (wf_nth_surj d b k' Hb Hk') as (i' & Hi' & <-). rewrite !(nth_inv d) by auto. cbn. congruence.
Qed.

Lemma mul_inv_r d b : wf_bm d b -> bm_mul b (bm_inv b) = id_map d.
Proof.
  intros Hb. pose proof (wf_length _ _ Hb) as HL.
  apply bm_ext_nth with d; rewrite ?length_mul, ?length_id; auto.
  - cbn. apply xorb_nilpotent.
  - intros i Hi. rewrite nth_mul by lia. rewrite nth_id by auto. cbn [fst snd].
    rewrite (nth_inv d) by auto. cbn. f_equal. apply xorb_nilpotent.
Qed.
Lemma mul_inv_l d b : wf_bm d b -> bm_mul (bm_inv b) b = id_map d.
Proof.
  intros Hb. pose proof (wf_length _ _ Hb) as HL.
  apply bm_ext_nth with d; rewrite ?length_mul, ?length_id, ?length_inv; auto.
  - cbn. apply xorb_nilpotent.
  - intros k Hk. rewrite nth_mul by (rewrite length_inv; lia). rewrite nth_id by auto.
    destruct (wf_nth_surj d b k Hb Hk) as (i & Hi & <-). rewrite !(nth_inv d) by auto. cbn.
    f_equal. apply xorb_nilpotent.
Qed.

Lemma mul_cancel_l d a b c : wf_bm d a -> wf_bm d b -> wf_bm d c -> bm_mul a b = bm_mul a c -> b = c.
Proof.
  intros Ha Hb Hc E. rewrite <- (mul_id_l d b), <- (mul_id_l d c), <- (mul_inv_l d a) by auto.
  rewrite !(mul_assoc d); auto using wf_inv. congruence.
Qed.
Lemma mul_cancel_r d a b c : wf_bm d a -> wf_bm d b -> wf_bm d c -> bm_mul b a = bm_mul c a -> b = c.
Proof.
  intros Ha Hb Hc E. rewrite <- (mul_id_r d b), <- (mul_id_r d c), <- (mul_inv_r d a) by auto.
  rewrite <- !(mul_assoc d); auto using wf_inv. congruence.
Qed.
Lemma inv_unique d a b : wf_bm d a -> wf_bm d b -> bm_mul a b = id_map d -> b = bm_inv a.
Proof. intros Ha Hb E. apply (mul_cancel_l d a); auto using wf_inv. rewrite E, mul_inv_r with (d := d); auto. Qed.
Lemma inv_inv d a : wf_bm d a -> bm_inv (bm_inv a) = a.
Proof. intros. symmetry. apply (inv_unique d); auto using wf_inv. apply mul_inv_l; auto. Qed.
Lemma inv_mul d a b : wf_bm d a -> wf_bm d b -> bm_inv (bm_mul a b) = bm_mul (bm_inv b) (bm_inv a).
Proof.
  intros Ha Hb. symmetry. apply (inv_unique d); auto using wf_inv, wf_mul.
  rewrite !(mul_assoc d); auto using wf_inv, wf_mul. rewrite <- (mul_assoc d b); auto using wf_inv.
  rewrite (mul_inv_r d b), (mul_id_l d), (mul_inv_r d); auto using wf_inv.
Qed.
Lemma inv_id d : bm_inv (id_map d) = id_map d.
Proof. symmetry. apply (inv_unique d); auto using wf_id. apply mul_id_l, wf_id. Qed.

(** time reversal *)
Lemma rev_rev b : bm_rev (bm_rev b) = b.
Proof. apply bm_ext; cbn; auto. apply negb_involutive. Qed.
Lemma wf_rev d b : wf_bm d b -> wf_bm d (bm_rev b).
Proof. auto. Qed.
Lemma wf_cube_map d b : wf_bm d b -> wf_bm d (cube_map b).
Proof. auto. Qed.
Lemma rev_mul_l a b : bm_mul (bm_rev a) b = bm_rev (bm_mul a b).
Proof. apply bm_ext; cbn; auto. destruct (time_rev a), (time_rev b); auto. Qed.
Lemma rev_mul_r a b : bm_mul a (bm_rev b) = bm_rev (bm_mul a b).
Proof. apply bm_ext; cbn; auto. destruct (time_rev a), (time_rev b); auto. Qed.
Lemma inv_rev b : bm_inv (bm_rev b) = bm_rev (bm_inv b).
Proof. apply bm_ext; cbn; auto. Qed.
Lemma inv_time_rev b : time_rev (bm_inv b) = time_rev b.
Proof. auto. Qed.
Lemma mul_time_rev a b : time_rev (bm_mul a b) = xorb (time_rev a) (time_rev b).
Proof. auto. Qed.
Lemma cube_map_mul a b : cube_map (bm_mul a b) = bm_mul (cube_map a) (cube_map b).
Proof. auto. Qed.
Lemma cube_map_inv b : cube_map (bm_inv b) = bm_inv (cube_map b).
Proof. auto. Qed.

(** conjugation *)
Lemma wf_conj d a g : wf_bm d a -> wf_bm d g -> wf_bm d (bm_conj a g).
Proof. intros. apply wf_mul; auto using wf_mul, wf_inv. Qed.
Lemma conj_mul d a b g : wf_bm d a -> wf_bm d b -> wf_bm d g ->
  bm_conj (bm_mul a b) g = bm_mul (bm_conj a g) (bm_conj b g).
Proof.
  intros. unfold bm_conj. rewrite !(mul_assoc d); auto 6 using wf_mul, wf_inv.
  rewrite <- (mul_assoc d (bm_inv g) g); auto 6 using wf_mul, wf_inv.
  rewrite (mul_inv_l d), (mul_id_l d); auto using wf_mul, wf_inv.
Qed.
Lemma conj_id d g : wf_bm d g -> bm_conj (id_map d) g = id_map d.
Proof. intros. unfold bm_conj. rewrite (mul_id_r d), (mul_inv_r d); auto. Qed.
Lemma conj_conj d a g h : wf_bm d a -> wf_bm d g -> wf_bm d h ->
  bm_conj (bm_conj a g) h = bm_conj a (bm_mul h g).
Proof.
  intros. unfold bm_conj. rewrite (inv_mul d), !(mul_assoc d); auto 6 using wf_mul, wf_inv.
Qed.
Lemma conj_by_id d a : wf_bm d a -> bm_conj a (id_map d) = a.
Proof. intros. unfold bm_conj. rewrite (mul_id_l d), inv_id, (mul_id_r d); auto. Qed.
Lemma conj_inj d a b g : wf_bm d a -> wf_bm d b -> wf_bm d g -> bm_conj a g = bm_conj b g -> a = b.
Proof.
  intros Ha Hb Hg E. apply (f_equal (fun x => bm_conj x (bm_inv g))) in E.
  rewrite !(conj_conj d), (mul_inv_l d), !(conj_by_id d) in E; auto using wf_inv.
Qed.

(** powers *)
Lemma wf_npow d b n : wf_bm d b -> wf_bm d (npow d b n).
Proof. intros; induction n; cbn; auto using wf_id, wf_mul. Qed.
Lemma npow_add d b n m : wf_bm d b -> npow d b (n + m) = bm_mul (npow d b n) (npow d b m).
Proof.
  intros. induction n; cbn.
  - rewrite (mul_id_l d); auto using wf_npow.
  - rewrite (mul_assoc d); auto using wf_npow. f_equal; auto.
Qed.
Lemma npow_1 d b : wf_bm d b -> npow d b 1 = b.
Proof. intros; cbn. apply mul_id_r; auto. Qed.

Lemma pow_pos d b : wf_bm d b -> forall fuel p, (0 < p)%Z -> (p <= Z.of_nat fuel)%Z ->
  bm_pow fuel b p = Some (npow d b (Z.to_nat p)).
Proof.
  intros Hb. induction fuel as [|fuel IH]; intros p Hp Hf; [lia|]. cbn [bm_pow].
  destruct (Z.ltb_spec p 0); [lia|].
  destruct (Z.eqb_spec p 1) as [->|Hne]; [rewrite npow_1; auto|].
  pose proof (Z.div_mod p 2 ltac:(lia)) as HD. pose proof (Z.mod_pos_bound p 2 ltac:(lia)) as HM.
  destruct (Z.eqb_spec (p mod 2) 0) as [Hev|Hod].
  - rewrite IH by lia. rewrite <- npow_add by auto. do 2 f_equal. lia.
  - assert (E : ((p - 1) / 2 = p / 2)%Z).
    { symmetry. apply Z.div_unique with 0%Z; lia. }
    rewrite E. rewrite IH by lia. rewrite <- npow_add by auto.
    rewrite <- (npow_1 d b) at 2 by auto. rewrite <- npow_add by auto. do 2 f_equal. lia.
Qed.

Lemma pow_neg d b p fuel : wf_bm d b -> (p < 0)%Z -> (- p < Z.of_nat fuel)%Z ->
  bm_pow fuel b p = Some (npow d (bm_inv b) (Z.to_nat (- p))).
Proof.
  intros Hb Hp Hf. destruct fuel; [lia|]. cbn [bm_pow].
  destruct (Z.ltb_spec p 0); [|lia]. apply pow_pos; auto using wf_inv; lia.
Qed.

Lemma pow_0_diverges b fuel : bm_pow fuel b 0 = None.
Proof. induction fuel; auto. cbn. rewrite IHfuel. auto. Qed.

(** actions *)
Lemma length_act {A} flip (dflt : A) b x : length (act flip dflt b x) = length (coords b).
Proof. apply map_length. Qed.
Lemma nth_act {A} flip (dflt d' : A) b x i : i < length (coords b) ->
  nth i (act flip dflt b x) d' =
  (if snd (nth i (coords b) (0, false)) then flip (nth (fst (nth i (coords b) (0, false))) x dflt)
   else nth (fst (nth i (coords b) (0, false))) x dflt).
Proof. intros. unfold act. rewrite map_nth_lt with (d := (0, false)); auto. Qed.

Lemma act_mul {A} (flip : A -> A) dflt d a b x : invol flip -> wf_bm d a -> wf_bm d b -> length x = d ->
  act flip dflt (bm_mul a b) x = act flip dflt a (act flip dflt b x).
Proof.
  intros Hi Ha Hb Hx. pose proof (wf_length _ _ Ha). pose proof (wf_length _ _ Hb).
  apply nth_ext_lt with dflt; rewrite !length_act, ?length_mul; auto.
  intros i Hlt. rewrite nth_act by (rewrite length_mul; lia). rewrite nth_mul by lia. cbn [fst snd].
  rewrite nth_act by lia. cbn.
  rewrite nth_act by (rewrite H0; apply wf_nth_lt; auto; lia). cbn.
  destruct (nth i (coords a) (0, false)) as [p b1]; cbn. destruct (nth p (coords b) (0, false)) as [k b2]; cbn.
  destruct b1, b2; cbn; auto.
Qed.
Lemma act_id {A} (flip : A -> A) dflt d x : length x = d -> act flip dflt (id_map d) x = x.
Proof.
  intros Hx. apply nth_ext_lt with dflt; rewrite !length_act, length_id; auto.
  intros i Hi. rewrite nth_act by (rewrite length_id; lia). rewrite nth_id by lia. auto.
Qed.
Lemma act_inv_l {A} (flip : A -> A) dflt d b x : invol flip -> wf_bm d b -> length x = d ->
  act flip dflt (bm_inv b) (act flip dflt b x) = x.
Proof. intros. rewrite <- (act_mul flip dflt d), (mul_inv_l d), act_id; auto using wf_inv. Qed.
Lemma act_inv_r {A} (flip : A -> A) dflt d b x : invol flip -> wf_bm d b -> length x = d ->
  act flip dflt b (act flip dflt (bm_inv b) x) = x.
Proof. intros. rewrite <- (act_mul flip dflt d), (mul_inv_r d), act_id; auto using wf_inv. Qed.
Lemma act_inj {A} (flip : A -> A) dflt d b x y : invol flip -> wf_bm d b -> length x = d -> length y = d ->
  act flip dflt b x = act flip dflt b y -> x = y.
Proof.
  intros Hi Hb Hx Hy E. rewrite <- (act_inv_l flip dflt d b x), <- (act_inv_l flip dflt d b y); auto. congruence.
Qed.
Lemma act_dflt {A} (flip : A -> A) d1 d2 d b x : wf_bm d b -> length x = d -> act flip d1 b x = act flip d2 b x.
Proof.
  intros Hb Hx. apply map_ext_in. intros [k f] Hin. cbn.
  rewrite (nth_indep x d1 d2); auto. rewrite Hx. eapply wf_In_lt; eauto.
Qed.
Lemma act_ext {A} (f g : A -> A) dflt b x : (forall v, f v = g v) -> act f dflt b x = act g dflt b x.
Proof. intros H. apply map_ext. intros [k []]; cbn; auto. Qed.
Lemma act_map {A B} (h : A -> B) (f : A -> A) (g : B -> B) da db d b x :
  wf_bm d b -> length x = d -> (forall v, h (f v) = g (h v)) ->
  map h (act f da b x) = act g db b (map h x).
Proof.
  intros Hb Hx H. unfold act. rewrite map_map. apply map_ext_in. intros [k fl] Hin. cbn.
  assert (k < length x) by (rewrite Hx; eapply wf_In_lt; eauto).
  rewrite map_nth_lt with (d := da) by auto. destruct fl; cbn; auto.
Qed.
(** reading the coordinates through the inverse *)
Lemma act_nth_inv {A} (flip : A -> A) dflt d b x k : wf_bm d b -> length x = d -> k < d ->
  nth k (act flip dflt b x) dflt =
  (let f := snd (nth k (coords b) (0, false)) in
   let v := nth (fst (nth k (coords b) (0, false))) x dflt in if f then flip v else v).
Proof. intros. rewrite nth_act by (rewrite (wf_length d); auto). auto. Qed.
Lemma act_Permutation {A} (flip : A -> A) dflt d b x :
  wf_bm d b -> length x = d ->
  exists y, Permutation x y /\ Forall2 (fun u v => v = u \/ v = flip u) y (act flip dflt b x).
Proof.
  intros Hb Hx. exists (map (fun kb : coord => nth (fst kb) x dflt) (coords b)). split.
  - rewrite <- (map_map fst (fun k => nth k x dflt)).
    rewrite <- (map_seq_nth x dflt) at 1. apply Permutation_map. rewrite Hx. apply Permutation_sym; auto.
  - unfold act. induction (coords b) as [|[k f] l]; cbn; constructor; auto. destruct f; auto.
Qed.
Lemma act_Forall {A} (flip : A -> A) dflt d b x (P : A -> Prop) :
  wf_bm d b -> length x = d -> (forall v, P v -> P (flip v)) -> Forall P x -> Forall P (act flip dflt b x).
Proof.
  intros Hb Hx HP HF. unfold act. apply Forall_map, Forall_forall. intros [k f] Hin. cbn.
  assert (P (nth k x dflt)).
  { rewrite Forall_forall in HF. apply HF, nth_In. rewrite Hx. eapply wf_In_lt; eauto. }
  destruct f; auto.
Qed.
Lemma act_Forall2 {A B} (f : A -> A) (g : B -> B) da db d b x y (P : A -> B -> Prop) :
  wf_bm d b -> length x = d -> (forall u v, P u v -> P (f u) (g v)) -> Forall2 P x y ->
  Forall2 P (act f da b x) (act g db b y).
Proof.
  intros Hb Hx HP HF. pose proof (Forall2_length HF) as HL. unfold act.
  apply (Forall2_nth P) with (da := da) (db := db) in HF as [_ HF].
  assert (Hc : forall kb, In kb (coords b) -> fst kb < d) by (intros [k fl] ?; eapply wf_In_lt; eauto).
  induction (coords b) as [|[k fl] l IH]; cbn; constructor.
  - assert (k < d) by (apply (Hc (k, fl)); cbn; auto). specialize (HF k ltac:(lia)). destruct fl; auto.
  - apply IH. intros; apply Hc; cbn; auto.
Qed.

(** a decision procedure for validity, used in examples *)
Definition wf_bmb (d : nat) (b : base_map) : bool :=
  Nat.eqb (length (coords b)) d && forallb (fun k => Nat.ltb k d) (map fst (coords b)) &&
  Nat.eqb (length (dedup Nat.eqb (map fst (coords b)))) d.
Lemma dedup_aux_length {A} (eqb : A -> A -> bool) l : forall seen, length (dedup_aux eqb seen l) <= length l.
Proof. induction l as [|x l IH]; intros seen; cbn; auto. destruct (memb eqb x seen); cbn; [specialize (IH seen)|specialize (IH (x :: seen))]; lia. Qed.
Lemma dedup_aux_full {A} (eqb : A -> A -> bool) l : forall seen, length (dedup_aux eqb seen l) = length l -> dedup_aux eqb seen l = l.
Proof.
  induction l as [|x l IH]; intros seen; cbn; auto. destruct (memb eqb x seen); cbn.
  - intros H. pose proof (dedup_aux_length eqb l seen). lia.
  - intros H. f_equal. apply IH. lia.
Qed.
Lemma wf_bmb_ok d b : wf_bmb d b = true -> wf_bm d b.
Proof.
  unfold wf_bmb. rewrite !andb_true_iff, !Nat.eqb_eq, forallb_forall. intros [[H1 H2] H3].
  apply NoDup_lt_Permutation; rewrite ?map_length; auto.
  - rewrite <- (dedup_aux_full Nat.eqb (map fst (coords b)) []) by (rewrite map_length; unfold dedup in H3; lia).
    apply (NoDup_dedup Nat.eqb). intros x y; apply Nat.eqb_eq.
  - intros k Hk. apply Nat.ltb_lt, H2; auto.
Qed.
