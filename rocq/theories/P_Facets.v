(** Proofs about FacetDivSubset (subsets.py). *)
From Verif Require Import Py L_Py L_Qc M_BaseMaps L_BaseMaps P_GenMaps M_Subsets S_BaseMaps S_Utils S_Subsets P_Actions P_Utils P_Subsets P_Points.
From Coq Require Import Permutation.
Local Open Scope nat_scope.

(** open nested intervals *)
Lemma oi_nil N y : open_interval N [] y <-> (0 < y)%Qc /\ (y < 1)%Qc.
Proof.
  unfold open_interval. rewrite value_nil. cbn. change (Zq 1) with 1%Qc. change (Zq 0) with 0%Qc.
  split; intros [H1 H2]; split; qclra.
Qed.
Lemma Zpow_pos N n : 1 <= N -> (0 < Z.of_nat N ^ Z.of_nat n)%Z. Proof. intros. apply Z.pow_pos_nonneg; lia. Qed.
Lemma oi_cons N c ds y : open_interval N (c :: ds) y <-> open_interval N ds (y * Nq N - Zq c)%Qc.
Proof.
  unfold open_interval. rewrite value_cons. cbn [length]. rewrite Nat2Z.inj_succ, Z.pow_succ_r by lia.
  rewrite Zq_add, !Zq_mul. fold (Nq N).
  generalize (Zq (Z.of_nat N ^ Z.of_nat (length ds))) as P. generalize (Zq (value (Z.of_nat N) ds)) as v. generalize (Zq c) as w. generalize (Nq N) as n.
  intros n w v P. replace ((y * n - w) * P)%Qc with (y * (n * P) - w * P)%Qc by ring.
  generalize (y * (n * P))%Qc as A. generalize (w * P)%Qc as B. intros. split; intros [H1 H2]; split; qclra.
Qed.
Definition digits_ok (N : nat) (ds : list Z) : Prop := Forall (fun x => 0 <= x < Z.of_nat N)%Z ds.
Lemma unit_digit N c y : 1 <= N -> (0 <= c < Z.of_nat N)%Z -> (0 < y * Nq N - Zq c)%Qc -> (y * Nq N - Zq c < 1)%Qc ->
  (0 < y)%Qc /\ (y < 1)%Qc.
Proof.
  intros HN Hc H1 H2. pose proof (Nq_pos N HN).
  assert (0 <= Zq c)%Qc by (rewrite <- Zq_0; apply Zq_le; lia).
  assert (Zq c + 1 <= Nq N)%Qc by (change 1%Qc with (Zq 1); rewrite <- Zq_add; apply Zq_le; lia).
  split.
  - destruct (Qc_ltb_spec 0 y); auto. exfalso. qcnra.
  - destruct (Qc_ltb_spec y 1); auto. exfalso. qcnra.
Qed.
Lemma oi_unit N ds y : 1 <= N -> digits_ok N ds -> open_interval N ds y -> (0 < y)%Qc /\ (y < 1)%Qc.
Proof.
  intros HN. revert y; induction ds as [|c ds IH]; intros y HD H.
  - apply oi_nil in H. auto.
  - apply oi_cons in H. inversion HD; subst. apply IH in H as [H4 H5]; auto. eapply unit_digit; eauto.
Qed.
Lemma unit_same_digit N c e y : (0 < y * Nq N - Zq c)%Qc -> (y * Nq N - Zq c < 1)%Qc ->
  (0 < y * Nq N - Zq e)%Qc -> (y * Nq N - Zq e < 1)%Qc -> c = e.
Proof.
  intros H1 H2 H3 H4. assert (Zq c < Zq (e + 1))%Qc by (rewrite Zq_add, Zq_1; qclra).
  assert (Zq e < Zq (c + 1))%Qc by (rewrite Zq_add, Zq_1; qclra).
  rewrite Zq_lt in H, H0. lia.
Qed.
Lemma oi_agree N ds es y : 1 <= N -> digits_ok N ds -> digits_ok N es -> open_interval N ds y -> open_interval N es y ->
  forall c e, In (c, e) (combine ds es) -> c = e.
Proof.
  intros HN. revert es y; induction ds as [|c ds IH]; intros [|e es] y HD HE H H' c' e' Hin; cbn in Hin; try contradiction.
  apply oi_cons in H, H'. inversion HD; inversion HE; subst.
  pose proof (oi_unit _ _ _ HN H3 H) as [A1 A2]. pose proof (oi_unit _ _ _ HN H7 H') as [B1 B2].
  assert (c = e) by (eapply unit_same_digit; eauto). subst e.
  destruct Hin as [Hin | Hin]; [congruence|]. eapply IH; eauto.
Qed.
Lemma oi_prefix N ds es y : 1 <= N -> digits_ok N es -> open_interval N (ds ++ es) y -> open_interval N ds y.
Proof.
  intros HN. revert y; induction ds as [|c ds IH]; intros y HE H; cbn in *.
  - apply oi_nil. eapply oi_unit; eauto.
  - apply oi_cons in H. apply oi_cons. auto.
Qed.
Lemma oi_exists N ds : 1 <= N -> exists y, open_interval N ds y.
Proof.
  intros HN. induction ds as [|c ds [y IH]].
  - exists half. apply oi_nil. pose proof this_half. split; unfold Qclt; rewrite this_half; cbn; reflexivity.
  - exists ((y + Zq c) / Nq N)%Qc. apply oi_cons. replace (_ - _)%Qc with y; auto. field. apply Nq_neq0; auto.
Qed.
Lemma oi_flip N ds y : open_interval N (map (fun c => Z.of_nat N - c - 1)%Z ds) (1 - y)%Qc <-> open_interval N ds y.
Proof.
  revert y; induction ds as [|c ds IH]; intros y; cbn [map].
  - rewrite !oi_nil. split; intros [H1 H2]; split; qclra.
  - rewrite !oi_cons, <- IH. replace ((1 - y) * Nq N - Zq (Z.of_nat N - c - 1))%Qc with (1 - (y * Nq N - Zq c))%Qc; [tauto|].
    rewrite !Zq_sub, Zq_1. fold (Nq N). ring.
Qed.

(** skipping the facet coordinate *)
Definition skip (fc m : nat) : nat := if Nat.ltb m fc then m else S m.
Lemma skip_abs fc k : k <> fc -> skip fc (abs_to_facet fc k) = k.
Proof. unfold skip, abs_to_facet. intros. destruct (Nat.ltb_spec k fc); [destruct (Nat.ltb_spec k fc)|destruct (Nat.ltb_spec (k - 1) fc)]; lia. Qed.
Lemma abs_skip fc m : abs_to_facet fc (skip fc m) = m.
Proof. unfold skip, abs_to_facet. destruct (Nat.ltb_spec m fc); [destruct (Nat.ltb_spec m fc)|destruct (Nat.ltb_spec (S m) fc)]; lia. Qed.
Lemma skip_ne fc m : skip fc m <> fc. Proof. unfold skip. destruct (Nat.ltb_spec m fc); lia. Qed.
Lemma skip_lt d fc m : fc < d -> m < d - 1 -> skip fc m < d. Proof. unfold skip. destruct (Nat.ltb_spec m fc); lia. Qed.
Lemma abs_lt d fc k : fc < d -> k < d -> k <> fc -> abs_to_facet fc k < d - 1.
Proof. unfold abs_to_facet. destruct (Nat.ltb_spec k fc); lia. Qed.
Lemma skip_list {B} (g : nat -> B) nf d : nf < d ->
  flat_map (fun j => if Nat.eqb j nf then [] else [g j]) (range d) = map (fun i => g (skip nf i)) (seq 0 (d - 1)).
Proof.
  intros H. unfold range. replace d with (nf + S (d - 1 - nf)) at 1 by lia. replace (d - 1) with (nf + (d - 1 - nf)) at 2 by lia.
  rewrite !seq_app, flat_map_app, map_app. cbn [seq flat_map]. rewrite Nat.add_0_l, Nat.eqb_refl. cbn [app].
  assert (HG : forall l, ~ In nf l -> flat_map (fun j => if Nat.eqb j nf then [] else [g j]) l = map g l).
  { induction l as [|x l IH]; cbn; auto. intros Hn. destruct (Nat.eqb_spec x nf); [subst; tauto|]. cbn. f_equal. tauto. }
  rewrite !HG; [|rewrite in_seq; lia|rewrite in_seq; lia].
  rewrite <- seq_shift, map_map. f_equal; apply map_ext_in; intros i Hi; apply in_seq in Hi; unfold skip;
    destruct (Nat.ltb_spec i nf); auto; lia.
Qed.
Lemma facet_coord_skip fc x m : facet_coord fc x m = nth (skip fc m) x 0%Qc. Proof. reflexivity. Qed.

Definition col (s : facet_set) (m : nat) : list Z := map (fun c => nth m c 0%Z) (fs_cubes s).
Lemma valid_col s m : valid_facet s -> m < fs_dim s - 1 -> digits_ok (fs_div s) (col s m).
Proof.
  intros (_ & _ & _ & H) Hm. unfold col, digits_ok. rewrite Forall_map. apply Forall_forall. intros c Hc.
  rewrite Forall_forall in H. apply H in Hc as [HL HF]. rewrite Forall_forall in HF. apply HF, nth_In. lia.
Qed.
Lemma length_col s m : length (col s m) = length (fs_cubes s). Proof. apply map_length. Qed.
Lemma valid_div s : valid_facet s -> 1 <= fs_div s. Proof. intros H; apply H. Qed.

(** non-emptiness *)
Lemma in_facet_exists s : valid_facet s -> exists x, in_facet s x.
Proof.
  intros HV. pose proof (valid_div s HV) as HN. destruct HV as (_ & Hf & _ & _).
  assert (HY : forall n, exists ys, length ys = n /\ forall m, m < n -> open_interval (fs_div s) (col s m) (nth m ys 0%Qc)).
  { induction n as [|n (ys & HL & HI)]; [exists []; split; auto; lia|].
    destruct (oi_exists (fs_div s) (col s n) HN) as (y & Hy). exists (ys ++ [y]). rewrite app_length, HL. cbn. split; [lia|].
    intros m Hm. destruct (Nat.eq_dec m n) as [->|].
    - rewrite app_nth2, HL, Nat.sub_diag by lia. auto.
    - rewrite app_nth1 by lia. apply HI; lia. }
  destruct (HY (fs_dim s - 1)) as (ys & HL & HI).
  set (fc := fst (fs_facet s)) in *.
  exists (map (fun j => if Nat.eqb j fc then Zq (snd (fs_facet s)) else nth (abs_to_facet fc j) ys 0%Qc) (seq 0 (fs_dim s))).
  set (f := fun j => _).
  assert (Hn : forall j, j < fs_dim s -> nth j (map f (seq 0 (fs_dim s))) 0%Qc = f j).
  { intros j Hj. rewrite map_nth_lt with (d := 0) by (rewrite seq_length; auto). rewrite seq_nth; auto. }
  split; [rewrite map_length, seq_length; auto|]. split.
  - rewrite Hn by auto. unfold f. rewrite Nat.eqb_refl. auto.
  - intros m Hm. rewrite facet_coord_skip. fold fc. rewrite Hn by (apply skip_lt; auto). unfold f.
    destruct (Nat.eqb_spec (skip fc m) fc) as [E|_]; [destruct (skip_ne fc m E)|]. rewrite abs_skip. apply HI; auto.
Qed.

(** intersection *)
Lemma facet_eqb_ok : eqb_ok facet_eqb.
Proof. intros [a b] [c e]. unfold facet_eqb; cbn. rewrite andb_true_iff, Nat.eqb_eq, Z.eqb_eq. split; [intros [-> ->]|intros E; inversion E]; auto. Qed.
Lemma z_list_eqb_ok : eqb_ok z_list_eqb. Proof. apply list_eqb_ok. intros x y. apply Z.eqb_eq. Qed.
Lemma fs_intersects_iff s t : fs_intersects s t = true <-> fs_facet s = fs_facet t /\
  forall a b, In (a, b) (combine (fs_cubes s) (fs_cubes t)) -> a = b.
Proof.
  unfold fs_intersects. rewrite andb_true_iff, (facet_eqb_ok _ _), negb_true_iff. split; intros [HF H]; split; auto.
  - intros a b Hin. destruct (z_list_eqb a b) eqn:E; [apply z_list_eqb_ok in E; auto|].
    assert (existsb (fun cc => negb (z_list_eqb (fst cc) (snd cc))) (combine (fs_cubes s) (fs_cubes t)) = true) by
      (apply existsb_exists; exists (a, b); cbn; rewrite E; auto). congruence.
  - apply not_true_is_false. intros HE. apply existsb_exists in HE as ([a b] & Hin & HH). cbn in HH. apply H in Hin. subst b.
    assert (z_list_eqb a a = true) by (apply z_list_eqb_ok; auto). rewrite H0 in HH. discriminate.
Qed.
Lemma combine_agree_prefix {A} (l l' : list A) : length l <= length l' -> (forall a b, In (a, b) (combine l l') -> a = b) ->
  exists r, l' = l ++ r.
Proof.
  revert l'; induction l as [|x l IH]; intros l' HL H; [exists l'; auto|]. destruct l' as [|y l']; cbn in *; [lia|].
  rewrite (H x y) by auto. destruct (IH l') as (r & ->); [lia|intros; apply H; auto|]. exists r; auto.
Qed.
Lemma combine_swap {A B} (l : list A) (l' : list B) a b : In (a, b) (combine l l') -> In (b, a) (combine l' l).
Proof. revert l'; induction l; intros [|y l']; cbn; auto. intros [E|H]; [inversion E; auto|]. right; auto. Qed.
Lemma subset_of_prefix s t r : valid_facet t -> fs_dim s = fs_dim t -> fs_div s = fs_div t -> fs_facet s = fs_facet t ->
  fs_cubes t = fs_cubes s ++ r -> forall x, in_facet t x -> in_facet s x.
Proof.
  intros HV Hd Hn Hf Hc x (HL & HX & HO). pose proof (valid_div t HV). split; [congruence|]. rewrite Hf, Hd. split; auto. intros m Hm.
  specialize (HO m Hm). rewrite Hc, map_app in HO. rewrite Hn. eapply oi_prefix; [auto| |exact HO].
  pose proof (valid_col t m HV Hm) as HC. unfold col in HC. rewrite Hc, map_app in HC. apply Forall_app in HC. apply HC.
Qed.
Lemma intersects_nested s t : valid_facet s -> valid_facet t -> fs_dim s = fs_dim t -> fs_div s = fs_div t ->
  fs_intersects s t = true -> (forall x, in_facet s x -> in_facet t x) \/ (forall x, in_facet t x -> in_facet s x).
Proof.
  intros Hs Ht Hd Hn HI. apply fs_intersects_iff in HI as [Hf HI].
  destruct (Nat.le_ge_cases (length (fs_cubes s)) (length (fs_cubes t))) as [HL|HL].
  - right. destruct (combine_agree_prefix _ _ HL HI) as (r & E). eapply subset_of_prefix; eauto.
  - left. destruct (combine_agree_prefix _ _ HL) as (r & E).
    { intros a b Hin. symmetry. apply HI, combine_swap; auto. }
    eapply subset_of_prefix; eauto.
Qed.
Lemma combine_map2 {A B C D} (f : A -> C) (g : B -> D) l l' : combine (map f l) (map g l') = map (fun ab => (f (fst ab), g (snd ab))) (combine l l').
Proof. revert l'; induction l; intros [|y l']; cbn; auto. f_equal; auto. Qed.
Lemma common_point_intersects s t x : valid_facet s -> valid_facet t -> fs_dim s = fs_dim t -> fs_div s = fs_div t ->
  in_facet s x -> in_facet t x -> fs_intersects s t = true.
Proof.
  intros Hs Ht Hd Hn (L1 & X1 & O1) (L2 & X2 & O2). pose proof (valid_div s Hs) as HN.
  assert (Hf : fs_facet s = fs_facet t).
  { destruct Hs as (_ & A1 & A2 & A3), Ht as (_ & B1 & B2 & B3).
    destruct (Nat.eq_dec (fst (fs_facet s)) (fst (fs_facet t))) as [E|E].
    - rewrite E in X1. rewrite X1 in X2. apply Zq_inj in X2. destruct (fs_facet s), (fs_facet t); cbn in *; congruence.
    - exfalso. specialize (O2 (abs_to_facet (fst (fs_facet t)) (fst (fs_facet s)))).
      rewrite facet_coord_skip, skip_abs in O2 by auto. rewrite X1 in O2.
      assert (HM : abs_to_facet (fst (fs_facet t)) (fst (fs_facet s)) < fs_dim t - 1) by (apply abs_lt; auto; lia).
      specialize (O2 HM). apply oi_unit in O2; [|lia|].
      + destruct O2 as [P1 P2]. rewrite <- Zq_0 in P1. rewrite <- Zq_1 in P2. rewrite Zq_lt in P1, P2. lia.
      + apply (valid_col t); auto. repeat split; auto; lia. }
  apply fs_intersects_iff. split; auto. intros a b Hin.
  assert (Ha : length a = fs_dim s - 1).
  { destruct Hs as (_ & _ & _ & A3). rewrite Forall_forall in A3. apply in_combine_l in Hin. apply A3; auto. }
  assert (Hb : length b = fs_dim t - 1).
  { destruct Ht as (_ & _ & _ & A3). rewrite Forall_forall in A3. apply in_combine_r in Hin. apply A3; auto. }
  apply nth_ext_lt with (d := 0%Z); [congruence|]. intros m Hm. rewrite Ha in Hm.
  specialize (O1 m Hm). specialize (O2 m ltac:(lia)). rewrite <- Hn, <- Hf in O2.
  eapply oi_agree; [exact HN| | |exact O1|exact O2|].
  - apply (valid_col s); auto.
  - rewrite Hn. apply (valid_col t); auto. lia.
  - rewrite combine_map2. apply in_map_iff. exists (a, b). auto.
Qed.
Lemma fs_intersects_exact s t : valid_facet s -> valid_facet t -> fs_dim s = fs_dim t -> fs_div s = fs_div t ->
  (fs_intersects s t = true <-> exists x, in_facet s x /\ in_facet t x).
Proof.
  intros Hs Ht Hd Hn. split.
  - intros HI. destruct (intersects_nested s t Hs Ht Hd Hn HI) as [H|H].
    + destruct (in_facet_exists s Hs) as (x & Hx). exists x; auto.
    + destruct (in_facet_exists t Ht) as (x & Hx). exists x; auto.
  - intros (x & H1 & H2). eapply common_point_intersects; eauto.
Qed.
Lemma fs_ext s t : fs_dim s = fs_dim t -> fs_div s = fs_div t -> length (fs_cubes s) = length (fs_cubes t) ->
  fs_intersects s t = true -> s = t.
Proof.
  intros Hd Hn HL HI. apply fs_intersects_iff in HI as [Hf HI].
  destruct (combine_agree_prefix (fs_cubes s) (fs_cubes t) ltac:(lia) HI) as (r & E).
  assert (r = []) by (destruct r; auto; rewrite E, app_length in HL; cbn in HL; lia). subst r. rewrite app_nil_r in E.
  destruct s, t; cbn in *; congruence.
Qed.

(** the action *)
Lemma map_facet_spec d s b : wf_bm d b -> fst (fs_facet s) < d ->
  exists j f, j < d /\ nth j (coords b) (0, false) = (fst (fs_facet s), f) /\
    fs_map_facet s b = Some (j, if f then (1 - snd (fs_facet s))%Z else snd (fs_facet s)).
Proof.
  intros Hb Hfc. unfold fs_map_facet. destruct (find _ _) as [[j [k f]]|] eqn:E.
  - apply find_some in E as [Hin Heq]. cbn in Heq. apply Nat.eqb_eq in Heq. subst k. apply In_enumerate in Hin.
    exists j, f. assert (j < length (coords b)) by (apply nth_error_Some; congruence). rewrite (wf_length d) in H by auto.
    split; auto. split; auto. apply nth_error_nth; auto.
  - exfalso. destruct (wf_nth_surj d b (fst (fs_facet s)) Hb Hfc) as (i & Hi & Ei).
    assert (Hin : In (i, nth i (coords b) (0, false)) (enumerate (coords b))).
    { apply In_enumerate. apply nth_error_nth'. rewrite (wf_length d); auto. }
    eapply find_none in E; [|exact Hin]. cbn in E. rewrite Ei, Nat.eqb_refl in E. discriminate.
Qed.
Lemma fs_mul_spec d b s : wf_bm d b -> valid_facet s -> fs_dim s = d ->
  exists s', fs_mul b s = Some s' /\ valid_facet s' /\ fs_dim s' = d /\ fs_div s' = fs_div s /\
    length (fs_cubes s') = length (fs_cubes s) /\
    forall x, length x = d -> (in_facet s' (pt_mul b x) <-> in_facet s x).
Proof.
  intros Hb HV Hd. pose proof HV as (HN & Hfc & Hfv & Hc).
  destruct (map_facet_spec d s b Hb ltac:(lia)) as (nf & f & Hnf & En & Em).
  unfold fs_mul. rewrite (wf_dim d b Hb), Hd, Nat.eqb_refl, Em.
  set (fc := fst (fs_facet s)) in *. set (nv := if f then _ else _) in *.
  set (kb := fun i => nth (skip nf i) (coords b) (0, false)).
  assert (EF : coords (fs_facet_map s b nf) = map (fun i => (abs_to_facet fc (fst (kb i)), snd (kb i))) (seq 0 (d - 1))).
  { unfold fs_facet_map. cbn [coords]. rewrite Hd. fold fc. apply (skip_list (fun j => (abs_to_facet fc (fst (nth j (coords b) (0,false))), snd (nth j (coords b) (0, false))))). auto. }
  assert (Hkb : forall i, i < d - 1 -> fst (kb i) < d /\ fst (kb i) <> fc).
  { intros i Hi. unfold kb. split; [apply wf_nth_lt; auto; apply skip_lt; auto|]. intros E.
    apply (skip_ne nf i). apply (wf_nth_inj d b); auto; [apply skip_lt; auto|]. rewrite E, En. auto. }
  set (fm := fs_facet_map s b nf) in *.
  assert (Hnth : forall c i, i < d - 1 -> nth i (apply_cube fm (Z.of_nat (fs_div s)) c) 0%Z =
     (let v := nth (abs_to_facet fc (fst (kb i))) c 0%Z in if snd (kb i) then (Z.of_nat (fs_div s) - v - 1)%Z else v)).
  { intros c i Hi. unfold apply_cube. rewrite nth_act with (d' := 0%Z) by (rewrite EF, map_length, seq_length; auto).
    rewrite EF. rewrite map_nth_lt with (d := 0) by (rewrite seq_length; auto). rewrite seq_nth by auto. cbn. auto. }
  eexists; split; [reflexivity|].
  assert (HV' : valid_facet (FS d (fs_div s) (nf, nv) (map (apply_cube fm (Z.of_nat (fs_div s))) (fs_cubes s)))).
  { split; auto. split; [cbn; auto|]. split; [cbn; unfold nv; destruct f; lia|]. cbn [fs_cubes fs_dim fs_div].
    rewrite Forall_map. apply Forall_forall. intros c Hin. rewrite Forall_forall in Hc. apply Hc in Hin as [HL HR].
    assert (HL' : length (apply_cube fm (Z.of_nat (fs_div s)) c) = d - 1) by (unfold apply_cube; rewrite length_act, EF, map_length, seq_length; auto).
    split; auto. apply Forall_nth_lt with (d := 0%Z). rewrite HL'. intros i Hi. rewrite Hnth by auto. destruct (Hkb i Hi) as [K1 K2].
    rewrite Forall_forall in HR. assert (0 <= nth (abs_to_facet fc (fst (kb i))) c 0 < Z.of_nat (fs_div s))%Z.
    { apply HR, nth_In. rewrite HL, Hd. apply abs_lt; auto. lia. }
    cbn zeta. destruct (snd (kb i)); lia. }
  split; auto. split; [auto|]. split; [auto|]. split; [cbn; apply map_length|].
  intros x Hx.
  assert (Hpx : forall j, j < d -> nth j (pt_mul b x) 0%Qc =
     let k := nth j (coords b) (0, false) in if snd k then (1 - nth (fst k) x 0)%Qc else nth (fst k) x 0%Qc).
  { intros j Hj. unfold pt_mul, apply_x. rewrite nth_act with (d' := 0%Qc) by (rewrite (wf_length d); auto). auto. }
  assert (Hcol : forall i, i < d - 1 -> 
    (open_interval (fs_div s) (map (fun c => nth i c 0%Z) (map (apply_cube fm (Z.of_nat (fs_div s))) (fs_cubes s)))
      (facet_coord nf (pt_mul b x) i) <->
     open_interval (fs_div s) (col s (abs_to_facet fc (fst (kb i)))) (facet_coord fc x (abs_to_facet fc (fst (kb i)))))).
  { intros i Hi. destruct (Hkb i Hi) as [K1 K2]. rewrite !facet_coord_skip, skip_abs by auto. rewrite Hpx by (apply skip_lt; auto).
    fold (kb i). cbn zeta. rewrite map_map. unfold col.
    rewrite (map_ext _ (fun c => let v := nth (abs_to_facet fc (fst (kb i))) c 0%Z in if snd (kb i) then (Z.of_nat (fs_div s) - v - 1)%Z else v))
      by (intros c; apply Hnth; auto). cbn zeta.
    destruct (snd (kb i)); [|tauto].
    rewrite <- (oi_flip (fs_div s) (map (fun c => nth (abs_to_facet fc (fst (kb i))) c 0%Z) (fs_cubes s))). rewrite map_map. tauto. }
  unfold in_facet. cbn [fs_dim fs_div fs_facet fs_cubes fst snd]. rewrite (pt_mul_length d) by auto. rewrite Hd, Hx.
  assert (HF : nth nf (pt_mul b x) 0%Qc = Zq nv <-> nth fc x 0%Qc = Zq (snd (fs_facet s))).
  { rewrite Hpx by auto. rewrite En. cbn. unfold nv. destruct f; [|tauto]. rewrite Zq_sub, Zq_1. split; intros E.
    - replace (nth fc x 0%Qc) with (1 - (1 - nth fc x 0))%Qc by ring. rewrite E. ring.
    - rewrite E. auto. }
  fold fc. rewrite HF. split; intros (_ & E & HO); (split; [auto|split; [auto|]]).
  - intros m Hm. destruct (wf_nth_surj d b (skip fc m) Hb) as (i0 & Hi0 & Ei0); [apply skip_lt; lia|].
    assert (Hne : i0 <> nf). { intros ->. rewrite En in Ei0. cbn in Ei0. apply (skip_ne fc m). congruence. }
    specialize (HO (abs_to_facet nf i0) ltac:(apply abs_lt; auto)).
    apply Hcol in HO; [|apply abs_lt; auto]. unfold kb in HO. rewrite skip_abs in HO by auto. rewrite Ei0, abs_skip in HO. exact HO.
  - intros i Hi. apply Hcol; auto. apply HO. destruct (Hkb i Hi). apply abs_lt; auto. lia.
Qed.

(** group laws, via the point sets *)
Lemma fs_mul_point d b s s' : wf_bm d b -> valid_facet s -> fs_dim s = d -> fs_mul b s = Some s' ->
  valid_facet s' /\ fs_dim s' = d /\ fs_div s' = fs_div s /\ length (fs_cubes s') = length (fs_cubes s) /\
  forall x, length x = d -> (in_facet s' (pt_mul b x) <-> in_facet s x).
Proof.
  intros Hb HV Hd E. destruct (fs_mul_spec d b s Hb HV Hd) as (s2 & E2 & H). assert (s2 = s') by congruence. subst. auto.
Qed.
Lemma fs_mul_mul d a b s s' : wf_bm d a -> wf_bm d b -> valid_facet s -> fs_dim s = d -> fs_mul b s = Some s' ->
  fs_mul (bm_mul a b) s = fs_mul a s'.
Proof.
  intros Ha Hb HV Hd E. destruct (fs_mul_point d b s s' Hb HV Hd E) as (V1 & D1 & N1 & L1 & P1).
  destruct (fs_mul_spec d a s' Ha V1 D1) as (s2 & E2 & V2 & D2 & N2 & L2 & P2).
  destruct (fs_mul_spec d (bm_mul a b) s (wf_mul d a b Ha Hb) HV Hd) as (s3 & E3 & V3 & D3 & N3 & L3 & P3).
  rewrite E2, E3. f_equal. destruct (in_facet_exists s HV) as (x & Hx).
  assert (HL : length x = d) by (destruct Hx; congruence).
  apply fs_ext; try congruence.
  apply (common_point_intersects s3 s2 (pt_mul (bm_mul a b) x)); auto; try congruence.
  - apply P3; auto.
  - rewrite (pt_mul_mul d) by auto. apply P2; [apply pt_mul_length; auto|]. apply P1; auto.
Qed.
Lemma fs_mul_id d s : valid_facet s -> fs_dim s = d -> fs_mul (id_map d) s = Some s.
Proof.
  intros HV Hd. destruct (fs_mul_spec d (id_map d) s (wf_id d) HV Hd) as (s2 & E2 & V2 & D2 & N2 & L2 & P2).
  rewrite E2. f_equal. destruct (in_facet_exists s HV) as (x & Hx).
  assert (HL : length x = d) by (destruct Hx; congruence).
  apply fs_ext; try congruence. apply (common_point_intersects s2 s x); auto; try congruence.
  rewrite <- (pt_mul_id d x) by auto. apply P2; auto.
Qed.
Lemma fs_mul_rev b s : fs_mul (bm_rev b) s = fs_mul b s. Proof. reflexivity. Qed.

Lemma fs_cmp_ok : cmp_ok fs_cmp.
Proof.
  pose proof (lex2_ok _ _ nat_cmp_ok (lex2_ok _ _ nat_cmp_ok (lex2_ok _ _ (lex2_ok _ _ nat_cmp_ok Z_cmp_ok) (lex_ok _ (lex_ok _ Z_cmp_ok))))) as H.
  unfold fs_cmp. constructor; intros.
  - rewrite (cmp_eq _ H). destruct x, y; cbn. split; intros E; inversion E; auto.
  - apply (cmp_opp _ H).
  - eapply (cmp_trans _ H); eauto.
Qed.

Section OrbitMin.
  (** minimum over the orbit of a partially computed action *)
  Context {X : Type} (cmp : X -> X -> comparison) (Hc : cmp_ok cmp) (f : base_map -> option X) (bms : list base_map).
  Lemma orbit_min : bms <> [] -> (forall b, In b bms -> f b <> None) -> exists m ls, omap f bms = Some ls /\ min_list cmp ls = Some m /\
    (exists b, In b bms /\ f b = Some m) /\ (forall b x, In b bms -> f b = Some x -> leq_of cmp m x).
  Proof.
    intros Hne Hdef. destruct (omap f bms) as [ls|] eqn:E.
    - assert (HF : Forall2 (fun b x => f b = Some x) bms ls) by (apply omap_Some; auto).
      destruct (min_list_some cmp ls) as (m & Hm). { intros ->. inversion HF. subst. auto. }
      exists m, ls. split; auto. split; auto. apply (min_list_spec cmp Hc) in Hm as [H1 H2]. split.
      + clear - HF H1. induction HF; cbn in *; [contradiction|]. destruct H1 as [<-|H1]; [eauto|].
        destruct (IHHF H1) as (b & Hb & E). eauto.
      + intros b x Hb Ex. apply H2. clear - HF Hb Ex. induction HF; cbn in *; [contradiction|].
        destruct Hb as [->|Hb]; [left; congruence|right; auto].
    - exfalso. clear Hne. induction bms as [|b l IH]; cbn in E; [discriminate|].
      destruct (f b) eqn:Eb; [|eapply Hdef; [left; eauto|auto]]. destruct (omap f l) eqn:El; [discriminate|].
      apply IH; auto. intros b' Hb'. apply Hdef; right; auto.
  Qed.
End OrbitMin.
Lemma gen_base_maps_nonempty d tr : gen_base_maps d tr <> [].
Proof.
  intros E. assert (H : In (BM (coords (id_map d)) (match tr with Some t => t | None => false end)) (gen_base_maps d tr)).
  { apply In_gen_base_maps. split; [exact (wf_id d)|]. destruct tr; auto. }
  rewrite E in H. auto.
Qed.
Lemma fs_std_spec s : valid_facet s -> exists m, fs_std s = Some m /\
  (exists b, wf_bm (fs_dim s) b /\ time_rev b = false /\ fs_mul b s = Some m) /\
  (forall b s', wf_bm (fs_dim s) b -> fs_mul b s = Some s' -> fs_cmp m s' <> Gt).
Proof.
  intros HV. destruct (orbit_min fs_cmp fs_cmp_ok (fun b => fs_mul b s) (gen_base_maps (fs_dim s) (Some false)))
    as (m & ls & E1 & E2 & (b & Hb & Eb) & HL).
  - apply gen_base_maps_nonempty.
  - intros b Hb. apply In_gen_base_maps in Hb as [Hb _]. destruct (fs_mul_spec _ b s Hb HV eq_refl) as (s' & -> & _). discriminate.
  - exists m. unfold fs_std. rewrite E1. split; auto. split.
    + apply In_gen_base_maps in Hb as [Hb [Ht|Ht]]; [discriminate|]. exists b. repeat split; auto. congruence.
    + intros c s' Hc Es. apply (HL (cube_map c) s'); auto. apply In_gen_base_maps. split; [apply wf_cube_map; auto|right; reflexivity].
Qed.
Lemma fl_mul_spec d b l : wf_bm d b -> fl_dim d l -> exists l', fl_mul b l = Some l' /\ fl_dim d l' /\
  forall x y, length x = d -> length y = d ->
    (if time_rev b then in_facet (exit l') (pt_mul b x) else in_facet (entrance l') (pt_mul b x)) /\
    (if time_rev b then in_facet (entrance l') (pt_mul b y) else in_facet (exit l') (pt_mul b y)) <->
    in_facet (entrance l) x /\ in_facet (exit l) y.
Proof.
  intros Hb (V1 & V2 & D1 & D2).
  destruct (fs_mul_spec d b (entrance l) Hb V1 D1) as (s1 & E1 & W1 & F1 & N1 & L1 & P1).
  destruct (fs_mul_spec d b (exit l) Hb V2 D2) as (s2 & E2 & W2 & F2 & N2 & L2 & P2).
  unfold fl_mul. rewrite E1, E2. eexists; split; [reflexivity|].
  destruct (time_rev b); cbn; (split; [repeat split; cbn; auto; try apply W1; try apply W2|]); intros x y Hx Hy;
    rewrite (P1 x Hx), (P2 y Hy); tauto.
Qed.
Lemma fl_mul_mul d a b l l' : wf_bm d a -> wf_bm d b -> fl_dim d l -> fl_mul b l = Some l' ->
  fl_mul (bm_mul a b) l = fl_mul a l'.
Proof.
  intros Ha Hb (V1 & V2 & D1 & D2). unfold fl_mul.
  destruct (fs_mul b (entrance l)) as [s1|] eqn:E1; [|discriminate]. destruct (fs_mul b (exit l)) as [s2|] eqn:E2; [|discriminate].
  intros E. rewrite (fs_mul_mul d a b _ _ Ha Hb V1 D1 E1), (fs_mul_mul d a b _ _ Ha Hb V2 D2 E2). inversion E; subst. rewrite mul_time_rev.
  destruct (time_rev b); cbn; destruct (fs_mul a s1), (fs_mul a s2); auto; destruct (time_rev a); auto.
Qed.
Lemma fl_mul_id d l : fl_dim d l -> fl_mul (id_map d) l = Some l.
Proof. intros (V1 & V2 & D1 & D2). unfold fl_mul. rewrite !fs_mul_id by auto. destruct l; auto. Qed.
Lemma fl_std_spec d l : fl_dim d l -> exists m, fl_std l = Some m /\
  (exists b, wf_bm d b /\ fl_mul b l = Some m) /\
  (forall b l', wf_bm d b -> fl_mul b l = Some l' -> lk_cmp fs_cmp m l' <> Gt).
Proof.
  intros Hl. pose proof Hl as (V1 & V2 & D1 & D2). unfold fl_std. rewrite D1.
  destruct (orbit_min (lk_cmp fs_cmp) (lk_cmp_ok _ fs_cmp_ok) (fun b => fl_mul b l) (gen_base_maps d None))
    as (m & ls & E1 & E2 & (b & Hb & Eb) & HL).
  - apply gen_base_maps_nonempty.
  - intros b Hb. apply In_gen_base_maps in Hb as [Hb _]. destruct (fl_mul_spec d b l Hb Hl) as (s' & -> & _). discriminate.
  - exists m. rewrite E1. split; auto. split.
    + apply In_gen_base_maps in Hb as [Hb Ht]. exists b. auto.
    + intros c s' Hc Es. apply (HL c s'); auto. apply In_gen_base_maps. split; auto. 
Qed.
Lemma fl_mul_inv d b l l' : wf_bm d b -> fl_dim d l -> fl_mul b l = Some l' -> fl_mul (bm_inv b) l' = Some l.
Proof.
  intros Hb Hl E. rewrite <- (fl_mul_mul d (bm_inv b) b l l'); auto; [|apply wf_inv; auto]. rewrite (mul_inv_l d) by auto.
  apply fl_mul_id; auto.
Qed.
Lemma fl_mul_dim d b l l' : wf_bm d b -> fl_dim d l -> fl_mul b l = Some l' -> fl_dim d l'.
Proof. intros Hb Hl E. destruct (fl_mul_spec d b l Hb Hl) as (l2 & E2 & H & _). congruence. Qed.
Lemma fl_std_orbit d l l' : fl_dim d l -> fl_dim d l' ->
  (fl_std l = fl_std l' <-> exists b, wf_bm d b /\ fl_mul b l = Some l').
Proof.
  intros Hl Hl'. destruct (fl_std_spec d l Hl) as (m & Em & (b & Wb & Eb) & Lm).
  destruct (fl_std_spec d l' Hl') as (m' & Em' & (b' & Wb' & Eb') & Lm'). split.
  - intros E. assert (HM : m = m') by congruence. exists (bm_mul (bm_inv b') b). split; [apply wf_mul; auto; apply wf_inv; auto|].
    rewrite (fl_mul_mul d (bm_inv b') b l m); auto; [|apply wf_inv; auto]. rewrite HM. apply fl_mul_inv with d; auto.
  - intros (c & Wc & Ec). rewrite Em, Em'. f_equal. apply (leq_of_antisym (lk_cmp fs_cmp) (lk_cmp_ok _ fs_cmp_ok)).
    + apply (Lm (bm_mul b' c)); [apply wf_mul; auto|]. rewrite (fl_mul_mul d b' c l l'); auto.
    + apply (Lm' (bm_mul b (bm_inv c))); [apply wf_mul; auto; apply wf_inv; auto|].
      rewrite (fl_mul_mul d b (bm_inv c) l' l); auto; [apply wf_inv; auto|]. apply fl_mul_inv with d; auto.
Qed.

(** placing in a sub-cube *)
Lemma place_in_nth div c x y : place_in div c x y <-> length c = length x /\ length y = length x /\
  forall j, j < length x -> (nth j y 0%Qc * Nq div = nth j x 0%Qc + Zq (nth j c 0%Z))%Qc.
Proof.
  split.
  - intros H. destruct (place_in_length _ _ _ _ H) as [L1 L2]. split; auto. split; [congruence|]. destruct H as [HF _].
    apply Forall2_nth with (da := (0%Z, 0%Qc)) (db := 0%Qc) in HF as [HL HF]. rewrite combine_length in HF.
    intros j Hj. specialize (HF j ltac:(lia)). rewrite combine_nth in HF by auto. auto.
  - intros (L1 & L2 & H). split; auto. apply Forall2_nth with (da := (0%Z, 0%Qc)) (db := 0%Qc). rewrite combine_length.
    split; [lia|]. intros j Hj. rewrite combine_nth by auto. apply H. lia.
Qed.
Lemma edge_place div fv y : 1 <= div -> (fv = 0%Z \/ fv = 1%Z) ->
  (y * Nq div = Zq fv + Zq (if (fv =? 0)%Z then 0 else Z.of_nat div - 1))%Qc <-> y = Zq fv.
Proof.
  intros HN Hf. pose proof (Nq_neq0 div HN). destruct Hf as [-> | ->]; cbn [Z.eqb].
  - rewrite Zq_0. split; intros E.
    + assert (E' : (y * Nq div = 0)%Qc) by (rewrite E; ring). apply Qcmult_integral in E' as [E'|E']; auto. contradiction.
    + subst. ring.
  - rewrite Zq_sub, Zq_1. fold (Nq div). split; intros E.
    + assert (E' : ((y - 1) * Nq div = 0)%Qc). { replace ((y - 1) * Nq div)%Qc with (y * Nq div - Nq div)%Qc by ring. rewrite E. ring. }
      apply Qcmult_integral in E' as [E'|E']; [|contradiction]. replace y with (y - 1 + 1)%Qc by ring. rewrite E'. ring.
    + subst. ring.
Qed.
(** facet set with one more leading cube *)
Lemma in_facet_cons d N fc fv a cubes x y cube : 1 <= N -> fc < d -> (fv = 0%Z \/ fv = 1%Z) ->
  length cube = d -> nth fc cube 0%Z = (if (fv =? 0)%Z then 0 else Z.of_nat N - 1)%Z ->
  (forall m, m < d - 1 -> nth (skip fc m) cube 0%Z = nth m a 0%Z) ->
  place_in N cube x y -> (in_facet (FS d N (fc, fv) (a :: cubes)) y <-> in_facet (FS d N (fc, fv) cubes) x).
Proof.
  intros HN Hfc Hfv Hc He Ha HP. apply place_in_nth in HP as (L1 & L2 & HP). unfold in_facet.
  cbn [fs_dim fs_div fs_facet fs_cubes fst snd map].
  assert (HL : length x = d) by congruence. rewrite L2, HL.
  assert (HF : nth fc y 0%Qc = Zq fv <-> nth fc x 0%Qc = Zq fv).
  { rewrite <- (edge_place N fv (nth fc y 0%Qc)) by auto. rewrite HP by lia. rewrite He.
    generalize (Zq (if (fv =? 0)%Z then 0 else Z.of_nat N - 1)) as w. intros w. split; intros E; [|rewrite E; auto].
    replace (nth fc x 0%Qc) with (nth fc x 0 + w - w)%Qc by ring. rewrite E. ring. }
  rewrite HF. split; intros (_ & E & HO); (split; [auto|split; [auto|]]); intros m Hm; specialize (HO m Hm);
    rewrite facet_coord_skip in *; pose proof (skip_lt d fc m Hfc Hm).
  - apply oi_cons in HO. rewrite HP, Ha in HO by lia. replace (nth (skip fc m) x 0 + Zq (nth m a 0%Z) - Zq (nth m a 0%Z))%Qc
      with (nth (skip fc m) x 0%Qc) in HO by ring. auto.
  - apply oi_cons. rewrite HP, Ha by lia. replace (nth (skip fc m) x 0 + Zq (nth m a 0%Z) - Zq (nth m a 0%Z))%Qc
      with (nth (skip fc m) x 0%Qc) by ring. auto.
Qed.
Lemma fs_eta s : s = FS (fs_dim s) (fs_div s) (fst (fs_facet s), snd (fs_facet s)) (fs_cubes s).
Proof. destruct s as [d n [a b] c]; auto. Qed.
Lemma fs_map_to_cube_spec s cube : valid_facet s -> grid_cube (fs_dim s) (fs_div s) cube ->
  match fs_map_to_cube (fs_div s) cube s with
  | Some s' => nth (fst (fs_facet s)) cube 0%Z = fs_edge s (fs_div s) /\
      valid_facet s' /\ fs_dim s' = fs_dim s /\ fs_div s' = fs_div s /\
      forall x y, place_in (fs_div s) cube x y -> (in_facet s' y <-> in_facet s x)
  | None => nth (fst (fs_facet s)) cube 0%Z <> fs_edge s (fs_div s)
  end.
Proof.
  intros HV [HL HR]. pose proof HV as (HN & Hfc & Hfv & Hc). unfold fs_map_to_cube. rewrite Nat.eqb_refl.
  destruct (nth_error cube (fst (fs_facet s))) as [c|] eqn:E; [|apply nth_error_None in E; lia].
  pose proof (nth_error_nth _ _ 0%Z E) as En. rewrite En.
  destruct (Z.eqb_spec c (fs_edge s (fs_div s))) as [Ec|Ec]; auto. split; auto.
  rewrite skip_list by auto.
  assert (HA : forall m, m < fs_dim s - 1 -> nth m (map (fun i => nth (skip (fst (fs_facet s)) i) cube 0%Z) (seq 0 (fs_dim s - 1))) 0%Z =
     nth (skip (fst (fs_facet s)) m) cube 0%Z).
  { intros m Hm. rewrite map_nth_lt with (d := 0) by (rewrite seq_length; auto). rewrite seq_nth by auto. auto. }
  split; [|split; [auto|split; [auto|]]].
  - repeat split; auto; cbn. constructor; auto. rewrite map_length, seq_length. split; auto. rewrite Forall_map. apply Forall_forall.
    intros i Hi. apply in_seq in Hi. rewrite Forall_forall in HR. apply HR, nth_In. rewrite HL. apply skip_lt; lia.
  - intros x y HP.
    pose proof (in_facet_cons (fs_dim s) (fs_div s) (fst (fs_facet s)) (snd (fs_facet s))
      (map (fun i => nth (skip (fst (fs_facet s)) i) cube 0%Z) (seq 0 (fs_dim s - 1))) (fs_cubes s) x y cube) as H.
    rewrite <- surjective_pairing in H. destruct s as [sd sn sf sc]. apply H; auto.
    + cbn in *. rewrite En, Ec. reflexivity.
    + intros m Hm. rewrite HA; auto.
Qed.

(** division *)
Lemma place_exists N c y : 1 <= N -> length c = length y -> exists x, place_in N c x y.
Proof. intros HN HL. eexists. apply divide_pos; auto. Qed.
Definition abs_cube (s : facet_set) (a : list Z) : list Z :=
  map (fun j => if Nat.eqb j (fst (fs_facet s)) then fs_edge s (fs_div s) else nth (abs_to_facet (fst (fs_facet s)) j) a 0%Z) (range (fs_dim s)).
Lemma abs_cube_nth s a j : j < fs_dim s -> nth j (abs_cube s a) 0%Z =
  if Nat.eqb j (fst (fs_facet s)) then fs_edge s (fs_div s) else nth (abs_to_facet (fst (fs_facet s)) j) a 0%Z.
Proof. intros Hj. unfold abs_cube, range. rewrite map_nth_lt with (d := 0) by (rewrite seq_length; auto). rewrite seq_nth; auto. Qed.
Lemma abs_cube_skip s a m : fst (fs_facet s) < fs_dim s -> m < fs_dim s - 1 ->
  nth (skip (fst (fs_facet s)) m) (abs_cube s a) 0%Z = nth m a 0%Z.
Proof.
  intros Hf Hm. rewrite abs_cube_nth by (apply skip_lt; auto). destruct (Nat.eqb_spec (skip (fst (fs_facet s)) m) (fst (fs_facet s))) as [E|E];
    [destruct (skip_ne _ _ E)|]. rewrite abs_skip; auto.
Qed.
Lemma abs_cube_grid s a : valid_facet s -> grid_cube (fs_dim s - 1) (fs_div s) a -> grid_cube (fs_dim s) (fs_div s) (abs_cube s a).
Proof.
  intros (HN & Hfc & Hfv & _) [HL HR]. assert (HL' : length (abs_cube s a) = fs_dim s) by (unfold abs_cube, range; rewrite map_length, seq_length; auto).
  split; auto. apply Forall_nth_lt with (d := 0%Z). rewrite HL'. intros j Hj. rewrite abs_cube_nth by auto.
  destruct (Nat.eqb_spec j (fst (fs_facet s))) as [E|E].
  - unfold fs_edge. destruct (_ =? _)%Z; lia.
  - rewrite Forall_forall in HR. apply HR, nth_In. rewrite HL. apply abs_lt; auto.
Qed.
Lemma abs_cube_inj s a a' : fst (fs_facet s) < fs_dim s -> length a = fs_dim s - 1 -> length a' = fs_dim s - 1 ->
  abs_cube s a = abs_cube s a' -> a = a'.
Proof.
  intros Hf H1 H2 E. apply nth_ext_lt with (d := 0%Z); [congruence|]. intros m Hm. rewrite H1 in Hm.
  rewrite <- (abs_cube_skip s a m), <- (abs_cube_skip s a' m), E by auto. auto.
Qed.
Lemma abs_cube_place s a x y cs : valid_facet s -> place_in (fs_div s) (abs_cube s a) x y ->
  (in_facet (FS (fs_dim s) (fs_div s) (fs_facet s) (a :: cs)) y <-> in_facet (FS (fs_dim s) (fs_div s) (fs_facet s) cs) x).
Proof.
  intros (HN & Hfc & Hfv & _) HP.
  pose proof (in_facet_cons (fs_dim s) (fs_div s) (fst (fs_facet s)) (snd (fs_facet s)) a cs x y (abs_cube s a)) as H.
  rewrite <- surjective_pairing in H. apply H; auto.
  - unfold abs_cube, range. rewrite map_length, seq_length. auto.
  - rewrite abs_cube_nth, Nat.eqb_refl by auto. reflexivity.
  - intros m Hm. apply abs_cube_skip; auto.
Qed.
(** integer part *)
Lemma floor_digit N y : 1 <= N -> (0 < y)%Qc -> (y < 1)%Qc -> (forall z : Z, y * Nq N <> Zq z)%Qc ->
  exists a, (0 <= a < Z.of_nat N)%Z /\ (0 < y * Nq N - Zq a)%Qc /\ (y * Nq N - Zq a < 1)%Qc.
Proof.
  intros HN H0 H1 HI. set (v := (y * Nq N)%Qc) in *. pose proof (Nq_pos N HN).
  assert (V0 : (0 < v)%Qc) by (unfold v; qcnra). assert (V1 : (v < Nq N)%Qc) by (unfold v; qcnra).
  set (a := (Qnum (this v) / Zpos (Qden (this v)))%Z). exists a.
  pose proof (Z.div_mod (Qnum (this v)) (Zpos (Qden (this v))) ltac:(lia)).
  pose proof (Z.mod_pos_bound (Qnum (this v)) (Zpos (Qden (this v))) ltac:(lia)). fold a in H2.
  assert (A1 : (Zq a <= v)%Qc) by (apply Zq_le_iff; lia).
  assert (A2 : (v <= Zq (a + 1))%Qc) by (apply le_Zq_iff; lia).
  assert (B1 : (Zq a < v)%Qc) by (destruct (Qc_ltb_spec (Zq a) v) as [L|L]; auto; destruct (HI a); apply Qcle_antisym; auto).
  assert (B2 : (v < Zq (a + 1))%Qc) by (destruct (Qc_ltb_spec v (Zq (a + 1))) as [L|L]; auto; destruct (HI (a + 1)%Z); apply Qcle_antisym; auto).
  rewrite Zq_add, Zq_1 in B2. split; [|split; qclra].
  assert (C1 : (Zq (-1) < Zq a)%Qc) by (change (Zq (-1)) with (- (1))%Qc; qclra).
  assert (C2 : (Zq a < Zq (Z.of_nat N))%Qc) by (fold (Nq N); qclra).
  rewrite Zq_lt in C1, C2. lia.
Qed.
Lemma digits_exists n (P : nat -> Z -> Prop) : (forall m, m < n -> exists a, P m a) -> exists l, length l = n /\ forall m, m < n -> P m (nth m l 0%Z).
Proof.
  induction n as [|n IH]; intros H; [exists []; split; auto; lia|]. destruct IH as (l & HL & HP); [intros; apply H; lia|].
  destruct (H n) as (a & Ha); [lia|]. exists (l ++ [a]). rewrite app_length, HL. split; [cbn; lia|]. intros m Hm.
  destruct (Nat.eq_dec m n) as [->|].
  - rewrite app_nth2, HL, Nat.sub_diag by lia. auto.
  - rewrite app_nth1 by lia. apply HP; lia.
Qed.
Lemma first_digit s y : valid_facet s -> fs_cubes s = [] ->
  ((exists a, grid_cube (fs_dim s - 1) (fs_div s) a /\ in_facet (FS (fs_dim s) (fs_div s) (fs_facet s) [a]) y) <->
   in_facet s y /\ off_grid s y).
Proof.
  intros HV Hc. pose proof HV as (HN & Hfc & Hfv & _). unfold in_facet, off_grid. cbn [fs_dim fs_div fs_facet fs_cubes map]. rewrite Hc. cbn [map]. split.
  - intros (a & [HL HR] & L & E & HO).
    assert (HU : forall m, m < fs_dim s - 1 -> (0 < facet_coord (fst (fs_facet s)) y m * Nq (fs_div s) - Zq (nth m a 0%Z))%Qc /\
      (facet_coord (fst (fs_facet s)) y m * Nq (fs_div s) - Zq (nth m a 0%Z) < 1)%Qc).
    { intros m Hm. specialize (HO m Hm). apply oi_cons, oi_nil in HO. auto. }
    split; [split; [auto|split; [auto|]]|].
    + intros m Hm. apply oi_nil. destruct (HU m Hm). eapply unit_digit; eauto. rewrite Forall_forall in HR. apply HR, nth_In. lia.
    + intros m z Hm Ez. destruct (HU m Hm) as [U1 U2]. rewrite Ez in U1, U2. rewrite <- Zq_sub in U1, U2. rewrite <- Zq_0 in U1. rewrite <- Zq_1 in U2.
      rewrite Zq_lt in U1, U2. lia.
  - intros ((L & E & HO) & HI).
    destruct (digits_exists (fs_dim s - 1) (fun m a => (0 <= a < Z.of_nat (fs_div s))%Z /\
      (0 < facet_coord (fst (fs_facet s)) y m * Nq (fs_div s) - Zq a)%Qc /\ (facet_coord (fst (fs_facet s)) y m * Nq (fs_div s) - Zq a < 1)%Qc))
      as (a & HL & HA).
    { intros m Hm. specialize (HO m Hm). apply oi_nil in HO as [O1 O2]. apply floor_digit; auto. }
    exists a. split; [split; auto; apply Forall_nth_lt with (d := 0%Z); rewrite HL; intros m Hm; apply HA; auto|].
    split; auto. split; auto. intros m Hm. apply oi_cons, oi_nil. apply HA; auto.
Qed.
Lemma In_zrange n z : In z (zrange n) <-> (0 <= z < Z.of_nat n)%Z.
Proof.
  unfold zrange. rewrite in_map_iff. split.
  - intros (k & <- & Hk). apply in_seq in Hk. lia.
  - intros H. exists (Z.to_nat z). rewrite Z2Nat.id by lia. split; auto. apply in_seq. lia.
Qed.
Lemma NoDup_zrange n : NoDup (zrange n).
Proof. apply NoDup_map_inj; [intros x y _ _; apply Nat2Z.inj|apply seq_NoDup]. Qed.
Lemma In_grid d n c : In c (lprod_rep (zrange n) d) <-> grid_cube d n c.
Proof.
  rewrite In_lprod_rep. unfold grid_cube. split; intros [H1 H2]; split; auto; (eapply Forall_impl; [|exact H2]); intros x; apply In_zrange.
Qed.
Lemma fs_divide_spec s : valid_facet s -> exists l, fs_divide (fs_div s) s = Some l /\ NoDup (map fst l) /\
  (forall c s', In (c, s') l -> grid_cube (fs_dim s) (fs_div s) c /\ valid_facet s' /\ fs_dim s' = fs_dim s /\ fs_div s' = fs_div s) /\
  forall y, (exists c s' x, In (c, s') l /\ place_in (fs_div s) c x y /\ in_facet s' x) <->
            in_facet s y /\ (fs_cubes s = [] -> off_grid s y).
Proof.
  intros HV. pose proof HV as (HN & Hfc & Hfv & Hc). unfold fs_divide. rewrite Nat.eqb_refl.
  destruct (fs_cubes s) as [|c0 cs] eqn:EC.
  - exists (map (fun a => (abs_cube s a, s)) (lprod_rep (zrange (fs_div s)) (fs_dim s - 1))). split; [reflexivity|]. split; [|split].
    + rewrite map_map. cbn [fst]. apply NoDup_map_inj.
      * intros a a' Ha Ha' E. apply In_grid in Ha as [Ha _], Ha' as [Ha' _]. eapply abs_cube_inj; eauto.
      * apply NoDup_lprod_rep, NoDup_zrange.
    + intros c s' Hin. apply in_map_iff in Hin as (a & E & Ha). inversion E; subst. apply In_grid in Ha.
      split; [apply abs_cube_grid; auto|auto].
    + intros y. assert (HS : FS (fs_dim s) (fs_div s) (fs_facet s) [] = s) by (rewrite <- EC; destruct s; auto).
      transitivity (in_facet s y /\ off_grid s y); [|tauto]. rewrite <- first_digit by auto. split.
      * intros (c & s' & x & Hin & HP & Hx). apply in_map_iff in Hin as (a & E & Ha). inversion E; subst. apply In_grid in Ha.
        exists a. split; auto. apply (abs_cube_place s' a x y []); auto. rewrite HS. auto.
      * intros (a & Ha & Hy). destruct (place_exists (fs_div s) (abs_cube s a) y) as (x & Hx); auto.
        { destruct Hy as [Hy _]. destruct (abs_cube_grid s a HV Ha). cbn in Hy. congruence. }
        exists (abs_cube s a), s, x. split; [apply in_map_iff; exists a; split; auto; apply In_grid; auto|]. split; auto.
        apply (abs_cube_place s a x y []) in Hy; auto. rewrite HS in Hy. auto.
  - exists [(abs_cube s c0, FS (fs_dim s) (fs_div s) (fs_facet s) cs)]. split; [reflexivity|]. rewrite Forall_cons_iff in Hc. destruct Hc as [Hc0 Hcs].
    assert (HS : FS (fs_dim s) (fs_div s) (fs_facet s) (c0 :: cs) = s) by (rewrite <- EC; destruct s; auto).
    cbn [map fst]. split; [|split].
    + repeat constructor. auto.
    + intros c s' [E | []]. inversion E; subst. split; [apply abs_cube_grid; auto|]. repeat split; auto.
    + intros y. split.
      * intros (c & s' & x & [E | []] & HP & Hx). inversion E; subst. split; [|discriminate].
        rewrite <- HS. eapply abs_cube_place; eauto.
      * intros [Hy _]. destruct (place_exists (fs_div s) (abs_cube s c0) y) as (x & Hx); auto.
        { destruct Hy as [Hy _]. destruct (abs_cube_grid s c0 HV Hc0). congruence. }
        eexists _, _, x. split; [left; reflexivity|]. split; auto. eapply abs_cube_place; eauto. rewrite HS. auto.
Qed.

(** neighbours *)
Lemma fs_neighbours_spec s : valid_facet s -> exists c s', fs_neighbours s = [(c, s')] /\
  length c = fs_dim s /\ ~ Forall (fun z => z = 0%Z) c /\ valid_facet s' /\ fs_dim s' = fs_dim s /\ fs_div s' = fs_div s /\
  (forall x y, place_in 1 c x y -> (in_facet s y <-> in_facet s' x)) /\
  (forall c' y, in_facet s y -> in_cube 1 c' y -> ~ Forall (fun z => z = 0%Z) c' -> c' = c).
Proof.
  intros HV. pose proof HV as (HN & Hfc & Hfv & Hc). unfold fs_neighbours.
  set (fc := fst (fs_facet s)) in *. set (fv := snd (fs_facet s)) in *.
  set (dn := if (fv =? 0)%Z then ((-1)%Z, 1%Z) else (1%Z, 0%Z)).
  set (c := map _ (range (fs_dim s))). eexists c, _. split; [reflexivity|].
  assert (Hn : forall j, j < fs_dim s -> nth j c 0%Z = if Nat.eqb j fc then fst dn else 0%Z).
  { intros j Hj. unfold c, range. rewrite map_nth_lt with (d := 0) by (rewrite seq_length; auto). rewrite seq_nth by auto. cbn.
    destruct (Nat.eqb j fc); auto. }
  assert (HL : length c = fs_dim s) by (unfold c, range; rewrite map_length, seq_length; auto).
  split; auto. split; [|split; [|split; [auto|split; [auto|split]]]].
  - intros HF. rewrite Forall_nth_lt with (d := 0%Z) in HF. specialize (HF fc ltac:(lia)). rewrite Hn, Nat.eqb_refl in HF by auto.
    unfold dn in HF. destruct (fv =? 0)%Z; discriminate.
  - repeat split; auto. cbn. unfold dn. destruct (fv =? 0)%Z; cbn; auto.
  - intros x y HP. apply place_in_nth in HP as (L1 & L2 & HP). unfold in_facet. cbn [fs_dim fs_div fs_facet fs_cubes fst snd].
    fold fc fv. change (Nq 1) with 1%Qc in HP.
    assert (HF : nth fc y 0%Qc = Zq fv <-> nth fc x 0%Qc = Zq (snd dn)).
    { specialize (HP fc ltac:(lia)). rewrite Hn, Nat.eqb_refl in HP by auto. rewrite Qcmult_1_r in HP. rewrite HP.
      unfold dn. destruct (Z.eqb_spec fv 0) as [E|E]; cbn [fst snd].
      - rewrite E. change (Zq (-1)) with (- (1))%Qc. rewrite Zq_0, Zq_1. split; intros E'; qclra.
      - assert (Ef : fv = 1%Z) by (destruct Hfv; auto; contradiction). rewrite Ef, Zq_0, Zq_1. split; intros E'; qclra. }
    rewrite HF. assert (HX : forall m, m < fs_dim s - 1 -> facet_coord fc y m = facet_coord fc x m).
    { intros m Hm. rewrite !facet_coord_skip. specialize (HP (skip fc m) ltac:(rewrite <- L1, HL; apply skip_lt; auto)).
      rewrite Hn in HP by (apply skip_lt; auto). destruct (Nat.eqb_spec (skip fc m) fc) as [E|E]; [destruct (skip_ne _ _ E)|].
      rewrite Qcmult_1_r, Zq_0, Qcplus_0_r in HP. auto. }
    split; intros (E1 & E2 & HO); (split; [congruence|split; [auto|]]); intros m Hm; specialize (HO m Hm).
    + rewrite <- HX by auto; auto.
    + rewrite HX by auto; auto.
  - intros c' y (L1 & E1 & HO) HC Hnz. pose proof (Forall2_length HC) as HL'.
    apply Forall2_nth with (da := 0%Z) (db := 0%Qc) in HC as [_ HC]. fold fc fv in E1, HO.
    assert (Hz : forall j, j < fs_dim s -> j <> fc -> nth j c' 0%Z = 0%Z).
    { intros j Hj Hne. specialize (HC j ltac:(lia)). change (Zq 1) with 1%Qc in HC. rewrite Qcmult_1_r in HC.
      specialize (HO (abs_to_facet fc j) ltac:(apply abs_lt; auto)). apply oi_unit in HO; [|auto|apply valid_col; auto; apply abs_lt; auto].
      rewrite facet_coord_skip, skip_abs in HO by auto. destruct HC as [C1 C2], HO as [O1 O2].
      assert (A1 : (Zq (nth j c' 0%Z) < Zq 1)%Qc) by (rewrite Zq_1; qclra).
      assert (A2 : (Zq (-1) < Zq (nth j c' 0%Z))%Qc) by (change (Zq (-1)) with (- (1))%Qc; qclra). rewrite Zq_lt in A1, A2. lia. }
    apply nth_ext_lt with (d := 0%Z); [congruence|]. intros j Hj. rewrite Hn by lia. destruct (Nat.eqb_spec j fc) as [->|E]; [|apply Hz; auto; lia].
    assert (Hf : nth fc c' 0%Z <> 0%Z).
    { intros E. apply Hnz. apply Forall_nth_lt with (d := 0%Z). intros i Hi. destruct (Nat.eq_dec i fc) as [->|]; auto. apply Hz; auto; lia. }
    specialize (HC fc ltac:(lia)). change (Zq 1) with 1%Qc in HC. rewrite Qcmult_1_r, E1 in HC. destruct HC as [C1 C2].
    rewrite <- Zq_1, <- Zq_add in C2. rewrite Zq_le in C1, C2. unfold dn. destruct (Z.eqb_spec fv 0) as [Ef|Ef]; cbn; lia.
Qed.
