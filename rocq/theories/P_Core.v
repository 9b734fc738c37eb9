(** Functional core of a curve: cubes and specs as total functions; cells, graph, equivariance. *)
From Verif Require Import Py L_Py L_Qc M_BaseMaps S_BaseMaps L_BaseMaps P_Actions M_Subsets S_Subsets P_Subsets
  M_Curves S_Utils P_Utils S_Curves L_Digits.
From Coq Require Import Reals Lra Lia.
Local Open Scope nat_scope.

Record core : Type := Core { kd : nat; kN : nat; km : nat; kcube : nat -> nat -> list Z; kspec : nat -> nat -> spec }.
Definition kG (K : core) : nat := kN K ^ kd K.
Record core_ok (K : core) : Prop := {
  ok_d : 1 <= kd K;
  ok_N : 2 <= kN K;
  ok_cube : forall p c, p < km K -> c < kG K -> grid_cube (kd K) (kN K) (kcube K p c);
  ok_spec : forall p c, p < km K -> c < kG K -> wf_spec (kd K) (km K) (kspec K p c) }.
Record core_full (K : core) : Prop := {
  full_ok : core_ok K;
  full_inj : forall p c c', p < km K -> c < kG K -> c' < kG K -> kcube K p c = kcube K p c' -> c = c';
  full_surj : forall p q, p < km K -> grid_cube (kd K) (kN K) q -> exists c, c < kG K /\ kcube K p c = q }.

Definition kflip (K : core) (b : base_map) (c : nat) : nat := if time_rev b then kG K - 1 - c else c.
Definition kstep (K : core) (S : spec) (c : nat) : spec := bm_mul_sp (sp_bm S) (kspec K (sp_pnum S) (kflip K (sp_bm S) c)).
Definition kcb (K : core) (S : spec) (c : nat) : list Z :=
  apply_cube (sp_bm S) (Z.of_nat (kN K)) (kcube K (sp_pnum S) (kflip K (sp_bm S) c)).
Fixpoint kcubes (K : core) (S : spec) (cs : list nat) : list (list Z) :=
  match cs with [] => [] | c :: cs' => kcb K S c :: kcubes K (kstep K S c) cs' end.
Fixpoint kst (K : core) (S : spec) (cs : list nat) : spec :=
  match cs with [] => S | c :: cs' => kst K (kstep K S c) cs' end.
Global Arguments kcb : simpl never.
Global Arguments kstep : simpl never.
Global Arguments kflip : simpl never.
Definition wfS (K : core) (S : spec) : Prop := wf_spec (kd K) (km K) S.
Definition wfc (K : core) (cs : list nat) : Prop := Forall (fun c => c < kG K) cs.

Lemma kG_ge2 K : core_ok K -> 2 <= kG K.
Proof.
  intros [Hd HN _ _]. unfold kG. destruct (kd K) as [|d]; [lia|].
  cbn. assert (1 <= kN K ^ d) by (apply Nat.neq_0_lt_0, Nat.pow_nonzero; lia). nia.
Qed.

Lemma kflip_lt K b c : c < kG K -> kflip K b c < kG K.
Proof. unfold kflip. destruct (time_rev b); lia. Qed.
Lemma kflip_flip K b c : c < kG K -> kflip K b (kflip K b c) = c.
Proof. unfold kflip. destruct (time_rev b); lia. Qed.
Lemma kflip_mul K a b c : c < kG K -> kflip K (bm_mul a b) c = kflip K b (kflip K a c).
Proof. unfold kflip. rewrite mul_time_rev. destruct (time_rev a), (time_rev b); cbn; lia. Qed.
Lemma kflip_id K d c : kflip K (id_map d) c = c.
Proof. reflexivity. Qed.

Section Core.
Context (K : core) (HK : core_ok K).
Notation G := (kG K). Notation N := (kN K). Notation d := (kd K).

Lemma kstep_wf S c : wfS K S -> c < G -> wfS K (kstep K S c).
Proof.
  intros [H1 H2] Hc. unfold wfS, wf_spec, kstep, bm_mul_sp; cbn.
  destruct (ok_spec K HK (sp_pnum S) (kflip K (sp_bm S) c) H2 (kflip_lt _ _ _ Hc)) as [H3 H4].
  split; auto. apply wf_mul; auto.
Qed.
Lemma kst_wf cs : forall S, wfS K S -> wfc K cs -> wfS K (kst K S cs).
Proof. induction cs as [|c cs IH]; intros S HS Hc; cbn; auto. inversion Hc; subst. apply IH; auto. apply kstep_wf; auto. Qed.
Lemma kcb_grid S c : wfS K S -> c < G -> grid_cube d N (kcb K S c).
Proof.
  intros [H1 H2] Hc. destruct (ok_cube K HK (sp_pnum S) (kflip K (sp_bm S) c) H2 (kflip_lt _ _ _ Hc)) as [H3 H4].
  split; [unfold kcb, apply_cube; rewrite length_act; apply wf_length; auto|].
  apply apply_cube_range with d; auto.
Qed.
Lemma kcubes_grid cs : forall S, wfS K S -> wfc K cs -> Forall (grid_cube d N) (kcubes K S cs).
Proof.
  induction cs as [|c cs IH]; intros S HS Hc; cbn; constructor; inversion Hc; subst.
  - apply kcb_grid; auto.
  - apply IH; auto. apply kstep_wf; auto.
Qed.
Lemma kcubes_length cs : forall S, length (kcubes K S cs) = length cs.
Proof. induction cs; intros; cbn; auto. Qed.
Lemma kcubes_app cs cs' : forall S, kcubes K S (cs ++ cs') = kcubes K S cs ++ kcubes K (kst K S cs) cs'.
Proof. induction cs; intros; cbn; auto. rewrite IHcs; auto. Qed.
Lemma kst_app cs cs' : forall S, kst K S (cs ++ cs') = kst K (kst K S cs) cs'.
Proof. induction cs; intros; cbn; auto. Qed.

(** equivariance of steps *)
Lemma kstep_mul g S c : wf_bm d g -> wfS K S -> c < G ->
  kstep K (bm_mul_sp g S) c = bm_mul_sp g (kstep K S (kflip K g c)).
Proof.
  intros Hg [H1 H2] Hc. unfold kstep, bm_mul_sp; cbn [sp_bm sp_pnum]. rewrite kflip_mul by auto.
  assert (kflip K (sp_bm S) (kflip K g c) < G) as HF by (repeat apply kflip_lt; auto).
  destruct (ok_spec K HK (sp_pnum S) _ H2 HF) as [H3 H4]. f_equal. apply (mul_assoc d); auto.
Qed.
Lemma kcb_mul g S c : wf_bm d g -> wfS K S -> c < G ->
  kcb K (bm_mul_sp g S) c = apply_cube g (Z.of_nat N) (kcb K S (kflip K g c)).
Proof.
  intros Hg [H1 H2] Hc. unfold kcb, bm_mul_sp; cbn [sp_bm sp_pnum]. rewrite kflip_mul by auto.
  assert (kflip K (sp_bm S) (kflip K g c) < G) as HF by (repeat apply kflip_lt; auto).
  destruct (ok_cube K HK (sp_pnum S) _ H2 HF) as [H3 H4]. unfold apply_cube. rewrite (act_mul _ _ d); auto. apply invol_cube.
Qed.
Lemma wfc_flip g cs : wfc K cs -> wfc K (map (kflip K g) cs).
Proof. unfold wfc. rewrite Forall_map. apply Forall_impl. intros c. apply kflip_lt. Qed.
Lemma kst_mul g cs : forall S, wf_bm d g -> wfS K S -> wfc K cs ->
  kst K (bm_mul_sp g S) cs = bm_mul_sp g (kst K S (map (kflip K g) cs)).
Proof.
  induction cs as [|c cs IH]; intros S Hg HS Hc; cbn; auto. inversion Hc; subst.
  rewrite kstep_mul by auto. apply IH; auto. apply kstep_wf; auto. apply kflip_lt; auto.
Qed.
Lemma kcubes_mul g cs : forall S, wf_bm d g -> wfS K S -> wfc K cs ->
  kcubes K (bm_mul_sp g S) cs = map (apply_cube g (Z.of_nat N)) (kcubes K S (map (kflip K g) cs)).
Proof.
  induction cs as [|c cs IH]; intros S Hg HS Hc; cbn; auto. inversion Hc; subst.
  rewrite kcb_mul by auto. f_equal. rewrite kstep_mul by auto. apply IH; auto. apply kstep_wf; auto. apply kflip_lt; auto.
Qed.
Lemma wfS_mul g S : wf_bm d g -> wfS K S -> wfS K (bm_mul_sp g S).
Proof. intros Hg [H1 H2]. split; cbn; auto. apply wf_mul; auto. Qed.

(** integer time and position *)
Definition kT (cs : list nat) : Z := value (Z.of_nat G) (map Z.of_nat cs).
Definition kX (S : spec) (cs : list nat) (j : nat) : Z := place_of j N (kcubes K S cs).

Lemma kT_cons c cs : kT (c :: cs) = (Z.of_nat c * Z.of_nat G ^ Z.of_nat (length cs) + kT cs)%Z.
Proof. unfold kT. cbn [map]. rewrite value_cons, map_length. auto. Qed.
Lemma kT_snoc c cs : kT (cs ++ [c]) = (kT cs * Z.of_nat G + Z.of_nat c)%Z.
Proof. unfold kT. rewrite map_app. cbn [map]. rewrite value_snoc. auto. Qed.
Lemma kX_cons S c cs j : kX S (c :: cs) j =
  (nth j (kcb K S c) 0 * Z.of_nat N ^ Z.of_nat (length cs) + kX (kstep K S c) cs j)%Z.
Proof. unfold kX, place_of. cbn [kcubes map]. rewrite value_cons, map_length, kcubes_length. auto. Qed.
Lemma kX_snoc S c cs j : kX S (cs ++ [c]) j = (kX S cs j * Z.of_nat N + nth j (kcb K (kst K S cs) c) 0)%Z.
Proof. unfold kX, place_of. rewrite kcubes_app, map_app. cbn [kcubes map]. rewrite value_snoc. auto. Qed.
Lemma kT_range cs : wfc K cs -> (0 <= kT cs < Z.of_nat G ^ Z.of_nat (length cs))%Z.
Proof.
  intros H. rewrite <- (map_length Z.of_nat cs). apply value_range.
  - pose proof (kG_ge2 K HK). lia.
  - rewrite Forall_map. eapply Forall_impl; [|apply H]. cbn. intros. lia.
Qed.
Lemma grid_nth q j : grid_cube d N q -> j < d -> (0 <= nth j q 0 < Z.of_nat N)%Z.
Proof. intros [HL HF] Hj. rewrite Forall_nth_lt with (d := 0%Z) in HF. apply HF. lia. Qed.
Lemma kX_range S cs j : wfS K S -> wfc K cs -> j < d -> (0 <= kX S cs j < Z.of_nat N ^ Z.of_nat (length cs))%Z.
Proof.
  intros HS Hc Hj. unfold kX, place_of. rewrite <- (kcubes_length cs S), <- (map_length (fun q => nth j q 0%Z)).
  apply value_range; [pose proof (ok_N K HK); lia|]. rewrite Forall_map.
  eapply Forall_impl; [|apply kcubes_grid; eauto]. intros q Hq. apply grid_nth; auto.
Qed.
Lemma kT_flip g cs : wfc K cs -> kT (map (kflip K g) cs) =
  if time_rev g then (Z.of_nat G ^ Z.of_nat (length cs) - 1 - kT cs)%Z else kT cs.
Proof.
  intros Hc. unfold kT, kflip. destruct (time_rev g); [|rewrite map_id; auto].
  rewrite <- (map_length Z.of_nat cs), <- value_flip, !map_map. f_equal. apply map_ext_in. intros c Hin.
  unfold wfc in Hc; rewrite Forall_forall in Hc. apply Hc in Hin. lia.
Qed.
Lemma place_apply g qs j : wf_bm d g -> Forall (fun q => length q = d) qs -> j < d ->
  place_of j N (map (apply_cube g (Z.of_nat N)) qs) =
  (let kf := nth j (coords g) (0%nat, false) in
   if snd kf then Z.of_nat N ^ Z.of_nat (length qs) - 1 - place_of (fst kf) N qs else place_of (fst kf) N qs)%Z.
Proof.
  intros Hg Hq Hj. unfold place_of. rewrite map_map. cbn zeta.
  assert (E : map (fun q => nth j (apply_cube g (Z.of_nat N) q) 0%Z) qs =
              map (fun q => let v := nth (fst (nth j (coords g) (0, false))) q 0%Z in
                            if snd (nth j (coords g) (0, false)) then (Z.of_nat N - 1 - v)%Z else v) qs).
  { apply map_ext_in. intros q Hin. unfold apply_cube. rewrite nth_act by (rewrite (wf_length d); auto).
    destruct (snd (nth j (coords g) (0, false))); cbn zeta; lia. }
  rewrite E. destruct (snd (nth j (coords g) (0, false))); cbn zeta; auto.
  replace (length qs) with (length (map (fun q => nth (fst (nth j (coords g) (0, false))) q 0%Z) qs)) by apply map_length.
  rewrite <- value_flip, map_map. auto.
Qed.
Lemma grid_len qs : Forall (grid_cube d N) qs -> Forall (fun q => length q = d) qs.
Proof. apply Forall_impl. intros q []; auto. Qed.

(** cells *)
Local Open Scope R_scope.
Notation RN := (IZR (Z.of_nat N)). Notation RG := (IZR (Z.of_nat G)).
Lemma RN_ge2 : 2 <= RN. Proof. apply IZRn_ge2, (ok_N K HK). Qed.
Lemma RG_ge2 : 2 <= RG. Proof. apply IZRn_ge2, kG_ge2; auto. Qed.
Lemma ZN_ge2 : (2 <= Z.of_nat N)%Z. Proof. pose proof (ok_N K HK). lia. Qed.
Lemma ZG_ge2 : (2 <= Z.of_nat G)%Z. Proof. pose proof (kG_ge2 K HK). lia. Qed.
Lemma RNp n : 0 < RN ^ n. Proof. apply powG_pos, ZN_ge2. Qed.
Lemma RGp n : 0 < RG ^ n. Proof. apply powG_pos, ZG_ge2. Qed.

Definition kin (S : spec) (cs : list nat) (t : R) (x : list R) : Prop :=
  time_in G cs t /\ point_in d N (kcubes K S cs) x.
Definition kgraph (S : spec) (t : R) (x : list R) : Prop :=
  length x = d /\ exists delta, (forall n, (delta n < G)%nat) /\ forall n, kin S (prefix delta n) t x.

Lemma time_in_kT cs t : time_in G cs t <-> IZR (kT cs) <= t * RG ^ length cs <= IZR (kT cs) + 1.
Proof. reflexivity. Qed.
Lemma point_in_kX S cs x : point_in d N (kcubes K S cs) x <->
  (length x = d /\ forall j, (j < d)%nat -> IZR (kX S cs j) <= nth j x 0 * RN ^ length cs <= IZR (kX S cs j) + 1).
Proof. unfold point_in, kX. rewrite kcubes_length. reflexivity. Qed.

(** blowing up a cell *)
Definition zoom (q : list Z) (x : list R) : list R := map (fun j => RN * nth j x 0 - IZR (nth j q 0%Z)) (seq 0 d).
Definition unzoom (q : list Z) (x : list R) : list R := map (fun j => (nth j x 0 + IZR (nth j q 0%Z)) / RN) (seq 0 d).
Lemma zoom_length q x : length (zoom q x) = d. Proof. unfold zoom. rewrite map_length, seq_length; auto. Qed.
Lemma unzoom_length q x : length (unzoom q x) = d. Proof. unfold unzoom. rewrite map_length, seq_length; auto. Qed.
Lemma nth_map_seq {A} (f : nat -> A) n j a : (j < n)%nat -> nth j (map f (seq 0 n)) a = f j.
Proof. intros. rewrite map_nth_lt with (d := 0%nat) by (rewrite seq_length; auto). rewrite seq_nth; auto. Qed.
Lemma nth_zoom q x j : (j < d)%nat -> nth j (zoom q x) 0 = RN * nth j x 0 - IZR (nth j q 0%Z).
Proof. intros. unfold zoom. apply (nth_map_seq (fun j => RN * nth j x 0 - IZR (nth j q 0%Z))); auto. Qed.
Lemma nth_unzoom q x j : (j < d)%nat -> nth j (unzoom q x) 0 = (nth j x 0 + IZR (nth j q 0%Z)) / RN.
Proof. intros. unfold unzoom. apply (nth_map_seq (fun j => (nth j x 0 + IZR (nth j q 0%Z)) / RN)); auto. Qed.
Lemma zoom_unzoom q x : length x = d -> zoom q (unzoom q x) = x.
Proof.
  intros H. apply nth_ext_lt with 0; rewrite ?zoom_length; auto. intros j Hj.
  rewrite nth_zoom, nth_unzoom by auto. pose proof RN_ge2. field. lra.
Qed.
Lemma unzoom_zoom q x : length x = d -> unzoom q (zoom q x) = x.
Proof.
  intros H. apply nth_ext_lt with 0; rewrite ?unzoom_length; auto. intros j Hj.
  rewrite nth_unzoom, nth_zoom by auto. pose proof RN_ge2. field. lra.
Qed.

Lemma time_in_cons c cs t : time_in G (c :: cs) t <-> time_in G cs (RG * t - IZR (Z.of_nat c)).
Proof.
  rewrite !time_in_kT, kT_cons, plus_IZR, mult_IZR, IZR_pow. cbn [length pow]. 
  replace (t * (RG * RG ^ length cs)) with ((RG * t - IZR (Z.of_nat c)) * RG ^ length cs + IZR (Z.of_nat c) * RG ^ length cs) by ring.
  split; intros; lra.
Qed.
Lemma kin_cons S c cs t x : length x = d ->
  kin S (c :: cs) t x <-> kin (kstep K S c) cs (RG * t - IZR (Z.of_nat c)) (zoom (kcb K S c) x).
Proof.
  intros Hx. unfold kin. rewrite time_in_cons, !point_in_kX, zoom_length.
  assert (forall j, (j < d)%nat ->
    (IZR (kX S (c :: cs) j) <= nth j x 0 * RN ^ length (c :: cs) <= IZR (kX S (c :: cs) j) + 1 <->
     IZR (kX (kstep K S c) cs j) <= nth j (zoom (kcb K S c) x) 0 * RN ^ length cs <= IZR (kX (kstep K S c) cs j) + 1)).
  { intros j Hj. rewrite kX_cons, plus_IZR, mult_IZR, IZR_pow, nth_zoom by auto. cbn [length pow].
    set (q := IZR (nth j (kcb K S c) 0%Z)).
    replace (nth j x 0 * (RN * RN ^ length cs)) with ((RN * nth j x 0 - q) * RN ^ length cs + q * RN ^ length cs) by ring.
    split; intros; lra. }
  split; intros (H1 & _ & H3); (split; [auto|split; [auto|]]); intros j Hj; apply H; auto.
Qed.
Lemma kin_nil S t x : kin S [] t x <-> 0 <= t <= 1 /\ length x = d /\ forall j, (j < d)%nat -> 0 <= nth j x 0 <= 1.
Proof.
  unfold kin. rewrite time_in_kT, point_in_kX. unfold kX, kT, place_of. cbn [length pow kcubes map]. rewrite !value_nil.
  split; intros (H1 & H2 & H3); (split; [lra|]); (split; [auto|]); intros j Hj; specialize (H3 j Hj); lra.
Qed.

Lemma prefix_length dl n : length (prefix dl n) = n.
Proof. unfold prefix. rewrite map_length, seq_length; auto. Qed.
Lemma prefix_S dl n : prefix dl (S n) = prefix dl n ++ [dl n].
Proof. unfold prefix. rewrite seq_S, map_app; auto. Qed.
Lemma prefix_cons dl n : prefix dl (S n) = dl 0%nat :: prefix (fun k => dl (S k)) n.
Proof. unfold prefix. cbn [seq map]. f_equal. rewrite <- seq_shift, map_map; auto. Qed.
Lemma prefix_wfc dl n : (forall k, (dl k < G)%nat) -> wfc K (prefix dl n).
Proof. intros H. unfold wfc, prefix. rewrite Forall_map. apply Forall_forall. auto. Qed.

Lemma kgraph_range S t x : kgraph S t x -> 0 <= t <= 1 /\ length x = d /\ forall j, (j < d)%nat -> 0 <= nth j x 0 <= 1.
Proof. intros (H1 & dl & H2 & H3). apply (kin_nil S). apply (H3 0%nat). Qed.

(** self-similarity *)
Lemma kgraph_step S t x : wfS K S -> kgraph S t x <->
  length x = d /\ exists c, (c < G)%nat /\ kgraph (kstep K S c) (RG * t - IZR (Z.of_nat c)) (zoom (kcb K S c) x).
Proof.
  intros HS. split.
  - intros (Hx & dl & Hd & H). split; auto. exists (dl 0%nat). split; auto. split; [apply zoom_length|].
    exists (fun k => dl (Datatypes.S k)). split; [auto|]. intros n. specialize (H (Datatypes.S n)). rewrite prefix_cons in H.
    apply kin_cons in H; auto.
  - intros (Hx & c & Hc & HG). split; auto. pose proof (kgraph_range _ _ _ HG) as (Ht & _ & Hxr).
    destruct HG as (_ & dl & Hd & H).
    exists (fun k => match k with O => c | Datatypes.S k => dl k end). split; [intros [|n]; auto|].
    intros [|n].
    + apply kin_nil. pose proof RG_ge2. pose proof RN_ge2.
      assert (0 <= IZR (Z.of_nat c) <= RG - 1).
      { split; [apply (IZR_le 0); lia|]. rewrite <- minus_IZR. apply IZR_le. lia. }
      split; [split; nra|]. split; auto. intros j Hj. specialize (Hxr j Hj). rewrite nth_zoom in Hxr by auto.
      pose proof (grid_nth _ j (kcb_grid S c HS Hc) Hj) as Hq.
      assert (0 <= IZR (nth j (kcb K S c) 0%Z) <= RN - 1).
      { split; [apply (IZR_le 0); lia|]. rewrite <- minus_IZR. apply IZR_le. lia. }
      split; nra.
    + rewrite prefix_cons. apply kin_cons; auto.
Qed.

(** equivariance *)
Definition gt (g : base_map) (t : R) : R := if time_rev g then 1 - t else t.
Definition gx (g : base_map) (x : list R) : list R := act (fun v => 1 - v) 0 g x.
Lemma invol_r : invol (fun v : R => 1 - v). Proof. intros v. ring. Qed.
Lemma gx_length g x : wf_bm d g -> length (gx g x) = d.
Proof. intros. unfold gx. rewrite length_act. apply wf_length; auto. Qed.
Lemma gt_gt g t : gt g (gt g t) = t. Proof. unfold gt. destruct (time_rev g); lra. Qed.
Lemma gt_mul a b t : gt (bm_mul a b) t = gt a (gt b t).
Proof. unfold gt. rewrite mul_time_rev. destruct (time_rev a), (time_rev b); cbn; lra. Qed.
Lemma gt_inv g t : gt (bm_inv g) t = gt g t. Proof. unfold gt. rewrite inv_time_rev. auto. Qed.
Lemma gx_mul a b x : wf_bm d a -> wf_bm d b -> length x = d -> gx (bm_mul a b) x = gx a (gx b x).
Proof. intros. unfold gx. apply (act_mul _ _ d); auto. apply invol_r. Qed.
Lemma gx_id x : length x = d -> gx (id_map d) x = x.
Proof. intros. apply act_id; auto. Qed.
Lemma gx_inv_l g x : wf_bm d g -> length x = d -> gx (bm_inv g) (gx g x) = x.
Proof. intros. apply (act_inv_l _ _ d); auto. apply invol_r. Qed.
Lemma gx_inv_r g x : wf_bm d g -> length x = d -> gx g (gx (bm_inv g) x) = x.
Proof. intros. apply (act_inv_r _ _ d); auto. apply invol_r. Qed.

Lemma kin_mul g S cs t x : wf_bm d g -> wfS K S -> wfc K cs ->
  kin S (map (kflip K g) cs) t x -> kin (bm_mul_sp g S) cs (gt g t) (gx g x).
Proof.
  intros Hg HS Hc [HT HX]. split.
  - rewrite time_in_kT in *. rewrite kT_flip, map_length in HT by auto. unfold gt.
    destruct (time_rev g); auto. rewrite !minus_IZR, IZR_pow in HT. lra.
  - rewrite point_in_kX in *. destruct HX as [Hx HX]. split; [apply gx_length; auto|]. intros j Hj.
    unfold gx. rewrite nth_act by (rewrite (wf_length d); auto).
    pose proof (wf_nth_lt d g j Hg Hj) as Hk. specialize (HX _ Hk). rewrite map_length in HX.
    unfold kX. rewrite kcubes_mul by auto.
    pose proof (kcubes_grid _ S HS (wfc_flip g cs Hc)) as Hgr.
    rewrite place_apply; auto using grid_len. cbn zeta. rewrite kcubes_length, map_length.
    unfold kX in HX. destruct (snd (nth j (coords g) (0%nat, false))); auto.
    rewrite !minus_IZR, IZR_pow. lra.
Qed.
Lemma map_flip_flip g cs : wfc K cs -> map (kflip K g) (map (kflip K g) cs) = cs.
Proof.
  intros H. rewrite map_map. rewrite <- (map_id cs) at 2. apply map_ext_in. intros c Hin.
  unfold wfc in H; rewrite Forall_forall in H. apply kflip_flip; auto.
Qed.
Lemma prefix_flip g dl n : prefix (fun k => kflip K g (dl k)) n = map (kflip K g) (prefix dl n).
Proof. unfold prefix. rewrite map_map. auto. Qed.
Lemma kgraph_mul g S t x : wf_bm d g -> wfS K S -> kgraph S t x -> kgraph (bm_mul_sp g S) (gt g t) (gx g x).
Proof.
  intros Hg HS (Hx & dl & Hd & H). split; [apply gx_length; auto|].
  exists (fun k => kflip K g (dl k)). split; [intros; apply kflip_lt; auto|]. intros n. rewrite prefix_flip.
  apply kin_mul; auto. apply wfc_flip, prefix_wfc; auto. rewrite map_flip_flip by (apply prefix_wfc; auto). apply H.
Qed.
Lemma sp_mul_inv_l g S : wf_bm d g -> wfS K S -> bm_mul_sp (bm_inv g) (bm_mul_sp g S) = S.
Proof.
  intros Hg [H _]. unfold bm_mul_sp; cbn [sp_bm sp_pnum]. destruct S as [b p]; cbn [sp_bm sp_pnum] in *. f_equal.
  rewrite <- (mul_assoc d), (mul_inv_l d), (mul_id_l d); auto. apply wf_inv; auto.
Qed.
Lemma kgraph_mul_iff g S t x : wf_bm d g -> wfS K S -> length x = d ->
  (kgraph (bm_mul_sp g S) (gt g t) (gx g x) <-> kgraph S t x).
Proof.
  intros Hg HS Hx. split; [|apply kgraph_mul; auto].
  intros H. apply (kgraph_mul (bm_inv g)) in H; auto using wf_inv, wfS_mul.
  rewrite sp_mul_inv_l, gt_inv, gt_gt, gx_inv_l in H; auto.
Qed.

(** existence *)
Lemma coord_stream S dl j n : map (fun q => nth j q 0%Z) (kcubes K S (prefix dl n)) =
  dpre (fun k => nth j (kcb K (kst K S (prefix dl k)) (dl k)) 0%Z) n.
Proof.
  induction n; [reflexivity|]. rewrite prefix_S, kcubes_app, map_app, IHn, dpre_S. cbn. auto.
Qed.
Lemma kgraph_digits S dl t : wfS K S -> (forall n, (dl n < G)%nat) -> (forall n, time_in G (prefix dl n) t) ->
  exists x, length x = d /\ forall n, kin S (prefix dl n) t x.
Proof.
  intros HS Hd Ht.
  assert (H : forall j, exists y, (j < d)%nat -> forall n, IZR (kX S (prefix dl n) j) <= y * RN ^ n <= IZR (kX S (prefix dl n) j) + 1).
  { intros j. destruct (Nat.lt_ge_cases j d) as [Hj|Hj]; [|exists 0; lia].
    destruct (digits_real (Z.of_nat N) (fun k => nth j (kcb K (kst K S (prefix dl k)) (dl k)) 0%Z) ZN_ge2) as (y & Hy).
    - intros i. apply grid_nth; auto. apply kcb_grid; auto. apply kst_wf; auto. apply prefix_wfc; auto.
    - exists y. intros _ n. unfold kX, place_of. rewrite coord_stream. apply Hy. }
  assert (exists x, length x = d /\ forall j, (j < d)%nat -> forall n, IZR (kX S (prefix dl n) j) <= nth j x 0 * RN ^ n <= IZR (kX S (prefix dl n) j) + 1).
  { clear Ht. generalize dependent d. intros D H. induction D as [|D IH].
    - exists []. split; auto. lia.
    - destruct IH as (x & Hx & HX).
      { intros j. destruct (H j) as (y & Hy). exists y. intros; apply Hy; lia. }
      destruct (H D) as (y & Hy). exists (x ++ [y]). split; [rewrite app_length; cbn; lia|].
      intros j Hj. destruct (Nat.eq_dec j D) as [->|].
      + rewrite app_nth2, Hx, Nat.sub_diag by lia. cbn. apply Hy; lia.
      + rewrite app_nth1 by lia. apply HX. lia. }
  destruct H0 as (x & Hx & HX). exists x. split; auto. intros n. split; auto.
  rewrite point_in_kX, prefix_length. split; auto.
Qed.
Lemma kgraph_total S t : wfS K S -> 0 <= t <= 1 -> exists x, kgraph S t x.
Proof.
  intros HS Ht. pose proof ZG_ge2 as HG.
  set (dl := fun k => Z.to_nat (ddig (Z.of_nat G) t k)).
  assert (Hd : forall n, (dl n < G)%nat).
  { intros n. unfold dl. pose proof (ddig_range (Z.of_nat G) t n HG Ht). lia. }
  destruct (kgraph_digits S dl t HS Hd) as (x & Hx & HX).
  - intros n. rewrite time_in_kT. unfold kT.
    replace (map Z.of_nat (prefix dl n)) with (dpre (ddig (Z.of_nat G) t) n).
    + rewrite prefix_length. apply real_digits; auto.
    + unfold prefix, dpre. rewrite map_map. apply map_ext. intros k. unfold dl. rewrite Z2Nat.id; auto.
      apply (ddig_range (Z.of_nat G) t k HG Ht).
  - exists x. split; auto. exists dl. split; auto.
Qed.
End Core.

Arguments kT K cs /. 
Section Full.
Context (K : core) (HF : core_full K).
Let HK := full_ok K HF.
Notation G := (kG K). Notation N := (kN K). Notation d := (kd K).

Lemma kcb_surj S q : wfS K S -> grid_cube d N q -> exists c, c < G /\ kcb K S c = q.
Proof.
  intros [H1 H2] Hq.
  destruct (full_surj K HF (sp_pnum S) (apply_cube (bm_inv (sp_bm S)) (Z.of_nat N) q) H2) as (c & Hc & E).
  { destruct Hq as [Hq1 Hq2]. split; [unfold apply_cube; rewrite length_act; apply wf_length, wf_inv; auto|].
    apply apply_cube_range with d; auto using wf_inv. }
  exists (kflip K (sp_bm S) c). split; [apply kflip_lt; auto|]. unfold kcb. rewrite kflip_flip by auto. rewrite E.
  apply (act_inv_r _ _ d); auto. apply invol_cube. apply Hq.
Qed.
Lemma kcb_inj S c c' : wfS K S -> c < G -> c' < G -> kcb K S c = kcb K S c' -> c = c'.
Proof.
  intros [H1 H2] Hc Hc' E. unfold kcb, apply_cube in E. apply (act_inj _ _ d) in E; auto using invol_cube.
  - apply (full_inj K HF) in E; auto using kflip_lt. rewrite <- (kflip_flip K (sp_bm S) c), E, kflip_flip; auto.
  - apply (ok_cube K HK); auto using kflip_lt.
  - apply (ok_cube K HK); auto using kflip_lt.
Qed.
Definition kfind (S : spec) (q : list Z) : nat :=
  match find (fun c => z_list_eqb (kcb K S c) q) (seq 0 G) with Some c => c | None => 0 end.
Lemma kfind_spec S q : wfS K S -> grid_cube d N q -> kfind S q < G /\ kcb K S (kfind S q) = q.
Proof.
  intros HS Hq. unfold kfind. destruct (find _ _) as [c|] eqn:E.
  - apply find_some in E. destruct E as [E1 E2]. apply in_seq in E1. split; [lia|].
    apply (list_eqb_ok Z.eqb) in E2; auto. intros x y; apply Z.eqb_eq.
  - destruct (kcb_surj S q HS Hq) as (c & Hc & Eq). apply find_none with (x := c) in E; [|apply in_seq; lia].
    assert (z_list_eqb (kcb K S c) q = true); [|congruence]. apply list_eqb_ok; auto. intros x y; apply Z.eqb_eq.
Qed.

Local Open Scope R_scope.
(** every point of the cube is visited *)
Lemma kgraph_surj S x : wfS K S -> length x = d -> (forall j, (j < d)%nat -> 0 <= nth j x 0 <= 1) ->
  exists t, kgraph K S t x.
Proof.
  intros HS Hx Hr. pose proof (ZN_ge2 K HK) as HN.
  set (q := fun n => map (fun j => ddig (Z.of_nat N) (nth j x 0) n) (seq 0 d)).
  assert (Hq : forall n, grid_cube d N (q n)).
  { intros n. split; [unfold q; rewrite map_length, seq_length; auto|]. unfold q. rewrite Forall_map.
    apply Forall_forall. intros j Hj. apply in_seq in Hj. apply ddig_range; auto. apply Hr; lia. }
  set (st := fix st (n : nat) : spec := match n with O => S | Datatypes.S n' => kstep K (st n') (kfind (st n') (q n')) end).
  set (dl := fun n => kfind (st n) (q n)).
  assert (Hst : forall n, wfS K (st n) /\ (dl n < G)%nat).
  { induction n as [|n [IH1 IH2]]; cbn [st].
    - split; auto. apply kfind_spec; auto.
    - assert (wfS K (st (Datatypes.S n))) by (cbn [st]; apply kstep_wf; auto). split; auto. apply kfind_spec; auto. }
  assert (Hsp : forall n, st n = kst K S (prefix dl n)).
  { induction n as [|n IH]; [reflexivity|]. rewrite prefix_S, kst_app, <- IH. reflexivity. }
  assert (Hd : forall n, (dl n < G)%nat) by (intros; apply Hst).
  assert (Hcb : forall n, kcb K (kst K S (prefix dl n)) (dl n) = q n).
  { intros n. rewrite <- Hsp. apply kfind_spec; auto. apply Hst. }
  destruct (digits_real (Z.of_nat G) (fun k => Z.of_nat (dl k)) (ZG_ge2 K HK)) as (t & Ht).
  { intros i. specialize (Hd i). lia. }
  exists t. split; auto. exists dl. split; auto. intros n. split.
  - rewrite time_in_kT. unfold kT. replace (map Z.of_nat (prefix dl n)) with (dpre (fun k => Z.of_nat (dl k)) n).
    rewrite prefix_length; auto. unfold dpre, prefix. rewrite map_map; auto.
  - rewrite point_in_kX. split; auto. intros j Hj. rewrite prefix_length. unfold kX, place_of. rewrite coord_stream.
    replace (dpre (fun k => nth j (kcb K (kst K S (prefix dl k)) (dl k)) 0%Z) n) with (dpre (ddig (Z.of_nat N) (nth j x 0)) n).
    + apply real_digits; auto.
    + unfold dpre. apply map_ext. intros k. rewrite Hcb. unfold q. rewrite nth_map_seq; auto.
Qed.
End Full.
