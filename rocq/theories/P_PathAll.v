(** generate_paths_generic with a global link: soundness, completeness, one path for each orbit. *)
From Verif Require Import Py L_Py L_Qc L_BaseMaps M_BaseMaps M_Subsets M_Paths M_PathTree M_PathGen S_BaseMaps S_Subsets S_PathGen S_PathTree
  P_GenMaps P_Actions P_Subsets P_Points P_Facets P_Paths P_PathTree P_PathGlue P_PathGrow P_PathGen P_PathNext P_PathChain P_PathYield.
From Coq Require Import Permutation.
Local Open Scope nat_scope.

Lemma place_mul d N b c x y : wf_bm d b -> 1 <= N -> length c = d -> place_in N c x y ->
  place_in N (apply_cube b (Z.of_nat N) c) (pt_mul b x) (pt_mul b y).
Proof.
  intros W HN HL H. pose proof H as (_ & HLx). pose proof (proj2 (pt_map_to_cube_exact N HN c x HLx y) H) as <-.
  assert (HLb : length (apply_cube b (Z.of_nat N) c) = length (pt_mul b x)).
  { rewrite (pt_mul_length d) by auto. apply (action_cube d b b (Z.of_nat N) c W W HL). }
  apply (pt_map_to_cube_exact N HN _ _ HLb). rewrite (pt_map_mul d); auto; congruence.
Qed.
Lemma zsub_mul d N b c c' : wf_bm d b -> length c = d -> length c' = d ->
  zsub (apply_cube b N c) (apply_cube b N c') = apply_cube_start b (zsub c c') 1.
Proof.
  intros W H1 H2. unfold zsub, apply_cube, apply_cube_start.
  rewrite (act_combine _ _ (fun p => ((N - fst p - 1)%Z, (N - snd p - 1)%Z)) 0%Z 0%Z d) by auto.
  apply (act_map (fun cc : Z * Z => (snd cc - fst cc)%Z) _ _ _ _ d); auto.
  - rewrite combine_length; lia.
  - intros [u v]. cbn [fst snd]. lia.
Qed.
Lemma near_mul d N b mc c c' : wf_bm d b -> length c = d -> length c' = d -> near mc c c' -> near mc (apply_cube b N c) (apply_cube b N c').
Proof.
  intros W H1 H2. rewrite <- !cdist_near. rewrite (zsub_mul d) by auto. unfold cdist_ok. destruct mc; auto. rewrite (cdist_mul d); auto.
  rewrite zsub_length; congruence.
Qed.
Lemma apply_cube_inj d N b c c' : wf_bm d b -> length c = d -> length c' = d -> apply_cube b N c = apply_cube b N c' -> c = c'.
Proof. intros W H1 H2. apply (act_inj _ _ d); auto. intros z. lia. Qed.

Lemma nth_error_rev {A} (l : list A) k : k < length l -> nth_error (rev l) k = nth_error l (length l - 1 - k).
Proof.
  intros H. destruct l as [|a l0]; [cbn in H; lia|]. set (l := a :: l0) in *.
  rewrite (nth_error_nth' (rev l) a) by (rewrite rev_length; auto).
  rewrite rev_nth by auto. rewrite (nth_error_nth' l a) by lia. f_equal. f_equal. lia.
Qed.

Section All.
Context {T : Type} (O : subset_ops T) (pt : bool) (d N : nat) (V : T -> Prop) (mem : T -> list Qc -> Prop) (L : laws O pt d N V mem).
Context (links : list (link T)) (HV : Forall (fun l => V (entrance l) /\ V (exit l)) links).
Context (mc : option Z) (H2 : 2 <= N ^ d).
Notation mul := (so_mul O).
Notation avail := (image_of mul d links).

Lemma N_pos : 1 <= N. Proof. destruct N; [|lia]. destruct d; cbn in H2; lia. Qed.
Lemma touch_mul b c s c' t : wf_bm d b -> length c = d -> length c' = d -> V s -> V t ->
  touch mem N c s c' t -> touch mem N (apply_cube b (Z.of_nat N) c) (mul b s) (apply_cube b (Z.of_nat N) c') (mul b t).
Proof.
  intros W H1 H1' Vs Vt (x & x' & y & A & B & C & D). exists (pt_mul b x), (pt_mul b x'), (pt_mul b y).
  pose proof N_pos. split; [apply (lw_mem _ _ _ _ _ _ L); auto|]. split; [apply (lw_mem _ _ _ _ _ _ L); auto|].
  split; apply (place_mul d); auto.
Qed.
Lemma meets_mul b c s t : wf_bm d b -> length c = d -> V s -> V t ->
  meets mem N c t s -> meets mem N (apply_cube b (Z.of_nat N) c) (mul b t) (mul b s).
Proof.
  intros W H1 Vs Vt (x & y & A & B & C). exists (pt_mul b x), (pt_mul b y). pose proof N_pos.
  split; [apply (lw_mem _ _ _ _ _ _ L); auto|]. split; [apply (place_mul d); auto|apply (lw_mem _ _ _ _ _ _ L); auto].
Qed.
Lemma chain_nodes z : good_chain mem mul d N links mc z -> Forall (fun cl => grid_cube d N (fst cl) /\ V (entrance (snd cl)) /\ V (exit (snd cl))) z.
Proof.
  intros [G1 G2 G3 G4]. rewrite Forall_forall in G3 |- *. intros x Hx. split; [apply G2, in_map; auto|]. apply (avail_V O pt d N V mem L links HV). auto.
Qed.
Lemma chain_rev_nth {A} (z : list A) i x y : nth_error (rev z) i = Some x -> nth_error (rev z) (S i) = Some y ->
  exists j, nth_error z j = Some y /\ nth_error z (S j) = Some x.
Proof.
  intros E1 E2. assert (HL : S i < length (rev z)) by (apply nth_error_Some; congruence). rewrite rev_length in HL.
  rewrite nth_error_rev in E1, E2 by lia. exists (length z - 1 - S i). split; auto. rewrite <- E1. f_equal. lia.
Qed.
Lemma chain_mul b z : wf_bm d b -> good_chain mem mul d N links mc z -> good_chain mem mul d N links mc (zmul O N b z).
Proof.
  intros W HZ. pose proof (chain_nodes z HZ) as NZ. pose proof HZ as [G1 G2 G3 G4]. rewrite Forall_forall in NZ.
  set (z' := if time_rev b then rev z else z).
  assert (HI : forall x, In x z' <-> In x z) by (intros x; unfold z'; destruct (time_rev b); [symmetry; apply in_rev|tauto]).
  assert (EF : map fst (zmul O N b z) = map (apply_cube b (Z.of_nat N)) (map fst z')) by (unfold zmul; fold z'; rewrite !map_map; auto).
  constructor.
  - rewrite EF. apply NoDup_map_inj.
    + intros c c' Hc Hc'. apply in_map_iff in Hc, Hc'. destruct Hc as (x & <- & Hx), Hc' as (x' & <- & Hx'). apply HI, NZ in Hx, Hx'.
      apply (apply_cube_inj d); auto; [apply Hx|apply Hx'].
    + unfold z'. destruct (time_rev b); auto. rewrite map_rev. apply NoDup_rev. auto.
  - intros c. rewrite EF. split.
    + intros HG. destruct HG as (HL & HF). pose proof (wf_inv d b W) as WI.
      assert (HG' : grid_cube d N (apply_cube (bm_inv b) (Z.of_nat N) c)) by (apply grid_apply; auto; split; auto).
      apply G2 in HG'. apply in_map_iff in HG'. destruct HG' as (x & EX & Hx). apply in_map_iff. exists (fst x). split.
      * rewrite EX. unfold apply_cube. apply (act_inv_r _ _ d); auto. intros u. lia.
      * apply in_map. apply HI. auto.
    + intros Hc. apply in_map_iff in Hc. destruct Hc as (c0 & <- & Hc). apply grid_apply; auto. apply in_map_iff in Hc.
      destruct Hc as (x & <- & Hx). apply HI, NZ in Hx. apply Hx.
  - unfold zmul. fold z'. rewrite Forall_map, Forall_forall. intros x Hx. apply HI in Hx. cbn [snd].
    apply (avail_mul O pt d N V mem L links HV); auto. rewrite Forall_forall in G3. apply G3; auto.
  - intros i c l c' l' E1 E2. unfold zmul in E1, E2. fold z' in E1, E2. rewrite nth_error_map in E1, E2.
    destruct (nth_error z' i) as [[c0 l0]|] eqn:F1; [|discriminate]. destruct (nth_error z' (S i)) as [[c1 l1]|] eqn:F2; [|discriminate].
    injection E1 as <- <-. injection E2 as <- <-. cbn [fst snd].
    pose proof (nth_error_In _ _ F1) as I1. pose proof (nth_error_In _ _ F2) as I2. apply HI, NZ in I1, I2. cbn [fst snd] in I1, I2.
    destruct I1 as ((L0 & _) & V0 & V0'), I2 as ((L1 & _) & V1 & V1'). unfold z' in F1, F2. unfold lk_mul. destruct (time_rev b).
    + destruct (chain_rev_nth z i _ _ F1 F2) as (j & J1 & J2). destruct (G4 j _ _ _ _ J1 J2) as (A & B). cbn [entrance exit]. split.
      * apply touch_sym. apply touch_mul; auto.
      * apply near_sym. apply (near_mul d); auto.
    + destruct (G4 i _ _ _ _ F1 F2) as (A & B). cbn [entrance exit]. split; [apply touch_mul; auto|apply (near_mul d); auto].
Qed.
Lemma hd_zmul b z : hd_error (zmul O N b z) = option_map (fun cl => (apply_cube b (Z.of_nat N) (fst cl), lk_mul mul b (snd cl))) (if time_rev b then hd_error (rev z) else hd_error z).
Proof. unfold zmul. rewrite hd_map. destruct (time_rev b); auto. Qed.
Lemma last_zmul b z : hd_error (rev (zmul O N b z)) = option_map (fun cl => (apply_cube b (Z.of_nat N) (fst cl), lk_mul mul b (snd cl))) (if time_rev b then hd_error z else hd_error (rev z)).
Proof. unfold zmul. rewrite <- map_rev, hd_map. destruct (time_rev b); auto. rewrite rev_involutive. auto. Qed.
Lemma hd_In {A} (z : list A) x : hd_error z = Some x -> In x z.
Proof. destruct z; [discriminate|]. cbn. intros [= ->]. auto. Qed.
Lemma ends_mul b z lk : wf_bm d b -> good_chain mem mul d N links mc z -> V (entrance lk) -> V (exit lk) ->
  good_ends mem N lk z -> good_ends mem N (lk_mul mul b lk) (zmul O N b z).
Proof.
  intros W HZ V1 V2 ((c0 & l0 & E0 & M0) & (c1 & l1 & E1 & M1)). pose proof (chain_nodes z HZ) as NZ. rewrite Forall_forall in NZ.
  pose proof (NZ _ (hd_In _ _ E0)) as ((L0 & _) & VA & VB). pose proof (NZ _ (proj2 (in_rev _ _) (hd_In _ _ E1))) as ((L1 & _) & VC & VD). cbn [fst snd] in *.
  split; [rewrite hd_zmul|rewrite last_zmul]; unfold lk_mul; destruct (time_rev b); rewrite ?E0, ?E1; cbn [option_map fst snd]; eexists _, _; (split; [reflexivity|]);
    cbn [entrance exit]; apply meets_mul; auto.
Qed.
Lemma chain_path z lk : V (entrance lk) -> V (exit lk) -> good_chain mem mul d N links mc z -> good_ends mem N lk z -> zval O d N V z.
Proof.
  intros V1 V2 HZ ((c0 & l0 & E0 & M0) & (c1 & l1 & E1 & M1)). pose proof (chain_nodes z HZ) as NZ. constructor; auto. rewrite Forall_forall in NZ.
  pose proof (NZ _ (hd_In _ _ E0)) as (G0 & VA & VB). pose proof (NZ _ (proj2 (in_rev _ _) (hd_In _ _ E1))) as (G1 & VC & VD). cbn [fst snd] in *.
  destruct (lw_map _ _ _ _ _ _ L c0 (entrance l0) (entrance lk)) as (e & Ee); auto.
  destruct (lw_map _ _ _ _ _ _ L c1 (exit l1) (exit lk)) as (x & Ex); auto.
  rewrite (mkp_ends O d N z c0 l0 c1 l1 E0 E1), Ee, Ex. eauto.
Qed.

(** the paths to be generated *)
Definition wanted (lk : link T) (p : path T) : Prop :=
  mk_path O (pa_proto p) (pa_links p) = Some p /\
  exists z, path_of d N z p /\ good_chain mem mul d N links mc z /\ good_ends mem N lk z.
Lemma mkp_path_of z p : mkp O d N z = Some p <-> mk_path O (pa_proto p) (pa_links p) = Some p /\ path_of d N z p.
Proof.
  split.
  - intros H. pose proof (mkp_shape O d N z p H) as (A1 & A2 & _). unfold path_of. rewrite A1, A2. auto.
  - intros (H & A1 & A2). unfold mkp. rewrite A1, A2 in H. auto.
Qed.

Context (lk : link T) (VE : V (entrance lk)) (VX : V (exit lk)).
Lemma generator_exists : exists g, mk_generator O pt d N links mc = Some g /\ pg_dim g = d /\ pg_div g = N /\ pg_links g = links /\ pg_e2l g = e2l O d links /\
  forall x, key O d links x -> exists l, dget (so_eqb O) (pg_e2n g) x = Some l /\ next_ok O d links mc x l.
Proof.
  destruct (exit2next_spec O pt d N V mem L links HV mc) as (m & E & HM). unfold mk_generator. change (init_entr2links O d links) with (e2l O d links).
  rewrite E. cbn [option_map]. eexists; split; [reflexivity|]. cbn. auto.
Qed.
Lemma tree_spec g hash smax fmax : hash_ok hash -> mk_generator O pt d N links mc = Some g ->
  exists start finish F zs,
    (exists ss fs, cube_sets O N (Some lk) None = Some (ss, fs) /\ nodes O pt (pg_e2l g) None 0 false ss = Some start /\ nodes O pt (pg_e2l g) None (-1) true fs = Some finish) /\
    (forall fuel, F <= fuel -> grow (lk_eqb (so_eqb O)) hash d N (gen_next O (pg_e2n g) None) (Some (gen_prev O (pg_e2n g) None)) fuel start finish smax fmax = Some zs) /\
    NoDup zs /\ forall z, In z zs <-> good_chain mem mul d N links mc z /\ good_ends mem N lk z.
Proof.
  intros HH HG. destruct generator_exists as (g' & HG' & Gd & GN & GL & GE & HN). rewrite HG in HG'. injection HG' as <-.
  destruct (lw_div _ _ _ _ _ _ L _ VE) as (ss & ES & _). destruct (lw_div _ _ _ _ _ _ L _ VX) as (fs & EF & _).
  destruct (nodes_spec O pt d N V mem L links HV ss (entrance lk) false 0 VE ES) as (start & E1 & S1 & S2).
  destruct (nodes_spec O pt d N V mem L links HV fs (exit lk) true (-1) VX EF) as (finish & E2 & F1 & F2). cbn iota in S2, F2.
  destruct (grow_spec (lk_eqb (so_eqb O)) (lk_eqb_ok _ (lw_eqb _ _ _ _ _ _ L)) hash HH d N H2 avail (gen_next O (pg_e2n g) None)
     (next_step_ok O pt d N V mem L links HV mc _ HN) start finish S1) with (prev := Some (gen_prev O (pg_e2n g) None)) (smax := smax) (fmax := fmax)
    as (F & zs & HF & ZN & ZI); auto.
  - rewrite Forall_forall. intros [c l] Hin. apply S2 in Hin. cbn; tauto.
  - rewrite Forall_forall. intros [c l] Hin. apply F2 in Hin. cbn; tauto.
  - destruct fmax; auto. eexists; split; [reflexivity|]. split; [apply (prev_step_ok O pt d N V mem L links HV mc _ HN)|].
    apply (next_prev_converse O pt d N V mem L links HV mc _ HN).
  - exists start, finish, F, zs. split; [|split; [|split]]; auto.
    + exists ss, fs. unfold cube_sets. rewrite ES, EF, GE. auto.
    + intros z. rewrite ZI. apply (ham_chain O pt d N V mem L links HV mc _ HN); auto.
Qed.

Lemma generic_link g hash smax fmax : hash_ok hash -> mk_generator O pt d N links mc = Some g ->
  exists F res, (forall fuel, F <= fuel -> pg_generic O pt g hash fuel smax fmax false (Some lk) None = Some res) /\
    NoDup res /\ forall p, In p res <-> wanted lk p.
Proof.
  intros HH HG. destruct (tree_spec g hash smax fmax HH HG) as (start & finish & F & zs & (ss & fs & EC & E1 & E2) & HF & ZN & ZI).
  destruct generator_exists as (g' & HG' & Gd & GN & GL & GE & _). rewrite HG in HG'. injection HG' as <-.
  assert (HZV : Forall (zval O d N V) zs).
  { rewrite Forall_forall. intros z Hz. apply ZI in Hz. apply (chain_path z lk); tauto. }
  destruct (yield_plain O d N V zs [] HZV) as (res & ER & F2). exists F, res. split; [|split].
  - intros fuel Hf. unfold pg_generic, generate_generic. rewrite Gd, GN, EC, E1, E2, HF by auto. exact ER.
  - clear - F2 ZN. induction F2 as [|z p zs res H F2 IH]; [constructor|]. inversion ZN as [|? ? Z1 Z2]; subst. constructor; auto.
    intros Hin. apply Z1. clear - H Hin F2. induction F2 as [|z' p' zs res H' F2 IH]; [destruct Hin|]. destruct Hin as [->|Hin].
    + left. eapply mkp_inj; eauto.
    + right. auto.
  - intros p. unfold wanted. assert (HIn : In p res <-> exists z, In z zs /\ mkp O d N z = Some p).
    { clear - F2. induction F2 as [|z q zs res H F2 IH]; [split; [intros []|intros (z & [] & _)]|]. cbn. rewrite IH. split.
      - intros [<-|(z' & ? & ?)]; eauto.
      - intros (z' & [<-|Hz] & E); [left; congruence|right; eauto]. }
    rewrite HIn. split.
    + intros (z & Hz & Hp). apply ZI in Hz. apply mkp_path_of in Hp. split; [tauto|]. exists z. tauto.
    + intros (Hm & z & Hp & Hz). exists z. split; [apply ZI; auto|]. apply mkp_path_of. auto.
Qed.

(** the stabilizer of the link *)
Definition keeps (b : base_map) : Prop := wf_bm d b /\ lk_mul mul b lk = lk.
Lemma In_std_bms b : In b (std_bms O d (Some lk) None) <-> keeps b.
Proof.
  unfold std_bms, keeps. rewrite filter_In, In_gen_base_maps, (lk_eqb_ok _ (lw_eqb _ _ _ _ _ _ L) (lk_mul mul b lk) lk). tauto.
Qed.
Lemma generic_std g hash smax fmax : hash_ok hash -> mk_generator O pt d N links mc = Some g ->
  exists F res, (forall fuel, F <= fuel -> pg_generic O pt g hash fuel smax fmax true (Some lk) None = Some res) /\
    NoDup res /\ (forall p, In p res -> wanted lk p) /\
    forall p, wanted lk p -> exists q, (In q res /\ exists b, keeps b /\ pa_mul O b p = Some q) /\
                             forall q', In q' res -> (exists b, keeps b /\ pa_mul O b p = Some q') -> q' = q.
Proof.
  intros HH HG. destruct (tree_spec g hash smax fmax HH HG) as (start & finish & F & zs & (ss & fs & EC & E1 & E2) & HF & ZN & ZI).
  destruct generator_exists as (g' & HG' & Gd & GN & GL & GE & _). rewrite HG in HG'. injection HG' as <-.
  assert (HZV : forall z, In z zs -> zval O d N V z) by (intros z Hz; apply ZI in Hz; apply (chain_path z lk); tauto).
  assert (GI : In (id_map d) (std_bms O d (Some lk) None)).
  { apply In_std_bms. split; [apply wf_id|]. unfold lk_mul. cbn [time_rev id_map]. rewrite !(lw_id _ _ _ _ _ _ L) by auto. destruct lk; auto. }
  assert (GW : forall b, In b (std_bms O d (Some lk) None) -> wf_bm d b) by (intros b Hb; apply In_std_bms in Hb; apply Hb).
  assert (GM : forall a b, In a (std_bms O d (Some lk) None) -> In b (std_bms O d (Some lk) None) -> In (bm_mul a b) (std_bms O d (Some lk) None)).
  { intros a b Ha Hb. apply In_std_bms in Ha, Hb. apply In_std_bms. destruct Ha as (WA & EA), Hb as (WB & EB). split; [apply wf_mul; auto|].
    rewrite (lk_mul_mul O pt d N V mem L), EB; auto. }
  assert (GV : forall b, In b (std_bms O d (Some lk) None) -> In (bm_inv b) (std_bms O d (Some lk) None)).
  { intros b Hb. apply In_std_bms in Hb. apply In_std_bms. destruct Hb as (WB & EB). pose proof (wf_inv d b WB). split; auto.
    rewrite <- EB at 1. rewrite <- (lk_mul_mul O pt d N V mem L) by auto. rewrite (mul_inv_l d) by auto.
    unfold lk_mul. cbn [time_rev id_map]. rewrite !(lw_id _ _ _ _ _ _ L) by auto. destruct lk; auto. }
  set (G := std_bms O d (Some lk) None) in *.
  assert (HZF : Forall (zval O d N V) zs) by (rewrite Forall_forall; auto).
  destruct (yield_std O pt d N V mem L G GW GI GM GV zs HZF [] (Forall_nil _)) as (res & ER & R1 & R2 & R3 & R4 & R5). exists F, res.
  split; [|split; [|split]]; auto.
  - intros fuel Hf. unfold pg_generic, generate_generic. rewrite Gd, GN, EC, E1, E2, HF by auto. exact ER.
  - intros p Hp. destruct (R2 p Hp) as (z & Hz & EP). apply ZI in Hz. apply mkp_path_of in EP. split; [tauto|]. exists z. tauto.
  - intros p (HM & z & HP & HZ). assert (EP : mkp O d N z = Some p) by (apply mkp_path_of; auto). assert (Hz : In z zs) by (apply ZI; auto).
    destruct (canon_spec O pt d N V mem L G GW GI GM GV z (HZV z Hz)) as (q & HC & _).
    destruct (R3 z q Hz HC) as [[]|(z' & p' & Hz' & EP' & Hp' & HC')].
    exists p'. split.
    + split; auto. destruct (canon_same O pt d N V mem L G GW GI GM GV z z' q) as (b & Hb & Eb); auto. exists b. split; [apply In_std_bms; auto|].
      rewrite (pa_mul_mkp O d N b z p EP), <- Eb. auto.
    + intros q' Hq' (b & Hb & Eb). rewrite (pa_mul_mkp O d N b z p EP) in Eb. apply (R5 (zmul O N b z) z' q' p' q); auto.
      apply (canon_orbit O pt d N V mem L G GW GI GM GV z b q); auto. apply In_std_bms; auto.
Qed.
End All.
