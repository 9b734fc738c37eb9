(** Proofs about the generator of paths: from chains to paths, and one path for each orbit. *)
From Verif Require Import Py L_Py L_Qc L_BaseMaps M_BaseMaps M_Subsets M_Paths M_PathTree M_PathGen S_BaseMaps S_Subsets S_PathGen S_PathTree
  P_GenMaps P_Actions P_Subsets P_Facets P_Paths P_PathTree P_PathGlue P_PathGrow P_PathGen P_PathNext P_PathChain.
From Coq Require Import Permutation.
Local Open Scope nat_scope.

Lemma last_hd_rev {A} (l : list A) : nth_error l (length l - 1) = hd_error (rev l).
Proof.
  induction l as [|x l IH] using rev_ind; auto. rewrite rev_app_distr, app_length. cbn.
  rewrite nth_error_app2 by lia. replace (length l + 1 - 1 - length l) with 0 by lia. auto.
Qed.
Lemma hd_map {A B} (f : A -> B) l : hd_error (map f l) = option_map f (hd_error l).
Proof. destruct l; auto. Qed.
Lemma min_list_map {A B} (f : A -> B) (cmp : B -> B -> comparison) l :
  min_list cmp (map f l) = option_map f (min_list (fun x y => cmp (f x) (f y)) l).
Proof.
  destruct l as [|a l]; auto. cbn. f_equal. revert a; induction l as [|x l IH]; intros a; cbn [map]; auto.
  unfold min_of in *. cbn [fold_left]. rewrite <- IH. unfold ltb_of. destruct (cmp (f x) (f a)); auto.
Qed.
Lemma list_eqb_ok' {A} (eqb : A -> A -> bool) : eqb_ok eqb -> eqb_ok (list_eqb eqb).
Proof. apply list_eqb_ok. Qed.
Lemma ocube_eqb_ok : eqb_ok ocube_eqb.
Proof.
  intros [x|] [y|]; cbn; split; intros H; try discriminate; auto.
  - apply z_list_eqb_ok in H. congruence.
  - injection H as ->. apply z_list_eqb_ok. auto.
Qed.
Lemma ocube_cmp_ok : cmp_ok ocube_cmp.
Proof.
  destruct (lex_ok Z.compare Z_cmp_ok) as [H1 H2 H3]. constructor.
  - intros [x|] [y|]; cbn; split; intros H; try discriminate; auto; [apply H1 in H; congruence|apply H1; congruence].
  - intros [x|] [y|]; cbn; auto.
  - intros [x|] [y|] [w|]; cbn; try discriminate; auto. apply H3.
Qed.

Section Yield.
Context {T : Type} (O : subset_ops T) (pt : bool) (d N : nat) (V : T -> Prop) (mem : T -> list Qc -> Prop) (L : laws O pt d N V mem).
Notation mul := (so_mul O).
Notation chain := (list (list Z * link T)).

Definition mkp (z : chain) : option (path T) := mk_path O (Pr d N (map (fun x => Some (fst x)) z)) (map snd z).
Lemma mkp_ends z c0 l0 c1 l1 : hd_error z = Some (c0, l0) -> hd_error (rev z) = Some (c1, l1) ->
  mkp z = match so_map_to_cube O N c0 (entrance l0), so_map_to_cube O N c1 (exit l1) with
          | Some e, Some x => Some (Pa (Pr d N (map (fun x => Some (fst x)) z)) (map snd z) (Lk e x))
          | _, _ => None
          end.
Proof.
  intros E0 E1. assert (NE : z <> []) by (destruct z; [discriminate|congruence]).
  unfold mkp, mk_path, pr_cube. cbn [pr_cubes pr_div]. rewrite !pyget_0, !pyget_m1 by (destruct z; [congruence|discriminate]).
  rewrite !map_length, !nth_error_map, !last_hd_rev, E1. replace (nth_error z 0) with (hd_error z) by (destruct z; auto). rewrite E0. cbn.
  reflexivity.
Qed.
Lemma mkp_shape z p : mkp z = Some p -> pa_proto p = Pr d N (map (fun x => Some (fst x)) z) /\ pa_links p = map snd z /\ z <> [].
Proof.
  unfold mkp, mk_path, pr_cube. cbn [pr_cubes pr_div]. destruct z as [|x z]; [discriminate|].
  destruct (pyget _ 0) as [l0|]; [|discriminate]. destruct (pyget _ (-1)) as [l1|]; [|discriminate].
  destruct (match pyget _ 0 with Some c => c | None => None end); [|discriminate].
  destruct (match pyget _ (-1) with Some c => c | None => None end); [|discriminate].
  destruct (so_map_to_cube O N _ _); [|discriminate]. destruct (so_map_to_cube O N _ _); [|discriminate]. intros [= <-]. cbn. split; auto. split; auto. discriminate.
Qed.
Lemma chain_ext (z z' : chain) : map (fun x => Some (fst x)) z = map (fun x => Some (fst x)) z' -> map snd z = map snd z' -> z = z'.
Proof.
  revert z'; induction z as [|[c l] z IH]; intros [|[c' l'] z']; cbn; try discriminate; auto.
  intros [= -> H1] [= -> H2]. f_equal. auto.
Qed.
Lemma mkp_inj z z' p : mkp z = Some p -> mkp z' = Some p -> z = z'.
Proof.
  intros H1 H2. apply mkp_shape in H1, H2. destruct H1 as (A1 & A2 & _), H2 as (B1 & B2 & _). apply chain_ext; congruence.
Qed.

(** the action on chains *)
Definition zmul (b : base_map) (z : chain) : chain :=
  map (fun cl => (apply_cube b (Z.of_nat N) (fst cl), lk_mul mul b (snd cl))) (if time_rev b then rev z else z).
Lemma pa_mul_mkp b z p : mkp z = Some p -> pa_mul O b p = mkp (zmul b z).
Proof.
  intros H. apply mkp_shape in H. destruct H as (A1 & A2 & _). unfold pa_mul, mkp. rewrite A1, A2. unfold pr_mul, zmul. cbn [pr_dim pr_div pr_cubes].
  f_equal.
  - f_equal. destruct (time_rev b); rewrite <- ?map_rev, !map_map; auto.
  - destruct (time_rev b); rewrite <- ?map_rev, !map_map; auto.
Qed.
Record zval (z : chain) : Prop := {
  zv_nodes : Forall (fun cl => grid_cube d N (fst cl) /\ V (entrance (snd cl)) /\ V (exit (snd cl))) z;
  zv_path : exists p, mkp z = Some p }.
Lemma zval_ne z : zval z -> z <> [].
Proof. intros [_ (p & H)]. apply mkp_shape in H. apply H. Qed.
Lemma grid_apply b c : wf_bm d b -> grid_cube d N c -> grid_cube d N (apply_cube b (Z.of_nat N) c).
Proof.
  intros W (HL & HF). split; [apply (action_cube d b b (Z.of_nat N) c W W HL)|]. unfold apply_cube. apply (act_Forall _ _ d); auto.
  intros z Hz. lia.
Qed.
Lemma zmul_zval b z : wf_bm d b -> zval z -> zval (zmul b z).
Proof.
  intros W HZ. pose proof (zval_ne z HZ) as NE. destruct HZ as [ZN (p & HP)]. rewrite Forall_forall in ZN. constructor.
  - unfold zmul. rewrite Forall_map, Forall_forall. intros [c l] Hin. assert (Hin' : In (c, l) z) by (destruct (time_rev b); [apply in_rev|]; auto).
    apply ZN in Hin'. cbn [fst snd] in *. destruct Hin' as (G & V1 & V2). split; [apply grid_apply; auto|].
    unfold lk_mul. destruct (time_rev b); cbn; split; apply (lw_V _ _ _ _ _ _ L); auto.
  - destruct (hd_error z) as [[c0 l0]|] eqn:E0; [|destruct z; [congruence|discriminate]].
    destruct (hd_error (rev z)) as [[c1 l1]|] eqn:E1. 2:{ destruct (rev z) eqn:ER; [|discriminate]. apply (f_equal (@rev _)) in ER. rewrite rev_involutive in ER. cbn in ER. congruence. }
    rewrite (mkp_ends z c0 l0 c1 l1 E0 E1) in HP.
    assert (I0 : In (c0, l0) z) by (destruct z; [discriminate|cbn in E0; left; congruence]).
    assert (I1 : In (c1, l1) z) by (apply in_rev; destruct (rev z); [discriminate|cbn in E1; left; congruence]).
    apply ZN in I0, I1. cbn [fst snd] in I0, I1. destruct I0 as (G0 & V0 & _), I1 as (G1 & _ & V1).
    destruct (so_map_to_cube O N c0 (entrance l0)) as [e|] eqn:M0; [|discriminate]. destruct (so_map_to_cube O N c1 (exit l1)) as [x|] eqn:M1; [|discriminate].
    apply (lw_map_mul _ _ _ _ _ _ L b) in M0; auto. apply (lw_map_mul _ _ _ _ _ _ L b) in M1; auto.
    unfold zmul. destruct (time_rev b) eqn:ET.
    + eexists. erewrite mkp_ends; [| |].
      2:{ rewrite hd_map, E1. reflexivity. } 2:{ rewrite <- map_rev, rev_involutive, hd_map, E0. reflexivity. }
      unfold lk_mul. cbn [fst snd]. rewrite ET. cbn [entrance exit]. rewrite M0, M1. reflexivity.
    + eexists. erewrite mkp_ends; [| |].
      2:{ rewrite hd_map, E0. reflexivity. } 2:{ rewrite <- map_rev, hd_map, E1. reflexivity. }
      unfold lk_mul. cbn [fst snd]. rewrite ET. cbn [entrance exit]. rewrite M0, M1. reflexivity.
Qed.
Lemma lk_mul_mul a b l : wf_bm d a -> wf_bm d b -> V (entrance l) -> V (exit l) -> lk_mul mul (bm_mul a b) l = lk_mul mul a (lk_mul mul b l).
Proof.
  intros WA WB V1 V2. unfold lk_mul. rewrite !(lw_mul _ _ _ _ _ _ L) by auto. cbn [time_rev bm_mul].
  destruct (time_rev a), (time_rev b); reflexivity.
Qed.
Lemma zmul_mul a b z : wf_bm d a -> wf_bm d b -> zval z -> zmul (bm_mul a b) z = zmul a (zmul b z).
Proof.
  intros WA WB [ZN _]. rewrite Forall_forall in ZN. unfold zmul. cbn [time_rev bm_mul].
  assert (E : forall l, (forall x, In x l -> In x z) -> map (fun cl : list Z * link T => (apply_cube (bm_mul a b) (Z.of_nat N) (fst cl), lk_mul mul (bm_mul a b) (snd cl))) l =
     map (fun cl => (apply_cube a (Z.of_nat N) (fst cl), lk_mul mul a (snd cl))) (map (fun cl => (apply_cube b (Z.of_nat N) (fst cl), lk_mul mul b (snd cl))) l)).
  { intros l Hl. rewrite map_map. apply map_ext_in. intros [c lk] Hin. apply Hl, ZN in Hin. cbn [fst snd] in *. destruct Hin as ((HL & _) & V1 & V2).
    f_equal; [apply (action_cube d a b (Z.of_nat N) c); auto|apply lk_mul_mul; auto]. }
  destruct (time_rev a), (time_rev b); cbn [xorb]; rewrite E by (intros x Hx; first [exact Hx|apply in_rev; exact Hx]); auto.
  - rewrite <- map_rev, rev_involutive. auto.
  - rewrite <- map_rev. auto.
Qed.
Lemma zmul_id z : zval z -> zmul (id_map d) z = z.
Proof.
  intros [ZN _]. rewrite Forall_forall in ZN. unfold zmul. cbn [time_rev id_map]. transitivity (map (fun x : list Z * link T => x) z); [|apply map_id].
  apply map_ext_in. intros [c l] Hin. apply ZN in Hin. cbn [fst snd] in *. destruct Hin as ((HL & _) & V1 & V2). f_equal.
  - unfold apply_cube. rewrite (act_id _ _ d); auto.
  - unfold lk_mul. cbn [time_rev id_map]. rewrite !(lw_id _ _ _ _ _ _ L) by auto. destruct l; auto.
Qed.

(** comparison of paths of the same dimension and division *)
Definition data : Type := link T * (list (option (list Z)) * list (link T)).
Definition dpath (x : data) : path T := Pa (Pr d N (fst (snd x))) (snd (snd x)) (fst x).
Definition pdata (p : path T) : data := (pa_link p, (pr_cubes (pa_proto p), pa_links p)).
Definition dcmp : data -> data -> comparison := lex2 (lk_cmp (so_cmp O)) (lex2 (lex ocube_cmp) (lex (lk_cmp (so_cmp O)))).
Lemma dcmp_ok : cmp_ok dcmp.
Proof.
  pose proof (lw_cmp _ _ _ _ _ _ L). repeat (apply lex2_ok || apply lex_ok || apply lk_cmp_ok); auto using ocube_cmp_ok.
Qed.
Definition shaped (p : path T) : Prop := exists z, mkp z = Some p.
Lemma shaped_dpath p : shaped p -> p = dpath (pdata p).
Proof. intros (z & H). apply mkp_shape in H. destruct H as (A1 & A2 & _). unfold dpath, pdata. cbn. rewrite A1. cbn [pr_cubes]. rewrite <- A1. destruct p; auto. Qed.
Lemma pa_eqb_shaped p q : shaped p -> shaped q -> (pa_eqb O p q = true <-> p = q).
Proof.
  intros HP HQ. rewrite (shaped_dpath p HP), (shaped_dpath q HQ). set (x := pdata p). set (y := pdata q). clearbody x y. clear HP HQ.
  assert (HE : eqb_ok (lk_eqb (so_eqb O))) by (apply lk_eqb_ok, (lw_eqb _ _ _ _ _ _ L)).
  unfold pa_eqb, pr_eqb, dpath. cbn. rewrite !andb_true_iff, (HE (fst x) (fst y)), (list_eqb_ok _ ocube_eqb_ok (fst (snd x)) (fst (snd y))), (list_eqb_ok _ HE (snd (snd x)) (snd (snd y))).
  destruct x as [x1 [x2 x3]], y as [y1 [y2 y3]]. cbn. split; [intros ((-> & ->) & ->); auto|intros [= -> -> ->]; auto].
Qed.
Lemma min_shaped ps q : Forall shaped ps -> min_list (pa_cmp O) ps = Some q ->
  In q ps /\ forall q', In q' ps -> dcmp (pdata q) (pdata q') <> Gt.
Proof.
  intros HS HM. assert (E : ps = map dpath (map pdata ps)).
  { rewrite map_map. rewrite <- (map_id ps) at 1. apply map_ext_in. intros p Hp. apply shaped_dpath. rewrite Forall_forall in HS. auto. }
  rewrite E, min_list_map in HM. destruct (min_list _ (map pdata ps)) as [x|] eqn:EM; [|discriminate]. injection HM as <-.
  change (min_list dcmp (map pdata ps) = Some x) in EM. apply (min_list_spec dcmp dcmp_ok) in EM. destruct EM as (I1 & I2).
  split; [rewrite E; apply in_map; auto|]. intros q' Hq'. assert (pdata (dpath x) = x) as -> by (destruct x as [x1 [x2 x3]]; auto).
  apply I2. apply in_map; auto.
Qed.

Section Group.
Context (G : list base_map) (GW : forall b, In b G -> wf_bm d b) (GI : In (id_map d) G)
  (GM : forall a b, In a G -> In b G -> In (bm_mul a b) G) (GV : forall b, In b G -> In (bm_inv b) G).

(** the standard path of a chain *)
Definition canon (z : chain) (q : path T) : Prop :=
  exists ps, omap (fun b => mkp (zmul b z)) G = Some ps /\ min_list (pa_cmp O) ps = Some q.
Lemma canon_spec z : zval z -> exists q, canon z q /\ (exists b, In b G /\ mkp (zmul b z) = Some q) /\
  forall b q', In b G -> mkp (zmul b z) = Some q' -> dcmp (pdata q) (pdata q') <> Gt.
Proof.
  intros HZ. assert (exists ps, omap (fun b => mkp (zmul b z)) G = Some ps) as (ps & E).
  { clear GI GM GV. induction G as [|b G' IH]; [exists []; auto|]. cbn [omap].
    destruct (zv_path _ (zmul_zval b z (GW b ltac:(cbn; auto)) HZ)) as (p & ->). destruct IH as (ps & ->); [intros; apply GW; cbn; auto|]. eauto. }
  pose proof (proj1 (omap_Some _ _ _) E) as F2.
  assert (HIn : forall p, In p ps <-> exists b, In b G /\ mkp (zmul b z) = Some p).
  { clear - F2. induction F2 as [|b p G' ps H F2 IH]; intros q; [split; [intros []|intros (b & [] & _)]|]. cbn. rewrite IH. split.
    - intros [<-|(b' & H1 & H2)]; eauto.
    - intros (b' & [<-|H1] & H2); [left; congruence|right; eauto]. }
  destruct (min_list_some (pa_cmp O) ps) as (q & HQ).
  { intros ->. inversion F2; subst. destruct GI. }
  destruct (min_shaped ps q) as (M1 & M2); auto. { rewrite Forall_forall. intros p Hp. apply HIn in Hp. destruct Hp as (b & _ & Hp). exists (zmul b z); auto. }
  exists q. split; [exists ps; auto|]. split; [apply HIn; auto|]. intros b q' Hb Hq'. apply M2. apply HIn. eauto.
Qed.
Lemma canon_fun z q q' : canon z q -> canon z q' -> q = q'.
Proof. intros (ps & E & M) (ps' & E' & M'). congruence. Qed.
Lemma canon_shaped z q : zval z -> canon z q -> shaped q.
Proof. intros HZ HC. destruct (canon_spec z HZ) as (q' & HC' & (b & _ & H) & _). rewrite (canon_fun _ _ _ HC HC'). exists (zmul b z); auto. Qed.
Lemma canon_same z z' q : zval z -> zval z' -> canon z q -> canon z' q -> exists b, In b G /\ z' = zmul b z.
Proof.
  intros HZ HZ' HC HC'. destruct (canon_spec z HZ) as (q1 & C1 & (a & Ga & Ea) & _). destruct (canon_spec z' HZ') as (q2 & C2 & (b & Gb & Eb) & _).
  rewrite (canon_fun _ _ _ C1 HC) in Ea. rewrite (canon_fun _ _ _ C2 HC') in Eb. pose proof (mkp_inj _ _ _ Ea Eb) as EQ.
  exists (bm_mul (bm_inv b) a). split; auto. rewrite zmul_mul by auto. rewrite EQ, <- zmul_mul by auto. rewrite (mul_inv_l d) by auto.
  symmetry. apply zmul_id; auto.
Qed.
Lemma canon_orbit z b q : zval z -> In b G -> canon z q -> canon (zmul b z) q.
Proof.
  intros HZ Gb HC. pose proof (zmul_zval b z (GW b Gb) HZ) as HZb. destruct (canon_spec z HZ) as (q1 & C1 & (a1 & G1 & E1) & M1).
  destruct (canon_spec _ HZb) as (q2 & C2 & (a2 & G2 & E2) & M2). rewrite (canon_fun _ _ _ HC C1).
  assert (EQ : q1 = q2); [|congruence].
  assert (X1 : dcmp (pdata q1) (pdata q2) <> Gt).
  { apply (M1 (bm_mul a2 b)); auto. rewrite zmul_mul; auto. }
  assert (X2 : dcmp (pdata q2) (pdata q1) <> Gt).
  { apply (M2 (bm_mul a1 (bm_inv b))); auto. rewrite <- zmul_mul by auto. rewrite <- E1. f_equal. f_equal.
    rewrite (mul_assoc d) by auto. rewrite (mul_inv_l d), (mul_id_r d) by auto. auto. }
  assert (pdata q1 = pdata q2) by (apply (leq_of_antisym dcmp dcmp_ok); auto).
  rewrite (shaped_dpath q1), (shaped_dpath q2); [congruence|exists (zmul a2 (zmul b z)); auto|exists (zmul a1 z); auto].
Qed.

Lemma omap_ext_in {A B} (f g : A -> option B) l : (forall x, In x l -> f x = g x) -> omap f l = omap g l.
Proof. induction l as [|a l IH]; intros H; auto. cbn. rewrite H by (cbn; auto). rewrite IH; auto. intros; apply H; cbn; auto. Qed.
Lemma yield_std zs : Forall zval zs -> forall seen, Forall shaped seen ->
  exists res, yield_paths O d N (Some G) seen zs = Some res /\ NoDup res /\
    (forall p, In p res -> exists z, In z zs /\ mkp z = Some p) /\
    (forall z q, In z zs -> canon z q -> In q seen \/ exists z' p', In z' zs /\ mkp z' = Some p' /\ In p' res /\ canon z' q) /\
    (forall z p q, mkp z = Some p -> In p res -> canon z q -> ~ In q seen) /\
    (forall z z' p p' q, mkp z = Some p -> mkp z' = Some p' -> In p res -> In p' res -> canon z q -> canon z' q -> p = p').
Proof.
  intros HZ. induction HZ as [|z zs Hz HZ IH]; intros seen HS.
  - exists []. cbn. split; auto. split; [constructor|]. repeat split; intros; tauto.
  - cbn [yield_paths]. destruct (zv_path _ Hz) as (p & EP). pose proof EP as EP'. unfold mkp in EP'. rewrite EP'. clear EP'.
    destruct (canon_spec z Hz) as (q & HC & _). pose proof HC as (ps & E & M).
    rewrite (omap_ext_in _ (fun b => mkp (zmul b z)) G) by (intros; apply pa_mul_mkp; auto). rewrite E, M.
    pose proof (canon_shaped z q Hz HC) as SQ.
    assert (HMem : memb (pa_eqb O) q seen = true <-> In q seen).
    { unfold memb. rewrite existsb_exists. rewrite Forall_forall in HS. split.
      - intros (q' & I & EQ). apply pa_eqb_shaped in EQ; auto. congruence.
      - intros I. exists q. split; auto. apply pa_eqb_shaped; auto. }
    destruct (memb (pa_eqb O) q seen) eqn:EM.
    + destruct (IH seen HS) as (res & ER & R1 & R2 & R3 & R4 & R5). exists res. split; auto. split; auto. split; [|split; [|split; auto]].
      * intros p' Hp'. destruct (R2 p' Hp') as (z' & ? & ?). exists z'. cbn; auto.
      * intros z' q' [<-|Hz'] HC'; [left; rewrite (canon_fun _ _ _ HC' HC); tauto|].
        destruct (R3 z' q' Hz' HC') as [|(z2 & p2 & ? & ? & ? & ?)]; [auto|]. right. exists z2, p2. cbn; auto.
    + destruct (IH (q :: seen)) as (res & ER & R1 & R2 & R3 & R4 & R5); [constructor; auto|]. rewrite ER. cbn [option_map].
      exists (p :: res). split; auto. assert (NP : ~ In p res). { intros Hp. apply (R4 z p q EP Hp HC). cbn; auto. }
      split; [constructor; auto|]. split; [|split; [|split]].
      * intros p' [<-|Hp']; [exists z; cbn; auto|]. destruct (R2 p' Hp') as (z' & ? & ?). exists z'. cbn; auto.
      * intros z' q' [<-|Hz'] HC'; [right; exists z, p; cbn; auto|].
        destruct (R3 z' q' Hz' HC') as [[<-|]|(z2 & p2 & ? & ? & ? & ?)]; [right; exists z, p; cbn; auto|auto|right; exists z2, p2; cbn; auto].
      * intros z' p' q' E' [<-|Hp'] HC' Hq'.
        -- rewrite (mkp_inj _ _ _ E' EP) in HC'. rewrite (canon_fun _ _ _ HC' HC) in Hq'. apply HMem in Hq'. congruence.
        -- apply (R4 z' p' q' E' Hp' HC'). cbn; auto.
      * intros z1 z2 p1 p2 q' E1 E2 I1 I2 C1 C2. destruct I1 as [<-|I1], I2 as [<-|I2]; auto.
        -- exfalso. rewrite (mkp_inj _ _ _ E1 EP) in C1. rewrite (canon_fun _ _ _ C1 HC) in C2. apply (R4 z2 p2 q E2 I2 C2). cbn; auto.
        -- exfalso. rewrite (mkp_inj _ _ _ E2 EP) in C2. rewrite (canon_fun _ _ _ C2 HC) in C1. apply (R4 z1 p1 q E1 I1 C1). cbn; auto.
        -- eapply R5; eauto.
Qed.
End Group.
Lemma yield_plain zs seen : Forall zval zs -> exists res, yield_paths O d N None seen zs = Some res /\ Forall2 (fun z p => mkp z = Some p) zs res.
Proof.
  intros HZ. induction HZ as [|z zs Hz HZ IH]; [exists []; cbn; auto|]. cbn [yield_paths]. destruct (zv_path _ Hz) as (p & EP).
  pose proof EP as EP'. unfold mkp in EP'. rewrite EP'. destruct IH as (res & -> & F). cbn. eexists; split; [reflexivity|]. constructor; auto.
Qed.
End Yield.
