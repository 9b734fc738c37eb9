(** The candidates of the general mode: they are valid and cover every system whose gates are on the boundary. *)
From Verif Require Import Py L_Py L_Qc L_BaseMaps M_BaseMaps M_Subsets M_Paths M_Curves M_PathTree M_PathGen M_Utils M_Gates S_BaseMaps S_Subsets S_Paths S_Utils S_Curves S_Fuzzy S_Gates S_PathGen S_PathTree
  P_GenMaps P_Actions P_Points P_Subsets P_Paths P_Core P_Bridge P_Entrance P_FuzzyCurves P_Check P_PathGen P_PathYield P_PathAll P_PathLaws P_PathTuples T_PathGen T_PathParent T_Fuzzy P_GateEqs P_GateLoop P_GateSys P_GateCand P_GateMain P_Combi P_Facets P_FuzzyInit P_CurveAct.
From Coq Require Import Permutation.
Local Open Scope nat_scope.

Lemma Forall2_In_l {A B} (R : A -> B -> Prop) l l' a : Forall2 R l l' -> In a l -> exists b, In b l' /\ R a b.
Proof. induction 1; cbn; [tauto|]. intros [<-|HI]; [eauto|]. destruct (IHForall2 HI) as (b & ? & ?). eauto. Qed.
Lemma Forall2_In_r {A B} (R : A -> B -> Prop) l l' b : Forall2 R l l' -> In b l' -> exists a, In a l /\ R a b.
Proof. induction 1; cbn; [tauto|]. intros [<-|HI]; [eauto|]. destruct (IHForall2 HI) as (a & ? & ?). eauto. Qed.

(** ** Points on the edge of a cube *)
Lemma edge_place d N c x y j : 1 <= N -> grid_cube d N c -> unit_point d x -> place_in N c x y -> j < d ->
  (nth j y 0%Qc = 0%Qc -> nth j c 0%Z = 0%Z /\ nth j x 0%Qc = 0%Qc) /\ (nth j y 0%Qc = 1%Qc -> nth j c 0%Z = (Z.of_nat N - 1)%Z /\ nth j x 0%Qc = 1%Qc).
Proof.
  intros HN [GL GF] [XL XF] HP Hj. apply place_in_nth in HP. destruct HP as (_ & _ & HP). specialize (HP j ltac:(lia)).
  assert (GC : (0 <= nth j c 0 < Z.of_nat N)%Z) by (rewrite Forall_forall in GF; apply GF, nth_In; lia).
  assert (XC : (0 <= nth j x 0%Qc)%Qc /\ (nth j x 0%Qc <= 1)%Qc) by (unfold in_cube01 in XF; rewrite Forall_forall in XF; apply XF, nth_In; lia).
  set (xx := nth j x 0%Qc) in *. set (cc := nth j c 0%Z) in *. destruct XC as [X0 X1]. unfold Nq in HP.
  assert (A0 : (Zq 0 <= Zq cc)%Qc) by (apply Zq_le; lia). assert (A1 : (Zq cc <= Zq (Z.of_nat N) - Zq 1)%Qc) by (rewrite <- Zq_sub; apply Zq_le; lia). rewrite Zq_0 in A0. rewrite Zq_1 in A1.
  split; intros E; rewrite E in HP; clear E.
  - assert (E1 : Zq cc = 0%Qc) by (apply Qcle_antisym; auto; revert HP X0; qclra). split; [apply Zq_inj; auto|]. rewrite E1 in HP. revert HP. clear. intros HP. transitivity (xx + 0)%Qc; [ring|]. rewrite <- HP. ring.
  - assert (E1 : xx = 1%Qc) by (apply Qcle_antisym; auto; revert HP A1; qclra). split; auto. apply Zq_inj. rewrite Zq_sub, Zq_1. rewrite E1 in HP. replace (Zq (Z.of_nat N)) with (1 * Zq (Z.of_nat N))%Qc by ring. rewrite HP. ring.
Qed.

(** ** The first and last cubes of a system *)
Section SysCu.
Context (d N m : nat) (Hd : 1 <= d) (HN : 2 <= N) (Hm : 1 <= m).
Notation system := (chains_ok point_ops d N m (unit_point d) is_point).
Lemma sys_has_bnd Zs g : system Zs g -> exists cu sp, sys_bnd m Zs cu sp.
Proof.
  intros HS. destruct (fin_choice (fun p (x : (list Z * spec) * (list Z * spec)) => hd_error (Zs p) = Some (fst x) /\ hd_error (rev (Zs p)) = Some (snd x)) (([], Sp (id_map d) 0), ([], Sp (id_map d) 0)) m) as (f & Hf).
  { intros p Hp. destruct (HS p Hp) as (_ & _ & _ & ((c0 & l0 & E0 & _) & (c1 & l1 & E1 & _))). unfold zl in E0, E1. rewrite <- map_rev in E1. rewrite hd_map in E0, E1.
    destruct (hd_error (Zs p)) as [a|]; [|discriminate]. destruct (hd_error (rev (Zs p))) as [b|]; [|discriminate]. exists (a, b). auto. }
  exists (fun p (w : bool) => fst (if w then snd (f p) else fst (f p))), (fun p (w : bool) => snd (if w then snd (f p) else fst (f p))). intros p w Hp. destruct (Hf p Hp) as [A B]. destruct w; rewrite ?A, ?B; f_equal; apply surjective_pairing.
Qed.
Lemma sys_cu Zs g cu sp : system Zs g -> sys_bnd m Zs cu sp -> (forall p w, p < m -> grid_cube d N (cu p w)) /\ (forall p w, p < m -> wf_spec d m (sp p w)) /\ (forall p, p < m -> cu p false <> cu p true).
Proof.
  intros HS SB.
  assert (HZ : forall p w, p < m -> In (cu p w, sp p w) (Zs p)).
  { intros p w Hp. pose proof (SB p w Hp) as E. apply hd_In in E. destruct w; auto. apply in_rev; auto. }
  split; [|split].
  - intros p w Hp. destruct (HS p Hp) as (_ & _ & [_ C2 _ _] & _). apply C2. unfold zl. rewrite map_map. apply in_map_iff. exists (cu p w, sp p w). split; auto.
  - intros p w Hp. destruct (HS p Hp) as (C1 & _). rewrite Forall_forall in C1. apply (C1 _ (HZ p w Hp)).
  - intros p Hp E. destruct (HS p Hp) as (_ & _ & [C1 C2 _ _] & _). assert (EF : map fst (zl point_ops g (Zs p)) = map fst (Zs p)) by (unfold zl; rewrite map_map; auto).
    assert (C2' : forall c, grid_cube d N c <-> In c (map fst (Zs p))) by (intros c; rewrite C2, EF; tauto). clear C2. rewrite EF in C1. clear EF.
    pose proof (SB p false Hp) as S0. pose proof (SB p true Hp) as S1. destruct (Zs p) as [|z1 [|z2 zs]] eqn:EZ; [discriminate| |].
    + assert (HG : forall c, grid_cube d N c <-> c = fst z1) by (intros c; rewrite C2'; cbn; split; [intros [<-|[]]; auto|intros ->; auto]).
      assert (A0 : grid_cube d N (repeat 0%Z d)) by (split; [apply repeat_length|apply Forall_forall; intros x Hx; apply repeat_spec in Hx; lia]).
      assert (A1 : grid_cube d N (repeat 1%Z d)) by (split; [apply repeat_length|apply Forall_forall; intros x Hx; apply repeat_spec in Hx; lia]).
      apply HG in A0, A1. rewrite <- A1 in A0. destruct d; [lia|discriminate].
    + cbn in S0. injection S0 as ->. cbn [map fst] in C1. inversion C1 as [|? ? NI _]; subst. apply NI. rewrite E.
      assert (In (cu p true, sp p true) (z2 :: zs)).
      { cbn [rev] in S1. destruct (rev (z2 :: zs)) eqn:ER; [apply (f_equal (@rev _)) in ER; rewrite rev_involutive in ER; discriminate|]. cbn [rev] in ER. rewrite ER in S1. cbn in S1. injection S1 as ->. apply in_rev. cbn [rev]. rewrite ER. left; auto. }
      exact (in_map fst _ _ H).
Qed.
Lemma tr_bnd s t b Zs cu sp : perm_on m s t -> sys_bnd m Zs cu sp ->
  sys_bnd m (fun i => tr_z N t b (b i) (Zs (s i))) (fun i w => apply_cube (b i) (Z.of_nat N) (cu (s i) (xorb w (time_rev (b i))))) (fun i w => tr_spec t b (b i) (sp (s i) (xorb w (time_rev (b i))))).
Proof.
  intros [P1 _] SB i w Hi. unfold tr_z. destruct (P1 i Hi) as [Hs _]. pose proof (SB (s i) (xorb w (time_rev (b i))) Hs) as E.
  assert (X : hd_error (if w then rev (if time_rev (b i) then rev (Zs (s i)) else Zs (s i)) else (if time_rev (b i) then rev (Zs (s i)) else Zs (s i))) = Some (cu (s i) (xorb w (time_rev (b i))), sp (s i) (xorb w (time_rev (b i))))).
  { rewrite <- E. destruct w, (time_rev (b i)); cbn [xorb]; rewrite ?rev_involutive; auto. }
  destruct w; rewrite <- ?map_rev, hd_map, X; auto.
Qed.
End SysCu.

(** ** The groups *)
Section Gen.
Context (d N m : nat) (Hd : 1 <= d) (HN : 2 <= N) (Hm : 1 <= m).
Notation G := (N ^ d).
Notation cpair := (list Z * list Z)%type.
Definition cside (w : bool) (c : cpair) : list Z := if w then snd c else fst c.
Lemma cpair_eqb_ok : eqb_ok cpair_eqb.
Proof. intros [a b] [c e]. unfold cpair_eqb. cbn. rewrite andb_true_iff, !(z_list_eqb_ok _ _). split; [intros [-> ->]; auto|intros [= -> ->]; auto]. Qed.
Lemma pair_proto_spec c : pr_div (pair_proto d N c) = N /\ length (pr_cubes (pair_proto d N c)) = G /\ forall w, nth_error (pr_cubes (pair_proto d N c)) (endn d N w) = Some (Some (cside w c)).
Proof.
  pose proof (G_ge2 d N m Hd HN Hm) as HG. unfold pair_proto. cbn [pr_div pr_cubes]. unfold pyset. replace (0 <=? 0)%Z with true by auto. replace (0 <=? -1)%Z with false by auto. rewrite !length_upd, repeat_length.
  replace (Z.to_nat (Z.of_nat G + -1)) with (G - 1) by lia. cbn [Z.to_nat]. split; [auto|split; [auto|]]. intros w. rewrite !nth_error_upd, length_upd, repeat_length.
  replace (Nat.ltb (G - 1) G) with true by (symmetry; apply Nat.ltb_lt; lia). replace (Nat.ltb 0 G) with true by (symmetry; apply Nat.ltb_lt; lia). destruct w; cbn [endn cside].
  - rewrite Nat.eqb_refl. auto.
  - destruct (Nat.eqb_spec (G - 1) 0); [lia|]. auto.
Qed.
Lemma pr_cube_end p c w : length (pr_cubes p) = G -> nth_error (pr_cubes p) (endn d N w) = Some (Some c) -> pr_cube p (cn w) = Some c.
Proof.
  pose proof (G_ge2 d N m Hd HN Hm) as HG. intros HL E. unfold pr_cube, pyget. rewrite HL. destruct w; cbn [cn endn] in *.
  - replace (0 <=? -1)%Z with false by auto. replace (0 <=? Z.of_nat G + -1)%Z with true by (symmetry; apply Z.leb_le; lia). replace (Z.to_nat (Z.of_nat G + -1)) with (G - 1) by lia. rewrite E. auto.
  - cbn. cbn in E. rewrite E. auto.
Qed.
Lemma pr_mul_end b p (cu : bool -> list Z) : pr_div p = N -> length (pr_cubes p) = G -> (forall w, nth_error (pr_cubes p) (endn d N w) = Some (Some (cu w))) ->
  forall w, pr_cube (pr_mul b p) (cn w) = Some (apply_cube b (Z.of_nat N) (cu (xorb w (time_rev b)))).
Proof.
  pose proof (G_ge2 d N m Hd HN Hm) as HG. intros HD HL E w. apply pr_cube_end; unfold pr_mul; cbn [pr_cubes].
  - rewrite map_length. destruct (time_rev b); rewrite ?rev_length; auto.
  - rewrite nth_error_map, HD. destruct (time_rev b).
    + rewrite nth_error_rev by (rewrite HL; destruct w; cbn; lia). rewrite HL. replace (G - 1 - endn d N w) with (endn d N (negb w)) by (destruct w; cbn [endn negb]; lia). rewrite E. destruct w; auto.
    + rewrite E. destruct w; auto.
Qed.
Section Pairs.
Context (pairs : list cpair) (HL : length pairs = m).
Definition cu_of (p : nat) (w : bool) : list Z := cside w (nth p pairs ([], [])).
Lemma pairs_bnd : proto_bnd d N m cu_of (map (pair_proto d N) pairs).
Proof.
  split; [rewrite map_length; auto|]. intros p Hp. exists (pair_proto d N (nth p pairs ([], []))). split; [rewrite nth_error_map, (nth_error_nth' pairs ([], [])) by lia; auto|]. apply pair_proto_spec.
Qed.
Definition touches (p : nat) (w : bool) (s : spec) : bool := touch_same_facet N (cu_of p w) (apply_cube (sp_bm s) (Z.of_nat N) (cu_of (sp_pnum s) (xorb w (time_rev (sp_bm s))))).
Lemma spec_touches_eq p w pn b : p < m -> pn < m -> spec_touches N (map (pair_proto d N) pairs) p (cn w) pn b = Some (touches p w (Sp b pn)).
Proof.
  intros Hp Hn. unfold spec_touches. destruct pairs_bnd as [_ PB]. destruct (PB p Hp) as (q & -> & Q1 & Q2 & Q3). destruct (PB pn Hn) as (r & -> & R1 & R2 & R3). cbn [obind].
  rewrite (pr_cube_end q (cu_of p w)) by auto. rewrite (pr_mul_end b r (cu_of pn)) by auto. reflexivity.
Qed.
Lemma ofilter_total {A} (f : A -> option bool) (g : A -> bool) l : (forall a, In a l -> f a = Some (g a)) -> ofilter f l = Some (filter g l).
Proof. induction l as [|a l IH]; intros H; cbn; auto. rewrite H by (left; auto). rewrite IH by (intros; apply H; right; auto). destruct (g a); auto. Qed.
Lemma omap_total {A B} (f : A -> option B) (g : A -> B) l : (forall a, In a l -> f a = Some (g a)) -> omap f l = Some (map g l).
Proof. induction l as [|a l IH]; intros H; cbn; auto. rewrite H by (left; auto). rewrite IH by (intros; apply H; right; auto). auto. Qed.
Lemma touching_specs_eq p w : p < m -> exists l, touching_specs d N m (map (pair_proto d N) pairs) (p, cn w) = Some l /\ forall s, In s l <-> wf_spec d m s /\ touches p w s = true.
Proof.
  intros Hp. unfold touching_specs. cbn [fst snd].
  rewrite (omap_total _ (fun pn => map (fun b => Sp b pn) (filter (fun b => touches p w (Sp b pn)) (gen_base_maps d None)))).
  - eexists. split; [reflexivity|]. intros s. rewrite in_concat. setoid_rewrite in_map_iff. split.
    + intros (l & (pn & <- & Hn) & Hs). apply in_map_iff in Hs. destruct Hs as (b & <- & Hb). apply filter_In in Hb. destruct Hb as [Hb HT]. apply In_gen_base_maps in Hb. apply in_seq in Hn. split; [split; cbn; [tauto|lia]|auto].
    + intros [[W Hn] HT]. eexists. split; [exists (sp_pnum s); split; [reflexivity|apply in_seq; lia]|]. apply in_map_iff. exists (sp_bm s). split; [destruct s; auto|]. apply filter_In. split; [apply In_gen_base_maps; auto|destruct s; auto].
  - intros pn Hn. apply in_seq in Hn. rewrite (ofilter_total _ (fun b => touches p w (Sp b pn))); auto. intros b _. apply spec_touches_eq; lia.
Qed.
Lemma pairs_variants : exists lists, omap (touching_specs d N m (map (pair_proto d N) pairs)) (boundary m) = Some lists /\
  forall specs, In specs (lprod lists) <-> exists sp, specs = spec_seq sp (range m) /\ forall p w, p < m -> wf_spec d m (sp p w) /\ touches p w (sp p w) = true.
Proof.
  destruct (omap_some_all (touching_specs d N m (map (pair_proto d N) pairs)) (boundary m)) as (lists & E).
  { intros [p z] Hp. unfold boundary in Hp. apply in_prod_iff in Hp. destruct Hp as [Hp Hz]. apply in_seq in Hp. destruct (touching_specs_eq p (negb (z =? 0)%Z) ltac:(lia)) as (l & E & _). exists l. rewrite <- E. f_equal. f_equal. destruct Hz as [<-|[<-|[]]]; auto. }
  exists lists. split; auto. intros specs. rewrite (In_variants _ m lists specs E). split; intros (sp & ES & H); exists sp; (split; [auto|]); intros p w Hp.
  - destruct (H p w Hp) as (l & El & Hl). destruct (touching_specs_eq p w Hp) as (l' & El' & Hl'). rewrite El' in El. injection El as <-. apply Hl'; auto.
  - destruct (touching_specs_eq p w Hp) as (l' & El' & Hl'). exists l'. split; auto. apply Hl'; auto.
Qed.
End Pairs.
Lemma std_pairs_len pairs : In pairs (std_pairs_list d N m) -> length pairs = m.
Proof. intros H. apply combs_repl_sound in H. tauto. Qed.
Lemma all_groups_eq : exists groups, all_groups d N m = Some groups /\
  forall c, In c (candidates groups) <-> exists pairs sp, In pairs (std_pairs_list d N m) /\ c = (map (pair_proto d N) pairs, spec_seq sp (range m)) /\
    forall p w, p < m -> wf_spec d m (sp p w) /\ touches pairs p w (sp p w) = true.
Proof.
  unfold all_groups. destruct (omap_some_all (fun pairs => option_map (pair (map (pair_proto d N) pairs)) (omap (touching_specs d N m (map (pair_proto d N) pairs)) (boundary m))) (std_pairs_list d N m)) as (groups & E).
  { intros pairs Hp. destruct (pairs_variants pairs (std_pairs_len pairs Hp)) as (lists & -> & _). eexists. reflexivity. }
  exists groups. split; [exact E|]. intros c. apply omap_rel in E. unfold candidates. rewrite in_flat_map. split.
  - intros ((protos & lists) & HG & HC). destruct (Forall2_In_r _ _ _ _ E HG) as (pairs & HP & EP). destruct (pairs_variants pairs (std_pairs_len pairs HP)) as (lists' & EL & HV). rewrite EL in EP. cbn in EP. injection EP as <- <-.
    cbn [fst snd] in HC. apply in_map_iff in HC. destruct HC as (specs & <- & HS). apply HV in HS. destruct HS as (sp & -> & HS). exists pairs, sp. auto.
  - intros (pairs & sp & HP & -> & HS). destruct (pairs_variants pairs (std_pairs_len pairs HP)) as (lists' & EL & HV).
    destruct (Forall2_In_l _ _ _ _ E HP) as (g & HG & EP). rewrite EL in EP. cbn in EP. injection EP as <-. eexists. split; [exact HG|]. cbn [fst snd]. apply in_map_iff. eexists. split; [reflexivity|]. apply HV. exists sp. auto.
Qed.

(** ** Standard pairs *)
Definition good_pair (c : cpair) : Prop := grid_cube d N (fst c) /\ grid_cube d N (snd c) /\ fst c <> snd c.
(** the image of a pair of first and last cubes *)
Definition cp_mul (b : base_map) (c : cpair) : cpair := (apply_cube b (Z.of_nat N) (cside (time_rev b) c), apply_cube b (Z.of_nat N) (cside (negb (time_rev b)) c)).
Lemma cside_mul b c w : cside w (cp_mul b c) = apply_cube b (Z.of_nat N) (cside (xorb w (time_rev b)) c).
Proof. destruct w, (time_rev b) eqn:E; unfold cp_mul; rewrite E; auto. Qed.
Lemma good_pair_mul b c : wf_bm d b -> good_pair c -> good_pair (cp_mul b c).
Proof.
  intros W (G1 & G2 & NE). unfold good_pair, cp_mul. cbn [fst snd]. destruct (time_rev b); cbn [cside negb]; (split; [apply P_CurveAct.grid_apply; auto|split; [apply P_CurveAct.grid_apply; auto|]]);
    intros E; apply NE; [symmetry|]; revert E; apply (apply_cube_inj d); auto; try apply G1; apply G2.
Qed.
Lemma min_of_cases {A} (cmp : A -> A -> comparison) x xs : In (min_of cmp x xs) (x :: xs).
Proof.
  unfold min_of. revert x. induction xs as [|a xs IH]; intros x; cbn [fold_left]; [left; auto|]. match goal with |- In (fold_left _ xs ?y) _ => specialize (IH y); destruct IH as [E|E] end; [|right; right; auto].
  rewrite <- E. destruct (ltb_of cmp a x); [right; left|left]; auto.
Qed.
(** a standard pair is an image of the pair *)
Lemma std_pair_image c : good_pair c -> exists b, wf_bm d b /\ std_pair d N c = cp_mul b c.
Proof.
  intros (G1 & G2 & _). unfold std_pair.
  assert (H : forall l mn, Forall (fun b => wf_bm d b /\ time_rev b = false) l -> (exists b, wf_bm d b /\ mn = cp_mul b c) ->
    exists b, wf_bm d b /\ fold_left (fun mn b => let c1 := apply_cube b (Z.of_nat N) (fst c) in let c2 := apply_cube b (Z.of_nat N) (snd c) in min_of cpair_cmp mn [(c1, c2); (c2, c1)]) l mn = cp_mul b c).
  { induction l as [|b l IH]; intros mn HF HM; cbn [fold_left]; auto. apply Forall_cons_iff in HF. destruct HF as [[W T] HF]. apply IH; auto. cbv zeta.
    destruct (min_of_cases cpair_cmp mn [(apply_cube b (Z.of_nat N) (fst c), apply_cube b (Z.of_nat N) (snd c)); (apply_cube b (Z.of_nat N) (snd c), apply_cube b (Z.of_nat N) (fst c))]) as [E|[E|[E|[]]]]; rewrite <- E; auto.
    - exists b. split; auto. unfold cp_mul. rewrite T. auto.
    - exists (BM (coords b) true). split; [exact W|]. unfold cp_mul. cbn [time_rev cside negb]. auto. }
  apply H.
  - apply Forall_forall. intros b Hb. apply In_gen_base_maps in Hb. destruct Hb as [W [E|E]]; [discriminate|]. injection E as E. auto.
  - exists (id_map d). split; [apply wf_id|]. unfold cp_mul. cbn [id_map time_rev cside negb]. destruct (action_cube d (id_map d) (id_map d) (Z.of_nat N) (fst c) (wf_id d) (wf_id d) (proj1 G1)) as (_ & _ & E1 & _).
    destruct (action_cube d (id_map d) (id_map d) (Z.of_nat N) (snd c) (wf_id d) (wf_id d) (proj1 G2)) as (_ & _ & E2 & _). rewrite E1, E2. destruct c; auto.
Qed.
Lemma facet_cube_spec c : is_facet_cube N c = true <-> exists j, j < length c /\ (nth j c 0%Z = 0%Z \/ nth j c 0%Z = (Z.of_nat N - 1)%Z).
Proof.
  unfold is_facet_cube. rewrite existsb_exists. setoid_rewrite orb_true_iff. setoid_rewrite Z.eqb_eq. split.
  - intros (x & Hx & H). destruct (In_nth _ _ 0%Z Hx) as (j & Hj & E). exists j. rewrite E. auto.
  - intros (j & Hj & H). exists (nth j c 0%Z). split; auto. apply nth_In; auto.
Qed.
Lemma subseq2 {A} (l : list A) a b : In a l -> In b l -> a <> b -> subseq [a; b] l \/ subseq [b; a] l.
Proof.
  assert (X : forall (l : list A) a, In a l -> subseq [a] l).
  { clear. induction l as [|x l IH]; intros a; [intros []|]. intros [<-|H]; [apply ss_take, subseq_nil|apply ss_skip; auto]. }
  induction l as [|x l IH]; [intros []|]. intros [->|Ha] [->|Hb] NE; [congruence|left; apply ss_take; auto|right; apply ss_take; auto|]. destruct (IH Ha Hb NE); [left|right]; apply ss_skip; auto.
Qed.
Lemma facet_pairs_good c : In c (facet_pairs d N) -> good_pair c.
Proof.
  unfold facet_pairs. intros H. apply in_flat_map in H. destruct H as (l & Hl & HC). apply In_combs in Hl. destruct Hl as [SS HL]. destruct l as [|a [|b [|]]]; try destruct HC as [<-|[]]; try destruct HC.
  assert (HX : forall x, In x [a; b] -> grid_cube d N x) by (intros x Hx; apply (subseq_In _ _ x SS) in Hx; apply filter_In in Hx; apply In_grid; tauto).
  assert (ND : NoDup [a; b]) by (apply (subseq_NoDup _ _ SS), NoDup_filter, NoDup_lprod_rep, P_Facets.NoDup_zrange). unfold good_pair. cbn [fst snd]. split; [apply HX; left; auto|split; [apply HX; right; left; auto|]].
  inversion ND as [|? ? NI _]; subst. intros ->. apply NI. left; auto.
Qed.
Lemma In_facet_pairs a b : grid_cube d N a -> grid_cube d N b -> a <> b -> is_facet_cube N a = true -> is_facet_cube N b = true -> In (a, b) (facet_pairs d N) \/ In (b, a) (facet_pairs d N).
Proof.
  intros GA GB NE FA FB. unfold facet_pairs. destruct (subseq2 (filter (is_facet_cube N) (lprod_rep (zrange N) d)) a b) as [S|S]; auto; try (apply filter_In; split; auto; apply In_grid; auto); [left|right]; apply in_flat_map.
  - exists [a; b]. split; [apply In_combs; auto|left; auto].
  - exists [b; a]. split; [apply In_combs; auto|left; auto].
Qed.
Lemma pairs_good pairs : In pairs (std_pairs_list d N m) -> Forall good_pair pairs.
Proof.
  intros H. apply combs_repl_sound in H. destruct H as [_ H]. eapply Forall_impl; [|exact H]. cbn. intros c Hc. apply (Permutation_in _ (sorted_perm _ _)) in Hc. apply (proj1 (In_dedup _ cpair_eqb_ok _ _)) in Hc.
  apply in_map_iff in Hc. destruct Hc as (c0 & <- & HI). pose proof (facet_pairs_good c0 HI) as GP. destruct (std_pair_image c0 GP) as (b & W & ->). apply good_pair_mul; auto.
Qed.
Lemma cpair_dec : forall x y : cpair, {x = y} + {x <> y}.
Proof. intros x y. destruct (cpair_eqb x y) eqn:E; [left; apply cpair_eqb_ok; auto|right; intros ->; rewrite (proj2 (cpair_eqb_ok y y) eq_refl) in E; discriminate]. Qed.

Lemma gen_valid groups : all_groups d N m = Some groups -> Forall (valid_cand d N m) (candidates groups).
Proof.
  intros E. destruct all_groups_eq as (groups' & E' & HC). rewrite E' in E. injection E as ->. apply Forall_forall. intros c Hc. apply HC in Hc. destruct Hc as (pairs & sp & HP & -> & HS).
  pose proof (pairs_good pairs HP) as GP. pose proof (std_pairs_len pairs HP) as HL. exists (cu_of pairs), sp. cbn [fst snd]. split; auto.
  assert (GN : forall p, p < m -> good_pair (nth p pairs ([], []))) by (intros p Hp; rewrite Forall_forall in GP; apply GP, nth_In; lia).
  split; [|split; [|split]].
  - intros p w Hp. destruct (GN p Hp) as (A & B & _). destruct w; auto.
  - intros p w Hp. apply HS; auto.
  - intros p Hp. destruct (GN p Hp) as (_ & _ & NE). auto.
  - apply pairs_bnd; auto.
Qed.

(** ** Coverage *)
Notation system := (chains_ok point_ops d N m (unit_point d) is_point).
Lemma side_unit Zs g p w : system Zs g -> p < m -> unit_point d (side w (g p)).
Proof. intros HS Hp. destruct (HS p Hp) as (_ & (A & B) & _). destruct w; auto. Qed.
Lemma sys_touch Zs g cu sp p w : system Zs g -> sys_bnd m Zs cu sp -> p < m -> on_boundary (side w (g p)) ->
  is_facet_cube N (cu p w) = true /\ touch_same_facet N (cu p w) (apply_cube (sp_bm (sp p w)) (Z.of_nat N) (cu (sp_pnum (sp p w)) (xorb w (time_rev (sp_bm (sp p w)))))) = true.
Proof.
  intros HS SB Hp (j & HJ & HE). destruct (sys_cu d N m Hd HN Hm Zs g cu sp HS SB) as (GC & WS & _). pose proof (sys_eqs d N m Zs g cu sp HS SB) as GE.
  destruct (WS p w Hp) as [W Hq]. pose proof (proj2 (GE p w Hp)) as P1. rewrite side_mul in P1. set (b := sp_bm (sp p w)) in *. set (q := sp_pnum (sp p w)) in *. set (w' := xorb w (time_rev b)) in *.
  pose proof (side_unit Zs g q w' HS Hq) as UQ. pose proof (side_unit Zs g p w HS Hp) as UP. rewrite (proj1 UP) in HJ. pose proof (lw_V _ _ _ _ _ _ (point_laws d N ltac:(lia))) as LV. pose proof (LV b _ W UQ) as UI.
  pose proof (edge_place d N _ _ _ j ltac:(lia) (GC p w Hp) UI P1 HJ) as [A0 A1].
  pose proof (proj2 (GE q w' Hq)) as P2. rewrite side_mul in P2. apply (place_mul d N b) in P2; auto; try lia; [|apply GC; auto]. destruct (WS q w' Hq) as [W2 Hr].
  pose proof (edge_place d N _ _ _ j ltac:(lia) (P_CurveAct.grid_apply d b N _ W (GC q w' Hq)) (LV b _ W (LV _ _ W2 (side_unit Zs g _ _ HS Hr))) P2 HJ) as [B0 B1].
  assert (EX : exists e, (e = 0 \/ e = Z.of_nat N - 1)%Z /\ nth j (cu p w) 0%Z = e /\ nth j (apply_cube b (Z.of_nat N) (cu q w')) 0%Z = e).
  { destruct HE as [HE|HE]; [destruct (A0 HE) as [E1 E2]; destruct (B0 E2); exists 0%Z|destruct (A1 HE) as [E1 E2]; destruct (B1 E2); exists (Z.of_nat N - 1)%Z]; auto. }
  destruct EX as (e & He & E1 & E2). pose proof (proj1 (GC p w Hp)) as L1. pose proof (proj1 (P_CurveAct.grid_apply d b N _ W (GC q w' Hq))) as L2. split.
  - apply facet_cube_spec. exists j. rewrite L1, E1. split; auto.
  - unfold touch_same_facet. apply existsb_exists. exists (e, e). split.
    + apply (nth_error_In _ j). apply nth_error_combine; rewrite (nth_error_nth' _ 0%Z); auto; try lia; congruence.
    + cbn [fst snd]. rewrite Z.eqb_refl. cbn [andb]. apply orb_true_iff. rewrite !Z.eqb_eq. auto.
Qed.
Lemma gen_cover groups : all_groups d N m = Some groups -> forall Zs g, system Zs g -> (forall p, p < m -> gface false (g p)) ->
  exists s t b Zs' cu sp protos, perm_on m s t /\ (forall i, i < m -> wf_bm d (b i)) /\ system Zs' (tr_l point_ops s b g) /\ sys_bnd m Zs' cu sp /\ proto_bnd d N m cu protos /\
    In (protos, spec_seq sp (range m)) (candidates groups).
Proof.
  intros E Zs g HS HF. destruct all_groups_eq as (groups' & E' & HC). rewrite E' in E. injection E as ->. destruct (sys_has_bnd d N m Zs g HS) as (cu & sp & SB).
  destruct (sys_cu d N m Hd HN Hm Zs g cu sp HS SB) as (GC & WS & NE). assert (HB2 : forall p w, p < m -> on_boundary (side w (g p))) by (intros p w Hp; destruct (HF p Hp); destruct w; auto).
  set (SL := sorted cpair_cmp (dedup cpair_eqb (map (std_pair d N) (facet_pairs d N)))).
  destruct (fin_choice (fun p b => wf_bm d b /\ In (cp_mul b (cu p false, cu p true)) SL) (id_map d) m) as (f & Hf).
  { intros p Hp. assert (IS : forall c, In c (facet_pairs d N) -> In (std_pair d N c) SL).
    { intros c Hc. unfold SL. apply (Permutation_in _ (Permutation_sym (sorted_perm _ _))). apply (In_dedup _ cpair_eqb_ok). apply in_map; auto. }
    destruct (In_facet_pairs (cu p false) (cu p true)) as [HI|HI]; auto; try (apply (sys_touch Zs g cu sp); auto).
    - destruct (std_pair_image _ (facet_pairs_good _ HI)) as (b & W & EB). exists b. split; auto. rewrite <- EB. auto.
    - destruct (std_pair_image _ (facet_pairs_good _ HI)) as (b & W & EB). exists (BM (coords b) (negb (time_rev b))). split; [exact W|]. apply IS in HI. rewrite EB in HI. unfold cp_mul in *. cbn [time_rev] in *. destruct (time_rev b); exact HI. }
  destruct (combs_repl_complete SL cpair_dec m (map (fun p => cp_mul (f p) (cu p false, cu p true)) (range m))) as (pairs & HP & PM).
  { rewrite map_length. unfold range. apply seq_length. }
  { rewrite Forall_map, Forall_forall. intros p Hp. apply in_seq in Hp. apply Hf. lia. }
  destruct (perm_index m _ pairs PM) as (s & t & PO & HI). pose proof PO as [P1 _]. set (b := fun i => f (s i)). assert (HB : forall i, i < m -> wf_bm d (b i)) by (intros i Hi; apply Hf, P1; auto).
  pose proof (tr_ok point_ops true d N m _ _ (point_laws d N ltac:(lia)) (G_ge2 d N m Hd HN Hm) s t b Zs g PO HB HS) as HS'. pose proof (tr_bnd N m s t b Zs cu sp PO SB) as SB'.
  pose proof (std_pairs_len pairs HP) as HL.
  assert (CU : forall p w, p < m -> cu_of pairs p w = apply_cube (b p) (Z.of_nat N) (cu (s p) (xorb w (time_rev (b p))))).
  { intros p w Hp. unfold cu_of. rewrite (nth_error_nth _ _ _ (HI p Hp)). rewrite cside_mul. unfold b. destruct (xorb w (time_rev (f (s p)))); auto. }
  eexists s, t, b, _, (cu_of pairs), _, (map (pair_proto d N) pairs). split; [exact PO|]. split; [exact HB|]. split; [exact HS'|]. split; [|split; [apply pairs_bnd; auto|]].
  - intros p w Hp. rewrite CU by auto. apply (SB' p w Hp).
  - apply HC. eexists pairs, _. split; [exact HP|]. split; [reflexivity|]. cbv beta. intros p w Hp. destruct (sys_cu d N m Hd HN Hm _ _ _ _ HS' SB') as (_ & WS' & _). split; [apply (WS' p w Hp)|].
    unfold touches. rewrite !CU; auto; [|apply (WS' p w Hp)]. apply (sys_touch _ _ _ _ p w HS' SB' Hp).
    pose proof (gface_mul d false (b p) (g (s p)) (HB p Hp)) as GM. destruct GM as [GM1 GM2]; [|apply HF, P1; auto|destruct w; auto].
    eapply (sys_dim d N m Zs); eauto. apply P1; auto.
Qed.
End Gen.
