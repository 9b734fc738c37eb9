(** generate_paths_generic with a parent path: the paths along the parent whose links meet its links. *)
From Verif Require Import Py L_Py L_Qc L_BaseMaps M_BaseMaps M_Subsets M_Paths M_PathTree M_PathGen S_BaseMaps S_Subsets S_PathGen S_PathTree
  P_GenMaps P_Actions P_Subsets P_Points P_Facets P_Paths P_PathTree P_PathGlue P_PathGrow P_PathGen P_PathNext P_PathChain P_PathYield P_PathAll P_PathAgree.
From Coq Require Import Permutation.
Local Open Scope nat_scope.

Lemma ofilter_filter {A} (F : A -> option bool) (g : A -> bool) l : (forall x, In x l -> F x = Some (g x)) -> ofilter F l = Some (filter g l).
Proof.
  induction l as [|x l IH]; intros H; cbn; auto. rewrite H by (left; auto). rewrite IH by (intros; apply H; right; auto). destruct (g x); auto.
Qed.
Lemma enum_get {K} (keqb : K -> K -> bool) (H : eqb_ok keqb) (l : list K) : NoDup l -> forall s m,
  let r := fold_left (fun m ic => dset keqb m (snd ic) (fst ic)) (combine (seq s (length l)) l) m in
  (forall k x, nth_error l k = Some x -> dget keqb r x = Some (s + k)) /\ (forall x, ~ In x l -> dget keqb r x = dget keqb m x).
Proof.
  induction l as [|a l IH]; intros HN s m; cbn [length seq combine fold_left].
  - split; auto. intros [|k] x; discriminate.
  - inversion HN as [|? ? N1 N2]; subst. cbn [fst snd]. specialize (IH N2 (S s) (dset keqb m a s)). cbn zeta in IH. destruct IH as (I1 & I2). split.
    + intros [|k] x E; cbn in E.
      * injection E as <-. rewrite I2 by auto. rewrite dget_dset by auto. assert (keqb a a = true) as -> by (apply H; auto). f_equal. lia.
      * rewrite (I1 k x E). f_equal. lia.
    + intros x Hx. rewrite I2 by (intros ?; apply Hx; right; auto). rewrite dget_dset by auto. destruct (keqb x a) eqn:E; auto. apply H in E. subst. destruct Hx; left; auto.
Qed.
Lemma pyget_of_nat {A} (l : list A) k : pyget l (Z.of_nat k) = nth_error l k.
Proof. unfold pyget. destruct (Z.leb_spec 0 (Z.of_nat k)); [|lia]. rewrite Nat2Z.id. auto. Qed.
Lemma Forall2_nth {A B} (R : A -> B -> Prop) l : forall m, Forall2 R l m <-> length l = length m /\ forall i x y, nth_error l i = Some x -> nth_error m i = Some y -> R x y.
Proof.
  induction l as [|a l IH]; intros [|b m]; split.
  - intros _. split; auto. intros [|i] x y; discriminate.
  - constructor.
  - intros H; inversion H.
  - intros (H & _); discriminate.
  - intros H; inversion H.
  - intros (H & _); discriminate.
  - intros H. inversion H as [|? ? ? ? H1 H2]; subst. apply IH in H2. destruct H2 as (E & H2). split; [cbn; lia|]. intros [|i] x y E1 E2; cbn in *; [congruence|eauto].
  - intros (E & H). constructor; [apply (H 0); auto|]. apply IH. split; [cbn in E; lia|]. intros i x y E1 E2. apply (H (S i)); auto.
Qed.

Section Parent.
Context {T : Type} (O : subset_ops T) (pt : bool) (d N : nat) (V : T -> Prop) (mem : T -> list Qc -> Prop) (L : laws O pt d N V mem).
Context (HInt : forall s t, V s -> V t -> (so_intersects O s t = true <-> exists x, mem s x /\ mem t x)).
Context (HMap : forall c s t r, V s -> V t -> grid_cube d N c -> so_intersects O t s = true -> so_map_to_cube O N c s = Some r -> exists r', so_map_to_cube O N c t = Some r').
Context (links : list (link T)) (HV : Forall (fun l => V (entrance l) /\ V (exit l)) links).
Context (mc : option Z) (H2 : 2 <= N ^ d).
Notation mul := (so_mul O).
Notation avail := (image_of mul d links).
Notation eqb := (so_eqb O).
Notation chain := (list (list Z * link T)).
Notation tbl := (e2l O d links).
Context (zp : chain) (P : path T) (HP : mkp O d N zp = Some P) (ZP1 : NoDup (map fst zp)) (ZP2 : forall c, grid_cube d N c <-> In c (map fst zp))
  (ZP3 : Forall (fun cl => V (entrance (snd cl)) /\ V (exit (snd cl))) zp).

Lemma zp_length : length zp = N ^ d.
Proof. rewrite <- (map_length fst). apply (proj2 (all_visited d N (map fst zp) ZP1 ltac:(rewrite Forall_forall; intros c; apply ZP2))). auto. Qed.
Lemma zp_cubes : pr_cubes (pa_proto P) = map (fun x => Some (fst x)) zp. Proof. apply mkp_shape in HP. destruct HP as (-> & _). auto. Qed.
Lemma zp_links : pa_links P = map snd zp. Proof. apply mkp_shape in HP. apply HP. Qed.

(** position k of the parent *)
Definition at_pos (k : nat) (x : list Z * link T) : Prop :=
  exists pl, nth_error zp k = Some (fst x, pl) /\ lk_intersects (so_intersects O) (snd x) pl = true.
Definition at_posb (k : nat) (x : list Z * link T) : bool :=
  match nth_error zp k with Some (c, pl) => z_list_eqb (fst x) c && lk_intersects (so_intersects O) (snd x) pl | None => false end.
Lemma zl_ok : eqb_ok z_list_eqb. Proof. apply list_eqb_ok. intros x y. apply Z.eqb_eq. Qed.
Lemma at_posb_ok k x : at_posb k x = true <-> at_pos k x.
Proof.
  unfold at_posb, at_pos. destruct (nth_error zp k) as [[c pl]|].
  - rewrite andb_true_iff, (zl_ok (fst x) c). split; [intros (-> & H); eauto|intros (pl' & [= -> ->] & H); auto].
  - split; [discriminate|intros (pl & E & _); discriminate].
Qed.
Lemma at_pos_fun k k' x y : at_pos k x -> at_pos k' y -> fst x = fst y -> k = k'.
Proof.
  intros (pl & E & _) (pl' & E' & _) EQ. rewrite NoDup_nth_error in ZP1. apply ZP1.
  - rewrite map_length. apply nth_error_Some. congruence.
  - rewrite !nth_error_map, E, E'. cbn. congruence.
Qed.
Lemma at_pos_lt k x : at_pos k x -> k < N ^ d.
Proof. intros (pl & E & _). rewrite <- zp_length. apply nth_error_Some. congruence. Qed.
Lemma cnum_get k x : at_pos k x -> dget ocube_eqb (cube2cnum P) (Some (fst x)) = Some k.
Proof.
  intros (pl & E & _). unfold cube2cnum, enumerate. rewrite zp_cubes.
  assert (HN : NoDup (map (fun x : list Z * link T => Some (fst x)) zp)). { rewrite <- (map_map fst Some). apply NoDup_map_inj; auto. intros ? ? _ _. congruence. }
  destruct (enum_get ocube_eqb ocube_eqb_ok _ HN 0 []) as (I & _). apply (I k). rewrite nth_error_map, E. auto.
Qed.
Lemma check_val k c l : k < N ^ d -> check_parent O P (Z.of_nat k) c l = Some (at_posb k (c, l)).
Proof.
  intros Hk. unfold check_parent. rewrite !pyget_of_nat, zp_cubes, zp_links, !nth_error_map. unfold at_posb.
  destruct (nth_error zp k) as [[c' pl]|] eqn:E; [|apply nth_error_None in E; rewrite zp_length in E; lia]. cbn [option_map fst snd ocube_eqb].
  change (list_eqb Z.eqb c c') with (z_list_eqb c c'). destruct (z_list_eqb c c'); auto.
Qed.

Context (e2n : list (T * list (list Z * link T))).
Context (HN : forall x, key O d links x -> exists l, dget (so_eqb O) e2n x = Some l /\ next_ok O d links mc x l).
Notation next := (gen_next O e2n None).
Notation prev := (gen_prev O e2n None).
Notation nextP := (gen_next O e2n (Some P)).
Notation prevP := (gen_prev O e2n (Some P)).
Lemma next_val k x r : at_pos k x -> S k < N ^ d -> next (fst x) (snd x) = Some r ->
  nextP (fst x) (snd x) = Some (filter (fun dl => at_posb (S k) (zadd (fst x) (fst dl), snd dl)) r).
Proof.
  intros HA HK. rewrite next_eq. intros E. unfold gen_next. rewrite E. cbn [obind]. apply ofilter_filter. intros dl _. unfold keep_next, check_next.
  rewrite (cnum_get k x HA). replace (Z.of_nat k + 1)%Z with (Z.of_nat (S k)) by lia. apply check_val; auto.
Qed.
Lemma prev_val k x r : at_pos (S k) x -> prev (fst x) (snd x) = Some r ->
  prevP (fst x) (snd x) = Some (filter (fun dl => at_posb k (zadd (fst x) (fst dl), snd dl)) r).
Proof.
  intros HA. rewrite prev_eq. intros E. unfold gen_prev. destruct (dget eqb e2n (entrance (snd x))) as [r0|]; [|discriminate]. cbn in E. injection E as <-. cbn [obind].
  apply ofilter_filter. intros dl _. unfold keep_next, check_next.
  rewrite (cnum_get (S k) x HA). replace (Z.of_nat (S k) + -1)%Z with (Z.of_nat k) by lia. apply check_val. apply at_pos_lt in HA. lia.
Qed.

(** the step functions, cut off outside the parent *)
Definition posb (ks : list nat) (x : list Z * link T) : bool := existsb (fun k => at_posb k x) ks.
Lemma posb_ok ks x : posb ks x = true <-> exists k, In k ks /\ at_pos k x.
Proof. unfold posb. rewrite existsb_exists. split; intros (k & A & B); exists k; split; auto; apply at_posb_ok; auto. Qed.
Definition nextC (c : list Z) (l : link T) := if posb (seq 0 (N ^ d - 1)) (c, l) then nextP c l else Some [].
Definition prevC (c : list Z) (l : link T) := if posb (seq 1 (N ^ d - 1)) (c, l) then prevP c l else Some [].
Lemma nextC_case x : grid_cube d N (fst x) -> avail (snd x) ->
  (exists k r, at_pos k x /\ S k < N ^ d /\ next (fst x) (snd x) = Some r /\ NoDup r /\ Forall (fun ds => length (fst ds) = d /\ avail (snd ds)) r /\
     nextC (fst x) (snd x) = Some (filter (fun dl => at_posb (S k) (zadd (fst x) (fst dl), snd dl)) r)) \/
  ((forall k, at_pos k x -> N ^ d <= S k) /\ nextC (fst x) (snd x) = Some []).
Proof.
  intros HG HA. unfold nextC. rewrite <- surjective_pairing. destruct (posb (seq 0 (N ^ d - 1)) x) eqn:E.
  - left. apply posb_ok in E. destruct E as (k & Hk & HP'). apply in_seq in Hk.
    destruct (next_step_ok O pt d N V mem L links HV mc e2n HN (fst x) (snd x) HG HA) as (r & Er & R1 & R2). exists k, r. split; auto. split; [lia|]. split; auto. split; auto. split; auto.
    apply next_val; auto. lia.
  - right. split; auto. intros k Hk. destruct (Nat.lt_ge_cases (S k) (N ^ d)); auto. exfalso. assert (posb (seq 0 (N ^ d - 1)) x = true); [|congruence].
    apply posb_ok. exists k. split; auto. apply in_seq. lia.
Qed.
Lemma prevC_case x : grid_cube d N (fst x) -> avail (snd x) ->
  (exists k r, at_pos (S k) x /\ prev (fst x) (snd x) = Some r /\ NoDup r /\ Forall (fun ds => length (fst ds) = d /\ avail (snd ds)) r /\
     prevC (fst x) (snd x) = Some (filter (fun dl => at_posb k (zadd (fst x) (fst dl), snd dl)) r)) \/
  ((forall k, ~ at_pos (S k) x) /\ prevC (fst x) (snd x) = Some []).
Proof.
  intros HG HA. unfold prevC. rewrite <- surjective_pairing. destruct (posb (seq 1 (N ^ d - 1)) x) eqn:E.
  - left. apply posb_ok in E. destruct E as (k & Hk & HP'). apply in_seq in Hk. destruct k as [|k]; [lia|].
    destruct (prev_step_ok O pt d N V mem L links HV mc e2n HN (fst x) (snd x) HG HA) as (r & Er & R1 & R2). exists k, r. split; auto. split; auto. split; auto. split; auto.
    apply prev_val; auto.
  - right. split; auto. intros k Hk. assert (posb (seq 1 (N ^ d - 1)) x = true); [|congruence].
    apply posb_ok. exists (S k). split; auto. apply at_pos_lt in Hk. apply in_seq. lia.
Qed.
Lemma nextC_ok : step_ok d N avail nextC.
Proof.
  intros c l HG HA. destruct (nextC_case (c, l) HG HA) as [(k & r & _ & _ & _ & R1 & R2 & E)|(_ & E)]; cbn [fst snd] in E; eexists; (split; [exact E|]).
  - split; [apply NoDup_filter; auto|]. rewrite Forall_forall in R2 |- *. intros ds Hds. apply filter_In in Hds. apply R2. tauto.
  - split; constructor.
Qed.
Lemma prevC_ok : step_ok d N avail prevC.
Proof.
  intros c l HG HA. destruct (prevC_case (c, l) HG HA) as [(k & r & _ & _ & R1 & R2 & E)|(_ & E)]; cbn [fst snd] in E; eexists; (split; [exact E|]).
  - split; [apply NoDup_filter; auto|]. rewrite Forall_forall in R2 |- *. intros ds Hds. apply filter_In in Hds. apply R2. tauto.
  - split; constructor.
Qed.
Notation lnk := (linked O d N mem links mc).
Lemma offers_nextC x y : grid_cube d N (fst x) -> grid_cube d N (fst y) -> avail (snd x) ->
  (offers nextC x y <-> exists k, at_pos k x /\ at_pos (S k) y /\ lnk x y).
Proof.
  intros GX GY HA. setoid_rewrite <- (offers_next O pt d N V mem L links HV mc e2n HN x y GX GY HA).
  destruct (nextC_case x GX HA) as [(k & r & K1 & K2 & Er & R1 & R2 & E)|(K & E)]; unfold offers; rewrite E.
  - split.
    + intros (l & dl & [= <-] & Hin & HL & EY). apply filter_In in Hin. destruct Hin as (Hin & HB). apply at_posb_ok in HB. cbn [fst snd] in HB.
      exists k. split; auto. split; [|exists r, dl; auto]. replace y with (fst y, snd y) by (destruct y; auto). rewrite EY. exact HB.
    + intros (k' & K1' & K3 & (l & dl & El & Hin & HL & EY)). rewrite (at_pos_fun k' k x x K1' K1 eq_refl) in K3. eexists _, dl. split; [reflexivity|].
      rewrite Er in El. injection El as <-. split; auto. apply filter_In. split; auto. apply at_posb_ok. cbn [fst snd].
      change (zadd (fst x) dl) with (map (fun cd : Z * Z => (fst cd + snd cd)%Z) (combine (fst x) dl)). rewrite <- EY. destruct y; auto.
  - split; [intros (l & dl & [= <-] & [] & _)|]. intros (k & K1 & K2 & _). apply K in K1. apply at_pos_lt in K2. lia.
Qed.
Lemma offers_prevC x y : grid_cube d N (fst x) -> grid_cube d N (fst y) -> avail (snd x) -> avail (snd y) ->
  (offers prevC y x <-> exists k, at_pos k x /\ at_pos (S k) y /\ lnk x y).
Proof.
  intros GX GY HA HB. setoid_rewrite <- (offers_prev O pt d N V mem L links HV mc e2n HN x y GX GY HA HB).
  destruct (prevC_case y GY HB) as [(k & r & K1 & Er & R1 & R2 & E)|(K & E)]; unfold offers; rewrite E.
  - split.
    + intros (l & dl & [= <-] & Hin & HL & EY). apply filter_In in Hin. destruct Hin as (Hin & HC). apply at_posb_ok in HC. cbn [fst snd] in HC.
      exists k. split; [|split; auto; exists r, dl; auto]. replace x with (fst x, snd x) by (destruct x; auto). rewrite EY. exact HC.
    + intros (k' & K3 & K1' & (l & dl & El & Hin & HL & EY)). pose proof (at_pos_fun (S k') (S k) y y K1' K1 eq_refl) as EK. injection EK as ->. eexists _, dl. split; [reflexivity|].
      rewrite Er in El. injection El as <-. split; auto. apply filter_In. split; auto. apply at_posb_ok. cbn [fst snd].
      change (zadd (fst y) dl) with (map (fun cd : Z * Z => (fst cd + snd cd)%Z) (combine (fst y) dl)). rewrite <- EY. destruct x; auto.
  - split; [intros (l & dl & [= <-] & [] & _)|]. intros (k & _ & K2 & _). apply K in K2. destruct K2.
Qed.
Lemma C_converse : converse d N avail nextC prevC.
Proof. intros x y G1 G2 A1 A2. rewrite offers_nextC, offers_prevC; auto. tauto. Qed.

(** the generator never leaves the parent *)
Definition InvN (n : nat) (x : list Z * link T) : Prop := 1 <= n /\ avail (snd x) /\ at_pos (n - 1) x.
Definition InvP (n : nat) (x : list Z * link T) : Prop := 1 <= n <= N ^ d /\ avail (snd x) /\ at_pos (N ^ d - n) x.
Lemma at_grid k x : at_pos k x -> grid_cube d N (fst x).
Proof. intros (pl & E & _). apply ZP2. apply nth_error_In in E. apply (in_map fst) in E. auto. Qed.
Lemma InvN_agree n h : InvN n h -> n < N ^ d -> nextP (fst h) (snd h) = nextC (fst h) (snd h).
Proof.
  intros (H1 & HA & HQ) Hn. unfold nextC. rewrite <- surjective_pairing. assert (posb (seq 0 (N ^ d - 1)) h = true) as ->; auto. apply posb_ok. exists (n - 1). split; auto. apply in_seq. lia.
Qed.
Lemma InvN_step n h l dl s : InvN n h -> nextC (fst h) (snd h) = Some l -> In (dl, s) l -> InvN (S n) (zadd (fst h) dl, s).
Proof.
  intros (H1 & HA & HQ) E Hin. destruct (nextC_case h (at_grid _ _ HQ) HA) as [(k & r & K1 & K2 & Er & R1 & R2 & E')|(_ & E')]; rewrite E in E'; injection E' as ->; [|destruct Hin].
  apply filter_In in Hin. destruct Hin as (Hin & HB). apply at_posb_ok in HB. rewrite Forall_forall in R2. apply R2 in Hin. cbn [fst snd] in *. split; [lia|]. split; [apply Hin|].
  rewrite (at_pos_fun k (n - 1) h h K1 HQ eq_refl) in HB. replace (S n - 1) with (S (n - 1)) by lia. auto.
Qed.
Lemma InvP_agree n h : InvP n h -> n < N ^ d -> prevP (fst h) (snd h) = prevC (fst h) (snd h).
Proof.
  intros (H1 & HA & HQ) Hn. unfold prevC. rewrite <- surjective_pairing. assert (posb (seq 1 (N ^ d - 1)) h = true) as ->; auto. apply posb_ok. exists (N ^ d - n). split; auto. apply in_seq. lia.
Qed.
Lemma InvP_step n h l dl s : InvP n h -> prevC (fst h) (snd h) = Some l -> In (dl, s) l -> InvP (S n) (zadd (fst h) dl, s).
Proof.
  intros (H1 & HA & HQ) E Hin. destruct (prevC_case h (at_grid _ _ HQ) HA) as [(k & r & K1 & Er & R1 & R2 & E')|(_ & E')]; rewrite E in E'; injection E' as ->; [|destruct Hin].
  apply filter_In in Hin. destruct Hin as (Hin & HB). apply at_posb_ok in HB. rewrite Forall_forall in R2. apply R2 in Hin. cbn [fst snd] in *.
  pose proof (at_pos_fun _ (N ^ d - n) h h K1 HQ eq_refl). split; [lia|]. split; [apply Hin|]. replace (N ^ d - S n) with k by lia. auto.
Qed.

(** starting and final nodes *)
Lemma nodes_parent c pl s k (flip : bool) cnum : nth_error zp k = Some (c, pl) -> s = (if flip then exit pl else entrance pl) ->
  (forall (c' : list Z) (l : link T), check_parent O P cnum c' l = check_parent O P (Z.of_nat k) c' l) ->
  exists r, nodes O pt tbl (Some P) cnum flip [(c, s)] = Some r /\ NoDup r /\ forall x, In x r <-> avail (snd x) /\ at_pos k x.
Proof.
  intros EK ES EC. assert (HK : k < N ^ d) by (rewrite <- zp_length; apply nth_error_Some; congruence).
  unfold nodes. cbn [omap fst snd]. destruct (intersected_links_spec O pt d N V mem L links s) as (ls & E & LN & LI). rewrite E. cbn [obind].
  rewrite (ofilter_filter _ (at_posb k)). 2:{ intros [c' l] _. cbn [fst snd]. rewrite EC. apply check_val; auto. }
  cbn [option_map concat]. rewrite app_nil_r. eexists. split; [reflexivity|]. split.
  - apply NoDup_filter. apply NoDup_map_inj; auto. intros [a1 b1] [a2 b2] _ _. destruct flip; unfold lk_inv; cbn; congruence.
  - intros [c' l]. rewrite filter_In, at_posb_ok, in_map_iff. cbn [snd]. split.
    + intros ((l0 & [= <- <-] & Hl) & HA). split; auto. apply LI in Hl. destruct flip; [|tauto]. apply (avail_inv O pt d N V mem L); tauto.
    + intros (HA & HQ). split; auto. pose proof HQ as (pl' & EK' & HX). cbn [fst snd] in EK', HX. rewrite EK in EK'. injection EK' as <- <-. unfold lk_intersects in HX. apply andb_true_iff in HX.
      exists (if flip then lk_inv l else l). split; [destruct flip; auto; rewrite lk_inv_inv; auto|]. apply LI. subst s. destruct flip; [|tauto].
      split; [apply (avail_inv O pt d N V mem L); auto|cbn; tauto].
Qed.

(** the chains along the parent *)
Definition along (x y : list Z * link T) : Prop := fst x = fst y /\ lk_intersects (so_intersects O) (snd x) (snd y) = true.
Lemma ham_parent start finish z :
  (forall x, In x start <-> avail (snd x) /\ at_pos 0 x) -> (forall x, In x finish <-> avail (snd x) /\ at_pos (N ^ d - 1) x) ->
  (hamiltonian d N nextC start finish z <-> good_chain mem mul d N links mc z /\ Forall2 along z zp).
Proof.
  intros HS HF. unfold hamiltonian. split.
  - intros ((x0 & E0 & I0) & (x1 & E1 & I1) & HT & HD & HC). apply HS in I0. apply HF in I1.
    assert (HG : forall x, In x z -> grid_cube d N (fst x)) by (intros x Hx; apply HC; apply in_map; auto).
    assert (HA : Forall (fun x => avail (snd x)) z).
    { apply (good_forward d N avail nextC nextC_ok); auto; [rewrite Forall_forall; auto|]. exists x0. tauto. }
    assert (HLz : length z = N ^ d). { rewrite <- (map_length fst). apply (proj2 (all_visited d N (map fst z) HD ltac:(rewrite Forall_forall; intros c; apply HC))). auto. }
    assert (HA' := HA). rewrite Forall_forall in HA'.
    assert (HO : forall i x y, nth_error z i = Some x -> nth_error z (S i) = Some y -> exists k, at_pos k x /\ at_pos (S k) y /\ lnk x y).
    { intros i x y Ex Ey. pose proof (proj1 (steps_nth _ _) HT i _ _ Ex Ey) as HO. apply nth_error_In in Ex, Ey. apply offers_nextC in HO; auto. }
    assert (HK : forall i x, nth_error z i = Some x -> at_pos i x).
    { induction i as [|i IH]; intros y Ey.
      - destruct z; [discriminate|]. cbn in *. injection E0 as ->. injection Ey as ->. tauto.
      - destruct (nth_error z i) as [x|] eqn:Ex; [|apply nth_error_None in Ex; assert (S i < length z) by (apply nth_error_Some; congruence); lia].
        destruct (HO i x y Ex Ey) as (k & K1 & K2 & _). rewrite <- (at_pos_fun _ _ x x K1 (IH x eq_refl) eq_refl). auto. }
    split.
    + constructor; auto. intros i c l c' l' Ex Ey. destruct (HO i _ _ Ex Ey) as (k & _ & _ & (_ & _ & B1 & B2)). auto.
    + apply Forall2_nth. split; [rewrite zp_length; auto|]. intros i x y Ex Ey. apply HK in Ex. destruct Ex as (pl & E & HX). rewrite E in Ey. injection Ey as <-. split; auto.
  - intros ([G1 G2 G3 G4] & HF2). apply Forall2_nth in HF2. destruct HF2 as (HLz & HF2). rewrite Forall_forall in G3. rewrite zp_length in HLz.
    assert (HG : forall x, In x z -> grid_cube d N (fst x)) by (intros x Hx; apply G2; apply in_map; auto).
    assert (HK : forall i x, nth_error z i = Some x -> at_pos i x).
    { intros i x Ex. assert (HL : i < length z) by (apply nth_error_Some; congruence). destruct (nth_error zp i) as [[c pl]|] eqn:E; [|apply nth_error_None in E; rewrite zp_length in E; lia].
      destruct (HF2 i x _ Ex E) as (A & B). cbn [fst snd] in *. exists pl. rewrite A. auto. }
    split; [|split; [|split; [|split; auto]]].
    + destruct z as [|x z']; [cbn in HLz; lia|]. exists x. split; auto. apply HS. split; [apply G3; left; auto|apply (HK 0); auto].
    + destruct (nth_error z (N ^ d - 1)) as [x|] eqn:E; [|apply nth_error_None in E; lia]. exists x. split.
      * rewrite <- last_hd_rev, HLz. auto.
      * apply HF. split; [apply G3; eapply nth_error_In; eauto|apply HK; auto].
    + apply steps_nth. intros i x y Ex Ey. pose proof (nth_error_In _ _ Ex) as Ix. pose proof (nth_error_In _ _ Ey) as Iy. apply offers_nextC; auto.
      exists i. split; auto. split; auto. destruct x as [c l], y as [c' l']. destruct (G4 _ _ _ _ _ Ex Ey) as (B1 & B2). split; [apply (G3 _ Iy)|]. split; [|auto].
      cbn [fst]. intros ->. pose proof (at_pos_fun _ _ _ _ (HK _ _ Ex) (HK _ _ Ey) eq_refl). lia.
Qed.
End Parent.

Section Final.
Context {T : Type} (O : subset_ops T) (pt : bool) (d N : nat) (V : T -> Prop) (mem : T -> list Qc -> Prop) (L : laws O pt d N V mem).
Context (HInt : forall s t, V s -> V t -> (so_intersects O s t = true <-> exists x, mem s x /\ mem t x)).
Context (HMap : forall c s t r, V s -> V t -> grid_cube d N c -> so_intersects O t s = true -> so_map_to_cube O N c s = Some r -> exists r', so_map_to_cube O N c t = Some r').
Context (links : list (link T)) (HV : Forall (fun l => V (entrance l) /\ V (exit l)) links).
Context (mc : option Z) (H2 : 2 <= N ^ d).
Notation mul := (so_mul O).
Notation avail := (image_of mul d links).
(** a possible parent: it was built by the constructor and visits every cube once *)
Definition parent_ok (P : path T) : Prop :=
  mk_path O (pa_proto P) (pa_links P) = Some P /\
  exists zp, path_of d N zp P /\ NoDup (map fst zp) /\ (forall c, grid_cube d N c <-> In c (map fst zp)) /\
             Forall (fun cl => V (entrance (snd cl)) /\ V (exit (snd cl))) zp.
(** the paths to be generated *)
Definition wanted_along (P p : path T) : Prop :=
  mk_path O (pa_proto p) (pa_links p) = Some p /\
  exists z, path_of d N z p /\ good_chain mem mul d N links mc z /\ follows mem P p.
Context (P : path T) (HPar : parent_ok P).

Lemma along_follows z p zp : path_of d N z p -> path_of d N zp P -> Forall (fun cl => V (entrance (snd cl)) /\ V (exit (snd cl))) z -> Forall (fun cl => V (entrance (snd cl)) /\ V (exit (snd cl))) zp ->
  (Forall2 (along O) z zp <-> follows mem P p).
Proof.
  intros (A1 & A2) (B1 & B2) VZ VZP. unfold follows. rewrite A1, A2, B1, B2. cbn [pr_cubes]. clear A1 A2 B1 B2. revert zp VZP. induction VZ as [|[c l] z (V1 & V2) VZ IH]; intros [|[c' l'] zp] VZP.
  - split; [intros _; split; constructor|constructor].
  - split; [intros H; inversion H|intros (H & _); discriminate].
  - split; [intros H; inversion H|intros (H & _); discriminate].
  - inversion VZP as [|? ? (W1 & W2) VZP']; subst. cbn [snd fst map] in *. specialize (IH zp VZP').
    assert (EA : along O (c, l) (c', l') <-> c = c' /\ (exists x, mem (entrance l) x /\ mem (entrance l') x) /\ (exists x, mem (exit l) x /\ mem (exit l') x)).
    { unfold along, lk_intersects. cbn [fst snd]. rewrite andb_true_iff, !HInt by auto. tauto. }
    split.
    + intros H. inversion H as [|? ? ? ? HA HR]; subst. apply EA in HA. apply IH in HR. destruct HA as (-> & A2 & A3), HR as (R1 & R2). split; [f_equal; auto|constructor; auto].
    + intros (H1 & H3). injection H1 as E1 E2. inversion H3 as [|? ? ? ? HA HR]; subst. constructor; [apply EA; auto|]. apply IH. auto.
Qed.
Lemma parent_zval zp : path_of d N zp P -> (forall c, grid_cube d N c <-> In c (map fst zp)) -> Forall (fun cl => V (entrance (snd cl)) /\ V (exit (snd cl))) zp ->
  mk_path O (pa_proto P) (pa_links P) = Some P -> zval O d N V zp.
Proof.
  intros PO G VP MP. constructor; [|exists P; apply mkp_path_of; auto]. rewrite Forall_forall in VP |- *. intros x Hx. split; [apply G, in_map; auto|apply VP; auto].
Qed.
Lemma tree_parent g hash smax fmax zp : path_of d N zp P -> NoDup (map fst zp) -> (forall c, grid_cube d N c <-> In c (map fst zp)) ->
  Forall (fun cl => V (entrance (snd cl)) /\ V (exit (snd cl))) zp -> mk_path O (pa_proto P) (pa_links P) = Some P ->
  hash_ok hash -> mk_generator O pt d N links mc = Some g ->
  exists start finish F zs,
    (exists ss fs, cube_sets O N None (Some P) = Some (ss, fs) /\ nodes O pt (pg_e2l g) (Some P) 0 false ss = Some start /\ nodes O pt (pg_e2l g) (Some P) (-1) true fs = Some finish) /\
    (forall fuel, F <= fuel -> grow (lk_eqb (so_eqb O)) hash d N (gen_next O (pg_e2n g) (Some P)) (Some (gen_prev O (pg_e2n g) (Some P))) fuel start finish smax fmax = Some zs) /\
    NoDup zs /\ forall z, In z zs <-> good_chain mem mul d N links mc z /\ Forall2 (along O) z zp.
Proof.
  intros PO ZP1 ZP2 ZP3 MP HH HG. destruct (generator_exists O pt d N V mem L links HV mc) as (g' & HG' & Gd & GN & GL & GE & HN). rewrite HG in HG'. injection HG' as <-.
  assert (EP : mkp O d N zp = Some P) by (apply mkp_path_of; auto).
  pose proof (zp_length d N zp ZP1 ZP2) as LP.
  destruct (nth_error zp 0) as [[c0 l0]|] eqn:E0; [|apply nth_error_None in E0; lia].
  destruct (nth_error zp (N ^ d - 1)) as [[c1 l1]|] eqn:E1; [|apply nth_error_None in E1; lia].
  assert (NE : zp <> []) by (intros ->; cbn in LP; lia).
  assert (EC : cube_sets O N None (Some P) = Some ([(c0, entrance l0)], [(c1, exit l1)])).
  { destruct PO as (A1 & A2). unfold cube_sets, pr_cube. rewrite A1, A2. cbn [pr_cubes]. rewrite !pyget_0, !pyget_m1 by (destruct zp; [congruence|discriminate]).
    rewrite !map_length, LP, !nth_error_map, E0, E1. cbn. auto. }
  destruct (nodes_parent O pt d N V mem L links H2 zp P EP ZP1 ZP2 c0 l0 (entrance l0) 0 false 0) as (start & S1 & S2 & S3); auto.
  destruct (nodes_parent O pt d N V mem L links H2 zp P EP ZP1 ZP2 c1 l1 (exit l1) (N ^ d - 1) true (-1)) as (finish & F1 & F2 & F3); auto.
  { intros c l. unfold check_parent. rewrite !pyget_of_nat. destruct PO as (A1 & A2). rewrite A1, A2. cbn [pr_cubes]. rewrite !pyget_m1 by (destruct zp; [congruence|discriminate]). rewrite !map_length, LP. auto. }
  set (nC := nextC O d N zp P (pg_e2n g)). set (pC := prevC O d N zp P (pg_e2n g)).
  assert (OKN : step_ok d N avail nC) by (apply (nextC_ok O pt d N V mem L links HV mc H2 zp P EP ZP1 ZP2 (pg_e2n g) HN)).
  assert (OKP : step_ok d N avail pC) by (apply (prevC_ok O pt d N V mem L links HV mc H2 zp P EP ZP1 ZP2 (pg_e2n g) HN)).
  destruct (grow_spec (lk_eqb (so_eqb O)) (lk_eqb_ok _ (lw_eqb _ _ _ _ _ _ L)) hash HH d N H2 avail nC OKN start finish S2) with (prev := Some pC) (smax := smax) (fmax := fmax)
    as (F & zs & HF & ZN & ZI); auto.
  - rewrite Forall_forall. intros x Hin. apply S3 in Hin. destruct Hin as (A & B). split; auto. apply (at_grid O d N zp ZP2 _ _ B).
  - rewrite Forall_forall. intros x Hin. apply F3 in Hin. destruct Hin as (A & B). split; auto. apply (at_grid O d N zp ZP2 _ _ B).
  - destruct fmax; auto. exists pC. split; auto. split; auto. apply (C_converse O pt d N V mem L links HV mc H2 zp P EP ZP1 ZP2 (pg_e2n g) HN).
  - exists start, finish, F, zs. split; [|split; [|split]]; auto.
    + exists [(c0, entrance l0)], [(c1, exit l1)]. rewrite GE. auto.
    + intros fuel Hf. rewrite <- (HF fuel Hf). apply (grow_agree _ hash d N H2 _ nC _ pC (InvN O d links zp) (InvP O d N links zp)).
      * intros n h. apply (InvN_agree O d N links H2 zp P (pg_e2n g)).
      * intros n h. apply (InvN_step O pt d N V mem L links HV mc H2 zp P EP ZP1 ZP2 (pg_e2n g) HN).
      * intros n h. apply (InvP_agree O d N links H2 zp P (pg_e2n g)).
      * intros n h. apply (InvP_step O pt d N V mem L links HV mc H2 zp P EP ZP1 ZP2 (pg_e2n g) HN).
      * rewrite Forall_forall. intros x Hin. apply S3 in Hin. destruct Hin. split; auto.
      * rewrite Forall_forall. intros x Hin. apply F3 in Hin. destruct Hin. split; auto. lia.
    + intros z. rewrite ZI. apply (ham_parent O pt d N V mem L links HV mc H2 zp P EP ZP1 ZP2 (pg_e2n g) HN); auto.
Qed.
Lemma along_zval z zp : zval O d N V zp -> good_chain mem mul d N links mc z -> Forall2 (along O) z zp -> zval O d N V z.
Proof.
  intros ZP HZ HA. pose proof (chain_nodes O pt d N V mem L links HV mc z HZ) as NZ. constructor; auto. pose proof (zval_ne _ _ _ _ _ ZP) as NE. destruct ZP as [NP (p & EP)].
  rewrite Forall_forall in NZ, NP. assert (HAr : Forall2 (along O) (rev z) (rev zp)) by (clear - HA; induction HA; cbn; [constructor|apply Forall2_app; auto]).
  assert (NEr : rev zp <> []) by (intros E; apply (f_equal (@rev _)) in E; rewrite rev_involutive in E; cbn in E; congruence).
  destruct (hd_error zp) as [[c0 l0]|] eqn:E0; [|destruct zp; [congruence|discriminate]]. destruct (hd_error (rev zp)) as [[c1 l1]|] eqn:E1; [|destruct (rev zp); [congruence|discriminate]].
  assert (HH : forall (u up : list (list Z * link T)) c l, Forall2 (along O) u up -> hd_error up = Some (c, l) -> exists l', hd_error u = Some (c, l') /\ lk_intersects (so_intersects O) l' l = true).
  { intros u up c l H E. inversion H as [|[c' l'] y ? ? (A & B) _]; subst; [discriminate|]. cbn in E. injection E as ->. cbn [fst snd] in *. subst. exists l'. auto. }
  destruct (HH _ _ _ _ HA E0) as (m0 & F0 & X0). destruct (HH _ _ _ _ HAr E1) as (m1 & F1 & X1). unfold lk_intersects in X0, X1. apply andb_true_iff in X0, X1.
  rewrite (mkp_ends O d N zp c0 l0 c1 l1 E0 E1) in EP. rewrite (mkp_ends O d N z c0 m0 c1 m1 F0 F1).
  destruct (so_map_to_cube O N c0 (entrance l0)) as [r0|] eqn:M0; [|discriminate]. destruct (so_map_to_cube O N c1 (exit l1)) as [r1|] eqn:M1; [|discriminate].
  pose proof (NP _ (hd_In _ _ E0)) as (G0 & V0 & _). pose proof (NP _ (proj2 (in_rev _ _) (hd_In _ _ E1))) as (G1 & _ & V1).
  pose proof (NZ _ (hd_In _ _ F0)) as (_ & W0 & _). pose proof (NZ _ (proj2 (in_rev _ _) (hd_In _ _ F1))) as (_ & _ & W1). cbn [fst snd] in *.
  destruct (HMap c0 (entrance l0) (entrance m0) r0) as (q0 & ->); auto; [tauto|]. destruct (HMap c1 (exit l1) (exit m1) r1) as (q1 & ->); auto; [tauto|]. eauto.
Qed.
Lemma wanted_chain p zp : path_of d N zp P -> Forall (fun cl => V (entrance (snd cl)) /\ V (exit (snd cl))) zp ->
  (wanted_along P p <-> exists z, mkp O d N z = Some p /\ good_chain mem mul d N links mc z /\ Forall2 (along O) z zp).
Proof.
  intros PO ZP3. assert (HVz : forall z, good_chain mem mul d N links mc z -> Forall (fun cl => V (entrance (snd cl)) /\ V (exit (snd cl))) z).
  { intros z HZ. pose proof (chain_nodes O pt d N V mem L links HV mc z HZ) as NZ. eapply Forall_impl; [|exact NZ]. cbn. tauto. }
  unfold wanted_along. split.
  - intros (HM & z & PZ & HZ & HF). exists z. split; [apply mkp_path_of; auto|]. split; auto. apply (along_follows z p zp); auto.
  - intros (z & EP & HZ & HA). apply mkp_path_of in EP. destruct EP as (HM & PZ). split; auto. exists z. split; auto. split; auto. apply (along_follows z p zp); auto.
Qed.
Lemma generic_parent g hash smax fmax : hash_ok hash -> mk_generator O pt d N links mc = Some g ->
  exists F res, (forall fuel, F <= fuel -> pg_generic O pt g hash fuel smax fmax false None (Some P) = Some res) /\
    NoDup res /\ forall p, In p res <-> wanted_along P p.
Proof.
  intros HH HG. destruct HPar as (MP & zp & PO & ZP1 & ZP2 & ZP3). pose proof (parent_zval zp PO ZP2 ZP3 MP) as ZPV.
  destruct (tree_parent g hash smax fmax zp PO ZP1 ZP2 ZP3 MP HH HG) as (start & finish & F & zs & (ss & fs & EC & E1 & E2) & HF & ZN & ZI).
  destruct (generator_exists O pt d N V mem L links HV mc) as (g' & HG' & Gd & GN & GL & GE & _). rewrite HG in HG'. injection HG' as <-.
  assert (HZV : Forall (zval O d N V) zs).
  { rewrite Forall_forall. intros z Hz. apply ZI in Hz. apply (along_zval z zp); tauto. }
  destruct (yield_plain O d N V zs [] HZV) as (res & ER & F2). exists F, res. split; [|split].
  - intros fuel Hf. unfold pg_generic, generate_generic. rewrite Gd, GN, EC, E1, E2, HF by auto. exact ER.
  - clear - F2 ZN. induction F2 as [|z p zs res H F2 IH]; [constructor|]. inversion ZN as [|? ? Z1 Z2]; subst. constructor; auto.
    intros Hin. apply Z1. clear - H Hin F2. induction F2 as [|z' p' zs res H' F2 IH]; [destruct Hin|]. destruct Hin as [->|Hin].
    + left. eapply mkp_inj; eauto.
    + right. auto.
  - intros p. rewrite (wanted_chain p zp PO ZP3). assert (HIn : In p res <-> exists z, In z zs /\ mkp O d N z = Some p).
    { clear - F2. induction F2 as [|z q zs res H F2 IH]; [split; [intros []|intros (z & [] & _)]|]. cbn. rewrite IH. split.
      - intros [<-|(z' & ? & ?)]; eauto.
      - intros (z' & [<-|Hz] & E); [left; congruence|right; eauto]. }
    rewrite HIn. split; intros (z & A & B); exists z; [apply ZI in A; tauto|split; [apply ZI; tauto|auto]].
Qed.
Lemma In_std_parent b : In b (std_bms O d None (Some P)) <-> wf_bm d b /\ pa_mul O b P = Some P.
Proof.
  destruct HPar as (MP & zp & PO & ZP1 & ZP2 & ZP3). pose proof (parent_zval zp PO ZP2 ZP3 MP) as ZPV. assert (EP : mkp O d N zp = Some P) by (apply mkp_path_of; auto).
  unfold std_bms. rewrite filter_In, In_gen_base_maps. split.
  - intros ((W & _) & H). split; auto. destruct (pa_mul O b P) as [q|] eqn:E; [|discriminate]. rewrite (pa_mul_mkp O d N b zp P EP) in E.
    apply (pa_eqb_shaped O pt d N V mem L) in H; [congruence|exists (zmul O N b zp); auto|exists zp; auto].
  - intros (W & E). split; [auto|]. rewrite E. apply (pa_eqb_shaped O pt d N V mem L); auto; exists zp; auto.
Qed.
Lemma generic_parent_std g hash smax fmax : hash_ok hash -> mk_generator O pt d N links mc = Some g ->
  exists F res, (forall fuel, F <= fuel -> pg_generic O pt g hash fuel smax fmax true None (Some P) = Some res) /\
    NoDup res /\ (forall p, In p res -> wanted_along P p) /\
    forall p, wanted_along P p -> exists q, (In q res /\ exists b, (wf_bm d b /\ pa_mul O b P = Some P) /\ pa_mul O b p = Some q) /\
                             forall q', In q' res -> (exists b, (wf_bm d b /\ pa_mul O b P = Some P) /\ pa_mul O b p = Some q') -> q' = q.
Proof.
  intros HH HG. pose proof In_std_parent as HStd. destruct HPar as (MP & zp & PO & ZP1 & ZP2 & ZP3). pose proof (parent_zval zp PO ZP2 ZP3 MP) as ZPV.
  assert (EPp : mkp O d N zp = Some P) by (apply mkp_path_of; auto).
  destruct (tree_parent g hash smax fmax zp PO ZP1 ZP2 ZP3 MP HH HG) as (start & finish & F & zs & (ss & fs & EC & E1 & E2) & HF & ZN & ZI).
  destruct (generator_exists O pt d N V mem L links HV mc) as (g' & HG' & Gd & GN & GL & GE & _). rewrite HG in HG'. injection HG' as <-.
  assert (HZV : forall z, In z zs -> zval O d N V z) by (intros z Hz; apply ZI in Hz; apply (along_zval z zp); tauto).
  assert (KE : forall b, In b (std_bms O d None (Some P)) <-> wf_bm d b /\ zmul O N b zp = zp).
  { intros b. rewrite HStd, (pa_mul_mkp O d N b zp P EPp). split; intros (W & E); split; auto.
    - apply (mkp_inj O d N _ _ P E EPp).
    - rewrite E. auto. }
  set (G := std_bms O d None (Some P)) in *.
  assert (GI : In (id_map d) G) by (apply KE; split; [apply wf_id|apply (zmul_id O pt d N V mem L zp ZPV)]).
  assert (GW : forall b, In b G -> wf_bm d b) by (intros b Hb; apply KE in Hb; apply Hb).
  assert (GM : forall a b, In a G -> In b G -> In (bm_mul a b) G).
  { intros a b Ha Hb. apply KE in Ha, Hb. apply KE. destruct Ha as (WA & EA), Hb as (WB & EB). split; [apply wf_mul; auto|].
    rewrite (zmul_mul O pt d N V mem L), EB; auto. }
  assert (GV : forall b, In b G -> In (bm_inv b) G).
  { intros b Hb. apply KE in Hb. apply KE. destruct Hb as (WB & EB). pose proof (wf_inv d b WB). split; auto.
    rewrite <- EB at 1. rewrite <- (zmul_mul O pt d N V mem L) by auto. rewrite (mul_inv_l d) by auto. apply (zmul_id O pt d N V mem L zp ZPV). }
  assert (HZF : Forall (zval O d N V) zs) by (rewrite Forall_forall; auto).
  destruct (yield_std O pt d N V mem L G GW GI GM GV zs HZF [] (Forall_nil _)) as (res & ER & R1 & R2 & R3 & R4 & R5). exists F, res.
  split; [|split; [|split]]; auto.
  - intros fuel Hf. unfold pg_generic, generate_generic. rewrite Gd, GN, EC, E1, E2, HF by auto. exact ER.
  - intros p Hp. destruct (R2 p Hp) as (z & Hz & EP). apply ZI in Hz. apply (wanted_chain p zp PO ZP3). exists z. tauto.
  - intros p HW. apply (wanted_chain p zp PO ZP3) in HW. destruct HW as (z & EP & HZ). assert (Hz : In z zs) by (apply ZI; auto).
    destruct (canon_spec O pt d N V mem L G GW GI GM GV z (HZV z Hz)) as (q & HC & _).
    destruct (R3 z q Hz HC) as [[]|(z' & p' & Hz' & EP' & Hp' & HC')].
    exists p'. split.
    + split; auto. destruct (canon_same O pt d N V mem L G GW GI GM GV z z' q) as (b & Hb & Eb); auto. exists b. split; [apply HStd; auto|].
      rewrite (pa_mul_mkp O d N b z p EP), <- Eb. auto.
    + intros q' Hq' (b & Hb & Eb). rewrite (pa_mul_mkp O d N b z p EP) in Eb. apply (R5 (zmul O N b z) z' q' p' q); auto.
      apply (canon_orbit O pt d N V mem L G GW GI GM GV z b q); auto. apply HStd; auto.
Qed.
End Final.

(** get_paths_example: the first path of each generator *)
Lemma examples_spec {T} (O : subset_ops T) pt g hash smax fmax std (W : option (link T) * option (path T) -> path T -> Prop) rs :
  Forall (fun r => exists F res, (forall fuel, F <= fuel -> pg_generic O pt g hash fuel smax fmax std (fst r) (snd r) = Some res) /\
                     (forall p, In p res -> W r p) /\ (forall p, W r p -> res <> [])) rs ->
  exists F res, (forall fuel, F <= fuel -> examples O pt g hash fuel smax fmax std rs = Some res) /\
    match res with Some ps => Forall2 W rs ps | None => exists r, In r rs /\ forall p, ~ W r p end.
Proof.
  intros H. induction H as [|[l p] rs (F1 & r1 & E1 & W1 & W2) H (F2 & r2 & E2 & W3)].
  - exists 0, (Some []). split; auto.
  - cbn [fst snd] in E1. destruct r1 as [|x r1].
    + exists F1, None. split; [intros fuel Hf; cbn [examples]; rewrite E1; auto|]. exists (l, p). split; [left; auto|]. intros q Hq. apply (W2 q Hq eq_refl).
    + exists (F1 + F2), (option_map (cons x) r2). split; [intros fuel Hf; cbn [examples]; rewrite E1, E2 by lia; auto|]. destruct r2 as [ps|]; cbn [option_map].
      * constructor; auto. apply W1. left; auto.
      * destruct W3 as (r & Hr & HW). exists r. split; auto. right; auto.
Qed.
