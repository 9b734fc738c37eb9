(** C46: the search for the curves with the smallest dilation (search.py). *)
From Verif Require Import Py L_Py L_Qc L_BaseMaps M_BaseMaps M_Subsets M_Paths M_Curves M_PathTree M_PathGen M_Gates M_Utils M_Heap M_Sat M_Dilation M_Search M_Zoo
  S_BaseMaps S_Subsets S_Paths S_Utils S_Curves S_Fuzzy S_PathGen S_PathTree S_Gates S_Heap S_Sat S_Ratio S_Dilation S_Search
  P_Valid P_Heap P_SatSolver P_PathTuples P_GateLoop T_PathGen T_Gates T_SeqEst S_Term P_TermNorms P_TermSeq T_Dilation M_Heapq P_Heapq P_Search P_SearchMono.
From Coq Require Import Reals Permutation.
Local Open Scope nat_scope.

Section Main.
Context (d N m : nat) (Hd : 1 <= d) (HN : 2 <= N) (Hm : 1 <= m) (mc : option Z).
Context (hash : future_t (link (list Qc)) -> Z) (HH : hash_ok hash) (sm : nat) (fm : option nat).
Notation pc := (fun fuel => gates_pcurves d N mc (M_Gates.SP hash fuel sm fm)).
Lemma all_pcurves gl : Forall (fun gs => length gs = m /\ unit_links d gs) gl ->
  exists F, forall gs, In gs gl -> exists cs, (forall fuel, F <= fuel -> pc fuel gs = Some cs) /\ pc_spec d N m mc gs cs.
Proof.
  intros H. induction H as [|gs gl [HL HU] _ (F & IH)]; [exists 0; intros ? []|]. destruct (pcurves_spec d N m Hd HN Hm mc hash HH sm fm gs HL HU) as (F1 & cs & A & B).
  exists (Nat.max F F1). intros gs' [<-|Hg]; [exists cs; split; auto; intros; apply A; lia|]. destruct (IH gs' Hg) as (cs' & A' & B'). exists cs'. split; auto. intros; apply A'; lia.
Qed.
Lemma gens_spec gl F fuel cs : (forall gs, In gs gl -> exists cs, (forall fuel, F <= fuel -> pc fuel gs = Some cs) /\ pc_spec d N m mc gs cs) -> F <= fuel ->
  gen_pcurves d N mc (M_Gates.SP hash fuel sm fm) gl = Some cs ->
  (forall f, In f cs -> joined_input d f /\ forall x, chosen_from f x -> search_curve d N m mc x /\ exists gs, In gs gl /\ curve_gates_are x gs /\ has_gates d x gs) /\
  (forall c gs, In gs gl -> search_curve d N m mc c -> has_gates d c gs -> exists f x, In f cs /\ chosen_from f x /\
     forall rQ rR M, ratio_ok d rQ rR -> dilation_ge rR x M -> dilation_ge rR c M).
Proof.
  intros HA HF E. unfold gen_pcurves in E. destruct (omap _ gl) as [css|] eqn:EO; [|discriminate]. cbn in E. injection E as <-. pose proof (omap_In _ _ _ EO) as HI. split.
  - intros f Hf. apply in_concat in Hf. destruct Hf as (l & Hl & Hf). apply HI in Hl. destruct Hl as (gs & Hg & El). destruct (HA gs Hg) as (cs & A & (B1 & _)). rewrite A in El by auto. injection El as <-.
    destruct (B1 f Hf) as (C1 & C2). split; auto. intros x Hx. destruct (C2 x Hx) as (D1 & D2). split; auto. exists gs. auto.
  - intros c gs Hg HC HG. destruct (HA gs Hg) as (cs & A & (_ & B2)). destruct (B2 c HC HG) as (f & x & X1 & X2 & X3). exists f, x. split; [|auto]. apply in_concat. exists cs. split; auto. apply HI. exists gs. auto.
Qed.

Context (gate_list : option (list (list plink))) (facet : bool).
(** the class of the generator, in terms of the tuples of gates *)
Definition gens_cover (gid : option (list plink)) (gates : list (list plink)) : Prop :=
  forall c, (searched d N m mc gate_list facet gid c -> exists gs, In gs gates /\ has_gates d c gs) /\
    (search_curve d N m mc c -> (exists gs, In gs gates /\ curve_gates_are c gs /\ has_gates d c gs) -> searched d N m mc gate_list facet gid c).
Context (ratio : ratio_func) (hq : heap_impl bpair) (Hhq : heapq_ok hq) (hs : heap_impl citem) (Hhs : heapq_ok hs) (rR : list R -> R -> R) (RO : ratio_ok d (ratio d) rR).
Context (efuel : nat) (solver : sat_solver) (Hsat : sat_ok solver) (sched : Z -> Z) (rel mult : Z) (upper : option Qc).
Notation estimate := (fun cs => estimate_dilation_sequence ratio hq hs efuel solver sched None cs rel mult upper).
Lemma report_spec gid gates F fuel cs result : (forall gs, In gs gates -> exists cs, (forall fuel, F <= fuel -> pc fuel gs = Some cs) /\ pc_spec d N m mc gs cs) -> F <= fuel ->
  gens_cover gid gates -> gen_pcurves d N mc (M_Gates.SP hash fuel sm fm) gates = Some cs -> estimate cs = Some result ->
  match result with
  | Some (lo, up, exs, idxs) => report_ok d N m mc gate_list facet rR rel upper gid lo up exs
  | None => nothing_found d N m mc gate_list facet rR upper gid
  end.
Proof.
  intros HA HF HC EG EE. destruct (gens_spec gates F fuel cs HA HF EG) as (B1 & B2). assert (HFI : Forall (fuzzy_input d) cs) by (apply Forall_forall; intros f Hf; apply joined_fuzzy, B1; auto).
  pose proof (C40_sequence hq Hhq hs Hhs ratio rR d efuel solver sched None cs rel mult upper result HFI RO Hsat EE) as HR.
  assert (HS : forall f x, In f cs -> chosen_from f x -> searched d N m mc gate_list facet gid x). { intros f x Hf Hx. destruct (B1 f Hf) as (_ & B3). destruct (B3 x Hx) as (B4 & B5). apply HC; auto. }
  assert (HCv : forall c, searched d N m mc gate_list facet gid c -> exists f x, In f cs /\ chosen_from f x /\ forall M, dilation_ge rR x M -> dilation_ge rR c M).
  { intros c Hc. destruct (proj1 (HC c) Hc) as (gs & Hg & HG). destruct (B2 c gs Hg (proj1 Hc) HG) as (f & x & X1 & X2 & X3). exists f, x. split; auto. split; auto. intros M. apply X3 with (rQ := ratio d); auto. }
  destruct result as [[[[lo up] exs] idxs]|].
  - destruct HR as (R1 & R2 & R3 & _ & _ & R6). split; [|split; [|split; auto]].
    + intros c Hc. destruct (HCv c Hc) as (f & x & X1 & X2 & X3). apply X3, (R1 f X1 x X2).
    + destruct R2 as [R2|(i & c & I1 & I2 & (x & X1 & X2))]; auto. right. exists x. split; auto. apply (HS c); auto. eapply nth_error_In; eauto.
    + intros r Hr. apply In_nth_error in Hr. destruct Hr as (k & Hk). destruct (F2_nth' _ _ _ _ _ R6 Hk) as (i & _ & (c & I1 & I2)). destruct (I2 r eq_refl) as (M & (y & Y1 & Y2 & _)). exists y. split; auto.
      apply (HS c); auto. eapply nth_error_In; eauto.
  - destruct HR as [->|(u & -> & HU)].
    + left. intros c Hc. destruct (HCv c Hc) as (f & _ & [] & _).
    + right. exists u. split; auto. intros c Hc. destruct (HCv c Hc) as (f & x & X1 & X2 & X3). destruct (HU f X1) as (l & L1 & L2). exists l. split; auto.
Qed.
Lemma loop_spec F fuel : F <= fuel -> forall gens reports crashed,
  (forall gid gates, In (gid, gates) gens -> gens_cover gid gates /\ forall gs, In gs gates -> exists cs, (forall fuel, F <= fuel -> pc fuel gs = Some cs) /\ pc_spec d N m mc gs cs) ->
  search_loop d N mc (M_Gates.SP hash fuel sm fm) estimate gens = Some (reports, crashed) ->
  map fst reports = firstn (length reports) (map fst gens) /\
  (forall gid lo up exs idxs, In (gid, (lo, up, exs, idxs)) reports -> report_ok d N m mc gate_list facet rR rel upper gid lo up exs) /\
  (crashed = false -> length reports = length gens) /\
  (crashed = true -> exists gid, nth_error (map fst gens) (length reports) = Some gid /\ nothing_found d N m mc gate_list facet rR upper gid).
Proof.
  intros HF. induction gens as [|[gid gates] gens IH]; intros reports crashed HG E; cbn [search_loop] in E.
  - injection E as <- <-. cbn. split; auto. split; [intros ? ? ? ? ? []|]. split; auto. discriminate.
  - destruct (gen_pcurves _ _ _ _ gates) as [cs|] eqn:EG; [|discriminate]. cbn [obind] in E. destruct (estimate cs) as [result|] eqn:EE; [|discriminate]. cbn [obind] in E.
    destruct (HG gid gates (or_introl eq_refl)) as (HC & HA). pose proof (report_spec gid gates F fuel cs result HA HF HC EG EE) as HR. destruct result as [r|].
    + destruct (search_loop _ _ _ _ _ gens) as [[rs cr]|] eqn:EL; [|discriminate]. cbn in E. injection E as <- <-. destruct (IH rs cr) as (I1 & I2 & I3 & I4); auto. { intros; apply HG; cbn; auto. }
      cbn [map fst length firstn nth_error]. split; [f_equal; auto|]. split; [|split; [intros; f_equal; auto|auto]]. intros g lo up exs idxs [Er|Hin]; [injection Er as -> ->; exact HR|eauto].
    + injection E as <- <-. cbn. split; auto. split; [intros ? ? ? ? ? []|]. split; [discriminate|]. intros _. exists gid. auto.
Qed.
End Main.

Lemma gated_is d N m mc (of : bool) c gs : search_curve d N m mc c -> curve_gates_are c gs -> Forall (fun l => good_face of (entrance l) /\ good_face of (exit l)) gs -> gated d N m of c gs.
Proof. intros [V D1 D2 D3 K _] [L G] F. constructor; auto. congruence. Qed.
(** the gates that are used *)
Lemma gates_exist (d N m : nat) gate_list (facet : bool) fhash fsm ffm ghash gsm gfm : (if facet then 2 <= d else 1 <= d) -> 2 <= N -> 1 <= m -> hash_ok fhash -> hash_ok ghash ->
  (forall gl, gate_list = Some gl -> Forall (fun gs => length gs = m /\ unit_links d gs) gl) ->
  exists F gl, (forall fuel, F <= fuel -> search_gates d N m gate_list facet (M_Gates.SP fhash fuel fsm ffm) (M_Gates.SP ghash fuel gsm gfm) = Some gl) /\
    Forall (fun gs => length gs = m /\ unit_links d gs) gl /\
    match gate_list with
    | Some gl' => gl = gl'
    | None => NoDup gl /\ (forall gs, In gs gl <-> (exists c, gated d N m facet c gs) /\ Forall (standard d) gs /\ nondecreasing gs) /\
              forall mc c, search_curve d N m mc c -> (gates_on_faces facet c <-> exists gs, In gs gl /\ has_gates d c gs)
    end.
Proof.
  intros Hd' HN Hm HF HG HL. assert (Hd : 1 <= d) by (destruct facet; lia). destruct gate_list as [gl|].
  - exists 0, gl. split; [|split; auto]. intros fuel _. cbn. replace (forallb _ gl) with true; auto. symmetry. apply forallb_forall. intros gs Hg. specialize (HL gl eq_refl). rewrite Forall_forall in HL. apply Nat.eqb_eq, HL; auto.
  - assert (exists F res, (forall fuel, F <= fuel -> gen_gates d N m facet (M_Gates.SP fhash fuel fsm ffm) (M_Gates.SP ghash fuel gsm gfm) = Some res) /\ NoDup res /\
      (forall gs, In gs res <-> (exists c, gated d N m facet c gs) /\ Forall (standard d) gs /\ nondecreasing gs) /\
      (forall c gs, gated d N m facet c gs -> exists gs1 gs2, Forall2 (fun l l' => exists b, wf_bm d b /\ l' = pl_mul b l) gs gs1 /\ Permutation gs1 gs2 /\ In gs2 res)) as (F & res & A & B & C & D).
    { destruct facet; [apply (facet_main d N m); auto|]. destruct (C41_general d N m Hd HN Hm (M_Gates.SP fhash 0 fsm ffm) ghash gsm gfm HG) as (F & res & A & B & C). exists F, res.
      assert (EP : forall p q g, gen_gates d N m false p g = gen_gates d N m false q g) by reflexivity. split; [intros fuel Hf; rewrite (EP _ (M_Gates.SP fhash 0 fsm ffm)); auto|]. split; auto. split; auto.
      intros c gs HGt. destruct (C41_general_complete d N m c gs Hd HN Hm HGt (M_Gates.SP fhash 0 fsm ffm) ghash gsm gfm HG) as (F' & res' & A' & gs1 & gs2 & X1 & X2 & X3). exists gs1, gs2. split; auto. split; auto.
      specialize (A (Nat.max F F') ltac:(lia)). specialize (A' (Nat.max F F') ltac:(lia)). congruence. }
    exists F, res. split; [exact A|]. assert (HI : forall gs, In gs res -> exists c, gated d N m facet c gs) by (intros gs Hg; apply C in Hg; apply Hg).
    split; [|split; auto; split; auto].
    + apply Forall_forall. intros gs Hg. destruct (HI gs Hg) as (c & [V D1 D2 D3 K L GG GF]). split; auto.
      assert (E0 : gs = map (P_Check.klink c) (range m)) by (rewrite <- D3; apply (gates_klink d N m Hd HN Hm); auto; split; congruence || auto).
      pose proof (P_GateSys.curve_sys c V K) as HS. rewrite D1, D2, D3 in HS. rewrite E0. exact (P_GateSys.chains_V point_ops d N m _ _ (S2 d N Hd HN) _ _ HS).
    + intros mc c HC. split.
      * intros (gs & G1 & G2). destruct (D c gs (gated_is d N m mc facet c gs HC G1 G2)) as (gs1 & gs2 & X1 & X2 & X3). exists gs2. split; auto. exists gs, gs1. auto.
      * intros (gs & Hg & (gs0 & gs1 & G1 & G2 & G3)). exists gs0. split; auto. destruct (HI gs Hg) as (c' & [V' D1' D2' D3' K' L' GG' GF']).
        assert (GF1 : Forall (fun l : plink => good_face facet (entrance l) /\ good_face facet (exit l)) gs1) by (eapply Permutation_Forall; [symmetry; exact G3|exact GF']).
        pose proof HC as [V D1 D2 D3 K _]. pose proof (gates_klink d N m Hd HN Hm c gs0 V G1) as E0.
        assert (HDm : forall l, In l gs0 -> pl_dim d l). { intros l Hl. rewrite E0 in Hl. apply in_map_iff in Hl. destruct Hl as (p & <- & Hp). apply in_seq in Hp. rewrite <- D1. apply P_Check.klink_dim; auto. lia. }
        clear - G2 GF1 HDm. induction G2 as [|l l' gs0 gs1 (b & W & ->) G2 IH]; constructor; inversion GF1; subst; [|apply IH; auto; intros; apply HDm; cbn; auto].
        assert (DL : pl_dim d l) by (apply HDm; cbn; auto). pose proof DL as [L1 L2].
        pose proof (P_GateMain.gface_mul d facet (bm_inv b) (pl_mul b l) (wf_inv _ _ W) (P_Subsets.pl_mul_dim d b l W) H1) as X.
        rewrite <- (P_Subsets.pl_mul_mul d), (mul_inv_l d), (P_Subsets.pl_mul_id d) in X; auto using wf_inv.
Qed.

(** The gates printed with output_gates: the given ones, or those of C41; in the second case a curve has its gates on the faces
    iff it has one of the printed tuples of gates, up to base maps and the order of the patterns. *)
Theorem C46_gates : forall (d N m : nat) (max_cdist : option Z) gate_list (facet_gated : bool),
  (if facet_gated then 2 <= d else 1 <= d) -> 2 <= N -> 1 <= m ->
  (forall gl, gate_list = Some gl -> Forall (fun gs => length gs = m /\ unit_links d gs) gl) ->
  forall fhash ghash fsm ffm gsm gfm, hash_ok fhash -> hash_ok ghash ->
  exists fuel0 gl, (forall fuel, fuel0 <= fuel -> forall par ratio hq hs efuel solver sched rel_tol_inv mult upper_bound group_by_gates,
     run_search d N m max_cdist par ratio hq hs efuel solver sched (M_Gates.SP fhash fuel fsm ffm) (M_Gates.SP ghash fuel gsm gfm)
       rel_tol_inv mult gate_list facet_gated upper_bound group_by_gates true = Some (Gates_printed gl)) /\
    match gate_list with
    | Some gl' => gl = gl'
    | None => NoDup gl /\ (forall gs, In gs gl <-> (exists c, gated d N m facet_gated c gs) /\ Forall (standard d) gs /\ nondecreasing gs) /\
              forall c, search_curve d N m max_cdist c -> (gates_on_faces facet_gated c <-> exists gs, In gs gl /\ has_gates d c gs)
    end.
Proof.
  intros d N m mc gate_list facet Hd HN Hm HL fhash ghash fsm ffm gsm gfm HF HG. destruct (gates_exist d N m gate_list facet fhash fsm ffm ghash gsm gfm Hd HN Hm HF HG HL) as (F & gl & A & _ & B).
  exists F, gl. split; [|destruct gate_list; auto; destruct B as (B1 & B2 & B3); eauto]. intros fuel Hf par ratio hq hs efuel solver sched rel mult upper gb. unfold run_search. rewrite A by auto. reflexivity.
Qed.
Print Assumptions C46_gates.

(** the same for large fuels, see C46_search *)
Lemma search_large_fuel : forall (d N m : nat) (max_cdist : option Z) gate_list (facet_gated : bool),
  (if facet_gated then 2 <= d else 1 <= d) -> 2 <= N -> 1 <= m ->
  (forall gl, gate_list = Some gl -> Forall (fun gs => length gs = m /\ unit_links d gs) gl) ->
  forall fhash ghash fsm ffm gsm gfm hash start_max finish_max, hash_ok fhash -> hash_ok ghash -> hash_ok hash ->
  exists fuel0, forall fuel, fuel0 <= fuel ->
  forall ratio hq hs rR, heapq_ok hq -> heapq_ok hs -> ratio_ok d (ratio d) rR ->
  forall efuel solver sched rel_tol_inv mult upper_bound group_by_gates reports crashed, sat_ok solver ->
  let run := run_search d N m max_cdist (M_Gates.SP hash fuel start_max finish_max) ratio hq hs efuel solver sched (M_Gates.SP fhash fuel fsm ffm) (M_Gates.SP ghash fuel gsm gfm)
               rel_tol_inv mult gate_list facet_gated upper_bound group_by_gates in
  run false = Some (Reports reports crashed) ->
  exists gl, run true = Some (Gates_printed gl) /\ let gens := if group_by_gates then map Some gl else [None] in
    map fst reports = firstn (length reports) gens /\
    (forall gen_id lo up examples idxs, In (gen_id, (lo, up, examples, idxs)) reports -> report_ok d N m max_cdist gate_list facet_gated rR rel_tol_inv upper_bound gen_id lo up examples) /\
    (crashed = false -> length reports = length gens) /\
    (crashed = true -> exists gen_id, nth_error gens (length reports) = Some gen_id /\ nothing_found d N m max_cdist gate_list facet_gated rR upper_bound gen_id).
Proof.
  intros d N m mc gate_list facet Hd' HN Hm HL fhash ghash fsm ffm gsm gfm hash sm fm HF HG HH. assert (Hd : 1 <= d) by (destruct facet; lia).
  destruct (gates_exist d N m gate_list facet fhash fsm ffm ghash gsm gfm Hd' HN Hm HF HG HL) as (F1 & gl & A & U & B). destruct (all_pcurves d N m Hd HN Hm mc hash HH sm fm gl U) as (F2 & HP).
  exists (Nat.max F1 F2). intros fuel Hf ratio hq hs rR Hhq Hhs RO efuel solver sched rel mult upper gb reports crashed Hsat run E. exists gl. unfold run, run_search in *. rewrite A in * by lia. cbn [obind] in *. split; auto.
  destruct (search_loop _ _ _ _ _ _) as [[rs cr]|] eqn:EL in E; [|discriminate]. cbn in E. injection E as -> ->.
  destruct (loop_spec d N m mc hash sm fm gate_list facet ratio hq Hhq hs Hhs rR RO efuel solver Hsat sched rel mult upper F2 fuel ltac:(lia) (pcurve_gens gb gl) reports crashed) as (I1 & I2 & I3 & I4); auto.
  - intros gid gates Hin. unfold pcurve_gens in Hin. destruct gb.
    + apply in_map_iff in Hin. destruct Hin as (gs & Eq & Hg). injection Eq as <- <-. split; [|intros gs' [<-|[]]; auto]. intros c. unfold searched. split; [intros [_ H]; exists gs; cbn; auto|]. intros H1 (gs' & [<-|[]] & _ & H2). auto.
    + destruct Hin as [Eq|[]]. injection Eq as <- <-. split; auto. intros c. unfold searched. destruct gate_list as [gl'|].
      * subst gl'. split; [intros [_ H]; auto|]. intros H1 (gs & H2 & _ & H3). split; eauto.
      * destruct B as (_ & _ & B). split; [intros [H1 H2]; apply (B mc c H1); auto|]. intros H1 (gs & H2 & _ & H3). split; auto. apply (B mc c H1). eauto.
  - assert (EF : map fst (pcurve_gens gb gl) = if gb then map Some gl else [None]) by (unfold pcurve_gens; destruct gb; [rewrite map_map|]; auto). rewrite EF in I1, I4. cbv zeta.
    split; auto. split; auto. split; auto. intros Ec. rewrite I3 by auto. rewrite <- EF, map_length. auto.
Qed.
(** The reports of run_search. [gl] are the gates that are used; the generators are the tuples of gates (group_by_gates), or one
    for all gates. Every report is correct, and the search stops early only at a generator without curves below the bound. *)
Theorem C46_search : forall (d N m : nat) (max_cdist : option Z) gate_list (facet_gated : bool),
  (if facet_gated then 2 <= d else 1 <= d) -> 2 <= N -> 1 <= m ->
  (forall gl, gate_list = Some gl -> Forall (fun gs => length gs = m /\ unit_links d gs) gl) ->
  forall fhash ghash fsm ffm gsm gfm hash start_max finish_max, hash_ok fhash -> hash_ok ghash -> hash_ok hash ->
  forall fuel ratio hq hs rR, heapq_ok hq -> heapq_ok hs -> ratio_ok d (ratio d) rR ->
  forall efuel solver sched rel_tol_inv mult upper_bound group_by_gates reports crashed, sat_ok solver ->
  let run := run_search d N m max_cdist (M_Gates.SP hash fuel start_max finish_max) ratio hq hs efuel solver sched (M_Gates.SP fhash fuel fsm ffm) (M_Gates.SP ghash fuel gsm gfm)
               rel_tol_inv mult gate_list facet_gated upper_bound group_by_gates in
  run false = Some (Reports reports crashed) ->
  exists gl, run true = Some (Gates_printed gl) /\ let gens := if group_by_gates then map Some gl else [None] in
    map fst reports = firstn (length reports) gens /\
    (forall gen_id lo up examples idxs, In (gen_id, (lo, up, examples, idxs)) reports -> report_ok d N m max_cdist gate_list facet_gated rR rel_tol_inv upper_bound gen_id lo up examples) /\
    (crashed = false -> length reports = length gens) /\
    (crashed = true -> exists gen_id, nth_error gens (length reports) = Some gen_id /\ nothing_found d N m max_cdist gate_list facet_gated rR upper_bound gen_id).
Proof.
  intros d N m mc gate_list facet Hd HN Hm HL fhash ghash fsm ffm gsm gfm hash sm fm HF HG HH fuel ratio hq hs rR Hhq Hhs RO efuel solver sched rel mult upper gb reports crashed Hsat run E.
  destruct (search_large_fuel d N m mc gate_list facet Hd HN Hm HL fhash ghash fsm ffm gsm gfm hash sm fm HF HG HH) as (F & HS). set (fuel' := Nat.max fuel F). assert (Hf : fuel <= fuel') by (unfold fuel'; lia).
  unfold run, run_search in E. destruct (search_gates _ _ _ _ _ _ _) as [gl|] eqn:EG in E; [|discriminate]. cbn [obind] in E. pose proof (search_gates_mono d N m fuel fuel' Hf _ _ _ _ _ _ _ _ _ EG) as EG'.
  destruct (search_loop _ _ _ _ _ _) as [rc|] eqn:EL in E; [|discriminate]. pose proof (loop_mono d N fuel fuel' Hf _ _ _ _ _ _ _ EL) as EL'.
  destruct (HS fuel' ltac:(unfold fuel'; lia) ratio hq hs rR Hhq Hhs RO efuel solver sched rel mult upper gb reports crashed Hsat) as (gl' & G1 & G2).
  { unfold run_search. rewrite EG'. cbn [obind]. rewrite EL'. exact E. }
  unfold run_search in G1. rewrite EG' in G1. cbn [obind] in G1. injection G1 as <-. exists gl. split; [|exact G2]. unfold run, run_search. rewrite EG. reflexivity.
Qed.
Print Assumptions C46_search.

(** Without an iteration limit and with rel_tol_inv_mult at least 2 the search always ends: there is an output, the same for
    all large fuels. *)
Theorem C46_returns : forall (d N m : nat) (max_cdist : option Z) gate_list (facet_gated : bool),
  (if facet_gated then 2 <= d else 1 <= d) -> 2 <= N -> 1 <= m ->
  (forall gl, gate_list = Some gl -> Forall (fun gs => length gs = m /\ unit_links d gs) gl) ->
  forall fhash ghash fsm ffm gsm gfm hash start_max finish_max, hash_ok fhash -> hash_ok ghash -> hash_ok hash ->
  forall ratio hq hs rR pw, heapq_ok hq -> heapq_ok hs -> ratio_ok d (ratio d) rR -> ratio_power pw rR ->
  forall solver sched rel_tol_inv mult upper_bound group_by_gates output_gates, sat_ok solver -> (0 < rel_tol_inv)%Z -> (2 <= mult)%Z ->
  exists fuel0 output, forall fuel, fuel0 <= fuel ->
    run_search d N m max_cdist (M_Gates.SP hash fuel start_max finish_max) ratio hq hs fuel solver sched (M_Gates.SP fhash fuel fsm ffm) (M_Gates.SP ghash fuel gsm gfm)
      rel_tol_inv mult gate_list facet_gated upper_bound group_by_gates output_gates = Some output.
Proof.
  intros d N m mc gate_list facet Hd' HN Hm HL fhash ghash fsm ffm gsm gfm hash sm fm HF HG HH ratio hq hs rR pw Hhq Hhs RO RP solver sched rel mult upper gb og Hsat Hrel Hmult. assert (Hd : 1 <= d) by (destruct facet; lia).
  destruct (gates_exist d N m gate_list facet fhash fsm ffm ghash gsm gfm Hd' HN Hm HF HG HL) as (F1 & gl & A & U & _). destruct (all_pcurves d N m Hd HN Hm mc hash HH sm fm gl U) as (F2 & HP).
  assert (HGS : forall gid gates, In (gid, gates) (pcurve_gens gb gl) -> forall gs, In gs gates -> exists cs, (forall fuel, F2 <= fuel -> gates_pcurves d N mc (M_Gates.SP hash fuel sm fm) gs = Some cs) /\ pc_spec d N m mc gs cs).
  { intros gid gates Hin gs Hg. unfold pcurve_gens in Hin. destruct gb.
    - apply in_map_iff in Hin. destruct Hin as (gs' & Eq & Hg'). injection Eq as <- <-. destruct Hg as [<-|[]]. apply HP; auto.
    - destruct Hin as [Eq|[]]. injection Eq as <- <-. apply HP; auto. }
  unfold run_search. destruct og; [exists F1, (Gates_printed gl); intros fuel Hf; rewrite A by lia; reflexivity|].
  assert (HE : exists F out, forall fuel, F <= fuel -> search_loop d N mc (M_Gates.SP hash fuel sm fm)
     (fun cs => estimate_dilation_sequence ratio hq hs fuel solver sched None cs rel mult upper) (pcurve_gens gb gl) = Some out).
  { revert HGS. generalize (pcurve_gens gb gl). clear A U HP HL. induction l as [|[gid gates] gens IH]; intros HGS; [exists 0, ([], false); auto|].
    assert (EC : exists cs, (forall fuel, F2 <= fuel -> gen_pcurves d N mc (M_Gates.SP hash fuel sm fm) gates = Some cs) /\ Forall (joined_input d) cs).
    { pose proof (HGS gid gates (or_introl eq_refl)) as HGs. clear - HGs. induction gates as [|gs gates IH]; [exists []; split; auto; intros; reflexivity|].
      destruct IH as (cs & E & J); [intros; apply HGs; cbn; auto|]. destruct (HGs gs (or_introl eq_refl)) as (cs0 & E0 & (J0 & _)). exists (cs0 ++ cs). split; [|apply Forall_app; split; auto; apply Forall_forall; intros f Hf; apply J0; auto].
      intros fuel Hf. specialize (E fuel Hf). unfold gen_pcurves in *. cbn [omap]. rewrite (E0 fuel Hf). destruct (omap _ gates) as [css|]; [|discriminate]. cbn in *. injection E as <-. reflexivity. }
    destruct EC as (cs & EC & HJ). destruct (seq_ends hq Hhq hs Hhs ratio rR pw d cs HJ RO RP solver sched rel mult upper Hsat Hrel Hmult) as (F3 & r & ER).
    destruct IH as (F4 & out & EO); [intros gid' gates' Hin; apply (HGS gid' gates'); cbn; auto|].
    destruct r as [r|].
    - exists (Nat.max F2 (Nat.max F3 F4)), ((gid, r) :: fst out, snd out). intros fuel Hf. cbn [search_loop]. rewrite EC by lia. cbn [obind]. rewrite ER by lia. cbn [obind]. rewrite EO by lia. reflexivity.
    - exists (Nat.max F2 F3), ([], true). intros fuel Hf. cbn [search_loop]. rewrite EC by lia. cbn [obind]. rewrite ER by lia. reflexivity. }
  destruct HE as (F3 & out & EO). exists (Nat.max F1 F3), (Reports (fst out) (snd out)). intros fuel Hf. rewrite A by lia. cbn [obind]. rewrite EO by lia. reflexivity.
Qed.
Print Assumptions C46_returns.
Example C46_returns_example : exists fuel0 output, forall fuel, fuel0 <= fuel ->
  run_search 3 2 2 None (M_Gates.SP (fun _ => 0%Z) fuel 1 None) ratio_l2_squared cpython_heapq cpython_heapq fuel simple_solver (fun z => z) (M_Gates.SP (fun _ => 0%Z) fuel 1 None)
    (M_Gates.SP (fun _ => 0%Z) fuel 1 None) 100 3 None true None false false = Some output.
Proof.
  eapply (C46_returns 3 2 2 None None true) with (rR := fun dv dt => ((norm_ratio norm_l2 3 dv dt)²)%R) (pw := 2);
    first [lia | discriminate | exact simple_solver_ok | apply cpython_heapq_ok | apply norms_power | apply (C35_norms 3); lia | (intros s t x H; reflexivity)].
Qed.

(** Instances: the curves with the gates of Hilbert's curve, and all curves with div 2 and gates on the boundary; their smallest
    dilation in the maximum norm is between 4 and 7. The Hilbert curve is in both classes. *)
Definition corner_gates : list plink := [Lk (qpt [0; 0]%Z) (qpt [0; 1]%Z)].
Definition diagonal_gates : list plink := [Lk (qpt [0; 0]%Z) (qpt [1; 1]%Z)].
Definition search_example (gate_list : option (list (list plink))) (upper_bound : option Qc) (group_by_gates output_gates : bool) : option search_output :=
  run_search 2 2 1 (Some 1%Z) (M_Gates.SP (fun _ => 0%Z) 40 10 (Some 10)) ratio_linf sorted_hq sorted_hq 400 simple_solver (fun z => (z + z / 3 + 1)%Z) ex_par ex_par
    2 2 gate_list false upper_bound group_by_gates output_gates.
Definition report_between (a b : Qc) (o : option search_output) : bool :=
  match o with Some (Reports [(_, (lo, up, _ :: _, _))] false) => qleb a lo && qltb lo up && qleb up b | _ => false end.
Fixpoint nearb (m : Z) (cs : list (option (list Z))) : bool :=
  match cs with
  | Some q :: ((Some q' :: _) as cs') => Z.leb (l1_dist q q') m && nearb m cs'
  | [Some _] => true
  | _ => false
  end.
Lemma nearb_ok m cs : nearb m cs = true -> forall k q q', nth_error cs k = Some (Some q) -> nth_error cs (S k) = Some (Some q') -> near (Some m) q q'.
Proof.
  induction cs as [|[a|] cs IH]; intros H k q q' E1 E2; cbn [nearb] in H; try discriminate. destruct cs as [|[b|] cs]; try discriminate; [destruct k as [|k]; cbn in E2; [discriminate|destruct k; discriminate]|].
  apply andb_true_iff in H. destruct H as (H1 & H2). destruct k as [|k].
  - cbn in E1, E2. injection E1 as <-. injection E2 as <-. apply Z.leb_le. exact H1.
  - apply (IH H2 k); auto.
Qed.
Lemma search_curve_check d N m mc c : valid_curveb c = true -> cv_dim c = d -> cv_div c = N -> cv_mult c = m -> check c = Some true ->
  forallb (fun pat => nearb mc (pr_cubes (pat_proto pat))) (cv_pats c) = true -> search_curve d N m (Some mc) c.
Proof.
  intros V D1 D2 D3 K HF. rewrite forallb_forall in HF. constructor; auto; [apply valid_curveb_ok; auto|]. intros pat k q q' Hin. exact (nearb_ok mc _ (HF pat Hin) k q q').
Qed.
Example C46_example :
  unit_links 2 corner_gates /\ unit_links 2 diagonal_gates /\
  report_between (Zq 4) (Zq 7) (search_example (Some [corner_gates]) None true false) = true /\
  report_between (Zq 4) (Zq 7) (search_example None None false false) = true /\
  searched 2 2 1 (Some 1%Z) None false None (curve_or zoo_hilbert) /\
  searched 2 2 1 (Some 1%Z) (Some [corner_gates]) false (Some corner_gates) (curve_or zoo_hilbert).
Proof.
  split; [repeat constructor; vm_compute; discriminate|]. split; [repeat constructor; vm_compute; discriminate|]. split; [vm_compute; reflexivity|]. split; [vm_compute; reflexivity|].
  assert (HS : search_curve 2 2 1 (Some 1%Z) (curve_or zoo_hilbert)) by (apply search_curve_check; vm_compute; reflexivity). destruct C41_example as ([V D1 D2 D3 K L GG GF] & _).
  assert (HG : curve_gates_are (curve_or zoo_hilbert) (gates_of (curve_or zoo_hilbert))) by (split; [congruence|auto]). split.
  - split; auto. exists (gates_of (curve_or zoo_hilbert)). auto.
  - split; auto. exists (gates_of (curve_or zoo_hilbert)), corner_gates. split; auto. split; [|apply Permutation_refl].
    assert (E : gates_eqb (map (pl_mul (BM [(1, false); (0, false)] false)) (gates_of (curve_or zoo_hilbert))) corner_gates = true) by (vm_compute; reflexivity).
    apply P_GateLoop.gates_eqb_ok in E. rewrite <- E. clear. induction (gates_of _) as [|l ls IH]; constructor; auto. exists (BM [(1, false); (0, false)] false). split; auto.
    apply wf_bmb_ok. vm_compute. reflexivity.
Qed.

(** Refuted: run_search does not print "NOT FOUND!" if there are no curves, or none below the upper bound: it leaves the loop
    with an exception, as result is None. *)
Theorem C46_not_found_refuted : search_example (Some [diagonal_gates]) None false false = Some (Reports [] true) /\
  search_example (Some [corner_gates]) (Some (Zq 3)) true false = Some (Reports [] true).
Proof. split; vm_compute; reflexivity. Qed.
Print Assumptions C46_not_found_refuted.
