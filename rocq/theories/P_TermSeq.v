(** Termination of estimate_dilation_sequence; results do not depend on the fuel. *)
From Verif Require Import Py L_Py L_Qc L_R M_BaseMaps M_Subsets M_Paths M_Curves M_Utils M_Heap M_Sat M_Dilation S_BaseMaps S_Subsets S_Utils S_Heap S_Paths S_Curves S_Fuzzy S_Sat S_Ratio S_Dilation S_Term
  P_Heap P_JuncLoop P_FuzzyExample P_FuzzyEst P_SeqEst P_TermReg2 P_TermBisect P_TermFuzzy.
From Coq Require Import Reals Lra Lia Permutation.
Local Open Scope nat_scope.

Section Mono.
Context (ratio : ratio_func) (hq : heap_impl bpair) (hs : heap_impl citem).
Lemma junctions_mono c fuel fuel' js : fuel <= fuel' -> regular_junctions fuel c = Some js -> regular_junctions fuel' c = Some js.
Proof.
  intros HL. unfold regular_junctions. assert (TM : forall T, get_junction_templates fuel c = Some T -> get_junction_templates fuel' c = Some T) by (intros T; apply templates_mono; auto).
  assert (TT : option_map (map fst) (get_junction_templates fuel c) = Some js -> option_map (map fst) (get_junction_templates fuel' c) = Some js).
  { destruct (get_junction_templates fuel c) as [T|]; [|discriminate]. rewrite (TM T eq_refl). auto. }
  destruct (cv_kind c); auto. unfold gen_regular_junctions. destruct (gen_base_junctions c) as [l|]; auto. unfold gen_junctions_from_base.
  destruct (derive_loop fuel c (rev l) (rev l)) as [js0 e] eqn:ED. cbn [fst snd]. destruct e; try discriminate. rewrite (loop_mono c fuel fuel') by (auto; rewrite ED; discriminate). rewrite ED. auto.
Qed.
Lemma create_mono c fuel fuel' g b keep st t : fuel <= fuel' -> create_tree ratio hq fuel c g b keep st = Some t -> create_tree ratio hq fuel' c g b keep st = Some t.
Proof. intros HL. unfold create_tree. destruct (regular_junctions fuel c) as [js|] eqn:E; [|discriminate]. rewrite (junctions_mono c fuel fuel' js HL E). auto. Qed.
Lemma load_mono c fuel fuel' a : fuel <= fuel' -> ad_load fuel c = Some a -> ad_load fuel' c = Some a.
Proof.
  intros HL. unfold ad_load. destruct (omap _ _); [|discriminate]. destruct (get_junction_templates fuel c) as [T|] eqn:E; [|discriminate]. rewrite (templates_mono c fuel fuel' T HL E). auto.
Qed.
Lemma regular_mono c fuel fuel' rti mi fd md r : fuel <= fuel' -> estimate_dilation_regular ratio hq fuel c rti mi fd md = Some r -> estimate_dilation_regular ratio hq fuel' c rti mi fd md = Some r.
Proof.
  intros HL. unfold estimate_dilation_regular. destruct (match rti with Some r => _ | None => _ end) as [tol|]; auto. destruct (match fd with Some f => _ | None => _ end) as [st|]; auto.
  destruct (create_tree ratio hq fuel c None None true st) as [t|] eqn:E; [|discriminate]. rewrite (create_mono c fuel fuel' _ _ _ _ _ HL E). destruct (bh_max t); auto. destruct (bh_update _ _ _ _ _); auto. destruct (bh_top _); auto. apply regular_loop_mono. auto.
Qed.
Lemma bisect_mono c fuel fuel' solver sched mi good bad it ia call : fuel <= fuel' -> fst (bisect_dilation_fuzzy ratio hq fuel solver sched mi c good bad it ia call) <> BError ->
  bisect_dilation_fuzzy ratio hq fuel' solver sched mi c good bad it ia call = bisect_dilation_fuzzy ratio hq fuel solver sched mi c good bad it ia call.
Proof.
  intros HL. unfold bisect_dilation_fuzzy.
  assert (E1 : forall t, match it with None => create_tree ratio hq fuel c (Some good) (Some bad) false None | Some t => bh_copy bp_lo bp_up hq t (Some good) (Some bad) end = Some t ->
    match it with None => create_tree ratio hq fuel' c (Some good) (Some bad) false None | Some t => bh_copy bp_lo bp_up hq t (Some good) (Some bad) end = Some t) by (intros t; destruct it; auto; apply create_mono; auto).
  assert (E2 : forall a, match ia with None => ad_load fuel c | Some a => Some (ad_copy a) end = Some a -> match ia with None => ad_load fuel' c | Some a => Some (ad_copy a) end = Some a) by (intros a; destruct ia; auto; apply load_mono; auto).
  destruct (match it with None => create_tree ratio hq fuel c (Some good) (Some bad) false None | Some t => bh_copy bp_lo bp_up hq t (Some good) (Some bad) end) as [t|]; [|cbn; intros H; exfalso; apply H; reflexivity].
  destruct (match ia with None => ad_load fuel c | Some a => Some (ad_copy a) end) as [a|]; [|cbn; intros H; exfalso; apply H; reflexivity].
  rewrite (E1 t eq_refl), (E2 a eq_refl). destruct (forbid t a) as [t1 a1]. apply bisect_loop_mono. auto.
Qed.
Lemma fuzzy_loop_mono solver sched mi c tol stop t a : forall fuel fuel' cur lo up call r, fuel <= fuel' -> fuzzy_loop ratio hq fuel solver sched mi c tol stop t a cur lo up call = Some r -> fuzzy_loop ratio hq fuel' solver sched mi c tol stop t a cur lo up call = Some r.
Proof.
  induction fuel as [|fuel IH]; intros fuel' cur lo up call r HL E; (destruct fuel' as [|fuel']; [try lia; auto|]); cbn [fuzzy_loop] in *; destruct (qltb (lo * tol)%Qc up); auto; try discriminate.
  set (tl := if Qc_eq_bool lo 0%Qc then (Zq 1 / Zq 2 * up)%Qc else third 2 1 lo up) in *. set (tu := if Qc_eq_bool lo 0%Qc then (Zq 2 / Zq 3 * up)%Qc else third 1 2 lo up) in *. cbv zeta in *.
  pose proof (bisect_mono c (S fuel) (S fuel') solver sched mi tu tl (Some t) (Some a) call HL) as BM.
  destruct (bisect_dilation_fuzzy ratio hq (S fuel) solver sched mi c tu tl (Some t) (Some a) call) as [res call'] eqn:EB. cbn [fst] in BM.
  destruct res as [x| | |]; try discriminate; (rewrite BM by discriminate); auto; (destruct (match stop with Some s => _ | None => _ end); auto; apply IH; auto; lia).
Qed.
Lemma fuzzy_mono c fuel fuel' solver sched mi rti stop slo sup scur call r : fuel <= fuel' -> estimate_dilation_fuzzy ratio hq fuel solver sched mi c rti stop slo sup scur call = Some r ->
  estimate_dilation_fuzzy ratio hq fuel' solver sched mi c rti stop slo sup scur call = Some r.
Proof.
  intros HL. unfold estimate_dilation_fuzzy.
  assert (ST : forall cu, match sup with
        | None => match get_curve_example c with
                  | Some c0 => match estimate_dilation_regular ratio hq fuel c0 (Some rti) None None None with Some (_, up, _) => Some (Some c0, up) | None => None end
                  | None => None end
        | Some u => Some (scur, u) end = Some cu -> match sup with
        | None => match get_curve_example c with
                  | Some c0 => match estimate_dilation_regular ratio hq fuel' c0 (Some rti) None None None with Some (_, up, _) => Some (Some c0, up) | None => None end
                  | None => None end
        | Some u => Some (scur, u) end = Some cu).
  { intros cu. destruct sup as [u|]; auto. destruct (get_curve_example c) as [e|]; auto. destruct (estimate_dilation_regular ratio hq fuel e (Some rti) None None None) as [r0|] eqn:ER; [|discriminate]. rewrite (regular_mono _ _ _ _ _ _ _ _ HL ER). auto. }
  destruct (match sup with None => _ | Some u => Some (scur, u) end) as [[cur up]|]; [|discriminate]. rewrite (ST _ eq_refl).
  destruct (create_tree ratio hq fuel c None None false None) as [t|] eqn:ET; [|discriminate]. rewrite (create_mono _ _ _ _ _ _ _ _ HL ET).
  destruct (ad_load fuel c) as [a|] eqn:EA; [|discriminate]. rewrite (load_mono _ _ _ _ HL EA). destruct (tolerance_of rti); auto. apply fuzzy_loop_mono. auto.
Qed.
Lemma step_mono fuel fuel' solver sched mi rti st it r : fuel <= fuel' -> seq_step ratio hq hs fuel solver sched mi rti st it = Some r -> seq_step ratio hq hs fuel' solver sched mi rti st it = Some r.
Proof.
  intros HL. unfold seq_step. destruct st as [[cu h] call]. destruct (estimate_dilation_fuzzy ratio hq fuel _ _ _ _ _ _ _ _ _ _) as [r0|] eqn:E; [|discriminate]. rewrite (fuzzy_mono _ _ _ _ _ _ _ _ _ _ _ _ _ HL E). auto.
Qed.
Lemma fold_none {A B} (f : A -> B -> option B) l : fold_left (fun acc it => obind acc (fun st => f it st)) l None = None.
Proof. induction l; auto. Qed.
Lemma steps_mono fuel fuel' solver sched mi rti : fuel <= fuel' -> forall l st r, fold_left (fun acc it => obind acc (fun st => seq_step ratio hq hs fuel solver sched mi rti st it)) l (Some st) = Some r ->
  fold_left (fun acc it => obind acc (fun st => seq_step ratio hq hs fuel' solver sched mi rti st it)) l (Some st) = Some r.
Proof.
  intros HL. induction l as [|it l IH]; intros st r; cbn [fold_left]; auto. unfold obind at 2 4. destruct (seq_step ratio hq hs fuel solver sched mi rti st it) as [st1|] eqn:E; [|rewrite (fold_none (fun it st => seq_step ratio hq hs fuel solver sched mi rti st it)); discriminate].
  rewrite (step_mono _ _ _ _ _ _ _ _ _ HL E). apply IH.
Qed.
Lemma seq_loop_mono solver sched mi tol mult : forall fuel fuel' active lo up ct call r, fuel <= fuel' -> seq_loop ratio hq hs fuel solver sched mi tol mult active lo up ct call = Some r -> seq_loop ratio hq hs fuel' solver sched mi tol mult active lo up ct call = Some r.
Proof.
  induction fuel as [|fuel IH]; intros fuel' active lo up ct call r HL E; (destruct fuel' as [|fuel']; [try lia; auto|]); cbn [seq_loop] in *; destruct (match up with None => None | Some u => _ end); auto; try discriminate.
  destruct (fold_left _ active _) as [st|] eqn:EF in E; [|discriminate]. pose proof (steps_mono (S fuel) (S fuel') _ _ _ _ HL _ _ _ EF) as EF'. rewrite EF'. destruct st as [[up' h] call']. destruct h; auto. destruct (min_lo _); auto. apply IH; auto. lia.
Qed.
End Mono.

Section TermSeq.
Context (ratio : ratio_func) (rR : list R -> R -> R) (hq : heap_impl bpair) (HQ : heapq_ok hq) (hs : heap_impl citem) (is_heap : list (node citem) -> Prop) (HH : IH_ok hs is_heap).
Context (d : nat) (RO : ratio_ok d (ratio d) rR) (pw : nat) (RP : ratio_power pw rR) (solver : sat_solver) (HS : sat_ok solver) (sched : Z -> Z).
Definition titem (it : citem) : Prop := joined_input d (ci_curve it) /\ forall l, ci_lo it = Some l -> (0 <= l)%Qc.
Definition tnode (T : Z) (cu : option Qc) (n : node citem) : Prop := node_good n /\ titem (nd_item n) /\
  exists l w u, ci_lo (nd_item n) = Some l /\ ci_up (nd_item n) = Some w /\ cu = Some u /\ (u <= w)%Qc /\ (qR w * IZR T <= qR l * IZR (T + 1))%R.
Definition cu_le (cu' cu : option Qc) : Prop := match cu with None => True | Some u => exists u', cu' = Some u' /\ (u' <= u)%Qc end.
Lemma tnode_le T cu cu' n : cu_le cu' cu -> tnode T cu n -> tnode T cu' n.
Proof.
  intros HL (A & B & l & w & u & E1 & E2 & E3 & H1 & H2). split; auto. split; auto. subst cu. destruct HL as (u' & -> & HL). exists l, w, u'. repeat (split; auto). eapply Qcle_trans; eauto.
Qed.
Lemma step_total T it cu h call : (0 < T)%Z -> titem it -> is_heap h -> Forall (tnode T cu) h ->
  exists F cu' h' call', (forall fuel, F <= fuel -> seq_step ratio hq hs fuel solver sched None T (cu, h, call) it = Some (cu', h', call')) /\ is_heap h' /\ Forall (tnode T cu') h' /\ cu_le cu' cu.
Proof.
  intros HT ((N & group & ntr & paths & HG & HP & HJ & HB) & Hlo) Hh HF.
  destruct (fuzzy_ends d N group ntr paths HG HP HJ ratio rR RO pw RP hq HQ (ci_curve it) HB solver sched None T cu (ci_lo it) (ci_up it) (ci_example it) call HS HT Hlo) as (F & [[[ex lo] up] call'] & [L0 PF] & HE). specialize (PF eq_refl).
  set (u := match cu with None => up | Some u => if qltb up u then up else u end).
  assert (Hu : (u <= up)%Qc /\ match cu with Some u0 => (u <= u0)%Qc | None => True end).
  { unfold u. destruct cu as [u0|]; [|split; [apply Qcle_refl|auto]]. destruct (qltb up u0) eqn:EQ; [apply qltb_ok in EQ; split; [apply Qcle_refl|apply Qclt_le_weak; auto]|apply qltb_false in EQ; split; [auto|apply Qcle_refl]]. }
  destruct Hu as [U1 U2]. assert (CL : cu_le (Some u) cu) by (destruct cu; [exists u; auto|exact I]).
  set (nn := Nd (- lo)%Qc (ci_idx it) (CI (ci_idx it) (Some lo) (Some up) (ci_curve it) ex)). set (h1 := if qleb lo u then hq_push hs h nn else h).
  assert (NN : (lo <= u)%Qc -> tnode T (Some u) nn).
  { intros HL. split; [exists lo; auto|]. split. { split; [exists N, group, ntr, paths; auto|]. intros l X. injection X as <-. auto. }
    exists lo, up, u. repeat (split; auto). destruct PF as [PF|(s & E & Hs)]; auto. exfalso. rewrite E in U2. apply (Qcle_not_lt _ _ HL). exact (Qcle_lt_trans _ _ _ U2 Hs). }
  assert (H1 : is_heap h1 /\ Forall (tnode T (Some u)) h1).
  { assert (HF' : Forall (tnode T (Some u)) h) by (eapply Forall_impl; [|exact HF]; intros n; apply tnode_le; auto). unfold h1. destruct (qleb lo u) eqn:EQ; [|split; auto].
    destruct HH as (_ & HPush & _). destruct (HPush h nn Hh) as [A B]. split; auto. eapply Permutation_Forall; [symmetry; exact B|]. constructor; auto. apply NN, qleb_ok; auto. }
  destruct H1 as [H1 H2]. destruct (cleanup_ok hs is_heap HH u (length h1) h1 H1 (le_n _)) as (h' & dr & E1 & H' & HPm & _). { eapply Forall_impl; [|exact H2]. intros n (X & _). exact X. }
  exists F, (Some u), h', call'. split; [|split; [auto|split; [|auto]]].
  - intros fuel Hf. unfold seq_step. rewrite HE by auto. cbv zeta. change (match cu with None => up | Some u => if qltb up u then up else u end) with u. fold nn. fold h1. rewrite E1. reflexivity.
  - eapply Permutation_Forall in H2; [|exact HPm]. apply Forall_app in H2 as [_ H2]. exact H2.
Qed.
Lemma steps_total T : (0 < T)%Z -> forall l cu h call, Forall titem l -> is_heap h -> Forall (tnode T cu) h ->
  exists F cu' h' call', (forall fuel, F <= fuel -> fold_left (fun acc it => obind acc (fun st => seq_step ratio hq hs fuel solver sched None T st it)) l (Some (cu, h, call)) = Some (cu', h', call')) /\ is_heap h' /\ Forall (tnode T cu') h'.
Proof.
  intros HT. induction l as [|it l IH]; intros cu h call HL Hh HF; cbn [fold_left].
  - exists 0, cu, h, call. auto.
  - inversion HL as [|? ? H1 H2]; subst. destruct (step_total T it cu h call HT H1 Hh HF) as (F1 & cu1 & h1 & call1 & E1 & A1 & A2 & _). destruct (IH cu1 h1 call1 H2 A1 A2) as (F2 & cu2 & h2 & call2 & E2 & B1 & B2).
    exists (F1 + F2), cu2, h2, call2. split; auto. intros fuel Hf. unfold obind at 2. rewrite E1 by lia. apply E2. lia.
Qed.
Lemma min_lo_some l : l <> [] -> (forall it, In it l -> ci_lo it <> None) -> exists lo, min_lo l = Some lo.
Proof.
  intros NE H. unfold min_lo. assert (E : exists r, omap ci_lo l = Some r /\ length r = length l).
  { clear NE. induction l as [|a l IH]; [exists []; auto|]. cbn [omap]. destruct IH as (r & E & EL); [intros it Hi; apply H; right; auto|]. pose proof (H a (or_introl eq_refl)). destruct (ci_lo a) as [x|]; [|congruence]. rewrite E. exists (x :: r). cbn. auto. }
  destruct E as ([|x r] & -> & EL); [destruct l; [congruence|discriminate]|eauto].
Qed.
Context (tol : Qc) (rti mult : Z) (Hr : (0 < rti)%Z) (Hm : (2 <= mult)%Z) (Htol : (qR tol * IZR rti = IZR (rti + 1))%R).
Lemma epochs_end n : forall active lo up T call, Forall titem active -> (0 < T)%Z -> (rti <= T * mult ^ Z.of_nat n)%Z ->
  exists F r, forall fuel, F <= fuel -> seq_loop ratio hq hs fuel solver sched None tol mult active lo up T call = Some r.
Proof.
  induction n as [|n IH]; intros active lo up T call HA HT HN.
  all: destruct (match up with None => None | Some u => if qltb (lo * tol)%Qc u then None else Some u end) as [u|] eqn:EU;
    [exists 0; eexists; intros [|fuel] _; cbn [seq_loop]; rewrite EU; reflexivity|].
  all: destruct (steps_total (T * mult) ltac:(nia) active up [] call HA (proj1 HH) (Forall_nil _)) as (F & cu & h & call' & E & Hh & HF).
  all: destruct h as [|n0 h0]; [exists (S F); eexists; intros [|fuel] Hf; [lia|]; cbn [seq_loop]; rewrite EU, E by lia; reflexivity|].
  all: set (h := n0 :: h0) in *; set (act := sorted oq_cmp (map nd_item h)); assert (PA : Permutation act (map nd_item h)) by apply sorted_perm.
  all: assert (HA' : forall it, In it act -> exists n, In n h /\ nd_item n = it) by (intros it Hi; apply (Permutation_in _ PA) in Hi; apply in_map_iff in Hi as (n1 & <- & Hi); eauto).
  all: rewrite Forall_forall in HF.
  all: destruct (min_lo_some act) as (lo' & EM);
    [intros X; apply Permutation_length in PA; rewrite X in PA; discriminate
    |intros it Hi; destruct (HA' it Hi) as (n1 & Hn & <-); destruct (HF n1 Hn) as ((l & El & _) & _); rewrite El; discriminate|].
  all: assert (TI : Forall titem act) by (apply Forall_forall; intros it Hi; destruct (HA' it Hi) as (n1 & Hn & <-); apply (HF n1 Hn)).
  all: assert (STEP : forall F' r, (forall fuel, F' <= fuel -> seq_loop ratio hq hs fuel solver sched None tol mult act lo' cu (T * mult) call' = Some r) ->
      exists F r, forall fuel, F <= fuel -> seq_loop ratio hq hs fuel solver sched None tol mult active lo up T call = Some r) by
    (intros F' r HR; exists (S (F + F')), r; intros [|fuel] Hf; [lia|]; cbn [seq_loop]; rewrite EU, E by lia; cbn [h]; fold h act; rewrite EM; apply HR; lia).
  - destruct (min_lo_ok act lo' EM) as (_ & it0 & M2 & M3). destruct (HA' it0 M2) as (n1 & Hn & <-). destruct (HF n1 Hn) as (_ & (_ & L0) & l & w & u & E1 & E2 & E3 & H1 & H2). assert (l = lo') by congruence. subst l cu.
    specialize (L0 lo' M3). apply qR_le in L0, H1. change (qR 0%Qc) with (qR (Zq 0)) in L0. rewrite qR_Zq in L0.
    apply (STEP 0 (Some (lo', u, map ci_example act, map ci_idx act))). assert (EQ : qltb (lo' * tol)%Qc u = false).
    { apply qltb_false, qR_le. rewrite qR_mul. change (Z.of_nat 0) with 0%Z in HN. rewrite Z.pow_0_r in HN. assert (HTm : (rti <= T * mult)%Z) by nia. apply IZR_le in HTm. assert (R0 : (0 < IZR rti)%R) by (apply (IZR_lt 0); auto).
      rewrite plus_IZR in H2, Htol. set (m := IZR (T * mult)) in *. assert (Et : (qR tol = 1 + / IZR rti)%R) by (apply (Rmult_eq_reg_r (IZR rti)); [rewrite Htol; field; lra|lra]). rewrite Et.
      assert (Hw : (qR w <= qR lo' * (1 + / m))%R). { apply (Rmult_le_reg_r m); [lra|]. replace (qR lo' * (1 + / m) * m)%R with (qR lo' * (m + 1))%R by (field; lra). exact H2. }
      assert (/ m <= / IZR rti)%R by (apply Rinv_le_contravar; lra). nra. }
    intros [|fuel] _; cbn [seq_loop]; rewrite EQ; reflexivity.
  - destruct (IH act lo' cu (T * mult)%Z call' TI ltac:(nia)) as (F' & r & HR); [|apply (STEP F' r); auto]. rewrite Nat2Z.inj_succ, Z.pow_succ_r in HN by lia. rewrite <- Z.mul_assoc. exact HN.
Qed.
End TermSeq.
Theorem seq_ends : forall hq, heapq_ok hq -> forall hs, heapq_ok hs -> forall (ratio : ratio_func) (rR : list R -> R -> R) pw d curves,
  Forall (joined_input d) curves -> ratio_ok d (ratio d) rR -> ratio_power pw rR -> forall solver sched rel_tol_inv mult upper_bound, sat_ok solver -> (0 < rel_tol_inv)%Z -> (2 <= mult)%Z ->
  exists F r, forall fuel, F <= fuel -> estimate_dilation_sequence ratio hq hs fuel solver sched None curves rel_tol_inv mult upper_bound = Some r.
Proof.
  intros hq HQ hs HQs ratio rR pw d curves HC RO RP solver sched rti mult ub HS Hr Hm. destruct (heapq_inv hs HQs) as (is_heap & HH). destruct (tolerance_gt1 rti Hr) as (tol & Et & _ & Htol). unfold estimate_dilation_sequence. rewrite Et.
  apply (epochs_end ratio rR hq HQ hs is_heap HH d RO pw RP solver HS sched tol rti mult Hr Hm Htol (Z.to_nat rti)); [|lia|].
  - apply Forall_map. apply Forall_forall. intros [i c] Hi. split; [|intros l X; discriminate]. cbn [ci_curve snd]. rewrite Forall_forall in HC. apply HC. apply In_enumerate in Hi. apply nth_error_In in Hi. exact Hi.
  - rewrite Z2Nat.id by lia. rewrite Z.mul_1_l. assert (rti < 2 ^ rti)%Z by (apply Z.pow_gt_lin_r; lia). assert (2 ^ rti <= mult ^ rti)%Z by (apply Z.pow_le_mono_l; lia). lia.
Qed.
Lemma joined_fuzzy d c : joined_input d c -> fuzzy_input d c.
Proof. intros (N & group & dtr & paths & H1 & H2 & _ & H3). exists N, group, dtr, paths. auto. Qed.
