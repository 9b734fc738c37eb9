(** Entrances, exits (C19): the loops find a period, the sums are the limit points, and these are f(0), f(1). *)
From Verif Require Import Py L_Py L_Qc M_BaseMaps S_BaseMaps L_BaseMaps P_Actions P_GenMaps M_Subsets S_Subsets P_Subsets P_Points P_Facets
  M_Paths M_Utils M_Curves S_Utils L_R P_Utils S_Curves P_CurveAct L_Digits P_Core P_Bridge P_Paths.
From Coq Require Import Reals Lra Lia Factorial.
Local Open Scope nat_scope.

(** counting specs *)
Lemma length_picks {A} (l : list A) : length (picks l) = length l.
Proof. induction l; cbn; auto. rewrite map_length; auto. Qed.
Lemma length_perms_fuel {A} n : forall (l : list A), length l = n -> length (perms_fuel n l) = fact n.
Proof.
  induction n as [|n IH]; intros l Hl; [reflexivity|]. change (fact (S n)) with (S n * fact n). cbn [perms_fuel].
  rewrite <- Hl, <- (length_picks l). apply length_flat_map_const. intros [x r] Hin. rewrite map_length. apply IH.
  apply picks_length in Hin. cbn [snd]. lia.
Qed.
Lemma length_gen_base_maps d : length (gen_base_maps d None) = fact d * 2 ^ S d.
Proof.
  unfold gen_base_maps. replace (fact d) with (length (perms (range d))).
  2:{ unfold perms. rewrite length_perms_fuel; unfold range; rewrite ?seq_length; auto. }
  apply length_flat_map_const. intros p _.
  replace (2 ^ S d) with (length (lprod_rep [true; false] d) * 2) by (rewrite length_lprod_rep; cbn; lia).
  apply length_flat_map_const. intros; reflexivity.
Qed.
Definition all_specs (d m : nat) : list spec := flat_map (fun p => map (fun b => Sp b p) (gen_base_maps d None)) (range m).
Lemma In_all_specs d m s : wf_spec d m s -> In s (all_specs d m).
Proof.
  intros [H1 H2]. unfold all_specs. apply in_flat_map. exists (sp_pnum s). split; [apply in_seq; lia|].
  apply in_map_iff. exists (sp_bm s). split; [destruct s; auto|]. apply In_gen_base_maps. auto.
Qed.
Lemma length_all_specs d m : length (all_specs d m) = m * (fact d * 2 ^ S d).
Proof.
  unfold all_specs. rewrite <- (seq_length m 0) at 2. apply length_flat_map_const. intros. rewrite map_length. apply length_gen_base_maps.
Qed.

(** a sequence of finitely many values repeats *)
Lemma first_repeat {A} (s : nat -> A) (U : list A) : (forall x y : A, {x = y} + {x <> y}) -> (forall n, In (s n) U) ->
  exists i idx, i <= length U /\ idx < i /\ s i = s idx /\ NoDup (map s (seq 0 i)).
Proof.
  intros dec HU.
  assert (H : forall n, NoDup (map s (seq 0 n)) \/ exists i idx, i < n /\ idx < i /\ s i = s idx /\ NoDup (map s (seq 0 i))).
  { induction n as [|n [IH|IH]]; [left; constructor| |].
    - destruct (in_dec dec (s n) (map s (seq 0 n))) as [Hin|Hin].
      + right. apply in_map_iff in Hin as (idx & E & Hi). apply in_seq in Hi. exists n, idx. repeat split; auto; lia.
      + left. rewrite seq_S, map_app. cbn [map]. rewrite Nat.add_0_l. apply NoDup_app_intro; auto; [repeat constructor; auto|].
        intros x Hx [<-|[]]. auto.
    - right. destruct IH as (i & idx & H1 & H2). exists i, idx. split; [lia|auto]. }
  destruct (H (S (length U))) as [HN|(i & idx & H1 & H2 & H3 & H4)].
  - exfalso. assert (length (map s (seq 0 (S (length U)))) <= length U).
    { apply NoDup_incl_length; auto. intros x Hx. apply in_map_iff in Hx as (n & <- & _). auto. }
    rewrite map_length, seq_length in H0. lia.
  - exists i, idx. repeat split; auto. lia.
Qed.
Definition spec_dec (x y : spec) : {x = y} + {x <> y}.
Proof. destruct (spec_eqb x y) eqn:E; [left|right]; [apply spec_eqb_ok; auto|intros H; apply spec_eqb_ok in H; congruence]. Defined.

(** periodic digit streams *)
Lemma firstn_dpre e i idx : idx <= i -> firstn idx (dpre e i) = dpre e idx.
Proof.
  intros H. replace i with (idx + (i - idx)) by lia. rewrite dpre_plus. rewrite <- (dpre_length e idx) at 1.
  rewrite firstn_app, Nat.sub_diag, firstn_all. cbn. apply app_nil_r.
Qed.
Lemma skipn_dpre e i idx : idx <= i -> skipn idx (dpre e i) = dpre (fun k => e (idx + k)) (i - idx).
Proof.
  intros H. replace i with (idx + (i - idx)) at 1 by lia. rewrite dpre_plus. rewrite <- (dpre_length e idx) at 1.
  rewrite skipn_app, Nat.sub_diag, skipn_all. reflexivity.
Qed.
Lemma nth_dpre e n k : k < n -> nth k (dpre e n) 0%Z = e k.
Proof. intros H. unfold dpre. rewrite map_nth_lt with (d := 0) by (rewrite seq_length; auto). rewrite seq_nth by auto. auto. Qed.
Lemma stream_periodic e i idx : idx < i -> (forall n, idx <= n -> e (n + (i - idx)) = e n) ->
  forall n, stream_digit (firstn idx (dpre e i)) (skipn idx (dpre e i)) n = e n.
Proof.
  intros Hi He n. rewrite firstn_dpre, skipn_dpre by lia. unfold stream_digit. rewrite !dpre_length.
  destruct (Nat.ltb_spec n idx) as [Hn|Hn]; [apply nth_dpre; auto|].
  set (p := i - idx) in *. assert (Hp : p <> 0) by (unfold p; lia). rewrite nth_dpre by (apply Nat.mod_upper_bound; auto).
  pose proof (Nat.div_mod (n - idx) p Hp) as En. set (q := (n - idx) / p) in *. set (r := (n - idx) mod p) in *.
  assert (E : forall q, e (idx + r + q * p) = e (idx + r)).
  { induction q0 as [|q0 IH]; [f_equal; lia|]. replace (idx + r + S q0 * p) with ((idx + r + q0 * p) + p) by lia. rewrite He by lia. auto. }
  rewrite <- (E q). f_equal. lia.
Qed.
Lemma stream_prefix_dpre e i idx : idx < i -> (forall n, idx <= n -> e (n + (i - idx)) = e n) ->
  forall n, stream_prefix (firstn idx (dpre e i)) (skipn idx (dpre e i)) n = dpre e n.
Proof. intros Hi He n. unfold stream_prefix, dpre at 3. apply map_ext. intros k. apply stream_periodic; auto. Qed.
Lemma periodic_sum_stream B e i idx : (2 <= B)%Z -> idx < i -> (forall n, idx <= n -> e (n + (i - idx)) = e n) -> (forall n, (0 <= e n < B)%Z) ->
  exists v, get_periodic_sum (firstn idx (dpre e i)) (skipn idx (dpre e i)) B = Some v /\
    forall n, (IZR (value B (dpre e n)) <= qR v * IZR B ^ n <= IZR (value B (dpre e n)) + 1)%R.
Proof.
  intros HB Hi He Hr. assert (HS : skipn idx (dpre e i) <> []).
  { rewrite skipn_dpre by lia. intros E. apply (f_equal (@length _)) in E. rewrite dpre_length in E. cbn in E. lia. }
  assert (HD : forall z, In z (firstn idx (dpre e i)) \/ In z (skipn idx (dpre e i)) -> (0 <= z < B)%Z).
  { rewrite firstn_dpre, skipn_dpre by lia. intros z [Hz|Hz]; apply in_map_iff in Hz as (k & <- & _); apply Hr. }
  destruct (periodic_sum_enclosure _ _ B 0 HB HS HD) as (v & Ev & _). exists v. split; auto. intros n.
  destruct (periodic_sum_enclosure _ _ B n HB HS HD) as (v' & Ev' & H). assert (v' = v) by congruence. subst.
  rewrite stream_prefix_dpre in H by auto. auto.
Qed.

(** orbits of a choice of fractions by spec *)
Section Orbit.
Context (K : core) (HK : core_ok K) (f : spec -> nat) (Hf : forall S, wfS K S -> f S < kG K).
Notation G := (kG K). Notation N := (kN K). Notation d := (kd K).
Fixpoint orb (S : spec) (n : nat) : spec := match n with 0 => S | Datatypes.S n' => kstep K (orb S n') (f (orb S n')) end.
Definition odl (S : spec) (n : nat) : nat := f (orb S n).
Lemma orb_wf S n : wfS K S -> wfS K (orb S n).
Proof. intros HS. induction n; cbn [orb]; auto. apply kstep_wf; auto. Qed.
Lemma odl_lt S n : wfS K S -> odl S n < G.
Proof. intros. apply Hf, orb_wf; auto. Qed.
Lemma orb_kst S n : kst K S (prefix (odl S) n) = orb S n.
Proof. induction n as [|n IH]; auto. rewrite prefix_S, kst_app, IH. reflexivity. Qed.
Lemma orb_kcubes S n : kcubes K S (prefix (odl S) n) = map (fun k => kcb K (orb S k) (odl S k)) (seq 0 n).
Proof. induction n as [|n IH]; auto. rewrite prefix_S, kcubes_app, orb_kst, IH, seq_S, map_app. reflexivity. Qed.
Lemma orb_plus S n k : orb S (n + k) = orb (orb S n) k.
Proof. induction k; [rewrite Nat.add_0_r; auto|]. rewrite Nat.add_succ_r. cbn [orb]. rewrite IHk. auto. Qed.
Lemma orb_repeat S : wfS K S -> exists i idx, i <= km K * (fact d * 2 ^ Datatypes.S d) /\ idx < i /\ orb S i = orb S idx /\ NoDup (map (orb S) (seq 0 i)).
Proof.
  intros HS. rewrite <- length_all_specs. apply first_repeat; [apply spec_dec|]. intros n. apply In_all_specs. apply orb_wf; auto.
Qed.
Lemma orb_periodic S i idx : idx < i -> orb S i = orb S idx -> forall n, idx <= n -> orb S (n + (i - idx)) = orb S n.
Proof.
  intros Hi E n Hn. replace (n + (i - idx)) with (i + (n - idx)) by lia. rewrite orb_plus, E, <- orb_plus. f_equal. lia.
Qed.
(** the sums computed from one period give a point of the graph *)
Lemma orbit_time S i idx : wfS K S -> idx < i -> orb S i = orb S idx ->
  exists t, get_periodic_sum (firstn idx (map Z.of_nat (prefix (odl S) i))) (skipn idx (map Z.of_nat (prefix (odl S) i))) (Z.of_nat G) = Some t /\
    forall n, time_in G (prefix (odl S) n) (qR t).
Proof.
  intros HS Hi E. destruct (periodic_sum_stream (Z.of_nat G) (fun n => Z.of_nat (odl S n)) i idx) as (t & Et & Ht).
  - pose proof (kG_ge2 K HK). lia.
  - auto.
  - intros n Hn. unfold odl. rewrite (orb_periodic S i idx); auto.
  - intros n. pose proof (odl_lt S n HS). lia.
  - assert (EP : forall n, map Z.of_nat (prefix (odl S) n) = dpre (fun n => Z.of_nat (odl S n)) n) by (intros; unfold prefix, dpre; rewrite map_map; auto).
    exists t. rewrite EP. split; auto. intros n. unfold time_in. rewrite EP, prefix_length. apply Ht.
Qed.
Lemma orbit_coord S i idx j : wfS K S -> idx < i -> orb S i = orb S idx -> j < d ->
  exists v, get_periodic_sum (map (fun q => nth j q 0%Z) (firstn idx (kcubes K S (prefix (odl S) i))))
                             (map (fun q => nth j q 0%Z) (skipn idx (kcubes K S (prefix (odl S) i)))) (Z.of_nat N) = Some v /\
    forall n, (IZR (place_of j N (kcubes K S (prefix (odl S) n))) <= qR v * IZR (Z.of_nat N) ^ n <= IZR (place_of j N (kcubes K S (prefix (odl S) n))) + 1)%R.
Proof.
  intros HS Hi E Hj. set (e := fun n => nth j (kcb K (orb S n) (odl S n)) 0%Z).
  assert (EP : forall n, map (fun q => nth j q 0%Z) (kcubes K S (prefix (odl S) n)) = dpre e n).
  { intros n. rewrite orb_kcubes, map_map. reflexivity. }
  destruct (periodic_sum_stream (Z.of_nat N) e i idx) as (v & Ev & Hv).
  - pose proof (ok_N K HK). lia.
  - auto.
  - intros n Hn. unfold e, odl. rewrite (orb_periodic S i idx); auto.
  - intros n. apply (grid_nth K); auto. apply kcb_grid; auto; [apply orb_wf; auto|apply odl_lt; auto].
  - exists v. rewrite <- firstn_map, <- skipn_map, EP. split; auto. intros n. unfold place_of. rewrite EP. apply Hv.
Qed.
Lemma orbit_point S i idx : wfS K S -> idx < i -> orb S i = orb S idx ->
  exists x, omap (fun j => get_periodic_sum (map (fun q => nth j q 0%Z) (firstn idx (kcubes K S (prefix (odl S) i))))
                             (map (fun q => nth j q 0%Z) (skipn idx (kcubes K S (prefix (odl S) i)))) (Z.of_nat N)) (range d) = Some x /\
    length x = d /\ forall n, point_in d N (kcubes K S (prefix (odl S) n)) (map qR x).
Proof.
  intros HS Hi E. set (F := fun j => get_periodic_sum _ _ _).
  assert (H : forall l, (forall j, In j l -> j < d) -> exists x, omap F l = Some x /\ Forall2 (fun j v => F j = Some v) l x).
  { induction l as [|j l IH]; intros Hl; [exists []; split; auto|]. destruct IH as (x & Ex & HF); [intros; apply Hl; cbn; auto|].
    destruct (orbit_coord S i idx j HS Hi E) as (v & Ev & _); [apply Hl; cbn; auto|]. exists (v :: x). unfold F at 1. cbn [omap].
    unfold F in Ex. split; [|constructor; auto]. rewrite Ev, Ex. reflexivity. }
  destruct (H (range d)) as (x & Ex & HF); [intros j Hj; apply in_seq in Hj; lia|]. exists x.
  assert (HL : length x = d) by (apply Forall2_length in HF; unfold range in HF; rewrite seq_length in HF; auto).
  split; auto. split; auto. intros n. split; [rewrite map_length; auto|]. intros j Hj.
  destruct (orbit_coord S i idx j HS Hi E Hj) as (v & Ev & Hv). rewrite kcubes_length, prefix_length.
  assert (EV : nth j x 0%Qc = v).
  { pose proof (proj2 (proj1 (Forall2_nth _ _ _ 0 0%Qc) HF) j) as H2. unfold range in H2. rewrite seq_length, seq_nth in H2 by auto. specialize (H2 Hj). cbn in H2. unfold F in H2. congruence. }
  rewrite (map_nth_lt qR) with (d := 0%Qc) by lia. rewrite EV. apply Hv.
Qed.
End Orbit.

(** the graph at the ends of time *)
Section Ends.
Context (K : core) (HK : core_ok K).
Notation G := (kG K). Notation N := (kN K). Notation d := (kd K).
Lemma time0_digits cs : wfc K cs -> time_in G cs 0 -> Forall (fun c => c = 0) cs.
Proof.
  intros Hc Ht. apply (time_in_kT K) in Ht as [Ht _]. rewrite Rmult_0_l in Ht. apply (le_IZR _ 0) in Ht. change (kT K cs <= 0)%Z in Ht.
  induction cs as [|c cs IH] using rev_ind; [constructor|]. apply Forall_app in Hc as [Hc1 Hc2]. inversion Hc2; subst.
  rewrite kT_snoc in Ht. pose proof (proj1 (kT_range K HK cs Hc1)). pose proof (kG_ge2 K HK). apply Forall_app. split; [apply IH; auto; nia|].
  repeat constructor. nia.
Qed.
Lemma kT_last cs : wfc K cs -> (Z.of_nat G ^ Z.of_nat (length cs) - 1 <= kT K cs)%Z -> Forall (fun c => c = G - 1) cs.
Proof.
  intros Hc. pose proof (kG_ge2 K HK) as HG. induction cs as [|c cs IH] using rev_ind; [constructor|].
  apply Forall_app in Hc as [Hc1 Hc2]. inversion Hc2; subst. rewrite kT_snoc, app_length. cbn [length]. rewrite Nat2Z.inj_add, Z.pow_add_r by lia.
  change (Z.of_nat G ^ Z.of_nat 1)%Z with (Z.of_nat G ^ 1)%Z. rewrite Z.pow_1_r. pose proof (proj2 (kT_range K HK cs Hc1)) as HT. intros H.
  set (P := (Z.of_nat G ^ Z.of_nat (length cs))%Z) in *.
  assert (P - 1 <= kT K cs)%Z by nia. assert (HT2 : kT K cs = (P - 1)%Z) by lia. rewrite HT2 in H. apply Forall_app. split; [apply IH; auto|].
  repeat constructor. nia.
Qed.
Lemma time1_digits cs : wfc K cs -> time_in G cs 1 -> Forall (fun c => c = G - 1) cs.
Proof.
  intros Hc Ht. apply (time_in_kT K) in Ht as [_ Ht]. rewrite Rmult_1_l, <- IZR_pow, <- plus_IZR in Ht. apply le_IZR in Ht. change (Z.of_nat G ^ Z.of_nat (length cs) <= kT K cs + 1)%Z in Ht.
  apply kT_last; auto. lia.
Qed.
Lemma all_repeat {A} (a : A) l : Forall (fun x => x = a) l -> l = repeat a (length l).
Proof. induction l; intros H; auto. inversion H; subst. cbn. f_equal; auto. Qed.
Lemma kgraph_end S t k x : (t = 0%R /\ k = 0 \/ t = 1%R /\ k = G - 1) -> kgraph K S t x ->
  forall n, point_in d N (kcubes K S (repeat k n)) x.
Proof.
  intros Ht (HL & dl & Hd & H) n. destruct (H n) as [H1 H2]. pose proof (prefix_wfc K dl n Hd) as Hw.
  assert (E : prefix dl n = repeat k n).
  { rewrite <- (prefix_length dl n) at 2. apply all_repeat. destruct Ht as [[-> ->]|[-> ->]]; [apply time0_digits|apply time1_digits]; auto. }
  rewrite E in H2. auto.
Qed.
Lemma point_unique (V : nat -> list (list Z)) x y : (forall n, length (V n) = n) -> (forall n, point_in d N (V n) x) -> (forall n, point_in d N (V n) y) -> x = y.
Proof.
  intros HV Hx Hy. destruct (Hx 0) as [Lx _]. destruct (Hy 0) as [Ly _]. apply nth_ext with 0%R 0%R; [lia|]. intros j Hj. rewrite Lx in Hj.
  apply digits_real_unique with (Z.of_nat N) (fun n => place_of j N (V n)).
  - pose proof (ok_N K HK). lia.
  - intros n. destruct (Hx n) as [_ H]. rewrite HV in H. apply H; auto.
  - intros n. destruct (Hy n) as [_ H]. rewrite HV in H. apply H; auto.
Qed.
Lemma kgraph_end_unique S t x y : (t = 0%R \/ t = 1%R) -> kgraph K S t x -> kgraph K S t y -> x = y.
Proof.
  intros Ht Hx Hy. assert (exists k, t = 0%R /\ k = 0 \/ t = 1%R /\ k = G - 1) as (k & Hk) by (destruct Ht; [exists 0|exists (G - 1)]; auto).
  apply point_unique with (fun n => kcubes K S (repeat k n)).
  - intros n. rewrite kcubes_length, repeat_length; auto.
  - eapply kgraph_end; eauto.
  - eapply kgraph_end; eauto.
Qed.
Lemma time_in_repeat t k n : (t = 0%R /\ k = 0 \/ t = 1%R /\ k = G - 1) -> time_in G (repeat k n) t.
Proof.
  intros Ht. apply (time_in_kT K). rewrite repeat_length. pose proof (kG_ge2 K HK) as HG.
  assert (E : kT K (repeat k n) = if Nat.eqb k 0 then 0%Z else (Z.of_nat G ^ Z.of_nat n - 1)%Z).
  { destruct Ht as [[-> ->]|[-> ->]].
    - cbn [Nat.eqb]. induction n; auto.
    - destruct (Nat.eqb_spec (G - 1) 0); [lia|]. induction n; [reflexivity|]. cbn [repeat]. rewrite kT_cons, IHn, repeat_length.
      rewrite Nat2Z.inj_succ, Z.pow_succ_r by lia. rewrite Nat2Z.inj_sub by lia. ring. }
  rewrite E. destruct Ht as [[-> ->]|[-> ->]].
  - cbn [Nat.eqb]. lra.
  - destruct (Nat.eqb_spec (G - 1) 0); [lia|]. rewrite minus_IZR, IZR_pow. lra.
Qed.
Lemma prefix_const k n : prefix (fun _ => k) n = repeat k n.
Proof. induction n; auto. rewrite prefix_S, IHn. clear. induction n; cbn; auto. f_equal; auto. Qed.
Lemma kgraph_end_intro S t k x : (t = 0%R /\ k = 0 \/ t = 1%R /\ k = G - 1) -> (forall n, point_in d N (kcubes K S (repeat k n)) x) -> kgraph K S t x.
Proof.
  intros Ht H. destruct (H 0) as [HL _]. split; auto. exists (fun _ => k). split.
  - intros _. pose proof (kG_ge2 K HK). destruct Ht as [[_ ->]|[_ ->]]; lia.
  - intros n. rewrite prefix_const. split; auto. apply time_in_repeat; auto.
Qed.
End Ends.

Lemma dget_absent {A B} (eqb : A -> A -> bool) (H : eqb_ok eqb) (l : list (A * B)) a : ~ In a (map fst l) -> dget eqb l a = None.
Proof.
  induction l as [|[a' b] l IH]; cbn; intros Hn; auto. destruct (eqb a a') eqn:E.
  - apply H in E. subst. exfalso; auto.
  - apply IH. tauto.
Qed.
Lemma dset_absent {A B} (eqb : A -> A -> bool) (H : eqb_ok eqb) (l : list (A * B)) a b : ~ In a (map fst l) -> dset eqb l a b = l ++ [(a, b)].
Proof.
  induction l as [|[a' b'] l IH]; cbn; intros Hn; auto. destruct (eqb a a') eqn:E.
  - apply H in E. subst. exfalso; auto.
  - f_equal. apply IH. tauto.
Qed.
Lemma NoDup_app_left {A} (l l' : list A) : NoDup (l ++ l') -> NoDup l.
Proof. induction l; cbn; intros H; [constructor|]. inversion H; subst. constructor; auto. rewrite in_app_iff in *. tauto. Qed.
Lemma NoDup_snoc_inv {A} (l : list A) a : NoDup (l ++ [a]) -> NoDup l /\ ~ In a l.
Proof. intros H. apply NoDup_remove in H. rewrite app_nil_r in H. auto. Qed.

Section CubeLimit.
Context (c : curve) (HV : valid_fuzzy c).
Notation K := (core_of c). Notation d := (cv_dim c). Notation N := (cv_div c). Notation G := (cv_genus c).
Let HK : core_ok K := full_ok K (core_of_full c HV).
(** the first and the last spec of every pattern are defined *)
Definition ends_def : Prop := forall p, p < cv_mult c -> defined_at c p 0 /\ defined_at c p (G - 1).
Context (HE : ends_def) (k : nat) (Hk : k = 0 \/ k = G - 1).
Let f : spec -> nat := fun _ => k.
Lemma end_lt : k < G. Proof. pose proof (G_pos c HV). destruct Hk; lia. Qed.
Lemma end_defined X : wfS K X -> defined_at c (sp_pnum X) (kflip K (sp_bm X) k).
Proof.
  intros [_ HX]. destruct (HE (sp_pnum X) HX) as [H0 H1]. unfold kflip. rewrite kG_genus. pose proof (G_pos c HV).
  destruct (time_rev (sp_bm X)); destruct Hk as [-> | ->]; auto.
  - rewrite Nat.sub_0_r; auto.
  - replace (G - 1 - (G - 1)) with 0 by lia. auto.
Qed.
Lemma orb_const_prefix X n : prefix (odl K f X) n = repeat k n.
Proof. unfold odl, f. apply prefix_const. Qed.
Definition oindex (X : spec) (i : nat) : list (spec * nat) := map (fun n => (orb K f X n, n)) (seq 0 i).

Lemma cube_limit_run X i idx : wfS K X -> idx < i -> orb K f X i = orb K f X idx -> NoDup (map (orb K f X) (seq 0 i)) ->
  forall m n, n + m = i -> forall fuel, m < fuel ->
  cube_limit_loop fuel c k (orb K f X n) (kcubes K X (repeat k n)) (oindex X n) = Some (kcubes K X (repeat k i), idx).
Proof.
  intros HX Hi E ND. induction m as [|m IH]; intros n Hn fuel Hm; (destruct fuel as [|fuel]; [lia|]); cbn [cube_limit_loop].
  - assert (n = i) by lia. subst n. rewrite E.
    assert (HD : dget spec_eqb (oindex X i) (orb K f X idx) = Some idx).
    { apply In_dget; [apply spec_eqb_ok| |].
      - unfold oindex. rewrite map_map. cbn [fst]. auto.
      - unfold oindex. apply in_map_iff. exists idx. split; auto. apply in_seq. lia. }
    rewrite HD. auto.
  - assert (NDn : NoDup (map (orb K f X) (seq 0 n) ++ [orb K f X n])).
    { replace i with (S n + m) in ND by lia. rewrite seq_app, map_app, seq_S, map_app in ND. cbn [map] in ND. rewrite Nat.add_0_l in ND.
      eapply NoDup_app_left; eauto. }
    apply NoDup_snoc_inv in NDn as [NDn Hnin].
    assert (EF : map fst (oindex X n) = map (orb K f X) (seq 0 n)) by (unfold oindex; rewrite map_map; auto).
    rewrite (dget_absent _ spec_eqb_ok) by (rewrite EF; auto).
    assert (HW : wfS K (orb K f X n)) by (apply orb_wf; auto; intros; apply end_lt).
    destruct (proto_of_eq c HV (orb K f X n) k HW end_lt) as (p & Ep & Ec). rewrite Ep. cbn [obind]. rewrite Ec.
    rewrite compose_eq by (auto using end_lt, end_defined). rewrite (dset_absent _ spec_eqb_ok) by (rewrite EF; auto).
    assert (E1 : kcubes K X (repeat k n) ++ [kcb K (orb K f X n) k] = kcubes K X (repeat k (S n))).
    { rewrite <- (orb_const_prefix X n), <- (orb_const_prefix X (S n)), prefix_S, kcubes_app. rewrite (orb_kst K f). reflexivity. }
    assert (E2 : oindex X n ++ [(orb K f X n, length (kcubes K X (repeat k n)))] = oindex X (S n)).
    { rewrite kcubes_length, repeat_length. unfold oindex. rewrite seq_S, map_app. reflexivity. }
    rewrite E1, E2. change (kstep K (orb K f X n) k) with (orb K f X (S n)). apply IH; lia.
Qed.
Lemma cube_limit_spec p : p < cv_mult c -> exists x, get_cube_limit c p k = Some x /\ length x = d /\
  forall n, point_in d N (kcubes K (Sp (id_map d) p) (repeat k n)) (map qR x).
Proof.
  intros Hp. pose proof (fwfS_id c p Hp) as HX. set (X := Sp (id_map d) p) in *.
  assert (Hf : forall S, wfS K S -> f S < kG K) by (intros; apply end_lt).
  destruct (orb_repeat K HK f Hf X HX) as (i & idx & H1 & H2 & H3 & H4).
  destruct (orbit_point K HK f Hf X i idx HX H2 H3) as (x & Ex & HL & Hpt). exists x. unfold get_cube_limit. fold X.
  pose proof (cube_limit_run X i idx HX H2 H3 H4 i 0 eq_refl (spec_fuel c)) as HR. cbn [orb repeat kcubes oindex map seq] in HR. rewrite HR; clear HR.
  - split; [|split; auto].
    + unfold get_limit_point. rewrite (orb_const_prefix X i) in Ex. exact Ex.
    + intros n. rewrite <- (orb_const_prefix X n). apply Hpt.
  - unfold spec_fuel. change (cv_mult c) with (km K). change d with (kd K). lia.
Qed.
End CubeLimit.

(** entrance and exit of a pattern as points of the graph of the core *)
Section Gates.
Context (c : curve) (HV : valid_fuzzy c) (HE : ends_def c).
Notation K := (core_of c). Notation d := (cv_dim c). Notation N := (cv_div c). Notation G := (cv_genus c).
Let HK : core_ok K := full_ok K (core_of_full c HV).
Lemma entrance_spec p : p < cv_mult c -> exists e, get_entrance c (Some p) = Some e /\ length e = d /\ kgraph K (Sp (id_map d) p) 0 (map qR e).
Proof.
  intros Hp. destruct (cube_limit_spec c HV HE 0 (or_introl eq_refl) p Hp) as (e & E & HL & H). exists e. split; auto. split; auto.
  apply (kgraph_end_intro K HK) with 0; auto.
Qed.
Lemma exit_spec p : p < cv_mult c -> exists e, get_exit c (Some p) = Some e /\ length e = d /\ kgraph K (Sp (id_map d) p) 1 (map qR e).
Proof.
  intros Hp. destruct (cube_limit_spec c HV HE (G - 1) (or_intror eq_refl) p Hp) as (e & E & HL & H). exists e. split; auto. split; auto.
  apply (kgraph_end_intro K HK) with (G - 1); auto.
Qed.
Lemma defined_along_repeat k n : (k = 0 \/ k = G - 1) -> forall X, wfS K X -> defined_along c X (repeat k n).
Proof.
  intros Hk. induction n; intros X HX; cbn [repeat defined_along]; auto. split; [apply end_defined; auto|].
  apply IHn. apply kstep_wf; auto. apply (end_lt c HV); auto.
Qed.
Lemma graph_end X t x : wfS K X -> (t = 0%R \/ t = 1%R) -> (graph (cv_mul_sp X c) t x <-> kgraph K X t x).
Proof.
  intros HX Ht. split; [apply graph_sub; auto|]. intros H. apply graph_fuzzy; auto. split; [apply H|].
  assert (exists k, t = 0%R /\ k = 0 \/ t = 1%R /\ k = G - 1) as (k & Hk) by (destruct Ht; [exists 0|exists (G - 1)]; auto).
  assert (Hk' : k = 0 \/ k = G - 1) by tauto.
  exists (fun _ => k). split; [intros; apply (end_lt c HV); auto|]. split; intros n; rewrite prefix_const.
  - apply defined_along_repeat; auto.
  - split; [apply (time_in_repeat K HK); auto|]. apply (kgraph_end K HK) with (t := t); auto.
Qed.
(** C19: f(0), f(1) *)
Lemma entrance_graph p : p < cv_mult c -> exists e, get_entrance c (Some p) = Some e /\ length e = d /\
  forall y, graph (pattern_curve c p) 0 y <-> y = map qR e.
Proof.
  intros Hp. destruct (entrance_spec p Hp) as (e & E & HL & H). exists e. split; auto. split; auto. intros y.
  rewrite fpattern_curve_eq by auto. rewrite graph_end by (auto using fwfS_id). split.
  - intros Hy. eapply (kgraph_end_unique K HK _ 0%R); eauto.
  - intros ->. auto.
Qed.
Lemma exit_graph p : p < cv_mult c -> exists e, get_exit c (Some p) = Some e /\ length e = d /\
  forall y, graph (pattern_curve c p) 1 y <-> y = map qR e.
Proof.
  intros Hp. destruct (exit_spec p Hp) as (e & E & HL & H). exists e. split; auto. split; auto. intros y.
  rewrite fpattern_curve_eq by auto. rewrite graph_end by (auto using fwfS_id). split.
  - intros Hy. eapply (kgraph_end_unique K HK _ 1%R); eauto.
  - intros ->. auto.
Qed.

(** the link of a transformed pattern *)
Lemma gx_pt_mul b x : wf_bm d b -> length x = d -> gx b (map qR x) = map qR (pt_mul b x).
Proof.
  intros Hb Hx. unfold gx, pt_mul, apply_x. symmetry. apply act_map with d; auto. intros v. rewrite qR_sub, qR_1. auto.
Qed.
Lemma sp_id_mul X : wfS K X -> X = bm_mul_sp (sp_bm X) (Sp (id_map d) (sp_pnum X)).
Proof. intros [HX _]. destruct X as [b p]. unfold bm_mul_sp; cbn [sp_bm sp_pnum] in *. rewrite (mul_id_r d); auto. Qed.
Definition is_link (p : nat) (l : plink) : Prop :=
  get_entrance c (Some p) = Some (entrance l) /\ get_exit c (Some p) = Some (exit l).
Lemma link_exists p : p < cv_mult c -> exists l, is_link p l /\ pl_dim d l.
Proof.
  intros Hp. destruct (entrance_spec p Hp) as (e & E1 & E2 & _). destruct (exit_spec p Hp) as (x & E3 & E4 & _).
  exists (Lk e x). repeat split; auto.
Qed.
Lemma link_dim p l : p < cv_mult c -> is_link p l -> pl_dim d l.
Proof. intros Hp [H1 H2]. destruct (link_exists p Hp) as (l' & [H3 H4] & [H5 H6]). split; congruence. Qed.
Lemma link_kgraph p l : p < cv_mult c -> is_link p l ->
  kgraph K (Sp (id_map d) p) 0 (map qR (entrance l)) /\ kgraph K (Sp (id_map d) p) 1 (map qR (exit l)).
Proof.
  intros Hp [H1 H2]. destruct (entrance_spec p Hp) as (e & E1 & E2 & E3). destruct (exit_spec p Hp) as (x & E4 & E5 & E6).
  split; congruence.
Qed.
Lemma spec_link_kgraph X l : wfS K X -> is_link (sp_pnum X) l ->
  kgraph K X 0 (map qR (entrance (pl_mul (sp_bm X) l))) /\ kgraph K X 1 (map qR (exit (pl_mul (sp_bm X) l))).
Proof.
  intros HX Hl. destruct (link_kgraph _ l (proj2 HX) Hl) as [H0 H1]. destruct (link_dim _ l (proj2 HX) Hl) as [D0 D1].
  pose proof (fwfS_id c _ (proj2 HX)) as HW. apply (kgraph_mul K HK (sp_bm X)) in H0, H1; try apply HX; auto.
  rewrite gx_pt_mul in H0, H1 by (auto; apply HX). rewrite <- sp_id_mul in H0, H1 by auto.
  unfold gt in *. unfold pl_mul, lk_mul. destruct (time_rev (sp_bm X)); cbn [entrance exit]; split; auto.
  - replace 0%R with (1 - 1)%R by ring. auto.
  - replace 1%R with (1 - 0)%R at 1 by ring. auto.
Qed.
Lemma map_qR_inj x y : map qR x = map qR y -> x = y.
Proof. revert y. induction x as [|a x IH]; intros [|b y] E; cbn in E; try discriminate; auto. inversion E. f_equal; auto. apply qR_inj; auto. Qed.
Lemma kgraph_rational_end X l t y : wfS K X -> is_link (sp_pnum X) l -> (t = 0%R \/ t = 1%R) -> kgraph K X t y ->
  y = map qR (if Req_EM_T t 0 then entrance (pl_mul (sp_bm X) l) else exit (pl_mul (sp_bm X) l)).
Proof.
  intros HX Hl Ht Hy. destruct (spec_link_kgraph X l HX Hl) as [H0 H1]. destruct (Req_EM_T t 0) as [->|Hn].
  - eapply (kgraph_end_unique K HK X 0%R); eauto.
  - destruct Ht as [Ht|Ht]; [contradiction|]. subst t. eapply (kgraph_end_unique K HK X 1%R); eauto.
Qed.
(** zooming out of a cell *)
Lemma unzoom_map q x : length q = d -> length x = d -> unzoom K q (map qR x) = map qR (pt_map_to_cube N q x).
Proof.
  intros Hq Hx. apply nth_ext with 0%R 0%R; [rewrite unzoom_length, map_length, pt_map_length; auto|].
  rewrite unzoom_length. intros j Hj. rewrite nth_unzoom by auto. cbn in Hj. rewrite !(map_nth_lt qR) with (d := 0%Qc) by (rewrite ?pt_map_length; lia).
  rewrite nth_pt_map by lia. rewrite qR_mul, qR_add, qR_Zq. unfold Rdiv. f_equal.
  rewrite qR_inv; [unfold Nq; rewrite qR_Zq; auto|]. apply qR_neq0. unfold Nq. rewrite qR_Zq. pose proof (proj1 (proj2 HV)). apply not_0_IZR. lia.
Qed.
Lemma kgraph_end_step S k t x : wfS K S -> (t = 0%R /\ k = 0 \/ t = 1%R /\ k = G - 1) -> kgraph K (kstep K S k) t x ->
  kgraph K S t (unzoom K (kcb K S k) x).
Proof.
  intros HS Ht H. apply kgraph_step; auto. split; [apply unzoom_length|]. pose proof (G_pos c HV) as HG. exists k.
  split; [change (kG K) with G; destruct Ht as [[_ ->]|[_ ->]]; lia|]. rewrite zoom_unzoom by (auto; apply H).
  replace (IZR (Z.of_nat (kG K)) * t - IZR (Z.of_nat k))%R with t; auto. change (kG K) with G. destruct Ht as [[-> ->]|[-> ->]].
  - cbn. ring.
  - rewrite Nat2Z.inj_sub by lia. rewrite minus_IZR. cbn. ring.
Qed.
(** C19: self-similarity *)
Lemma kstep_id p k s : p < cv_mult c -> get_spec c p k = Some (Some s) -> kstep K (Sp (id_map d) p) k = s.
Proof.
  intros Hp Hs. unfold kstep, bm_mul_sp; cbn [sp_bm sp_pnum]. rewrite kflip_id. cbn. rewrite Hs. destruct s as [b n]. cbn [sp_bm sp_pnum].
  rewrite (mul_id_l d); auto. destruct (nth_spec_wf c HV _ _ _ Hs) as [[Hw _] _]. auto.
Qed.
Lemma kcb_id p k : p < cv_mult c -> k < G -> kcb K (Sp (id_map d) p) k = kcube K p k.
Proof.
  intros Hp Hk. unfold kcb; cbn [sp_bm sp_pnum]. rewrite kflip_id. apply (apply_cube_id d). apply (ok_cube K HK p k); auto.
Qed.
Definition cube_at (p k : nat) : option (option (list Z)) :=
  match nth_error (cv_pats c) p with Some pat => nth_error (pr_cubes (pat_proto pat)) k | None => None end.
Lemma cube_at_eq p k q : cube_at p k = Some (Some q) -> p < cv_mult c /\ k < G /\ q = kcube K p k.
Proof.
  unfold cube_at. destruct (nth_error (cv_pats c) p) as [pat|] eqn:E; [|discriminate]. intros H.
  assert (p < cv_mult c) by (unfold cv_mult; apply nth_error_Some; congruence).
  assert (k < G) by (rewrite <- (cubes_length c HV p pat E); apply nth_error_Some; congruence).
  split; auto. split; auto. destruct (nth_cube c HV p k pat E H1) as [H2 _]. congruence.
Qed.
Lemma end_step p l q s l' t k : is_link p l -> (t = 0%R /\ k = 0 \/ t = 1%R /\ k = G - 1) ->
  cube_at p k = Some (Some q) -> get_spec c p k = Some (Some s) -> is_link (sp_pnum s) l' ->
  place_in N q (if Req_EM_T t 0 then entrance (pl_mul (sp_bm s) l') else exit (pl_mul (sp_bm s) l')) (if Req_EM_T t 0 then entrance l else exit l).
Proof.
  intros Hl Ht Hq Hs Hl'. apply cube_at_eq in Hq as (Hp & Hk & ->). pose proof (fwfS_id c p Hp) as HX.
  pose proof (kstep_id p k s Hp Hs) as Es. assert (Hws : wfS K s) by (apply (nth_spec_wf c HV _ _ _ Hs)).
  destruct (link_dim _ _ (proj2 Hws) Hl') as [D1 D2]. pose proof (pl_mul_dim d (sp_bm s) l' (proj1 Hws)) as [D3 D4].
  assert (H : kgraph K s t (map qR (if Req_EM_T t 0 then entrance (pl_mul (sp_bm s) l') else exit (pl_mul (sp_bm s) l')))).
  { destruct (spec_link_kgraph s l' Hws Hl') as [H0 H1]. destruct (Req_EM_T t 0) as [->|]; auto. destruct Ht as [[? _]|[-> _]]; [contradiction|auto]. }
  rewrite <- Es in H at 1. apply kgraph_end_step in H; auto. rewrite kcb_id in H by auto.
  assert (Hq : length (kcube K p k) = d) by (apply (ok_cube K HK); auto).
  assert (HL : length (if Req_EM_T t 0 then entrance (pl_mul (sp_bm s) l') else exit (pl_mul (sp_bm s) l')) = d) by (destruct (Req_EM_T t 0); auto).
  rewrite unzoom_map in H by auto.
  assert (H' : kgraph K (Sp (id_map d) p) t (map qR (if Req_EM_T t 0 then entrance l else exit l))).
  { destruct (link_kgraph p l Hp Hl) as [H0 H1]. destruct (Req_EM_T t 0) as [->|]; auto. destruct Ht as [[? _]|[-> _]]; [contradiction|auto]. }
  assert (Ht' : t = 0%R \/ t = 1%R) by tauto.
  pose proof (kgraph_end_unique K HK _ t _ _ Ht' H H') as E. apply map_qR_inj in E.
  apply pt_map_to_cube_exact; auto; [pose proof (proj1 (proj2 HV)); lia|lia].
Qed.
Lemma link_selfsim p l q0 q1 s0 s1 l0 l1 : is_link p l ->
  cube_at p 0 = Some (Some q0) -> get_spec c p 0 = Some (Some s0) -> is_link (sp_pnum s0) l0 ->
  cube_at p (G - 1) = Some (Some q1) -> get_spec c p (G - 1) = Some (Some s1) -> is_link (sp_pnum s1) l1 ->
  place_in N q0 (entrance (pl_mul (sp_bm s0) l0)) (entrance l) /\ place_in N q1 (exit (pl_mul (sp_bm s1) l1)) (exit l).
Proof.
  intros Hl A0 B0 C0 A1 B1 C1. split.
  - pose proof (end_step p l q0 s0 l0 0%R 0 Hl) as H. destruct (Req_EM_T 0 0) as [_|n]; [apply H; auto|exfalso; auto].
  - pose proof (end_step p l q1 s1 l1 1%R (G - 1) Hl) as H. destruct (Req_EM_T 1 0) as [n|_]; [lra|apply H; auto].
Qed.
End Gates.

(** C19: equivariance *)
Lemma get_spec_mul b p c q k : shape_ok c -> wf_bm (cv_dim c) b -> valid_fuzzy c -> k < cv_genus c ->
  get_spec (cv_mul b p c) q k = option_map (option_map (fun s => sp_conj s (cube_map b))) (get_spec c q (kflip (core_of c) b k)).
Proof.
  intros HS Hb HV Hk. unfold get_spec. rewrite cv_mul_eq. cbn [cv_pats]. rewrite nth_error_map.
  destruct (nth_error (cv_pats c) q) as [pat|] eqn:E; cbn [option_map]; auto. cbn [pat_mul pat_specs]. rewrite nth_error_map. f_equal.
  unfold kflip. rewrite kG_genus. destruct (time_rev b); auto. rewrite nth_error_rev; rewrite (specs_length c HV q pat E); auto.
Qed.
Lemma ends_def_mul b p c : wf_bm (cv_dim c) b -> valid_fuzzy c -> ends_def c -> ends_def (cv_mul b p c).
Proof.
  intros Hb HV HE q Hq. rewrite cv_mult_mul in Hq. pose proof (G_pos c HV) as HG. destruct (HE q Hq) as [[s0 H0] [s1 H1]].
  assert (EG : cv_genus (cv_mul b p c) = cv_genus c) by (unfold cv_genus; rewrite cv_dim_mul, cv_div_mul; auto).
  pose proof (valid_fuzzy_shape c HV) as HS. unfold defined_at. rewrite EG. rewrite !get_spec_mul by (auto; lia).
  unfold kflip. rewrite kG_genus. destruct (time_rev b).
  - rewrite Nat.sub_0_r. replace (cv_genus c - 1 - (cv_genus c - 1)) with 0 by lia. rewrite H0, H1. cbn. eauto.
  - rewrite H0, H1. cbn; eauto.
Qed.
Lemma link_equivariant b p c q l : wf_bm (cv_dim c) b -> p < cv_mult c -> valid_fuzzy c -> ends_def c -> q < cv_mult c ->
  is_link c q l -> is_link (cv_mul b p c) q (pl_mul b l).
Proof.
  intros Hb Hp HV HE Hq Hl. pose proof (valid_fuzzy_mul b p c Hb Hp HV) as HV'. pose proof (ends_def_mul b p c Hb HV HE) as HE'.
  set (c' := cv_mul b p c) in *. assert (Hq' : q < cv_mult c') by (unfold c'; rewrite cv_mult_mul; auto).
  assert (EP : pattern_curve c' q = cv_mul_sp (Sp b q) c).
  { unfold pattern_curve, cv_mul_sp, c'; cbn [sp_bm sp_pnum]. rewrite !cv_mul_eq. reflexivity. }
  assert (HX : wfS (core_of c) (Sp b q)) by (split; auto).
  pose proof (link_kgraph c HV HE) as _. destruct (spec_link_kgraph c HV HE (Sp b q) l HX Hl) as [H0 H1]. cbn [sp_bm] in H0, H1.
  destruct (entrance_graph c' HV' HE' q Hq') as (e & E1 & E2 & E3). destruct (exit_graph c' HV' HE' q Hq') as (x & X1 & X2 & X3).
  rewrite EP in E3, X3.
  assert (Ee : map qR (entrance (pl_mul b l)) = map qR e) by (apply E3; apply (graph_end c HV HE); auto).
  assert (Ex : map qR (exit (pl_mul b l)) = map qR x) by (apply X3; apply (graph_end c HV HE); auto).
  apply map_qR_inj in Ee, Ex. split; congruence.
Qed.
Lemma link_equivariant' b c : wf_bm (cv_dim c) b -> valid_fuzzy c ->
  (forall p, p < cv_mult c -> (exists s, get_spec c p 0 = Some (Some s)) /\ exists s, get_spec c p (cv_genus c - 1) = Some (Some s)) ->
  forall q l, q < cv_mult c -> get_entrance c (Some q) = Some (entrance l) -> get_exit c (Some q) = Some (exit l) ->
  get_entrance (cv_mul_bm b c) (Some q) = Some (entrance (pl_mul b l)) /\ get_exit (cv_mul_bm b c) (Some q) = Some (exit (pl_mul b l)).
Proof.
  intros Hb HV HE q l Hq H1 H2. apply link_equivariant; auto; [|split; auto]. apply HV.
Qed.
Lemma link_selfsim' c : valid_fuzzy c ->
  (forall p, p < cv_mult c -> (exists s, get_spec c p 0 = Some (Some s)) /\ exists s, get_spec c p (cv_genus c - 1) = Some (Some s)) ->
  forall p pat e x q0 q1 s0 s1 l0 l1,
  nth_error (cv_pats c) p = Some pat -> get_entrance c (Some p) = Some e -> get_exit c (Some p) = Some x ->
  nth_error (pr_cubes (pat_proto pat)) 0 = Some (Some q0) -> nth_error (pat_specs pat) 0 = Some (Some s0) ->
  nth_error (pr_cubes (pat_proto pat)) (cv_genus c - 1) = Some (Some q1) -> nth_error (pat_specs pat) (cv_genus c - 1) = Some (Some s1) ->
  get_entrance c (Some (sp_pnum s0)) = Some (entrance l0) -> get_exit c (Some (sp_pnum s0)) = Some (exit l0) ->
  get_entrance c (Some (sp_pnum s1)) = Some (entrance l1) -> get_exit c (Some (sp_pnum s1)) = Some (exit l1) ->
  place_in (cv_div c) q0 (entrance (pl_mul (sp_bm s0) l0)) e /\ place_in (cv_div c) q1 (exit (pl_mul (sp_bm s1) l1)) x.
Proof.
  intros HV HE p pat e x q0 q1 s0 s1 l0 l1 Hp He Hx A0 B0 A1 B1 C0 D0 C1 D1.
  apply (link_selfsim c HV HE p (Lk e x)); try (split; cbn; auto); unfold cube_at, get_spec; rewrite Hp; auto.
Qed.
Lemma curve_ends_def c : valid_curve c -> forall p, p < cv_mult c -> (exists s, get_spec c p 0 = Some (Some s)) /\ exists s, get_spec c p (cv_genus c - 1) = Some (Some s).
Proof.
  intros HC p Hp. pose proof (G_pos c (valid_curve_fuzzy c HC)). split; apply (all_defined c HC); auto; lia.
Qed.
