(** C58: which gates plane curves with one pattern can have. *)
From Verif Require Import Py L_Py L_Qc L_R L_BaseMaps M_BaseMaps M_Subsets M_Paths M_Curves M_PathTree M_PathGen M_Gates M_Utils M_Heap M_Sat M_Dilation M_Search M_YE M_Zoo
  S_BaseMaps S_Subsets S_Paths S_Utils S_Curves S_PathGen S_PathTree S_Gates S_Ratio S_Dilation S_Heap S_Sat S_Search S_YE S_YECurves P_Valid P_Subsets P_GateMain P_PathLaws P_PlaneCurve P_Search P_YE P_YEMain P_YECount T_Gates T_Search T_YE.
From Coq Require Import Reals Lra Permutation.
Local Open Scope nat_scope.

Lemma forget_cdist N mc c : plain N mc c -> plain N None c.
Proof. intros [V D1 D2 D3 K _]. constructor; auto. intros. exact I. Qed.
Lemma one_gate c l l' b : curve_gates_are c [l] -> wf_bm 2 b -> pl_mul b l = l' -> has_gates 2 c [l'].
Proof. intros H W <-. exists [l], [pl_mul b l]. split; auto. split; [|apply Permutation_refl]. constructor; [|constructor]. eauto. Qed.

(** Plane curves with one pattern fall into three categories: side, diagonal and median. This is what YE-proof.py prints for
    6x6; it holds for every division. Diagonal curves have an odd division. *)
Theorem C58_three_categories : forall N max_cdist c, 2 <= N -> plain N max_cdist c ->
  has_gates 2 c [side_gates] \/ (has_gates 2 c [diag_gates] /\ Nat.odd N = true) \/ has_gates 2 c [median_gates].
Proof.
  intros N mc c HN HC. destruct (curve_three N c HN (forget_cdist _ _ _ HC)) as (l & GA & _ & (b & W & [E|[[E O]|E]]) & _); [left|right; left; split; auto|right; right]; eapply one_gate; eauto.
Qed.
Print Assumptions C58_three_categories.
(** All gates are on the boundary of the square: no such curve is internal. *)
Theorem C58_boundary : forall N max_cdist c, 2 <= N -> plain N max_cdist c -> gates_on_faces false c.
Proof.
  intros N mc c HN HC. destruct (curve_three N c HN (forget_cdist _ _ _ HC)) as (l & GA & _ & _ & B). exists [l]. split; auto.
Qed.
Print Assumptions C58_boundary.

(** squared distance of the gates; it does not change under base maps *)
Definition gap (l : plink) : Qc := match l with Lk [a; b] [c; d] => ((a - c) * (a - c) + (b - d) * (b - d))%Qc | _ => 0%Qc end.
Lemma gap_mul b l : wf_bm 2 b -> pl_dim 2 l -> gap (pl_mul b l) = gap l.
Proof.
  intros W [L1 L2]. destruct (wf_sq b W) as (s & fx & fy & tr & ->). destruct l as [e x]. simpl in L1, L2. destruct (list2 _ L1) as (p & q & ->). destruct (list2 _ L2) as (u & v & ->).
  unfold pl_mul, lk_mul. simpl. rewrite !sq_mul. cbn [time_rev sq]. destruct tr, s, fx, fy; unfold gap, qflip; ring.
Qed.
Lemma has_gap N mc c g : 2 <= N -> plain N mc c -> has_gates 2 c [g] -> exists l, curve_gates_are c [l] /\ gap l = gap g.
Proof.
  intros HN HC (gs0 & gs1 & H1 & H2 & H3). destruct (curve_three N c HN (forget_cdist _ _ _ HC)) as (l & GA & ((L1 & _) & (L2 & _)) & _). apply Permutation_sym, Permutation_length_1_inv in H3. subst gs1.
  inversion H2 as [|a a' r r' (b & W & ->) HR E1 E2]; subst. inversion HR; subst. assert (El : a = l).
  { destruct H1 as [_ H1]. destruct GA as [_ G2]. destruct (H1 0 a eq_refl) as [X1 X2]. destruct (G2 0 l eq_refl) as [Y1 Y2]. destruct a, l; simpl in X1, X2, Y1, Y2; congruence. }
  subst a. exists l. split; auto. symmetry. apply gap_mul; auto. split; auto.
Qed.
(** The categories exclude each other. *)
Theorem C58_exclusive : forall N max_cdist c g g', 2 <= N -> plain N max_cdist c -> In g [side_gates; diag_gates; median_gates] -> In g' [side_gates; diag_gates; median_gates] ->
  has_gates 2 c [g] -> has_gates 2 c [g'] -> g = g'.
Proof.
  intros N mc c g g' HN HC Hg Hg' H1 H2. destruct (has_gap N mc c g HN HC H1) as (l & A1 & A2). destruct (has_gap N mc c g' HN HC H2) as (l' & B1 & B2).
  assert (l = l'). { destruct A1 as [_ A1]. destruct B1 as [_ B1]. destruct (A1 0 l eq_refl) as [X1 X2]. destruct (B1 0 l' eq_refl) as [Y1 Y2]. destruct l, l'; simpl in X1, X2, Y1, Y2; congruence. }
  subst l'. assert (EG : gap g = gap g') by congruence. clear - Hg Hg' EG. apply (f_equal this) in EG. destruct Hg as [<-|[<-|[<-|[]]]]; destruct Hg' as [<-|[<-|[<-|[]]]]; try reflexivity; vm_compute in EG; discriminate EG.
Qed.
Print Assumptions C58_exclusive.

(** GatesGenerator(2, div, 1) yields at most these three gates (in standard form), for every div. *)
Theorem C58_generated : forall N, 2 <= N -> forall fpar hash start_max finish_max, hash_ok hash ->
  exists fuel0 res, (forall fuel, fuel0 <= fuel -> gen_gates 2 N 1 false fpar (M_Gates.SP hash fuel start_max finish_max) = Some res) /\
    length res <= 3 /\ forall gs, In gs res -> exists g b, In g [side_gates; diag_gates; median_gates] /\ wf_bm 2 b /\ gs = [pl_mul b g] /\ (g = diag_gates -> Nat.odd N = true).
Proof.
  intros N HN fpar hash sm fm HH. destruct (C41_general 2 N 1 ltac:(lia) HN ltac:(lia) fpar hash sm fm HH) as (F & res & A & ND & HI). exists F, res. split; auto.
  assert (K : forall gs, In gs res -> exists g b, In g [side_gates; diag_gates; median_gates] /\ wf_bm 2 b /\ gs = [pl_mul b g] /\ (g = diag_gates -> Nat.odd N = true) /\ Forall (standard 2) gs).
  { intros gs Hg. apply HI in Hg. destruct Hg as ((c & [V D1 D2 D3 KC L GG GF]) & ST & _).
    assert (HC : search_curve 2 N 1 None c) by (constructor; auto; intros; exact I).
    destruct (curve_three N c HN HC) as (l & GA & ((L1 & _) & (L2 & _)) & (b & W & E) & _). destruct gs as [|g0 [|]]; try discriminate L.
    assert (El : g0 = l). { destruct GA as [_ G2]. destruct (GG 0 g0 eq_refl) as [X1 X2]. destruct (G2 0 l eq_refl) as [Y1 Y2]. destruct g0, l; simpl in X1, X2, Y1, Y2; congruence. }
    subst g0. assert (EB : l = pl_mul (bm_inv b) (pl_mul b l)). { rewrite <- (pl_mul_mul 2), (mul_inv_l 2), (pl_mul_id 2); auto using wf_inv. }
    destruct E as [E|[[E O]|E]]; rewrite E in EB; [exists side_gates|exists diag_gates|exists median_gates]; exists (bm_inv b); (split; [cbn; auto|]); (split; [apply wf_inv; auto|]); (split; [congruence|]); (split; [|rewrite EB in ST |- *; auto]); auto;
      intros X; apply (f_equal gap), (f_equal this) in X; vm_compute in X; discriminate X. }
  split; [|intros gs Hg; destruct (K gs Hg) as (g & b & K1 & K2 & K3 & K4 & _); eauto 7].
  (* res maps injectively into the three standard forms *)
  assert (IN : incl res (map (fun g => [stdl g]) [side_gates; diag_gates; median_gates])).
  { intros gs Hg. destruct (K gs Hg) as (g & b & K1 & K2 & K3 & _ & K4). apply in_map_iff. exists g. split; auto. subst gs. f_equal.
    assert (DG : pl_dim 2 g) by (destruct K1 as [<-|[<-|[<-|[]]]]; split; reflexivity). inversion K4 as [|? ? S1 _]; subst.
    rewrite <- (std_standard 2 (pl_mul b g) (pl_mul_dim 2 b g K2) S1). unfold stdl. rewrite (pl_std_inv 2) by auto. destruct (stdl_spec 2 g DG) as (-> & _). auto. }
  apply NoDup_incl_length in IN; auto.
Qed.
Print Assumptions C58_generated.

Lemma corner_not_inside : ~ inside_facet [0%Qc; 0%Qc].
Proof. intros (j & _ & H). assert (0 = j) by (apply H; split; [cbn; lia|left; reflexivity]). assert (1 = j) by (apply H; split; [cbn; lia|left; reflexivity]). lia. Qed.
(** No such curve is facet-gated: GatesGenerator(2, div, 1).gen_gates(facet_gated=True) ends without a result, for every div. *)
Theorem C58_no_facet : forall N, 2 <= N ->
  (forall max_cdist c, plain N max_cdist c -> ~ gates_on_faces true c) /\ forall facet_hash hash facet_start facet_finish start_max finish_max, hash_ok facet_hash -> hash_ok hash ->
  exists fuel0, forall fuel, fuel0 <= fuel -> gen_gates 2 N 1 true (M_Gates.SP facet_hash fuel facet_start facet_finish) (M_Gates.SP hash fuel start_max finish_max) = Some [].
Proof.
  intros N HN. assert (K : forall max_cdist c, plain N max_cdist c -> ~ gates_on_faces true c).
  { intros mc c HC (gs & G1 & G2). destruct (curve_three N c HN (forget_cdist _ _ _ HC)) as (l & GA & ((L1 & _) & (L2 & _)) & (b & W & E) & _).
    assert (gs = [l]). { pose proof HC as [_ _ _ D3 _ _]. destruct G1 as [Lg G1]. rewrite D3 in Lg. destruct gs as [|g0 [|]]; try discriminate Lg. destruct GA as [_ GA]. destruct (G1 0 g0 eq_refl) as [X1 X2]. destruct (GA 0 l eq_refl) as [Y1 Y2]. destruct g0, l; simpl in X1, X2, Y1, Y2; congruence. }
    subst gs. inversion G2 as [|? ? F1 _]; subst. destruct (gface_mul 2 true b l W (conj L1 L2) F1) as [F2 _].
    destruct E as [E|[[E _]|E]]; rewrite E in F2; apply corner_not_inside, F2. }
  split; auto. intros fh h fs ff sm fm HF HH. destruct (C41_facet 2 N 1 ltac:(lia) HN ltac:(lia) fh h fs ff sm fm HF HH) as (F & res & A & _ & HI). exists F. intros fuel Hf. rewrite A by auto. f_equal.
  destruct res as [|gs res]; auto. exfalso. destruct (proj1 (HI gs) (or_introl eq_refl)) as ((c & [V D1 D2 D3 KC L GG GF]) & _). apply (K None c).
  - constructor; auto; intros; exact I.
  - exists gs. split; auto. split; auto. congruence.
Qed.
Print Assumptions C58_no_facet.
(** There are no diagonal curves of even division: the search for them finds nothing. *)
Theorem C58_no_even_diagonal : forall N max_cdist facet_gated, 2 <= N -> Nat.even N = true ->
  forall c, ~ searched 2 N 1 max_cdist (Some [[diag_gates]]) facet_gated None c.
Proof.
  intros N mc f HN HE c (HC & gs & [<-|[]] & HG). destruct (C58_three_categories N mc c HN HC) as [H|[[_ O]|H]].
  - assert (E : side_gates = diag_gates) by (eapply (C58_exclusive N mc c); eauto; cbn; auto). apply (f_equal gap), (f_equal this) in E. vm_compute in E. discriminate E.
  - rewrite <- Nat.negb_even, HE in O. discriminate O.
  - assert (E : median_gates = diag_gates) by (eapply (C58_exclusive N mc c); eauto; cbn; auto). apply (f_equal gap), (f_equal this) in E. vm_compute in E. discriminate E.
Qed.
Print Assumptions C58_no_even_diagonal.

(** C50 without conditions on the gates: YE-proof.py covers all plain curves with division 2, 3 and 4, and all plain curves
    without diagonal steps with division 5 and 6. *)
Definition small_plain (c : curve) : Prop :=
  exists N, (2 <= N <= 4 /\ plain N None c) \/ (5 <= N <= 6 /\ plain N (Some 1%Z) c).
Theorem C50_main_all : forall Y hq hs solver sched hash ghash fhash fuel sm fm gsm gfm fsm ffm efuel los lo up am, zoo_ye = Some Y ->
  heapq_ok hq -> heapq_ok hs -> sat_ok solver -> hash_ok hash -> hash_ok ghash -> hash_ok fhash ->
  ye_main (M_Gates.SP hash fuel sm fm) (M_Gates.SP fhash fuel fsm ffm) (M_Gates.SP ghash fuel gsm gfm) hq hs efuel solver sched Y = Some (los, (lo, up, am)) ->
  forall m, Forall (fun lo => m <= lo)%Qc los -> forall c, small_plain c -> S_YE.image_of Y c \/ dilation_ge l2R c (qR m).
Proof.
  intros Y hq hs solver sched hash ghash fhash fuel sm fm gsm gfm fsm ffm efuel los lo up am EY H1 H2 H3 H4 H5 H6 E m HM c (N & HC).
  apply (proj1 (C50_main Y hq hs solver sched hash ghash fhash fuel sm fm gsm gfm fsm ffm efuel los lo up am EY H1 H2 H3 H4 H5 H6 E) m HM).
  destruct HC as [[HN HC]|[HN HC]]; pose proof (C58_three_categories N _ c ltac:(lia) HC) as H.
  - left. exists N. split; [lia|]. split; auto. apply (C58_boundary N None); auto. lia.
  - assert (N = 5 \/ N = 6) as [EN|EN] by lia; subst N.
    + right. right. split; auto. destruct H as [H|[[H _]|H]]; auto.
    + right. left. split; auto. destruct H as [H|[[_ H]|H]]; auto. discriminate H.
Qed.
Print Assumptions C50_main_all.

(** Instances: the Hilbert curve is a side curve, the Peano curve a diagonal curve, and there is a median curve on 6x6; all three
    belong to the curves covered by C50_main_all. *)
Example C58_example :
  (plain 2 None (curve_or zoo_hilbert) /\ has_gates 2 (curve_or zoo_hilbert) [side_gates]) /\
  (plain 3 None (curve_or zoo_peano) /\ has_gates 2 (curve_or zoo_peano) [diag_gates]) /\
  (plain 6 (Some 1%Z) median6 /\ has_gates 2 median6 [median_gates]) /\
  small_plain (curve_or zoo_hilbert) /\ small_plain (curve_or zoo_peano) /\ small_plain median6.
Proof.
  destruct dim3 as (X1 & X2 & X3).
  assert (A1 : plain 2 None (curve_or zoo_hilbert)) by (apply (forget_cdist 2 (Some 1%Z)), search_curve_check; vm_compute; reflexivity).
  assert (A2 : plain 3 None (curve_or zoo_peano)) by (apply (forget_cdist 3 (Some 1%Z)), search_curve_check; vm_compute; reflexivity).
  assert (A3 : plain 6 (Some 1%Z) median6) by (apply search_curve_check; vm_compute; reflexivity).
  split; [split; [exact A1|apply gate_test_ok; [vm_compute; reflexivity|exact X1|vm_compute; reflexivity]]|].
  split; [split; [exact A2|apply gate_test_ok; [vm_compute; reflexivity|exact X2|vm_compute; reflexivity]]|].
  split; [split; [exact A3|apply gate_test_ok; [vm_compute; reflexivity|exact X3|vm_compute; reflexivity]]|].
  split; [exists 2; left; split; [lia|exact A1]|]. split; [exists 3; left; split; [lia|exact A2]|exists 6; right; split; [lia|exact A3]].
Qed.
