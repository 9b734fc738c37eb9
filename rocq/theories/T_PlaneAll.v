(** C58: exactly which gates plane curves with one pattern have, for every division. *)
From Verif Require Import Py L_Py L_Qc L_R L_BaseMaps M_BaseMaps M_Subsets M_Paths M_Curves M_PathTree M_PathGen M_Gates M_Utils
  S_BaseMaps S_Subsets S_Paths S_Utils S_Curves S_PathGen S_PathTree S_Gates S_Search S_YE P_Valid P_Subsets P_GateMain P_PathLaws P_PlaneCurve P_PlaneEx P_PlaneWalks P_PlaneNo T_Gates T_Plane.
From Coq Require Import Permutation.
Local Open Scope nat_scope.

Lemma gates_one c g : curve_gates_are c [g] -> pl_dim 2 g -> has_gates 2 c [g].
Proof. intros H [D1 D2]. apply (one_gate c g g (id_map 2)); auto; [apply wf_id|apply (pl_mul_id 2); auto]. Qed.
Lemma three_dim g : In g [side_gates; diag_gates; median_gates] -> pl_dim 2 g.
Proof. intros [<-|[<-|[<-|[]]]]; split; reflexivity. Qed.
Lemma gates_base c g : has_gates 2 c [g] -> exists l b, curve_gates_are c [l] /\ wf_bm 2 b /\ pl_mul b l = g.
Proof.
  intros (gs0 & gs1 & H1 & H2 & H3). apply Permutation_sym, Permutation_length_1_inv in H3. subst gs1. inversion H2 as [|a a' r r' (b & W & ->) HR E1 E2]; subst. inversion HR; subst. exists a, b. auto.
Qed.
Lemma std_of l b g : pl_dim 2 l -> standard 2 l -> wf_bm 2 b -> pl_mul b l = g -> l = pl_mul (bm_inv b) g /\ l = stdl g.
Proof.
  intros [D1 D2] S W <-. split; [rewrite <- (pl_mul_mul 2), (mul_inv_l 2), (pl_mul_id 2); auto using wf_inv|]. rewrite <- (std_standard 2 l (conj D1 D2) S) at 1. unfold stdl. rewrite (pl_std_inv 2 b l) by (auto; split; auto). destruct (stdl_spec 2 l (conj D1 D2)) as (-> & _). reflexivity.
Qed.
Lemma gates_same c l l' : curve_gates_are c [l] -> curve_gates_are c [l'] -> l = l'.
Proof. intros [_ A] [_ B]. destruct (A 0 l eq_refl) as [X1 X2]. destruct (B 0 l' eq_refl) as [Y1 Y2]. destruct l', l; simpl in X1, X2, Y1, Y2; congruence. Qed.
(** The kinds of gates for the division N: side always, diagonal for odd N, median for N >= 4 unless N leaves the remainder 3 modulo 4. *)
Definition kind (N : nat) (g : plink) : Prop :=
  g = side_gates \/ (g = diag_gates /\ Nat.odd N = true) \/ (g = median_gates /\ 4 <= N /\ N mod 4 <> 3).
Definition kinds (N : nat) : list plink :=
  side_gates :: (if Nat.odd N then [diag_gates] else []) ++ (if (4 <=? N) && negb (N mod 4 =? 3) then [median_gates] else []).
Lemma kinds_in N g : In g (kinds N) <-> kind N g.
Proof.
  unfold kinds, kind. cbn [In]. rewrite in_app_iff. destruct (Nat.odd N); destruct (4 <=? N) eqn:E1, (N mod 4 =? 3) eqn:E2; cbn [andb negb In]; rewrite ?Nat.leb_le, ?Nat.leb_gt, ?Nat.eqb_eq, ?Nat.eqb_neq in *; intuition (auto; try discriminate; try lia).
Qed.

(** A curve with the gates g exists exactly if g is one of these kinds; it makes no difference if diagonal steps are excluded. *)
Lemma more_cdist N mc c : (forall k, mc = Some k -> (1 <= k)%Z) -> plain N (Some 1%Z) c -> plain N mc c.
Proof.
  intros H [V D1 D2 D3 K L]. constructor; auto. intros pat k q q' H1 H2 H3. specialize (L pat k q q' H1 H2 H3). destruct mc as [j|]; [|exact I]. specialize (H j eq_refl). unfold near in *. lia.
Qed.
Theorem C58_exact : forall N max_cdist g, 2 <= N -> (forall k, max_cdist = Some k -> (1 <= k)%Z) -> In g [side_gates; diag_gates; median_gates] ->
  ((exists c, plain N max_cdist c /\ has_gates 2 c [g]) <-> kind N g).
Proof.
  intros N mc g HN HM HG. split.
  - intros (c & HC & H). destruct (C58_three_categories N mc c HN HC) as [K|[[K O]|K]].
    + left. apply (C58_exclusive N mc c g side_gates HN HC); cbn; auto.
    + right. left. split; auto. apply (C58_exclusive N mc c g diag_gates HN HC); cbn; auto.
    + right. right. assert (E : g = median_gates) by (apply (C58_exclusive N mc c g median_gates HN HC); cbn; auto). split; auto.
      destruct (gates_base c _ K) as (l & b & A1 & A2 & A3). exact (curve_median N c l b HN (forget_cdist _ _ _ HC) A1 A2 A3).
  - assert (F : (exists c, search_curve 2 N 1 (Some 1%Z) c /\ curve_gates_are c [g]) -> exists c, plain N mc c /\ has_gates 2 c [g]).
    { intros (c & C1 & C2). exists c. split; [apply more_cdist; auto|]. apply gates_one; auto. apply three_dim; auto. }
    intros [->|[[-> O]|[-> [H4 H3]]]]; apply F; [apply side_curve; auto|apply diag_curve; auto|apply median_curve; auto].
Qed.
Print Assumptions C58_exact.

(** GatesGenerator(2, div, 1) yields one gate of every kind, and nothing else. *)
Theorem C58_generated_exact : forall N, 2 <= N -> forall fpar hash start_max finish_max, hash_ok hash ->
  exists fuel0 res, (forall fuel, fuel0 <= fuel -> gen_gates 2 N 1 false fpar (M_Gates.SP hash fuel start_max finish_max) = Some res) /\
    length res = length (kinds N) /\ (forall g, kind N g -> exists b, wf_bm 2 b /\ In [pl_mul b g] res) /\
    (forall gs, In gs res -> exists g b, kind N g /\ wf_bm 2 b /\ gs = [pl_mul b g]).
Proof.
  intros N HN fpar hash sm fm HH. destruct (C41_general 2 N 1 ltac:(lia) HN ltac:(lia) fpar hash sm fm HH) as (F & res & A & ND & HI). exists F, res. split; auto.
  assert (KT : forall g, kind N g -> In g [side_gates; diag_gates; median_gates]) by (intros g [->|[[-> _]|[-> _]]]; cbn; auto).
  assert (K1 : forall gs, In gs res -> exists g b, kind N g /\ wf_bm 2 b /\ gs = [pl_mul b g] /\ gs = [stdl g]).
  { intros gs Hg. apply HI in Hg. destruct Hg as ((c & [V D1 D2 D3 KC L GG GF]) & ST & _). assert (HC : plain N None c) by (constructor; auto; intros; exact I).
    destruct gs as [|l [|]]; try discriminate L. assert (GA : curve_gates_are c [l]) by (split; [rewrite D3; reflexivity|exact GG]).
    destruct (curve_three N c HN HC) as (l' & GA' & ((L1 & _) & (L2 & _)) & _). pose proof (gates_same c l' l GA' GA) as E. subst l'. pose proof (Forall_inv ST) as S1.
    assert (GO : forall g, kind N g -> has_gates 2 c [g] -> exists g0 b, kind N g0 /\ wf_bm 2 b /\ [l] = [pl_mul b g0] /\ [l] = [stdl g0]).
    { intros g Hg K. destruct (gates_base c _ K) as (l' & b & B1 & B2 & B3). pose proof (gates_same c l' l B1 GA) as E. rewrite E in B3. destruct (std_of l b g (conj L1 L2) S1 B2 B3) as [E1 E2]. exists g, (bm_inv b). split; auto. split; [apply wf_inv; auto|]. split; congruence. }
    destruct (C58_three_categories N None c HN HC) as [K|[[K O]|K]]; [apply (GO side_gates); auto; left; auto|apply (GO diag_gates); auto; right; left; auto|apply (GO median_gates); auto].
    right. right. split; auto. destruct (gates_base c _ K) as (l' & b & B1 & B2 & B3). exact (curve_median _ c l' b HN HC B1 B2 B3). }
  assert (K2 : forall g, kind N g -> exists b, wf_bm 2 b /\ In [pl_mul b g] res /\ pl_mul b g = stdl g).
  { intros g Hg. pose proof (three_dim g (KT g Hg)) as DG. assert (EX : exists c, search_curve 2 N 1 (Some 1%Z) c /\ curve_gates_are c [g]).
    { destruct Hg as [->|[[-> O]|[-> [H4 H3]]]]; [apply side_curve; auto|apply diag_curve; auto|apply median_curve; auto]. }
    destruct EX as (c & HC0 & GA). pose proof (forget_cdist _ _ _ HC0) as HC. pose proof HC as [V D1 D2 D3 KC _]. destruct (curve_three N c HN HC) as (l & GA' & _ & _ & B).
    assert (EL : l = g). { destruct GA as [_ G1]. destruct GA' as [_ G2]. destruct (G1 0 g eq_refl) as [X1 X2]. destruct (G2 0 l eq_refl) as [Y1 Y2]. destruct g, l; simpl in X1, X2, Y1, Y2; congruence. }
    subst l. assert (GT : gated 2 N 1 false c [g]). { constructor; auto. apply GA. }
    destruct (C41_general_complete 2 N 1 c [g] ltac:(lia) HN ltac:(lia) GT fpar hash sm fm HH) as (F' & res' & A' & gs1 & gs2 & P1 & P2 & P3).
    assert (res' = res). { specialize (A (F + F') ltac:(lia)). specialize (A' (F + F') ltac:(lia)). rewrite A in A'. injection A' as ->. auto. }
    subst res'. inversion P1 as [|? ? ? ? (b & W & ->) PR]; subst. inversion PR; subst. apply Permutation_length_1_inv in P2. subst gs2. exists b. split; auto. split; auto.
    apply HI in P3. destruct P3 as (_ & ST & _). inversion ST as [|? ? S1 _]; subst. rewrite <- (std_standard 2 (pl_mul b g) (pl_mul_dim 2 b g W) S1). unfold stdl. rewrite (pl_std_inv 2) by auto. destruct (stdl_spec 2 g DG) as (-> & _). reflexivity. }
  split; [|split; [intros g Hg; destruct (K2 g Hg) as (b & B1 & B2 & _); eauto|intros gs Hg; destruct (K1 gs Hg) as (g & b & B1 & B2 & B3 & _); eauto]].
  rewrite <- (map_length (fun g => [stdl g]) (kinds N)). apply Permutation_length, NoDup_Permutation; auto.
  - assert (NK : NoDup (kinds N)).
    { assert (X1 : side_gates <> diag_gates) by (intros X; apply (f_equal gap), (f_equal this) in X; vm_compute in X; discriminate X). assert (X2 : side_gates <> median_gates) by (intros X; apply (f_equal gap), (f_equal this) in X; vm_compute in X; discriminate X).
      assert (X3 : diag_gates <> median_gates) by (intros X; apply (f_equal gap), (f_equal this) in X; vm_compute in X; discriminate X).
      unfold kinds. destruct (Nat.odd N), ((4 <=? N) && negb (N mod 4 =? 3)); cbn [app]; repeat (constructor; [cbn; intuition congruence|]); constructor. }
    clear - NK KT. assert (KI : forall g, In g (kinds N) -> In g [side_gates; diag_gates; median_gates]) by (intros g Hg; apply KT, kinds_in, Hg).
    induction NK as [|g l Hg NK IH]; cbn [map]; constructor; [|apply IH; cbn; auto; intros; apply KI; right; auto].
    intros H. apply in_map_iff in H. destruct H as (g' & E & Hg'). apply Hg. replace g with g'; auto. assert (ES : stdl g' = stdl g) by congruence.
    pose proof (KI g (or_introl eq_refl)) as T1. pose proof (KI g' (or_intror Hg')) as T2. destruct (stdl_spec 2 g (three_dim g T1)) as (_ & (b & W & EB) & _). destruct (stdl_spec 2 g' (three_dim g' T2)) as (_ & (b' & W' & EB') & _).
    assert (EG : gap g' = gap g) by (rewrite <- (gap_mul b g), <- (gap_mul b' g') by (auto; apply three_dim; auto); congruence).
    clear - T1 T2 EG. apply (f_equal this) in EG. destruct T1 as [<-|[<-|[<-|[]]]]; destruct T2 as [<-|[<-|[<-|[]]]]; try reflexivity; vm_compute in EG; discriminate EG.
  - intros gs. split.
    + intros Hg. destruct (K1 gs Hg) as (g & b & B1 & _ & _ & B4). apply in_map_iff. exists g. split; auto. apply kinds_in. auto.
    + intros H. apply in_map_iff in H. destruct H as (g & <- & Hg). apply kinds_in in Hg. destruct (K2 g Hg) as (b & _ & B2 & B3). rewrite <- B3. auto.
Qed.
Print Assumptions C58_generated_exact.

(** Instances: one kind for N = 2, two for N = 3 and 7, all three for N = 5; there is no median curve of division 7 and there is one of division 10. *)
Example C58_exact_example : kinds 2 = [side_gates] /\ kinds 3 = [side_gates; diag_gates] /\ kinds 5 = [side_gates; diag_gates; median_gates] /\ kinds 6 = [side_gates; median_gates] /\ kinds 7 = [side_gates; diag_gates] /\
  (forall c, plain 7 None c -> ~ has_gates 2 c [median_gates]) /\ (exists c, plain 10 (Some 1%Z) c /\ has_gates 2 c [median_gates]).
Proof.
  do 5 (split; [reflexivity|]). split.
  - intros c HC H. assert (K : kind 7 median_gates) by (apply (C58_exact 7 None); [lia|discriminate|cbn; auto|eauto]). apply kinds_in in K. cbn in K. destruct K as [K|[K|[]]]; apply (f_equal gap), (f_equal this) in K; vm_compute in K; discriminate K.
  - apply C58_exact; [lia|intros k E; injection E as <-; lia|cbn; auto|]. right. right. split; auto. split; [lia|discriminate].
Qed.
