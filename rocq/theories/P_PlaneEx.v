(** Plane curves with one pattern from walks through the cells of the grid: side, diagonal and median curves. *)
From Verif Require Import S_YE Py L_Py L_Qc L_R L_BaseMaps M_BaseMaps M_Subsets M_Paths M_Curves M_PathTree M_PathGen S_BaseMaps S_Subsets S_Paths S_Utils S_Curves S_Fuzzy S_PathGen S_Gates S_Search
  P_Subsets P_Points P_Bridge P_CurveAct P_Entrance P_Check P_PathGen P_PathChain P_PathAll P_PathLaws T_PathGen P_GateSys P_GateMain P_PathYield P_Actions P_PlaneCurve P_Search.
From Coq Require Import Permutation.
Local Open Scope nat_scope.

(** a step through the cell (sx, sy), from the point (ax, ay) to the point (bx, by_) of the cell, in half sides *)
Record step := St { sx : Z; sy : Z; ax : Z; ay : Z; bx : Z; by_ : Z }.
Definition hq (z : Z) : Qc := (Zq z * half)%Qc.
Definition st_link (s : step) : link (list Qc) := Lk [hq (ax s); hq (ay s)] [hq (bx s); hq (by_ s)].
Definition st_node (s : step) : list Z * link (list Qc) := ([sx s; sy s], st_link s).
Definition ok (g : plink) (s : step) : Prop := image_of pt_mul 2 [g] (st_link s).
Fixpoint joins (a b : Z) (l : list step) (c d : Z) : Prop :=
  match l with
  | [] => a = c /\ b = d
  | s :: l => (a = 2 * sx s + ax s /\ b = 2 * sy s + ay s)%Z /\ joins (2 * sx s + bx s) (2 * sy s + by_ s) l c d
  end.
Definition cell (s : step) : Z * Z := (sx s, sy s).
(** a walk from (a, b) to (c, d) (in half sides) that passes the cells of the region once each, with steps like g *)
Definition walk (g : plink) (a b : Z) (R : Z -> Z -> Prop) (c d : Z) : Prop :=
  exists l, Forall (ok g) l /\ joins a b l c d /\ NoDup (map cell l) /\ forall x y, R x y <-> In (x, y) (map cell l).

(** consecutive cells have a common side; (u, v) is the cell before the walk, (u', v') the last cell *)
Fixpoint nears (u v : Z) (l : list step) (u' v' : Z) : Prop :=
  match l with
  | [] => u = u' /\ v = v'
  | s :: l => (Z.abs (u - sx s) + Z.abs (v - sy s) <= 1)%Z /\ nears (sx s) (sy s) l u' v'
  end.
Definition nwalk (g : plink) (a b u v : Z) (R : Z -> Z -> Prop) (c d u' v' : Z) : Prop :=
  exists l, Forall (ok g) l /\ joins a b l c d /\ NoDup (map cell l) /\ (forall x y, R x y <-> In (x, y) (map cell l)) /\ nears u v l u' v'.

Lemma joins_app a b l c d l' e f : joins a b l c d -> joins c d l' e f -> joins a b (l ++ l') e f.
Proof. revert a b. induction l as [|s l IH]; cbn; intros a b H H'; [destruct H as [-> ->]; auto|]. destruct H as [H1 H2]. split; auto. Qed.
Lemma nears_app a b l c d l' e f : nears a b l c d -> nears c d l' e f -> nears a b (l ++ l') e f.
Proof. revert a b. induction l as [|s l IH]; cbn; intros a b H H'; [destruct H as [-> ->]; auto|]. destruct H as [H1 H2]. split; auto. Qed.
Lemma walk_cat g c d p q R1 R2 a b e f u v u' v' R : nwalk g a b u v R1 c d p q -> nwalk g c d p q R2 e f u' v' -> (forall x y, R1 x y -> R2 x y -> False) ->
  (forall x y, R x y <-> R1 x y \/ R2 x y) -> nwalk g a b u v R e f u' v'.
Proof.
  intros (l & A1 & A2 & A3 & A4 & A5) (l' & B1 & B2 & B3 & B4 & B5) HD HR. exists (l ++ l'). split; [apply Forall_app; auto|]. split; [eapply joins_app; eauto|]. rewrite map_app. split; [|split].
  - apply NoDup_app_intro; auto. intros [x y] H1 H2. apply A4 in H1. apply B4 in H2. eauto.
  - intros x y. rewrite in_app_iff, HR, A4, B4. tauto.
  - eapply nears_app; eauto.
Qed.
Lemma walk_nil g a b u v R c d u' v' : a = c -> b = d -> u = u' -> v = v' -> (forall x y, ~ R x y) -> nwalk g a b u v R c d u' v'.
Proof. intros -> -> -> -> H. exists []. split; auto. split; [cbn; auto|]. split; [constructor|]. split; [|cbn; auto]. intros x y. cbn. split; [apply H|intros []]. Qed.
Lemma walk_iter g (a b u v : Z -> Z) (P R : Z -> Z -> Z -> Prop) n : (0 <= n)%Z ->
  (forall i, (0 <= i < n)%Z -> nwalk g (a i) (b i) (u i) (v i) (R i) (a (i + 1)%Z) (b (i + 1)%Z) (u (i + 1)%Z) (v (i + 1)%Z)) ->
  (forall i x y, (0 <= i < n)%Z -> P i x y -> R i x y -> False) -> (forall i x y, (0 <= i < n)%Z -> (P (i + 1)%Z x y <-> P i x y \/ R i x y)) ->
  (forall x y, ~ P 0%Z x y) -> nwalk g (a 0%Z) (b 0%Z) (u 0%Z) (v 0%Z) (P n) (a n) (b n) (u n) (v n).
Proof.
  intros Hn HW HD HP H0. assert (K : forall m, (0 <= m)%Z -> (m <= n)%Z -> nwalk g (a 0%Z) (b 0%Z) (u 0%Z) (v 0%Z) (P m) (a m) (b m) (u m) (v m)).
  { intros m Hm. pattern m. apply natlike_ind; auto; clear m Hm.
    - intros _. apply walk_nil; auto.
    - intros m Hm IH Hl. unfold Z.succ in *. eapply walk_cat; [apply IH; lia|apply (HW m); lia|intros x y; apply (HD m x y); lia|intros; apply HP; lia]. }
  apply K; lia.
Qed.
Definition box (x0 x1 y0 y1 : Z) : Z -> Z -> Prop := fun x y => (x0 <= x < x1 /\ y0 <= y < y1)%Z.
Lemma walk_one g s a b u v c d u' v' R : ok g s -> a = (2 * sx s + ax s)%Z -> b = (2 * sy s + ay s)%Z -> c = (2 * sx s + bx s)%Z -> d = (2 * sy s + by_ s)%Z ->
  (Z.abs (u - sx s) + Z.abs (v - sy s) <= 1)%Z -> u' = sx s -> v' = sy s ->
  (forall x y, R x y <-> x = sx s /\ y = sy s) -> nwalk g a b u v R c d u' v'.
Proof.
  intros H -> -> -> -> HN -> -> HR. exists [s]. split; [auto|]. split; [cbn; auto|]. split; [repeat constructor; intros []|]. split; [|cbn [nears]; auto]. intros x y. rewrite HR. cbn. unfold cell. split; [intros [-> ->]; auto|intros [E|[]]; injection E as -> ->; auto].
Qed.
Lemma walk_same g a b u v R c d p q a' b' u' v' R' c' d' p' q' : nwalk g a b u v R c d p q -> a = a' -> b = b' -> u = u' -> v = v' -> c = c' -> d = d' -> p = p' -> q = q' -> (forall x y, R' x y <-> R x y) -> nwalk g a' b' u' v' R' c' d' p' q'.
Proof. intros (l & A1 & A2 & A3 & A4 & A5) <- <- <- <- <- <- <- <- H. exists l. split; auto. split; auto. split; auto. split; auto. intros. rewrite H. auto. Qed.

(** From a walk over the whole square to a curve. *)
Lemma hq_place s t b a : (2 * s + b = 2 * t + a)%Z -> (hq b + Zq s = hq a + Zq t)%Qc.
Proof.
  intros H. assert (K : forall z y, (hq y + Zq z = Zq (2 * z + y) * half)%Qc).
  { intros z y. unfold hq. rewrite Zq_add, Zq_mul. replace (Zq z) with (Zq z * (Zq 2 * half))%Qc at 1; [ring|]. replace (Zq 2 * half)%Qc with 1%Qc by (apply Qc_is_canon; reflexivity). ring. }
  rewrite !K, H. auto.
Qed.
Lemma place_make N c0 c1 x0 x1 : 1 <= N -> exists y0 y1, place_in N [c0; c1] [x0; x1] [y0; y1] /\ y0 = ((x0 + Zq c0) / Nq N)%Qc /\ y1 = ((x1 + Zq c1) / Nq N)%Qc.
Proof.
  intros HN. pose proof (Nq_neq0 N HN) as HZ. exists ((x0 + Zq c0) / Nq N)%Qc, ((x1 + Zq c1) / Nq N)%Qc. split; auto. split; auto.
  repeat constructor; cbn [fst snd]; field; auto.
Qed.
Lemma joins_nth l a b c d i s s' : joins a b l c d -> nth_error l i = Some s -> nth_error l (S i) = Some s' ->
  (2 * sx s + bx s = 2 * sx s' + ax s' /\ 2 * sy s + by_ s = 2 * sy s' + ay s')%Z.
Proof.
  revert l a b. induction i as [|i IH]; intros [|t l] a b H E1 E2; try discriminate; cbn in E1.
  - injection E1 as <-. cbn in E2. destruct l as [|t' l]; [discriminate|]. injection E2 as <-. cbn in H. tauto.
  - destruct H as [_ H]. eapply IH; eauto.
Qed.
Lemma joins_last l s a b c d : joins a b (l ++ [s]) c d -> (2 * sx s + bx s = c /\ 2 * sy s + by_ s = d)%Z.
Proof. revert a b. induction l as [|t l IH]; cbn; intros a b [_ H]; auto. eapply IH; eauto. Qed.
Lemma hq_scale N X : 1 <= N -> (hq X * Nq N = Zq (Z.of_nat N * X) * half)%Qc.
Proof. intros. unfold hq, Nq. rewrite Zq_mul. ring. Qed.
Lemma nears_nth l u v u' v' i s s' : nears u v l u' v' -> nth_error l i = Some s -> nth_error l (S i) = Some s' -> (Z.abs (sx s - sx s') + Z.abs (sy s - sy s') <= 1)%Z.
Proof.
  revert l u v. induction i as [|i IH]; intros [|t l] u v H E1 E2; try discriminate; cbn in E1.
  - injection E1 as <-. cbn in E2. destruct l as [|t' l]; [discriminate|]. injection E2 as <-. cbn in H. tauto.
  - destruct H as [_ H]. eapply IH; eauto.
Qed.
Lemma walk_curve N X Y u v u' v' : 2 <= N -> (0 <= X <= 2)%Z -> (0 <= Y <= 2)%Z -> let g := Lk [0; 0]%Qc [hq X; hq Y] in
  nwalk g 0 0 u v (box 0 (Z.of_nat N) 0 (Z.of_nat N)) (Z.of_nat N * X) (Z.of_nat N * Y) u' v' ->
  exists c, search_curve 2 N 1 (Some 1%Z) c /\ curve_gates_are c [g].
Proof.
  intros HN HX HY g (l & A1 & A2 & A3 & A4 & A5). assert (H2 : 2 <= N ^ 2) by (cbn; nia). set (z := map st_node l).
  assert (UH : forall w, (0 <= w <= 2)%Z -> (0 <= hq w)%Qc /\ (hq w <= 1)%Qc).
  { intros w Hw. assert (w = 0 \/ w = 1 \/ w = 2)%Z as [->|[->| ->]] by lia; split; apply Qcle_alt; vm_compute; discriminate. }
  assert (UG : unit_links 2 [g]).
  { constructor; [|constructor]. cbn [entrance exit g]. split; (split; [reflexivity|]); repeat constructor; auto; try (apply UH; auto); apply Qcle_alt; vm_compute; discriminate. }
  assert (EF : map fst z = map (fun c => [fst c; snd c]) (map cell l)) by (unfold z; rewrite !map_map; apply map_ext; reflexivity).
  assert (GC : good_chain is_point pt_mul 2 N [g] (Some 1%Z) z).
  { constructor.
    - rewrite EF. apply FinFun.Injective_map_NoDup; auto. intros [p q] [p' q'] E. cbn in E. congruence.
    - intros c. rewrite EF. split.
      + intros [L F]. destruct (list2 _ L) as (x & y & ->). inversion F as [|? ? F1 F2]; subst. inversion F2 as [|? ? F3 _]; subst. apply in_map_iff. exists (x, y). split; auto. apply A4. split; lia.
      + intros H. apply in_map_iff in H. destruct H as ([x y] & <- & H). apply A4 in H. destruct H. split; [reflexivity|]. repeat constructor; cbn [fst snd]; lia.
    - unfold z. rewrite Forall_map. eapply Forall_impl; [|exact A1]. intros s Hs. exact Hs.
    - intros i c k c' k' E1 E2. unfold z in E1, E2. rewrite nth_error_map in E1, E2. destruct (nth_error l i) as [s|] eqn:F1; [|discriminate]. destruct (nth_error l (S i)) as [s'|] eqn:F2; [|discriminate].
      cbn [option_map] in E1, E2. unfold st_node in E1, E2. injection E1 as <- <-. injection E2 as <- <-. fold (st_link s) (st_link s').
      split; [|pose proof (nears_nth l _ _ _ _ i s s' A5 F1 F2) as NR; unfold near, l1_dist; cbn [combine map fold_right fst snd]; lia].
      destruct (joins_nth l _ _ _ _ i s s' A2 F1 F2) as [J1 J2]. apply hq_place in J1, J2. destruct (place_make N (sx s) (sy s) (hq (bx s)) (hq (by_ s)) ltac:(lia)) as (y0 & y1 & P1 & P2 & P3).
      destruct (place_make N (sx s') (sy s') (hq (ax s')) (hq (ay s')) ltac:(lia)) as (y0' & y1' & P1' & P2' & P3').
      exists (exit (st_link s)), (entrance (st_link s')), [y0; y1]. split; [reflexivity|]. split; [reflexivity|]. split; auto. rewrite P2, P3, J1, J2, <- P2', <- P3'. auto. }
  assert (HM : forall s (u v : Z) x y U V, (2 * sx s + u = Z.of_nat N * U)%Z -> (2 * sy s + v = Z.of_nat N * V)%Z -> x = [hq u; hq v] -> y = [hq U; hq V] -> @meets (list Qc) is_point N [sx s; sy s] x y).
  { intros s u0 v0 x y U V E1 E2 -> ->. exists [hq u0; hq v0], [hq U; hq V]. split; [reflexivity|]. split; [|reflexivity].
    assert (K : forall z w W, (2 * z + w = Z.of_nat N * W)%Z -> (hq W * Nq N = hq w + Zq z)%Qc).
    { intros q w W E. rewrite hq_scale by lia. rewrite <- E. pose proof (hq_place q 0 w (2 * q + w) ltac:(lia)) as Q. rewrite Q. change (Zq 0) with 0%Qc. unfold hq. ring. }
    split; [|reflexivity]. repeat constructor; cbn [fst snd]; apply K; auto. }
  assert (LN : l <> []). { intros ->. assert (In (0, 0)%Z (map cell [])) by (apply A4; unfold box; lia). auto. }
  assert (GE : good_ends is_point N g z).
  { split.
    - destruct l as [|s l']; [congruence|]. exists [sx s; sy s], (st_link s). split; [reflexivity|]. destruct A2 as [[B1 B2] _]. apply (HM s (ax s) (ay s) _ _ 0%Z 0%Z); auto; [lia|lia|]. cbn [entrance g]. f_equal; [|f_equal]; apply Qc_is_canon; reflexivity.
    - destruct (exists_last LN) as (l' & s & EL). unfold z. rewrite EL, map_app, rev_app_distr. exists [sx s; sy s], (st_link s). split; [reflexivity|]. rewrite EL in A2. apply joins_last in A2. destruct A2 as [B1 B2].
      apply (HM s (bx s) (by_ s) _ _ X Y); auto. }
  inversion UG as [|? ? UG1 _]; subst. destruct UG1 as [U1 U2].
  destruct (chain_path point_ops true 2 N (unit_point 2) is_point (point_laws 2 N ltac:(lia)) [g] UG (Some 1%Z) z g U1 U2 GC GE) as [_ (q & Hq)].
  assert (PP : point_path 2 N [g] (Some 1%Z) g q).
  { apply wanted_point; auto. apply mkp_path_of in Hq. destruct Hq as [Q1 Q2]. split; auto. exists z. auto. }
  assert (HP : Forall2 (point_path 2 N [g] (Some 1%Z)) [g] [q]) by (constructor; [exact PP|constructor]).
  destruct (tuple_valid 2 N 1 ltac:(lia) HN ltac:(lia) [g] _ [q] ltac:(discriminate) UG HP) as [HV _]. destruct (tuple_fuzzy 2 N 1 ltac:(lia) HN ltac:(lia) [g] _ [q] ltac:(discriminate) UG HP) as (f & EI).
  destruct (T_Fuzzy.C26_possible 2 N None false [q] f (no_group 2) HV (built_init _ _ _ _ EI)) as (xs & _ & _ & _ & NEx & HXs). destruct xs as [|x xs]; [congruence|].
  destruct (class_sound 2 N 1 ltac:(lia) HN ltac:(lia) (Some 1%Z) [g] [q] f x ltac:(discriminate) UG eq_refl HP EI (proj1 (HXs x) (or_introl eq_refl))) as (S1 & S2 & _). eauto.
Qed.
