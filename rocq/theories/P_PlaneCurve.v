(** The gates of plane curves with one pattern. *)
From Verif Require Import S_YE Py L_Py L_Qc L_R L_BaseMaps M_BaseMaps M_Subsets M_Paths M_Curves M_PathTree M_PathGen S_BaseMaps S_Subsets S_Paths S_Utils S_Curves S_PathGen S_Gates S_Search
  P_Subsets P_Bridge P_CurveAct P_Entrance P_Check P_PathGen P_PathChain P_PathAll P_PathLaws T_PathGen P_GateSys P_GateMain P_Plane P_PathYield P_Actions.
From Coq Require Import Reals Lra Permutation.
Local Open Scope nat_scope.

(** base maps of the square *)
Definition sq (s fx fy tr : bool) : base_map := BM (if s then [(1, fx); (0, fy)] else [(0, fx); (1, fy)]) tr.
Lemma sq_wf s fx fy tr : wf_bm 2 (sq s fx fy tr).
Proof. unfold wf_bm, sq. destruct s; cbn; [apply perm_swap|apply Permutation_refl]. Qed.
Lemma wf_sq b : wf_bm 2 b -> exists s fx fy tr, b = sq s fx fy tr.
Proof.
  destruct b as [cs tr]. unfold wf_bm. cbn [coords]. intros P. pose proof (Permutation_length P) as HL. rewrite map_length in HL. cbn in HL.
  destruct cs as [|[i fx] [|[j fy] [|]]]; try discriminate HL. cbn in P. apply Permutation_length_2_inv in P.
  destruct P as [P|P]; injection P as <- <-; [exists false, fx, fy, tr|exists true, fx, fy, tr]; reflexivity.
Qed.
Definition qflip (f : bool) (x : Qc) : Qc := if f then (1 - x)%Qc else x.
Lemma sq_mul s fx fy tr p q : pt_mul (sq s fx fy tr) [p; q] = [qflip fx (if s then q else p); qflip fy (if s then p else q)].
Proof. unfold pt_mul, apply_x, act, sq, qflip. destruct s; cbn; destruct fx, fy; reflexivity. Qed.
Lemma qR_flip f x : qR (qflip f x) = flip f (qR x).
Proof. unfold qflip, flip. destruct f; rewrite ?qR_sub, ?qR_1; auto. Qed.

Lemma list2 {A} (l : list A) : length l = 2 -> exists a b, l = [a; b].
Proof. destruct l as [|a [|b [|]]]; try discriminate. eauto. Qed.
Lemma place2 N c0 c1 x0 x1 y : place_in N [c0; c1] [x0; x1] y -> exists y0 y1, y = [y0; y1] /\ (qR y0 * INR N = IZR c0 + qR x0)%R /\ (qR y1 * INR N = IZR c1 + qR x1)%R.
Proof.
  intros [F _]. cbn [combine] in F. inversion F as [|? y0 ? r A F1]; subst. inversion F1 as [|? y1 ? r' B F2]; subst. inversion F2; subst. exists y0, y1. split; auto. cbn [fst snd] in A, B.
  apply (f_equal qR) in A, B. unfold Nq in A, B. rewrite qR_mul, qR_add, !qR_Zq, <- INR_IZR_INZ in A, B. lra.
Qed.

Section Bridge.
Context (N : nat) (HN : 2 <= N) (lk : link (list Qc)) (HV : unit_point 2 (entrance lk) /\ unit_point 2 (exit lk)) (z : list (list Z * link (list Qc)))
  (HZ : good_chain is_point pt_mul 2 N [lk] None z) (HE : good_ends is_point N lk z).
Notation LP := (point_laws 2 N (Nat.le_trans 1 2 N (Nat.le_succ_diag_r 1) HN)).
Notation G := (length z).
Lemma chain_len : G = N * N.
Proof.
  destruct HZ as [A B _ _]. assert (VP : valid_proto 2 N (Pr 2 N (map (fun cl => Some (fst cl)) z))).
  { split; [reflexivity|]. split; [reflexivity|]. exists (map fst z). cbn [pr_cubes]. rewrite map_map. split; auto. split; auto. intros q. symmetry. apply B. }
  pose proof (valid_proto_cubes 2 N _ VP) as H. cbn [pr_cubes] in H. rewrite map_length in H. rewrite H. cbn. lia.
Qed.
Definition node (i : nat) : list Z * link (list Qc) := nth i z ([], lk).
Definition wcx (i : nat) : Z := nth 0 (fst (node i)) 0%Z.
Definition wcy (i : nat) : Z := nth 1 (fst (node i)) 0%Z.
Definition off (l : list Qc) (j : nat) : R := qR (nth j l 0%Qc).
Definition wp (j : nat) (i : nat) : R := if Nat.ltb i G then (IZR (nth j (fst (node i)) 0%Z) + off (entrance (snd (node i))) j)%R
  else (IZR (nth j (fst (node (G - 1))) 0%Z) + off (exit (snd (node (G - 1)))) j)%R.
Lemma node_at i : i < G -> nth_error z i = Some (node i).
Proof. intros. apply nth_error_nth'. auto. Qed.
Lemma node_shape i : i < G -> exists c0 c1 e0 e1 x0 x1, node i = ([c0; c1], Lk [e0; e1] [x0; x1]) /\ (0 <= c0 < Z.of_nat N)%Z /\ (0 <= c1 < Z.of_nat N)%Z /\
  Forall (fun v => 0 <= qR v <= 1)%R [e0; e1; x0; x1] /\ image_of pt_mul 2 [lk] (Lk [e0; e1] [x0; x1]).
Proof.
  intros Hi. pose proof (node_at i Hi) as E. apply nth_error_In in E. destruct HV as [V1 V2].
  pose proof (chain_nodes point_ops true 2 N _ _ LP [lk] ltac:(constructor; [split; assumption|constructor]) None z HZ) as NZ. rewrite Forall_forall in NZ. destruct (NZ _ E) as ((L0 & F0) & (L1 & F1) & (L2 & F2)).
  destruct HZ as [_ _ HI _]. rewrite Forall_forall in HI. specialize (HI _ E). destruct (node i) as [c [e x]]. cbn [fst snd entrance exit] in *.
  destruct (list2 _ L0) as (c0 & c1 & ->). destruct (list2 _ L1) as (e0 & e1 & ->). destruct (list2 _ L2) as (x0 & x1 & ->). exists c0, c1, e0, e1, x0, x1. split; auto.
  inversion F0 as [|? ? G0 F0']; subst. inversion F0' as [|? ? G1 _]; subst. split; auto. split; auto. split; auto.
  assert (K : forall v, (0 <= v)%Qc /\ (v <= 1)%Qc -> (0 <= qR v <= 1)%R) by (intros v [A B]; apply qR_le in A, B; rewrite qR_0 in A; rewrite qR_1 in B; auto).
  unfold in_cube01 in F1, F2. inversion F1 as [|? ? A1 F1']; subst. inversion F1' as [|? ? A2 _]; subst. inversion F2 as [|? ? A3 F2']; subst. inversion F2' as [|? ? A4 _]; subst.
  repeat (apply Forall_cons; [apply K; assumption|]). apply Forall_nil.
Qed.
Lemma wp_in i j : i < G -> wp j i = (IZR (nth j (fst (node i)) 0%Z) + off (entrance (snd (node i))) j)%R.
Proof. intros Hi. unfold wp. replace (Nat.ltb i G) with true by (symmetry; apply Nat.ltb_lt; auto). auto. Qed.
Lemma wp_out i j : i < G -> j < 2 -> wp j (S i) = (IZR (nth j (fst (node i)) 0%Z) + off (exit (snd (node i))) j)%R.
Proof.
  intros Hi Hj. destruct (Nat.eq_dec (S i) G) as [E|E].
  - unfold wp. replace (Nat.ltb (S i) G) with false by (symmetry; apply Nat.ltb_ge; lia). replace (G - 1) with i by lia. auto.
  - rewrite wp_in by lia. assert (H1 : S i < G) by lia. pose proof (node_at i Hi) as E1. pose proof (node_at (S i) H1) as E2.
    destruct (node_shape i Hi) as (c0 & c1 & e0 & e1 & x0 & x1 & EN & _). destruct (node_shape (S i) H1) as (c0' & c1' & e0' & e1' & x0' & x1' & EN' & _). rewrite EN in *. rewrite EN' in *.
    destruct HZ as [_ _ _ HJ]. destruct (HJ i _ _ _ _ E1 E2) as ((x & x' & y & X1 & X2 & P1 & P2) & _). unfold is_point in X1, X2. cbn [entrance exit] in *. subst x x'.
    destruct (place2 _ _ _ _ _ _ P1) as (y0 & y1 & -> & Y1 & Y2). destruct (place2 _ _ _ _ _ _ P2) as (y0' & y1' & EY & Y3 & Y4). injection EY as <- <-. cbn [fst snd entrance exit]. unfold off.
    destruct j as [|[|]]; cbn [nth]; [lra|lra|lia].
Qed.
Definition fe (j : nat) : R := off (entrance lk) j.
Definition fx (j : nat) : R := off (exit lk) j.
Lemma bridge : walk (Z.of_nat N) G wcx wcy (wp 0) (wp 1) (fe 0) (fe 1) (fx 0) (fx 1).
Proof.
  pose proof chain_len as EL. assert (G4 : 4 <= G) by (rewrite EL; nia). destruct HV as [(L1 & F1) (L2 & F2)].
  assert (LE : exists a b c d, lk = Lk [a; b] [c; d]) by (destruct lk as [e x]; cbn [entrance exit] in *; destruct (list2 _ L1) as (? & ? & ->); destruct (list2 _ L2) as (? & ? & ->); eauto 6).
  destruct LE as (a & b & c & d & ELK).
  assert (K : forall v, (0 <= v)%Qc /\ (v <= 1)%Qc -> (0 <= qR v <= 1)%R) by (intros v [A B]; apply qR_le in A, B; rewrite qR_0 in A; rewrite qR_1 in B; auto).
  rewrite ELK in F1, F2. cbn [entrance exit] in F1, F2. unfold in_cube01 in F1, F2. inversion F1 as [|? ? A1 F1']; subst. inversion F1' as [|? ? A2 _]; subst. inversion F2 as [|? ? A3 F2']; subst. inversion F2' as [|? ? A4 _]; subst.
  constructor; auto.
  - lia.
  - rewrite EL, Nat.even_mul, orb_diag. rewrite <- (Nat2Z.id N) at 1. pose proof (Zeven.Zeven_bool_iff (Z.of_nat N)) as _. destruct (Nat.Even_or_Odd N) as [HO|HO].
    + rewrite Nat2Z.id. rewrite (proj2 (Nat.even_spec N) HO). symmetry. apply Z.even_spec. destruct HO as (k & ->). exists (Z.of_nat k). lia.
    + rewrite Nat2Z.id. rewrite <- Nat.negb_odd, (proj2 (Nat.odd_spec N) HO). symmetry. rewrite <- Z.negb_odd. apply negb_false_iff. apply Z.odd_spec. destruct HO as (k & ->). exists (Z.of_nat k). lia.
  - intros i Hi. destruct (node_shape i Hi) as (c0 & c1 & e0 & e1 & x0 & x1 & EN & R1 & R2 & _). unfold wcx, wcy. rewrite EN. auto.
  - intros i j Hi Hj E1 E2. destruct (node_shape i Hi) as (c0 & c1 & e0 & e1 & x0 & x1 & EN & _). destruct (node_shape j Hj) as (c0' & c1' & e0' & e1' & x0' & x1' & EN' & _).
    unfold wcx, wcy in E1, E2. rewrite EN, EN' in E1, E2. cbn [fst nth] in E1, E2. subst c0' c1'. destruct HZ as [ND _ _ _]. rewrite NoDup_nth_error in ND. apply ND; [rewrite map_length; auto|].
    pose proof (map_nth_error fst _ _ (node_at i Hi)) as M1. pose proof (map_nth_error fst _ _ (node_at j Hj)) as M2. rewrite EN in M1. rewrite EN' in M2. exact (eq_trans M1 (eq_sym M2)).
  - intros x y Hx Hy. destruct HZ as [_ HC _ _]. assert (GC : grid_cube 2 N [x; y]) by (split; auto). apply HC in GC. apply in_map_iff in GC. destruct GC as (cl & E & Hc). apply In_nth_error in Hc. destruct Hc as (i & Hi).
    assert (i < G) by (apply nth_error_Some; congruence). exists i. split; auto. rewrite (node_at i H) in Hi. injection Hi as Hi. unfold wcx, wcy. rewrite Hi, E. auto.
  - intros i Hi. rewrite !wp_in, !wp_out by (auto; lia). destruct (node_shape i Hi) as (c0 & c1 & e0 & e1 & x0 & x1 & EN & _ & _ & F & _). unfold wcx, wcy, off. rewrite EN. cbn [fst snd nth entrance exit].
    inversion F as [|? ? B1 F0']; subst. inversion F0' as [|? ? B2 F3]; subst. inversion F3 as [|? ? B3 F4]; subst. inversion F4 as [|? ? B4 _]; subst. lra.
  - destruct HE as ((c0 & l0 & E0 & x & y & M1 & M2 & M3) & _). unfold is_point in M1, M3. subst x y. assert (H0 : 0 < G) by lia. rewrite !wp_in by auto. pose proof (node_at 0 H0) as EN. destruct (node_shape 0 H0) as (q0 & q1 & e0 & e1 & x0 & x1 & EN' & _).
    rewrite EN' in EN. rewrite EN'. assert (EH : (c0, l0) = ([q0; q1], Lk [e0; e1] [x0; x1])) by (destruct z; [discriminate E0|]; cbn in E0, EN; congruence). injection EH as -> ->. cbn [entrance exit] in M2.
    destruct (place2 _ _ _ _ _ _ M2) as (y0 & y1 & EY & Y1 & Y2). unfold fe, off. rewrite EY. cbn [fst snd nth entrance exit]. rewrite <- INR_IZR_INZ. lra.
  - destruct HE as (_ & (c0 & l0 & E0 & x & y & M1 & M2 & M3)). unfold is_point in M1, M3. subst x y. assert (H0 : G - 1 < G) by lia. replace (wp 0 G) with (wp 0 (S (G - 1))) by (f_equal; lia). replace (wp 1 G) with (wp 1 (S (G - 1))) by (f_equal; lia). rewrite !wp_out by (auto; lia).
    pose proof (node_at (G - 1) H0) as EN. destruct (node_shape (G - 1) H0) as (q0 & q1 & e0 & e1 & x0 & x1 & EN' & _). rewrite EN' in EN. rewrite EN'.
    assert (EH : (c0, l0) = ([q0; q1], Lk [e0; e1] [x0; x1])). { assert (X : nth_error (rev z) 0 = Some (c0, l0)) by (destruct (rev z); [discriminate E0|exact E0]). rewrite nth_error_rev in X by lia. replace (G - 1 - 0) with (G - 1) in X by lia. congruence. }
    injection EH as -> ->. cbn [entrance exit] in M2. destruct (place2 _ _ _ _ _ _ M2) as (y0 & y1 & EY & Y1 & Y2). unfold fx, off. rewrite EY. cbn [fst snd nth entrance exit]. rewrite <- INR_IZR_INZ. lra.
  - unfold fe, off. rewrite ELK. cbn [entrance nth]. auto.
  - unfold fx, off. rewrite ELK. cbn [exit nth]. auto.
  - intros i Hi. rewrite !wp_in, !wp_out by (auto; lia). destruct (node_shape i Hi) as (c0 & c1 & e0 & e1 & x0 & x1 & EN & _ & _ & _ & IM). unfold wcx, wcy, off, fe, fx. rewrite EN. cbn [fst snd nth entrance exit].
    destruct IM as (l0 & b0 & Hl & Wb & EQ). destruct Hl as [<-|[]]. destruct (wf_sq b0 Wb) as (s & f1 & f2 & tr & ->). rewrite ELK in EQ |- *. cbn [entrance exit] in EQ |- *. rewrite !sq_mul in EQ.
    exists s, f1, f2. cbv zeta. unfold iso, off. cbn [fst snd nth entrance exit].
    cbn [time_rev sq] in EQ. destruct tr; injection EQ as -> -> -> ->; rewrite !qR_flip; [right|left]; split; f_equal; destruct s; lra.
Qed.
End Bridge.

(** ** The three kinds of gates *)
Definition three (N : nat) (l : plink) : Prop := exists b, wf_bm 2 b /\
  (pl_mul b l = side_gates \/ (pl_mul b l = diag_gates /\ Nat.odd N = true) \/ pl_mul b l = median_gates).
Lemma bit_dec x : bit (qR x) <-> x = 0%Qc \/ x = 1%Qc.
Proof. unfold bit. rewrite <- qR_0 at 1. rewrite <- qR_1 at 1. rewrite !qR_inj. tauto. Qed.
Lemma corner_dec (x y : Qc) : {(x = 0%Qc \/ x = 1%Qc) /\ (y = 0%Qc \/ y = 1%Qc)} + {~ ((x = 0%Qc \/ x = 1%Qc) /\ (y = 0%Qc \/ y = 1%Qc))}.
Proof. destruct (Qc_eq_dec x 0), (Qc_eq_dec x 1), (Qc_eq_dec y 0), (Qc_eq_dec y 1); try (left; tauto); right; tauto. Qed.
Lemma half_R : qR (1 / (1 + 1))%Qc = (/ 2)%R.
Proof. rewrite qR_div by discriminate. rewrite qR_add, qR_1. lra. Qed.
Lemma origin_three N (HN : 2 <= N) x y z : unit_point 2 [x; y] -> good_chain is_point pt_mul 2 N [Lk [0; 0]%Qc [x; y]] None z -> good_ends is_point N (Lk [0; 0]%Qc [x; y]) z ->
  three N (Lk [0; 0]%Qc [x; y]).
Proof.
  intros VX HZ HE. assert (V0 : unit_point 2 [0; 0]%Qc) by (split; [reflexivity|]; unfold in_cube01; repeat (apply Forall_cons; [split; discriminate|]); apply Forall_nil).
  pose proof (bridge N HN (Lk [0; 0]%Qc [x; y]) (conj V0 VX) z HZ HE) as W. unfold fe, fx, off in W. cbn [entrance exit nth] in W. rewrite !qR_0 in W.
  assert (ID : pl_mul (sq false false false false) (Lk [0; 0]%Qc [x; y]) = Lk [0; 0]%Qc [x; y]) by reflexivity.
  assert (SW : pl_mul (sq true false false false) (Lk [0; 0]%Qc [x; y]) = Lk [0; 0]%Qc [y; x]) by reflexivity.
  destruct (corner_dec x y) as [C|C].
  - destruct C as [[->| ->] [->| ->]].
    + exfalso. apply (walk_not_same _ _ _ _ _ _ _ _ _ _ W); auto. rewrite qR_0. auto.
    + exists (sq true false false false). split; [apply sq_wf|]. left. rewrite SW. reflexivity.
    + exists (sq false false false false). split; [apply sq_wf|]. left. rewrite ID. reflexivity.
    + exists (sq false false false false). split; [apply sq_wf|]. right. left. rewrite ID. split; [reflexivity|]. rewrite qR_1 in W.
      pose proof (walk_diag _ _ _ _ _ _ _ _ _ _ W (conj eq_refl eq_refl) eq_refl eq_refl) as E. destruct (Nat.odd N) eqn:O; auto. exfalso. rewrite <- Nat.negb_even in O. apply negb_false_iff in O.
      apply Nat.even_spec in O. destruct O as (k & ->). rewrite Nat2Z.inj_mul, Z.even_mul in E. discriminate E.
  - destruct (walk_mixed _ _ _ _ _ _ _ _ _ _ W (conj eq_refl eq_refl)) as [[X Y]|[X Y]].
    + intros [B1 B2]. apply C. split; apply bit_dec; auto.
    + rewrite <- half_R in Y. apply (proj1 (qR_inj _ _)) in Y. rewrite <- qR_1 in X. apply (proj1 (qR_inj _ _)) in X. subst. exists (sq false false false false). split; [apply sq_wf|]. right. right. rewrite ID. reflexivity.
    + rewrite <- half_R in X. apply (proj1 (qR_inj _ _)) in X. rewrite <- qR_1 in Y. apply (proj1 (qR_inj _ _)) in Y. subst. exists (sq true false false false). split; [apply sq_wf|]. right. right. rewrite SW. reflexivity.
Qed.
Section General.
Context (N : nat) (HN : 2 <= N) (lk : link (list Qc)) (HV : unit_point 2 (entrance lk) /\ unit_point 2 (exit lk)) (z : list (list Z * link (list Qc)))
  (HZ : good_chain is_point pt_mul 2 N [lk] None z) (HE : good_ends is_point N lk z).
Notation LP := (point_laws 2 N (Nat.le_trans 1 2 N (Nat.le_succ_diag_r 1) HN)).
Lemma sq2 : 2 <= N ^ 2. Proof. cbn. nia. Qed.
Lemma moved b : wf_bm 2 b -> let l := pl_mul b lk in (unit_point 2 (entrance l) /\ unit_point 2 (exit l)) /\ exists z', good_chain is_point pt_mul 2 N [l] None z' /\ good_ends is_point N l z'.
Proof.
  intros W l. destruct HV as [V1 V2]. assert (HF : Forall (fun l => unit_point 2 (entrance l) /\ unit_point 2 (exit l)) [lk]) by (constructor; [split; assumption|constructor]).
  split.
  { unfold l, pl_mul, lk_mul. destruct (time_rev b); cbn [entrance exit]; split; apply (lw_V _ _ _ _ _ _ LP b); auto. }
  exists (zmul point_ops N b z). split.
  - apply (good_chain_links point_ops 2 N is_point) with (links := [lk]); [|apply (chain_mul point_ops true 2 N _ _ LP [lk] HF None); auto; apply sq2].
    intros x (l0 & a & [<-|[]] & Wa & ->). exists l, (bm_mul a (bm_inv b)). split; [left; auto|]. split; [apply wf_mul; auto; apply wf_inv; auto|].
    change (lk_mul pt_mul a lk = lk_mul pt_mul (bm_mul a (bm_inv b)) l). unfold l, pl_mul. rewrite <- (lk_mul_mul point_ops true 2 N _ _ LP) by (auto using wf_mul, wf_inv). f_equal. rewrite (mul_assoc 2) by (auto using wf_inv). rewrite (mul_inv_l 2), (mul_id_r 2); auto.
  - apply (ends_mul point_ops true 2 N _ _ LP [lk] HF None sq2); auto.
Qed.
Lemma chain_three : three N lk.
Proof.
  destruct HV as [[L1 F1] [L2 F2]]. destruct (list2 _ L1) as (a & b & EA). destruct (list2 _ L2) as (c & d & EC).
  assert (GO : forall t, wf_bm 2 t -> entrance (pl_mul t lk) = [0; 0]%Qc -> three N lk).
  { intros t Wt E0. destruct (moved t Wt) as ((V1 & V2) & z' & Z1 & Z2). set (l := pl_mul t lk) in *. destruct l as [e x] eqn:EL. cbn [entrance exit] in *. subst e. destruct V2 as [LX FX]. destruct (list2 _ LX) as (u & v & ->).
    destruct (origin_three N HN u v z' (conj LX FX) Z1 Z2) as (b1 & W1 & K). exists (bm_mul b1 t). split; [apply wf_mul; auto|]. rewrite (pl_mul_mul 2) by auto. fold l. rewrite EL. exact K. }
  destruct lk as [e x]. cbn [entrance exit] in *. subst e x.
  assert (ZQ : forall q, q = 0%Qc \/ q = 1%Qc -> qflip (if Qc_eq_dec q 0 then false else true) q = 0%Qc).
  { intros q Hq. destruct (Qc_eq_dec q 0) as [->|NZ]; [reflexivity|]. destruct Hq as [->| ->]; [congruence|]. unfold qflip. ring. }
  destruct (corner_dec a b) as [[C1 C2]|C].
  - apply (GO (sq false (if Qc_eq_dec a 0 then false else true) (if Qc_eq_dec b 0 then false else true) false)); [apply sq_wf|]. unfold pl_mul, lk_mul. cbn [time_rev sq entrance exit]. rewrite sq_mul, !ZQ; auto.
  - destruct (corner_dec c d) as [[C1 C2]|C'].
    + apply (GO (sq false (if Qc_eq_dec c 0 then false else true) (if Qc_eq_dec d 0 then false else true) true)); [apply sq_wf|]. unfold pl_mul, lk_mul. cbn [time_rev sq entrance exit]. rewrite sq_mul, !ZQ; auto.
    + exfalso. pose proof (bridge N HN (Lk [a; b] [c; d]) HV z HZ HE) as W. unfold fe, fx, off in W. cbn [entrance exit nth] in W.
      apply (walk_sides _ _ _ _ _ _ _ _ _ _ W); rewrite !bit_dec; auto.
Qed.
End General.

(** ** Curves *)
Lemma curve_three N c : 2 <= N -> search_curve 2 N 1 None c -> exists l, curve_gates_are c [l] /\ (unit_point 2 (entrance l) /\ unit_point 2 (exit l)) /\ three N l /\
  (on_boundary (entrance l) /\ on_boundary (exit l)).
Proof.
  intros HN [HC D1 D2 D3 HK _]. pose proof (curve_sys c HC HK 0 ltac:(lia)) as (_ & V & Z1 & Z2). pose proof (klink_is c HC 0 ltac:(lia)) as HL. rewrite D1, D2, D3 in *. change (map (klink c) (range 1)) with [klink c 0] in Z1.
  exists (klink c 0). split; [|split; [exact V|split]].
  - split; [rewrite D3; reflexivity|]. intros [|p] l E; [|destruct p; discriminate E]. injection E as <-. exact HL.
  - exact (chain_three N HN (klink c 0) V _ Z1 Z2).
  - pose proof (walk_edge _ _ _ _ _ _ _ _ _ _ (bridge N HN (klink c 0) V _ Z1 Z2)) as [A B]. destruct V as [[L1 _] [L2 _]].
    assert (K : forall p, length p = 2 -> bit (off p 0) \/ bit (off p 1) -> on_boundary p).
    { intros p Lp [H|H]; unfold off in H; rewrite bit_dec in H; [exists 0|exists 1]; (split; [lia|auto]). }
    split; apply K; auto.
Qed.
