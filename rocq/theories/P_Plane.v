(** Plane walks: a sequence of cells that visits every cell of the N x N grid once, joined at points; every cell is crossed
    like the whole square, up to an isometry of the square and the direction. Which entrances and exits are possible? *)
From Coq Require Import Reals ZArith Lia Lra List Bool Arith.
Import ListNotations.
Local Open Scope R_scope.

Definition flip (f : bool) (r : R) : R := if f then 1 - r else r.
(** an isometry of the square: swap the coordinates, then flip some *)
Definition iso (s fx fy : bool) (p : R * R) : R * R := (flip fx (if s then snd p else fst p), flip fy (if s then fst p else snd p)).
Definition bit (r : R) : Prop := r = 0 \/ r = 1.
Definition isint (r : R) : Prop := exists z, r = IZR z.
Lemma isint_bit z r : 0 <= r - IZR z <= 1 -> isint r -> bit (r - IZR z).
Proof.
  intros [A B] (y & ->). assert (z <= y)%Z by (apply le_IZR; lra). assert (y <= z + 1)%Z by (apply le_IZR; rewrite plus_IZR; lra).
  assert (E : y = z \/ y = (z + 1)%Z) by lia. destruct E as [-> | ->]; [left|right]; rewrite ?plus_IZR; lra.
Qed.
Lemma bit_isint z r : bit (r - IZR z) -> isint r.
Proof. intros [E|E]; [exists z; lra|exists (z + 1)%Z; rewrite plus_IZR; lra]. Qed.
Lemma flip_bit f r : bit (flip f r) <-> bit r.
Proof. unfold bit, flip. destruct f; split; intros [H|H]; lra. Qed.

Section Walk.
Context (N : Z) (HN : (2 <= N)%Z) (G : nat) (HG : (4 <= G)%nat) (cx cy : nat -> Z) (px py : nat -> R).
Context (HR : forall i, (i < G)%nat -> (0 <= cx i < N)%Z /\ (0 <= cy i < N)%Z).
Context (HI : forall i j, (i < G)%nat -> (j < G)%nat -> cx i = cx j -> cy i = cy j -> i = j).
Context (HS : forall x y, (0 <= x < N)%Z -> (0 <= y < N)%Z -> exists i, (i < G)%nat /\ cx i = x /\ cy i = y).
(** cell i contains the points i and i+1 *)
Context (HU : forall i, (i < G)%nat -> 0 <= px i - IZR (cx i) <= 1 /\ 0 <= py i - IZR (cy i) <= 1 /\
                                       0 <= px (S i) - IZR (cx i) <= 1 /\ 0 <= py (S i) - IZR (cy i) <= 1).

Lemma in_cell_corner x c : (0 <= c < N)%Z -> 0 <= IZR x - IZR c <= 1 -> (x = 0 -> c = 0)%Z /\ (x = N -> c = N - 1)%Z.
Proof.
  intros Hc [A B]. assert (c <= x)%Z by (apply le_IZR; lra). assert (x <= c + 1)%Z by (apply le_IZR; rewrite plus_IZR; lra). lia.
Qed.
(** a corner of the square is in one cell only *)
Lemma corner_end k x y : (k <= G)%nat -> (x = 0 \/ x = N)%Z -> (y = 0 \/ y = N)%Z -> px k = IZR x -> py k = IZR y -> k = 0%nat \/ k = G.
Proof.
  intros Hk Hx Hy Ex Ey. destruct k as [|k]; [auto|]. destruct (Nat.eq_dec (S k) G) as [|Hn]; [auto|]. exfalso.
  destruct (HU k ltac:(lia)) as (_ & _ & A1 & A2). destruct (HU (S k) ltac:(lia)) as (B1 & B2 & _). rewrite Ex in *. rewrite Ey in *.
  destruct (HR k ltac:(lia)) as [R1 R2]. destruct (HR (S k) ltac:(lia)) as [R3 R4].
  destruct (in_cell_corner _ _ R1 A1), (in_cell_corner _ _ R2 A2), (in_cell_corner _ _ R3 B1), (in_cell_corner _ _ R4 B2).
  assert (E : k = S k); [|lia]. apply HI; try lia.
Qed.
Lemma apart r a b : a <> b -> 0 <= r - IZR a <= 1 -> 0 <= r - IZR b <= 1 -> (r = IZR a /\ b = (a - 1)%Z) \/ (r = IZR a + 1 /\ b = (a + 1)%Z).
Proof.
  intros H A B. assert (a <= b + 1)%Z by (apply le_IZR; rewrite plus_IZR; lra). assert (b <= a + 1)%Z by (apply le_IZR; rewrite plus_IZR; lra).
  assert (E : b = (a - 1)%Z \/ b = (a + 1)%Z) by lia. destruct E as [-> | ->]; [left|right]; rewrite ?minus_IZR, ?plus_IZR in *; split; auto; lra.
Qed.
(** a common point of two adjacent cells is on their boundaries *)
Lemma shared k : (S k < G)%nat -> isint (px (S k)) \/ isint (py (S k)).
Proof.
  intros Hk. destruct (HU k ltac:(lia)) as (_ & _ & A1 & A2). destruct (HU (S k) ltac:(lia)) as (B1 & B2 & _).
  destruct (Z.eq_dec (cx k) (cx (S k))) as [E|E]; [destruct (Z.eq_dec (cy k) (cy (S k))) as [E'|E']|].
  - exfalso. assert (X : k = S k); [|lia]. apply HI; auto; lia.
  - right. destruct (apart _ _ _ E' A2 B2) as [[X _]|[X _]]; [exists (cy k); auto|exists (cy k + 1)%Z; rewrite plus_IZR; auto].
  - left. destruct (apart _ _ _ E A1 B1) as [[X _]|[X _]]; [exists (cx k); auto|exists (cx k + 1)%Z; rewrite plus_IZR; auto].
Qed.
(** the cells are side neighbours in x if the common point is not on a horizontal line *)
Lemma cross_x k : (S k < G)%nat -> ~ isint (py (S k)) -> cy (S k) = cy k /\ ((cx (S k) = cx k - 1)%Z /\ px (S k) = IZR (cx k) \/ (cx (S k) = cx k + 1)%Z /\ px (S k) = IZR (cx k) + 1).
Proof.
  intros Hk HNI. destruct (HU k ltac:(lia)) as (_ & _ & A1 & A2). destruct (HU (S k) ltac:(lia)) as (B1 & B2 & _).
  assert (EY : cy (S k) = cy k).
  { destruct (Z.eq_dec (cy k) (cy (S k))) as [E'|E']; auto. exfalso. apply HNI. destruct (apart _ _ _ E' A2 B2) as [[X _]|[X _]]; [exists (cy k); auto|exists (cy k + 1)%Z; rewrite plus_IZR; auto]. }
  split; auto. assert (NE : cx k <> cx (S k)). { intros E. assert (X : k = S k); [|lia]. apply HI; auto; lia. }
  destruct (apart _ _ _ NE A1 B1) as [[X Y]|[X Y]]; auto.
Qed.

Section Points.
Context (e1 e2 x1 x2 : R) (HE : px 0 = IZR N * e1 /\ py 0 = IZR N * e2) (HX : px G = IZR N * x1 /\ py G = IZR N * x2).
Context (E01 : 0 <= e1 <= 1 /\ 0 <= e2 <= 1) (X01 : 0 <= x1 <= 1 /\ 0 <= x2 <= 1).
Context (HL : forall i, (i < G)%nat -> exists s fx fy, let a := iso s fx fy (e1, e2) in let b := iso s fx fy (x1, x2) in
  let p := (px i - IZR (cx i), py i - IZR (cy i)) in let q := (px (S i) - IZR (cx i), py (S i) - IZR (cy i)) in (p = a /\ q = b) \/ (p = b /\ q = a)).

(** no gate is inside the square *)
Lemma on_edge : (bit e1 \/ bit e2) /\ (bit x1 \/ bit x2).
Proof.
  assert (B : forall k i, (k = i \/ k = S i) -> (i < G)%nat -> isint (px k) \/ isint (py k) -> bit (px k - IZR (cx i)) \/ bit (py k - IZR (cy i))).
  { intros k i Hk Hi [H|H]; [left|right]; (apply isint_bit; [|exact H]); destruct (HU i Hi) as (? & ? & ? & ?); destruct Hk as [-> | ->]; auto. }
  pose proof (B 1%nat 1%nat ltac:(auto) ltac:(lia) (shared 0 ltac:(lia))) as B1. pose proof (B 2%nat 1%nat ltac:(auto) ltac:(lia) (shared 1 ltac:(lia))) as B2.
  destruct (HL 1%nat ltac:(lia)) as (s & fx & fy & [[P Q]|[P Q]]); unfold iso in *; cbn [fst snd] in *; injection P as P1 P2; injection Q as Q1 Q2;
    rewrite P1, P2 in B1; rewrite Q1, Q2 in B2; rewrite !flip_bit in B1, B2; destruct s; tauto.
Qed.

(** ** The entrance is a corner, the exit is not. *)
Section Mixed.
Context (HE0 : e1 = 0 /\ e2 = 0) (HNV : ~ (bit x1 /\ bit x2)).
Definition int2 (k : nat) : Prop := isint (px k) /\ isint (py k).
(** the shape of a cell: v is the corner, n the other point (relative to the cell) *)
Definition shape (v n : R * R) : Prop := exists s fx fy, v = (flip fx 0, flip fy 0) /\ n = iso s fx fy (x1, x2).
Lemma shape_of i : (i < G)%nat -> let p := (px i - IZR (cx i), py i - IZR (cy i)) in let q := (px (S i) - IZR (cx i), py (S i) - IZR (cy i)) in
  (shape p q /\ int2 i /\ ~ int2 (S i)) \/ (shape q p /\ int2 (S i) /\ ~ int2 i).
Proof.
  intros Hi p q. destruct HE0 as [Z1 Z2]. destruct (HL i Hi) as (s & fx & fy & H). fold p q in H. cbv zeta in H. destruct (HU i Hi) as (U1 & U2 & U3 & U4).
  assert (IV : iso s fx fy (e1, e2) = (flip fx 0, flip fy 0)) by (unfold iso; cbn; rewrite Z1, Z2; destruct s; auto). rewrite IV in H.
  assert (NV : forall k, (k = i \/ k = S i) -> (px k - IZR (cx i), py k - IZR (cy i)) = iso s fx fy (x1, x2) -> ~ int2 k).
  { intros k Hk EQ [I1 I2]. assert (V1 : bit (px k - IZR (cx i))) by (apply isint_bit; auto; destruct Hk as [-> | ->]; auto). assert (V2 : bit (py k - IZR (cy i))) by (apply isint_bit; auto; destruct Hk as [-> | ->]; auto).
    unfold iso in EQ. cbn [fst snd] in EQ. injection EQ as E1 E2. rewrite E1, flip_bit in V1. rewrite E2, flip_bit in V2. apply HNV. destruct s; auto. }
  assert (VV : forall k, (px k - IZR (cx i), py k - IZR (cy i)) = (flip fx 0, flip fy 0) -> int2 k).
  { intros k EQ. injection EQ as E1 E2. split; (eapply bit_isint; [rewrite ?E1, ?E2; apply flip_bit; left; reflexivity]). }
  destruct H as [[P Q]|[P Q]]; [left|right]; (split; [exists s, fx, fy; auto|]); split; auto; eapply NV; eauto.
Qed.
Lemma int_even k : (k <= G)%nat -> (Nat.even k = true -> int2 k) /\ (Nat.even k = false -> ~ int2 k).
Proof.
  induction k; intros Hk.
  - destruct HE as [A B]. destruct HE0 as [-> ->]. split; [|discriminate]. intros _. split; exists 0%Z; rewrite ?A, ?B; ring.
  - destruct (IHk ltac:(lia)) as [I1 I2]. rewrite Nat.even_succ, <- Nat.negb_even. destruct (shape_of k ltac:(lia)) as [(_ & A & B)|(_ & A & B)]; destruct (Nat.even k); cbn; split; intros; try discriminate; auto;
      exfalso; apply I2; auto.
Qed.
(** the first cell is left through the opposite side *)
Lemma opposite : exists t, 0 < t < 1 /\ ((x1 = 1 /\ x2 = t) \/ (x1 = t /\ x2 = 1)).
Proof.
  destruct (shape_of 0 ltac:(lia)) as [(SH & _ & NI)|(_ & _ & NI)]; [|exfalso; apply NI; apply int_even; auto; lia].
  destruct HE as [A B]. destruct HE0 as [Z1 Z2]. rewrite Z1, Rmult_0_r in A. rewrite Z2, Rmult_0_r in B.
  destruct (HU 0 ltac:(lia)) as (U1 & U2 & U3 & U4). destruct (HR 0 ltac:(lia)) as [R1 R2]. rewrite A in U1. rewrite B in U2.
  assert (C1 : cx 0 = 0%Z) by (apply (in_cell_corner 0 _ R1); auto). assert (C2 : cy 0 = 0%Z) by (apply (in_cell_corner 0 _ R2); auto).
  destruct SH as (s & fx & fy & V & Q). rewrite C1, C2 in *. injection V as V1 V2. rewrite A in V1. rewrite B in V2.
  assert (fx = false) by (destruct fx; unfold flip in V1; auto; lra). assert (fy = false) by (destruct fy; unfold flip in V2; auto; lra). subst fx fy.
  unfold iso, flip in Q. cbn [fst snd] in Q. injection Q as Q1 Q2.
  destruct (HU 1 ltac:(lia)) as (W1 & W2 & _). destruct (HR 1 ltac:(lia)) as [R3 R4].
  assert (K : forall u v, (u = px 1 /\ v = py 1 -> ~ (bit u /\ bit v)) ) by (intros u v [-> ->] [H1 H2]; apply NI; split; [destruct H1 as [->| ->]|destruct H2 as [->| ->]]; eexists; eauto).
  assert (ONE : (px 1%nat = 1 /\ 0 < py 1%nat < 1) \/ (py 1%nat = 1 /\ 0 < px 1%nat < 1)).
  { destruct (Z.eq_dec (cx 0) (cx 1)) as [E|E]; [destruct (Z.eq_dec (cy 0) (cy 1)) as [E'|E']|].
    - exfalso. assert (X : 0%nat = 1%nat); [|lia]. apply HI; auto; lia.
    - right. rewrite C2 in E'. destruct (apart _ _ _ E' ltac:(exact U4) W2) as [[X Y]|[X Y]]; [lia|]. rewrite Rplus_0_l in X. split; auto.
      destruct U3 as [L1 L2]. rewrite Rminus_0_r in L1, L2. destruct (Rle_lt_or_eq_dec _ _ L1) as [L3|L3]; [destruct (Rle_lt_or_eq_dec _ _ L2) as [L4|L4]; auto|]; exfalso; apply (K _ _ (conj eq_refl eq_refl)); split; unfold bit; auto.
    - left. rewrite C1 in E. destruct (apart _ _ _ E ltac:(exact U3) W1) as [[X Y]|[X Y]]; [lia|]. rewrite Rplus_0_l in X. split; auto.
      destruct U4 as [L1 L2]. rewrite Rminus_0_r in L1, L2. destruct (Rle_lt_or_eq_dec _ _ L1) as [L3|L3]; [destruct (Rle_lt_or_eq_dec _ _ L2) as [L4|L4]; auto|]; exfalso; apply (K _ _ (conj eq_refl eq_refl)); split; unfold bit; auto. }
  rewrite !Rminus_0_r in Q1, Q2. destruct ONE as [[O1 O2]|[O1 O2]]; destruct s; [exists (py 1%nat)|exists (py 1%nat)|exists (px 1%nat)|exists (px 1%nat)]; split; auto; [right|left|left|right]; split; congruence.
Qed.

Section NotHalf.
Context (t : R) (Ht : 0 < t < 1) (HT : (x1 = 1 /\ x2 = t) \/ (x1 = t /\ x2 = 1)) (Hh : t <> / 2).
(** a pair of cells joined by the point that is not a corner is a domino with its ends on one side *)
Definition domino (k : nat) : Prop :=
  (cy (S k) = cy k /\ py (S (S k)) = py k /\ (py k = IZR (cy k) \/ py k = IZR (cy k) + 1) /\
     ((px k = IZR (cx k) /\ cx (S k) = (cx k + 1)%Z /\ px (S (S k)) = px k + 2) \/ (px k = IZR (cx k) + 1 /\ cx (S k) = (cx k - 1)%Z /\ px (S (S k)) = px k - 2))) \/
  (cx (S k) = cx k /\ px (S (S k)) = px k /\ (px k = IZR (cx k) \/ px k = IZR (cx k) + 1) /\
     ((py k = IZR (cy k) /\ cy (S k) = (cy k + 1)%Z /\ py (S (S k)) = py k + 2) \/ (py k = IZR (cy k) + 1 /\ cy (S k) = (cy k - 1)%Z /\ py (S (S k)) = py k - 2))).
(** the two kinds of shapes *)
Lemma shape_cases v n : shape v n -> exists fx fy, v = (flip fx 0, flip fy 0) /\ (n = (flip fx 1, flip fy t) \/ n = (flip fx t, flip fy 1)).
Proof.
  intros (s & fx & fy & E1 & E2). exists fx, fy. split; auto. rewrite E2. unfold iso. cbn [fst snd]. destruct HT as [[-> ->]|[-> ->]]; destruct s; auto.
Qed.
Lemma flip_t f : 0 < flip f t < 1. Proof. unfold flip. destruct f; lra. Qed.
Lemma frac_eq a b u v : 0 < u < 1 -> 0 < v < 1 -> IZR a + u = IZR b + v -> a = b /\ u = v.
Proof.
  intros Hu Hv E. assert (a < b + 1)%Z by (apply lt_IZR; rewrite plus_IZR; lra). assert (b < a + 1)%Z by (apply lt_IZR; rewrite plus_IZR; lra).
  assert (a = b) by lia. subst. split; auto. lra.
Qed.
Lemma frac_int a b u v : 0 < u < 1 -> bit v -> IZR a + u = IZR b + v -> False.
Proof.
  intros Hu [-> | ->] E; [assert (a < b)%Z by (apply lt_IZR; lra); assert (b < a + 1)%Z by (apply lt_IZR; rewrite plus_IZR; lra)|
    assert (a < b + 1)%Z by (apply lt_IZR; rewrite plus_IZR; lra); assert (b < a)%Z by (apply lt_IZR; lra)]; lia.
Qed.
Lemma flip_inj f g : flip f t = flip g t -> f = g.
Proof. unfold flip. destruct f, g; auto; intros E; exfalso; apply Hh; lra. Qed.
Lemma pair_domino k : (S k < G)%nat -> Nat.even k = true -> domino k.
Proof.
  intros Hk Ek. destruct (shape_of k ltac:(lia)) as [(A & _ & _)|(_ & _ & B)]; [|exfalso; apply B; apply int_even; auto; lia].
  destruct (shape_of (S k) ltac:(lia)) as [(_ & B & _)|(B & _ & _)]; [exfalso; revert B; apply int_even; [lia|rewrite Nat.even_succ, <- Nat.negb_even, Ek; auto]|].
  destruct (shape_cases _ _ A) as (fx & fy & V & NN). destruct (shape_cases _ _ B) as (gx & gy & V' & NN').
  assert (NE : ~ (cx k = cx (S k) /\ cy k = cy (S k))). { intros [X Y]. assert (X0 : k = S k); [|lia]. apply HI; auto; lia. }
  injection V as V1 V2. injection V' as V3 V4. pose proof (flip_t fx). pose proof (flip_t fy). pose proof (flip_t gx). pose proof (flip_t gy).
  assert (BT : forall f, bit (flip f 1)) by (intros f; apply flip_bit; right; auto).
  destruct NN as [NN|NN]; destruct NN' as [NN'|NN']; injection NN as N1 N2; injection NN' as N3 N4.
  - left. destruct (frac_eq (cy k) (cy (S k)) (flip fy t) (flip gy t)) as [Y1 Y2]; [auto..|lra|]. apply flip_inj in Y2. subst gy.
    assert (X : fx <> gx). { intros <-. apply NE. split; auto. apply eq_IZR. lra. }
    rewrite <- Y1 in *. split; auto. split; [lra|]. split; [destruct fy; unfold flip in V2; lra|].
    destruct fx, gx; try congruence; unfold flip in *; [right|left]; (split; [lra|]); (split; [|]).
    + apply eq_IZR. rewrite minus_IZR. lra.
    + assert (IZR (cx (S k)) = IZR (cx k) - 1) by lra. lra.
    + apply eq_IZR. rewrite plus_IZR. lra.
    + assert (IZR (cx (S k)) = IZR (cx k) + 1) by lra. lra.
  - exfalso. apply (frac_int (cy k) (cy (S k)) (flip fy t) (flip gy 1)); auto; lra.
  - exfalso. apply (frac_int (cx k) (cx (S k)) (flip fx t) (flip gx 1)); auto; lra.
  - right. destruct (frac_eq (cx k) (cx (S k)) (flip fx t) (flip gx t)) as [Y1 Y2]; [auto..|lra|]. apply flip_inj in Y2. subst gx.
    assert (X : fy <> gy). { intros <-. apply NE. split; auto. apply eq_IZR. lra. }
    rewrite <- Y1 in *. split; auto. split; [lra|]. split; [destruct fx; unfold flip in V1; lra|].
    destruct fy, gy; try congruence; unfold flip in *; [right|left]; (split; [lra|]); (split; [|]).
    + apply eq_IZR. rewrite minus_IZR. lra.
    + assert (IZR (cy (S k)) = IZR (cy k) - 1) by lra. lra.
    + apply eq_IZR. rewrite plus_IZR. lra.
    + assert (IZR (cy (S k)) = IZR (cy k) + 1) by lra. lra.
Qed.
Definition evenR (r : R) : Prop := exists z, r = IZR (2 * z).
Lemma ends_even k : (2 * k <= G)%nat -> evenR (px (2 * k)) /\ evenR (py (2 * k)).
Proof.
  induction k; intros Hk.
  - destruct HE as [A B]. destruct HE0 as [Z1 Z2]. cbn [Nat.mul Nat.add]. split; exists 0%Z; rewrite ?A, ?B, ?Z1, ?Z2; cbn; ring.
  - destruct (IHk ltac:(lia)) as [(a & A) (b & B)]. pose proof (pair_domino (2 * k) ltac:(lia)) as D. rewrite Nat.even_mul in D. specialize (D eq_refl).
    replace (2 * S k)%nat with (S (S (2 * k))) by lia. unfold domino in D. destruct D as [(_ & D1 & _ & D2)|(_ & D1 & _ & D2)]; rewrite D1; (split; [|]);
      try (exists a; assumption); try (exists b; assumption);
      (destruct D2 as [(_ & _ & ->)|(_ & _ & ->)]; [first [rewrite A; exists (a + 1)%Z|rewrite B; exists (b + 1)%Z]|first [rewrite A; exists (a - 1)%Z|rewrite B; exists (b - 1)%Z]]; rewrite !mult_IZR, ?plus_IZR, ?minus_IZR; ring).
Qed.
Lemma even_cell r c : evenR r -> (r = IZR c -> Z.even c = true) /\ (r = IZR c + 1 -> Z.even c = false).
Proof.
  intros (z & ->). split; intros E.
  - apply eq_IZR in E. subst c. rewrite Z.even_mul. auto.
  - replace (IZR c + 1) with (IZR (c + 1)) in E by (rewrite plus_IZR; auto). apply eq_IZR in E. assert (c = (2 * z - 1)%Z) by lia. subst c. rewrite Z.even_sub, Z.even_mul. auto.
Qed.
(** the cells of a domino *)
Lemma domino_cells k : (S (2 * k) < G)%nat -> let i := (2 * k)%nat in
  (cy (S i) = cy i /\ Z.min (cx i) (cx (S i)) = (Z.max (cx i) (cx (S i)) - 1)%Z /\ Z.even (Z.min (cx i) (cx (S i))) = true) \/
  (cx (S i) = cx i /\ Z.min (cy i) (cy (S i)) = (Z.max (cy i) (cy (S i)) - 1)%Z /\ Z.even (Z.min (cy i) (cy (S i))) = true).
Proof.
  intros Hk i. pose proof (pair_domino i Hk ltac:(unfold i; rewrite Nat.even_mul; auto)) as D. destruct (ends_even k ltac:(lia)) as [EX EY]. fold i in EX, EY.
  pose proof (even_cell _ (cx i) EX) as CX. pose proof (even_cell _ (cy i) EY) as CY. unfold domino in D.
  destruct D as [(D0 & D1 & _ & [(D2 & D3 & D4)|(D2 & D3 & D4)])|(D0 & D1 & _ & [(D2 & D3 & D4)|(D2 & D3 & D4)])]; [left|left|right|right]; (split; [exact D0|]).
  - rewrite D3. rewrite Z.min_l, Z.max_r by lia. split; [lia|]. apply CX; auto.
  - rewrite D3. rewrite Z.min_r, Z.max_l by lia. split; [lia|]. destruct CX as [_ CX]. specialize (CX D2). rewrite Z.even_sub, CX. auto.
  - rewrite D3. rewrite Z.min_l, Z.max_r by lia. split; [lia|]. apply CY; auto.
  - rewrite D3. rewrite Z.min_r, Z.max_l by lia. split; [lia|]. destruct CY as [_ CY]. specialize (CY D2). rewrite Z.even_sub, CY. auto.
Qed.
Lemma N_pos : 0 < IZR N. Proof. apply (IZR_lt 0). lia. Qed.
Lemma exit_not_corner x y : (x = 0 \/ x = N)%Z -> (y = 0 \/ y = N)%Z -> ~ (px G = IZR x /\ py G = IZR y).
Proof.
  intros Hx Hy [A B]. destruct HX as [C D]. rewrite C in A. rewrite D in B. pose proof N_pos. apply HNV. split.
  - destruct Hx as [-> | ->]; [left|right]; apply (Rmult_eq_reg_l (IZR N)); lra.
  - destruct Hy as [-> | ->]; [left|right]; apply (Rmult_eq_reg_l (IZR N)); lra.
Qed.
Lemma odd_case : Z.even N = false -> False.
Proof.
  intros EN. destruct (HS (N - 1) (N - 1))%Z as (i & Hi & C1 & C2); try lia. assert (EN1 : Z.even (N - 1) = true) by (rewrite Z.even_sub, EN; auto).
  (* not in a domino *)
  assert (ND : forall k, (S (2 * k) < G)%nat -> i <> (2 * k)%nat /\ i <> S (2 * k)).
  { intros k Hk. pose proof (domino_cells k Hk) as D. cbv zeta in D. set (j := (2 * k)%nat) in *. destruct (HR j ltac:(lia)) as [R1 R2]. destruct (HR (S j) ltac:(lia)) as [R3 R4].
    destruct (Nat.eq_dec i j) as [E|E]; [exfalso|split; auto; intros E'; exfalso].
    - rewrite E in *. destruct D as [(_ & D1 & D2)|(_ & D1 & D2)]; [rewrite C1 in *; assert (Z.min (N - 1) (cx (S j)) = (N - 2)%Z) by lia|rewrite C2 in *; assert (Z.min (N - 1) (cy (S j)) = (N - 2)%Z) by lia];
        rewrite H in D2; rewrite Z.even_sub, EN in D2; discriminate D2.
    - rewrite E' in *. destruct D as [(_ & D1 & D2)|(_ & D1 & D2)]; [rewrite C1 in *; assert (Z.min (cx j) (N - 1) = (N - 2)%Z) by lia|rewrite C2 in *; assert (Z.min (cy j) (N - 1) = (N - 2)%Z) by lia];
        rewrite H in D2; rewrite Z.even_sub, EN in D2; discriminate D2. }
  assert (EI : exists k, i = (2 * k)%nat /\ S i = G).
  { destruct (Nat.Even_or_Odd i) as [(k & Hk)|(k & Hk)].
    - exists k. split; auto. destruct (Nat.eq_dec (S i) G); auto. exfalso. destruct (ND k ltac:(lia)). lia.
    - exfalso. destruct (ND k ltac:(lia)). lia. }
  destruct EI as (k & Ek & EG). destruct (ends_even k ltac:(lia)) as [EX EY]. rewrite <- Ek in EX, EY.
  destruct (shape_of i Hi) as [(A & _ & _)|(_ & _ & B)]; [|exfalso; apply B; apply int_even; [lia|rewrite Ek, Nat.even_mul; auto]].
  destruct (shape_cases _ _ A) as (fx & fy & V & NN). injection V as V1 V2. rewrite C1 in *. rewrite C2 in *.
  assert (fx = false). { destruct fx; auto. exfalso. destruct (even_cell _ (N - 1) EX) as [_ H]. rewrite H in EN1; [discriminate EN1|]. unfold flip in V1. lra. }
  assert (fy = false). { destruct fy; auto. exfalso. destruct (even_cell _ (N - 1) EY) as [_ H0]. rewrite H0 in EN1; [discriminate EN1|]. unfold flip in V2. lra. }
  subst fx fy. unfold flip in *. rewrite EG in NN. rewrite minus_IZR in *. pose proof N_pos as NP. assert (N2 : 2 <= IZR N) by (apply IZR_le; lia). destruct HX as [X1 X2]. rewrite X1, X2 in NN.
  assert (L1 : IZR N * t - (IZR N - 1) = t -> False) by (intros L; assert (L' : (IZR N - 1) * (1 - t) = 0) by lra; apply Rmult_integral in L'; lra).
  assert (L2 : IZR N * t - (IZR N - 1) = 1 -> False) by (intros L; assert (L' : IZR N * (1 - t) = 0) by lra; apply Rmult_integral in L'; lra).
  destruct HT as [[-> ->]|[-> ->]]; destruct NN as [NN|NN]; injection NN as M1 M2; auto; lra.
Qed.
Lemma even_case : Z.even N = true -> False.
Proof.
  intros EN. destruct (HS (N - 1) 0)%Z as (i & Hi & C1 & C2); try lia.
  assert (EG : Nat.even G = true -> exists k, (i = 2 * k \/ i = S (2 * k))%nat /\ (S (2 * k) < G)%nat).
  { intros EG. apply Nat.even_spec in EG. destruct EG as (g & Hg). destruct (Nat.Even_or_Odd i) as [(k & Hk)|(k & Hk)]; exists k; lia. }
  assert (EG' : Nat.even G = false -> (exists k, (i = 2 * k \/ i = S (2 * k))%nat /\ (S (2 * k) < G)%nat) \/ S i = G).
  { intros EO. destruct (Nat.eq_dec (S i) G); auto. left. destruct (Nat.Even_or_Odd i) as [(k & Hk)|(k & Hk)]; exists k; lia. }
  (* a corner point that is an end of the walk *)
  assert (FIN : forall j, (j <= G)%nat -> px j = IZR N -> py j = 0 -> False).
  { intros j Hj A B. destruct (corner_end j N 0%Z Hj (or_intror eq_refl) (or_introl eq_refl) A B) as [-> | ->].
    - destruct HE as [C _]. destruct HE0 as [Z1 _]. rewrite Z1, A in C. pose proof N_pos. lra.
    - apply (exit_not_corner N 0%Z); auto. }
  assert (DOM : forall k, (i = 2 * k \/ i = S (2 * k))%nat -> (S (2 * k) < G)%nat -> False).
  { intros k Ek Hk. set (j := (2 * k)%nat) in *. pose proof (pair_domino j Hk ltac:(unfold j; rewrite Nat.even_mul; auto)) as D. destruct (ends_even k ltac:(lia)) as [EX EY]. fold j in EX, EY.
    destruct (ends_even (S k) ltac:(lia)) as [EX2 EY2]. replace (2 * S k)%nat with (S (S j)) in EX2, EY2 by (unfold j; lia).
    assert (E1 : Z.even (N - 1) = false) by (rewrite Z.even_sub, EN; auto).
    destruct (HR j ltac:(lia)) as [R1 R2]. destruct (HR (S j) ltac:(lia)) as [R3 R4].
    assert (PX : forall p c, evenR p -> (p = IZR c \/ p = IZR c + 1) -> c = (N - 1)%Z -> p = IZR N).
    { intros p c EP [H|H] ->; [exfalso; destruct (even_cell _ (N - 1) EP) as [H' _]; rewrite (H' H) in E1; discriminate E1|]. rewrite H, minus_IZR. ring. }
    assert (PY : forall p c, evenR p -> (p = IZR c \/ p = IZR c + 1) -> c = 0%Z -> p = 0).
    { intros p c EP [H|H] ->; [lra|exfalso; destruct (even_cell _ 0 EP) as [_ H']; specialize (H' H); discriminate H']. }
    unfold domino in D. destruct D as [(D0 & D1 & D2 & D3)|(D0 & D1 & D2 & D3)].
    - assert (Y0 : cy j = 0%Z) by (destruct Ek as [Ek|Ek]; rewrite Ek in *; congruence). pose proof (PY _ _ EY D2 Y0) as PY0.
      destruct D3 as [(D3 & D4 & D5)|(D3 & D4 & D5)].
      + destruct Ek as [Ek|Ek]; rewrite Ek in *; [lia|]. apply (FIN (S (S j))); [lia| |congruence]. rewrite D5, D3. assert (X : cx j = (N - 2)%Z) by lia. rewrite X, minus_IZR. ring.
      + destruct Ek as [Ek|Ek]; rewrite Ek in *; [|lia]. apply (FIN j); [lia| |congruence]. rewrite D3, C1, minus_IZR. ring.
    - assert (X0 : cx j = (N - 1)%Z) by (destruct Ek as [Ek|Ek]; rewrite Ek in *; congruence). pose proof (PX _ _ EX D2 X0) as PX0.
      destruct D3 as [(D3 & D4 & D5)|(D3 & D4 & D5)].
      + destruct Ek as [Ek|Ek]; rewrite Ek in *; [|lia]. apply (FIN j); [lia|auto|]. rewrite D3, C2. auto.
      + destruct Ek as [Ek|Ek]; rewrite Ek in *; [lia|]. apply (FIN (S (S j))); [lia|congruence|]. rewrite D5, D3. assert (X : cy j = 1%Z) by lia. rewrite X. ring. }
  destruct (Nat.even G) eqn:E; [destruct (EG eq_refl) as (k & A & B); eauto|].
  destruct (EG' eq_refl) as [(k & A & B)|EI]; [eauto|].
  (* G is odd: impossible to happen for even N, but the last cell has its corner point at its entrance *)
  assert (exists k, i = (2 * k)%nat) as (k & Ek).
  { assert (Nat.even i = true) by (rewrite <- EI, Nat.even_succ, <- Nat.negb_even in E; destruct (Nat.even i); auto; discriminate). apply Nat.even_spec in H. destruct H as (k & ->). eauto. }
  destruct (ends_even k ltac:(lia)) as [EX EY]. rewrite <- Ek in EX, EY. destruct (shape_of i Hi) as [(A & _ & _)|(_ & _ & B)]; [|exfalso; apply B; apply int_even; [lia|rewrite Ek, Nat.even_mul; auto]].
  destruct (shape_cases _ _ A) as (fx & fy & V & NN). injection V as V1 V2. apply (FIN i); [lia| |].
  - destruct fx; unfold flip in V1; rewrite C1, minus_IZR in V1; [lra|]. exfalso. destruct (even_cell _ (N - 1) EX) as [H' _]. rewrite Z.even_sub, EN in H'. assert (F : true = false); [|discriminate F]. symmetry. apply H'. rewrite minus_IZR. lra.
  - destruct fy; unfold flip in V2; rewrite C2 in V2; [|lra]. exfalso. destruct (even_cell _ 0 EY) as [_ H']. assert (F : true = false); [|discriminate F]. apply H'. lra.
Qed.
End NotHalf.
Lemma mixed : (x1 = 1 /\ x2 = / 2) \/ (x1 = / 2 /\ x2 = 1).
Proof.
  destruct opposite as (t & Ht & HT). destruct (Req_dec t (/ 2)) as [->|Hh]; [tauto|]. exfalso. destruct (Z.even N) eqn:E; [eapply even_case|eapply odd_case]; eauto.
Qed.
End Mixed.

(** ** The entrance and the exit are corners. *)
Section Corners.
Context (HE0 : e1 = 0 /\ e2 = 0) (HV : bit x1 /\ bit x2).
Lemma not_same : ~ (x1 = 0 /\ x2 = 0).
Proof.
  intros [Y1 Y2]. destruct HE as [A B]. destruct HE0 as [Z1 Z2]. rewrite Z1, Rmult_0_r in A. rewrite Z2, Rmult_0_r in B.
  assert (Q : px 1%nat = 0 /\ py 1%nat = 0).
  { destruct (HL 0 ltac:(lia)) as (s & fx & fy & H). cbv zeta in H. rewrite Z1, Z2, Y1, Y2 in H. unfold iso in H. cbn [fst snd] in H. destruct H as [[P Q]|[P Q]]; injection P as P1 P2; injection Q as Q1 Q2; destruct s; lra. }
  destruct Q as [Q1 Q2]. destruct (corner_end 1 0 0 ltac:(lia) (or_introl eq_refl) (or_introl eq_refl) Q1 Q2); lia.
Qed.
Lemma diag_odd : x1 = 1 -> x2 = 1 -> Z.even N = false.
Proof.
  intros Y1 Y2. destruct (Z.even N) eqn:EN; auto. exfalso. destruct HE0 as [Z1 Z2].
  (* parity of the points *)
  assert (PAR : forall k, (k <= G)%nat -> exists a b, px k = IZR a /\ py k = IZR b /\ Z.even a = Nat.even k /\ Z.even b = Nat.even k).
  { induction k; intros Hk.
    - exists 0%Z, 0%Z. destruct HE as [A B]. rewrite A, B, Z1, Z2. repeat split; ring.
    - destruct (IHk ltac:(lia)) as (a & b & A & B & PA & PB). rewrite Nat.even_succ, <- Nat.negb_even, <- PA.
      assert (ST : forall p q c, p = IZR c -> (q = p + 1 \/ q = p - 1) -> exists c', q = IZR c' /\ Z.even c' = negb (Z.even c)).
      { intros p q c -> [-> | ->]; [exists (c + 1)%Z; rewrite plus_IZR, Z.even_add|exists (c - 1)%Z; rewrite minus_IZR, Z.even_sub]; split; auto; destruct (Z.even c); auto. }
      destruct (HL k ltac:(lia)) as (s & fx & fy & H). cbv zeta in H. rewrite Z1, Z2, Y1, Y2 in H. unfold iso in H. cbn [fst snd] in H.
      assert (MV : (px (S k) = px k + 1 \/ px (S k) = px k - 1) /\ (py (S k) = py k + 1 \/ py (S k) = py k - 1)).
      { destruct H as [[P Q]|[P Q]]; injection P as P1 P2; injection Q as Q1 Q2; destruct s, fx, fy; unfold flip in *; lra. }
      destruct MV as [M1 M2]. destruct (ST _ _ _ A M1) as (a' & A1 & A2). destruct (ST _ _ _ B M2) as (b' & B1 & B2). exists a', b'. rewrite PA, <- PB, B2. rewrite A2, PA, PB. auto. }
  destruct (HS (N - 1) 0)%Z as (i & Hi & C1 & C2); try lia.
  assert (FIN : forall j, (j <= G)%nat -> px j = IZR N -> py j = 0 -> False).
  { intros j Hj A B. assert (NP : 0 < IZR N) by (apply (IZR_lt 0); lia). destruct (corner_end j N 0%Z Hj (or_intror eq_refl) (or_introl eq_refl) A B) as [-> | ->].
    - destruct HE as [C _]. rewrite Z1, A in C. lra.
    - destruct HX as [_ C]. rewrite Y2, B in C. lra. }
  destruct (PAR i ltac:(lia)) as (a & b & A & B & PA & PB). assert (PE : Z.even a = Z.even b) by congruence. clear PA PB.
  destruct (HL i Hi) as (s & fx & fy & H). cbv zeta in H. rewrite Z1, Z2, Y1, Y2, C1, C2 in H. unfold iso in H. cbn [fst snd] in H. rewrite minus_IZR in H.
  assert (K : (px i = IZR N - 1 \/ px i = IZR N) /\ (py i = 0 \/ py i = 1) /\ px (S i) = 2 * IZR N - 1 - px i /\ py (S i) = 1 - py i).
  { destruct H as [[P Q]|[P Q]]; injection P as P1 P2; injection Q as Q1 Q2; destruct s, fx, fy; unfold flip in *; repeat split; lra. }
  destruct K as (K1 & K2 & K3 & K4).
  assert (ON : Z.even (N - 1) = false) by (rewrite Z.even_sub, EN; auto).
  destruct K1 as [K1|K1]; destruct K2 as [K2|K2].
  - exfalso. rewrite A in K1. rewrite B in K2. rewrite <- minus_IZR in K1. apply eq_IZR in K1. apply (eq_IZR b 0) in K2. subst a b. rewrite ON in PE. discriminate PE.
  - apply (FIN (S i)); [lia|lra|lra].
  - apply (FIN i); [lia|auto|auto].
  - exfalso. rewrite A in K1. rewrite B in K2. apply eq_IZR in K1. apply (eq_IZR b 1) in K2. subst a b. rewrite EN in PE. discriminate PE.
Qed.
End Corners.

(** ** Neither the entrance nor the exit is a corner. *)
Section Sides.
Context (HNE : ~ (bit e1 /\ bit e2)) (HNX : ~ (bit x1 /\ bit x2)) (HGN : Nat.even G = Z.even N).
(** the point is on a vertical (horizontal) line only *)
Definition onx (k : nat) : Prop := isint (px k) /\ ~ isint (py k).
Definition ony (k : nat) : Prop := isint (py k) /\ ~ isint (px k).
Lemma side_point i k : (i < G)%nat -> (k = i \/ k = S i) ->
  exists a1 a2, ((a1 = e1 /\ a2 = e2) \/ (a1 = x1 /\ a2 = x2)) /\ exists s : bool, (isint (px k) <-> bit (if s then a2 else a1)) /\ (isint (py k) <-> bit (if s then a1 else a2)).
Proof.
  intros Hi Hk. destruct (HL i Hi) as (s & fx & fy & H). cbv zeta in H. destruct (HU i Hi) as (U1 & U2 & U3 & U4).
  assert (EQ : exists a, ((fst a = e1 /\ snd a = e2) \/ (fst a = x1 /\ snd a = x2)) /\ (px k - IZR (cx i), py k - IZR (cy i)) = iso s fx fy a).
  { destruct Hk as [-> | ->]; destruct H as [[P Q]|[P Q]]; [exists (e1, e2)|exists (x1, x2)|exists (x1, x2)|exists (e1, e2)]; cbn [fst snd]; auto. }
  destruct EQ as (a & EA & EQ). exists (fst a), (snd a). split; auto. exists s. unfold iso in EQ. injection EQ as E1 E2.
  assert (W1 : 0 <= px k - IZR (cx i) <= 1) by (destruct Hk as [-> | ->]; auto). assert (W2 : 0 <= py k - IZR (cy i) <= 1) by (destruct Hk as [-> | ->]; auto).
  split; [rewrite <- (flip_bit fx), <- E1|rewrite <- (flip_bit fy), <- E2]; (split; [apply isint_bit; auto|apply bit_isint]).
Qed.
Lemma side_type i k : (i < G)%nat -> (k = i \/ k = S i) -> onx k \/ ony k.
Proof.
  intros Hi Hk. destruct (side_point i k Hi Hk) as (a1 & a2 & HA & s & I1 & I2). unfold onx, ony. destruct on_edge as [O1 O2].
  destruct HA as [[-> ->]|[-> ->]]; destruct s; rewrite I1, I2; tauto.
Qed.
Lemma not_both k : onx k -> ony k -> False. Proof. unfold onx, ony. tauto. Qed.
(** the entrance and the exit of the square are on perpendicular sides *)
Definition perp : Prop := (bit e1 /\ ~ bit e2 /\ bit x2 /\ ~ bit x1) \/ (bit e2 /\ ~ bit e1 /\ bit x1 /\ ~ bit x2).
Lemma perp_cell i : (i < G)%nat -> perp <-> (onx i /\ ony (S i)) \/ (ony i /\ onx (S i)).
Proof.
  intros Hi. destruct (HL i Hi) as (s & fx & fy & H). cbv zeta in H. destruct (HU i Hi) as (U1 & U2 & U3 & U4).
  assert (K : forall r c v, 0 <= r - IZR c <= 1 -> r - IZR c = v -> (isint r <-> bit v)).
  { intros r c v Hr E. rewrite <- E. split; [apply isint_bit; auto|apply bit_isint]. }
  unfold iso in H. cbn [fst snd] in H. unfold onx, ony, perp.
  destruct H as [[P Q]|[P Q]]; injection P as P1 P2; injection Q as Q1 Q2; rewrite (K _ _ _ U1 P1), (K _ _ _ U2 P2), (K _ _ _ U3 Q1), (K _ _ _ U4 Q2), !flip_bit; destruct s; tauto.
Qed.
(** a corner cell in the middle of the walk *)
Lemma middle_corner : exists i, (0 < i)%nat /\ (S i < G)%nat /\ (cx i = 0 \/ cx i = N - 1)%Z /\ (cy i = 0 \/ cy i = N - 1)%Z.
Proof.
  destruct (HS 0 0)%Z as (a & Ha & A1 & A2); try lia. destruct (HS 0 (N - 1))%Z as (b & Hb & B1 & B2); try lia. destruct (HS (N - 1) 0)%Z as (c & Hc & C1 & C2); try lia.
  assert (a <> b) by (intros ->; lia). assert (a <> c) by (intros ->; lia). assert (b <> c) by (intros ->; lia).
  assert (D : ((a <> 0 /\ S a <> G) \/ (b <> 0 /\ S b <> G) \/ (c <> 0 /\ S c <> G))%nat) by lia.
  destruct D as [D|[D|D]]; [exists a|exists b|exists c]; repeat split; try lia; auto.
Qed.
Lemma cross_y k : (S k < G)%nat -> ~ isint (px (S k)) -> cx (S k) = cx k /\ ((cy (S k) = cy k - 1)%Z \/ (cy (S k) = cy k + 1)%Z).
Proof.
  intros Hk HNI. destruct (HU k ltac:(lia)) as (_ & _ & A1 & A2). destruct (HU (S k) ltac:(lia)) as (B1 & B2 & _).
  assert (EY : cx (S k) = cx k).
  { destruct (Z.eq_dec (cx k) (cx (S k))) as [E'|E']; auto. exfalso. apply HNI. destruct (apart _ _ _ E' A1 B1) as [[X _]|[X _]]; [exists (cx k); auto|exists (cx k + 1)%Z; rewrite plus_IZR; auto]. }
  split; auto. assert (NE : cy k <> cy (S k)). { intros E. assert (X : k = S k); [|lia]. apply HI; auto; lia. }
  destruct (apart _ _ _ NE A2 B2) as [[X Y]|[X Y]]; auto.
Qed.
Lemma is_perp : perp.
Proof.
  destruct middle_corner as (i & H0 & H1 & C1 & C2). rewrite (perp_cell i) by lia. destruct i as [|i]; [lia|].
  destruct (HR i ltac:(lia)) as [R1 R2]. destruct (HR (S (S i)) ltac:(lia)) as [R3 R4].
  destruct (side_type (S i) (S i) ltac:(lia) ltac:(auto)) as [T1|T1]; destruct (side_type (S i) (S (S i)) ltac:(lia) ltac:(auto)) as [T2|T2]; auto; exfalso.
  - destruct T1 as [_ T1], T2 as [_ T2]. destruct (cross_x i ltac:(lia) T1) as [Y1 X1]. destruct (cross_x (S i) ltac:(lia) T2) as [Y2 X2].
    assert (E : i = S (S i)); [|lia]. apply HI; try lia.
  - destruct T1 as [_ T1], T2 as [_ T2]. destruct (cross_y i ltac:(lia) T1) as [Y1 X1]. destruct (cross_y (S i) ltac:(lia) T2) as [Y2 X2].
    assert (E : i = S (S i)); [|lia]. apply HI; try lia.
Qed.
Lemma alternate : bit e1 -> forall k, (k <= G)%nat -> (Nat.even k = true -> onx k) /\ (Nat.even k = false -> ony k).
Proof.
  intros B1. assert (T0 : onx 0).
  { destruct HE as [A B]. destruct (side_type 0 0 ltac:(lia) ltac:(auto)) as [T|T]; auto. exfalso. destruct T as [_ T]. apply T. rewrite A. destruct B1 as [-> | ->]; [exists 0%Z|exists N]; ring. }
  induction k; intros Hk; [split; [auto|discriminate]|]. destruct (IHk ltac:(lia)) as [I1 I2]. rewrite Nat.even_succ, <- Nat.negb_even.
  pose proof (proj1 (perp_cell k ltac:(lia)) is_perp) as P. destruct (Nat.even k); cbn; split; intros X; try discriminate X.
  - destruct P as [[_ P]|[P _]]; auto. exfalso. exact (not_both k (I1 eq_refl) P).
  - destruct P as [[P _]|[_ P]]; auto. exfalso. exact (not_both k P (I2 eq_refl)).
Qed.
(** N is odd: the rows cannot be divided into pairs *)
Lemma no_sides_x : bit e1 -> False.
Proof.
  intros B1. pose proof (alternate B1) as AL. pose proof is_perp as PP. assert (BX : ~ bit x1 /\ bit x2) by (unfold perp in PP; tauto).
  destruct (Nat.even G) eqn:EG.
  { destruct (AL G ltac:(lia)) as [A _]. specialize (A EG). destruct A as [_ A]. apply A. destruct HX as [_ C]. rewrite C. destruct BX as [_ [-> | ->]]; [exists 0%Z|exists N]; ring. }
  (* a row without the first cell *)
  assert (exists y, (0 <= y < N)%Z /\ y <> cy 0) as (y & Hy & Ny) by (destruct (Z.eq_dec (cy 0) 0); [exists 1%Z|exists 0%Z]; lia).
  (* partners *)
  assert (PART : forall i, (0 < i)%nat -> (i < G)%nat -> exists j, (0 < j)%nat /\ (j < G)%nat /\ cy j = cy i /\ (cx j = cx i - 1 \/ cx j = cx i + 1)%Z /\ (Nat.odd i = true -> j = S i) /\ (Nat.odd i = false -> i = S j)).
  { intros i H0 Hi. destruct (Nat.odd i) eqn:Oi.
    - assert (S i < G)%nat. { destruct (Nat.eq_dec (S i) G) as [E|E]; [|lia]. exfalso. rewrite <- E, Nat.even_succ, Oi in EG. discriminate EG. }
      exists (S i). destruct (AL (S i) ltac:(lia)) as [A _]. rewrite Nat.even_succ in A. destruct (A Oi) as [_ A']. destruct (cross_x i ltac:(lia) A') as [C1 C2]. repeat split; try lia; intros X; discriminate X.
    - destruct i as [|i]; [lia|]. destruct (Nat.eq_dec i 0) as [->|]; [discriminate Oi|]. exists i. destruct (AL (S i) ltac:(lia)) as [A _]. rewrite <- Nat.negb_odd, Oi in A. destruct (A eq_refl) as [_ A'].
      destruct (cross_x i ltac:(lia) A') as [C1 C2]. repeat split; try lia; intros X; discriminate X. }
  assert (PINV : forall i j j', (Nat.odd i = true -> j = S i) /\ (Nat.odd i = false -> i = S j) -> (Nat.odd j = true -> j' = S j) /\ (Nat.odd j = false -> j = S j') -> j' = i).
  { intros i j j' [A1 A2] [B1' B2]. destruct (Nat.odd i) eqn:Oi.
    - specialize (A1 eq_refl). subst j. rewrite Nat.odd_succ, <- Nat.negb_odd, Oi in B2. specialize (B2 eq_refl). lia.
    - specialize (A2 eq_refl). subst i. rewrite Nat.odd_succ, <- Nat.negb_odd in Oi. destruct (Nat.odd j); [|discriminate Oi]. auto. }
  (* the cell of column x and its partner *)
  assert (ROW : forall n, (2 * Z.of_nat n < N)%Z -> exists i j, (0 < i)%nat /\ (i < G)%nat /\ (0 < j)%nat /\ (j < G)%nat /\ cy i = y /\ cx i = (2 * Z.of_nat n)%Z /\ cy j = y /\ cx j = (2 * Z.of_nat n + 1)%Z /\
     ((Nat.odd i = true -> j = S i) /\ (Nat.odd i = false -> i = S j))).
  { induction n; intros Hn.
    - destruct (HS 0%Z y) as (i & Hi & C1 & C2); try lia. assert (0 < i)%nat by (destruct i; [congruence|lia]). destruct (PART i ltac:(lia) Hi) as (j & J1 & J2 & J3 & J4 & J5).
      destruct (HR j J2) as [R1 R2]. exists i, j. repeat split; try lia; apply J5.
    - destruct (IHn ltac:(lia)) as (a & b & A1 & A2 & A3 & A4 & A5 & A6 & A7 & A8 & A9).
      destruct (HS (2 * Z.of_nat (S n))%Z y) as (i & Hi & C1 & C2); try lia. assert (0 < i)%nat by (destruct i; [congruence|lia]). destruct (PART i ltac:(lia) Hi) as (j & J1 & J2 & J3 & J4 & J5).
      exists i, j. assert (cx j = 2 * Z.of_nat (S n) + 1)%Z; [|repeat split; try lia; apply J5]. destruct J4 as [J4|J4]; [|lia]. exfalso.
      assert (j = b) by (apply HI; lia). subst j. destruct (PART b A3 A4) as (c & K1 & K2 & K3 & K4 & K5).
      assert (c = a) by (apply (PINV a b c A9 K5)). assert (c = i) by (apply (PINV i b c J5 K5)). rewrite <- H1, H0, A6 in C1. lia. }
  rewrite HGN in EG. assert (ON : exists n, N = (2 * Z.of_nat n + 1)%Z).
  { destruct (Z.Even_or_Odd N) as [(z & Hz)|(z & Hz)]; [exfalso; assert (X : Z.even N = true) by (apply Z.even_spec; exists z; exact Hz); congruence|exists (Z.to_nat z); lia]. }
  destruct ON as (n & HO). destruct (ROW n ltac:(lia)) as (i & j & _ & _ & _ & J & _ & _ & _ & C & _). destruct (HR j J) as [R1 _]. lia.
Qed.
End Sides.
End Points.
End Walk.

(** A walk with all its conditions. *)
Record walk (N : Z) (G : nat) (cx cy : nat -> Z) (px py : nat -> R) (e1 e2 x1 x2 : R) : Prop := {
  wk_N : (2 <= N)%Z; wk_G : (4 <= G)%nat; wk_par : Nat.even G = Z.even N;
  wk_range : forall i, (i < G)%nat -> (0 <= cx i < N)%Z /\ (0 <= cy i < N)%Z;
  wk_inj : forall i j, (i < G)%nat -> (j < G)%nat -> cx i = cx j -> cy i = cy j -> i = j;
  wk_surj : forall x y, (0 <= x < N)%Z -> (0 <= y < N)%Z -> exists i, (i < G)%nat /\ cx i = x /\ cy i = y;
  wk_in : forall i, (i < G)%nat -> 0 <= px i - IZR (cx i) <= 1 /\ 0 <= py i - IZR (cy i) <= 1 /\
                                   0 <= px (S i) - IZR (cx i) <= 1 /\ 0 <= py (S i) - IZR (cy i) <= 1;
  wk_start : px 0%nat = IZR N * e1 /\ py 0%nat = IZR N * e2; wk_end : px G = IZR N * x1 /\ py G = IZR N * x2;
  wk_e : 0 <= e1 <= 1 /\ 0 <= e2 <= 1; wk_x : 0 <= x1 <= 1 /\ 0 <= x2 <= 1;
  wk_link : forall i, (i < G)%nat -> exists s fx fy, let a := iso s fx fy (e1, e2) in let b := iso s fx fy (x1, x2) in
    let p := (px i - IZR (cx i), py i - IZR (cy i)) in let q := (px (S i) - IZR (cx i), py (S i) - IZR (cy i)) in (p = a /\ q = b) \/ (p = b /\ q = a) }.
Section WalkEnd.
Context (N : Z) (G : nat) (cx cy : nat -> Z) (px py : nat -> R) (e1 e2 x1 x2 : R) (W : walk N G cx cy px py e1 e2 x1 x2).
Lemma walk_edge : (bit e1 \/ bit e2) /\ (bit x1 \/ bit x2).
Proof. destruct W. apply (on_edge N) with (G := G) (cx := cx) (cy := cy) (px := px) (py := py); auto. Qed.
Lemma walk_swap : walk N G cy cx py px e2 e1 x2 x1.
Proof.
  destruct W as [W1 W2 W3 W4 W5 W6 W7 W8 W9 Wa Wb Wc]. constructor; auto; try tauto.
  - intros i Hi. destruct (W4 i Hi). auto.
  - intros x y Hx Hy. destruct (W6 y x Hy Hx) as (i & A1 & A2 & A3). eauto.
  - intros i Hi. destruct (W7 i Hi) as (A1 & A2 & A3 & A4). auto.
  - intros i Hi. destruct (Wc i Hi) as (s & fx & fy & H). cbv zeta in H. exists s, fy, fx. unfold iso in *. cbn [fst snd] in *. destruct H as [[P Q]|[P Q]]; injection P as -> ->; injection Q as -> ->; [left|right]; destruct s; auto.
Qed.
Lemma walk_mixed : e1 = 0 /\ e2 = 0 -> ~ (bit x1 /\ bit x2) -> (x1 = 1 /\ x2 = / 2) \/ (x1 = / 2 /\ x2 = 1).
Proof. intros A B. destruct W. apply (mixed N) with (G := G) (cx := cx) (cy := cy) (px := px) (py := py) (e1 := e1) (e2 := e2); auto. Qed.
Lemma walk_not_same : e1 = 0 /\ e2 = 0 -> ~ (x1 = 0 /\ x2 = 0).
Proof. intros A. destruct W. apply (not_same N) with (G := G) (cx := cx) (cy := cy) (px := px) (py := py) (e1 := e1) (e2 := e2); auto. Qed.
Lemma walk_diag : e1 = 0 /\ e2 = 0 -> x1 = 1 -> x2 = 1 -> Z.even N = false.
Proof. intros A B C. destruct W. apply (diag_odd N) with (G := G) (cx := cx) (cy := cy) (px := px) (py := py) (e1 := e1) (e2 := e2) (x1 := x1) (x2 := x2); auto. Qed.
Lemma walk_sides_x : bit e1 -> ~ (bit e1 /\ bit e2) -> ~ (bit x1 /\ bit x2) -> False.
Proof. intros A B C. destruct W. apply (no_sides_x N) with (G := G) (cx := cx) (cy := cy) (px := px) (py := py) (e1 := e1) (e2 := e2) (x1 := x1) (x2 := x2); auto. Qed.
End WalkEnd.
Lemma walk_sides N G cx cy px py e1 e2 x1 x2 : walk N G cx cy px py e1 e2 x1 x2 -> ~ (bit e1 /\ bit e2) -> ~ (bit x1 /\ bit x2) -> False.
Proof.
  intros W A B. destruct (walk_edge _ _ _ _ _ _ _ _ _ _ W) as [[E|E] _]; [eapply walk_sides_x; eauto|]. eapply walk_sides_x; [eapply walk_swap; eauto|auto|tauto|tauto].
Qed.
