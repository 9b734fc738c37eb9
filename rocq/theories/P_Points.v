(** Proofs about Point.divide, gen_neighbours, map_to_cube (subsets.py). *)
From Verif Require Import Py L_Py L_Qc M_BaseMaps L_BaseMaps P_GenMaps M_Subsets S_BaseMaps S_Utils S_Subsets P_Actions P_Utils P_Subsets.
From Coq Require Import Permutation.
Local Open Scope nat_scope.

Lemma Zq_le_iff r x : (Zq r <= x)%Qc <-> (r * Zpos (Qden (this x)) <= Qnum (this x))%Z.
Proof. unfold Qcle. rewrite this_Zq. unfold Qle, inject_Z. cbn [Qnum Qden]. lia. Qed.
Lemma le_Zq_iff r x : (x <= Zq r)%Qc <-> (Qnum (this x) <= r * Zpos (Qden (this x)))%Z.
Proof. unfold Qcle. rewrite this_Zq. unfold Qle, inject_Z. cbn [Qnum Qden]. lia. Qed.
Lemma In_int_range r x : In r (int_range x) <-> (Zq r <= x)%Qc /\ (x <= Zq r + 1)%Qc.
Proof.
  change 1%Qc with (Zq 1). rewrite <- Zq_add, Zq_le_iff, le_Zq_iff. unfold int_range.
  set (n := Qnum (this x)). set (d := Zpos (Qden (this x))). assert (0 < d)%Z by (unfold d; lia).
  pose proof (Z.div_mod n d ltac:(lia)). pose proof (Z.mod_pos_bound n d ltac:(lia)).
  destruct (Z.eqb_spec (n mod d) 0) as [E|E]; cbn [In]; split; intros HH.
  - destruct HH as [HH | [HH | []]]; nia.
  - assert (r = n / d - 1 \/ r = n / d)%Z by nia. lia.
  - destruct HH as [HH | []]; nia.
  - left. nia.
Qed.
Lemma NoDup_int_range x : NoDup (int_range x).
Proof. unfold int_range. destruct (_ =? _)%Z; repeat constructor; cbn; lia || tauto || auto. Qed.

Lemma pt_shift_cons s sh x p : pt_shift (s :: sh) (x :: p) = (x + s)%Qc :: pt_shift sh p.
Proof.
  unfold pt_shift, enumerate. cbn [length seq combine map fst snd nth]. f_equal.
  rewrite <- seq_shift. generalize (seq 0 (length p)) as l. intros l. revert p.
  induction l as [|k l IH]; intros [|y p]; cbn; auto. f_equal. apply IH.
Qed.
Lemma pt_shift_nil sh : pt_shift sh [] = []. Proof. reflexivity. Qed.
Lemma length_pt_shift sh p : length (pt_shift sh p) = length p.
Proof. unfold pt_shift. rewrite map_length. apply enumerate_length. Qed.

Lemma place_in_cons div c cube x xs y ys : place_in div (c :: cube) (x :: xs) (y :: ys) <->
  (y * Nq div = x + Zq c)%Qc /\ place_in div cube xs ys.
Proof.
  unfold place_in. cbn. split.
  - intros [HF HL]. inversion HF; subst; cbn in *. auto.
  - intros [H [HF HL]]. split; auto.
Qed.
Lemma Nq_pos n : 1 <= n -> (0 < Nq n)%Qc.
Proof. intros. unfold Nq. rewrite <- Zq_0. apply Zq_lt. lia. Qed.
Lemma Nq_neq0 n : 1 <= n -> Nq n <> 0%Qc.
Proof. intros H E. apply Nq_pos in H. rewrite E in H. apply (Qcle_not_lt 0 0); auto. apply Qcle_refl. Qed.

(** q = p * div - cube *)
Lemma divide_pos div : forall p c, length c = length p -> 
  place_in div c (pt_shift (map (fun z => Zq (- z)) c) (pt_scale (Nq div) p)) p.
Proof.
  induction p as [|x p IH]; intros [|z c] HL; try discriminate; cbn [length] in *.
  - split; [constructor|auto].
  - unfold pt_scale. cbn [map]. fold (pt_scale (Nq div) p). rewrite pt_shift_cons. apply place_in_cons. split; [|apply IH; lia].
    rewrite Zq_opp. ring.
Qed.
Lemma place_in_unique div : 1 <= div -> forall c q q' p, place_in div c q p -> place_in div c q' p -> q = q'.
Proof.
  intros Hd. induction c as [|z c IH]; intros q q' p H H'.
  - destruct H as [_ H], H' as [_ H']. destruct q, q'; cbn in *; try discriminate; auto.
  - destruct q as [|x q], q' as [|x' q'], p as [|y p]; try (destruct H as [_ H]; discriminate H);
      try (destruct H' as [_ H']; discriminate H').
    + destruct H as [H _]. inversion H.
    + apply place_in_cons in H as [E H], H' as [E' H']. f_equal; [|eapply IH; eauto].
      rewrite E in E'. clear - E'. qclra.
Qed.
Lemma in_scaled div c p : in_cube (Z.of_nat div) c p <-> Forall2 (fun a l => In a l) c (map int_range (pt_scale (Nq div) p)).
Proof.
  unfold in_cube, pt_scale. rewrite map_map, Forall2_map_r.
  split; intros H; (eapply Forall2_impl'; [|exact H]); cbn; intros a b; rewrite In_int_range; auto.
Qed.
Lemma existsb_range div c : existsb (fun z => (z <? 0)%Z || (Z.of_nat div <=? z)%Z) c = false <->
  Forall (fun z => 0 <= z < Z.of_nat div)%Z c.
Proof.
  induction c; cbn; [split; auto|]. rewrite orb_false_iff, IHc, orb_false_iff, Z.ltb_ge, Z.leb_gt. split.
  - intros [? ?]; constructor; auto.
  - intros H; inversion H; subst. split; auto.
Qed.
Lemma place_in_length div c q p : place_in div c q p -> length c = length q /\ length c = length p.
Proof. intros [HF HL]. split; auto. apply Forall2_length in HF. rewrite combine_length in HF. lia. Qed.
Lemma place_in_cube div : 1 <= div -> forall c q p, place_in div c q p -> (in_cube (Z.of_nat div) c p <-> in_cube01 1 q).
Proof.
  intros Hd. induction c as [|z c IH]; intros q p H; destruct (place_in_length _ _ _ _ H) as [L1 L2];
    destruct q as [|x q], p as [|y p]; try discriminate.
  - split; constructor.
  - apply place_in_cons in H as [E H]. apply IH in H. unfold in_cube, in_cube01 in *.
    change (Zq (Z.of_nat div)) with (Nq div) in *. split; intros HH; inversion HH; subst.
    + constructor; [|tauto]. rewrite E in H3. destruct H3. split; qclra.
    + constructor; [|tauto]. rewrite E. destruct H2. split; qclra.
Qed.

Lemma pt_divide_exact div p : 1 <= div ->
  NoDup (map fst (pt_divide div p)) /\
  forall c q, In (c, q) (pt_divide div p) <->
    Forall (fun z => 0 <= z < Z.of_nat div)%Z c /\ in_cube (Z.of_nat div) c p /\ place_in div c q p.
Proof.
  intros Hd. unfold pt_divide. set (sc := pt_scale (Nq div) p). split.
  - rewrite flat_map_concat_map, concat_map, map_map, <- flat_map_concat_map.
    replace (flat_map _ _) with (filter (fun c => negb (existsb (fun z => (z <? 0)%Z || (Z.of_nat div <=? z)%Z) c)) (gen_integer_cubes sc)).
    + apply NoDup_filter. unfold gen_integer_cubes. apply NoDup_lprod. apply Forall_forall. intros l Hl.
      apply in_map_iff in Hl as (x & <- & _). apply NoDup_int_range.
    + induction (gen_integer_cubes sc) as [|c l IH]; cbn; auto.
      destruct (existsb _ c); cbn; [auto|]. f_equal. auto.
  - intros c q. rewrite in_flat_map. unfold gen_integer_cubes. split.
    + intros (c' & Hc & Hin). destruct (existsb _ c') eqn:E; [contradiction|]. destruct Hin as [Hin | []]. inversion Hin; subst c' q.
      apply existsb_range in E. apply In_lprod in Hc. apply in_scaled in Hc. split; auto. split; auto.
      apply divide_pos. apply Forall2_length in Hc. auto.
    + intros (Hr & Hc & Hp). exists c. split; [apply In_lprod, in_scaled; auto|]. apply existsb_range in Hr. rewrite Hr.
      left. f_equal. eapply place_in_unique; eauto. apply divide_pos. apply Forall2_length in Hc. auto.
Qed.
Lemma pt_scale_1 p : pt_scale (Nq 1) p = p.
Proof. unfold pt_scale. rewrite <- (map_id p) at 2. apply map_ext. intros. change (Nq 1) with 1%Qc. ring. Qed.
Lemma all_zero c : forallb (fun z => (z =? 0)%Z) c = true <-> Forall (fun z => z = 0%Z) c.
Proof. rewrite forallb_forall, Forall_forall. split; intros H x Hx; specialize (H x Hx); lia. Qed.
Lemma pt_neighbours_exact p :
  NoDup (map fst (pt_neighbours p)) /\
  forall c q, In (c, q) (pt_neighbours p) <->
    ~ Forall (fun z => z = 0%Z) c /\ in_cube 1 c p /\ place_in 1 c q p.
Proof.
  unfold pt_neighbours. split.
  - rewrite flat_map_concat_map, concat_map, map_map, <- flat_map_concat_map.
    replace (flat_map _ _) with (filter (fun c => negb (forallb (fun z => (z =? 0)%Z) c)) (gen_integer_cubes p)).
    + apply NoDup_filter. unfold gen_integer_cubes. apply NoDup_lprod. apply Forall_forall. intros l Hl.
      apply in_map_iff in Hl as (x & <- & _). apply NoDup_int_range.
    + induction (gen_integer_cubes p) as [|c l IH]; cbn; auto.
      destruct (forallb _ c); cbn; [auto|]. f_equal. auto.
  - intros c q. rewrite in_flat_map. unfold gen_integer_cubes. rewrite <- all_zero. change 1%Z with (Z.of_nat 1). split.
    + intros (c' & Hc & Hin). destruct (forallb _ c') eqn:E; [contradiction|]. destruct Hin as [Hin | []]. inversion Hin; subst c' q.
      apply In_lprod in Hc. rewrite <- (pt_scale_1 p) in Hc. apply (in_scaled 1) in Hc. split; [congruence|]. split; auto.
      rewrite <- (pt_scale_1 p) at 1. apply divide_pos. apply Forall2_length in Hc. auto.
    + intros (Hr & Hc & Hp). exists c. split; [apply In_lprod; rewrite <- (pt_scale_1 p); apply in_scaled; auto|].
      destruct (forallb _ c); [tauto|].
      left. f_equal. eapply place_in_unique; eauto. rewrite <- (pt_scale_1 p) at 1. apply divide_pos. apply Forall2_length in Hc. auto.
Qed.
Lemma pt_map_to_cube_exact div : 1 <= div -> forall c q, length c = length q ->
  forall p, pt_map_to_cube div c q = p <-> place_in div c q p.
Proof.
  intros Hd c q. unfold pt_map_to_cube, pt_scale. pose proof (Nq_neq0 div Hd) as HN. revert q.
  induction c as [|z c IH]; intros [|x q] HL p; try discriminate.
  - cbn. split.
    + intros <-. split; [constructor|auto].
    + intros [HF _]. inversion HF. auto.
  - cbn [map]. rewrite pt_shift_cons. cbn [map]. destruct p as [|y p].
    + split; [discriminate|]. intros [HF _]. inversion HF.
    + rewrite place_in_cons, <- IH by (cbn in HL; lia). split.
      * intros E. inversion E; subst. split; auto. field; auto.
      * intros [E <-]. f_equal. rewrite <- E. field; auto.
Qed.
