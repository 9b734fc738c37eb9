(** The heapq algorithms of the standard library meet the contract of S_Heap.v. *)
From Verif Require Import Py L_Py L_Qc M_Heap M_Heapq S_Heap P_Heap.
From Coq Require Import Lia Permutation.
Local Open Scope nat_scope.

Section Heapq.
Context {T : Type}.
Notation le a b := (node_ltb b a = false).
Definition par (i : nat) : nat := (i - 1) / 2.
Lemma par_lt i : 0 < i -> par i < i.
Proof. intros. unfold par. pose proof (Nat.div_lt_upper_bound (i - 1) 2 i). lia. Qed.
Lemma par_children i p : 0 < i -> par i = p <-> i = 2 * p + 1 \/ i = 2 * p + 2.
Proof.
  intros H. unfold par. pose proof (Nat.div_mod (i - 1) 2 ltac:(lia)). pose proof (Nat.mod_upper_bound (i - 1) 2 ltac:(lia)). split; [lia|]. intro E.
  assert (i - 1 = 2 * p + (i - 1 - 2 * p)) by lia. symmetry. apply (Nat.div_unique (i - 1) 2 p (i - 1 - 2 * p)); lia.
Qed.
Lemma le_refl (a : node T) : le a a.
Proof. destruct (node_ltb a a) eqn:E; auto. pose proof (node_asym _ _ E). congruence. Qed.

Variable d : node T.
Notation "h @ i" := (nth i h d) (at level 9).
(** being a heap *)
Definition heap (h : list (node T)) : Prop := forall i, 0 < i < length h -> le (h @ (par i)) (h @ i).
Lemma upd_perm i v (l : list (node T)) : i < length l -> Permutation (l @ i :: upd i v l) (v :: l).
Proof.
  revert i. induction l as [|a l IH]; intros [|i] H; cbn in *; try lia; [apply perm_swap|].
  rewrite perm_swap. rewrite (IH i) by lia. apply perm_swap.
Qed.
Lemma move_perm i j x (h : list (node T)) : i <> j -> i < length h -> j < length h -> Permutation (upd j x (upd i (h @ j) h)) (upd i x h).
Proof.
  intros N Hi Hj. set (h1 := upd i (h @ j) h). assert (E : h1 @ j = h @ j) by (apply nth_upd_ne; auto).
  pose proof (upd_perm j x h1) as P1. unfold h1 in P1 at 1. rewrite length_upd in P1. specialize (P1 Hj). rewrite E in P1.
  pose proof (upd_perm i (h @ j) h Hi) as P2. fold h1 in P2. pose proof (upd_perm i x h Hi) as P3.
  apply (Permutation_cons_inv (a := h @ j)). apply (Permutation_cons_inv (a := h @ i)).
  rewrite P1. rewrite perm_swap. rewrite P2. rewrite (perm_swap (h @ j) (h @ i)). rewrite P3. apply perm_swap.
Qed.

(** the virtual list, with the new item in the hole *)
Definition inv_down (H : list (node T)) (pos : nat) : Prop :=
  (forall i, 0 < i < length H -> i <> pos -> le (H @ (par i)) (H @ i)) /\
  (forall i, 0 < i < length H -> par i = pos -> 0 < pos -> le (H @ (par pos)) (H @ i)).
Lemma siftdown_ok x : forall fuel h pos, pos <= fuel -> pos < length h -> inv_down (upd pos x h) pos ->
  heap (siftdown fuel h pos x) /\ Permutation (siftdown fuel h pos x) (upd pos x h).
Proof.
  assert (DONE : forall h pos, pos < length h -> inv_down (upd pos x h) pos -> (0 < pos -> le (h @ (par pos)) x) -> heap (upd pos x h)).
  { intros h pos Hp [I1 I2] HL i Hi. destruct (Nat.eq_dec i pos) as [->|N]; [|apply I1; auto]. rewrite nth_upd_eq by auto. pose proof (par_lt pos ltac:(lia)). rewrite nth_upd_ne by lia. apply HL. lia. }
  induction fuel as [|fuel IH]; intros h pos Hf Hp HI; cbn [siftdown].
  - split; auto. apply DONE; auto. lia.
  - destruct (Nat.ltb_spec 0 pos) as [H0|H0]; [|split; auto; apply DONE; auto; lia]. fold (par pos). pose proof (par_lt pos H0) as HP. rewrite (nth_error_nth' h d) by lia. destruct (node_ltb x (h @ (par pos))) eqn:E; [|split; auto].
    assert (HX : inv_down (upd (par pos) x (upd pos (h @ (par pos)) h)) (par pos)).
    { destruct HI as [I1 I2]. rewrite length_upd in I1, I2. pose proof (node_asym _ _ E) as E'.
      assert (V : forall i, i <> pos -> i <> par pos -> (upd (par pos) x (upd pos (h @ (par pos)) h)) @ i = (upd pos x h) @ i) by (intros; rewrite !nth_upd_ne; auto).
      assert (Vp : (upd (par pos) x (upd pos (h @ (par pos)) h)) @ pos = h @ (par pos)) by (rewrite nth_upd_ne by lia; apply nth_upd_eq; auto).
      assert (Vq : (upd (par pos) x (upd pos (h @ (par pos)) h)) @ (par pos) = x) by (apply nth_upd_eq; rewrite length_upd; lia).
      assert (Wp : (upd pos x h) @ pos = x) by (apply nth_upd_eq; auto). assert (Wq : (upd pos x h) @ (par pos) = h @ (par pos)) by (apply nth_upd_ne; lia).
      split; rewrite !length_upd.
      - intros i Hi Hn. destruct (Nat.eq_dec i pos) as [->|N1]; [rewrite Vp, Vq; auto|]. specialize (I1 i Hi N1). pose proof (par_lt i ltac:(lia)).
        destruct (Nat.eq_dec (par i) pos) as [Ep|N2]; [rewrite Ep, Vp, (V i) by auto; rewrite <- Wq; apply I2; auto|]. destruct (Nat.eq_dec (par i) (par pos)) as [Eq|N3]; [|rewrite !V by auto; auto].
        rewrite Eq, Vq, (V i) by auto. rewrite Eq, Wq in I1. eapply node_trans; eauto.
      - intros i Hi Ei Hq. pose proof (par_lt (par pos) Hq). rewrite (V (par (par pos))) by lia. assert (X : le ((upd pos x h) @ (par (par pos))) (h @ (par pos))) by (rewrite <- Wq; apply I1; lia).
        destruct (Nat.eq_dec i pos) as [->|N1]; [rewrite Vp; auto|]. pose proof (par_lt i ltac:(lia)). rewrite (V i) by lia. specialize (I1 i Hi N1). rewrite Ei, Wq in I1. eapply node_trans; eauto. }
    destruct (IH (upd pos (h @ (par pos)) h) (par pos)) as [A B]; auto; [lia|rewrite length_upd; lia|]. split; auto. rewrite B. apply move_perm; lia.
Qed.
Lemma push_ok l n : heap l -> heap (heappush l n) /\ Permutation (heappush l n) (n :: l).
Proof.
  intros HL. unfold heappush. assert (E : upd (length l) n (l ++ [n]) = l ++ [n]) by (clear; induction l as [|a l IH]; cbn; auto; f_equal; auto).
  destruct (siftdown_ok n (length l) (l ++ [n]) (length l)) as [A B]; auto; [rewrite app_length; cbn; lia| |].
  - rewrite E. split; rewrite app_length; cbn [length].
    + intros i Hi Ni. assert (i < length l) by lia. pose proof (par_lt i ltac:(lia)). rewrite !app_nth1 by lia. apply HL. lia.
    + intros i Hi Ei H0. pose proof (par_lt i ltac:(lia)). lia.
  - split; auto. rewrite B, E. rewrite Permutation_app_comm. auto.
Qed.
(** going up: the hole at pos has no condition with its children *)
Definition inv_up (H : list (node T)) (pos : nat) : Prop :=
  (forall i, 0 < i < length H -> i <> pos -> par i <> pos -> le (H @ (par i)) (H @ i)) /\
  (forall i, 0 < i < length H -> par i = pos -> 0 < pos -> le (H @ (par pos)) (H @ i)).
Lemma up_step x h pos c : pos < length h -> c < length h -> 0 < c -> par c = pos -> (forall i, 0 < i < length h -> par i = pos -> le (h @ c) (h @ i)) ->
  inv_up (upd pos x h) pos -> inv_up (upd c x (upd pos (h @ c) h)) c.
Proof.
  intros Hp Hc H0 Ec HM [I1 I2]. rewrite length_upd in I1, I2. pose proof (par_lt c H0) as Hlt.
  assert (V : forall i, i <> pos -> i <> c -> (upd c x (upd pos (h @ c) h)) @ i = (upd pos x h) @ i) by (intros; rewrite !nth_upd_ne; auto).
  assert (Vp : (upd c x (upd pos (h @ c) h)) @ pos = h @ c) by (rewrite nth_upd_ne by lia; apply nth_upd_eq; auto).
  assert (W : forall i, i <> pos -> (upd pos x h) @ i = h @ i) by (intros; apply nth_upd_ne; auto).
  split; rewrite !length_upd.
  - intros i Hi N1 N2. destruct (Nat.eq_dec i pos) as [->|N3].
    + pose proof (par_lt pos ltac:(lia)). rewrite Vp, V by lia. rewrite <- (W c) by lia. apply I2; auto; lia.
    + destruct (Nat.eq_dec (par i) pos) as [Ep|N4]; [rewrite Ep, Vp, V, W by auto; auto|]. rewrite !V by auto. apply I1; auto.
  - intros i Hi Ei _. pose proof (par_lt i ltac:(lia)). rewrite Ec, Vp, V by lia. specialize (I1 i Hi ltac:(lia) ltac:(lia)). rewrite Ei, (W c) in I1 by lia. exact I1.
Qed.
Lemma siftup_ok x : forall fuel h pos, length h <= fuel + pos -> pos < length h -> inv_up (upd pos x h) pos ->
  let (h', pos') := siftup_loop fuel h pos in pos' < length h' /\ inv_down (upd pos' x h') pos' /\ Permutation (upd pos' x h') (upd pos x h).
Proof.
  induction fuel as [|fuel IH]; intros h pos Hf Hp HI; cbn [siftup_loop]; [lia|]. cbv zeta.
  assert (STEP : forall c, c < length h -> 0 < c -> par c = pos -> (forall i, 0 < i < length h -> par i = pos -> le (h @ c) (h @ i)) ->
    let (h', pos') := siftup_loop fuel (upd pos (h @ c) h) c in pos' < length h' /\ inv_down (upd pos' x h') pos' /\ Permutation (upd pos' x h') (upd pos x h)).
  { intros c Hc H0 Ec HM. pose proof (par_lt c H0). specialize (IH (upd pos (h @ c) h) c). rewrite length_upd in IH. specialize (IH ltac:(lia) Hc (up_step x h pos c Hp Hc H0 Ec HM HI)).
    destruct (siftup_loop fuel (upd pos (h @ c) h) c) as [h' pos']. destruct IH as (A & B & C). split; auto. split; auto. rewrite C. apply move_perm; lia. }
  assert (P1 : par (2 * pos + 1) = pos) by (apply par_children; lia). assert (P2 : par (2 * pos + 1 + 1) = pos) by (apply par_children; lia).
  destruct (nth_error h (2 * pos + 1)) as [l|] eqn:EL.
  - assert (HL : 2 * pos + 1 < length h) by (apply nth_error_Some; congruence). pose proof (nth_error_nth h _ d EL) as Xl. destruct (nth_error h (2 * pos + 1 + 1)) as [r|] eqn:ER.
    + assert (HR : 2 * pos + 1 + 1 < length h) by (apply nth_error_Some; congruence). pose proof (nth_error_nth h _ d ER) as Xr. destruct (node_ltb l r) eqn:E.
      * rewrite <- Xl. apply STEP; auto; try lia. intros i Hi Ei. apply par_children in Ei as [-> | ->]; try lia; [apply le_refl|]. replace (2 * pos + 2) with (2 * pos + 1 + 1) by lia. rewrite Xl, Xr. apply node_asym; auto.
      * rewrite <- Xr. apply STEP; auto; try lia. intros i Hi Ei. apply par_children in Ei as [-> | ->]; try lia; [rewrite Xl, Xr; auto|]. replace (2 * pos + 2) with (2 * pos + 1 + 1) by lia. apply le_refl.
    + apply nth_error_None in ER. rewrite <- Xl. apply STEP; auto; try lia. intros i Hi Ei. apply par_children in Ei as [-> | ->]; try lia. apply le_refl.
  - apply nth_error_None in EL. split; auto. split; auto. destruct HI as [I1 I2]. split; auto. intros i Hi N. apply I1; auto. intro Ei. rewrite length_upd in Hi. apply par_children in Ei; lia.
Qed.
Lemma heap_root h i : heap h -> i < length h -> le (h @ 0) (h @ i).
Proof.
  intros HH. induction i as [i IH] using (well_founded_induction Wf_nat.lt_wf). intros Hi. destruct (Nat.eq_dec i 0) as [->|N]; [apply le_refl|]. pose proof (par_lt i ltac:(lia)).
  apply (node_trans _ (h @ (par i)) _); [apply IH; lia|]. apply HH. lia.
Qed.
Lemma pop_ok l : heap l -> l <> [] -> exists n l', heappop l = Some (n, l') /\ heap l' /\ Permutation l (n :: l') /\ hd_error l = Some n /\ forall x, In x l -> node_ltb x n = false.
Proof.
  intros HL NE. destruct (exists_last NE) as (h & lst & ->). unfold heappop. rewrite rev_app_distr. cbn [rev app]. rewrite removelast_last.
  assert (ROOT : forall x, In x (h ++ [lst]) -> le ((h ++ [lst]) @ 0) x). { intros x Hx. destruct (In_nth _ _ d Hx) as (i & Hi & <-). apply heap_root; auto. }
  destruct h as [|n h].
  - exists lst, []. split; auto. split; [intros i Hi; cbn in Hi; lia|]. split; auto.
  - set (h0 := n :: h) in *. assert (HI : inv_up (upd 0 lst h0) 0).
    { split; rewrite length_upd; [|lia]. intros i Hi N1 N2. rewrite !nth_upd_ne by auto. pose proof (par_lt i ltac:(lia)). specialize (HL i). rewrite app_length in HL. rewrite !app_nth1 in HL by lia. apply HL. lia. }
    pose proof (siftup_ok lst (length h0) h0 0 ltac:(lia) ltac:(cbn; lia) HI) as SU. destruct (siftup_loop (length h0) h0 0) as [h' pos]. destruct SU as (A & B & C).
    destruct (siftdown_ok lst pos h' pos (Nat.le_refl _) A B) as [D E]. exists n, (siftdown pos h' pos lst). split; auto. split; auto. split; [|split; auto].
    rewrite E, C. cbn. rewrite (Permutation_app_comm h [lst]). auto.
Qed.
End Heapq.
Theorem cpython_heapq_ok {T} : heapq_ok (@cpython_heapq T).
Proof.
  assert (G : forall l : list (node T), forall d d', heap d l -> heap d' l). { intros l d d' H i Hi. pose proof (par_lt i ltac:(lia)). rewrite (nth_indep l d' d (n := par i)), (nth_indep l d' d (n := i)) by lia. apply H; auto. }
  exists (fun l => forall d, heap d l). split; [intros d i Hi; cbn in Hi; lia|]. split; [|split; auto].
  - intros l n HL. split; [intro d; apply push_ok; auto|apply (push_ok n); auto].
  - intros l HL NE. destruct l as [|x l]; [congruence|]. destruct (pop_ok x (x :: l) (HL x) NE) as (n & l' & A & B & C & D & E). exists n, l'. split; auto. split; auto. intro d. apply (G l' x d B).
Qed.
