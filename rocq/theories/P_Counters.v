(** The counters of the estimator: proofs. *)
From Verif Require Import Py M_BaseMaps M_Curves M_Heap M_Sat M_Dilation M_Counters.
Local Open Scope nat_scope.

Section Estimator.
Context (ratio : ratio_func) (hq : heap_impl bpair) (solver : sat_solver) (sched : Z -> Z) (max_iter : option Z).
Lemma bisect_loop_erase fuel : forall t a it si call k, fst (bisect_loop_k ratio hq fuel solver sched max_iter t a it si call k) = bisect_loop ratio hq fuel solver sched max_iter t a it si call.
Proof.
  induction fuel as [|fuel IH]; intros t a it si call k; cbn [bisect_loop_k bisect_loop]; destruct (bh_items t); auto.
  destruct (match max_iter with Some m => (m <? it + 1)%Z | None => false end); auto. destruct (divide_tree ratio hq None t) as [t1|]; auto.
  destruct (forbid t1 a) as [t2 a2]. destruct (it + 1 <? si)%Z; auto. destruct (ad_solve solver call a2); auto.
Qed.
Lemma bisect_erase fuel c good bad it ia call k : fst (bisect_k ratio hq fuel solver sched max_iter c good bad it ia call k) = bisect_dilation_fuzzy ratio hq fuel solver sched max_iter c good bad it ia call.
Proof.
  unfold bisect_k, bisect_dilation_fuzzy. destruct (match it with None => _ | Some t => _ end) as [t|]; auto. destruct (match ia with None => _ | Some a => _ end) as [a|]; auto.
  destruct (forbid t a) as [t1 a1]. apply bisect_loop_erase.
Qed.
Definition dk (f : counters -> nat) (k k' : counters) : nat := f k' - f k.
Definition bis_rel (iter : Z) (call : nat) (k : counters) (res : bisect_result * nat * counters) : Prop :=
  let '(r, call', k') := res in
  k_bisect k' = k_bisect k /\ k_seen k' = k_seen k /\ k_possible k' = k_possible k /\ k_divide k <= k_divide k' /\ k_solve k <= k_solve k' /\
  dk k_solve k k' <= dk k_divide k k' /\ call + dk k_solve k k' <= call' <= call + dk k_solve k k' + 1 /\
  match r with BFound _ => call' = call + dk k_solve k k' + 1 | BOutOfIter => call' = call + dk k_solve k k' | _ => True end /\
  (forall m, max_iter = Some m -> (iter + Z.of_nat (dk k_divide k k') <= Z.max m iter)%Z) /\
  (r = BOutOfIter -> exists m, max_iter = Some m /\ (iter + Z.of_nat (dk k_divide k k') = Z.max m iter)%Z).
Lemma bisect_loop_rel fuel : forall t a it si call k, bis_rel it call k (bisect_loop_k ratio hq fuel solver sched max_iter t a it si call k).
Proof.
  induction fuel as [|fuel IH]; intros t a it si call k; cbn [bisect_loop_k].
  - destruct (bh_items t); unfold bis_rel, finish, dk; [destruct (ad_solve solver call a) as [m|]; [destruct (get_model_curve a m)|]|]; repeat split; try lia; auto; try discriminate.
  - destruct (bh_items t). { unfold bis_rel, finish, dk; destruct (ad_solve solver call a) as [m|]; [destruct (get_model_curve a m)|]; repeat split; try lia; auto; try discriminate. }
    destruct (match max_iter with Some m => (m <? it + 1)%Z | None => false end) eqn:EM.
    { unfold bis_rel, dk. repeat split; try lia; auto. intros _. destruct max_iter as [m|]; [|discriminate]. apply Z.ltb_lt in EM. exists m. split; auto. lia. }
    destruct (divide_tree ratio hq None t) as [t1|]. 2: { unfold bis_rel, dk. repeat split; try lia; auto; try discriminate. }
    destruct (forbid t1 a) as [t2 a2].
    assert (STEP : forall si' call1 k1 s, s <= 1 -> call1 = call + s -> k1 = (if Nat.eqb s 0 then inc_divide k else inc_solve (inc_divide k)) ->
      bis_rel it call k (bisect_loop_k ratio hq fuel solver sched max_iter t2 a2 (it + 1) si' call1 k1)).
    { intros si' call1 k1 s Hs E1 E2. pose proof (IH t2 a2 (it + 1)%Z si' call1 k1) as H. destruct (bisect_loop_k ratio hq fuel solver sched max_iter t2 a2 (it + 1) si' call1 k1) as [[r call'] k'].
      unfold bis_rel, dk in *. destruct H as (A1 & A2 & A3 & A4 & A5 & A6 & A7 & A8 & A9 & A10).
      assert (X : k_bisect k1 = k_bisect k /\ k_seen k1 = k_seen k /\ k_possible k1 = k_possible k /\ k_divide k1 = k_divide k + 1 /\ k_solve k1 = k_solve k + s).
      { rewrite E2. destruct s as [|[|s]]; cbn; repeat split; lia. }
      destruct X as (X1 & X2 & X3 & X4 & X5). rewrite X1, X2, X3, X4, X5, E1 in *.
      split; [lia|]. split; [lia|]. split; [lia|]. split; [lia|]. split; [lia|]. split; [lia|]. split; [lia|]. split; [destruct r; auto; lia|]. split.
      - intros m Em. specialize (A9 m Em). rewrite Em in EM. apply Z.ltb_ge in EM. lia.
      - intros Er. destruct (A10 Er) as (m & Em & Y). exists m. split; auto. rewrite Em in EM. apply Z.ltb_ge in EM. lia. }
    destruct (it + 1 <? si)%Z.
    + apply (STEP si call _ 0); auto; lia.
    + destruct (ad_solve solver call a2).
      * apply (STEP (sched si) (S call) _ 1); auto; lia.
      * unfold bis_rel, dk. cbn. split; [lia|]. split; [lia|]. split; [lia|]. split; [lia|]. split; [lia|]. split; [lia|]. split; [lia|]. split; auto. split; [|discriminate].
        intros m Em. rewrite Em in EM. apply Z.ltb_ge in EM. lia.
Qed.
Lemma bisect_rel fuel c good bad it ia call k : bis_rel 0 call k (bisect_k ratio hq fuel solver sched max_iter c good bad it ia call k).
Proof.
  unfold bisect_k. assert (E : bis_rel 0 call k (BError, call, k)) by (unfold bis_rel, dk; repeat split; try lia; auto; discriminate).
  destruct (match it with None => _ | Some t => _ end) as [t|]; auto. destruct (match ia with None => _ | Some a => _ end) as [a|]; auto.
  destruct (forbid t a) as [t1 a1]. apply bisect_loop_rel.
Qed.

Lemma fuzzy_loop_erase c tol stop t a fuel : forall cur lo up call k,
  option_map fst (fuzzy_loop_k ratio hq fuel solver sched max_iter c tol stop t a cur lo up call k) = fuzzy_loop ratio hq fuel solver sched max_iter c tol stop t a cur lo up call.
Proof.
  induction fuel as [|fuel IH]; intros cur lo up call k; cbn [fuzzy_loop_k fuzzy_loop]; destruct (qltb (lo * tol)%Qc up); auto.
  rewrite <- (bisect_erase (S fuel) c _ _ (Some t) (Some a) call (inc_bisect k)).
  destruct (bisect_k _ _ _ _ _ _ _ _ _ _ _ _ _) as [[r call'] k']. cbn [fst].
  destruct r; auto; destruct (match stop with Some s => _ | None => false end); auto.
Qed.
Definition fuz_rel (call : nat) (k : counters) (call' : nat) (k' : counters) : Prop :=
  k_seen k' = k_seen k /\ k_possible k' = k_possible k /\ k_divide k <= k_divide k' /\ k_solve k <= k_solve k' /\ k_bisect k <= k_bisect k' /\
  dk k_solve k k' <= dk k_divide k k' /\ call + dk k_solve k k' <= call' <= call + dk k_solve k k' + dk k_bisect k k' /\
  forall m, max_iter = Some m -> (Z.of_nat (dk k_divide k k') <= Z.max m 0 * Z.of_nat (dk k_bisect k k'))%Z.
Lemma fuz_refl call k : fuz_rel call k call k.
Proof. unfold fuz_rel, dk. repeat split; try lia. Qed.
Lemma fuz_trans call k call1 k1 call2 k2 : fuz_rel call k call1 k1 -> fuz_rel call1 k1 call2 k2 -> fuz_rel call k call2 k2.
Proof.
  unfold fuz_rel, dk. intros (A1 & A2 & A3 & A4 & A5 & A6 & A7 & A8) (B1 & B2 & B3 & B4 & B5 & B6 & B7 & B8). repeat split; try lia.
  intros m E. specialize (A8 m E). specialize (B8 m E). replace (Z.of_nat (k_bisect k2 - k_bisect k)) with (Z.of_nat (k_bisect k1 - k_bisect k) + Z.of_nat (k_bisect k2 - k_bisect k1))%Z by lia. lia.
Qed.
Lemma fuzzy_loop_rel c tol stop t a fuel : forall cur lo up call k r call' k',
  fuzzy_loop_k ratio hq fuel solver sched max_iter c tol stop t a cur lo up call k = Some (r, call', k') -> fuz_rel call k call' k'.
Proof.
  induction fuel as [|fuel IH]; intros cur lo up call k r call' k'; cbn [fuzzy_loop_k]; destruct (qltb (lo * tol)%Qc up); try discriminate; try (intros E; injection E as _ <- <-; apply fuz_refl).
  pose proof (bisect_rel (S fuel) c (if Qc_eq_bool lo 0%Qc then (Zq 2 / Zq 3 * up)%Qc else third 1 2 lo up) (if Qc_eq_bool lo 0%Qc then (Zq 1 / Zq 2 * up)%Qc else third 2 1 lo up) (Some t) (Some a) call (inc_bisect k)) as H.
  destruct (bisect_k _ _ _ _ _ _ _ _ _ _ _ _ _) as [[s call1] k1].
  assert (R : fuz_rel call k call1 k1).
  { unfold bis_rel, fuz_rel, dk in *. destruct H as (A1 & A2 & A3 & A4 & A5 & A6 & A7 & A8 & A9 & A10). cbn in *. repeat split; try lia. intros m E. specialize (A9 m E). rewrite A1. replace (k_bisect k + 1 - k_bisect k) with 1 by lia. lia. }
  destruct s; try discriminate.
  - destruct (match stop with Some s => _ | None => false end); intros E; [injection E as _ <- <-; auto|]. eapply fuz_trans; [exact R|]. eapply IH; eauto.
  - destruct (match stop with Some s => _ | None => false end); intros E; [injection E as _ <- <-; auto|]. eapply fuz_trans; [exact R|]. eapply IH; eauto.
  - intros E; injection E as _ <- <-; auto.
Qed.
Lemma fuzzy_erase fuel c tol stop slo sup sc call k :
  option_map fst (estimate_fuzzy_k ratio hq fuel solver sched max_iter c tol stop slo sup sc call k) = estimate_dilation_fuzzy ratio hq fuel solver sched max_iter c tol stop slo sup sc call.
Proof.
  unfold estimate_fuzzy_k, estimate_dilation_fuzzy. destruct (match sup with None => _ | Some u => _ end) as [[cur up]|]; auto.
  destruct (create_tree _ _ _ _ _ _ _ _); auto. destruct (ad_load fuel c); auto. destruct (tolerance_of tol); auto. apply fuzzy_loop_erase.
Qed.
Lemma fuzzy_rel fuel c tol stop slo sup sc call k r call' k' :
  estimate_fuzzy_k ratio hq fuel solver sched max_iter c tol stop slo sup sc call k = Some (r, call', k') -> fuz_rel call k call' k'.
Proof.
  unfold estimate_fuzzy_k. destruct (match sup with None => _ | Some u => _ end) as [[cur up]|]; try discriminate.
  destruct (create_tree _ _ _ _ _ _ _ _); try discriminate. destruct (ad_load fuel c); try discriminate. destruct (tolerance_of tol); try discriminate. apply fuzzy_loop_rel.
Qed.

Context (hs : heap_impl citem).
Definition counted_curve (c : curve) : nat := match count_possible_curves c with Some n => n | None => 0 end.
Lemma step_erase fuel first tol up h call k it : (first = true -> count_possible_curves (ci_curve it) <> None) ->
  option_map fst (seq_step_k ratio hq hs fuel solver sched max_iter first tol (up, h, call, k) it) = seq_step ratio hq hs fuel solver sched max_iter tol (up, h, call) it.
Proof.
  intros HC. unfold seq_step_k, seq_step. destruct first.
  - destruct (count_possible_curves (ci_curve it)) as [n|]; [|destruct (HC eq_refl); auto]. cbn [option_map obind]. rewrite <- (fuzzy_erase fuel _ _ _ _ _ _ _ (inc_seen n k)).
    destruct (estimate_fuzzy_k _ _ _ _ _ _ _ _ _ _ _ _ _ _) as [[[[[ex lo] u] call'] k']|]; auto. cbn [option_map fst]. destruct (seq_cleanup _ _ _ _); auto.
  - cbn [obind]. rewrite <- (fuzzy_erase fuel _ _ _ _ _ _ _ k).
    destruct (estimate_fuzzy_k _ _ _ _ _ _ _ _ _ _ _ _ _ _) as [[[[[ex lo] u] call'] k']|]; auto. cbn [option_map fst]. destruct (seq_cleanup _ _ _ _); auto.
Qed.
Definition seq_rel (call : nat) (k : counters) (call' : nat) (k' : counters) (n p : nat) : Prop :=
  k_seen k' = k_seen k + n /\ k_possible k' = k_possible k + p /\ k_divide k <= k_divide k' /\ k_solve k <= k_solve k' /\ k_bisect k <= k_bisect k' /\
  dk k_solve k k' <= dk k_divide k k' /\ call + dk k_solve k k' <= call' <= call + dk k_solve k k' + dk k_bisect k k' /\
  forall m, max_iter = Some m -> (Z.of_nat (dk k_divide k k') <= Z.max m 0 * Z.of_nat (dk k_bisect k k'))%Z.
Lemma seq_refl call k : seq_rel call k call k 0 0.
Proof. unfold seq_rel, dk. repeat split; try lia. Qed.
Lemma seq_trans call k call1 k1 call2 k2 n p n' p' : seq_rel call k call1 k1 n p -> seq_rel call1 k1 call2 k2 n' p' -> seq_rel call k call2 k2 (n + n') (p + p').
Proof.
  unfold seq_rel, dk. intros (A1 & A2 & A3 & A4 & A5 & A6 & A7 & A8) (B1 & B2 & B3 & B4 & B5 & B6 & B7 & B8). repeat split; try lia.
  intros m E. specialize (A8 m E). specialize (B8 m E). replace (Z.of_nat (k_bisect k2 - k_bisect k)) with (Z.of_nat (k_bisect k1 - k_bisect k) + Z.of_nat (k_bisect k2 - k_bisect k1))%Z by lia. lia.
Qed.
Lemma step_rel fuel first tol up h call k it up' h' call' k' : seq_step_k ratio hq hs fuel solver sched max_iter first tol (up, h, call, k) it = Some (up', h', call', k') ->
  seq_rel call k call' k' (if first then 1 else 0) (if first then counted_curve (ci_curve it) else 0).
Proof.
  unfold seq_step_k. assert (G : forall k0 n p, k_seen k0 = k_seen k + n -> k_possible k0 = k_possible k + p -> k_divide k0 = k_divide k -> k_solve k0 = k_solve k -> k_bisect k0 = k_bisect k ->
    match estimate_fuzzy_k ratio hq fuel solver sched max_iter (ci_curve it) tol up (ci_lo it) (ci_up it) (ci_example it) call k0 with
    | None => None
    | Some (ex, lo, u, call', k') =>
      let cu := match up with None => u | Some u0 => if qltb u u0 then u else u0 end in
      let h := if qleb lo cu then hq_push hs h (Nd (- lo)%Qc (ci_idx it) (CI (ci_idx it) (Some lo) (Some u) (ci_curve it) ex)) else h in
      option_map (fun h' => (Some cu, h', call', k')) (seq_cleanup (length h) hs cu h)
    end = Some (up', h', call', k') -> seq_rel call k call' k' n p).
  { intros k0 n p E1 E2 E3 E4 E5 E. destruct (estimate_fuzzy_k _ _ _ _ _ _ _ _ _ _ _ _ _ _) as [[[r call1] k1]|] eqn:EF; [|discriminate]. apply fuzzy_rel in EF. destruct r as [[ex lo] u]. cbn zeta in E.
    destruct (seq_cleanup _ _ _ _); [|discriminate]. cbn [option_map] in E. injection E as _ _ <- <-.
    unfold fuz_rel, seq_rel, dk in *. rewrite E1, E2, E3, E4, E5 in EF. destruct EF as (A1 & A2 & A3 & A4 & A5 & A6 & A7 & A8). repeat split; auto; lia. }
  destruct first; cbn [obind].
  - unfold counted_curve. destruct (count_possible_curves (ci_curve it)) as [n|]; [|discriminate]. cbn [option_map obind]. apply G; auto.
  - apply G; auto.
Qed.
Definition counts (l : list citem) : nat := list_sum (map (fun it => counted_curve (ci_curve it)) l).
Lemma fold_None {A B} (f : A -> B -> option A) l : fold_left (fun acc it => obind acc (fun st => f st it)) l None = None.
Proof. induction l; auto. Qed.
Lemma items_erase fuel first tol l : (first = true -> forall it, In it l -> count_possible_curves (ci_curve it) <> None) -> forall up h call k,
  option_map fst (fold_left (fun acc it => obind acc (fun st => seq_step_k ratio hq hs fuel solver sched max_iter first tol st it)) l (Some (up, h, call, k))) =
  fold_left (fun acc it => obind acc (fun st => seq_step ratio hq hs fuel solver sched max_iter tol st it)) l (Some (up, h, call)).
Proof.
  induction l as [|it l IH]; intros HC up h call k; auto. cbn [fold_left obind]. rewrite <- (step_erase fuel first tol up h call k it).
  2: { intros E. apply HC; auto. left; auto. }
  destruct (seq_step_k _ _ _ _ _ _ _ _ _ _ _) as [[[[up' h'] call'] k']|].
  - cbn [option_map fst]. apply IH. intros E i Hi. apply HC; auto. right; auto.
  - cbn [option_map]. rewrite !fold_None. auto.
Qed.
Lemma items_rel fuel first tol l : forall up h call k up' h' call' k',
  fold_left (fun acc it => obind acc (fun st => seq_step_k ratio hq hs fuel solver sched max_iter first tol st it)) l (Some (up, h, call, k)) = Some (up', h', call', k') ->
  seq_rel call k call' k' (if first then length l else 0) (if first then counts l else 0).
Proof.
  induction l as [|it l IH]; intros up h call k up' h' call' k' E; cbn [fold_left] in E.
  - injection E as _ _ <- <-. destruct first; apply seq_refl.
  - cbn [obind] in E. destruct (seq_step_k _ _ _ _ _ _ _ _ _ _ _) as [[[[up1 h1] call1] k1]|] eqn:ES; [|rewrite fold_None in E; discriminate].
    apply step_rel in ES. apply IH in E. pose proof (seq_trans _ _ _ _ _ _ _ _ _ _ ES E) as R. destruct first; exact R.
Qed.
Lemma loop_erase tol mult fuel : forall first active lo up ct call k, (first = true -> forall it, In it active -> count_possible_curves (ci_curve it) <> None) ->
  option_map (fun r => fst (fst r)) (seq_loop_k ratio hq hs fuel solver sched max_iter tol mult first active lo up ct call k) = seq_loop ratio hq hs fuel solver sched max_iter tol mult active lo up ct call.
Proof.
  induction fuel as [|fuel IH]; intros first active lo up ct call k HC; cbn [seq_loop_k seq_loop]; destruct (match up with None => None | Some u => _ end); auto.
  rewrite <- (items_erase (S fuel) first _ active HC up [] call k). destruct (fold_left _ active (Some (up, [], call, k))) as [[[[up' h] call'] k']|]; auto. cbn [option_map fst].
  destruct h as [|n h]; auto. destruct (min_lo _); auto. apply IH. discriminate.
Qed.
Lemma loop_rel tol mult fuel : forall first active lo up ct call k r call' k',
  seq_loop_k ratio hq hs fuel solver sched max_iter tol mult first active lo up ct call k = Some (r, call', k') ->
  let entered := match up with None => true | Some u => qltb (lo * tol)%Qc u end in
  seq_rel call k call' k' (if first && entered then length active else 0) (if first && entered then counts active else 0).
Proof.
  induction fuel as [|fuel IH]; intros first active lo up ct call k r call' k' E; cbn [seq_loop_k] in E; cbn zeta.
  - destruct (match up with None => None | Some u => _ end) eqn:EU; [|discriminate]. injection E as _ <- <-. destruct up as [u|]; [|discriminate]. destruct (qltb (lo * tol)%Qc u); [discriminate|]. rewrite andb_false_r. apply seq_refl.
  - destruct (match up with None => None | Some u => _ end) eqn:EU.
    + injection E as _ <- <-. destruct up as [u|]; [|discriminate]. destruct (qltb (lo * tol)%Qc u); [discriminate|]. rewrite andb_false_r. apply seq_refl.
    + assert (EN : match up with None => true | Some u => qltb (lo * tol)%Qc u end = true) by (destruct up as [u|]; auto; destruct (qltb (lo * tol)%Qc u); auto; discriminate).
      rewrite EN, andb_true_r. destruct (fold_left _ active (Some (up, [], call, k))) as [[[[up' h] call1] k1]|] eqn:EI; [|discriminate]. apply items_rel in EI.
      destruct h as [|n h]; [injection E as _ <- <-; auto|]. destruct (min_lo _); [|discriminate]. apply IH in E. cbn [andb] in E.
      pose proof (seq_trans _ _ _ _ _ _ _ _ _ _ EI E) as R. rewrite !Nat.add_0_r in R. exact R.
Qed.
End Estimator.
