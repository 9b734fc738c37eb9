(** The statistics of the bounded-items heap: proofs. *)
From Verif Require Import Py M_Heap M_HeapStats S_Heap S_HeapStats P_Heap.
From Coq Require Import Permutation.
Local Open Scope nat_scope.

Section Heap.
Context {T : Type} (lo up : T -> Qc) (hq : heap_impl T) (HQ : heapq_ok hq).
Notation good := (goodb up). Notation bad := (badb lo). Notation act := (activeb lo up).

(** the counters have no effect *)
Lemma push_fst hs i : fst (sh_push lo up hq hs i) = bh_push lo up hq (fst hs) i.
Proof. unfold sh_push, bh_push. repeat match goal with |- context [if ?c then (_, _) else _] => destruct c end; reflexivity. Qed.
Lemma extend_fst is : forall hs, fst (sh_extend lo up hq hs is) = bh_extend lo up hq (fst hs) is.
Proof. induction is as [|i is IH]; intros hs; auto. unfold sh_extend, bh_extend in *. cbn [fold_left]. rewrite IH, push_fst. auto. Qed.
Lemma update_fst hs t : option_map fst (sh_update lo up hq hs t) = bh_update lo up hq (fst hs) t.
Proof.
  unfold sh_update, bh_update. destruct (match bh_good_thr (fst hs) with Some g => qltb t g | None => false end); auto. cbn [option_map]. f_equal.
  destruct (_ <? _); auto. cbn [fst]. rewrite extend_fst. auto.
Qed.
Lemma step_fst hs r op : fst (stat_step lo up hq hs op) = fst (heap_step lo up hq (fst hs, r) op).
Proof.
  destruct op as [i|t| |]; cbn [stat_step heap_step fst snd].
  - apply push_fst.
  - rewrite <- update_fst. destruct (sh_update lo up hq hs t); auto.
  - unfold sh_pop. destruct (bh_pop hq (fst hs)) as [[i h']|]; auto.
  - auto.
Qed.
Lemma run_fst g b keep ops : fst (stat_run lo up hq g b keep ops) = fst (heap_run lo up hq g b keep ops).
Proof.
  unfold stat_run, heap_run. cut (forall hs r, fst (fold_left (stat_step lo up hq) ops hs) = fst (fold_left (heap_step lo up hq) ops (fst hs, r))).
  { intros H. apply (H (sh_new g b keep)). }
  induction ops as [|op ops IH]; intros hs r; cbn [fold_left]; auto. rewrite (IH _ (snd (heap_step lo up hq (fst hs, r) op))). rewrite (step_fst hs r op), <- surjective_pairing. auto.
Qed.

(** the counters of one push, and of pushing active items *)
Definition n1 (b : bool) : nat := if b then 1 else 0.
Lemma push_snd hs i : let s := snd hs in let g := good (bh_good_thr (fst hs)) i in let b := bad (bh_bad_thr (fst hs)) i in
  snd (sh_push lo up hq hs i) = HS (st_update s) (st_rebuild s) (st_push s + 1) (st_copy s) (st_good s + n1 g) (st_bad s + n1 (negb g && b)).
Proof.
  cbn zeta. unfold sh_push. fold (good (bh_good_thr (fst hs)) i). fold (bad (bh_bad_thr (fst hs)) i). destruct (good _ i); [|destruct (bad _ i)]; cbn; unfold inc_good, inc_bad, inc_push; cbn; f_equal; lia.
Qed.
Lemma push_thr hs i : bh_good_thr (fst (sh_push lo up hq hs i)) = bh_good_thr (fst hs) /\ bh_bad_thr (fst (sh_push lo up hq hs i)) = bh_bad_thr (fst hs).
Proof. unfold sh_push. repeat match goal with |- context [if ?c then (_, _) else _] => destruct c end; auto. Qed.
Lemma extend_snd is : forall hs, (forall i, In i is -> act (bh_good_thr (fst hs)) (bh_bad_thr (fst hs)) i = true) -> let s := snd hs in
  snd (sh_extend lo up hq hs is) = HS (st_update s) (st_rebuild s) (st_push s + length is) (st_copy s) (st_good s) (st_bad s).
Proof.
  cbn zeta. induction is as [|i is IH]; intros hs H; unfold sh_extend; cbn [fold_left length].
  - rewrite Nat.add_0_r. destruct (snd hs); auto.
  - fold (sh_extend lo up hq (sh_push lo up hq hs i) is). destruct (push_thr hs i) as [E1 E2]. rewrite IH.
    + rewrite push_snd. cbn. specialize (H i (or_introl eq_refl)). apply andb_true_iff in H as [H1 H2]. apply negb_true_iff in H1, H2. rewrite H1, H2. cbn. f_equal; lia.
    + intros j Hj. rewrite E1, E2. apply H. right; auto.
Qed.

(** sums over the updates *)
Lemma removed_app l l' : removed (l ++ l') = removed l + removed l'.
Proof. unfold removed, cleanups. rewrite filter_app, map_app, list_sum_app. auto. Qed.
Lemma left_app l l' : left_over (l ++ l') = left_over l + left_over l'.
Proof. unfold left_over, cleanups. rewrite filter_app, map_app, list_sum_app. auto. Qed.
Lemma cleanups_app l l' : cleanups (l ++ l') = cleanups l ++ cleanups l'.
Proof. apply filter_app. Qed.
Lemma cleanups_one x y : cleanups [(x, y)] = if Nat.ltb y x then [(x, y)] else [].
Proof. reflexivity. Qed.
Lemma updates_snoc op ops : forall s, updates_from lo up hq s (ops ++ [op]) = updates_from lo up hq s ops ++ seen_update lo up hq (fold_left (heap_step lo up hq) ops s) op.
Proof. induction ops as [|o ops IH]; intros s; cbn; [rewrite app_nil_r; auto|]. rewrite IH, app_assoc. auto. Qed.

Lemma copy_fst hs g b : option_map fst (sh_copy lo up hq hs g b) = bh_copy lo up hq (fst hs) g b.
Proof. unfold sh_copy, bh_copy. destruct (bh_good_thr (fst hs)), (bh_bad_thr (fst hs)), (bh_keep (fst hs)); auto. cbn [option_map fst]. rewrite extend_fst. auto. Qed.
Section Inv.
Context (is_heap : list (node T) -> Prop) (HH : IH_ok hq is_heap) (b : option Qc) (keep : bool).
Definition counted (hs : sheap T) (r : history T) (L : list (nat * nat)) : Prop :=
  let st := snd hs in
  st_update st = length L /\ st_rebuild st = length (cleanups L) /\ st_push st = length (h_pushed r) + left_over L /\ st_copy st = 0 /\
  st_good st = length (filter (fun ig => good (snd ig) (fst ig)) (h_pushed r)) /\
  st_bad st = length (h_handed r) + length (bh_bad (fst hs)) /\
  length (h_pushed r) = st_good st + st_bad st + bh_size (fst hs) + length (h_popped r) + removed L.
Lemma size_items (h : bheap T) : bh_size h = length (bh_items h).
Proof. unfold bh_size, bh_items. rewrite map_length. auto. Qed.
Lemma step_counted hs r L op : hist_ok lo up is_heap b keep (fst hs, r) -> counted hs r L ->
  counted (stat_step lo up hq hs op) (snd (heap_step lo up hq (fst hs, r) op)) (L ++ seen_update lo up hq (fst hs, r) op).
Proof.
  intros HS HC. pose proof (items_active lo up is_heap b keep _ HS) as IA. pose proof (max_stable lo up is_heap b keep _ HS) as MS.
  destruct HS as (H1 & H2 & _). cbn [fst snd] in *. assert (HB : bh_bad_thr (fst hs) = b) by apply H1.
  destruct HC as (C1 & C2 & C3 & C4 & C5 & C6 & C7). destruct op as [i|t| |]; cbn [stat_step heap_step seen_update fst snd].
  - rewrite app_nil_r. destruct (push_ok lo up hq is_heap HH b keep (fst hs) i H1) as (A1 & A2 & A3 & A4 & A5). apply Permutation_length in A5.
    unfold counted. rewrite push_snd, push_fst, size_items. cbn [st_update st_rebuild st_push st_copy st_good st_bad h_pushed h_popped h_handed].
    rewrite A4, HB, H2 in *. rewrite app_length in A5. rewrite !app_length, filter_app, app_length, A5. cbn [length filter fst snd]. rewrite size_items in C7.
    unfold activeb. destruct (good (h_good r) i), (bad b i); cbn [negb andb n1 length]; repeat split; auto; lia.
  - rewrite <- update_fst. destruct (sh_update lo up hq hs t) as [hs'|] eqn:E; cbn [option_map].
    2: { rewrite app_nil_r. repeat split; auto. }
    assert (E' : bh_update lo up hq (fst hs) t = Some (fst hs')) by (rewrite <- update_fst, E; auto).
    unfold sh_update in E. destruct (match bh_good_thr (fst hs) with Some g => qltb t g | None => false end) eqn:EG; [discriminate|].
    destruct (update_ok lo up hq is_heap HH b keep (fst hs) t H1) as (h' & B0 & B1 & B2 & B3 & B4 & B5); auto.
    { intros i Hi. rewrite H2. apply IA; auto. } { destruct (bh_good_thr (fst hs)); auto. apply qltb_false; auto. }
    rewrite E' in B0. injection B0 as <-.
    assert (EF : filter (act (Some t) b) (bh_items (fst hs)) = filter (fun i => qltb t (up i)) (bh_items (fst hs))).
    { apply filter_ext_in. intros i Hi. destruct (IA i Hi) as [X _]. unfold act in *. apply andb_true_iff in X as [_ X]. unfold activeb. rewrite X, andb_true_r. unfold goodb, qleb. rewrite negb_involutive. auto. }
    rewrite EF in B5. apply Permutation_length in B5. rewrite <- size_items in B5.
    unfold counted. rewrite !app_length, cleanups_app, app_length, removed_app, left_app, B4. cbn [h_pushed h_popped h_handed length snd].
    unfold removed at 2, left_over at 2. rewrite !cleanups_one.
    injection E as E. unfold bh_size in B5 at 1. fold (bh_size (fst hs)) in *.
    change (length (bh_heap (fst hs))) with (bh_size (fst hs)) in E. rewrite <- B5 in E. change (length (bh_heap (fst hs'))) with (bh_size (fst hs')) in E, B5.
    destruct (Nat.ltb_spec (bh_size (fst hs')) (bh_size (fst hs))) as [LT|GE].
    + assert (SN : snd hs' = inc_rebuild (HS (st_update (snd hs) + 1) (st_rebuild (snd hs)) (st_push (snd hs) + bh_size (fst hs')) (st_copy (snd hs)) (st_good (snd hs)) (st_bad (snd hs)))).
      { rewrite <- E at 1. cbn [snd]. rewrite extend_snd; [cbn; rewrite <- B5; auto|]. cbn [fst bh_good_thr bh_bad_thr]. intros i Hi. rewrite HB, <- EF in *. apply filter_In in Hi. tauto. }
      rewrite SN. cbn. rewrite B5 in *. repeat split; try lia.
    + assert (SN : snd hs' = inc_update (snd hs)) by (rewrite <- E; auto). assert (SZ : bh_size (fst hs') = bh_size (fst hs)) by (rewrite <- E; auto).
      rewrite SN. cbn. rewrite SZ. repeat split; try lia.
  - rewrite app_nil_r. unfold sh_pop. destruct (bh_pop hq (fst hs)) as [[i h']|] eqn:E; cbn [option_map fst snd]; [|repeat split; auto].
    assert (NE : bh_heap (fst hs) <> []). { intros X. unfold bh_pop in E. rewrite X in E. destruct HH as (_ & _ & P & _). rewrite P in E. discriminate. }
    destruct (pop_ok up hq is_heap HH b keep (fst hs) H1 NE) as (i' & h'' & A0 & A1 & A2 & A3 & A4 & A5 & _). rewrite E in A0. injection A0 as <- <-. apply Permutation_length in A5. cbn [length] in A5.
    unfold counted. cbn [fst snd h_pushed h_popped h_handed]. rewrite A4, app_length, size_items in *. cbn [length]. repeat split; auto; lia.
  - rewrite app_nil_r. unfold counted. cbn. rewrite app_length. change (bh_size (BH (bh_heap (fst hs)) [] (bh_good_thr (fst hs)) (bh_bad_thr (fst hs)) (bh_keep (fst hs)) (bh_max (fst hs)) (bh_inc (fst hs)))) with (bh_size (fst hs)). repeat split; auto; lia.
Qed.
Lemma run_counted g ops : counted (stat_run lo up hq g b keep ops) (snd (heap_run lo up hq g b keep ops)) (updates lo up hq g b keep ops).
Proof.
  induction ops as [|op ops IH] using rev_ind.
  - repeat split.
  - unfold stat_run, heap_run, updates. rewrite !fold_left_app, updates_snoc. cbn [fold_left].
    fold (stat_run lo up hq g b keep ops). fold (heap_run lo up hq g b keep ops). fold (updates lo up hq g b keep ops).
    assert (E : heap_run lo up hq g b keep ops = (fst (stat_run lo up hq g b keep ops), snd (heap_run lo up hq g b keep ops))) by (rewrite run_fst; apply surjective_pairing).
    rewrite E at 1 2. apply step_counted; auto. rewrite <- E. apply run_ok; auto.
Qed.
End Inv.

Theorem stats_counted g b keep ops : counted (stat_run lo up hq g b keep ops) (snd (heap_run lo up hq g b keep ops)) (updates lo up hq g b keep ops).
Proof. destruct (heapq_inv hq HQ) as (is_heap & HH). eapply run_counted; eauto. Qed.
End Heap.

Section Copy.
Context {T : Type} (lo up : T -> Qc) (hq : heap_impl T).
Definition copied (n : nat) (hs : sheap T) : sheap T := (fst hs, add_copy n (snd hs)).
Lemma push_copied n hs i : sh_push lo up hq (copied n hs) i = copied n (sh_push lo up hq hs i).
Proof. unfold sh_push, copied. cbn [fst snd]. repeat match goal with |- context [if ?c then (_, _) else _] => destruct c end; reflexivity. Qed.
Lemma extend_copied n is : forall hs, sh_extend lo up hq (copied n hs) is = copied n (sh_extend lo up hq hs is).
Proof. induction is as [|i is IH]; intros hs; auto. unfold sh_extend in *. cbn [fold_left]. rewrite push_copied, IH. auto. Qed.
Lemma step_copied n hs op : stat_step lo up hq (copied n hs) op = copied n (stat_step lo up hq hs op).
Proof.
  destruct op as [i|t| |]; cbn [stat_step].
  - apply push_copied.
  - unfold sh_update. cbn [fst snd copied]. destruct (match bh_good_thr (fst hs) with Some g => qltb t g | None => false end); auto. destruct (_ <? _); auto.
    match goal with |- context [sh_extend lo up hq (?h, inc_update (add_copy n ?s)) ?l] => change (h, inc_update (add_copy n s)) with (copied n (h, inc_update s)) end.
    rewrite extend_copied. reflexivity.
  - unfold sh_pop. cbn [fst snd copied]. destruct (bh_pop hq (fst hs)) as [[i h']|]; auto.
  - reflexivity.
Qed.
Lemma run_copied n ops : forall hs, fold_left (stat_step lo up hq) ops (copied n hs) = copied n (fold_left (stat_step lo up hq) ops hs).
Proof. induction ops as [|op ops IH]; intros hs; auto. cbn [fold_left]. rewrite step_copied, IH. auto. Qed.
Theorem stats_copy hs g b : bh_good_thr (fst hs) = None -> bh_bad_thr (fst hs) = None -> bh_keep (fst hs) = false ->
  exists hs', sh_copy lo up hq hs g b = Some hs' /\ forall ops,
    fold_left (stat_step lo up hq) ops hs' = copied (bh_size (fst hs)) (stat_run lo up hq g b false (map OpPush (bh_items (fst hs)) ++ ops)).
Proof.
  intros E1 E2 E3. unfold sh_copy. rewrite E1, E2, E3. eexists. split; [reflexivity|]. intros ops. unfold stat_run. rewrite fold_left_app. fold (copied (bh_size (fst hs)) (sh_extend lo up hq (sh_new g b false) (bh_items (fst hs)))). rewrite run_copied. do 2 f_equal.
  unfold sh_extend. generalize (sh_new g b false : sheap T). induction (bh_items (fst hs)) as [|i l IH]; intros h0; cbn; auto.
Qed.
End Copy.
