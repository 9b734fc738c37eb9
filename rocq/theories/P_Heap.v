(** The bounded-items heap (C31). *)
From Verif Require Import Py L_Py L_Qc M_Heap S_Heap.
From Coq Require Import Lia Permutation.
Local Open Scope nat_scope.

Lemma qltb_ok x y : qltb x y = true <-> (x < y)%Qc.
Proof. unfold qltb. destruct (Qclt_le_dec x y); split; auto; [discriminate|]. intros H. exfalso. apply (Qcle_not_lt _ _ q H). Qed.
Lemma qltb_false x y : qltb x y = false <-> (y <= x)%Qc.
Proof. unfold qltb. destruct (Qclt_le_dec x y); split; auto; [discriminate|]. intros H. exfalso. apply (Qcle_not_lt _ _ H q). Qed.
Lemma qleb_ok x y : qleb x y = true <-> (x <= y)%Qc.
Proof. unfold qleb. rewrite negb_true_iff. apply qltb_false. Qed.
Lemma qleb_false x y : qleb x y = false <-> (y < x)%Qc.
Proof. unfold qleb. rewrite negb_false_iff. apply qltb_ok. Qed.
Lemma filter_perm {A} (f : A -> bool) l l' : Permutation l l' -> Permutation (filter f l) (filter f l').
Proof.
  induction 1; cbn; auto.
  - destruct (f x); auto.
  - destruct (f x), (f y); auto. apply perm_swap.
  - eapply perm_trans; eauto.
Qed.
Lemma filter_filter {A} (f g : A -> bool) l : (forall x, g x = true -> f x = true) -> filter g (filter f l) = filter g l.
Proof. intros H. induction l as [|a l IH]; cbn; auto. destruct (f a) eqn:E; cbn; rewrite IH; auto. destruct (g a) eqn:E'; auto. rewrite (H a E') in E. discriminate. Qed.
Lemma filter_id {A} (f : A -> bool) l : (forall x, In x l -> f x = true) -> filter f l = l.
Proof. induction l as [|a l IH]; cbn; intros H; auto. rewrite (H a (or_introl eq_refl)). f_equal. auto. Qed.
Lemma filter_len {A} (f : A -> bool) l : length (filter f l) <= length l.
Proof. induction l as [|a l IH]; cbn; auto. destruct (f a); cbn; lia. Qed.
Lemma filter_len_id {A} (f : A -> bool) l : length l <= length (filter f l) -> filter f l = l.
Proof. induction l as [|a l IH]; cbn; auto. pose proof (filter_len f l). destruct (f a); cbn; intros; [f_equal; apply IH; lia|lia]. Qed.

Section Heap.
Context {T : Type} (lo up : T -> Qc) (hq : heap_impl T) (HQ : heapq_ok hq).
Notation good := (goodb up). Notation bad := (badb lo). Notation act := (activeb lo up).
Definition IH_ok (is_heap : list (node T) -> Prop) : Prop :=
  is_heap [] /\
  (forall l n, is_heap l -> is_heap (hq_push hq l n) /\ Permutation (hq_push hq l n) (n :: l)) /\
  hq_pop hq [] = None /\
  (forall l, is_heap l -> l <> [] -> exists n l', hq_pop hq l = Some (n, l') /\ is_heap l' /\ Permutation l (n :: l') /\
     hd_error l = Some n /\ forall x, In x l -> node_ltb x n = false).
Section Inv.
Context (is_heap : list (node T) -> Prop) (HH : IH_ok is_heap) (b : option Qc) (keep : bool).
Definition heap_ok (h : bheap T) : Prop :=
  is_heap (bh_heap h) /\ Forall (fun n => nd_pri n = (- up (nd_item n))%Qc) (bh_heap h) /\ bh_bad_thr h = b /\ bh_keep h = keep.
Definition new_max (m : option T) (i : T) : option T :=
  if keep then match m with None => Some i | Some m => if qltb (lo m) (lo i) then Some i else Some m end else m.
Lemma push_ok h i : heap_ok h -> let h' := bh_push lo up hq h i in
  heap_ok h' /\ bh_good_thr h' = bh_good_thr h /\ bh_max h' = new_max (bh_max h) i /\
  bh_bad h' = bh_bad h ++ (if negb (good (bh_good_thr h) i) && bad b i then [i] else []) /\
  Permutation (bh_items h') ((if act (bh_good_thr h) b i then [i] else []) ++ bh_items h).
Proof.
  intros (H1 & H2 & H3 & H4). unfold bh_push, act. rewrite H3, H4. fold (good (bh_good_thr h) i). fold (bad b i). unfold new_max. destruct (good (bh_good_thr h) i); cbn [negb andb].
  - cbn. rewrite app_nil_r. repeat split; auto.
  - destruct (bad b i); cbn [negb].
    + cbn. repeat split; auto.
    + cbn. rewrite app_nil_r. destruct HH as (_ & P & _). destruct (P (bh_heap h) (Nd (- up i)%Qc (S (bh_inc h)) i) H1) as [A B]. repeat split; auto.
      * cbn [bh_heap]. rewrite B. constructor; auto.
      * unfold bh_items. cbn [bh_heap]. rewrite B. reflexivity.
Qed.
Lemma extend_ok is : forall h, heap_ok h -> (forall i, In i is -> act (bh_good_thr h) b i = true) -> (forall i, In i is -> new_max (bh_max h) i = bh_max h) ->
  let h' := bh_extend lo up hq h is in
  heap_ok h' /\ bh_good_thr h' = bh_good_thr h /\ bh_max h' = bh_max h /\ bh_bad h' = bh_bad h /\ Permutation (bh_items h') (is ++ bh_items h).
Proof.
  induction is as [|i is IH]; intros h Hh HA HM; cbn [bh_extend fold_left].
  - split; auto.
  - destruct (push_ok h i Hh) as (A1 & A2 & A3 & A4 & A5). set (h1 := bh_push lo up hq h i) in *.
    rewrite (HM i (or_introl eq_refl)) in A3. rewrite (HA i (or_introl eq_refl)) in A5.
    assert (AC : negb (good (bh_good_thr h) i) && bad b i = false). { specialize (HA i (or_introl eq_refl)). unfold act in HA. apply andb_true_iff in HA as [_ HA]. apply negb_true_iff in HA. rewrite HA. apply andb_false_r. }
    rewrite AC, app_nil_r in A4. destruct (IH h1 A1) as (B1 & B2 & B3 & B4 & B5).
    + intros j Hj. rewrite A2. apply HA. right; auto.
    + intros j Hj. rewrite A3. apply HM. right; auto.
    + unfold bh_extend in *. split; auto. split; [congruence|]. split; [congruence|]. split; [congruence|]. rewrite B5, A5. cbn. symmetry. apply Permutation_middle.
Qed.
Lemma update_ok h t : heap_ok h -> (forall i, In i (bh_items h) -> act (bh_good_thr h) b i = true) -> (forall i, In i (bh_items h) -> new_max (bh_max h) i = bh_max h) ->
  match bh_good_thr h with Some g => (g <= t)%Qc | None => True end ->
  exists h', bh_update lo up hq h t = Some h' /\ heap_ok h' /\ bh_good_thr h' = Some t /\ bh_max h' = bh_max h /\ bh_bad h' = bh_bad h /\
    Permutation (bh_items h') (filter (act (Some t) b) (bh_items h)).
Proof.
  intros Hh HA HM HT. unfold bh_update.
  assert (E : match bh_good_thr h with Some g => qltb t g | None => false end = false) by (destruct (bh_good_thr h); auto; apply qltb_false; auto). rewrite E.
  assert (EF : filter (act (Some t) b) (bh_items h) = filter (fun i => qltb t (up i)) (bh_items h)).
  { apply filter_ext_in. intros i Hi. specialize (HA i Hi). unfold act in *. apply andb_true_iff in HA as [_ HA]. rewrite HA, andb_true_r. unfold good, qleb. rewrite negb_involutive. auto. }
  set (active := filter (fun i => qltb t (up i)) (bh_items h)) in *. eexists. split; [reflexivity|]. destruct Hh as (H1 & H2 & H3 & H4).
  destruct (Nat.ltb_spec (length active) (length (bh_heap h))).
  - set (h0 := BH [] (bh_bad h) (Some t) (bh_bad_thr h) (bh_keep h) (bh_max h) (bh_inc h)).
    assert (Hh0 : heap_ok h0). { split; [apply HH|]. cbn. auto. }
    destruct (extend_ok active h0 Hh0) as (A1 & A2 & A3 & A4 & A5).
    + intros i Hi. cbn. rewrite <- EF in Hi. apply filter_In in Hi as [_ Hi]. auto.
    + intros i Hi. cbn. apply HM. apply filter_In in Hi as [Hi _]. auto.
    + split; auto. split; auto. split; auto. split; auto. rewrite A5, EF. unfold bh_items at 1. cbn. rewrite app_nil_r. auto.
  - split; [repeat split; auto|]. cbn. split; auto. split; auto. split; auto. rewrite EF. unfold active. rewrite filter_len_id; auto. unfold bh_items at 1. rewrite map_length. auto.
Qed.
Lemma update_lower h t g : bh_good_thr h = Some g -> (t < g)%Qc -> bh_update lo up hq h t = None.
Proof. intros E H. unfold bh_update. rewrite E. rewrite (proj2 (qltb_ok t g)); auto. Qed.
Lemma pop_ok h : heap_ok h -> bh_heap h <> [] -> exists i h', bh_pop hq h = Some (i, h') /\ heap_ok h' /\ bh_good_thr h' = bh_good_thr h /\ bh_max h' = bh_max h /\ bh_bad h' = bh_bad h /\
  Permutation (bh_items h) (i :: bh_items h') /\ bh_top h = Some i /\ forall x, In x (bh_items h) -> (up x <= up i)%Qc.
Proof.
  intros (H1 & H2 & H3 & H4) NE. destruct HH as (_ & _ & _ & P). destruct (P _ H1 NE) as (n & l' & A & B & C & D & E). unfold bh_pop. rewrite A. cbn. eexists _, _. split; [reflexivity|]. cbn.
  assert (F : Forall (fun n => nd_pri n = (- up (nd_item n))%Qc) (n :: l')) by (rewrite <- C; auto). inversion F as [|? ? F1 F2]; subst.
  split; [repeat split; auto|]. do 3 (split; auto). split; [unfold bh_items; cbn [bh_heap]; rewrite C; auto|]. split; [unfold bh_top; rewrite D; auto|].
  intros x Hx. apply in_map_iff in Hx as (m & <- & Hm). specialize (E m Hm). unfold node_ltb in E. apply orb_false_iff in E as [E _]. apply qltb_false in E. rewrite Forall_forall in H2. rewrite (H2 m Hm) in E. rewrite F1 in E.
  apply Qcopp_le_compat in E. rewrite !Qcopp_involutive in E. auto.
Qed.
Lemma top_pop h : heap_ok h -> bh_top h = option_map fst (bh_pop hq h).
Proof.
  intros Hh. destruct (bh_heap h) as [|n l] eqn:E.
  - destruct HH as (_ & _ & P & _). unfold bh_top, bh_pop. rewrite E, P. auto.
  - destruct (pop_ok h Hh) as (i & h' & A & _ & _ & _ & _ & _ & B & _); [congruence|]. rewrite A, B. auto.
Qed.

(** the invariant of a history *)
Definition hist_ok (s : bheap T * history T) : Prop :=
  let h := fst s in let r := snd s in
  heap_ok h /\ bh_good_thr h = h_good r /\
  Permutation (bh_items h ++ filter (act (h_good r) b) (h_popped r)) (filter (act (h_good r) b) (map fst (h_pushed r))) /\
  h_handed r ++ bh_bad h = map fst (filter (fun ig => negb (good (snd ig) (fst ig)) && bad b (fst ig)) (h_pushed r)) /\
  (forall i g', In (i, Some g') (h_pushed r) -> exists g, h_good r = Some g /\ (g' <= g)%Qc) /\
  (if keep then match bh_max h with None => h_pushed r = [] | Some m => In m (map fst (h_pushed r)) /\ forall i, In i (map fst (h_pushed r)) -> (lo i <= lo m)%Qc end else bh_max h = None) /\
  (forall i, In i (h_popped r) -> In i (map fst (h_pushed r))).
Lemma items_active s : hist_ok s -> forall i, In i (bh_items (fst s)) -> act (h_good (snd s)) b i = true /\ In i (map fst (h_pushed (snd s))).
Proof.
  intros (_ & _ & H & _) i Hi. assert (X : In i (filter (act (h_good (snd s)) b) (map fst (h_pushed (snd s))))) by (eapply Permutation_in; [exact H|apply in_or_app; auto]). apply filter_In in X. tauto.
Qed.
Lemma max_stable s : hist_ok s -> forall i, In i (bh_items (fst s)) -> new_max (bh_max (fst s)) i = bh_max (fst s).
Proof.
  intros HS i Hi. destruct (items_active s HS i Hi) as [_ X]. destruct HS as (_ & _ & _ & _ & _ & HM & _). unfold new_max. destruct keep; auto. destruct (bh_max (fst s)) as [m|].
  - rewrite (proj2 (qltb_false (lo m) (lo i))); auto. apply HM; auto.
  - rewrite HM in X. destruct X.
Qed.
Lemma good_mono g g' i : (g <= g')%Qc -> good (Some g) i = true -> good (Some g') i = true.
Proof. unfold good. rewrite !qleb_ok. intros. eapply Qcle_trans; eauto. Qed.
Lemma step_ok s op : hist_ok s -> hist_ok (heap_step lo up hq s op).
Proof.
  intros HS. pose proof (items_active s HS) as IA. pose proof (max_stable s HS) as MS. destruct s as [h r]. destruct HS as (H1 & H2 & H3 & H4 & H5 & H6 & H7). cbn [fst snd] in *. destruct op as [i|t| |]; cbn [heap_step fst snd].
  - destruct (push_ok h i H1) as (A1 & A2 & A3 & A4 & A5). unfold hist_ok. cbn [fst snd h_pushed h_popped h_handed h_good]. split; auto. split; [congruence|].
    rewrite H2 in A4, A5. split; [|split; [|split; [|split]]].
    + rewrite A5, <- app_assoc. rewrite map_app, filter_app. cbn [map filter fst]. rewrite Permutation_app_comm. rewrite H3. destruct (act (h_good r) b i); reflexivity.
    + rewrite A4, app_assoc, H4, filter_app, map_app. f_equal. cbn [filter fst snd]. destruct (negb (good (h_good r) i) && bad b i); auto.
    + intros i' g' Hin. apply in_app_or in Hin as [Hin|[E|[]]]; [eapply H5; eauto|]. injection E as -> E. exists g'. split; auto. apply Qcle_refl.
    + rewrite A3. unfold new_max. destruct keep; auto. rewrite map_app. cbn [map fst]. destruct (bh_max h) as [m|].
      * destruct H6 as [M1 M2]. destruct (qltb (lo m) (lo i)) eqn:E.
        -- apply qltb_ok in E. split; [apply in_or_app; right; left; auto|]. intros j Hj. apply in_app_or in Hj as [Hj|[<-|[]]]; [|apply Qcle_refl]. apply Qclt_le_weak. eapply Qcle_lt_trans; eauto.
        -- apply qltb_false in E. split; [apply in_or_app; left; auto|]. intros j Hj. apply in_app_or in Hj as [Hj|[<-|[]]]; auto.
      * rewrite H6. cbn. split; auto. intros j [<-|[]]. apply Qcle_refl.
    + intros j Hj. rewrite map_app. apply in_or_app. left. auto.
  - destruct (match bh_good_thr h with Some g => qltb t g | None => false end) eqn:E.
    + unfold bh_update. rewrite E. unfold hist_ok. cbn [fst snd]. repeat (split; auto).
    + destruct (update_ok h t) as (h' & A0 & A1 & A2 & A3 & A4 & A5); auto.
      { intros i Hi. rewrite H2. apply IA; auto. }
      { destruct (bh_good_thr h); auto. apply qltb_false; auto. }
      assert (MONO : forall x, act (Some t) b x = true -> act (h_good r) b x = true).
      { intros x. unfold act. rewrite !andb_true_iff. intros [X1 X2]. split; auto. rewrite negb_true_iff in *. rewrite <- H2. destruct (bh_good_thr h) as [g|] eqn:EG; auto. destruct (good (Some g) x) eqn:EX; auto.
        apply qltb_false in E. rewrite (good_mono g t x E EX) in X1. discriminate. }
      rewrite A0. unfold hist_ok. cbn [fst snd h_pushed h_popped h_handed h_good]. split; auto. split; auto. split; [|split; [congruence|split; [|split; [rewrite A3; auto|auto]]]].
      * apply (filter_perm (act (Some t) b)) in H3. rewrite filter_app in H3. rewrite !(filter_filter (act (h_good r) b)) in H3 by auto. rewrite A5. auto.
      * intros i g' Hin. exists t. split; auto. destruct (H5 i g' Hin) as (g & X1 & X2). rewrite <- H2 in X1. rewrite X1 in E. apply qltb_false in E. eapply Qcle_trans; eauto.
  - destruct (bh_heap h) as [|n l] eqn:EH.
    + assert (E : bh_pop hq h = None) by (unfold bh_pop; rewrite EH; destruct HH as (_ & _ & P & _); rewrite P; auto). rewrite E. unfold hist_ok. cbn [fst snd]. repeat (split; auto).
    + destruct (pop_ok h H1) as (i & h' & A0 & A1 & A2 & A3 & A4 & A5 & A6 & A7); [congruence|]. rewrite A0. unfold hist_ok. cbn [fst snd h_pushed h_popped h_handed h_good].
      assert (Ii : In i (bh_items h)) by (rewrite A5; left; auto). destruct (IA i Ii) as [AI PI].
      split; auto. split; [congruence|]. split; [|split; [congruence|split; [auto|split; [rewrite A3; auto|]]]].
      * rewrite filter_app. cbn [filter]. rewrite AI. rewrite <- H3, A5. cbn [app]. rewrite app_assoc. rewrite (Permutation_app_comm _ [i]). cbn. auto.
      * intros j Hj. apply in_app_or in Hj as [Hj|[<-|[]]]; auto.
  - unfold hist_ok. destruct H1 as (B1 & B2 & B3 & B4). cbn [fst snd h_pushed h_popped h_handed h_good bh_pop_bad bh_bad bh_heap bh_good_thr bh_max]. unfold heap_ok. cbn. rewrite app_nil_r. repeat (split; auto).
Qed.
Lemma run_ok g ops : hist_ok (heap_run lo up hq g b keep ops).
Proof.
  unfold heap_run. assert (H0 : hist_ok (bh_new g b keep, Hist [] [] [] g)).
  { unfold hist_ok, heap_ok, bh_new. cbn. destruct HH as (X & _). repeat split; auto; try tauto; destruct keep; auto. }
  revert H0. generalize (bh_new g b keep : bheap T, (Hist [] [] [] g : history T)). induction ops as [|op ops IH]; intros s Hs; cbn; auto. apply IH. apply step_ok; auto.
Qed.
End Inv.
Lemma heapq_inv : exists is_heap, IH_ok is_heap. Proof. exact HQ. Qed.

(** the property *)
Theorem heap_active g b keep ops : let s := heap_run lo up hq g b keep ops in
  Permutation (bh_items (fst s) ++ filter (act (h_good (snd s)) b) (h_popped (snd s))) (filter (act (h_good (snd s)) b) (map fst (h_pushed (snd s)))).
Proof. destruct heapq_inv as (P & HP). cbn zeta. destruct (run_ok P HP b keep g ops) as (_ & _ & H & _). auto. Qed.
Theorem heap_bad g b keep ops : let s := heap_run lo up hq g b keep ops in
  h_handed (snd s) ++ bh_bad (fst s) = map fst (filter (fun ig => negb (good (snd ig) (fst ig)) && bad b (fst ig)) (h_pushed (snd s))).
Proof. destruct heapq_inv as (P & HP). cbn zeta. destruct (run_ok P HP b keep g ops) as (_ & _ & _ & H & _). auto. Qed.
Theorem heap_pop_max g b keep ops : let h := fst (heap_run lo up hq g b keep ops) in
  (bh_items h = [] -> bh_pop hq h = None /\ bh_top h = None) /\
  (bh_items h <> [] -> exists i h', bh_pop hq h = Some (i, h') /\ bh_top h = Some i /\ Permutation (bh_items h) (i :: bh_items h') /\ forall x, In x (bh_items h) -> (up x <= up i)%Qc).
Proof.
  destruct heapq_inv as (P & HP). cbn zeta. destruct (run_ok P HP b keep g ops) as (H & _). set (h := fst _) in *. split.
  - intros E. assert (EH : bh_heap h = []) by (unfold bh_items in E; apply map_eq_nil in E; auto). unfold bh_pop, bh_top. rewrite EH. destruct HP as (_ & _ & X & _). rewrite X. auto.
  - intros NE. destruct (pop_ok P HP b keep h H) as (i & h' & A0 & _ & _ & _ & _ & A5 & A6 & A7); [intros E; apply NE; unfold bh_items; rewrite E; auto|]. exists i, h'. auto.
Qed.
Theorem heap_threshold g b keep ops t : let s := heap_run lo up hq g b keep ops in
  bh_good_thr (fst s) = h_good (snd s) /\
  (bh_update lo up hq (fst s) t = None <-> exists g', h_good (snd s) = Some g' /\ (t < g')%Qc).
Proof.
  destruct heapq_inv as (P & HP). cbn zeta. destruct (run_ok P HP b keep g ops) as (_ & H & _). set (s := heap_run lo up hq g b keep ops) in *. split; auto. rewrite <- H. unfold bh_update. destruct (bh_good_thr (fst s)) as [g'|].
  - destruct (qltb t g') eqn:E; split; auto; try discriminate.
    + intros _. apply qltb_ok in E. eauto.
    + intros (g0 & X & Y). injection X as <-. apply qltb_false in E. exfalso. apply (Qcle_not_lt _ _ E Y).
  - split; [discriminate|]. intros (g0 & X & _). discriminate.
Qed.
Theorem heap_max_lo g b ops : let s := heap_run lo up hq g b true ops in
  (h_pushed (snd s) = [] <-> bh_max (fst s) = None) /\
  forall m, bh_max (fst s) = Some m -> In m (map fst (h_pushed (snd s))) /\ forall i, In i (map fst (h_pushed (snd s))) -> (lo i <= lo m)%Qc.
Proof.
  destruct heapq_inv as (P & HP). cbn zeta. destruct (run_ok P HP b true g ops) as (_ & _ & _ & _ & _ & H & _). set (s := heap_run lo up hq g b true ops) in *. destruct (bh_max (fst s)) as [m|].
  - split; [split; [|discriminate]|]. + intros E. rewrite E in H. destruct H as [[] _]. + intros m' E. injection E as <-. auto.
  - split; [tauto|]. discriminate.
Qed.
Theorem heap_copy h g b : bh_good_thr h = None -> bh_bad_thr h = None -> bh_keep h = false ->
  exists h', bh_copy lo up hq h g b = Some h' /\ h' = fst (heap_run lo up hq g b false (map OpPush (bh_items h))).
Proof.
  intros E1 E2 E3. unfold bh_copy. rewrite E1, E2, E3. eexists. split; [reflexivity|]. unfold bh_extend, heap_run. generalize (bh_new g b false : bheap T), (Hist [] [] [] g : history T). generalize (bh_items h). induction l as [|i l IH]; intros h0 r0; cbn; auto.
Qed.
End Heap.

(** a correct implementation of heapq: a list sorted by the comparison of nodes *)
Fixpoint ins_node {T} (l : list (node T)) (n : node T) : list (node T) :=
  match l with [] => [n] | m :: l' => if node_ltb n m then n :: l else m :: ins_node l' n end.
Definition sorted_hq {T} : heap_impl T := HQ ins_node (fun l => match l with [] => None | n :: l' => Some (n, l') end).
Lemma node_trans {T} (a b c : node T) : node_ltb b a = false -> node_ltb c b = false -> node_ltb c a = false.
Proof.
  unfold node_ltb. rewrite !orb_false_iff, !andb_false_iff, !qltb_false, !qleb_false, !Nat.ltb_ge. intros [A1 A2] [B1 B2]. split; [eapply Qcle_trans; eauto|].
  destruct A2 as [A2|A2]; [left; eapply Qclt_le_trans; eauto|]. destruct B2 as [B2|B2]; [left; eapply Qcle_lt_trans; eauto|]. right. lia.
Qed.
Lemma node_asym {T} (a b : node T) : node_ltb a b = true -> node_ltb b a = false.
Proof.
  unfold node_ltb. rewrite orb_true_iff, andb_true_iff, orb_false_iff, andb_false_iff, qltb_ok, qltb_false, qleb_ok, qleb_false, Nat.ltb_lt, Nat.ltb_ge. intros [H|[H1 H2]].
  - split; auto. apply Qclt_le_weak; auto.
  - split; auto. right. lia.
Qed.
Lemma sorted_hq_ok {T} : heapq_ok (@sorted_hq T).
Proof.
  set (le := fun a b : node T => node_ltb b a = false). exists (Sorted.StronglySorted le). split; [constructor|]. split; [|split; [auto|]].
  - intros l n Hl. cbn. assert (HP : forall l, Permutation (ins_node l n) (n :: l)).
    { clear. induction l as [|m l IH]; cbn; auto. destruct (node_ltb n m); auto. rewrite IH. apply perm_swap. }
    split; auto. induction Hl as [|m l Hl IH HF]; cbn; [repeat constructor|]. destruct (node_ltb n m) eqn:E.
    + constructor; [constructor; auto|]. apply node_asym in E. constructor; [exact E|]. eapply Forall_impl; [|exact HF]. intros x Hx. apply (node_trans n m x); auto.
    + constructor; auto. rewrite HP. constructor; auto.
  - intros l Hl NE. destruct l as [|n l]; [congruence|]. inversion Hl; subst. cbn. exists n, l. do 4 (split; auto). intros x [<-|Hx].
    + destruct (node_ltb n n) eqn:E; auto. pose proof (node_asym _ _ E). congruence.
    + rewrite Forall_forall in H2. apply H2; auto.
Qed.
