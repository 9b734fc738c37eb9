(** The caches of the estimators do not change results (C53). *)
From Verif Require Import Py L_Py L_Qc M_BaseMaps S_BaseMaps L_BaseMaps P_Facets P_Subsets P_Junctions M_Heap M_Heapq P_Heap M_Session P_DilRegular S_Session.
From Coq Require Import Lia.
Local Open Scope nat_scope.

(** forgetting the depth of the junction in argmax *)
Definition er_j (j : junction) : junction := Jn (j_spec1 j) (j_spec2 j) (j_dx j) (j_dt j) None.
Definition er_am (a : argmax) : argmax := AM (am_x1 a) (am_t1 a) (am_x2 a) (am_t2 a) (er_j (am_junc a)) (am_pos1 a) (am_pos2 a).
Definition er_v (v : bval) : bval := (fst v, option_map er_am (snd v)).
Definition er_g (g : option argmax -> option argmax) (i : bpair) : bpair := BP (bp_lo i) (bp_up i) (bp_pair i) (g (bp_argmax i)).
Notation er_p := (er_g (option_map er_am)).

Lemma er_am_same a b : er_am a = er_am b -> same_argmax a b.
Proof. destruct a as [? ? ? ? [] ? ?], b as [? ? ? ? [] ? ?]. unfold er_am, er_j, same_argmax. cbn. intros E. injection E; intros; subst. repeat split. Qed.
Lemma er_j_key a b : jkey a = jkey b -> er_j a = er_j b.
Proof. destruct a, b. unfold jkey, er_j. cbn. intros E. injection E as -> -> -> ->. auto. Qed.

(** bounds depend on the junction only through its data *)
Lemma fold_point ratio dim mx mt j j' p1 p2 l : er_j j = er_j j' -> forall a a',
  option_map (fun r => (fst r, option_map er_am (snd r))) a = option_map (fun r => (fst r, option_map er_am (snd r))) a' ->
  option_map (fun r => (fst r, option_map er_am (snd r))) (fold_left (point_step ratio dim mx mt j p1 p2) l a) =
  option_map (fun r => (fst r, option_map er_am (snd r))) (fold_left (point_step ratio dim mx mt j' p1 p2) l a').
Proof.
  intros Ej. induction l as [|pq l IH]; intros a a' E; cbn [fold_left]; [exact E|]. apply IH.
  destruct a as [[lo am]|], a' as [[lo' am']|]; cbn in E; try discriminate; [|reflexivity]. inversion E; subst lo'.
  cbn [point_step]. destruct (ratio _ _ _) as [lp|]; [|reflexivity].
  replace (match am' with None => true | Some _ => false end) with (match am with None => true | Some _ => false end) by (destruct am, am'; cbn in *; congruence).
  destruct (qltb lo lp || _); cbn; [unfold er_am; cbn; rewrite Ej; reflexivity|]. f_equal. f_equal. congruence.
Qed.
Lemma at_er ratio j j' p1 p2 l1 l2 a b : er_j j = er_j j' ->
  option_map er_v (pos_bounds_at ratio j p1 p2 l1 l2 a b) = option_map er_v (pos_bounds_at ratio j' p1 p2 l1 l2 a b).
Proof.
  intros E. assert (E1 : j_spec1 j = j_spec1 j') by (injection E; auto). assert (E2 : j_spec2 j = j_spec2 j') by (injection E; auto).
  assert (E3 : j_dx j = j_dx j') by (injection E; auto). assert (E4 : j_dt j = j_dt j') by (injection E; auto).
  unfold pos_bounds_at. cbv zeta. rewrite <- E1, <- E2, <- E3, <- E4.
  destruct (scale_pos _ _ _ _ _ _ _) as [[[[[mx2 mt2] x2] t2] q2]|]; [|reflexivity].
  destruct (ratio _ _ _) as [lo|]; [|reflexivity]. destruct (ratio _ _ _) as [up|]; [|reflexivity]. destruct (_ && _); [|reflexivity].
  match goal with |- option_map er_v (option_map _ (fold_left (point_step ?r ?d ?mx ?mt j ?p1 ?p2) ?l ?a)) = _ => pose proof (fold_point r d mx mt j j' p1 p2 l E a a eq_refl) as F end.
  destruct (fold_left _ _ _) as [[]|], (fold_left _ _ _) as [[]|]; cbn in F |- *; try discriminate; [|reflexivity]. unfold er_v. cbn. congruence.
Qed.

(** lru *)
Section Lru.
Context {K V : Type} (same : K -> K -> bool) (good : K -> V -> Prop).
Definition lru_all (c : lru K V) : Prop := Forall (fun e => good (fst e) (snd e)) (lru_items c).
Lemma find_ok c k e : lru_all c -> lru_find same c k = Some e -> good (fst e) (snd e) /\ same k (fst e) = true.
Proof. intros H F. apply find_some in F as (F1 & F2). unfold lru_all in H. rewrite Forall_forall in H. auto. Qed.
Lemma hit_all c k e : lru_all c -> lru_find same c k = Some e -> lru_all (lru_hit same c k e).
Proof.
  intros H F. unfold lru_all, lru_hit. cbn. constructor; [apply (find_ok c k e H F)|]. unfold lru_all in H. rewrite Forall_forall in H |- *. intros x Hx. apply filter_In in Hx as (Hx & _). auto.
Qed.
Lemma removelast_in {A} (l : list A) x : In x (removelast l) -> In x l.
Proof. induction l as [|a [|b l] IH]; cbn; auto. intros [->|H]; auto. right. apply IH. exact H. Qed.
Lemma put_all c k v : lru_all c -> good k v -> lru_all (lru_put c k v).
Proof.
  intros H G. unfold lru_all, lru_put in *. destruct (lru_max c) as [m|]; [|cbn; constructor; auto]. destruct (m <=? 0)%Z; auto.
  destruct (_ <=? _)%Z; cbn; (constructor; [exact G|]); auto. rewrite Forall_forall in H |- *. intros x Hx. apply H, removelast_in, Hx.
Qed.
Lemma filter_len {A} (f : A -> bool) l x : In x l -> f x = false -> length (filter f l) < length l.
Proof.
  assert (L : forall l', length (filter f l') <= length l') by (induction l' as [|a l' IH]; cbn; auto; destruct (f a); cbn; lia).
  induction l as [|a l IH]; cbn; [contradiction|]. intros [->|H] E; [rewrite E; specialize (L l); lia|]. specialize (IH H E). destruct (f a); cbn; lia.
Qed.
Lemma hit_fits (c : lru K V) k e : lru_fits c -> lru_find same c k = Some e -> lru_fits (lru_hit same c k e).
Proof.
  intros H F. unfold lru_fits in *. cbn. destruct (lru_max c); auto. apply find_some in F as (F1 & F2).
  pose proof (filter_len (fun e' => negb (same k (fst e'))) _ e F1 ltac:(cbn; rewrite F2; auto)). cbn [length]. lia.
Qed.
Lemma put_fits (c : lru K V) k v : lru_fits c -> lru_fits (lru_put c k v).
Proof.
  unfold lru_fits, lru_put. intros H. destruct (lru_max c) as [m|] eqn:E; [|cbn; auto]. destruct (Z.leb_spec m 0); [rewrite E; auto|].
  destruct (Z.leb_spec m (Z.of_nat (length (lru_items c)))); cbn [lru_max lru_items length]; [|lia].
  destruct (lru_items c) as [|a l] eqn:El; [cbn in *; lia|]. pose proof (app_removelast_last a (l := a :: l) ltac:(discriminate)) as A. apply (f_equal (@length _)) in A. rewrite app_length in A. cbn [length] in A, H. lia.
Qed.
Lemma miss_fits (c : lru K V) : lru_fits c -> lru_fits (lru_miss c). Proof. auto. Qed.
End Lru.
Lemma call_ok {K V} (same : K -> K -> bool) (f : K -> V) c k : (forall a b, same a b = true -> a = b) -> lru_all (fun k v => v = f k) c -> lru_fits c ->
  fst (lru_call same f c k) = f k /\ lru_all (fun k v => v = f k) (snd (lru_call same f c k)) /\ lru_fits (snd (lru_call same f c k)).
Proof.
  intros Hs H L. unfold lru_call. destruct (lru_find same c k) as [e|] eqn:F; cbn [fst snd].
  - destruct (find_ok same _ c k e H F) as (G & S). apply Hs in S. subst k. split; auto. split; [apply hit_all|apply hit_fits]; auto.
  - split; auto. split; [apply put_all|apply put_fits]; auto.
Qed.

(** trees up to the depths *)
Definition bh_g (g : option argmax -> option argmax) (t : tree) : tree :=
  BH (map (nd_map (er_g g)) (bh_heap t)) (map (er_g g) (bh_bad t)) (bh_good_thr t) (bh_bad_thr t) (bh_keep t) (option_map (er_g g) (bh_max t)) (bh_inc t).
Notation bh_er := (bh_g (option_map er_am)).
Section Tree.
Context (hq : heap_impl bpair) (Hq : heap_uniform hq) {g : option argmax -> option argmax}.
Notation push := (bh_push bp_lo bp_up hq). Notation update := (bh_update bp_lo bp_up hq).
Lemma push_er t i : (bh_g g) (push t i) = push ((bh_g g) t) ((er_g g) i).
Proof.
  unfold bh_push. cbv zeta. cbn [bh_g bh_good_thr bh_bad_thr bh_keep bh_max bh_inc bh_heap bh_bad]. replace (bp_up ((er_g g) i)) with (bp_up i) by reflexivity. replace (bp_lo ((er_g g) i)) with (bp_lo i) by reflexivity.
  assert (M : option_map (er_g g) (if bh_keep t then match bh_max t with Some m => if qltb (bp_lo m) (bp_lo i) then Some i else Some m | None => Some i end else bh_max t) =
    (if bh_keep t then match option_map (er_g g) (bh_max t) with Some m => if qltb (bp_lo m) (bp_lo i) then Some ((er_g g) i) else Some m | None => Some ((er_g g) i) end else option_map (er_g g) (bh_max t))).
  { destruct (bh_keep t); auto. destruct (bh_max t) as [m|]; auto. cbn. destruct (qltb _ _); auto. }
  destruct (match bh_good_thr t with Some _ => _ | None => false end); [unfold bh_g; cbn; rewrite M; auto|].
  destruct (match bh_bad_thr t with Some _ => _ | None => false end); unfold bh_g; cbn; rewrite M.
  - rewrite map_app. auto.
  - f_equal. symmetry. apply (proj1 Hq (er_g g) (bh_heap t) (Nd _ _ i)).
Qed.
Lemma extend_er l : forall t, (bh_g g) (bh_extend bp_lo bp_up hq t l) = bh_extend bp_lo bp_up hq ((bh_g g) t) (map (er_g g) l).
Proof. induction l as [|i l IH]; intros t; cbn; auto. unfold bh_extend in IH. rewrite IH, push_er. auto. Qed.
Lemma items_er t : bh_items ((bh_g g) t) = map (er_g g) (bh_items t).
Proof. unfold bh_items. cbn. rewrite !map_map. apply map_ext. reflexivity. Qed.
Lemma filter_map {A B} (f : B -> bool) (h : A -> B) l : filter f (map h l) = map h (filter (fun x => f (h x)) l).
Proof. induction l as [|a l IH]; cbn; auto. destruct (f (h a)); cbn; rewrite IH; auto. Qed.
Lemma update_er t x : update ((bh_g g) t) x = option_map (bh_g g) (update t x).
Proof.
  unfold bh_update. cbv zeta. rewrite items_er, filter_map, map_length. cbn [bh_g bh_good_thr bh_heap bh_bad bh_bad_thr bh_keep bh_max bh_inc]. rewrite map_length.
  replace (filter (fun y => qltb x (bp_up ((er_g g) y))) (bh_items t)) with (filter (fun y => qltb x (bp_up y)) (bh_items t)) by (apply filter_ext; reflexivity).
  destruct (match bh_good_thr t with Some _ => _ | None => false end); auto. destruct (Nat.ltb _ _); cbn [option_map]; [rewrite extend_er|]; reflexivity.
Qed.
Lemma pop_er t : bh_pop hq ((bh_g g) t) = option_map (fun r => ((er_g g) (fst r), (bh_g g) (snd r))) (bh_pop hq t).
Proof. unfold bh_pop. cbn [bh_g bh_heap]. rewrite (proj2 Hq). destruct (hq_pop hq (bh_heap t)); reflexivity. Qed.
Lemma top_er t : bh_top ((bh_g g) t) = option_map (er_g g) (bh_top t).
Proof. unfold bh_top. cbn. destruct (bh_heap t); auto. Qed.
Lemma copy_er t g' b : bh_copy bp_lo bp_up hq ((bh_g g) t) g' b = option_map (bh_g g) (bh_copy bp_lo bp_up hq t g' b).
Proof. unfold bh_copy. cbn [bh_g bh_good_thr bh_bad_thr bh_keep]. destruct (bh_good_thr t), (bh_bad_thr t), (bh_keep t); auto. cbn [option_map]. rewrite extend_er, items_er. auto. Qed.
Lemma forbid_er t a : forbid ((bh_g g) t) a = ((bh_g g) (fst (forbid t a)), snd (forbid t a)).
Proof.
  unfold forbid. cbn. f_equal. generalize (bh_bad t) at 1 2. intros l. revert a. induction l as [|i l IH]; intros a; cbn; auto.
Qed.
End Tree.

(** without face moments there is no argmax *)
Notation no_am := (fun _ : option argmax => @None argmax).
Section NoArgmax.
Context (ratio : ratio_func) (hq : heap_impl bpair) (Hq : heap_uniform hq).
Lemma get_bounds_none p v : get_bounds ratio p None = Some v -> snd v = None.
Proof.
  cbn [get_bounds]. unfold get_pos_bounds, pos_bounds_at. cbv zeta. destruct (scale_pos _ _ _ _ _ _ _) as [[[[[? ?] ?] ?] ?]|]; [|discriminate].
  destruct (ratio _ _ _); [|discriminate]. destruct (ratio _ _ _); [|discriminate]. cbn. intros E. inversion E. auto.
Qed.
Definition fix_t (t : tree) : Prop := bh_g no_am t = t.
Lemma push_fix t i : fix_t t -> bp_argmax i = None -> fix_t (bh_push bp_lo bp_up hq t i).
Proof. intros H E. unfold fix_t. rewrite (push_er hq Hq), H. f_equal. destruct i. cbn in *. subst. auto. Qed.
Lemma push_tree_fix t p t' : fix_t t -> push_tree ratio hq None t p = Some t' -> fix_t t'.
Proof.
  intros H. unfold push_tree. destruct (get_bounds ratio p None) as [[[lo up] am]|] eqn:E; [|discriminate]. intros F. inversion F. apply push_fix; auto. cbn. exact (get_bounds_none p _ E).
Qed.
Lemma fold_fix {X} (f : tree -> X -> option tree) l : (forall t x t', fix_t t -> f t x = Some t' -> fix_t t') -> forall o, (forall t, o = Some t -> fix_t t) ->
  forall t', fold_left (fun acc x => obind acc (fun t => f t x)) l o = Some t' -> fix_t t'.
Proof.
  intros H. induction l as [|x l IH]; intros o Ho t'; cbn; auto. apply IH. intros t E. destruct o as [u|]; [|discriminate]. apply (H u x); auto.
Qed.
Lemma max_fix t i : fix_t t -> bh_max t = Some i -> bp_argmax i = None.
Proof. intros H E. unfold fix_t in H. apply (f_equal (fun t => bh_max t)) in H. rewrite E in H. cbn in H. rewrite E in H. cbn in H. injection H as H. rewrite <- H. auto. Qed.
Lemma update_fix t x t' : fix_t t -> bh_update bp_lo bp_up hq t x = Some t' -> fix_t t'.
Proof. intros H E. pose proof (update_er hq Hq (g := no_am) t x) as U. unfold fix_t in H. rewrite H, E in U. cbn [option_map] in U. unfold fix_t. congruence. Qed.
Lemma divide_fix t t' : fix_t t -> divide_tree ratio hq None t = Some t' -> fix_t t'.
Proof.
  intros H. unfold divide_tree. pose proof (pop_er hq Hq (g := no_am) t) as P. unfold fix_t in H. rewrite H in P. destruct (bh_pop hq t) as [[w u]|]; [|discriminate]. cbn [option_map fst snd] in P.
  assert (Hu : fix_t u) by (unfold fix_t; congruence). destruct (divide_balanced _) as [ps|]; [|discriminate]. cbn [obind]. apply (fold_fix (push_tree ratio hq None)).
  - intros. eapply push_tree_fix; eauto.
  - intros t0 E. congruence.
Qed.
Lemma loop_fix tol mi md fuel : forall t lo up it r, fix_t t -> regular_loop ratio hq fuel None tol mi md t lo up None it = Some r -> snd r = None.
Proof.
  induction fuel as [|fuel IH]; intros t lo up it r H; cbn [regular_loop]; [discriminate|]. cbv zeta.
  destruct (match tol with Some _ => _ | None => _ end); [intros E; inversion E; auto|]. destruct (match mi with Some _ => _ | None => _ end); [intros E; inversion E; auto|]. destruct (match md with Some _ => _ | None => _ end); [intros E; inversion E; auto|].
  destruct (divide_tree ratio hq None t) as [t1|] eqn:D; [|discriminate]. pose proof (divide_fix _ _ H D) as H1. destruct (bh_max t1) as [i|] eqn:M; [|discriminate]. rewrite (max_fix _ _ H1 M).
  match goal with |- context [match ?o with Some t2 => match bh_top t2 with _ => _ end | None => None end] => destruct o as [t2|] eqn:U end; [|discriminate].
  assert (H2 : fix_t t2) by (destruct (qltb lo (bp_lo i)); [eapply update_fix; eauto|congruence]). destruct (bh_top t2) as [top|]; [|discriminate].
  replace (if qltb lo (bp_lo i) then None else None) with (@None argmax) by (destruct (qltb _ _); auto). apply IH; auto.
Qed.
Lemma regular_noarg fuel c rti mi md r : estimate_dilation_regular ratio hq fuel c rti mi None md = Some r -> snd r = None.
Proof.
  unfold estimate_dilation_regular. destruct (match rti with Some _ => _ | None => _ end) as [tol|]; [|discriminate]. destruct (create_tree _ _ _ _ _ _ _ _) as [t|] eqn:C; [|discriminate].
  assert (Ht : fix_t t).
  { unfold create_tree in C. destruct (regular_junctions fuel c) as [js|]; [|discriminate]. revert C. apply (fold_fix (fun t jcc => match init_first_order c (fst (fst jcc)) (snd (fst jcc)) (snd jcc) with Some p => push_tree ratio hq None t p | None => None end)).
    - intros t0 x t' H0. destruct (init_first_order _ _ _ _); [|discriminate]. apply push_tree_fix; auto.
    - intros t0 E. inversion E. reflexivity. }
  destruct (bh_max t) as [i|] eqn:M; [|discriminate]. destruct (bh_update _ _ _ _ _) as [t1|] eqn:U; [|discriminate]. destruct (bh_top t1) as [top|]; [|discriminate]. rewrite (max_fix _ _ Ht M). apply loop_fix. eapply update_fix; eauto.
Qed.
End NoArgmax.

(** simulation *)
Inductive orel {A B} (R : A -> B -> Prop) : option A -> option B -> Prop :=
| orel_none : orel R None None
| orel_some a b : R a b -> orel R (Some a) (Some b).
Lemma orel_eq {A} (x : option A) : orel eq x x. Proof. destruct x; constructor; auto. Qed.
Lemma orel_inv {A} (x y : option A) : orel eq x y -> x = y. Proof. intros []; congruence. Qed.
Lemma orel_map {A B} (f : A -> B) x y : orel (fun a b => f a = f b) x y <-> option_map f x = option_map f y.
Proof. split; [intros []; cbn; congruence|]. destruct x, y; cbn; intros E; try discriminate; constructor; congruence. Qed.

Definition Rv (a b : bval) : Prop := er_v a = er_v b.
Definition Rt (a b : tree) : Prop := bh_er a = bh_er b.

Section Sim.
Context (hash_b : (list Z * Z * spec * spec) * (list nat * list (list Z) * nat * nat) * (list nat * list (list Z) * nat * nat) * list (list Qc * Qc) * list (list Qc * Qc) -> Z)
  (hash_c : ckey -> Z) (hash_t : tkey -> Z) (ratio : ratio_func).
Lemma csame_eq a b : csame hash_c a b = true -> a = b.
Proof.
  unfold csame, ckey_eqb. destruct a as [[d n] l], b as [[d' n'] l']. rewrite !andb_true_iff. intros (_ & (H1 & H2) & H3).
  apply Nat.eqb_eq in H1. apply Z.eqb_eq in H2. apply (list_eqb_ok _ z_list_eqb_ok) in H3. subst. auto.
Qed.
Lemma tsame_eq a b : tsame hash_t a b = true -> a = b.
Proof.
  unfold tsame, tkey_eqb. destruct a as [[d n] l], b as [[d' n'] l']. rewrite !andb_true_iff. intros (_ & (H1 & H2) & H3).
  apply Nat.eqb_eq in H1. apply Z.eqb_eq in H2. apply z_list_eqb_ok in H3. subst. auto.
Qed.
Lemma pos_eqb_eq p q : pos_eqb p q = true -> p = q.
Proof.
  unfold pos_eqb. rewrite !andb_true_iff. intros (((H1 & H2) & H3) & H4). apply Nat.eqb_eq in H3, H4. apply (list_eqb_ok _ z_list_eqb_ok) in H2.
  assert (H1' : po_cnums p = po_cnums q) by (apply (list_eqb_ok Nat.eqb) in H1; auto; intros x y; apply Nat.eqb_eq). destruct p, q. cbn in *. subst. auto.
Qed.
Lemma bsame_eq j p1 p2 l1 l2 j' p1' p2' l1' l2' : bsame hash_b (j, p1, p2, l1, l2) (j', p1', p2', l1', l2') = true ->
  er_j j = er_j j' /\ p1 = p1' /\ p2 = p2' /\ l1 = l1' /\ l2 = l2'.
Proof.
  unfold bsame, bkey_eqb. rewrite !andb_true_iff. intros (_ & (((H1 & H2) & H3) & H4) & H5). apply junc_eqb_key in H1. apply (list_eqb_ok _ cp_eqb_ok) in H4, H5.
  split; [apply er_j_key; auto|]. split; [apply pos_eqb_eq; auto|]. split; [apply pos_eqb_eq; auto|]. auto.
Qed.

Definition bgood (k : bkey) (v : bval) : Prop := let '(j, p1, p2, l1, l2) := k in orel Rv (Some v) (get_pos_bounds ratio j p1 p2 l1 l2).
Definition cgood (k : ckey) (v : list Z) : Prop := v = (let '(d, n, l) := k in get_int_cube d n l).
Definition tgood (k : tkey) (v : Z) : Prop := v = (let '(d, n, l) := k in get_int_time d n l).
Definition bok (b : lru bkey bval) : Prop := lru_all bgood b /\ lru_fits b.
Definition cok (c : lru ckey (list Z)) : Prop := lru_all cgood c /\ lru_fits c.
Definition tok (c : lru tkey Z) : Prop := lru_all tgood c /\ lru_fits c.
Definition Inv (s : caches) : Prop := bok (cs_bounds s) /\ cok (cs_cubes s) /\ tok (cs_times s).

Definition sim {A B} (R : A -> B -> Prop) (m : meth A) (p : option B) : Prop := forall s, Inv s -> Inv (snd (m s)) /\ orel R (fst (m s)) p.
Lemma sim_ret {A B} (R : A -> B -> Prop) x p : orel R x p -> sim R (mret x) p.
Proof. intros H s Hs. cbn. auto. Qed.
Lemma sim_none {A B} (R : A -> B -> Prop) : sim R (mret None) None. Proof. apply sim_ret. constructor. Qed.
Lemma sim_bind {A B A' B'} (R : A -> B -> Prop) (Q : A' -> B' -> Prop) m p f g : sim R m p -> (forall a b, R a b -> sim Q (f a) (g b)) -> sim Q (mbind m f) (obind p g).
Proof.
  intros H1 H2 s Hs. destruct (H1 s Hs) as (I & O). unfold mbind. destruct (m s) as [[a|] s']; cbn [fst snd] in *; inversion O; subst; cbn [obind].
  - apply H2; auto.
  - split; auto. constructor.
Qed.
Lemma sim_fold {A B X} (R : A -> B -> Prop) (f : A -> X -> meth A) g l : (forall a b x, R a b -> sim R (f a x) (g b x)) -> forall a b, R a b ->
  sim R (mfold f l a) (fold_left (fun acc x => obind acc (fun t => g t x)) l (Some b)).
Proof.
  intros H. induction l as [|x l IH]; intros a b Hab; [apply sim_ret; constructor; auto|]. cbn [mfold fold_left obind].
  replace (fold_left (fun acc x => obind acc (fun t => g t x)) l (g b x)) with (obind (g b x) (fun b' => fold_left (fun acc x => obind acc (fun t => g t x)) l (Some b'))).
  - apply (sim_bind R); auto.
  - destruct (g b x); cbn [obind]; auto. clear. induction l; cbn; auto.
Qed.

Lemma coords_sim p s : Inv s -> Inv (snd (po_coords_c hash_c hash_t p s)) /\ fst (po_coords_c hash_c hash_t p s) = Some (po_coords p) /\ cs_bounds (snd (po_coords_c hash_c hash_t p s)) = cs_bounds s.
Proof.
  intros (B & (C & CF) & (T & TF)). unfold po_coords_c, mbind, int_cube_c, int_time_c.
  destruct (call_ok (csame hash_c) (fun k => let '(d, n, l) := k in get_int_cube d n l) (cs_cubes s) (po_dim p, Z.of_nat (po_div p), po_cubes p) csame_eq C CF) as (E1 & C1 & C2).
  destruct (lru_call (csame hash_c) _ _ _) as [x c]. cbn [fst snd cs_times cs_bounds cs_cubes] in *. subst x.
  destruct (call_ok (tsame hash_t) (fun k => let '(d, n, l) := k in get_int_time d n l) (cs_times s) (po_dim p, Z.of_nat (po_div p), map Z.of_nat (po_cnums p)) tsame_eq T TF) as (E2 & T1 & T2).
  destruct (lru_call (tsame hash_t) _ _ _) as [x t]. cbn [fst snd cs_times cs_bounds cs_cubes mret] in *. subst x.
  split; [|split; reflexivity]. split; [exact B|split; split; assumption].
Qed.
Lemma mbind_some {A B} (m : meth A) (f : A -> meth B) s a s' : m s = (Some a, s') -> mbind m f s = f a s'.
Proof. unfold mbind. intros ->. auto. Qed.
Lemma bounds_sim j p1 p2 l1 l2 : sim Rv (get_pos_bounds_c hash_b hash_c hash_t ratio j p1 p2 l1 l2) (get_pos_bounds ratio j p1 p2 l1 l2).
Proof.
  intros s ((B & BF) & C & T). unfold get_pos_bounds_c. cbv zeta. destruct (lru_find _ _ _) as [e|] eqn:F; cbn [fst snd].
  - destruct (find_ok (bsame hash_b) bgood _ _ _ B F) as (G & S). split.
    + split; [|auto]. cbn [cs_bounds]. split; [apply hit_all|apply hit_fits]; auto.
    + destruct e as [[[[[j' q1] q2] m1] m2] v]. cbn [fst snd bgood] in *. apply bsame_eq in S as (E & <- & <- & <- & <-).
      pose proof (at_er ratio j j' p1 p2 l1 l2 (po_coords p1) (po_coords p2) E) as A. apply orel_map in A. change (orel Rv (get_pos_bounds ratio j p1 p2 l1 l2) (get_pos_bounds ratio j' p1 p2 l1 l2)) in A.
      inversion G as [|? b Eb E1 E2]; subst. rewrite <- E2 in A. inversion A as [|a ? Ea E3 E4]; subst. constructor. unfold Rv in *. congruence.
  - assert (I : Inv (Cs (lru_miss (cs_bounds s)) (cs_cubes s) (cs_times s))) by (split; [split; auto|split; auto]).
    set (s1 := Cs _ _ _) in *. clearbody s1. destruct (coords_sim p1 s1 I) as (I1 & F1 & _).
    destruct (po_coords_c hash_c hash_t p1 s1) as [o1 s2] eqn:E1. cbn [fst snd] in *. subst o1. rewrite (mbind_some _ _ _ _ _ E1).
    destruct (coords_sim p2 s2 I1) as (I2 & F2 & _). destruct (po_coords_c hash_c hash_t p2 s2) as [o2 s3] eqn:E2. cbn [fst snd] in *. subst o2. rewrite (mbind_some _ _ _ _ _ E2).
    unfold mbind, mret. fold (get_pos_bounds ratio j p1 p2 l1 l2). destruct (get_pos_bounds ratio j p1 p2 l1 l2) as [v|] eqn:E; cbn [fst snd].
    + split; [|constructor; reflexivity]. destruct I2 as ((B2 & BF2) & I2). split; [|exact I2]. cbn [cs_bounds]. split; [apply put_all; auto|apply put_fits; auto].
      cbn [bgood]. rewrite E. constructor. reflexivity.
    + split; auto. constructor.
Qed.
Lemma get_bounds_sim p st : sim Rv (get_bounds_c hash_b hash_c hash_t ratio p st) (get_bounds ratio p st).
Proof.
  unfold get_bounds_c, get_bounds. destruct st as [pts|]; [|apply bounds_sim]. destruct (last_spec _ _ _); [|apply sim_none]. destruct (last_spec _ _ _); [|apply sim_none].
  destruct (nth_error _ _); [|apply sim_none]. destruct (nth_error _ _); [|apply sim_none]. apply bounds_sim.
Qed.

Context (hq : heap_impl bpair) (Hq : heap_uniform hq).
Notation pushc := (push_tree_c hash_b hash_c hash_t ratio hq).
Lemma push_sim st t t' p : Rt t t' -> sim Rt (pushc st t p) (push_tree ratio hq st t' p).
Proof.
  intros Ht. unfold push_tree_c. replace (push_tree ratio hq st t' p) with (obind (get_bounds ratio p st) (fun v => Some (bh_push bp_lo bp_up hq t' (BP (fst (fst v)) (snd (fst v)) p (snd v))))) by (unfold push_tree; destruct (get_bounds ratio p st) as [[[]]|]; reflexivity).
  apply (sim_bind Rv); [apply get_bounds_sim|]. intros v v' Hv. apply sim_ret. constructor. unfold Rt. rewrite !(push_er hq Hq). rewrite Ht. f_equal. unfold er_p. cbn. unfold Rv, er_v in Hv. injection Hv as E1 E2. rewrite E1, E2. auto.
Qed.
Lemma create_sim fuel c g b k st : sim Rt (create_tree_c hash_b hash_c hash_t ratio hq fuel c g b k st) (create_tree ratio hq fuel c g b k st).
Proof.
  unfold create_tree_c, create_tree. destruct (regular_junctions fuel c) as [js|]; [|apply sim_none].
  apply (sim_fold Rt _ (fun t jcc => match init_first_order c (fst (fst jcc)) (snd (fst jcc)) (snd jcc) with Some p => push_tree ratio hq st t p | None => None end)); [|reflexivity].
  intros t t' x Ht. destruct (init_first_order _ _ _ _); [apply push_sim; auto|apply sim_none].
Qed.
Lemma divide_sim st t t' : Rt t t' -> sim Rt (divide_tree_c hash_b hash_c hash_t ratio hq st t) (divide_tree ratio hq st t').
Proof.
  intros Ht. unfold divide_tree_c, divide_tree. pose proof (pop_er hq Hq (g := option_map er_am) t) as P. rewrite Ht, (pop_er hq Hq t') in P.
  destruct (bh_pop hq t) as [[w u]|], (bh_pop hq t') as [[w' u']|]; cbn [option_map fst snd] in P; try discriminate; [|apply sim_none].
  assert (P1 : er_p w' = er_p w) by congruence. assert (P2 : bh_er u' = bh_er u) by congruence. clear P.
  replace (bp_pair w') with (bp_pair w) by (apply (f_equal bp_pair) in P1; cbn in P1; auto).
  apply (sim_bind eq); [apply sim_ret, orel_eq|]. intros ps ? <-. unfold push_all. apply (sim_fold Rt _ (push_tree ratio hq st)); [|unfold Rt; congruence]. intros. apply push_sim; auto.
Qed.
Lemma Rt_max t t' : Rt t t' -> orel (fun a b => er_p a = er_p b) (bh_max t) (bh_max t').
Proof. intros H. apply orel_map. apply (f_equal (fun x => bh_max x)) in H. exact H. Qed.
Lemma Rt_top t t' : Rt t t' -> orel (fun a b => er_p a = er_p b) (bh_top t) (bh_top t').
Proof. intros H. apply orel_map. rewrite <- !top_er. congruence. Qed.
Lemma Rt_update t t' x : Rt t t' -> orel Rt (bh_update bp_lo bp_up hq t x) (bh_update bp_lo bp_up hq t' x).
Proof. intros H. apply orel_map. rewrite <- !(update_er hq Hq). congruence. Qed.
Lemma Rt_items {X} (f : bpair -> X) t t' : (forall i, f (er_p i) = f i) -> Rt t t' -> map f (bh_items t) = map f (bh_items t').
Proof. intros Hf H. apply (f_equal (fun x => map f (bh_items x))) in H. rewrite !items_er, !map_map in H. erewrite (map_ext _ _ Hf), (map_ext _ _ Hf) in H. exact H. Qed.
Lemma forallb_map_ {A} (f : A -> bool) l : forallb f l = forallb (fun b => b) (map f l).
Proof. induction l; cbn; congruence. Qed.

Lemma regular_sim st tol mi md fuel : forall t t' lo up am am' it, Rt t t' -> option_map er_am am = option_map er_am am' ->
  sim Rv (regular_loop_c hash_b hash_c hash_t ratio hq fuel st tol mi md t lo up am it) (regular_loop ratio hq fuel st tol mi md t' lo up am' it).
Proof.
  induction fuel as [|fuel IH]; intros t t' lo up am am' it Ht Ha; [apply sim_none|]. cbn [regular_loop_c regular_loop]. cbv zeta.
  assert (D : orel Rv (Some (lo, up, am)) (Some (lo, up, am'))) by (constructor; unfold Rv, er_v; cbn; congruence).
  destruct (match tol with Some tl => _ | None => false end); [apply sim_ret, D|].
  destruct (match mi with Some tl => _ | None => false end); [apply sim_ret, D|].
  replace (match md with Some m => forallb (fun i => (m <? Z.of_nat (pp_depth (bp_pair i)))%Z) (bh_items t') | None => false end)
    with (match md with Some m => forallb (fun i => (m <? Z.of_nat (pp_depth (bp_pair i)))%Z) (bh_items t) | None => false end)
    by (destruct md as [m|]; auto; rewrite forallb_map_, (forallb_map_ _ (bh_items t')); f_equal; apply Rt_items; auto).
  destruct (match md with Some tl => _ | None => false end); [apply sim_ret, D|].
  match goal with |- sim _ (mbind _ ?f) (match _ with Some t1 => @?g t1 | None => None end) => change (sim Rv (mbind (divide_tree_c hash_b hash_c hash_t ratio hq st t) f) (obind (divide_tree ratio hq st t') g)) end.
  apply (sim_bind Rt); [apply divide_sim; auto|]. clear t t' Ht. intros t t' Ht. destruct (Rt_max t t' Ht) as [|i i' Hi]; [apply sim_none|].
  assert (El : bp_lo i = bp_lo i') by (apply (f_equal bp_lo) in Hi; exact Hi). assert (Em : option_map er_am (bp_argmax i) = option_map er_am (bp_argmax i')) by (apply (f_equal bp_argmax) in Hi; exact Hi).
  rewrite <- El. match goal with |- sim _ (match ?o with Some _ => _ | None => _ end) (match ?o' with Some _ => _ | None => _ end) => set (u1 := o); set (u2 := o') end.
  assert (U : orel Rt u1 u2) by (subst u1 u2; destruct (qltb _ _); [apply Rt_update; auto|constructor; auto]). clearbody u1 u2.
  destruct U as [|u u' Hu]; [apply sim_none|]. destruct (Rt_top u u' Hu) as [|a b Hab]; [apply sim_none|].
  assert (Eu : bp_up a = bp_up b) by (apply (f_equal bp_up) in Hab; exact Hab). rewrite <- Eu. apply IH; auto. destruct (qltb lo (bp_lo i)); auto.
Qed.
Lemma estimate_sim fuel c rti mi fd md : sim Rv (estimate_dilation_regular_c hash_b hash_c hash_t ratio hq fuel c rti mi fd md) (estimate_dilation_regular ratio hq fuel c rti mi fd md).
Proof.
  unfold estimate_dilation_regular_c, estimate_dilation_regular. destruct (match fd with None => _ | Some _ => _ end) as [st|]; [|apply sim_none]. destruct (match rti with None => _ | Some _ => _ end) as [tol|]; [|apply sim_none].
  match goal with |- sim _ (mbind _ ?f) (match _ with Some t1 => @?g t1 | None => None end) => change (sim Rv (mbind (create_tree_c hash_b hash_c hash_t ratio hq fuel c None None true st) f) (obind (create_tree ratio hq fuel c None None true st) g)) end.
  apply (sim_bind Rt); [apply create_sim|]. intros t t' Ht. destruct (Rt_max t t' Ht) as [|i i' Hi]; [apply sim_none|].
  assert (El : bp_lo i = bp_lo i') by (apply (f_equal bp_lo) in Hi; exact Hi). assert (Em : option_map er_am (bp_argmax i) = option_map er_am (bp_argmax i')) by (apply (f_equal bp_argmax) in Hi; exact Hi).
  rewrite <- El. destruct (Rt_update t t' (bp_lo i) Ht) as [|u u' Hu]; [apply sim_none|]. destruct (Rt_top u u' Hu) as [|a b Hab]; [apply sim_none|].
  assert (Eu : bp_up a = bp_up b) by (apply (f_equal bp_up) in Hab; exact Hab). rewrite <- Eu. apply regular_sim; auto.
Qed.

(** methods without argmax *)
Definition sims {A} (m : caches -> A * caches) (p : A) : Prop := forall s, Inv s -> Inv (snd (m s)) /\ fst (m s) = p.
Lemma forbid_sim t t' a : Rt t t' -> Rt (fst (forbid t a)) (fst (forbid t' a)) /\ snd (forbid t a) = snd (forbid t' a).
Proof. intros H. pose proof (forbid_er (g := option_map er_am) t a) as E. rewrite H, forbid_er in E. split; [symmetry; exact (f_equal fst E)|symmetry; exact (f_equal snd E)]. Qed.
Lemma bisect_loop_sim solver sched mi fuel : forall t t' a it sat call, Rt t t' ->
  sims (bisect_loop_c hash_b hash_c hash_t ratio hq fuel solver sched mi t a it sat call) (bisect_loop ratio hq fuel solver sched mi t' a it sat call).
Proof.
  induction fuel as [|fuel IH]; intros t t' a it sat call Ht s Hs; cbn [bisect_loop_c bisect_loop].
  - pose proof (Rt_items bp_lo t t' ltac:(reflexivity) Ht) as E. destruct (bh_items t), (bh_items t'); cbn in E; try discriminate; auto.
  - pose proof (Rt_items bp_lo t t' ltac:(reflexivity) Ht) as E. destruct (bh_items t), (bh_items t'); cbn [map] in E; try discriminate; [auto|]. clear E. cbv zeta.
    destruct (match mi with Some tl => _ | None => false end); [auto|].
    destruct (divide_sim None t t' Ht s Hs) as (I & O). destruct (divide_tree_c hash_b hash_c hash_t ratio hq None t s) as [o s']. cbn [fst snd] in I, O. destruct O as [|t1 t1' H1]; [auto|].
    destruct (forbid_sim t1 t1' a H1) as (H2 & E2). destruct (forbid t1 a) as [t2 a2], (forbid t1' a) as [t2' a2']. cbn [fst snd] in H2, E2. subst a2'.
    destruct (_ <? _)%Z; [apply IH; auto|]. destruct (ad_solve solver call a2); [apply IH; auto|auto].
Qed.
Lemma bisect_sim fuel solver sched mi c good bad it it' ia call : match it, it' with None, None => True | Some t, Some t' => Rt t t' | _, _ => False end ->
  sims (bisect_dilation_fuzzy_c hash_b hash_c hash_t ratio hq fuel solver sched mi c good bad it ia call) (bisect_dilation_fuzzy ratio hq fuel solver sched mi c good bad it' ia call).
Proof.
  intros Hi s Hs. unfold bisect_dilation_fuzzy_c, bisect_dilation_fuzzy.
  set (m := match it with None => _ | Some _ => _ end). set (p := match it' with None => _ | Some _ => _ end).
  assert (H : Inv (snd m) /\ orel Rt (fst m) p).
  { subst m p. destruct it as [t|], it' as [t'|]; try contradiction; [|apply create_sim; auto]. cbn [fst snd]. split; auto. apply orel_map. rewrite <- !(copy_er hq Hq). congruence. }
  clearbody m p. destruct m as [o s']. cbn [fst snd] in H. destruct H as (I & O). destruct O as [|t t' Ht]; [auto|].
  destruct (match ia with None => _ | Some _ => _ end) as [a|]; [|auto].
  destruct (forbid_sim t t' a Ht) as (H2 & E2). destruct (forbid t a) as [t2 a2], (forbid t' a) as [t2' a2']. cbn [fst snd] in H2, E2. subst a2'. apply bisect_loop_sim; auto.
Qed.
Lemma fuzzy_loop_sim solver sched mi c tol stop a fuel : forall t t' cur lo up call, Rt t t' ->
  sims (fuzzy_loop_c hash_b hash_c hash_t ratio hq fuel solver sched mi c tol stop t a cur lo up call) (fuzzy_loop ratio hq fuel solver sched mi c tol stop t' a cur lo up call).
Proof.
  induction fuel as [|fuel IH]; intros t t' cur lo up call Ht s Hs; cbn [fuzzy_loop_c fuzzy_loop]; (destruct (qltb _ up); [|auto]); [auto|]. cbv zeta.
  set (tu := if Qc_eq_bool lo 0 then _ else third 1 2 lo up). set (tl := if Qc_eq_bool lo 0 then _ else third 2 1 lo up).
  destruct (bisect_sim (S fuel) solver sched mi c tu tl (Some t) (Some t') (Some a) call Ht s Hs) as (I & E).
  destruct (bisect_dilation_fuzzy_c _ _ _ _ _ _ _ _ _ _ _ _ _ _ _ s) as [[r n] s']. cbn [fst snd] in I, E. rewrite <- E.
  destruct r as [x| | |]; auto; (destruct (match stop with Some _ => _ | None => false end); [auto|apply IH; auto]).
Qed.
Lemma sims_sim {A} (m : meth A) p : sims m p -> sim eq m p.
Proof. intros H s Hs. destruct (H s Hs) as (I & <-). split; auto. apply orel_eq. Qed.
Lemma sim_sims {A} (m : meth A) p : sim eq m p -> sims m p.
Proof. intros H s Hs. destruct (H s Hs) as (I & O). split; auto. apply orel_inv; auto. Qed.
Lemma fuzzy_sim fuel solver sched mi c rti stop slo sup scur call :
  sim eq (estimate_dilation_fuzzy_c hash_b hash_c hash_t ratio hq fuel solver sched mi c rti stop slo sup scur call) (estimate_dilation_fuzzy ratio hq fuel solver sched mi c rti stop slo sup scur call).
Proof.
  unfold estimate_dilation_fuzzy_c, estimate_dilation_fuzzy. cbv zeta.
  set (p := match sup with None => _ | Some u => Some (scur, u) end).
  replace (match p with Some (cur, up) => _ | None => None end) with
    (obind p (fun cu => obind (create_tree ratio hq fuel c None None false None) (fun t => obind (ad_load fuel c) (fun a => obind (tolerance_of rti) (fun tol =>
      fuzzy_loop ratio hq fuel solver sched mi c tol stop t a (fst cu) (match slo with None => 0%Qc | Some l => l end) (snd cu) call)))))
    by (destruct p as [[]|]; cbn [obind]; auto; destruct (create_tree _ _ _ _ _ _ _ _); cbn [obind]; auto; destruct (ad_load _ _); cbn [obind]; auto; destruct (tolerance_of _); auto).
  apply (sim_bind eq).
  - subst p. destruct sup as [u|]; [apply sim_ret, orel_eq|]. destruct (get_curve_example c) as [c0|]; [|apply sim_none].
    replace (match estimate_dilation_regular ratio hq fuel c0 (Some rti) None None None with Some (_, up, _) => Some (Some c0, up) | None => None end)
      with (obind (estimate_dilation_regular ratio hq fuel c0 (Some rti) None None None) (fun r => Some (Some c0, snd (fst r)))) by (destruct (estimate_dilation_regular _ _ _ _ _ _ _ _) as [[[]]|]; auto).
    apply (sim_bind Rv); [apply estimate_sim|]. intros r r' Hr. apply sim_ret. constructor. unfold Rv, er_v in Hr. injection Hr as -> _. auto.
  - intros cu ? <-. apply (sim_bind Rt); [apply create_sim|]. intros t t' Ht. apply (sim_bind eq); [apply sim_ret, orel_eq|]. intros a ? <-. apply (sim_bind eq); [apply sim_ret, orel_eq|]. intros tol ? <-.
    apply sims_sim, fuzzy_loop_sim; auto.
Qed.
Context (hs : heap_impl citem).
Lemma seq_step_sim fuel solver sched mi rti st it :
  sim eq (seq_step_c hash_b hash_c hash_t ratio hq hs fuel solver sched mi rti st it) (seq_step ratio hq hs fuel solver sched mi rti st it).
Proof.
  unfold seq_step_c, seq_step. destruct st as [[cu na] call].
  match goal with |- sim _ (mbind _ ?f) _ => match goal with |- context [estimate_dilation_fuzzy ?a ?b ?c ?d ?e ?g ?h ?i ?j ?k ?l ?m ?n] => set (p := estimate_dilation_fuzzy a b c d e g h i j k l m n) end end.
  match goal with |- sim eq (mbind ?m ?f) ?q => assert (E : q = obind p (fun r => fst (f r (Cs (lru_new None) (lru_new None) (lru_new None))))) end.
  { destruct p as [[[[ex lo] up] call']|]; reflexivity. }
  rewrite E. apply (sim_bind eq); [apply fuzzy_sim|]. intros r ? <-. destruct r as [[[ex lo] up] call']. cbn [mret fst]. apply sim_ret, orel_eq.
Qed.
Lemma seq_loop_sim solver sched mi tol mult fuel : forall act lo up ct call,
  sim eq (seq_loop_c hash_b hash_c hash_t ratio hq hs fuel solver sched mi tol mult act lo up ct call) (seq_loop ratio hq hs fuel solver sched mi tol mult act lo up ct call).
Proof.
  induction fuel as [|fuel IH]; intros act lo up ct call; cbn [seq_loop_c seq_loop]; (destruct (match up with None => None | Some u => _ end); [apply sim_ret, orel_eq|]); [apply sim_none|]. cbv zeta.
  intros s Hs.
  assert (F : sim eq (mfold (fun st it => seq_step_c hash_b hash_c hash_t ratio hq hs (S fuel) solver sched mi (ct * mult) st it) act (up, [], call))
     (fold_left (fun acc it => obind acc (fun st => seq_step ratio hq hs (S fuel) solver sched mi (ct * mult) st it)) act (Some (up, [], call)))).
  { apply (sim_fold eq _ (fun st it => seq_step ratio hq hs (S fuel) solver sched mi (ct * mult) st it)); auto. intros st ? it <-. apply seq_step_sim. }
  destruct (F s Hs) as (I & O). unfold mbind. destruct (mfold _ act (up, [], call) s) as [o s']. cbn [fst snd] in I, O. apply orel_inv in O. rewrite <- O.
  destruct o as [[[up' h] call']|]; [|split; [exact I|constructor]]. destruct h as [|n h]; [split; [exact I|constructor; reflexivity]|]. destruct (min_lo _); [apply IH; exact I|split; [exact I|constructor]].
Qed.
Lemma sequence_sim fuel solver sched mi curves rti mult ub :
  sim eq (estimate_dilation_sequence_c hash_b hash_c hash_t ratio hq hs fuel solver sched mi curves rti mult ub) (estimate_dilation_sequence ratio hq hs fuel solver sched mi curves rti mult ub).
Proof.
  unfold estimate_dilation_sequence_c, estimate_dilation_sequence.
  match goal with |- sim _ (mbind _ ?f) (match _ with Some t1 => @?g t1 | None => None end) => change (sim eq (mbind (mret (tolerance_of rti)) f) (obind (tolerance_of rti) g)) end.
  apply (sim_bind eq); [apply sim_ret, orel_eq|]. intros tol ? <-. apply seq_loop_sim.
Qed.
End Sim.

(** sessions *)
Definition SInv (ss : session) (ratios : list ratio_func) : Prop :=
  map fst (ss_ests ss) = ratios /\ Forall (fun rb => bok (fst rb) (snd rb)) (ss_ests ss) /\ cok (ss_cubes ss) /\ tok (ss_times ss).
Lemma upd_fst {A B} i (a : A) (b b' : B) l : nth_error l i = Some (a, b) -> map fst (upd i (a, b') l) = map fst l.
Proof. revert i. induction l as [|x l IH]; intros [|i]; cbn; intros E; auto; [inversion E; subst; auto|rewrite IH; auto]. Qed.
Lemma upd_Forall {A} (P : A -> Prop) i x l : Forall P l -> P x -> Forall P (upd i x l).
Proof. intros H Hx. revert i. induction H; intros [|i]; cbn; constructor; auto. Qed.
Lemma same_result_v r r' : orel Rv r r' -> same_result (RRegular r) (RRegular r').
Proof.
  intros [|v v' E]; [left; auto|]. destruct v as [[lo up] am], v' as [[lo' up'] am']. unfold Rv, er_v in E. cbn [fst snd] in E. injection E as -> -> E.
  destruct am as [a|], am' as [b|]; cbn in E; try discriminate; [|left; auto]. right. exists lo', up', a, b. split; auto. split; auto. apply er_am_same. congruence.
Qed.

Section Sess.
Context (hash_b : (list Z * Z * spec * spec) * (list nat * list (list Z) * nat * nat) * (list nat * list (list Z) * nat * nat) * list (list Qc * Qc) * list (list Qc * Qc) -> Z)
  (hash_c : ckey -> Z) (hash_t : tkey -> Z) (hq : heap_impl bpair) (Hq : heap_uniform hq) (hs : heap_impl citem).
Lemma on_est_ok ratios i ss m p : SInv ss ratios ->
  (forall ratio s, Inv ratio s -> Inv ratio (snd (m ratio s)) /\ same_result (fst (m ratio s)) (p ratio)) ->
  SInv (snd (on_est i ss RVoid m)) ratios /\ same_result (fst (on_est i ss RVoid m)) (match nth_error ratios i with Some ratio => p ratio | None => RVoid end).
Proof.
  intros (E & F & C & T) H. unfold on_est. rewrite <- E. destruct (nth_error (ss_ests ss) i) as [[ratio b]|] eqn:N.
  - rewrite (map_nth_error fst i _ N). cbn [fst].
    assert (B : bok ratio b) by (rewrite Forall_forall in F; apply (F (ratio, b)); eapply nth_error_In; eauto).
    destruct (H ratio (Cs b (ss_cubes ss) (ss_times ss))) as ((B1 & C1 & T1) & S1); [split; auto|]. destruct (m ratio _) as [r s]. cbn [fst snd] in *. split; auto.
    split; [cbn; apply (upd_fst i ratio b); auto|]. split; [cbn; apply upd_Forall; auto|]. auto.
  - split; [split; auto|]. assert (nth_error (map fst (ss_ests ss)) i = None) as -> by (apply nth_error_None; rewrite map_length; apply nth_error_None; auto). left. auto.
Qed.
Lemma step_ok ss ratios op : SInv ss ratios ->
  SInv (snd (session_step hash_b hash_c hash_t hq hs ss op)) (match op with ONew r _ => ratios ++ [r] | _ => ratios end) /\
  same_result (fst (session_step hash_b hash_c hash_t hq hs ss op)) (fresh_result hq hs ratios op).
Proof.
  intros H. destruct op; cbn [session_step fresh_result].
  - destruct H as (E & F & C & T). split; [|left; auto]. unfold SInv. cbn. split; [rewrite map_app, E; auto|]. split; [|auto]. apply Forall_app. split; auto. constructor; auto. cbn.
    split; [constructor|]. unfold lru_fits. cbn. destruct cache_max_size; auto. lia.
  - apply on_est_ok; auto. intros ratio s Hs. destruct (estimate_sim hash_b hash_c hash_t ratio hq Hq fuel c rel_tol_inv max_iter face_dim max_depth s Hs) as (I & O).
    destruct (estimate_dilation_regular_c _ _ _ _ _ _ _ _ _ _ _ s) as [r s']. cbn [fst snd] in *. split; auto. apply same_result_v; auto.
  - apply on_est_ok; auto. intros ratio s Hs. destruct (bisect_sim hash_b hash_c hash_t ratio hq Hq fuel solver sched max_iter c good bad None None None call Logic.I s Hs) as (I' & O).
    destruct (bisect_dilation_fuzzy_c _ _ _ _ _ _ _ _ _ _ _ _ _ _ _ s) as [r s']. cbn [fst snd] in *. split; auto. left. congruence.
  - apply on_est_ok; auto. intros ratio s Hs. destruct (sim_sims ratio _ _ (fuzzy_sim hash_b hash_c hash_t ratio hq Hq fuel solver sched max_iter c rel_tol_inv stop start_lo start_up start_curve call) s Hs) as (I' & O).
    destruct (estimate_dilation_fuzzy_c _ _ _ _ _ _ _ _ _ _ _ _ _ _ _ _ s) as [r s']. cbn [fst snd] in *. split; auto. left. congruence.
  - apply on_est_ok; auto. intros ratio s Hs. destruct (sim_sims ratio _ _ (sequence_sim hash_b hash_c hash_t ratio hq Hq hs fuel solver sched max_iter curves rel_tol_inv mult upper_bound) s Hs) as (I' & O).
    destruct (estimate_dilation_sequence_c _ _ _ _ _ _ _ _ _ _ _ _ _ _ s) as [r s']. cbn [fst snd] in *. split; auto. left. congruence.
Qed.
Lemma run_ok ops : forall ss ratios, SInv ss ratios ->
  Forall2 same_result (fst (session_run hash_b hash_c hash_t hq hs ops ss)) (fresh_results hq hs ratios ops) /\ exists ratios', SInv (snd (session_run hash_b hash_c hash_t hq hs ops ss)) ratios'.
Proof.
  induction ops as [|op ops IH]; intros ss ratios H; cbn [session_run fresh_results]; [split; [constructor|eauto]|].
  destruct (step_ok ss ratios op H) as (H1 & S1). destruct (session_step _ _ _ _ _ ss op) as [r ss']. cbn [fst snd] in H1, S1.
  destruct (IH ss' _ H1) as (H2 & H3). destruct (session_run _ _ _ _ _ ops ss') as [rs ss'']. cbn [fst snd] in *. split; auto.
Qed.
End Sess.
Lemma new_ok : SInv session_new [].
Proof. split; [reflexivity|]. split; [constructor|]. split; (split; [constructor|]); unfold lru_fits; cbn; lia. Qed.

(** heapq looks at priorities only *)
Lemma ltb_map {T} (f : T -> T) a b : node_ltb (nd_map f a) (nd_map f b) = node_ltb a b. Proof. reflexivity. Qed.
Lemma upd_map {A B} (g : A -> B) i x l : upd i (g x) (map g l) = map g (upd i x l).
Proof. revert i. induction l as [|a l IH]; intros [|i]; cbn; auto. rewrite IH. auto. Qed.
Lemma nth_error_map_ {A B} (g : A -> B) i l : nth_error (map g l) i = option_map g (nth_error l i).
Proof. revert i. induction l as [|a l IH]; intros [|i]; cbn; auto. Qed.
Lemma siftdown_map {T} (f : T -> T) fuel : forall heap pos n, siftdown fuel (map (nd_map f) heap) pos (nd_map f n) = map (nd_map f) (siftdown fuel heap pos n).
Proof.
  induction fuel as [|fuel IH]; intros heap pos n; cbn [siftdown]; [apply upd_map|]. destruct (Nat.ltb 0 pos); [|apply upd_map]. rewrite nth_error_map_.
  destruct (nth_error heap _) as [p|]; cbn [option_map]; [|apply upd_map]. rewrite ltb_map. destruct (node_ltb n p); [|apply upd_map]. rewrite upd_map. apply IH.
Qed.
Lemma siftup_map {T} (f : T -> T) fuel : forall heap pos, siftup_loop fuel (map (nd_map f) heap) pos = (map (nd_map f) (fst (siftup_loop fuel heap pos)), snd (siftup_loop fuel heap pos)).
Proof.
  induction fuel as [|fuel IH]; intros heap pos; cbn [siftup_loop]; [reflexivity|]. cbv zeta. rewrite !nth_error_map_.
  destruct (nth_error heap (2 * pos + 1)) as [l|]; cbn [option_map]; [|reflexivity]. destruct (nth_error heap (2 * pos + 1 + 1)) as [r|]; cbn [option_map].
  - rewrite ltb_map. destruct (node_ltb l r); rewrite upd_map; apply IH.
  - rewrite upd_map. apply IH.
Qed.
Lemma removelast_map {A B} (g : A -> B) l : removelast (map g l) = map g (removelast l).
Proof. induction l as [|a [|b l] IH]; auto. change (g a :: removelast (map g (b :: l)) = g a :: map g (removelast (b :: l))). rewrite IH. auto. Qed.
Lemma cpython_uniform {T} : heap_uniform (@cpython_heapq T).
Proof.
  split; intros f l.
  - intros n. cbn [hq_push cpython_heapq]. unfold heappush. rewrite map_length. change [nd_map f n] with (map (nd_map f) [n]). rewrite <- map_app. apply siftdown_map.
  - cbn [hq_pop cpython_heapq]. unfold heappop. rewrite <- map_rev, removelast_map. destruct (rev l) as [|x r]; [reflexivity|]. cbn [map]. destruct (removelast l) as [|y h]; [reflexivity|]. cbn [map].
    change (nd_map f y :: map (nd_map f) h) with (map (nd_map f) (y :: h)). rewrite siftup_map, map_length. destruct (siftup_loop (length (y :: h)) (y :: h) 0) as [h' pos]. cbn [fst snd option_map]. rewrite siftdown_map. reflexivity.
Qed.
Lemma sorted_uniform {T} : heap_uniform (@sorted_hq T).
Proof.
  split; intros f l.
  - intros n. cbn [hq_push sorted_hq]. induction l as [|a l IH]; cbn; auto. rewrite ltb_map. destruct (node_ltb _ _); cbn; auto. f_equal. exact IH.
  - cbn. destruct l; reflexivity.
Qed.
