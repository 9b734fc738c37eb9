(** Adapters in memory do not share their lists, sets and dicts. *)
From Verif Require Import Py L_Py M_BaseMaps M_Curves M_Sat M_SatStore S_Curves S_Fuzzy S_Sat P_FuzzyInit.
From Coq Require Import Lia.
Local Open Scope nat_scope.

Lemma put_length {A} (l : list A) i x : i < length l -> length (put l i x) = length l.
Proof. intros H. unfold put. rewrite app_length, firstn_length. cbn [length]. rewrite skipn_length. lia. Qed.
Lemma put_same {A} (l : list A) i x : i < length l -> nth_error (put l i x) i = Some x.
Proof. intros H. unfold put. rewrite nth_error_app2; rewrite firstn_length, Nat.min_l by lia; [|lia]. rewrite Nat.sub_diag. auto. Qed.
Lemma put_other {A} (l : list A) i j x : i < length l -> i <> j -> nth_error (put l i x) j = nth_error l j.
Proof.
  revert i j. induction l as [|a l IH]; intros i j H N; [cbn in H; lia|]. destruct i as [|i].
  - destruct j; [lia|]. reflexivity.
  - destruct j as [|j]; [reflexivity|]. unfold put. cbn [firstn skipn app nth_error]. apply IH; [cbn in H; lia|lia].
Qed.
Lemma map_put {A B} (g : A -> B) l i x y : nth_error l i = Some x -> g y = g x -> map g (put l i y) = map g l.
Proof.
  intros E Eg. revert i E. induction l as [|a l IH]; intros i E; [destruct i; discriminate|]. destruct i as [|i].
  - cbn in E. injection E as ->. cbn. f_equal. auto.
  - cbn [nth_error] in E. specialize (IH i E). unfold put in *. cbn [firstn skipn app map]. f_equal. auto.
Qed.
Lemma load_curve fuel c a : ad_load fuel c = Some a -> ad_curve a = c.
Proof.
  assert (AC : forall cls a, ad_curve (append_clauses a cls) = ad_curve a).
  { unfold append_clauses. induction cls as [|cl cls IH]; intros a0; cbn [fold_left]; auto. rewrite IH. auto. }
  assert (MC : forall a c, ad_curve (fst (make_curve_var a c)) = ad_curve a).
  { intros a0 c0. unfold make_curve_var. cbv zeta. destruct (memb _ _ _); auto. cbn [fst ad_curve]. unfold append_clause. cbn [ad_curve]. apply AC. }
  unfold ad_load. destruct (omap _ _) as [vars|]; [|discriminate]. destruct (get_junction_templates fuel c) as [T|]; [|discriminate]. intros E. injection E as <-.
  assert (J : forall T a, ad_curve (fold_left (fun a e => make_junc_var a (fst e) (snd e)) T a) = ad_curve a).
  { induction T0 as [|e T0 IH]; intros a0; cbn [fold_left]; auto. rewrite IH. unfold make_junc_var.
    assert (F : forall cs a acc, ad_curve (fst (fold_left (fun st c => let '(a', z) := make_curve_var (fst st) c in (a', snd st ++ [z])) cs (a, acc))) = ad_curve a).
    { induction cs as [|c0 cs IHc]; intros a1 acc; cbn [fold_left]; auto. cbn [fst snd]. specialize (MC a1 c0). destruct (make_curve_var a1 c0) as [a2 z]. cbn [fst] in MC. rewrite IHc. auto. }
    specialize (F (snd e) a0 []). destruct (fold_left _ (snd e) (a0, [])) as [a1 cvs]. cbn [fst] in F. rewrite AC. auto. }
  rewrite J, AC. assert (O : forall vs a, ad_curve (fold_left make_only vs a) = ad_curve a) by (induction vs as [|v vs IH]; intros a0; cbn [fold_left]; auto; rewrite IH; apply AC). rewrite O. auto.
Qed.
Lemma forbid_curve a forb : ad_curve (forbid_all a forb) = ad_curve a.
Proof. unfold forbid_all. revert a. induction forb as [|[j f] forb IH]; intros a; cbn [fold_left]; auto. rewrite IH. auto. Qed.

(** the invariant *)
Definition holds (st : store) (i : nat) (r : record) : Prop := exists a0, ad_load (fst (fst r)) (snd (fst r)) = Some a0 /\ so_view st i = Some (forbid_all a0 (snd r)).
Definition rep (st : store) (l : list record) : Prop :=
  length (st_objs st) = length l /\ NoDup (map so_clauses (st_objs st)) /\ NoDup (map so_vars (st_objs st)) /\ NoDup (map so_nos (st_objs st)) /\
  (forall o, In o (st_objs st) -> so_clauses o < length (st_clauses st) /\ so_vars o < length (st_vars st) /\ so_nos o < length (st_nos st)) /\
  forall i r, nth_error l i = Some r -> holds st i r.
Lemma view_grow st i c v n o : (forall o, In o (st_objs st) -> so_clauses o < length (st_clauses st) /\ so_vars o < length (st_vars st) /\ so_nos o < length (st_nos st)) -> i < length (st_objs st) ->
  so_view (ST (st_clauses st ++ [c]) (st_vars st ++ [v]) (st_nos st ++ [n]) (st_objs st ++ [o])) i = so_view st i.
Proof.
  intros HA Hi. unfold so_view. cbn [st_objs st_clauses st_vars st_nos]. rewrite nth_error_app1 by auto. destruct (nth_error (st_objs st) i) as [o'|] eqn:E; auto. destruct (HA o' (nth_error_In _ _ E)) as (A & B & C). rewrite !nth_error_app1 by auto. auto.
Qed.
Lemma view_new st c v n cv b : so_view (ST (st_clauses st ++ [c]) (st_vars st ++ [v]) (st_nos st ++ [n]) (st_objs st ++ [SO (length (st_clauses st)) (length (st_vars st)) (length (st_nos st)) cv b])) (length (st_objs st)) = Some (AD c v n cv).
Proof. unfold so_view. cbn [st_objs st_clauses st_vars st_nos]. rewrite nth_error_app2, Nat.sub_diag by auto. cbn [nth_error so_clauses so_vars so_nos so_curve]. rewrite !nth_error_app2, !Nat.sub_diag by auto. auto. Qed.
Lemma nodup_snoc (l : list nat) n : NoDup l -> (forall x, In x l -> x < n) -> NoDup (l ++ [n]).
Proof. intros ND H. apply NoDup_app_intro; auto; [repeat constructor; auto|]. intros x Hx [<-|[]]. apply H in Hx. lia. Qed.
Lemma rep_grow st l a c r : rep st l -> ad_curve a = c -> (exists a0, ad_load (fst (fst r)) (snd (fst r)) = Some a0 /\ a = forbid_all a0 (snd r)) ->
  rep (ST (st_clauses st ++ [ad_clauses a]) (st_vars st ++ [ad_curve_vars a]) (st_nos st ++ [ad_var_no a]) (st_objs st ++ [SO (length (st_clauses st)) (length (st_vars st)) (length (st_nos st)) c false])) (l ++ [r]).
Proof.
  intros (R1 & R2 & R3 & R4 & R5 & R6) EC (a0 & A1 & A2). split; [|split; [|split; [|split; [|split]]]]; cbn [st_objs st_clauses st_vars st_nos].
  - rewrite !app_length. cbn. lia.
  - rewrite map_app. apply nodup_snoc; auto. intros x Hx. apply in_map_iff in Hx as (o & <- & Ho). apply R5. auto.
  - rewrite map_app. apply nodup_snoc; auto. intros x Hx. apply in_map_iff in Hx as (o & <- & Ho). apply R5. auto.
  - rewrite map_app. apply nodup_snoc; auto. intros x Hx. apply in_map_iff in Hx as (o & <- & Ho). apply R5. auto.
  - intros o Ho. rewrite !app_length. cbn [length]. apply in_app_or in Ho as [Ho|[<-|[]]]; [destruct (R5 o Ho) as (B1 & B2 & B3); lia|cbn [so_clauses so_vars so_nos]; lia].
  - intros i r' E. destruct (Nat.lt_ge_cases i (length l)) as [Hi|Hi].
    + rewrite nth_error_app1 in E by auto. destruct (R6 i r' E) as (b & B1 & B2). exists b. split; auto. rewrite view_grow; auto. lia.
    + rewrite nth_error_app2 in E by auto. destruct (i - length l) as [|q] eqn:Ei; [|destruct q; discriminate]. cbn in E. injection E as <-. exists a0. split; auto. replace i with (length (st_objs st)) by lia. rewrite view_new, <- A2. destruct a. cbn in *. congruence.
Qed.
Lemma rep_step st l op l' st' : rep st l -> so_step st op = Some st' -> ledger_step l op = Some l' -> rep st' l'.
Proof.
  intros HR. pose proof HR as (R1 & R2 & R3 & R4 & R5 & R6). destruct op as [fuel c|i|i j f|i]; cbn [so_step ledger_step].
  - unfold so_new. destruct (ad_load fuel c) as [a|] eqn:EL; [|discriminate]. intros E1 E2. injection E1 as <-. injection E2 as <-. apply rep_grow; auto; [eapply load_curve; eauto|]. exists a. auto.
  - unfold so_copy. destruct (nth_error (st_objs st) i) as [o|] eqn:Eo; [|discriminate]. destruct (so_view st i) as [a|] eqn:Ea; [|discriminate]. destruct (so_solved o); [discriminate|]. destruct (nth_error l i) as [r|] eqn:Er; [|discriminate]. intros E1 E2. injection E1 as <-. injection E2 as <-.
    destruct (R6 i r Er) as (a0 & A1 & A2). assert (a = forbid_all a0 (snd r)) by congruence. apply rep_grow; auto; [|eauto]. unfold so_view in Ea. rewrite Eo in Ea. destruct (nth_error (st_clauses st) _); [|discriminate]. destruct (nth_error (st_vars st) _); [|discriminate]. destruct (nth_error (st_nos st) _); [|discriminate]. injection Ea as <-. auto.
  - unfold so_forbid, so_update. destruct (nth_error (st_objs st) i) as [o|] eqn:Eo; [|discriminate]. destruct (so_view st i) as [a|] eqn:Ea; [|discriminate]. destruct (nth_error l i) as [r|] eqn:Er; [|discriminate]. cbv zeta. intros E1 E2. injection E1 as <-. injection E2 as <-.
    destruct (R5 o (nth_error_In _ _ Eo)) as (B1 & B2 & B3). match goal with |- rep ?s _ => change (rep s (put l i (fst r, snd r ++ [(j, f)]))) end.
    assert (Hi : i < length l) by (apply nth_error_Some; congruence).
    split; [|split; [|split; [|split; [|split]]]]; cbn [st_objs st_clauses st_vars st_nos]; auto.
    + rewrite put_length by auto. auto.
    + intros o' Ho'. rewrite !put_length by auto. auto.
    + intros k r' E. destruct (Nat.eq_dec i k) as [<-|NE].
      * rewrite put_same in E by auto. injection E as <-. destruct (R6 i r Er) as (a0 & A1 & A2). exists a0. split; auto. unfold so_view. cbn [st_objs st_clauses st_vars st_nos]. rewrite Eo. rewrite !put_same by auto. cbn [snd]. unfold forbid_all. rewrite fold_left_app. cbn [fold_left fst snd]. fold (forbid_all a0 (snd r)).
        assert (a = forbid_all a0 (snd r)) by congruence. subst a. assert (EC : so_curve o = ad_curve (forbid_all a0 (snd r))).
        { unfold so_view in Ea. rewrite Eo in Ea. destruct (nth_error (st_clauses st) _); [|discriminate]. destruct (nth_error (st_vars st) _); [|discriminate]. destruct (nth_error (st_nos st) _); [|discriminate]. injection Ea as Ea. rewrite <- Ea. auto. }
        rewrite EC. reflexivity.
      * rewrite put_other in E by auto. destruct (R6 k r' E) as (a0 & A1 & A2). exists a0. split; auto. rewrite <- A2. unfold so_view. cbn [st_objs st_clauses st_vars st_nos]. destruct (nth_error (st_objs st) k) as [o'|] eqn:Eo'; auto.
        assert (NQ : forall (g : sat_obj -> nat), NoDup (map g (st_objs st)) -> g o <> g o'). { intros g ND Eg. apply NE. apply (proj1 (NoDup_nth_error (map g (st_objs st))) ND); [rewrite map_length; apply nth_error_Some; congruence|]. rewrite !nth_error_map, Eo, Eo'. cbn [option_map]. congruence. }
        rewrite !put_other; auto.
  - unfold so_solve. destruct (nth_error (st_objs st) i) as [o|] eqn:Eo; [|discriminate]. destruct (nth_error l i) as [r|] eqn:Er; [|discriminate]. intros E1 E2. injection E1 as <-. injection E2 as <-. assert (Hi : i < length (st_objs st)) by (apply nth_error_Some; congruence).
    split; [|split; [|split; [|split; [|split]]]]; cbn [st_objs st_clauses st_vars st_nos].
    + rewrite put_length; auto.
    + rewrite (map_put _ _ i o); auto.
    + rewrite (map_put _ _ i o); auto.
    + rewrite (map_put _ _ i o); auto.
    + intros o' Ho'. apply In_nth_error in Ho' as (k & Hk). destruct (Nat.eq_dec i k) as [<-|NE]; [rewrite put_same in Hk by auto; injection Hk as <-; cbn; apply (R5 o (nth_error_In _ _ Eo))|]. rewrite put_other in Hk by auto. apply R5. eapply nth_error_In; eauto.
    + intros k r' E. destruct (R6 k r' E) as (a0 & A1 & A2). exists a0. split; auto. rewrite <- A2. unfold so_view. cbn [st_objs st_clauses st_vars st_nos]. destruct (Nat.eq_dec i k) as [<-|NE]; [rewrite put_same, Eo by auto; auto|]. rewrite put_other by auto. auto.
Qed.
Lemma fold_none {A B} (f : A -> B -> option A) l : fold_left (fun acc x => obind acc (fun a => f a x)) l None = None.
Proof. induction l; auto. Qed.
Lemma step_known st l op st' : rep st l -> so_step st op = Some st' -> exists l', ledger_step l op = Some l'.
Proof.
  intros (R1 & _). assert (K : forall i o, nth_error (st_objs st) i = Some o -> exists r, nth_error l i = Some r).
  { intros i o E. destruct (nth_error l i) eqn:El; [eauto|]. apply nth_error_None in El. assert (i < length (st_objs st)) by (apply nth_error_Some; congruence). lia. }
  destruct op as [fuel c|i|i j f|i]; cbn [so_step ledger_step]; [eauto| | |].
  - unfold so_copy. destruct (nth_error (st_objs st) i) as [o|] eqn:Eo; [|discriminate]. destruct (K i o Eo) as (r & ->). cbn. eauto.
  - unfold so_forbid, so_update. destruct (nth_error (st_objs st) i) as [o|] eqn:Eo; [|discriminate]. destruct (K i o Eo) as (r & ->). cbn. eauto.
  - unfold so_solve. destruct (nth_error (st_objs st) i) as [o|] eqn:Eo; [|discriminate]. destruct (K i o Eo) as (r & ->). cbn. eauto.
Qed.
Theorem run_ledger ops st : so_run ops = Some st -> exists l, ledger ops = Some l /\ rep st l.
Proof.
  revert st. induction ops as [|op ops IH] using rev_ind; intros st.
  - intros E. unfold so_run in E. cbn in E. injection E as <-. exists []. split; auto. split; auto. cbn. split; [constructor|]. split; [constructor|]. split; [constructor|]. split; [intros o []|]. intros i r E. destruct i; discriminate.
  - unfold so_run, ledger. rewrite !fold_left_app. cbn [fold_left]. fold (so_run ops). fold (ledger ops). destruct (so_run ops) as [st0|]; [|discriminate]. cbn [obind]. intros E. destruct (IH st0 eq_refl) as (l & E1 & R). rewrite E1. cbn [obind]. destruct (step_known st0 l op st R E) as (l' & E2). exists l'. split; auto. eapply rep_step; eauto.
Qed.
(** C30: contents of each adapter *)
Theorem run_contents ops st : so_run ops = Some st -> exists l, ledger ops = Some l /\ length (st_objs st) = length l /\
  forall i fuel c forb, nth_error l i = Some (fuel, c, forb) -> exists a0, ad_load fuel c = Some a0 /\ so_view st i = Some (forbid_all a0 forb).
Proof. intros E. destruct (run_ledger ops st E) as (l & E1 & R). exists l. split; auto. split; [apply R|]. intros i fuel c forb H. apply R in H. exact H. Qed.
(** C30: when a copy fails *)
Lemma solved_flag ops st : so_run ops = Some st -> forall i o, nth_error (st_objs st) i = Some o -> (so_solved o = true <-> solved ops i).
Proof.
  revert st. induction ops as [|op ops IH] using rev_ind; intros st.
  - intros E. unfold so_run in E. cbn in E. injection E as <-. intros i o E. destruct i; discriminate.
  - unfold so_run. rewrite fold_left_app. cbn [fold_left]. fold (so_run ops). destruct (so_run ops) as [st0|] eqn:E0; [|discriminate]. cbn [obind]. intros E i o Eo. specialize (IH st0 eq_refl). unfold solved in *.
    assert (NOW : forall i, length (st_objs st0) <= i -> ~ In (OSolve i) ops).
    { intros k Hk Hin. apply in_split in Hin as (l1 & l2 & ->). unfold so_run in E0. rewrite fold_left_app in E0. cbn [fold_left] in E0. fold (so_run l1) in E0. destruct (so_run l1) as [st1|] eqn:E1; [|cbn in E0; rewrite fold_none in E0; discriminate]. cbn [obind] in E0.
      destruct (so_step st1 (OSolve k)) as [st2|] eqn:E2; [|cbn in E0; rewrite fold_none in E0; discriminate].
      assert (MON : forall op s s', so_step s op = Some s' -> length (st_objs s) <= length (st_objs s')).
      { clear. intros op s s'. destruct op; cbn [so_step].
        - unfold so_new. destruct (ad_load fuel c); [|discriminate]. intros E. injection E as <-. cbn. rewrite app_length. lia.
        - unfold so_copy. destruct (nth_error (st_objs s) i) as [o|]; [|discriminate]. destruct (so_view s i); [|discriminate]. destruct (so_solved o); [discriminate|]. intros E. injection E as <-. cbn. rewrite app_length. lia.
        - unfold so_forbid, so_update. destruct (nth_error (st_objs s) i) as [o|]; [|discriminate]. destruct (so_view s i); [|discriminate]. intros E. injection E as <-. auto.
        - unfold so_solve. destruct (nth_error (st_objs s) i) as [o|] eqn:E1; [|discriminate]. intros E. injection E as <-. cbn. rewrite put_length; auto. apply nth_error_Some. congruence. }
      assert (MONS : forall l s s', fold_left (fun acc op => obind acc (fun st => so_step st op)) l (Some s) = Some s' -> length (st_objs s) <= length (st_objs s')).
      { clear -MON. induction l as [|op l IH]; intros s s'; cbn [fold_left obind]; [intros E; injection E as <-; auto|]. destruct (so_step s op) as [s1|] eqn:E1; [|rewrite fold_none; discriminate]. intros E. apply MON in E1. apply IH in E. lia. }
      apply MONS in E0. cbn [so_step] in E2. unfold so_solve in E2. destruct (nth_error (st_objs st1) k) eqn:E3; [|discriminate]. assert (k < length (st_objs st1)) by (apply nth_error_Some; congruence). assert (LE := MON (OSolve k) st1 st2). cbn [so_step] in LE. unfold so_solve in LE. rewrite E3 in LE. specialize (LE E2). lia. }
    rewrite in_app_iff. destruct op as [fuel c|i0|i0 j f|i0]; cbn [so_step] in E.
    + unfold so_new in E. destruct (ad_load fuel c); [|discriminate]. injection E as <-. cbn [st_objs] in Eo. destruct (Nat.lt_ge_cases i (length (st_objs st0))) as [Hi|Hi].
      * rewrite nth_error_app1 in Eo by auto. rewrite (IH i o Eo). split; [auto|intros [H|[H|[]]]; [auto|discriminate]].
      * rewrite nth_error_app2 in Eo by auto. destruct (i - length (st_objs st0)) as [|q]; [|destruct q; discriminate]. cbn in Eo. injection Eo as <-. cbn. split; [discriminate|]. intros [H|[H|[]]]; [|discriminate]. exfalso. apply (NOW i Hi H).
    + unfold so_copy in E. destruct (nth_error (st_objs st0) i0) as [o0|]; [|discriminate]. destruct (so_view st0 i0); [|discriminate]. destruct (so_solved o0); [discriminate|]. injection E as <-. cbn [st_objs] in Eo. destruct (Nat.lt_ge_cases i (length (st_objs st0))) as [Hi|Hi].
      * rewrite nth_error_app1 in Eo by auto. rewrite (IH i o Eo). split; [auto|intros [H|[H|[]]]; [auto|discriminate]].
      * rewrite nth_error_app2 in Eo by auto. destruct (i - length (st_objs st0)) as [|q]; [|destruct q; discriminate]. cbn in Eo. injection Eo as <-. cbn. split; [discriminate|]. intros [H|[H|[]]]; [|discriminate]. exfalso. apply (NOW i Hi H).
    + unfold so_forbid, so_update in E. destruct (nth_error (st_objs st0) i0) as [o0|]; [|discriminate]. destruct (so_view st0 i0); [|discriminate]. injection E as <-. cbn [st_objs] in Eo. rewrite (IH i o Eo). split; [auto|intros [H|[H|[]]]; [auto|discriminate]].
    + unfold so_solve in E. destruct (nth_error (st_objs st0) i0) as [o0|] eqn:E1; [|discriminate]. injection E as <-. cbn [st_objs] in Eo. assert (Hi : i0 < length (st_objs st0)) by (apply nth_error_Some; congruence). destruct (Nat.eq_dec i0 i) as [<-|NE].
      * rewrite put_same in Eo by auto. injection Eo as <-. cbn. split; auto.
      * rewrite put_other in Eo by auto. rewrite (IH i o Eo). split; [auto|]. intros [H|[H|[]]]; auto. congruence.
Qed.
Theorem copy_raises ops st i : so_run ops = Some st -> i < length (st_objs st) -> (so_copy i st = None <-> solved ops i).
Proof.
  intros E Hi. destruct (run_ledger ops st E) as (l & E1 & (R1 & _ & _ & _ & _ & R6)). unfold so_copy. destruct (nth_error (st_objs st) i) as [o|] eqn:Eo; [|apply nth_error_None in Eo; lia].
  destruct (nth_error l i) as [r|] eqn:Er; [|apply nth_error_None in Er; lia]. destruct (R6 i r Er) as (a0 & _ & Ev). rewrite Ev. rewrite <- (solved_flag ops st E i o Eo). destruct (so_solved o); split; auto; discriminate.
Qed.
