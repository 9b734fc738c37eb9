(** C56: the text of a curve, as printed by search.py and read by Curve.parse (curves.py:53-54, 115-116, 537-551). *)
From Verif Require Import Py L_Py L_Qc M_BaseMaps S_BaseMaps L_BaseMaps M_Subsets S_Subsets M_Paths M_Curves S_Curves P_CurveAct P_Core P_Bridge P_Valid P_Check P_CurvePaths
  M_Text P_Text M_ProtoText P_ProtoText T_ProtoText M_GatesText S_GatesText P_GatesText M_Zoo M_CurveText S_CurveText P_CurveText.
Local Open Scope nat_scope.

(** Every curve of dimension at most 6 can be printed. Its text consists of one line per pattern, and there is only one way of
    cutting it into lines and fields. If the curve is continuous and has at most ten patterns, then Curve.parse of the fields
    gives the curve back, with pattern 0 selected. *)
Theorem C56_printed : forall c, valid_curve c -> cv_dim c <= 6 ->
  exists t ps, curve_str c = Some t /\ printed 0 ps t /\ length ps = cv_mult c /\ Forall (fun f => one_field (fst f) /\ one_field (snd f)) ps /\
    (forall ps', printed 0 ps' t -> Forall (fun f => one_field (fst f) /\ one_field (snd f)) ps' -> ps' = ps) /\
    (check c = Some true -> cv_mult c <= 10 -> curve_parse ps = Some (pattern_curve c 0)).
Proof.
  intros c HC Hd. destruct (printed_ok c HC Hd) as (t & E & P). exists t, (map (fields c) (seq 0 (cv_mult c))).
  assert (F : Forall (fun f => one_field (fst f) /\ one_field (snd f)) (map (fields c) (seq 0 (cv_mult c)))).
  { apply Forall_map, Forall_forall. intros p Hp. apply in_seq in Hp. apply fields_one; auto. lia. }
  split; auto. split; auto. split; [rewrite map_length, seq_length; auto|]. split; auto. split.
  - intros ps' P' F'. apply (printed_inj 0 ps' t); auto.
  - intros HCh Hm. rewrite curve_parse_eq by auto. pose proof HC as (_ & _ & _ & EK & _). unfold pattern_curve, cv_with_pnum. destruct c; cbn in *; subst; auto.
Qed.
Print Assumptions C56_printed.

Lemma cut_digits (a : text) : forall a' u u', Forall (fun x => is_digit x = true) a -> Forall (fun x => is_digit x = true) a' ->
  Forall (fun x => is_digit x = false) u -> Forall (fun x => is_digit x = false) u' -> a ++ u = a' ++ u' -> a = a' /\ u = u'.
Proof.
  induction a as [|x a IH]; intros [|y a'] u u' H1 H2 H3 H4 E; cbn in E; auto.
  - subst u. apply Forall_inv in H3. apply Forall_inv in H2. congruence.
  - subst u'. apply Forall_inv in H4. apply Forall_inv in H1. congruence.
  - injection E as <- E. apply IH in E as [-> ->]; auto; eapply Forall_inv_tail; eauto.
Qed.
Lemma spec_str_inj d s s' t : wf_bm d (sp_bm s) -> wf_bm d (sp_bm s') -> 1 <= d <= 6 -> spec_str s = Some t -> spec_str s' = Some t -> s = s'.
Proof.
  intros W W' Hd E E'. assert (HX : forall s, wf_bm d (sp_bm s) -> exists u, bm_str (sp_bm s) = Some u /\ bm_parse u = Some (sp_bm s) /\ Forall (fun x => is_digit x = false) u).
  { intros s0 W0. destruct (bm_parse_str d _ W0 Hd) as (u & Eu & Pu). exists u. split; auto. split; auto. rewrite (bm_str_eq d) in Eu by (auto; lia).
    apply (f_equal (fun o => match o with Some x => x | None => u end)) in Eu. cbv beta iota in Eu. rewrite <- Eu. apply Forall_app. split.
    - apply (letters_prop (fun x => is_digit x = false) d); auto using wf_inv; [lia|]. intros i f Hi. do 6 (destruct i as [|i]; [destruct f; reflexivity|]). lia.
    - destruct (time_rev (sp_bm s0)); repeat constructor. }
  destruct (HX s W) as (u & Eu & Pu & Fu). destruct (HX s' W') as (u' & Eu' & Pu' & Fu'). unfold spec_str in E, E'. rewrite Eu in E. rewrite Eu' in E'. cbn [option_map] in E, E'.
  assert (EE : dec (sp_pnum s) ++ u = dec (sp_pnum s') ++ u') by congruence.
  pose proof (dec_number (sp_pnum s)) as D. pose proof (dec_number (sp_pnum s')) as D'.
  apply cut_digits in EE as [E1 ->]; auto; try (apply (proj1 (number_digits _ _ D)) || apply (proj1 (number_digits _ _ D'))).
  rewrite E1 in D. apply digits_val_ok in D, D'. rewrite D in D'. assert (EN : sp_pnum s = sp_pnum s') by (assert (N.of_nat (sp_pnum s) = N.of_nat (sp_pnum s')) by congruence; lia).
  assert (EB : sp_bm s = sp_bm s') by congruence. destruct s, s'; cbn in *; congruence.
Qed.
(** Continuous curves with the same text are the same, up to the selected pattern; here the number of patterns is not bounded. *)
Theorem C56_injective : forall c c' t, valid_curve c -> valid_curve c' -> cv_dim c <= 6 -> cv_dim c' <= 6 -> check c = Some true -> check c' = Some true ->
  curve_str c = Some t -> curve_str c' = Some t -> cv_with_pnum c (cv_pnum c') = c'.
Proof.
  intros c c' t HC HC' Hd Hd' HCh HCh' E E'. destruct (printed_ok c HC Hd) as (t1 & E1 & P1). destruct (printed_ok c' HC' Hd') as (t2 & E2 & P2).
  assert (t1 = t) by congruence. assert (t2 = t) by congruence. subst t1 t2.
  assert (FF : forall c, valid_curve c -> cv_dim c <= 6 -> Forall (fun f => one_field (fst f) /\ one_field (snd f)) (map (fields c) (seq 0 (cv_mult c)))).
  { intros c0 HC0 Hd0. apply Forall_map, Forall_forall. intros p Hp. apply in_seq in Hp. apply fields_one; auto. lia. }
  pose proof (printed_inj _ _ _ P1 _ P2 (FF c HC Hd) (FF c' HC' Hd')) as EF.
  assert (Em : cv_mult c = cv_mult c') by (apply (f_equal (@length _)) in EF; rewrite !map_length, !seq_length in EF; auto).
  assert (EP : forall p, p < cv_mult c -> fields c p = fields c' p).
  { intros p Hp. pose proof (nth_error_seq_map (fields c) _ p Hp) as H. pose proof (nth_error_seq_map (fields c') (cv_mult c') p ltac:(lia)) as H'. congruence. }
  assert (EC : forall p, p < cv_mult c -> Pr (cv_dim c) (cv_div c) (map Some (cubes c p)) = Pr (cv_dim c') (cv_div c') (map Some (cubes c' p))).
  { intros p Hp. pose proof (chain_parse c HC Hd p HCh Hp) as A. pose proof (chain_parse c' HC' Hd' p HCh' ltac:(lia)) as A'.
    pose proof (f_equal fst (EP p Hp)) as X. unfold fields in X. cbn [fst] in X. rewrite X in A. congruence. }
  pose proof (mult_pos c HC Hd) as HM.
  assert (ED : cv_dim c = cv_dim c') by (apply (f_equal pr_dim (EC 0 HM))). assert (EN : cv_div c = cv_div c') by (apply (f_equal pr_div (EC 0 HM))).
  assert (EG : cv_genus c = cv_genus c') by (unfold cv_genus; rewrite ED, EN; auto).
  assert (EPt : cv_pats c = cv_pats c').
  { apply nth_error_ext. intros p. destruct (le_lt_dec (cv_mult c) p) as [L|L].
    - assert (X : nth_error (cv_pats c) p = None) by (apply nth_error_None; auto). assert (X' : nth_error (cv_pats c') p = None) by (apply nth_error_None; change (cv_mult c' <= p); lia). congruence.
    - destruct (nth_error (cv_pats c) p) as [pat|] eqn:A; [|apply nth_error_None in A; change (cv_mult c <= p) in A; lia].
      destruct (nth_error (cv_pats c') p) as [pat'|] eqn:A'; [|apply nth_error_None in A'; change (cv_mult c' <= p) in A'; lia].
      f_equal. pose proof (pat_proto_eq c HC p pat A) as B. pose proof (pat_proto_eq c' HC' p pat' A') as B'.
      rewrite <- map_map in B, B'. fold (cubes c p) in B. fold (cubes c' p) in B'. rewrite (EC p L), <- B' in B.
      pose proof (pat_specs_eq c HC p pat A) as D. pose proof (pat_specs_eq c' HC' p pat' A') as D'.
      assert (ES : pat_specs pat = pat_specs pat').
      { rewrite D, D', EG. apply map_ext_in. intros k Hk. apply in_seq in Hk. f_equal.
        pose proof (f_equal snd (EP p L)) as X. unfold fields in X. cbn [snd] in X. apply (f_equal (M_Zoo.split_on ","%char)) in X.
        rewrite !specs_split in X by (auto; lia). unfold specs_text in X. rewrite EG in X. apply (f_equal (fun l => nth_error l k)) in X.
        rewrite (nth_error_seq_map (fun k => match spec_str (kspec (core_of c) p k) with Some t => t | None => [] end)) in X by lia.
        rewrite (nth_error_seq_map (fun k => match spec_str (kspec (core_of c') p k) with Some t => t | None => [] end)) in X by lia.
        destruct (spec_str_ok c HC Hd p k L ltac:(lia)) as (u & U & _). destruct (spec_str_ok c' HC' Hd' p k ltac:(lia) ltac:(lia)) as (u' & U' & _).
        rewrite U, U' in X. assert (u = u') by congruence. subst u'.
        pose proof (proj1 (kspec_wf c HC p k L ltac:(lia))) as W. pose proof (proj1 (kspec_wf c' HC' p k ltac:(lia) ltac:(lia))) as W'. rewrite <- ED in W'.
        apply (spec_str_inj (cv_dim c) _ _ u W W'); auto. split; [apply HC|auto]. }
      destruct pat, pat'; cbn in *; congruence. }
  pose proof HC as (_ & _ & _ & K1 & _). pose proof HC' as (_ & _ & _ & K2 & _). unfold cv_with_pnum. destruct c, c'; cbn in *; congruence.
Qed.
Print Assumptions C56_injective.

(** Beyond ten patterns it fails: a curve with a spec that refers to pattern 10 or more is printed, but its text is not parsed. *)
Theorem C56_many_patterns_refuted : forall c p k s, valid_curve c -> cv_dim c <= 6 -> p < cv_mult c -> get_spec c p k = Some (Some s) -> 10 <= sp_pnum s ->
  exists t ps, curve_str c = Some t /\ printed 0 ps t /\ Forall (fun f => one_field (fst f) /\ one_field (snd f)) ps /\ curve_parse ps = None.
Proof.
  intros c p k s HC Hd Hp Es Hs. destruct (printed_ok c HC Hd) as (t & E & P). exists t, (map (fields c) (seq 0 (cv_mult c))). split; auto. split; auto. split.
  - apply Forall_map, Forall_forall. intros q Hq. apply in_seq in Hq. apply fields_one; auto. lia.
  - apply (curve_parse_big c HC Hd p k s); auto.
Qed.
Print Assumptions C56_many_patterns_refuted.

(** Without continuity it fails too: the text of this curve of dimension 1 is parsed, as another curve. *)
Definition gap_curve : curve :=
  Cv 1 3 [Pat (Pr 1 3 [Some [0%Z]; Some [2%Z]; Some [1%Z]]) [Some (Sp (id_map 1) 0); Some (Sp (id_map 1) 0); Some (Sp (id_map 1) 0)]] 0 KCurve.
Theorem C56_gap_refuted : exists c t ps c', valid_curve c /\ cv_dim c <= 6 /\ check c = Some false /\ curve_str c = Some t /\ printed 0 ps t /\
  Forall (fun f => one_field (fst f) /\ one_field (snd f)) ps /\ curve_parse ps = Some c' /\ c' <> c.
Proof.
  assert (HC : valid_curve gap_curve) by (apply valid_curveb_ok; vm_compute; reflexivity).
  assert (Hd : cv_dim gap_curve <= 6) by (cbn; lia).
  destruct (C56_printed gap_curve HC Hd) as (t & ps & E & P & HL & F & U & _).
  assert (X : exists t0 ps0, curve_str gap_curve = Some t0 /\ printed 0 ps0 t0 /\ ps0 = [(["("; ")"; "I"], ["0"; "i"; ","; "0"; "i"; ","; "0"; "i"])]%char).
  { eexists. eexists. split; [vm_compute; reflexivity|]. split; [|reflexivity]. apply (printed_one 0). }
  destruct X as (t0 & ps0 & E0 & P0 & E1). assert (t0 = t) by congruence. subst t0.
  assert (F0 : Forall (fun f => one_field (fst f) /\ one_field (snd f)) ps0).
  { rewrite E1. constructor; [|constructor]. split; split; cbn; intros H; repeat (destruct H as [H|H]; [discriminate H|]); destruct H. }
  eexists. exists t, ps0. eexists. split; [exact HC|]. split; [exact Hd|]. split; [vm_compute; reflexivity|]. split; [exact E|]. split; [exact P0|]. split; [exact F0|].
  split; [rewrite E1; vm_compute; reflexivity|]. discriminate.
Qed.
Print Assumptions C56_gap_refuted.
(** Curve.parse does not check what it reads: with too few specs, or with patterns of different dimensions, it returns something
    that is not a curve. *)
Theorem C56_parse_unchecked_refuted :
  (exists ps c, curve_parse ps = Some c /\ ps = [(["j"; "i"; "J"], ["i"; "j"])]%char /\ ~ valid_curve c) /\
  (exists ps c, curve_parse ps = Some c /\ ps = [(["j"; "i"; "J"], ["j"; "i"; ","; "i"; "j"; ","; "i"; "j"; ","; "J"; "I"]); (["i"], ["i"; ","; "i"])]%char /\ ~ valid_curve c).
Proof.
  split.
  - eexists. eexists. split; [|split; [reflexivity|]]; [vm_compute; reflexivity|]. intros (_ & _ & _ & _ & H). apply Forall_inv in H. destruct H as (_ & H & _). vm_compute in H. discriminate H.
  - eexists. eexists. split; [|split; [reflexivity|]]; [vm_compute; reflexivity|]. intros (_ & _ & _ & _ & H). apply Forall_inv_tail, Forall_inv in H. destruct H as (_ & H & _). vm_compute in H. discriminate H.
Qed.
Print Assumptions C56_parse_unchecked_refuted.

(** Eleven copies of Hilbert's curve whose fractions are of pattern 10. *)
Definition eleven_hilberts : curve :=
  Cv 2 2 (repeat (Pat (Pr 2 2 [Some [0; 0]; Some [0; 1]; Some [1; 1]; Some [1; 0]]%Z)
    (map (fun b => Some (Sp b 10)) [BM [(1, false); (0, false)] false; id_map 2; id_map 2; BM [(1, true); (0, true)] false])) 11) 0 KCurve.
From Coq Require Import String.
Example C56_example :
  (let c := curve_or zoo_beta_omega in valid_curve c /\ cv_dim c <= 6 /\ check c = Some true /\ cv_mult c <= 10 /\ cv_mult c = 2 /\
    exists t, curve_str c = Some t /\ t = list_ascii_of_string "@0: jiJ | 1iJ,1jI,1ji~,1IJ~"%string ++ newline :: list_ascii_of_string "@1: jiJ | 1iJ,1jI,1ji~,0Ji"%string) /\
  (let c := eleven_hilberts in valid_curve c /\ cv_dim c <= 6 /\ check c = Some true /\ get_spec c 0 0 = Some (Some (Sp (BM [(1, false); (0, false)] false) 10))).
Proof.
  split; cbn zeta.
  - split; [apply valid_curveb_ok; vm_compute; reflexivity|]. split; [vm_compute; lia|]. split; [vm_compute; reflexivity|]. split; [vm_compute; lia|]. split; [vm_compute; reflexivity|].
    eexists. split; [|reflexivity]. vm_compute. reflexivity.
  - split; [apply valid_curveb_ok; vm_compute; reflexivity|]. split; [vm_compute; lia|]. split; vm_compute; reflexivity.
Qed.
