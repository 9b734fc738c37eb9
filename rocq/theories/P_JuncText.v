(** The text of junctions: proofs. *)
From Verif Require Import Py L_Py L_Qc M_BaseMaps S_BaseMaps L_BaseMaps M_Subsets M_Paths M_Curves S_Curves P_Core P_Bridge P_Valid P_CurveAct P_Junctions P_JuncLoop P_JuncMain P_JuncFacts
  M_Text P_Text M_GatesText S_GatesText P_GatesText M_CurveText P_CurveText T_CurveText M_JuncText.
Local Open Scope nat_scope.

Local Opaque dec.
Lemma cut (x : ascii) a : forall a' u u', ~ In x a -> ~ In x a' -> a ++ x :: u = a' ++ x :: u' -> a = a' /\ u = u'.
Proof.
  induction a as [|y a IH]; intros [|y' a'] u u' H H' E; cbn in *; injection E; auto.
  - intros _ <-. tauto.
  - intros _ ->. tauto.
  - intros E' <-. apply IH in E' as [-> ->]; auto.
Qed.
Lemma dec_inj n n' : dec n = dec n' -> n = n'.
Proof. intros E. pose proof (dec_number n) as A. pose proof (dec_number n') as B. rewrite E in A. apply digits_val_ok in A, B. rewrite A in B. injection B as B. lia. Qed.
Lemma dec_chars n x : In x (dec n) -> is_digit x = true.
Proof. pose proof (proj1 (number_digits _ _ (dec_number n))) as H. rewrite Forall_forall in H. apply H. Qed.
Lemma int_inj z z' : int_str z = int_str z' -> z = z'.
Proof.
  unfold int_str. destruct (z <? 0)%Z eqn:E; destruct (z' <? 0)%Z eqn:E'; cbn [app]; intros H; rewrite ?Z.ltb_lt, ?Z.ltb_ge in *.
  - injection H as H. apply dec_inj in H. lia.
  - exfalso. assert (X : In "-"%char (dec (Z.to_nat (Z.abs z')))) by (rewrite <- H; left; auto). apply dec_chars in X. discriminate.
  - exfalso. assert (X : In "-"%char (dec (Z.to_nat (Z.abs z)))) by (rewrite H; left; auto). apply dec_chars in X. discriminate.
  - apply dec_inj in H. lia.
Qed.
Lemma int_not z x : is_digit x = false -> x <> "-"%char -> ~ In x (int_str z).
Proof. intros H H' X. unfold int_str in X. apply in_app_or in X as [X|X]; [destruct (z <? 0)%Z; [destruct X as [X|[]]; auto|destruct X]|]. apply dec_chars in X. congruence. Qed.
Lemma join_inj l : forall l', length l = length l' -> join [","; " "]%char (map int_str l) = join [","; " "]%char (map int_str l') -> l = l'.
Proof.
  induction l as [|z l IH]; intros [|z' l'] HL E; try discriminate; auto. destruct l as [|w l]; destruct l' as [|w' l']; try discriminate.
  - cbn [map join] in E. apply int_inj in E. subst. auto.
  - change (int_str z ++ ","%char :: " "%char :: join [","; " "]%char (map int_str (w :: l)) = int_str z' ++ ","%char :: " "%char :: join [","; " "]%char (map int_str (w' :: l'))) in E.
    apply cut in E as [E1 E2]; [|apply int_not; [reflexivity|discriminate]|apply int_not; [reflexivity|discriminate]]. apply (f_equal (@tl ascii)) in E2. cbn [tl] in E2. apply int_inj in E1. apply (IH (w' :: l')) in E2; [|cbn in *; lia]. congruence.
Qed.
Lemma inner_inj l l' : length l = length l' -> tuple_inner l = tuple_inner l' -> l = l'.
Proof.
  intros HL E. destruct l as [|z [|w l]]; destruct l' as [|z' [|w' l']]; try discriminate; auto.
  - unfold tuple_inner in E. apply app_inj_tail in E as [E _]. apply int_inj in E. subst; auto.
  - apply join_inj; auto.
Qed.
Lemma inner_not l : ~ In ")"%char (tuple_inner l).
Proof.
  assert (I : forall z, ~ In ")"%char (int_str z)) by (intros; apply int_not; [reflexivity|discriminate]).
  assert (J : ~ In ")"%char (join [","; " "]%char (map int_str l))).
  { induction l as [|z l IH]; [intros []|]. destruct l as [|w l]; [apply I|]. change (~ In ")"%char (int_str z ++ [","; " "]%char ++ join [","; " "]%char (map int_str (w :: l)))). intros X. apply in_app_or in X as [X|X]; [apply (I z X)|]. destruct X as [X|[X|X]]; [discriminate|discriminate|auto]. }
  destruct l as [|z [|w l]]; auto. unfold tuple_inner. intros X. apply in_app_or in X as [X|[X|[]]]; [apply (I z X)|discriminate].
Qed.
Definition wf_junction (d : nat) (j : junction) : Prop := wf_bm d (sp_bm (j_spec1 j)) /\ wf_bm d (sp_bm (j_spec2 j)) /\ length (j_dx j) = d.
Lemma spec_text d s : wf_bm d (sp_bm s) -> d <= 6 -> exists t, spec_str s = Some t /\ ~ In " "%char t.
Proof.
  intros W Hd. assert (E : exists t, spec_str s = Some t) by (unfold spec_str; rewrite (bm_str_eq d) by auto; cbn [option_map]; eauto).
  destruct E as [t E]. exists t. split; auto. eapply okt_not; [eapply spec_ok; eauto|reflexivity].
Qed.
Lemma junc_text d a : wf_junction d a -> d <= 6 -> exists t, junc_str a = Some t.
Proof. intros (W1 & W2 & _) Hd. destruct (spec_text d _ W1 Hd) as (t1 & E1 & _). destruct (spec_text d _ W2 Hd) as (t2 & E2 & _). unfold junc_str. rewrite E1, E2. eauto. Qed.
Lemma junc_inj d a b : wf_junction d a -> wf_junction d b -> 1 <= d <= 6 -> junc_str a = junc_str b -> jkey a = jkey b.
Proof.
  intros (W1 & W2 & L) (W1' & W2' & L') Hd. destruct (spec_text d _ W1) as (t1 & E1 & N1); [lia|]. destruct (spec_text d _ W2) as (t2 & E2 & N2); [lia|].
  destruct (spec_text d _ W1') as (t1' & E1' & N1'); [lia|]. destruct (spec_text d _ W2') as (t2' & E2' & N2'); [lia|]. unfold junc_str. rewrite E1, E2, E1', E2'. intros E.
  assert (X : forall t u : text, Some t = Some u -> t = u) by congruence. apply X in E. clear X. cbn [app] in E. apply cut in E as [Ea E]; auto. injection E as E. rewrite <- !app_assoc in E. cbn [app] in E.
  apply cut in E as [Ex E]; try apply inner_not. injection E as E. apply cut in E as [Et E]; try (apply int_not; [reflexivity|discriminate]). injection E as E.
  apply inner_inj in Ex; [|congruence]. apply int_inj in Et. subst t1' t2'. unfold jkey. rewrite Ex, Et.
  rewrite (spec_str_inj d (j_spec1 a) (j_spec1 b) t1) by auto. rewrite (spec_str_inj d (j_spec2 a) (j_spec2 b) t2) by auto. auto.
Qed.
Lemma junc_str_key a b : jkey a = jkey b -> junc_str a = junc_str b.
Proof. unfold jkey, junc_str. intros E. injection E as -> -> -> ->. auto. Qed.
Lemma gen_wf c fuel j : valid_curve c -> In j (gen_auto_junctions c ++ fst (gen_regular_junctions fuel c)) -> wf_junction (cv_dim c) j.
Proof.
  intros HC Hj. apply in_app_or in Hj as [Hj|Hj].
  - unfold gen_auto_junctions in Hj. apply in_map_iff in Hj as (p & <- & _). unfold wf_junction. cbn. split; [apply wf_id|]. split; [apply wf_id|apply repeat_length].
  - destruct (gen_spec c HC fuel) as (H & _). rewrite Forall_forall in H. destruct (genuine_wf c HC j (H j Hj)) as ((X & _) & (Y & _) & Z). split; auto.
Qed.
