(** The SAT encoding: from clauses over boolean variables to integer clauses and back; meaning of the clause set. *)
From Verif Require Import Py L_Py M_BaseMaps M_Curves M_Sat S_BaseMaps S_Curves S_Fuzzy S_Sat L_BaseMaps P_Junctions.
From Coq Require Import Lia.
Local Open Scope nat_scope.

(** variables up to equality *)
Definition jk := (spec * spec * list Z * Z)%type.
Inductive vk : Type := KS (x : nat * nat * spec) | KJ (k : jk) | KC (l : list (nat * nat * spec)).
Definition vkey (v : bvar) : vk := match v with VSpec p k s => KS (p, k, s) | VJunc j => KJ (jkey j) | VCurve l => KC l end.
Lemma triple_eqb_ok : eqb_ok triple_eqb.
Proof.
  intros [[p k] s] [[p' k'] s']. unfold triple_eqb, pc_eqb. cbn [fst snd]. rewrite !andb_true_iff, !Nat.eqb_eq, (spec_eqb_ok s s'). split; [intros [[-> ->] ->]; auto|]. intros E. injection E as -> -> ->. auto.
Qed.
Lemma triples_eqb_ok : eqb_ok triples_eqb.
Proof.
  intros a. induction a as [|x a IH]; intros [|y b]; cbn; try (split; [discriminate|discriminate]); [tauto|]. rewrite andb_true_iff, (triple_eqb_ok x y), (IH b). split; [intros [-> ->]; auto|]. intros E. injection E as -> ->. auto.
Qed.
Lemma bvar_key a b : bvar_eqb a b = true <-> vkey a = vkey b.
Proof.
  destruct a, b; cbn [bvar_eqb vkey]; try (split; discriminate).
  - rewrite (triple_eqb_ok _ _). split; [intros E; injection E as -> -> ->; auto|intros E; injection E as -> -> ->; auto].
  - rewrite junc_eqb_key. split; [intros ->; auto|]. intros E. congruence.
  - rewrite (triples_eqb_ok _ _). split; [intros ->; auto|]. intros E. congruence.
Qed.
Lemma bvar_refl a : bvar_eqb a a = true. Proof. apply bvar_key. auto. Qed.
(** dictionaries with variables as keys *)
Definition dkeys {V} (d : list (bvar * V)) := map (fun e => vkey (fst e)) d.
Lemma dget_none {V} (d : list (bvar * V)) v : dget bvar_eqb d v = None <-> ~ In (vkey v) (dkeys d).
Proof.
  induction d as [|[w x] d IH]; cbn [dget dkeys map fst In]; [tauto|]. destruct (bvar_eqb v w) eqn:E.
  - apply bvar_key in E. split; [discriminate|]. intros H. exfalso. apply H. auto.
  - apply not_true_iff_false in E. rewrite bvar_key in E. rewrite IH. unfold dkeys. split; [intros H [X|X]; [congruence|auto]|tauto].
Qed.
Lemma dget_some {V} (d : list (bvar * V)) v x : dget bvar_eqb d v = Some x -> exists w, vkey w = vkey v /\ In (w, x) d.
Proof.
  induction d as [|[w y] d IH]; cbn [dget]; [discriminate|]. destruct (bvar_eqb v w) eqn:E.
  - intros X. injection X as ->. apply bvar_key in E. exists w. split; auto. left; auto.
  - intros X. destruct (IH X) as (w' & A & B). exists w'. split; auto. right; auto.
Qed.
Lemma dget_nth {V} (d : list (bvar * V)) i w x v : NoDup (dkeys d) -> nth_error d i = Some (w, x) -> vkey w = vkey v -> dget bvar_eqb d v = Some x.
Proof.
  revert i. induction d as [|[w' y] d IH]; intros i ND E Ek; [destruct i; discriminate|]. cbn [dkeys map fst] in ND. inversion ND as [|? ? NI ND']; subst. cbn [dget]. destruct i as [|i]; cbn in E.
  - injection E as -> ->. rewrite (proj2 (bvar_key v w)) by auto. auto.
  - destruct (bvar_eqb v w') eqn:E'; [|eapply IH; eauto]. apply bvar_key in E'. exfalso. apply NI. rewrite <- E', <- Ek. apply nth_error_In in E. apply (in_map (fun e => vkey (fst e)) _ _ E).
Qed.
Lemma dget_app {V} (d d' : list (bvar * V)) v : In (vkey v) (dkeys d) -> dget bvar_eqb (d ++ d') v = dget bvar_eqb d v.
Proof.
  induction d as [|[w y] d IH]; cbn [dkeys map fst In app dget]; [tauto|]. intros H. destruct (bvar_eqb v w) eqn:E; auto. apply IH. destruct H as [H|H]; auto. exfalso. apply not_true_iff_false in E. apply E. apply bvar_key. auto.
Qed.
Lemma dkeys_app {V} (d d' : list (bvar * V)) : dkeys (d ++ d') = dkeys d ++ dkeys d'. Proof. apply map_app. Qed.

(** numbers of variables *)
Notation nos := (list (bvar * Z)).
Definition nos_ok (n : nos) : Prop := NoDup (dkeys n) /\ forall i v z, nth_error n i = Some (v, z) -> z = (1 + Z.of_nat i)%Z.
Definition num (n : nos) (v : bvar) : Z := match dget bvar_eqb n v with Some z => z | None => 0%Z end.
Definition tok (n : nos) (vb : bvar * bool) : Z := if snd vb then num n (fst vb) else (- num n (fst vb))%Z.
Definition known (n : nos) (cl : list (bvar * bool)) : Prop := Forall (fun vb => In (vkey (fst vb)) (dkeys n)) cl.
Lemma num_nth n v : nos_ok n -> In (vkey v) (dkeys n) -> exists i w, nth_error n i = Some (w, num n v) /\ vkey w = vkey v /\ num n v = (1 + Z.of_nat i)%Z.
Proof.
  intros [ND HN] Hin. unfold num. destruct (dget bvar_eqb n v) as [z|] eqn:E; [|apply dget_none in E; contradiction].
  apply dget_some in E as (w & Ew & Hw). apply In_nth_error in Hw as (i & Hi). exists i, w. repeat split; auto. eapply HN; eauto.
Qed.
Lemma num_ext n n' v : In (vkey v) (dkeys n) -> num (n ++ n') v = num n v.
Proof. intros H. unfold num. rewrite dget_app; auto. Qed.
Lemma tok_ext n n' cl : known n cl -> map (tok (n ++ n')) cl = map (tok n) cl.
Proof. intros H. apply map_ext_in. intros vb Hvb. unfold known in H. rewrite Forall_forall in H. unfold tok. rewrite num_ext; auto. Qed.
Lemma known_ext n n' cl : known n cl -> known (n ++ n') cl.
Proof. apply Forall_impl. intros vb H. rewrite dkeys_app. apply in_or_app. auto. Qed.
Lemma token_fold cl : forall n acc, nos_ok n -> exists ext, fold_left token_step cl (n, acc) = (n ++ ext, acc ++ map (tok (n ++ ext)) cl) /\ nos_ok (n ++ ext) /\ known (n ++ ext) cl /\
  forall k, In k (dkeys ext) -> exists vb, In vb cl /\ vkey (fst vb) = k.
Proof.
  induction cl as [|vb cl IH]; intros n acc HN.
  - exists []. rewrite !app_nil_r. split; auto. split; auto. split; [constructor|intros k []].
  - cbn [fold_left]. unfold token_step at 2. destruct (dget bvar_eqb n (fst vb)) as [z|] eqn:E.
    + assert (Hin : In (vkey (fst vb)) (dkeys n)). { destruct (dget_some _ _ _ E) as (w & Ew & Hw). rewrite <- Ew. apply (in_map (fun e => vkey (fst e)) _ _ Hw). }
      rewrite E. destruct (IH n (acc ++ [if snd vb then z else (- z)%Z]) HN) as (ext & E1 & E2 & E3 & E4). exists ext. rewrite E1. split; [|split; auto; split].
      * cbn [map]. rewrite <- app_assoc. cbn [app]. do 3 f_equal. unfold tok. rewrite num_ext by auto. unfold num. rewrite E. auto.
      * constructor; auto. rewrite dkeys_app. apply in_or_app. auto.
      * intros k Hk. destruct (E4 k Hk) as (vb' & A & B). exists vb'. split; auto. right; auto.
    + apply dget_none in E. set (n1 := n ++ [(fst vb, (1 + Z.of_nat (length n))%Z)]).
      assert (HN1 : nos_ok n1).
      { destruct HN as [ND HZ]. split.
        - unfold n1. rewrite dkeys_app. apply NoDup_app_intro; auto; [repeat constructor; auto|]. intros k Hk [<-|[]]. contradiction.
        - intros i v z Hi. unfold n1 in Hi. destruct (Nat.lt_ge_cases i (length n)) as [Hl|Hl]; [rewrite nth_error_app1 in Hi by auto; eapply HZ; eauto|].
          rewrite nth_error_app2 in Hi by auto. destruct (i - length n) as [|q] eqn:Ei; cbn [nth_error] in Hi; [|destruct q; discriminate]. assert (z = 1 + Z.of_nat (length n))%Z by congruence. lia. }
      assert (Hin : In (vkey (fst vb)) (dkeys n1)) by (unfold n1; rewrite dkeys_app; apply in_or_app; right; cbn; auto).
      assert (Eg : dget bvar_eqb n1 (fst vb) = Some (1 + Z.of_nat (length n))%Z). { apply (dget_nth n1 (length n) (fst vb)); auto; [apply HN1|]. unfold n1. rewrite nth_error_app2, Nat.sub_diag by auto. auto. }
      rewrite Eg. destruct (IH n1 (acc ++ [if snd vb then (1 + Z.of_nat (length n))%Z else (- (1 + Z.of_nat (length n)))%Z]) HN1) as (ext & E1 & E2 & E3 & E4).
      exists ((fst vb, (1 + Z.of_nat (length n))%Z) :: ext). replace (n ++ (fst vb, (1 + Z.of_nat (length n))%Z) :: ext) with (n1 ++ ext) by (unfold n1; rewrite <- app_assoc; auto).
      rewrite E1. split; [|split; auto; split].
      * cbn [map]. rewrite <- app_assoc. cbn [app]. do 3 f_equal. unfold tok. rewrite num_ext by auto. unfold num. rewrite Eg. auto.
      * constructor; auto. rewrite dkeys_app. apply in_or_app. auto.
      * intros k Hk. cbn [dkeys map fst] in Hk. destruct Hk as [<-|Hk]; [exists vb; split; [left; auto|auto]|]. destruct (E4 k Hk) as (vb' & A & B). exists vb'. split; auto. right; auto.
Qed.

(** abstract clauses and valuations *)
Definition clause := list (bvar * bool).
Definition sat1 (V : vk -> bool) (cl : clause) : Prop := exists vb, In vb cl /\ V (vkey (fst vb)) = snd vb.
Definition sat (V : vk -> bool) (cls : list clause) : Prop := Forall (sat1 V) cls.
Definition enc (a : adapter) (cls : list clause) : Prop :=
  nos_ok (ad_var_no a) /\ Forall (known (ad_var_no a)) cls /\ ad_clauses a = map (map (tok (ad_var_no a))) cls /\
  forall k, In k (dkeys (ad_var_no a)) -> exists cl vb, In cl cls /\ In vb cl /\ vkey (fst vb) = k.
Lemma enc_append a cls cl : enc a cls -> enc (append_clause a cl) (cls ++ [cl]).
Proof.
  intros (HN & HK & HC & HU). unfold append_clause. destruct (token_fold cl (ad_var_no a) [] HN) as (ext & E & E1 & E2 & E3). rewrite E. cbn [app fst snd]. unfold enc. cbn [ad_var_no ad_clauses]. split; auto. split; [|split].
  - apply Forall_app. split; [|constructor; auto]. eapply Forall_impl; [|exact HK]. intros c. apply known_ext.
  - rewrite map_app. cbn [map]. f_equal. rewrite HC. apply map_ext_in. intros c Hc. rewrite Forall_forall in HK. rewrite tok_ext; auto.
  - intros k Hk. rewrite dkeys_app in Hk. apply in_app_or in Hk as [Hk|Hk].
    + destruct (HU k Hk) as (c & vb & A & B & C). exists c, vb. split; auto. apply in_or_app. auto.
    + destruct (E3 k Hk) as (vb & A & B). exists cl, vb. split; auto. apply in_or_app. right. cbn. auto.
Qed.
Lemma append_frame a cl : ad_curve (append_clause a cl) = ad_curve a /\ ad_curve_vars (append_clause a cl) = ad_curve_vars a.
Proof. unfold append_clause. destruct (fold_left _ _ _). auto. Qed.

(** tokens of known variables *)
Lemma tok_nonzero n vb : nos_ok n -> In (vkey (fst vb)) (dkeys n) -> tok n vb <> 0%Z.
Proof. intros HN Hin. destruct (num_nth n (fst vb) HN Hin) as (i & w & _ & _ & E). unfold tok. destruct (snd vb); lia. Qed.
Lemma num_inj n v w : nos_ok n -> In (vkey v) (dkeys n) -> In (vkey w) (dkeys n) -> num n v = num n w -> vkey v = vkey w.
Proof.
  intros HN Hv Hw E. destruct (num_nth n v HN Hv) as (i & x & A1 & A2 & A3). destruct (num_nth n w HN Hw) as (i' & x' & B1 & B2 & B3). assert (i = i') by lia. subst i'. rewrite A1 in B1. injection B1 as <- _. congruence.
Qed.
Lemma enc_nonzero a cls : enc a cls -> forall cl t, In cl (ad_clauses a) -> In t cl -> t <> 0%Z.
Proof.
  intros (HN & HK & HC & HU) cl t Hcl Ht. rewrite HC in Hcl. apply in_map_iff in Hcl as (c & <- & Hc). apply in_map_iff in Ht as (vb & <- & Hvb). apply tok_nonzero; auto. rewrite Forall_forall in HK. specialize (HK c Hc). unfold known in HK. rewrite Forall_forall in HK. auto.
Qed.
(** a satisfying valuation gives a satisfying assignment *)
Lemma sat_satisfies a cls V : enc a cls -> sat V cls -> exists val, satisfies val (ad_clauses a).
Proof.
  intros (HN & HK & HC & HU) HS. exists (fun z => match nth_error (ad_var_no a) (Z.to_nat (z - 1)) with Some e => V (vkey (fst e)) | None => false end).
  intros cl Hcl. rewrite HC in Hcl. apply in_map_iff in Hcl as (c & <- & Hc). unfold sat in HS. rewrite Forall_forall in HS. destruct (HS c Hc) as (vb & Hvb & EV). exists (tok (ad_var_no a) vb). split; [apply in_map; auto|].
  rewrite Forall_forall in HK. specialize (HK c Hc). unfold known in HK. rewrite Forall_forall in HK. destruct (num_nth _ _ HN (HK vb Hvb)) as (i & w & A1 & A2 & A3).
  assert (EA : Z.abs (tok (ad_var_no a) vb) = num (ad_var_no a) (fst vb)) by (unfold tok; destruct (snd vb); lia). rewrite EA, A3. replace (Z.to_nat (1 + Z.of_nat i - 1)) with i by lia. rewrite A1. cbn [fst]. rewrite A2, EV.
  unfold tok. destruct (snd vb); symmetry; [apply Z.ltb_lt|apply Z.ltb_ge]; lia.
Qed.
(** an assignment gives a valuation *)
Lemma satisfies_sat a cls val : enc a cls -> satisfies val (ad_clauses a) -> exists V, (forall v, In (vkey v) (dkeys (ad_var_no a)) -> V (vkey v) = val (num (ad_var_no a) v)) /\ sat V cls.
Proof.
  intros (HN & HK & HC & HU) HS.
  assert (VX : exists V : vk -> bool, forall v, In (vkey v) (dkeys (ad_var_no a)) -> V (vkey v) = val (num (ad_var_no a) v)).
  { assert (VD : forall n : nos, NoDup (dkeys n) -> exists V : vk -> bool, forall v, In (vkey v) (dkeys n) -> V (vkey v) = val (num n v)).
    { assert (KD : forall k k' : vk, {k = k'} + {k <> k'}) by (repeat decide equality; apply Z.eq_dec). intros n HND.
      exists (fun k => match find (fun e => if KD (vkey (fst e)) k then true else false) n with Some e => val (snd e) | None => false end). intros v Hv. unfold num.
      induction n as [|[w z] n IH]; [destruct Hv|]. cbn [find dget fst snd]. destruct (KD (vkey w) (vkey v)) as [E|E].
      - rewrite (proj2 (bvar_key v w)) by auto. auto.
      - destruct (bvar_eqb v w) eqn:E'; [apply bvar_key in E'; congruence|]. cbn [dkeys map fst] in *. inversion HND; subst. apply IH; auto. destruct Hv; [congruence|auto]. }
    apply VD. apply HN. }
  destruct VX as (V & HV). exists V. split; auto. apply Forall_forall. intros c Hc. destruct (HS (map (tok (ad_var_no a)) c)) as (t & Ht & Ev); [rewrite HC; apply in_map; auto|]. apply in_map_iff in Ht as (vb & <- & Hvb).
  exists vb. split; auto. rewrite Forall_forall in HK. specialize (HK c Hc). unfold known in HK. rewrite Forall_forall in HK. rewrite HV by auto. destruct (num_nth _ _ HN (HK vb Hvb)) as (i & w & A1 & A2 & A3).
  assert (EA : Z.abs (tok (ad_var_no a) vb) = num (ad_var_no a) (fst vb)) by (unfold tok; destruct (snd vb); lia). rewrite EA in Ev. rewrite Ev. unfold tok. destruct (snd vb); [apply Z.ltb_lt|apply Z.ltb_ge]; lia.
Qed.
