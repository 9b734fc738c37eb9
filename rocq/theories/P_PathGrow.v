(** CubePathTree.grow enumerates the Hamiltonian paths. *)
From Verif Require Import Py L_Py L_BaseMaps M_BaseMaps M_Subsets M_PathTree S_Subsets S_PathTree P_Facets P_PathTree P_PathGlue.
From Coq Require Import Permutation.
Local Open Scope nat_scope.

Section Main.
Context {S : Type} (seqb : S -> S -> bool) (HS : eqb_ok seqb) (hash : future_t S -> Z) (HH : hash_ok hash).
Context (d N : nat) (H2 : 2 <= N ^ d) (good : S -> Prop).
Context (f : list Z -> S -> option (list (list Z * S))) (HF : step_ok d N good f).
Context (start finish : list (list Z * S)).
Context (SN : NoDup start) (SG : Forall (fun x => grid_cube d N (fst x) /\ good (snd x)) start).
Context (FN : NoDup finish) (FG : Forall (fun x => grid_cube d N (fst x) /\ good (snd x)) finish).

Lemma grown_ending g p : converse d N good f g -> (grown d N good g finish p <-> ending d N good f finish p).
Proof.
  intros HC. unfold grown, ending. split; intros (G1 & G2 & G3 & G4); (split; [auto|split; [|split; auto]]); rewrite Forall_forall in G4;
    (eapply steps_impl; [|exact G2]); intros x y Hx Hy; apply G4 in Hx, Hy; destruct Hx, Hy; apply HC; auto.
Qed.
Lemma future_eqb_same fu fu' : future_eqb seqb fu fu' = true <-> (forall c, In c (fst fu) <-> In c (fst fu')) /\ snd fu = snd fu'.
Proof.
  unfold future_eqb, set_eqb. rewrite !andb_true_iff, (node_eqb_ok seqb HS (snd fu) (snd fu')). unfold subset. rewrite !forallb_forall. split.
  - intros ((A & B) & E). split; auto. intros c. split; intros H; apply inset_In; auto.
  - intros (A & E). split; auto. split; intros c H; apply inset_In, A; auto.
Qed.
Lemma groups_spec n1 starts : lists_all d N good f start n1 starts ->
  exists gs, group_paths seqb hash starts = Some gs /\ Permutation (concat gs) starts /\
    Forall (fun g => g <> [] /\ forall p q, In p g -> In q g -> same_future p q) gs.
Proof.
  intros (HN & HL).
  assert (exists fps, with_future starts = Some fps /\ map snd fps = starts /\ forall fu p, In (fu, p) fps -> future p = Some fu /\ In p starts) as (fps & EF & EM & HI).
  { assert (HNE : forall p, In p starts -> p <> []) by (intros p Hp; apply HL in Hp; eapply grown_ne; apply Hp).
    clear - HNE. unfold with_future. induction starts as [|p l IH]; [exists []; split; auto; split; auto; intros ? ? []|].
    destruct IH as (fps & E & EM & HI); [intros; apply HNE; cbn; auto|]. cbn [omap]. rewrite E. destruct p as [|h t]; [exfalso; eapply HNE; cbn; eauto|].
    cbn [future option_map]. eexists; split; [reflexivity|]. split; [cbn; congruence|]. intros fu p [[= <- <-]|Hin]; [cbn; auto|]. apply HI in Hin. cbn; tauto. }
  unfold group_paths. rewrite EF. cbn [option_map]. eexists; split; [reflexivity|].
  pose proof (group_by_perm Z.eqb (map (fun fp => (hash (fst fp), fp)) fps)) as P1.
  rewrite map_map in P1. cbn [snd] in P1. rewrite map_id in P1.
  set (dd := group_by Z.eqb (map (fun fp => (hash (fst fp), fp)) fps)) in *.
  assert (HSub : forall hg fp, In hg dd -> In fp (snd hg) -> In fp fps).
  { intros hg fp H1 H3. eapply Permutation_in; [exact P1|]. apply in_concat. exists (snd hg). split; auto. apply in_map; auto. }
  split.
  - rewrite <- EM. rewrite <- P1. clear. clearbody dd. induction dd as [|hg dd IH]; auto. cbn. rewrite concat_app, map_app, IH.
    apply Permutation_app_tail. apply group_by_perm.
  - rewrite Forall_forall. intros g Hg. apply in_flat_map in Hg. destruct Hg as (hg & Hhg & Hg). apply in_map_iff in Hg. destruct Hg as ([k g'] & <- & Hg).
    assert (HR : forall k, future_eqb seqb k k = true) by (intros; apply future_eqb_same; tauto).
    pose proof (group_by_hom (future_eqb seqb) (snd hg) HR) as HM. rewrite Forall_forall in HM. apply HM in Hg. destruct Hg as (G1 & G2). cbn in *.
    split; auto. rewrite Forall_forall in G2. intros p q Hp Hq. apply G2 in Hp, Hq. destruct Hp as (k1 & I1 & E1), Hq as (k2 & I2 & E2).
    apply (HSub hg) in I1, I2; auto. apply HI in I1, I2. apply future_eqb_same in E1, E2.
    destruct I1 as (F1 & S1), I2 as (F2 & S2). apply HL in S1, S2. destruct S1 as ((_ & _ & N1 & _) & _), S2 as ((_ & _ & N2 & _) & _).
    destruct p as [|h t]; [discriminate|]. destruct q as [|h' u]; [discriminate|]. unfold future in F1, F2.
    rewrite tail_support_cons in F1 by auto. rewrite tail_support_cons in F2 by auto. injection F1 as <-. injection F2 as <-. cbn in E1, E2.
    destruct E1 as (C1 & ->), E2 as (C2 & E2). subst h'. exists (snd k), t, u. split; auto. split; auto. intros c. rewrite C1, C2. tauto.
Qed.
Lemma omap_eventually {A B} (G : nat -> A -> option B) (Q : A -> B -> Prop) l :
  Forall (fun g => exists F r, (forall fuel, F <= fuel -> G fuel g = Some r) /\ Q g r) l ->
  exists F rs, (forall fuel, F <= fuel -> omap (G fuel) l = Some rs) /\ Forall2 Q l rs.
Proof.
  induction 1 as [|g l (F1 & r & H1 & Q1) HL (F2 & rs & H3 & Q2)].
  - exists 0, []. split; auto.
  - exists (Nat.max F1 F2), (r :: rs). split; [|constructor; auto]. intros fuel HFu. cbn. rewrite H1, H3 by lia. auto.
Qed.
Lemma grow_spec (prev : option (@step_func S)) smax fmax :
  match fmax with None => True | Some _ => exists g, prev = Some g /\ step_ok d N good g /\ converse d N good f g end ->
  exists F r, (forall fuel, F <= fuel -> grow seqb hash d N f prev fuel start finish smax fmax = Some r) /\ NoDup r /\
    (forall z, In z r <-> hamiltonian d N f start finish z).
Proof.
  intros HP. set (steps := N ^ d / 2 - 1).
  assert (HHalf : N ^ d / 2 <= N ^ d / 2 /\ 2 * (N ^ d / 2) <= N ^ d /\ 1 <= N ^ d / 2).
  { pose proof (Nat.div_mod (N ^ d) 2 ltac:(lia)). pose proof (Nat.mod_upper_bound (N ^ d) 2 ltac:(lia)). lia. }
  destruct (width_spec d N good f HF start (Some smax) steps 1 (map (fun x => [x]) start)) as (n1 & starts & E1 & B1 & L1); auto.
  { apply lists_init; auto. }
  assert (exists n2 fins, match fmax with
            | None => Some (map (fun x => [x]) finish)
            | Some m => match prev with None => None | Some pf => width_search N pf steps (Some m) (map (fun x => [x]) finish) end
            end = Some fins /\ 1 <= n2 <= 1 + steps /\ NoDup fins /\ forall p, In p fins <-> ending d N good f finish p /\ length p = n2) as (n2 & fins & E2 & B2 & L2 & L3).
  { destruct fmax as [m|].
    - destruct HP as (g & -> & HG & HC). destruct (width_spec d N good g HG finish (Some m) steps 1 (map (fun x => [x]) finish)) as (n2 & fins & E2 & B2 & L2 & L3); auto.
      { apply lists_init; auto. }
      exists n2, fins. split; auto. split; auto. split; auto. intros p. rewrite L3. rewrite (grown_ending g p HC). tauto.
    - exists 1, (map (fun x => [x]) finish). split; auto. split; [lia|].
      destruct (lists_init d N good f finish FN FG) as (A1 & A2). split; auto. intros p. rewrite A2. clear.
      split; intros (H & HL); split; auto; destruct p as [|x [|]]; try discriminate; destruct H as (G1 & G2 & G3); split; auto. }
  unfold grow. cbv zeta. fold steps. rewrite E1, E2.
  assert (HE : (forall p, ~ In p starts) \/ (forall p, ~ In p fins) -> forall z, ~ hamiltonian d N f start finish z).
  { intros HE z HZ.
    assert (HGS : Forall (fun x => good (snd x)) start) by (eapply Forall_impl; [|exact SG]; cbn; tauto).
    destruct (ham_meet d N good f HF start finish z n2 HGS ltac:(lia) HZ) as (mid & fin & _ & HM & HFi & _ & LM & LF).
    destruct HE as [HE|HE].
    - apply (HE (skipn (length mid - n1) mid)). apply L1. split; [|rewrite skipn_length; lia].
      rewrite <- (firstn_skipn (length mid - n1) mid) in HM. eapply grown_app; [|exact HM]. intros E. apply (f_equal (@length _)) in E.
      rewrite skipn_length in E. cbn in E. lia.
    - apply (HE fin). apply L3. auto. }
  destruct starts as [|p0 starts'] eqn:ES.
  { exists 0, []. split; auto. split; [constructor|]. intros z. split; [intros []|]. apply HE. left. intros p []. }
  rewrite <- ES in *. clear HE.
  destruct fins as [|f0 fins'] eqn:EFi.
  { exists 0, []. split; [auto|]. split; [constructor|]. intros z. split; [intros []|].
    intros HZ. assert (HGS : Forall (fun x => good (snd x)) start) by (eapply Forall_impl; [|exact SG]; cbn; tauto).
    destruct (ham_meet d N good f HF start finish z n2 HGS ltac:(lia) HZ) as (mid & fin & _ & HM & HFi & _ & LM & LF).
    apply (L3 fin). auto. }
  rewrite <- EFi in *.
  assert (LF0 : length f0 = n2) by (apply L3; rewrite EFi; cbn; auto).
  assert (exists hps, omap (fun p => option_map (fun fu => (hash fu, p)) (complement_future (all_cubes d N) p)) fins = Some hps) as (hps & EH).
  { assert (HNE : forall p, In p fins -> p <> []) by (intros p Hp; apply L3 in Hp; destruct Hp as (_ & HL); intros ->; cbn in HL; lia).
    clear - HNE. induction fins as [|p l IH]; [eexists; reflexivity|]. destruct IH as (hps & E); [intros; apply HNE; cbn; auto|]. cbn [omap]. rewrite E.
    destruct p; [exfalso; eapply HNE; cbn; eauto|]. eexists; reflexivity. }
  destruct (groups_spec n1 starts L1) as (gs & EG & PG & HGs).
  set (k := N ^ d - n2 - n1).
  assert (HLEN : n1 + Datatypes.S k + n2 = N ^ d + 1) by (unfold k; lia).
  assert (HNG : NoDup (concat gs)) by (eapply Permutation_NoDup; [symmetry; exact PG|apply L1]).
  assert (HGI : forall g p, In g gs -> In p g -> grown d N good f start p /\ length p = n1).
  { intros g p H1 H3. apply L1. eapply Permutation_in; [exact PG|]. apply in_concat; eauto. }
  assert (HGN : Forall (@NoDup _) gs). { apply NoDup_groups; auto. eapply Forall_impl; [|exact HGs]. cbn. tauto. }
  set (Q := fun g r => NoDup r /\ (forall z, In z r <-> exists st t fin, In st g /\ length t = Datatypes.S k /\ grown d N good f start (t ++ st) /\ In fin fins /\ meet (t ++ st) fin /\
                         z = rev (t ++ st) ++ tl fin)).
  destruct (omap_eventually (fun fuel => grow_group seqb hash N f fuel (n1 + Datatypes.S k) (group_by Z.eqb hps)) Q gs) as (F & rs & HO & HQ).
  { rewrite Forall_forall in *. intros g Hg. destruct (HGs g Hg) as (G1 & G2).
    destruct (group_spec seqb HS hash HH d N good f HF start finish n2 k fins L2 L3 hps EH g n1) as (F & r & A1 & A2); eauto.
  }
  exists F, (concat rs).
  assert (ELen : N ^ d - length f0 + 1 = n1 + Datatypes.S k) by lia.
  split.
  { intros fuel HFu. rewrite ELen, EH, EG, HO; auto. }
  split.
  - clear HO. assert (HGI2 : forall g p, In g gs -> In p g -> length p = n1) by (intros; eapply HGI; eauto).
    clear - HQ HNG HGI2. induction HQ as [|g r gs rs (Q1 & Q2) HQ IH]; [constructor|]. cbn in *. apply NoDup_app_intro; auto.
    + apply IH; [eapply nodup_app_r; eauto|]. intros; eapply HGI2; eauto.
    + intros z Hz Hz'. apply Q2 in Hz. destruct Hz as (st & t & fin & Hst & HLt & _ & _ & _ & Ez).
      apply in_concat in Hz'. destruct Hz' as (r' & Hr' & Hz').
      assert (exists g', In g' gs /\ Q g' r') as (g' & Hg' & _ & Q2').
      { clear - HQ Hr'. induction HQ; [destruct Hr'|]. destruct Hr' as [<-|Hr']; [exists x; cbn; auto|]. destruct IHHQ as (g' & A & B); auto. exists g'; cbn; auto. }
      apply Q2' in Hz'. destruct Hz' as (st' & t' & fin' & Hst' & HLt' & _ & _ & _ & Ez').
      assert (st = st').
      { rewrite Ez in Ez'. rewrite !rev_app_distr, <- !app_assoc in Ez'. apply app_inv_length in Ez'.
        - destruct Ez' as (E & _). apply (f_equal (@rev _)) in E. rewrite !rev_involutive in E. auto.
        - rewrite !rev_length. rewrite (HGI2 g st), (HGI2 g' st'); cbn; auto. }
      subst st'. clear - HNG Hst Hst' Hg'. induction g as [|a g IH]; [destruct Hst|]. cbn in HNG. inversion HNG; subst.
      destruct Hst as [->|Hst]; auto. apply H1. apply in_app_iff. right. apply in_concat; eauto.
  - intros z. rewrite in_concat. split.
    + intros (r & Hr & Hz). assert (exists g, In g gs /\ Q g r) as (g & Hg & _ & Q2).
      { clear - HQ Hr. induction HQ; [destruct Hr|]. destruct Hr as [<-|Hr]; [exists x; cbn; auto|]. destruct IHHQ as (g & A & B); auto. exists g; cbn; auto. }
      apply Q2 in Hz. destruct Hz as (st & t & fin & Hst & HLt & HG & HFi & HM & ->). apply L3 in HFi. destruct HFi as (HFi & HLf).
      apply (meet_ham d N good f start finish); auto. destruct (HGI g st Hg Hst) as (_ & HLs). rewrite app_length. lia.
    + intros HZ. assert (HGS : Forall (fun x => good (snd x)) start) by (eapply Forall_impl; [|exact SG]; cbn; tauto).
      destruct (ham_meet d N good f HF start finish z n2 HGS ltac:(lia) HZ) as (mid & fin & -> & HM & HFi & HMe & LM & LF).
      set (t := firstn (length mid - n1) mid). set (st := skipn (length mid - n1) mid).
      assert (EM : mid = t ++ st) by (symmetry; apply firstn_skipn).
      assert (Lst : length st = n1) by (unfold st; rewrite skipn_length; lia).
      assert (Lt : length t = Datatypes.S k) by (apply (f_equal (@length _)) in EM; rewrite app_length in EM; lia).
      assert (Gst : grown d N good f start st). { rewrite EM in HM. eapply grown_app; [|exact HM]. intros E. rewrite E in Lst. cbn in Lst. lia. }
      assert (Hst : In st starts) by (apply L1; auto).
      apply (Permutation_in _ (Permutation_sym PG)) in Hst. apply in_concat in Hst. destruct Hst as (g & Hg & Hst).
      assert (exists r, In r rs /\ Q g r) as (r & Hr & _ & Q2).
      { clear - HQ Hg. induction HQ; [destruct Hg|]. destruct Hg as [<-|Hg]; [exists y; cbn; auto|]. destruct IHHQ as (r & A & B); auto. exists r; cbn; auto. }
      exists r. split; auto. apply Q2. exists st, t, fin. rewrite <- EM. split; auto. split; auto. split; auto. split; [apply L3; auto|]. auto.
Qed.
End Main.

(** more fuel does not change a result *)
Section Mono.
Context {S : Type} (seqb : S -> S -> bool) (hash : future_t S -> Z) (d N : nat) (f : @step_func S) (prev : option (@step_func S)).
Lemma depth_mono len : forall fuel fuel' todo r, fuel <= fuel' -> depth_loop N f fuel len todo = Some r -> depth_loop N f fuel' len todo = Some r.
Proof.
  induction fuel as [|fuel IH]; intros fuel' [|[p cs] todo] r HL; cbn [depth_loop]; auto.
  - destruct fuel'; auto.
  - discriminate.
  - destruct fuel'; auto.
  - destruct fuel' as [|fuel']; [lia|]. cbn [depth_loop]. destruct (Nat.eqb _ _).
    + destruct (continue_path N f p cs); [|discriminate]. destruct (depth_loop N f fuel len todo) eqn:E; [|discriminate].
      rewrite (IH fuel' todo _ ltac:(lia) E). auto.
    + destruct (Nat.ltb _ _); [destruct (continue_path N f p cs); [|discriminate]|]; apply IH; lia.
Qed.
Lemma omap_mono {A B} (F G : A -> option B) l r : (forall x y, F x = Some y -> G x = Some y) -> omap F l = Some r -> omap G l = Some r.
Proof.
  intros HI. revert r; induction l as [|x l IH]; cbn; auto. intros r. destruct (F x) eqn:E; [|discriminate]. rewrite (HI _ _ E).
  destruct (omap F l); [|discriminate]. rewrite (IH _ eq_refl). auto.
Qed.
Lemma grow_mono fuel fuel' start finish smax fmax r : fuel <= fuel' ->
  grow seqb hash d N f prev fuel start finish smax fmax = Some r -> grow seqb hash d N f prev fuel' start finish smax fmax = Some r.
Proof.
  intros HL. unfold grow. cbv zeta.
  destruct (width_search N f _ (Some smax) _) as [[|p0 starts]|]; auto.
  destruct (match fmax with Some _ => _ | None => _ end) as [[|f0 fins]|]; auto.
  destruct (omap _ (f0 :: fins)) as [hps|]; auto. destruct (group_paths _ _ _) as [gs|]; auto.
  destruct (omap (grow_group seqb hash N f fuel _ _) gs) as [rs|] eqn:E; [|discriminate].
  apply (omap_mono _ (grow_group seqb hash N f fuel' (N ^ d - length f0 + 1) (group_by Z.eqb hps))) in E; [rewrite E; auto|].
  intros g y. unfold grow_group. destruct g as [|p g]; auto. unfold depth_search.
  destruct (depth_loop N f fuel _ _) eqn:E2; [|discriminate]. rewrite (depth_mono _ _ fuel' _ _ HL E2). auto.
Qed.
End Mono.
