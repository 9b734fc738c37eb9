(** Bounds of the dilation from the subdivision of pairs alone, without the queue of the estimator. *)
From Verif Require Import Py L_Py L_Qc L_R M_BaseMaps S_BaseMaps L_BaseMaps M_Subsets M_Paths M_Curves M_Utils M_Heap M_Dilation S_Heap P_Heap S_Utils S_Curves S_Fuzzy
  P_CurveAct P_Core P_Bridge P_Cont P_Subdiv P_FuzzyOps S_Ratio S_Dilation P_Junctions P_JuncLoop P_JuncMain P_DilGeo P_DilRatio P_DilBounds P_DilPieces P_DilTree P_DilOps P_DilCreate P_DilRegular.
From Coq Require Import Reals Lra.
Local Open Scope nat_scope.

(** every pair in the subdivision of P, down to n levels, has an upper bound of at most M *)
Fixpoint pair_leb (ratio : ratio_func) (M : Qc) (n : nat) (P : piece_pair) : bool :=
  match get_bounds ratio P None with
  | Some (_, up, _) => if qleb up M then true else match n with 0 => false | S n' => match divide_balanced P with Some l => forallb (pair_leb ratio M n') l | None => false end end
  | None => false
  end.
Definition dil_leb (ratio : ratio_func) (M : Qc) (fuel n : nat) (c : curve) : bool :=
  match gen_regular_junctions fuel c with
  | (js, GDone) => forallb (fun jcc => match init_first_order c (fst (fst jcc)) (snd (fst jcc)) (snd jcc) with Some P => pair_leb ratio M n P | None => false end) (pair_data c js)
  | _ => false
  end.
(** the pair reached by the steps of the path has a lower bound of at least M *)
Fixpoint follow (path : list nat) (P : piece_pair) : option piece_pair :=
  match path with [] => Some P | i :: path' => obind (divide_balanced P) (fun l => obind (nth_error l i) (follow path')) end.
Definition dil_geb (ratio : ratio_func) (M : Qc) (fuel : nat) (c : curve) (fd : nat) (start : nat) (path : list nat) : bool :=
  match gen_regular_junctions fuel c, face_points c fd with
  | (js, GDone), Some pts =>
      match nth_error (pair_data c js) start with
      | Some jcc => match obind (init_first_order c (fst (fst jcc)) (snd (fst jcc)) (snd jcc)) (follow path) with
                    | Some P => match get_bounds ratio P (Some pts) with Some (lo, _, _) => qleb M lo | None => false end
                    | None => false
                    end
      | None => false
      end
  | _, _ => false
  end.

Section Check.
Context (ratio : ratio_func) (rR : list R -> R -> R) (c : curve) (HC : valid_curve c) (RO : ratio_ok (cv_dim c) (ratio (cv_dim c)) rR).
Let HD : dcls c := dcls_curve c HC.
Context (js : list junction) (HG : Forall (genuine c) js).
Notation AJ := (all_juncs c js).
Let JW := juncs_wft c js (js_wft c HC js HG).
Lemma pair_le_ok M : forall n P, pair_ok c AJ P -> pair_leb ratio M n P = true -> chosen_from (pp_curve P) c ->
  forall s u t w, pair_kq P c s u t w -> (jrho rR c (pp_junc P) s u t w <= qR M)%R.
Proof.
  induction n as [|n IH]; intros P HP H HX s u t w HQ; cbn [pair_leb] in H; destruct (bounds_ok ratio rR c HD RO AJ JW None P I HP) as (lo & up & am & E & B); rewrite E in H;
    destruct (qleb up M) eqn:EL; try discriminate;
    try (apply qleb_ok in EL; apply qR_le in EL; destruct (B c HX) as (B1 & _); destruct (B1 _ _ _ _ HQ) as [_ B2]; lra).
  destruct (divide_pair c HD AJ JW P HP) as (l & El & HF & HS & HCov). rewrite El in H. rewrite forallb_forall in H. destruct (HCov c s u t w HX HQ) as (P' & Hin & HX' & HQ').
  destruct (HS P' Hin) as (Ej & _ & _). rewrite <- Ej. rewrite Forall_forall in HF. apply (IH P'); auto.
Qed.
Lemma follow_ok : forall path P P', pair_ok c AJ P -> follow path P = Some P' -> pair_ok c AJ P'.
Proof.
  induction path as [|i path IH]; intros P P' HP E; cbn [follow] in E; [congruence|]. destruct (divide_pair c HD AJ JW P HP) as (l & El & HF & _). rewrite El in E. cbn [obind] in E.
  destruct (nth_error l i) as [Q|] eqn:EQ; [|discriminate]. cbn [obind] in E. rewrite Forall_forall in HF. apply (IH Q); auto. apply HF. eapply nth_error_In; eauto.
Qed.
End Check.

Lemma dil_le_ok ratio rR M fuel n c : valid_curve c -> ratio_ok (cv_dim c) (ratio (cv_dim c)) rR -> dil_leb ratio M fuel n c = true -> dilation_le rR c (qR M).
Proof.
  intros HC RO H. unfold dil_leb in H. destruct (gen_regular_junctions fuel c) as [js e] eqn:EJ. pose proof (gen_spec c HC fuel) as GS. rewrite EJ in GS. cbn [fst snd] in GS. cbv zeta in GS. destruct GS as (G1 & _ & _ & G4).
  destruct e; try discriminate. specialize (G4 eq_refl). rewrite forallb_forall in H. intros p s t0 u w Hp HA HB Hst. apply (graph_pattern c HC) in HA, HB; auto.
  set (t := bh_new (Some M) None true : tree).
  destruct (create_covers ratio rR c (dcls_curve c HC) RO js (js_wft c HC js G1) t c (fun _ => True) (chosen_self c HC)) with (p := p) (s := s) (u := u) (t0 := t0) (w := w) as (j & s' & u' & t' & w' & _ & Hh & ER); auto.
  - intros j k1 k2 s' u' t' w' Hin HQ. left. exists M. split; [reflexivity|]. destruct (init_ok c (dcls_curve c HC) js (js_wft c HC js G1) j k1 k2 Hin) as (P & E & HP & Ec & Ej & E1 & E2).
    specialize (H _ Hin). cbn [fst snd] in H. rewrite E in H. rewrite <- Ej. apply (pair_le_ok ratio rR c HC RO js G1 M n P HP H); [rewrite Ec; apply chosen_self; auto|].
    unfold pair_kq, jcs1, jcs2. rewrite Ej, E1, E2. exact HQ.
  - intros q cs cs' Hq Hc. destruct (G4 q cs cs' Hq Hc) as (j & Hj & He). eauto.
  - rewrite <- ER. destruct Hh as [(g & Eg & Hg)|(i & [Hi|Hi] & _)]; [|destruct Hi|destruct Hi]. assert (g = M) by (cbn in Eg; congruence). subst g. exact Hg.
Qed.
Lemma dil_ge_ok ratio rR M fuel c fd start path : valid_curve c -> ratio_ok (cv_dim c) (ratio (cv_dim c)) rR -> fd <= cv_dim c ->
  dil_geb ratio M fuel c fd start path = true -> dilation_ge rR c (qR M).
Proof.
  intros HC RO Hfd H. unfold dil_geb in H. destruct (gen_regular_junctions fuel c) as [js e] eqn:EJ. pose proof (gen_spec c HC fuel) as GS. rewrite EJ in GS. cbn [fst snd] in GS. cbv zeta in GS. destruct GS as (G1 & _ & _ & _).
  destruct e; try discriminate. destruct (face_points_ok c fd HC Hfd) as (pts & Ep & Hpts). rewrite Ep in H. destruct (nth_error (pair_data c js) start) as [[[j k1] k2]|] eqn:Es; [|discriminate]. apply nth_error_In in Es.
  destruct (init_ok c (dcls_curve c HC) js (js_wft c HC js G1) j k1 k2 Es) as (P & E & HP & _). cbn [fst snd] in H. rewrite E in H. cbn [obind] in H. destruct (follow path P) as [P'|] eqn:EF; [|discriminate].
  pose proof (follow_ok c HC js G1 path P P' HP EF) as HP'.
  destruct (bounds_ok ratio rR c (dcls_curve c HC) RO (all_juncs c js) (juncs_wft c js (js_wft c HC js G1)) (Some pts) P' Hpts HP') as (lo & up & am & EB & B). rewrite EB in H. apply qleb_ok in H. apply qR_le in H.
  assert (HI : item_ok rR c (all_juncs c js) (BP lo up P' am)) by (split; [exact HP'|exact B]). destruct (item_ge ratio rR c HC RO js G1 (BP lo up P' am) HI) as (p & s & t & u & w & A1 & A2 & A3 & A4 & A5).
  exists p, s, t, u, w. split; [exact A1|]. split; [exact A2|]. split; [exact A3|]. split; [exact A4|]. cbn [bp_lo] in A5. lra.
Qed.
