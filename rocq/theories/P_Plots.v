(** What plot_curve draws. *)
From Verif Require Import Py L_Py L_Qc M_BaseMaps S_BaseMaps L_BaseMaps P_Actions M_Subsets S_Subsets P_Subsets P_Facets
  M_Paths M_Curves M_Plots S_Utils P_Utils S_Curves P_CurveAct L_Digits P_Core P_Bridge P_Paths P_Entrance P_Cont P_Check P_Subdiv P_Order S_Plots.
From Coq Require Import Lia.
Local Open Scope nat_scope.

Lemma Zq5 : Zq 5 <> 0%Qc. Proof. discriminate. Qed.
Lemma Zq2 : Zq 2 = (1 + 1)%Qc. Proof. apply Qc_is_canon. reflexivity. Qed.
Lemma two_ne : (1 + 1)%Qc <> 0%Qc. Proof. discriminate. Qed.
Lemma div5_0 x : (x / Zq 5 = 0)%Qc -> x = 0%Qc.
Proof. intros H. replace x with (x / Zq 5 * Zq 5)%Qc by (field; apply Zq5). rewrite H. ring. Qed.
Lemma dbl_0 x : (x + x = 0)%Qc -> x = 0%Qc.
Proof. intros H. replace x with ((x + x) / (1 + 1))%Qc by (field; apply two_ne). rewrite H. apply Qc_is_canon. reflexivity. Qed.
Lemma get_arr_ok a b : length a = length b -> 2 <= length b <= 3 -> a <> b -> exists pts, get_arr a b = Some pts /\ is_arrow a b pts /\ Forall (fun x => length x = length b) pts.
Proof.
  intros HL HD HN. destruct b as [|b0 [|b1 [|b2 [|]]]]; cbn in HD; try lia; destruct a as [|a0 [|a1 [|a2 [|]]]]; cbn in HL; try discriminate; clear HL HD.
  - unfold get_arr. cbn [combine map nth_error fst snd].
    destruct (list_eqb qc_eqb _ _) eqn:E.
    + exfalso. apply dec_point in E. pose proof (f_equal (fun l => nth 0 l 0%Qc) E) as E1. pose proof (f_equal (fun l => nth 1 l 0%Qc) E) as E2. cbn in E1, E2.
      apply div5_0 in E1. assert (E3 : ((b0 - a0) / Zq 5 = 0)%Qc) by (rewrite <- (Qcopp_involutive ((b0 - a0) / Zq 5)), E2; reflexivity). apply div5_0 in E3.
      apply HN. f_equal; [|f_equal]; [replace a0 with (b0 - (b0 - a0))%Qc by ring; rewrite E3|replace a1 with (b1 - (b1 - a1))%Qc by ring; rewrite E1]; ring.
    + eexists. split; [reflexivity|]. split; [|repeat constructor].
      eexists _, _. split; [reflexivity|]. split; [reflexivity|]. split; [reflexivity|]. split; [|split].
      * intros X. pose proof (f_equal (fun l => nth 0 l 0%Qc) X) as E1. pose proof (f_equal (fun l => nth 1 l 0%Qc) X) as E2. cbn in E1, E2.
        assert (F1 : ((b1 - a1) / Zq 5 = 0)%Qc) by (apply dbl_0; transitivity (b0 - (b0 - a0) / Zq 5 + (b1 - a1) / Zq 5 - (b0 - (b0 - a0) / Zq 5 - (b1 - a1) / Zq 5))%Qc; [ring|rewrite E1; ring]).
        assert (F2 : ((b0 - a0) / Zq 5 = 0)%Qc) by (apply dbl_0; transitivity (b1 - (b1 - a1) / Zq 5 - - ((b0 - a0) / Zq 5) - (b1 - (b1 - a1) / Zq 5 + - ((b0 - a0) / Zq 5)))%Qc; [ring|rewrite E2; ring]).
        apply div5_0 in F1, F2. apply HN. f_equal; [|f_equal]; [replace a0 with (b0 - (b0 - a0))%Qc by ring; rewrite F2|replace a1 with (b1 - (b1 - a1))%Qc by ring; rewrite F1]; ring.
      * intros [|[|j]] Hj; cbn [nth map combine fst snd]; [| |cbn in Hj; lia]; rewrite Zq2; field; split; try apply Zq5; apply two_ne.
      * unfold dot, minus. cbn [map combine fold_right fst snd]. field; apply Zq5.
  - unfold get_arr. cbn [combine map nth_error fst snd].
    destruct (list_eqb qc_eqb _ _) eqn:E.
    + apply dec_point in E. pose proof (f_equal (fun l => nth 0 l 0%Qc) E) as E1. pose proof (f_equal (fun l => nth 1 l 0%Qc) E) as E2. cbn in E1, E2.
      apply div5_0 in E1. assert (E3 : ((b0 - a0) / Zq 5 = 0)%Qc) by (rewrite <- (Qcopp_involutive ((b0 - a0) / Zq 5)), E2; reflexivity). apply div5_0 in E3.
      assert (EA : a0 = b0) by (replace a0 with (b0 - (b0 - a0))%Qc by ring; rewrite E3; ring). assert (EB : a1 = b1) by (replace a1 with (b1 - (b1 - a1))%Qc by ring; rewrite E1; ring). subst a0 a1. clear E E1 E2 E3.
      eexists. split; [reflexivity|]. split; [|repeat constructor].
      eexists _, _. split; [reflexivity|]. split; [reflexivity|]. split; [reflexivity|]. split; [|split].
      * intros X. pose proof (f_equal (fun l => nth 1 l 0%Qc) X) as E1. cbn in E1.
        assert (F1 : ((b2 - a2) / Zq 5 = 0)%Qc) by (apply dbl_0; transitivity (b1 - (b1 - b1) / Zq 5 + (b2 - a2) / Zq 5 - (b1 - (b1 - b1) / Zq 5 - (b2 - a2) / Zq 5))%Qc; [ring|rewrite E1; ring]).
        apply div5_0 in F1. apply HN. f_equal; f_equal; f_equal. replace a2 with (b2 - (b2 - a2))%Qc by ring; rewrite F1; ring.
      * intros [|[|[|j]]] Hj; cbn [nth map combine fst snd]; [| | |cbn in Hj; lia]; rewrite Zq2; field; split; try apply Zq5; apply two_ne.
      * unfold dot, minus. cbn [map combine fold_right fst snd]. field; apply Zq5.
    + eexists. split; [reflexivity|]. split; [|repeat constructor].
      eexists _, _. split; [reflexivity|]. split; [reflexivity|]. split; [reflexivity|]. split; [|split].
      * intros X. pose proof (f_equal (fun l => nth 0 l 0%Qc) X) as E1. pose proof (f_equal (fun l => nth 1 l 0%Qc) X) as E2. cbn in E1, E2.
        assert (F1 : ((b1 - a1) / Zq 5 = 0)%Qc) by (apply dbl_0; transitivity (b0 - (b0 - a0) / Zq 5 + (b1 - a1) / Zq 5 - (b0 - (b0 - a0) / Zq 5 - (b1 - a1) / Zq 5))%Qc; [ring|rewrite E1; ring]).
        assert (F2 : ((b0 - a0) / Zq 5 = 0)%Qc) by (apply dbl_0; transitivity (b1 - (b1 - a1) / Zq 5 - - ((b0 - a0) / Zq 5) - (b1 - (b1 - a1) / Zq 5 + - ((b0 - a0) / Zq 5)))%Qc; [ring|rewrite E2; ring]).
        assert (Y : list_eqb qc_eqb [((b1 - a1) / Zq 5)%Qc; (- ((b0 - a0) / Zq 5))%Qc; 0%Qc] [0%Qc; 0%Qc; 0%Qc] = true) by (apply dec_point; rewrite F1, F2; reflexivity).
        rewrite Y in E. discriminate.
      * intros [|[|[|j]]] Hj; cbn [nth map combine fst snd]; [| | |cbn in Hj; lia]; rewrite Zq2; field; split; try apply Zq5; apply two_ne.
      * unfold dot, minus. cbn [map combine fold_right fst snd]. field; apply Zq5.
Qed.
Lemma omap_total {A B} (f : A -> option B) (g : A -> B) l : (forall x, In x l -> f x = Some (g x)) -> omap f l = Some (map g l).
Proof. induction l as [|x l IH]; intros H; cbn; auto. rewrite (H x), IH; cbn; auto. intros; apply H; cbn; auto. Qed.
Lemma columns_ok d pts : Forall (fun x => length x = d) pts -> omap (fun j => omap (fun x => nth_error x j) pts) (range d) = Some (columns_of d pts).
Proof.
  intros H. apply omap_total. intros j Hj. apply in_seq in Hj. rewrite Forall_forall in H. apply omap_total. intros x Hx. apply nth_error_nth'. rewrite (H x); auto. lia.
Qed.
Lemma draw_plain d ax kind pts : pts <> [] -> Forall (fun x => length x = d) pts -> draw_lines ax kind pts false = Some (DPlot ax kind (columns_of d pts)).
Proof.
  intros HN HF. unfold draw_lines. destruct pts as [|x pts]; [congruence|]. cbn [pyget]. inversion HF; subst. unfold pyget; cbn [Z.leb Z.compare nth_error Z.to_nat].
  rewrite columns_ok by auto. reflexivity.
Qed.
Lemma pyget_last2 {A} (pre : list A) a b : pyget (pre ++ [a; b]) (-2) = Some a /\ pyget (pre ++ [a; b]) (-1) = Some b.
Proof.
  unfold pyget. rewrite app_length. cbn [length Z.leb Z.compare].
  replace (0 <=? Z.of_nat (length pre + 2) + -2)%Z with true by (symmetry; apply Z.leb_le; lia). replace (0 <=? Z.of_nat (length pre + 2) + -1)%Z with true by (symmetry; apply Z.leb_le; lia).
  rewrite !nth_error_app2 by lia. replace (Z.to_nat (Z.of_nat (length pre + 2) + -2) - length pre) with 0 by lia. replace (Z.to_nat (Z.of_nat (length pre + 2) + -1) - length pre) with 1 by lia. auto.
Qed.
Lemma draw_arrow d ax kind pre a b : 2 <= d <= 3 -> a <> b -> Forall (fun x => length x = d) (pre ++ [a; b]) ->
  exists arrow, is_arrow a b arrow /\ get_arr a b = Some arrow /\ draw_lines ax kind (pre ++ [a; b]) true = Some (DPlot ax kind (columns_of d ((pre ++ [a; b]) ++ arrow))).
Proof.
  intros Hd Hab HF. pose proof HF as HF'. apply Forall_app in HF' as [_ HL]. inversion HL as [|? ? Ha HL']; subst. inversion HL' as [|? ? Hb _]; subst.
  destruct (get_arr_ok a b) as (arrow & E & HA & HW); try lia; auto. exists arrow. split; auto. split; auto. unfold draw_lines.
  destruct (pyget_last2 pre a b) as [-> ->]. rewrite E. cbn [option_map].
  assert (X : exists x, pyget (pre ++ [a; b]) 0 = Some x /\ length x = length a).
  { destruct pre as [|x pre]; cbn; [exists a; auto|]. exists x. split; auto. inversion HF; auto. }
  destruct X as (x & -> & ->). rewrite columns_ok; auto. apply Forall_app. split; auto. eapply Forall_impl; [|exact HW]. cbn. intros; congruence.
Qed.

Lemma ndig_cons G n : 0 < G -> forall i t, i < G -> t < G ^ n -> ndig G (S n) (i * G ^ n + t) = i :: ndig G n t.
Proof.
  intros HG. induction n as [|n IH]; intros i t Hi Ht.
  - cbn in Ht. replace t with 0 by lia. cbn. rewrite Nat.mul_1_r, Nat.add_0_r, Nat.mod_small; auto.
  - change (ndig G (S (S n)) (i * G ^ S n + t)) with (ndig G (S n) ((i * G ^ S n + t) / G) ++ [(i * G ^ S n + t) mod G]).
    replace (i * G ^ S n + t) with (t + (i * G ^ n) * G) by (cbn; lia). rewrite Nat.div_add, Nat.mod_add by lia.
    rewrite (Nat.add_comm (t / G)), IH; auto. apply Nat.div_lt_upper_bound; cbn in Ht; lia.
Qed.
Lemma nat_digit G M x : x < G * M -> exists i t, i < G /\ t < M /\ x = i * M + t.
Proof. intros H. assert (M <> 0) by (destruct M; lia). exists (x / M), (x mod M). split; [apply Nat.div_lt_upper_bound; lia|]. split; [apply Nat.mod_upper_bound; auto|]. rewrite (Nat.div_mod x M) at 1 by auto. lia. Qed.
Lemma Nq_mul a b : Nq (a * b) = (Nq a * Nq b)%Qc. Proof. unfold Nq. rewrite Nat2Z.inj_mul, Zq_mul. auto. Qed.
Lemma centre_abs N M q c : 1 <= N -> 1 <= M -> length q = length c -> abs_point (centre M q) c (1 / Nq N)%Qc = centre (N * M) (map (fun cq => (fst cq * Z.of_nat M + snd cq)%Z) (combine c q)).
Proof.
  intros HN HM HL. unfold abs_point, centre. revert c HL. induction q as [|x q IH]; intros [|y c] HL; cbn; try discriminate; auto. f_equal; [|apply IH; cbn in HL; lia].
  rewrite Zq_add, Zq_mul, Nq_mul. change (Zq (Z.of_nat M)) with (Nq M). field. split; apply P_Points.Nq_neq0; auto.
Qed.
Lemma pow_pos a n : 1 <= a -> 1 <= a ^ n. Proof. intros. pose proof (Nat.pow_nonzero a n). lia. Qed.
Lemma flat_some {A B} (f : A -> B) l : flat_map (fun c => match c with Some q => [q] | None => [] end) (map (fun a => Some (f a)) l) = map f l.
Proof. induction l; cbn; congruence. Qed.

Lemma centre_inj D x y : 1 <= D -> centre D x = centre D y -> x = y.
Proof.
  intros HD. unfold centre. revert y. induction x as [|u l IH]; intros [|w l'] E; cbn in E; try discriminate; auto.
  pose proof (f_equal (hd 0%Qc) E) as E1. pose proof (f_equal (@tl (Qc)) E) as E2. cbn [hd tl] in E1, E2. f_equal; [|auto].
  apply P_Order.Zq_inj. pose proof (P_Points.Nq_neq0 D HD) as HN.
  replace (Zq u) with ((Zq u + half) / Nq D * Nq D - half)%Qc by (field; auto). rewrite E1. field. auto.
Qed.

Lemma omap_map' {A B C} (g : A -> B) (f : B -> option C) l : omap f (map g l) = omap (fun a => f (g a)) l.
Proof. induction l as [|a l IH]; cbn; auto. rewrite IH. auto. Qed.

Section Plot.
Context (c : curve) (HC : valid_curve c) (k : nat).
Notation K := (core_of c). Notation d := (cv_dim c). Notation N := (cv_div c). Notation G := (cv_genus c). Notation m := (cv_mult c).
Notation n := (S k). Notation M := (G ^ n).
Let HV : valid_fuzzy c := valid_curve_fuzzy c HC.
Let HF : core_full K := core_of_full c HV.
Let HK : core_ok K := full_ok K HF.

Definition fpoint (p x : nat) : list Qc := centre (N ^ S n) (kcube (kpow K (S n)) p x).
Definition line (p i : nat) : list (list Qc) := map (fun t => fpoint p (i * M + t)) (seq 0 M).
Lemma N2 : 2 <= N. Proof. apply HC. Qed.
Lemma G2 : 2 <= G. Proof. apply (kG_ge2 K HK). Qed.
Lemma M1 : 2 <= M. Proof. pose proof G2. pose proof (pow_pos G k). cbn. nia. Qed.
Lemma spec_ok p i : p < m -> i < G -> wf_spec d m (kspec K p i). Proof. intros Hp Hi. apply (ok_spec K HK); auto. Qed.
Lemma kG_n : kG (kpow K n) = M. Proof. exact (kG_pow K n ltac:(lia)). Qed.
Lemma kG_Sn : kG (kpow K (S n)) = G * M. Proof. exact (kG_pow K (S n) ltac:(lia)). Qed.
Lemma kcb_len p i t : p < m -> i < G -> t < M -> length (kcb (kpow K n) (kspec K p i) t) = d.
Proof.
  intros Hp Hi Ht. pose proof (kcb_grid (kpow K n) (pow_ok K HK n ltac:(lia)) (kspec K p i) t (spec_ok p i Hp Hi)) as HG. rewrite kG_n in HG. apply (HG Ht).
Qed.
Lemma fine_cube p i t : p < m -> i < G -> t < M ->
  kcube (kpow K (S n)) p (i * M + t) = map (fun cq => (fst cq * Z.of_nat (N ^ n) + snd cq)%Z) (combine (kcube K p i) (kcb (kpow K n) (kspec K p i) t)).
Proof.
  intros Hp Hi Ht. pose proof G2 as HG. pose proof (spec_ok p i Hp Hi) as HS. pose proof (pow_ok K HK n ltac:(lia)) as HP.
  assert (L1 : length (kcube K p i) = d) by (apply (ok_cube K HK); auto).
  pose proof (kcb_len p i t Hp Hi Ht) as L2.
  apply nth_ext with 0%Z 0%Z; [cbn [kcube kpow]; rewrite !map_length, combine_length, seq_length, L1, L2; symmetry; apply Nat.min_id|].
  cbn [kcube kpow]. rewrite map_length, seq_length. intros j Hj. rewrite nth_map_seq by auto. change (kd K) with d in *.
  rewrite map_nth_lt with (d := (0%Z, 0%Z)) by (rewrite combine_length, L1, L2; lia). rewrite combine_nth by congruence. cbn [fst snd].
  change (kG K) with G. rewrite ndig_cons by (auto; lia). rewrite (kX_cons K), ndig_length, Nat2Z.inj_pow.
  rewrite (kcb_id c HV) by (auto; lia). rewrite (kstep_id c HV p i (kspec K p i)); auto; [|apply defined_kspec, all_defined; auto].
  rewrite (pow_cb K HK n ltac:(lia) (kspec K p i) t j); auto.
Qed.
Lemma fpoint_length p x : p < m -> x < G * M -> length (fpoint p x) = d.
Proof.
  intros Hp Hx. unfold fpoint, centre. rewrite map_length. apply (ok_cube _ (pow_ok K HK (S n) ltac:(lia))); auto. rewrite kG_Sn. auto.
Qed.
Lemma fpoint_inj p x y : p < m -> x < G * M -> y < G * M -> fpoint p x = fpoint p y -> x = y.
Proof.
  intros Hp Hx Hy E. apply (full_inj _ (pow_full K HF (S n) ltac:(lia)) p); auto; try (rewrite kG_Sn; auto).
  apply centre_inj in E; auto. apply pow_pos. pose proof N2. lia.
Qed.
Lemma line_points p i l : p < m -> i < G -> l = map (fun t => kcb (kpow K n) (kspec K p i) t) (seq 0 M) ->
  map (fun point => abs_point point (kcube K p i) (1 / Nq N)%Qc) (map (centre (N ^ n)) l) = line p i.
Proof.
  intros Hp Hi ->. unfold line. rewrite !map_map. apply map_ext_in. intros t Ht. apply in_seq in Ht. unfold fpoint. rewrite fine_cube by (auto; lia).
  pose proof (pow_ok K HK n ltac:(lia)) as HP.
  rewrite centre_abs; auto; [pose proof N2; lia|apply pow_pos; pose proof N2; lia|].
  transitivity (cv_dim c); [apply kcb_len; auto; lia|symmetry; apply (ok_cube K HK); auto].
Qed.
Lemma pow_mul_cubes X : wf_spec d m X -> pr_cubes (pr_mul (sp_bm X) (pat_proto (pow_pat c n (sp_pnum X)))) = map (fun t => Some (kcb (kpow K n) X t)) (seq 0 M).
Proof.
  intros HX. apply list_as_map.
  - unfold pr_mul, pow_pat; cbn [pr_cubes pat_proto]. rewrite map_length. destruct (time_rev _); rewrite ?rev_length, map_length, seq_length; auto.
  - intros t Ht. unfold pr_mul, pow_pat; cbn [pr_cubes pat_proto pr_div]. rewrite nth_error_map.
    unfold kcb, kflip. rewrite kG_n. cbn [kN kpow]. change (kN K) with N. destruct (time_rev (sp_bm X)).
    + rewrite nth_error_rev by (rewrite map_length, seq_length; auto). rewrite map_length, seq_length. rewrite (nth_error_seq_map (fun i => Some (kcube (kpow K n) (sp_pnum X) i))) by lia. reflexivity.
    + rewrite (nth_error_seq_map (fun i => Some (kcube (kpow K n) (sp_pnum X) i))) by lia. reflexivity.
Qed.
Lemma line_length p i : length (line p i) = M. Proof. unfold line. rewrite map_length, seq_length. auto. Qed.
Lemma line_Forall p i : p < m -> i < G -> Forall (fun x => length x = d) (line p i).
Proof. intros Hp Hi. apply Forall_forall. intros x Hx. apply in_map_iff in Hx as (t & <- & Ht). apply in_seq in Ht. apply fpoint_length; auto. nia. Qed.
Lemma line_split p i : exists pre, line p i = pre ++ [fpoint p (i * M + (M - 2)); fpoint p (i * M + (M - 1))].
Proof.
  pose proof M1. exists (map (fun t => fpoint p (i * M + t)) (seq 0 (M - 2))). unfold line. assert (E : seq 0 M = seq 0 (M - 2) ++ [M - 2; M - 1]).
  { transitivity (seq 0 ((M - 2) + 2)); [f_equal; lia|]. rewrite seq_app. cbn [seq Nat.add]. do 3 f_equal. lia. }
  rewrite E, map_app. reflexivity.
Qed.

Context (Hd : 2 <= d <= 3) (Hm : m <= 4).
Notation sub := (pow_curve c n).
Definition pn (p i : nat) : nat := sp_pnum (kspec K p i).
Definition lfirst (p i : nat) : list Qc := fpoint p (i * M + 0).
Definition llast (p i : nat) : list Qc := fpoint p (i * M + (M - 1)).
Definition text (glob p i : nat) : list draw := if Nat.ltb 1 m then [DText glob (kcube K p i) (pn p i) (time_rev (sp_bm (kspec K p i)))] else [].
Definition conn (detail p i : nat) : list draw :=
  [DPlot detail (LConnect (pn p i)) (columns_of d [llast p i; midpoint (llast p i) (lfirst p (S i))]);
   DPlot detail (LConnect (pn p (S i))) (columns_of d [midpoint (llast p i) (lfirst p (S i)); lfirst p (S i)])].
Definition mainl (detail p : nat) (arrow : list (list Qc)) (i : nat) : draw :=
  DPlot detail (LDetail (pn p i)) (columns_of d (line p i ++ (if Nat.eqb (S i) G then arrow else []))).
Definition item (glob detail p : nat) (arrow : list (list Qc)) (i : nat) : list draw :=
  text glob p i ++ match i with O => [] | S i' => conn detail p i' end ++ [mainl detail p arrow i].

Lemma lt_GM i t : i < G -> t < M -> i * M + t < G * M. Proof. intros. nia. Qed.
Lemma lfirst_len p i : p < m -> i < G -> length (lfirst p i) = d. Proof. intros. apply fpoint_length; auto. pose proof M1. apply lt_GM; lia. Qed.
Lemma llast_len p i : p < m -> i < G -> length (llast p i) = d. Proof. intros. apply fpoint_length; auto. pose proof M1. apply lt_GM; lia. Qed.
Lemma mid_len a b : length a = d -> length b = d -> length (midpoint a b) = d. Proof. intros. unfold midpoint. rewrite map_length, combine_length. lia. Qed.
Lemma last_arrow p : p < m -> exists arrow, is_arrow (fpoint p ((G - 1) * M + (M - 2))) (llast p (G - 1)) arrow /\
  forall ax kind, draw_lines ax kind (line p (G - 1)) true = Some (DPlot ax kind (columns_of d (line p (G - 1) ++ arrow))).
Proof.
  intros Hp. pose proof M1 as HM. pose proof G2 as HG. destruct (line_split p (G - 1)) as [pre E]. fold (llast p (G - 1)) in E.
  assert (HNE : fpoint p ((G - 1) * M + (M - 2)) <> llast p (G - 1)).
  { intros E'. apply fpoint_inj in E'; auto; try (apply lt_GM; lia). lia. }
  pose proof (line_Forall p (G - 1) Hp ltac:(lia)) as HL. rewrite E in HL.
  destruct (draw_arrow d 0 (LDetail 0) pre _ _ Hd HNE HL) as (arrow & HA & EA & _). exists arrow. split; auto.
  intros ax kind. rewrite E. destruct (draw_arrow d ax kind pre _ _ Hd HNE HL) as (arrow' & _ & EA' & ->). rewrite EA in EA'. injection EA' as <-. reflexivity.
Qed.
Lemma line_get p i : pyget (line p i) 0 = Some (lfirst p i) /\ pyget (line p i) (-1) = Some (llast p i).
Proof.
  destruct (line_split p i) as [pre E]. split; [|rewrite E; apply pyget_last2].
  unfold pyget. change (0 <=? 0)%Z with true. cbv iota. change (Z.to_nat 0) with 0. unfold line. apply (nth_error_seq_map (fun t => fpoint p (i * M + t))). pose proof M1. lia.
Qed.
Lemma line_ne p i : line p i <> []. Proof. intros E. pose proof (line_length p i) as HL. rewrite E in HL. pose proof M1. cbn [length] in HL. lia. Qed.
Lemma center_pow X : wf_spec d m X -> pr_mul_checked (sp_bm X) (pat_proto (pow_pat c n (sp_pnum X))) = Some (pr_mul (sp_bm X) (pat_proto (pow_pat c n (sp_pnum X)))) /\
  center_line (pr_mul (sp_bm X) (pat_proto (pow_pat c n (sp_pnum X)))) = Some (map (centre (N ^ n)) (map (fun t => kcb (kpow K n) X t) (seq 0 M))).
Proof.
  intros HX. split.
  - unfold pr_mul_checked. cbn [pow_pat pat_proto pr_dim]. destruct HX as [HB _]. rewrite (proj2 (Nat.eqb_eq _ _)); auto. apply wf_length; auto.
  - unfold center_line. rewrite pow_mul_cubes by auto. cbn [pr_mul pow_pat pat_proto pr_div].
    rewrite map_map. rewrite omap_map'. apply omap_total. intros t _. reflexivity.
Qed.
Lemma fraction_eq p i glob detail arrow prev : p < m -> i < G ->
  (forall ax kind, draw_lines ax kind (line p (G - 1)) true = Some (DPlot ax kind (columns_of d (line p (G - 1) ++ arrow)))) ->
  prev = match i with O => None | S i' => Some (llast p i', pn p i') end ->
  plot_fraction c sub glob detail i (Some (kcube K p i)) (Some (kspec K p i)) prev = Some (item glob detail p arrow i, Some (llast p i, pn p i)).
Proof.
  intros Hp Hi HA ->. pose proof (spec_ok p i Hp Hi) as HS. unfold plot_fraction.
  replace (Nat.ltb (sp_pnum (kspec K p i)) 4) with true by (symmetry; apply Nat.ltb_lt; destruct HS; lia).
  cbn [pow_curve cv_pats]. rewrite (nth_error_seq_map (pow_pat c n)) by (destruct HS; auto).
  destruct (center_pow _ HS) as [-> ->]. rewrite (line_points p i _ Hp Hi eq_refl). cbv zeta. destruct (line_get p i) as [-> ->].
  assert (EM : draw_lines detail (LDetail (sp_pnum (kspec K p i))) (line p i) (Nat.eqb (S i) G) = Some (mainl detail p arrow i)).
  { unfold mainl. destruct (Nat.eqb_spec (S i) G) as [E|E].
    - replace i with (G - 1) by lia. apply HA.
    - rewrite app_nil_r. apply draw_plain; [apply line_ne|apply line_Forall; auto]. }
  rewrite EM. unfold item. destruct i as [|i']; [reflexivity|].
  change (map (fun ab => ((fst ab + snd ab) / Zq 2)%Qc) (combine (llast p i') (lfirst p (S i')))) with (midpoint (llast p i') (lfirst p (S i'))).
  pose proof (llast_len p i' Hp ltac:(lia)) as L1. pose proof (lfirst_len p (S i') Hp Hi) as L2. pose proof (mid_len _ _ L1 L2) as L3.
  rewrite !(draw_plain d) by (try discriminate; repeat constructor; auto). reflexivity.
Qed.
Lemma fractions_eq p glob detail arrow l : forall a, p < m -> a + l = G ->
  (forall ax kind, draw_lines ax kind (line p (G - 1)) true = Some (DPlot ax kind (columns_of d (line p (G - 1) ++ arrow)))) ->
  plot_fractions c sub glob detail (map (fun i => (i, (Some (kcube K p i), Some (kspec K p i)))) (seq a l)) (match a with O => None | S i' => Some (llast p i', pn p i') end) =
    Some (flat_map (item glob detail p arrow) (seq a l)).
Proof.
  induction l as [|l IH]; intros a Hp HG HA; [reflexivity|]. cbn [seq map plot_fractions flat_map].
  rewrite (fraction_eq p a glob detail arrow) by (auto; lia). rewrite (IH (S a)) by (auto; lia). reflexivity.
Qed.

(** the draws of a pattern, selected by kind *)
Definition pdraw (glob detail p : nat) (arrow cl : list (list Qc)) : list draw := flat_map (item glob detail p arrow) (seq 0 G) ++ [DPlot glob (LProto p) (columns_of d cl)].
Lemma sel_flat {A} (f : draw -> list A) (g : nat -> list draw) l : flat_map f (flat_map g l) = flat_map (fun i => flat_map f (g i)) l.
Proof. induction l as [|a l IH]; cbn; auto. rewrite flat_map_app, IH. auto. Qed.
Lemma item_details glob detail p arrow i ax :
  details ax (item glob detail p arrow i) = if Nat.eqb detail ax then [(pn p i, columns_of d (line p i ++ (if Nat.eqb (S i) G then arrow else [])))] else [].
Proof. unfold item, text. destruct (Nat.ltb 1 m), i; cbn -[Nat.eqb G]; destruct (Nat.eqb detail ax); reflexivity. Qed.
Lemma item_connectors glob detail p arrow i ax :
  connectors ax (item glob detail p arrow i) = if Nat.eqb detail ax then match i with O => [] | S i' =>
      [(pn p i', columns_of d [llast p i'; midpoint (llast p i') (lfirst p i)]); (pn p i, columns_of d [midpoint (llast p i') (lfirst p i); lfirst p i])] end else [].
Proof. unfold item, text. destruct (Nat.ltb 1 m), i; cbn -[Nat.eqb G columns_of]; destruct (Nat.eqb detail ax); reflexivity. Qed.
Lemma item_proto glob detail p arrow i ax : proto_lines ax (item glob detail p arrow i) = [].
Proof. unfold item, text. destruct (Nat.ltb 1 m), i; reflexivity. Qed.
Lemma item_labels glob detail p arrow i ax : labels ax (item glob detail p arrow i) = if Nat.ltb 1 m && Nat.eqb glob ax then [(kcube K p i, pn p i, time_rev (sp_bm (kspec K p i)))] else [].
Proof. unfold item, text. destruct (Nat.ltb 1 m), i; cbn -[Nat.eqb G columns_of]; destruct (Nat.eqb glob ax); reflexivity. Qed.
Lemma flat_nil {A B} (l : list A) : flat_map (fun _ => @nil B) l = []. Proof. induction l; auto. Qed.
Lemma flat_one {A B} (f : A -> B) l : flat_map (fun i => [f i]) l = map f l. Proof. induction l; cbn; congruence. Qed.
Lemma pdraw_details glob detail p arrow cl ax : details ax (pdraw glob detail p arrow cl) =
  if Nat.eqb detail ax then map (fun i => (pn p i, columns_of d (line p i ++ (if Nat.eqb (S i) G then arrow else [])))) (seq 0 G) else [].
Proof.
  unfold pdraw, details. rewrite flat_map_app. cbn [flat_map app]. rewrite app_nil_r, sel_flat. erewrite flat_map_ext; [|intros i; apply item_details].
  destruct (Nat.eqb detail ax); [apply flat_one|apply flat_nil].
Qed.
Lemma pdraw_connectors glob detail p arrow cl ax : connectors ax (pdraw glob detail p arrow cl) =
  if Nat.eqb detail ax then flat_map (fun i => [(pn p i, columns_of d [llast p i; midpoint (llast p i) (lfirst p (S i))]); (pn p (S i), columns_of d [midpoint (llast p i) (lfirst p (S i)); lfirst p (S i)])]) (seq 0 (G - 1)) else [].
Proof.
  unfold pdraw, connectors. rewrite flat_map_app. cbn [flat_map app]. rewrite app_nil_r, sel_flat. erewrite flat_map_ext; [|intros i; apply item_connectors].
  destruct (Nat.eqb detail ax); [|apply flat_nil]. pose proof G2 as HG. replace (seq 0 G) with (0 :: seq 1 (G - 1)) by (destruct G; [lia|]; cbn; rewrite Nat.sub_0_r; auto).
  cbn [flat_map app]. rewrite <- seq_shift, !flat_map_concat_map, map_map. reflexivity.
Qed.
Lemma pdraw_proto glob detail p arrow cl ax : proto_lines ax (pdraw glob detail p arrow cl) = if Nat.eqb glob ax then [(p, columns_of d cl)] else [].
Proof.
  unfold pdraw, proto_lines. rewrite flat_map_app, sel_flat. erewrite flat_map_ext; [|intros i; apply item_proto]. rewrite flat_nil. cbn [flat_map app]. destruct (Nat.eqb glob ax); reflexivity.
Qed.
Lemma pdraw_labels glob detail p arrow cl ax : labels ax (pdraw glob detail p arrow cl) =
  if Nat.ltb 1 m && Nat.eqb glob ax then map (fun i => (kcube K p i, pn p i, time_rev (sp_bm (kspec K p i)))) (seq 0 G) else [].
Proof.
  unfold pdraw, labels. rewrite flat_map_app, sel_flat. cbn [flat_map app]. rewrite app_nil_r. erewrite flat_map_ext; [|intros i; apply item_labels].
  destruct (Nat.ltb 1 m && Nat.eqb glob ax); [apply flat_one|apply flat_nil].
Qed.

Definition cline (p : nat) : list (list Qc) := map (fun i => centre N (kcube K p i)) (seq 0 G).
Lemma cline_arrow p : p < m -> exists arrow a b pre, cline p = pre ++ [a; b] /\ is_arrow a b arrow /\
  forall ax, draw_lines ax (LProto p) (cline p) true = Some (DPlot ax (LProto p) (columns_of d (cline p ++ arrow))).
Proof.
  intros Hp. pose proof G2 as HG.
  assert (E : cline p = map (fun i => centre N (kcube K p i)) (seq 0 (G - 2)) ++ [centre N (kcube K p (G - 2)); centre N (kcube K p (G - 1))]).
  { unfold cline. assert (E : seq 0 G = seq 0 (G - 2) ++ [G - 2; G - 1]) by (transitivity (seq 0 ((G - 2) + 2)); [f_equal; lia|]; rewrite seq_app; cbn [seq Nat.add]; do 3 f_equal; lia).
    rewrite E, map_app. reflexivity. }
  assert (HNE : centre N (kcube K p (G - 2)) <> centre N (kcube K p (G - 1))).
  { intros E'. apply centre_inj in E'; [|pose proof N2; lia]. apply (full_inj K HF) in E'; auto; change (kG K) with G; lia. }
  assert (HL : Forall (fun x => length x = d) (cline p)).
  { apply Forall_forall. intros x Hx. apply in_map_iff in Hx as (i & <- & Hi). apply in_seq in Hi. unfold centre. rewrite map_length. apply (ok_cube K HK); auto. change (kG K) with G. lia. }
  rewrite E in HL. destruct (draw_arrow d 0 (LProto p) _ _ _ Hd HNE HL) as (arrow & HA & EA & _). exists arrow. do 3 eexists. split; [exact E|]. split; [exact HA|].
  intros ax. rewrite E. destruct (draw_arrow d ax (LProto p) _ _ _ Hd HNE HL) as (arrow' & _ & EA' & ->). rewrite EA in EA'. injection EA' as <-. reflexivity.
Qed.
Lemma combine_maps {A B C} (f : A -> B) (g : A -> C) l : combine (map f l) (map g l) = map (fun a => (f a, g a)) l.
Proof. induction l; cbn; congruence. Qed.
Lemma enumerate_seq {A} (f : nat -> A) l : enumerate (map f (seq 0 l)) = map (fun i => (i, f i)) (seq 0 l).
Proof. unfold enumerate. rewrite map_length, seq_length. rewrite <- (map_id (seq 0 l)) at 1. rewrite combine_maps. auto. Qed.
Lemma pattern_eq p pat separate : nth_error (cv_pats c) p = Some pat -> p < m ->
  exists arrow a b pre arrow', is_arrow (fpoint p ((G - 1) * M + (M - 2))) (llast p (G - 1)) arrow /\ cline p = pre ++ [a; b] /\ is_arrow a b arrow' /\
  plot_pattern c sub separate p pat = Some (pdraw (if separate then 2 * p else p) (if separate then 2 * p + 1 else p) p arrow (cline p ++ arrow')).
Proof.
  intros E Hp. destruct (last_arrow p Hp) as (arrow & HA & EA). destruct (cline_arrow p Hp) as (arrow' & a & b & pre & EP & HA' & EA').
  exists arrow, a, b, pre, arrow'. split; auto. split; auto. split; auto. unfold plot_pattern.
  rewrite (pat_proto_eq c HC p pat E), (pat_specs_eq c HC p pat E). cbn [pr_cubes]. rewrite combine_maps, (enumerate_seq (fun i => (Some (kcube K p i), Some (kspec K p i)))).
  rewrite (fractions_eq p _ _ arrow G 0 Hp eq_refl EA).
  replace (negb (Nat.ltb p 4)) with false by (symmetry; apply negb_false_iff, Nat.ltb_lt; lia). rewrite andb_false_r.
  unfold center_line. cbn [pr_cubes pr_div]. rewrite omap_map'. rewrite (omap_total _ (fun i => centre N (kcube K p i))) by (intros; reflexivity).
  change (map (fun i => centre N (kcube K p i)) (seq 0 G)) with (cline p). rewrite EA'. reflexivity.
Qed.
Lemma nth_map_seq0 {A} (f : nat -> A) l i z : i < l -> nth i (map f (seq 0 l)) z = f i.
Proof. intros H. rewrite (nth_indep _ z (f 0)) by (rewrite map_length, seq_length; auto). rewrite map_nth, seq_nth; auto. Qed.
Lemma pdraw_shows p pat glob detail arrow a b pre arrow' ds : nth_error (cv_pats c) p = Some pat -> p < m ->
  is_arrow (fpoint p ((G - 1) * M + (M - 2))) (llast p (G - 1)) arrow -> cline p = pre ++ [a; b] -> is_arrow a b arrow' ->
  let D := pdraw glob detail p arrow (cline p ++ arrow') in
  details detail ds = details detail D -> connectors detail ds = connectors detail D -> proto_lines glob ds = proto_lines glob D -> labels glob ds = labels glob D ->
  shows d c pat (N ^ S n) (pow_pat c (S n) p) p glob detail ds.
Proof.
  intros E Hp HA EP HA' D E1 E2 E3 E4. pose proof M1 as HM. pose proof G2 as HG.
  assert (EC : cubes_of pat = map (kcube K p) (seq 0 G)) by (unfold cubes_of; rewrite (pat_proto_eq c HC p pat E); apply flat_some).
  assert (ES : specs_of pat = map (kspec K p) (seq 0 G)) by (unfold specs_of; rewrite (pat_specs_eq c HC p pat E); apply flat_some).
  assert (ENL : forall i, i < G -> nth i (map (line p) (seq 0 G)) [] = line p i) by (intros; apply nth_map_seq0; auto).
  assert (ENS : forall i, i < G -> sp_pnum (nth i (specs_of pat) (Sp (id_map d) 0)) = pn p i) by (intros; rewrite ES, nth_map_seq0; auto).
  constructor.
  - exists (map (line p) (seq 0 G)), arrow, (fpoint p ((G - 1) * M + (M - 2))), (llast p (G - 1)).
    assert (EF : concat (map (line p) (seq 0 G)) = map (fpoint p) (seq 0 (G * M))) by (unfold line; apply (concat_map_seq (fpoint p))).
    split; [rewrite EF; unfold cubes_of; cbn [pow_pat pat_proto pr_cubes]; rewrite flat_some, map_map; reflexivity|].
    split; [rewrite map_length, seq_length; reflexivity|].
    split; [apply Forall_forall; intros l Hl; apply in_map_iff in Hl as (i & <- & _); rewrite line_length; unfold cubes_of; cbn [pow_pat pat_proto pr_cubes]; rewrite flat_some, map_length, seq_length; apply Nat.mul_comm|].
    split.
    { exists (map (fpoint p) (seq 0 (G * M - 2))). rewrite EF.
      assert (ESQ : seq 0 (G * M) = seq 0 (G * M - 2) ++ [(G - 1) * M + (M - 2); (G - 1) * M + (M - 1)]).
      { transitivity (seq 0 ((G * M - 2) + 2)); [f_equal; nia|]. rewrite seq_app. cbn [seq Nat.add]. do 2 f_equal; [nia|]. f_equal. nia. }
      rewrite ESQ, map_app. reflexivity. }
    split; [exact HA|]. split.
    + rewrite E1. unfold D. rewrite pdraw_details, Nat.eqb_refl. apply map_ext_in. intros i Hi. apply in_seq in Hi. rewrite ENS, ENL by lia. reflexivity.
    + rewrite E2. unfold D. rewrite pdraw_connectors, Nat.eqb_refl. rewrite !flat_map_concat_map. f_equal. apply map_ext_in. intros i Hi. apply in_seq in Hi.
      rewrite !ENS, !ENL by lia. cbv zeta.
      assert (EH : hd [] (line p (S i)) = lfirst p (S i)). { pose proof (proj1 (line_get p (S i))) as X. destruct (line p (S i)); cbn in X; [discriminate|]. injection X as ->. reflexivity. }
      assert (EL : List.last (line p i) [] = llast p i). { destruct (line_split p i) as [pre' ->]. change [fpoint p (i * M + (M - 2)); fpoint p (i * M + (M - 1))] with ([fpoint p (i * M + (M - 2))] ++ [fpoint p (i * M + (M - 1))]). rewrite app_assoc. apply last_last. }
      rewrite EH, EL. reflexivity.
  - exists arrow', a, b. assert (ECL : map (centre N) (cubes_of pat) = cline p) by (rewrite EC, map_map; reflexivity). rewrite ECL. split; [eauto|]. split; [exact HA'|].
    rewrite E3. unfold D. rewrite pdraw_proto, Nat.eqb_refl. reflexivity.
  - rewrite E4. unfold D. rewrite pdraw_labels, Nat.eqb_refl, andb_true_r. destruct (Nat.ltb 1 m); auto. rewrite EC, ES, combine_maps, map_map. reflexivity.
Qed.
End Plot.

Lemma omap_nth {A B} (f : A -> option B) l : (forall x, In x l -> exists y, f x = Some y) ->
  exists ys, omap f l = Some ys /\ length ys = length l /\ forall i x, nth_error l i = Some x -> exists y, nth_error ys i = Some y /\ f x = Some y.
Proof.
  induction l as [|x l IH]; intros H; [exists []; repeat split; auto; intros [|i] x Hx; discriminate|].
  destruct (H x) as [y Ey]; [cbn; auto|]. destruct IH as (ys & E & HL & HN); [intros; apply H; cbn; auto|].
  exists (y :: ys). cbn [omap]. rewrite Ey, E. split; auto. split; [cbn; congruence|]. intros [|i] z Hz; cbn in *; [injection Hz as <-; eauto|eauto].
Qed.
Lemma nth_error_comb {A B} (l : list A) (r : list B) i a b : nth_error l i = Some a -> nth_error r i = Some b -> nth_error (combine l r) i = Some (a, b).
Proof. revert r i. induction l as [|x l IH]; intros [|y r] [|i] H1 H2; cbn in *; try discriminate; auto. congruence. Qed.
Lemma sel_concat {A} (f : draw -> list A) dss p ds : nth_error dss p = Some ds -> (forall q ds', nth_error dss q = Some ds' -> q <> p -> flat_map f ds' = []) ->
  flat_map f (concat dss) = flat_map f ds.
Proof.
  revert p. induction dss as [|x dss IH]; intros [|p] E H; cbn in E; try discriminate; cbn [concat]; rewrite flat_map_app.
  - injection E as ->. assert (E0 : flat_map f (concat dss) = []).
    { assert (HA : forall q ds', nth_error dss q = Some ds' -> flat_map f ds' = []) by (intros q ds' Eq; apply (H (S q) ds'); auto).
      clear -HA. induction dss as [|x dss IH]; cbn; auto. rewrite flat_map_app, (HA 0 x eq_refl), IH; auto. intros q ds' Eq. apply (HA (S q) ds' Eq). }
    rewrite E0. apply app_nil_r.
  - rewrite (H 0 x) by auto. cbn [app]. apply (IH p); auto. intros q ds' Eq Hq. apply (H (S q) ds'); auto.
Qed.
Lemma plot_curve_shows c separate k : valid_curve c -> 2 <= cv_dim c <= 3 -> cv_mult c <= 4 ->
  exists ds sub, plot_curve c separate k = Some ds /\ get_subdivision c (S k) = Some sub /\
    forall p pat fine, nth_error (cv_pats c) p = Some pat -> nth_error (cv_pats sub) p = Some fine ->
      shows (cv_dim c) c pat (cv_div sub) fine p (if separate then 2 * p else p) (if separate then 2 * p + 1 else p) ds.
Proof.
  intros HC Hd Hm. set (S' := if Nat.eqb k 0 then Some c else get_subdivision c k).
  assert (ES : S' = Some (pow_curve c (S k))).
  { unfold S'. destruct k; [cbn [Nat.eqb]; rewrite pow_curve_1; auto|cbn [Nat.eqb]; apply get_subdivision_eq; auto]. }
  assert (HPat : forall ip, In ip (enumerate (cv_pats c)) -> exists ds, plot_pattern c (pow_curve c (S k)) separate (fst ip) (snd ip) = Some ds).
  { intros [p pat] Hin. apply In_enumerate in Hin. cbn [fst snd].
    assert (Hp : p < cv_mult c) by (apply nth_error_Some; congruence).
    destruct (pattern_eq c HC k Hd Hm p pat separate Hin Hp) as (? & ? & ? & ? & ? & _ & _ & _ & E). eauto. }
  destruct (omap_nth _ _ HPat) as (dss & ED & HL & HN). exists (concat dss), (pow_curve c (S (S k))). split.
  { unfold plot_curve. fold S'. rewrite ES, ED. replace (Nat.leb (cv_dim c) 3) with true by (symmetry; apply Nat.leb_le; lia). replace (Nat.leb (cv_mult c) 4) with true by (symmetry; apply Nat.leb_le; lia). reflexivity. }
  split; [apply get_subdivision_eq; auto|]. intros p pat fine Ep Ef.
  assert (Hp : p < cv_mult c) by (apply nth_error_Some; congruence).
  assert (Efine : fine = pow_pat c (S (S k)) p).
  { cbn [pow_curve cv_pats] in Ef. rewrite (nth_error_seq_map (pow_pat c (S (S k)))) in Ef by auto. congruence. }
  subst fine. cbn [pow_curve cv_div].
  assert (HE : forall q pt, nth_error (cv_pats c) q = Some pt -> nth_error (enumerate (cv_pats c)) q = Some (q, pt)).
  { intros q pt E. unfold enumerate. apply nth_error_comb; auto. rewrite nth_error_nth' with (d := 0) by (rewrite seq_length; apply nth_error_Some; congruence).
    rewrite seq_nth; auto. apply nth_error_Some. congruence. }
  assert (HQ : forall q ds', nth_error dss q = Some ds' -> q < cv_mult c /\ exists arrow cl, ds' = pdraw c k (if separate then 2 * q else q) (if separate then 2 * q + 1 else q) q arrow cl).
  { intros q ds' E. assert (Hq : q < cv_mult c). { assert (X : q < length dss) by (apply nth_error_Some; congruence). rewrite HL, enumerate_length in X. exact X. }
    split; auto. destruct (nth_error (cv_pats c) q) as [pt|] eqn:Eq; [|apply nth_error_None in Eq; unfold cv_mult in Hq; lia].
    destruct (HN q _ (HE q pt Eq)) as (y & Ey & Ey'). cbn [fst snd] in Ey'.
    destruct (pattern_eq c HC k Hd Hm q pt separate Eq Hq) as (ar & ? & ? & ? & ? & _ & _ & _ & E'). rewrite Ey' in E'. injection E' as ->. rewrite E in Ey. injection Ey as ->. eauto. }
  destruct (HN p _ (HE p pat Ep)) as (y & Ey & Ey'). cbn [fst snd] in Ey'.
  destruct (pattern_eq c HC k Hd Hm p pat separate Ep Hp) as (ar & a & b & pre & ar' & HA & EC & HA' & E'). rewrite Ey' in E'. injection E' as ->.
  apply (pdraw_shows c HC k Hd Hm p pat _ _ ar a b pre ar' (concat dss) Ep Hp HA EC HA').
  - apply (sel_concat _ dss p); auto. intros q ds' Eq Hq. destruct (HQ q ds' Eq) as (_ & x & z & ->). etransitivity; [apply (pdraw_details c k)|]. rewrite (proj2 (Nat.eqb_neq _ _)); auto. destruct separate; lia.
  - apply (sel_concat _ dss p); auto. intros q ds' Eq Hq. destruct (HQ q ds' Eq) as (_ & x & z & ->). etransitivity; [apply (pdraw_connectors c HC k Hd Hm)|]. rewrite (proj2 (Nat.eqb_neq _ _)); auto. destruct separate; lia.
  - apply (sel_concat _ dss p); auto. intros q ds' Eq Hq. destruct (HQ q ds' Eq) as (_ & x & z & ->). etransitivity; [apply (pdraw_proto c k)|]. rewrite (proj2 (Nat.eqb_neq _ _)); auto. destruct separate; lia.
  - apply (sel_concat _ dss p); auto. intros q ds' Eq Hq. destruct (HQ q ds' Eq) as (_ & x & z & ->). etransitivity; [apply (pdraw_labels c k)|]. rewrite (proj2 (Nat.eqb_neq _ _)); [rewrite andb_false_r; reflexivity|]. destruct separate; lia.
Qed.
Lemma plot_curve_fails c separate k : valid_curve c -> ~ (2 <= cv_dim c <= 3 /\ cv_mult c <= 4) -> plot_curve c separate k = None.
Proof.
  intros HC H. unfold plot_curve. destruct (Nat.leb (cv_dim c) 3 && Nat.leb (cv_mult c) 4) eqn:E; auto.
  apply andb_true_iff in E as [E1 E2]. apply Nat.leb_le in E1, E2. assert (Hd : cv_dim c = 1) by (pose proof HC as (X & _); lia).
  destruct (if Nat.eqb k 0 then Some c else get_subdivision c k) as [sub|]; auto.
  assert (Hm : 0 < cv_mult c) by (pose proof HC as (_ & _ & X & _); unfold cv_mult in *; lia). unfold cv_mult in Hm. destruct (cv_pats c) as [|pat ps] eqn:EP; [cbn in Hm; lia|].
  unfold enumerate. cbn [length seq combine omap fst snd].
  assert (EF : plot_pattern c sub separate 0 pat = None); [|rewrite EF; reflexivity].
  unfold plot_pattern. destruct (plot_fractions _ _ _ _ _ _) as [ds|]; auto. destruct (if separate && negb (Nat.ltb 0 4) then None else center_line (pat_proto pat)) as [l|] eqn:EL; auto.
  assert (EL' : center_line (pat_proto pat) = Some l) by (destruct (separate && negb (Nat.ltb 0 4)); [discriminate|auto]). clear EL.
  assert (EP' : nth_error (cv_pats c) 0 = Some pat) by (rewrite EP; reflexivity).
  rewrite (pat_proto_eq c HC 0 pat EP') in EL'. unfold center_line in EL'. cbn [pr_cubes pr_div] in EL'. rewrite omap_map' in EL'.
  rewrite (omap_total _ (fun i => centre (cv_div c) (kcube (core_of c) 0 i))) in EL' by (intros; reflexivity). injection EL' as <-.
  set (l := map _ _). unfold draw_lines. destruct (pyget l 0); auto. destruct (pyget l (-2)) as [a|] eqn:Ea; auto. destruct (pyget l (-1)) as [b|] eqn:Eb; auto.
  assert (HL : length b = 1).
  { assert (Hin : In b l) by (unfold pyget in Eb; cbn [Z.leb Z.compare] in Eb; destruct (0 <=? _)%Z; [apply nth_error_In in Eb; auto|discriminate]).
    apply in_map_iff in Hin as (i & <- & Hi). apply in_seq in Hi. unfold centre. rewrite map_length.
    assert (HM0 : 0 < km (core_of c)) by (cbn [core_of km]; unfold cv_mult; rewrite EP; cbn; lia). assert (HI : i < kG (core_of c)) by (change (kG (core_of c)) with (cv_genus c); lia).
    destruct (ok_cube _ (full_ok _ (core_of_full c (valid_curve_fuzzy c HC))) 0 i HM0 HI) as [X _]. transitivity (cv_dim c); [exact X|exact Hd]. }
  assert (EA : get_arr a b = None); [|rewrite EA; reflexivity]. unfold get_arr. destruct b as [|b [|b' r]]; try discriminate. destruct a as [|a [|a' r]]; reflexivity.
Qed.
