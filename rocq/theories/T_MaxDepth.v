(** Property theorem C52: what the max_depth argument of the estimate guarantees. *)
From Verif Require Import Py L_Qc M_BaseMaps M_Subsets M_Paths M_Curves M_Zoo M_Utils M_Heap M_Dilation S_BaseMaps S_Subsets S_Utils S_Curves S_Fuzzy S_Heap S_Ratio S_Dilation S_MaxDepth
  L_BaseMaps L_R P_Valid P_Ratio P_Heap P_Check P_DilPieces P_DilRegular P_DilSpec P_MaxDepth P_MaxDepthTotal P_Faces S_Term P_TermNorms P_Conv T_Fuzzy T_Dilation.
From Coq Require Import Reals Lra.
Local Open Scope nat_scope.

(** C52: estimate_dilation_regular(curve, ratio, max_depth=m, use_face_moments=True, face_dim=fd), if it returns, has looked
    at all pairs of fractions up to depth m: lo is at least the ratio of any two key points (first or last moments of faces
    of dimension fd) of two such fractions. *)
Theorem C52_max_depth_covers : forall hq, heapq_ok hq -> forall (ratio : ratio_func) (rR : list R -> R -> R) c fuel fd m lo up am,
  valid_curve c -> check c = Some true -> ratio_ok (cv_dim c) (ratio (cv_dim c)) rR -> fd <= cv_dim c ->
  estimate_dilation_regular ratio hq fuel c None None (Some fd) (Some m) = Some (lo, up, am) ->
  forall j cs1 cs2 s u t w, In j (gen_auto_junctions c ++ fst (gen_regular_junctions fuel c)) -> fraction_pair c j cs1 cs2 ->
    (Z.of_nat (Nat.min (length cs1) (length cs2)) <= m)%Z ->
    key_on_piece c (j_spec1 j) cs1 fd s u -> key_on_piece c (j_spec2 j) cs2 fd t w -> (junction_ratio rR (cv_dim c) j s u t w <= qR lo)%R.
Proof. exact max_depth_lo. Qed.
Print Assumptions C52_max_depth_covers.

(** C52: if the dilation is attained at two such key points, then lo is the dilation, exactly. *)
Theorem C52_max_depth_exact : forall hq, heapq_ok hq -> forall (ratio : ratio_func) (rR : list R -> R -> R) c fuel fd m lo up am,
  valid_curve c -> check c = Some true -> ratio_ok (cv_dim c) (ratio (cv_dim c)) rR -> fd <= cv_dim c ->
  estimate_dilation_regular ratio hq fuel c None None (Some fd) (Some m) = Some (lo, up, am) ->
  (exists j cs1 cs2 s u t w, In j (gen_auto_junctions c ++ fst (gen_regular_junctions fuel c)) /\ fraction_pair c j cs1 cs2 /\
    (Z.of_nat (Nat.min (length cs1) (length cs2)) <= m)%Z /\
    key_on_piece c (j_spec1 j) cs1 fd s u /\ key_on_piece c (j_spec2 j) cs2 fd t w /\ dilation_le rR c (junction_ratio rR (cv_dim c) j s u t w)) ->
  dilation_le rR c (qR lo) /\ dilation_ge rR c (qR lo).
Proof.
  intros hq HQ ratio rR c fuel fd m lo up am HV HK HR Hf HE (j & cs1 & cs2 & s & u & t & w & Hj & HP & Hm & K1 & K2 & HD).
  pose proof (max_depth_lo hq HQ ratio rR c fuel fd m lo up am HV HK HR Hf HE j cs1 cs2 s u t w Hj HP Hm K1 K2) as HL. split.
  - intros p s' t' u' w' Hp G1 G2 Hst. eapply Rle_trans; [exact (HD p s' t' u' w' Hp G1 G2 Hst)|exact HL].
  - exact (proj1 (proj2 (regular_spec hq HQ ratio rR c fuel None None (Some fd) (Some m) lo up am HV HR Hf HE))).
Qed.
Print Assumptions C52_max_depth_exact.

(** The curve a walk arrives at. *)
Definition walked (c : curve) (cs : list nat) : curve := match walk c cs with Some (_, f) => f | None => c end.
(** Computed face moments are key points. *)
Lemma computed_face_moment c face lst x t : valid_curve c -> cv_pnum c < cv_mult c -> valid_face (cv_dim c) face ->
  option_map (fun xt => (map this (fst xt), this (snd xt))) (get_face_moment_point c face (Some (cv_pnum c)) lst) = Some (map this x, this t) ->
  face_moment_of c (face_free face) (qR t) (map qR x).
Proof.
  intros HV Hp HF E. assert (EC : pattern_curve c (cv_pnum c) = c) by (destruct c; reflexivity). destruct (face_moment_ok c HV face HF lst (cv_pnum c) Hp) as (x' & t' & _ & E' & G & O & M).
  rewrite E' in E. injection E as Ex Et. rewrite EC in G, M.
  assert (Eq : qR t' = qR t) by (unfold qR; rewrite Et; reflexivity).
  assert (Ey : map qR x' = map qR x) by (change qR with (fun a : Qc => Q2R (this a)); rewrite <- !(map_map this Q2R), Ex; reflexivity).
  rewrite Eq in G, M. rewrite Ey in G, O. split; [exact G|]. exists face. split; [exact HF|]. split; [reflexivity|]. split; [exact O|].
  destruct lst; [right|left]; intros s' u' G' O'; exact (M s' u' G' O').
Qed.
(** The Hilbert curve, maximum norm, vertices, depth 1: the estimate returns lo = 6, and the two vertices, of fractions
    number 2 of the curve and 1 of its neighbour in a junction, have this ratio. *)
Example C52_example : let c := curve_or zoo_hilbert in
  let j := Jn (Sp (id_map 2) 0) (Sp (BM [(0, true); (1, true)] false) 0) [0; -1]%Z 1%Z (Some 2) in
  valid_curve c /\ check c = Some true /\
  (exists lo up am, estimate_dilation_regular ratio_linf sorted_hq 400 c None None (Some 0) (Some 1%Z) = Some (lo, up, am) /\ lo = Zq 6) /\
  In j (gen_auto_junctions c ++ fst (gen_regular_junctions 400 c)) /\ fraction_pair c j [2] [1] /\
  key_on_piece c (j_spec1 j) [2] 0 (2 / 3) [1; 1]%R /\ key_on_piece c (j_spec2 j) [1] 0 (1 / 3) [1; 0]%R /\
  junction_ratio (norm_ratio norm_linf 2) 2 j (2 / 3) [1; 1]%R (1 / 3) [1; 0]%R = 6%R.
Proof.
  intros c j. assert (HV : valid_curve c) by (apply valid_curveb_ok; vm_compute; reflexivity).
  split; [exact HV|]. split; [vm_compute; reflexivity|]. split; [do 3 eexists; split; [vm_compute; reflexivity|apply Qc_is_canon; reflexivity]|].
  split; [vm_compute; tauto|]. split.
  { split; [repeat constructor|]. split; [repeat constructor|]. split; [left; reflexivity|]. exists 2, [], 1, []. split; [reflexivity|]. split; [reflexivity|]. vm_compute. reflexivity. }
  assert (R23 : qR (Q2Qc (2 # 3)) = (2 / 3)%R) by (unfold qR, Q2R; change (IZR 2 * / IZR 3 = IZR 2 / IZR 3)%R; reflexivity).
  assert (R13 : qR (Q2Qc (1 # 3)) = (1 / 3)%R) by (unfold qR, Q2R; change (IZR 1 * / IZR 3 = IZR 1 / IZR 3)%R; reflexivity).
  split; [|split].
  - split; [reflexivity|]. exists [[1; 1]]%Z, (walked (cv_mul_sp (j_spec1 j) c) [2]), (2 / 3)%R, [1; 1]%R. split; [vm_compute; reflexivity|]. split; [|split].
    + rewrite <- R23. replace [1; 1]%R with (map qR [1; 1]%Qc) by (cbn [map]; rewrite qR_1; reflexivity). refine (computed_face_moment _ [Some 1; Some 1]%Z false [1; 1]%Qc (Q2Qc (2 # 3)) _ _ _ _); [apply valid_curveb_ok; vm_compute; reflexivity|vm_compute; auto|split; [reflexivity|repeat (constructor; auto)]|vm_compute; reflexivity].
    + change (2 / 3 * 4 ^ 1 = 2 + 2 / 3)%R. field.
    + intros i Hi. change (cv_dim c) with 2 in Hi. destruct i as [|[|i]]; [| |lia]; [change (1 * 2 ^ 1 = 1 + 1)%R|change (1 * 2 ^ 1 = 1 + 1)%R]; ring.
  - split; [reflexivity|]. exists [[1; 0]]%Z, (walked (cv_mul_sp (j_spec2 j) c) [1]), (1 / 3)%R, [1; 0]%R. split; [vm_compute; reflexivity|]. split; [|split].
    + rewrite <- R13. replace [1; 0]%R with (map qR [1; 0]%Qc) by (cbn [map]; rewrite qR_1, qR_0; reflexivity). refine (computed_face_moment _ [Some 1; Some 0]%Z false [1; 0]%Qc (Q2Qc (1 # 3)) _ _ _ _); [apply valid_curveb_ok; vm_compute; reflexivity|vm_compute; auto|split; [reflexivity|repeat (constructor; auto)]|vm_compute; reflexivity].
    + change (1 / 3 * 4 ^ 1 = 1 + 1 / 3)%R. field.
    + intros i Hi. change (cv_dim c) with 2 in Hi. destruct i as [|[|i]]; [| |lia]; [change (1 * 2 ^ 1 = 1 + 1)%R|change (0 * 2 ^ 1 = 0 + 0)%R]; ring.
  - unfold junction_ratio, junction_dt, norm_ratio, norm_linf, diffs_shifted. cbn -[IZR]. 
    replace (1 - (1 + 0))%R with 0%R by ring. replace (1 - (0 + -1))%R with 2%R by ring. rewrite Rabs_R0, (Rabs_right 2) by lra. rewrite (Rmax_left 2 0), Rmax_right by lra. field.
Qed.

(** C52: the call returns, and lo is the dilation, if the dilation is attained at key points of a pair of fractions up to
    depth m, not both at the end of the first fraction and at the beginning of the second. *)
Theorem C52_max_depth_returns : forall hq, heapq_ok hq -> forall (ratio : ratio_func) (rR : list R -> R -> R) pw norm c fd m,
  valid_curve c -> check c = Some true -> ratio_ok (cv_dim c) (ratio (cv_dim c)) rR -> ratio_norm (cv_dim c) pw norm rR -> fd <= cv_dim c ->
  (exists fuel j cs1 cs2 s u t w, In j (gen_auto_junctions c ++ fst (gen_regular_junctions fuel c)) /\ fraction_pair c j cs1 cs2 /\
    (Z.of_nat (Nat.min (length cs1) (length cs2)) <= m)%Z /\ inner_moment c j cs1 cs2 s t /\
    key_on_piece c (j_spec1 j) cs1 fd s u /\ key_on_piece c (j_spec2 j) cs2 fd t w /\ dilation_le rR c (junction_ratio rR (cv_dim c) j s u t w)) ->
  exists fuel0 lo up am, (forall fuel, fuel0 <= fuel -> estimate_dilation_regular ratio hq fuel c None None (Some fd) (Some m) = Some (lo, up, am)) /\
    dilation_le rR c (qR lo) /\ dilation_ge rR c (qR lo).
Proof.
  intros hq HQ ratio rR pw norm c fd m HV HK HR HN Hf (F & j & cs1 & cs2 & s & u & t & w & Hj & HP & Hm & HI & K1 & K2 & HD). destruct (heapq_inv hq HQ) as [is_heap HH].
  destruct (max_depth_total ratio rR pw norm c hq is_heap fd m HV HK HR HN HH Hf) as (F0 & [[lo up] am] & HE); [exists F, j, cs1, cs2, s, u, t, w; repeat (split; auto)|].
  exists F0, lo, up, am. split; [exact HE|].
  apply (C52_max_depth_exact hq HQ ratio rR c (F0 + F) fd m lo up am HV HK HR Hf (HE _ (Nat.le_add_r _ _))).
  exists j, cs1, cs2, s, u, t, w. split; [|auto]. apply in_app_or in Hj. apply in_or_app. destruct Hj as [Hj|Hj]; [left; auto|right; apply (gen_more c j F); auto]. lia.
Qed.
Print Assumptions C52_max_depth_returns.

(** The curve t -> t of division 3 in dimension 1; its dilation is 1, attained at the ends. *)
Definition line3 : curve := Cv 1 3 [Pat (Pr 1 3 [Some [0]; Some [1]; Some [2]]%Z) (repeat (Some (Sp (id_map 1) 0)) 3)] 0 KCurve.
Lemma line3_fraction k q f : fraction line3 k = Some (q, f) -> q = [Z.of_nat k] /\ f = line3.
Proof.
  destruct k as [|[|[|k]]]; intros E.
  1-3: assert (X : Some (q, f) = Some ([Z.of_nat 0], line3) \/ Some (q, f) = Some ([Z.of_nat 1], line3) \/ Some (q, f) = Some ([Z.of_nat 2], line3)) by (rewrite <- E; vm_compute; auto);
    rewrite <- E in X; vm_compute in E; inversion E; auto.
  exfalso. destruct k; discriminate E.
Qed.
Lemma line3_walk cs : forall cubes f, walk line3 cs = Some (cubes, f) -> cubes = map (fun k => [Z.of_nat k]) cs /\ f = line3.
Proof.
  induction cs as [|k cs IH]; intros cubes f E; cbn [walk map] in *; [injection E as <- <-; auto|].
  destruct (fraction line3 k) as [[q f']|] eqn:EF; [|discriminate]. apply line3_fraction in EF as [-> ->]. destruct (walk line3 cs) as [[cubes' f']|] eqn:EW; [|discriminate].
  destruct (IH _ _ eq_refl) as [-> ->]. injection E as <- <-. auto.
Qed.
Lemma line3_graph t x : graph line3 t x -> x = [t].
Proof.
  intros (dl & H). destruct (H 0) as (_ & _ & _ & _ & L & _). cbn [cv_dim line3] in L. destruct x as [|x [|y l]]; try discriminate. f_equal.
  assert (B : forall n, (Rabs (x - t) * 3 ^ n <= 1)%R).
  { intros n. destruct (H n) as (cubes & f & EW & HT & _ & HP). apply line3_walk in EW as [-> _]. specialize (HP 0 (Nat.lt_0_succ 0)). unfold time_in in HT.
    change (cv_genus line3) with 3 in HT. change (cv_div line3) with 3 in HP. unfold place_of in HP. rewrite map_map, map_length in HP. cbn [nth] in HP. change (IZR (Z.of_nat 3)) with 3%R in *. change (Z.of_nat 3) with 3%Z in *.
    replace (length (prefix dl n)) with n in * by (unfold prefix; rewrite map_length, seq_length; auto). assert (Hp : (0 < 3 ^ n)%R) by (apply pow_lt; lra).
    rewrite <- (Rabs_right (3 ^ n)), <- Rabs_mult by lra. apply Rabs_le. rewrite Rmult_minus_distr_r. change (fun k : nat => Z.of_nat k) with Z.of_nat in HP. lra. }
  destruct (Req_dec (x - t) 0) as [E|E]; [lra|]. exfalso. pose proof (Rabs_pos_lt _ E) as Hp. destruct (pow_big 3 (2 / Rabs (x - t))) as (n & Hn); [lra|]. specialize (Hn n (le_n _)). specialize (B n).
  apply (Rmult_le_compat_l (Rabs (x - t))) in Hn; [|lra]. replace (Rabs (x - t) * (2 / Rabs (x - t)))%R with 2%R in Hn by (field; lra). lra.
Qed.
Lemma line3_dilation : dilation_le (norm_ratio norm_linf 1) line3 1.
Proof.
  intros p s t u w Hp G1 G2 Hst. change (cv_mult line3) with 1 in Hp. assert (p = 0) by lia. subst p. change (pattern_curve line3 0) with line3 in *.
  apply line3_graph in G1, G2. subst. change (cv_dim line3) with 1. unfold norm_ratio, norm_linf, diffs. cbn -[IZR]. replace (Rmax (Rabs (s - t)) 0) with (t - s)%R; [right; field; lra|].
  rewrite Rmax_left by apply Rabs_pos. rewrite Rabs_left by lra. ring.
Qed.
(** Its fractions number 0 and 2: all conditions of C52_max_depth_returns are met with the moments 0 and 1. *)
Example C52_returns_example : let c := line3 in let j := auto_junction 1 0 in
  valid_curve c /\ check c = Some true /\ In j (gen_auto_junctions c ++ fst (gen_regular_junctions 0 c)) /\ fraction_pair c j [0] [2] /\
  inner_moment c j [0] [2] 0 1 /\ key_on_piece c (j_spec1 j) [0] 0 0 [0%R] /\ key_on_piece c (j_spec2 j) [2] 0 1 [1%R] /\
  dilation_le (norm_ratio norm_linf 1) c (junction_ratio (norm_ratio norm_linf 1) 1 j 0 [0%R] 1 [1%R]) /\
  exists lo up am, estimate_dilation_regular ratio_linf sorted_hq 100 c None None (Some 0) (Some 1%Z) = Some (lo, up, am) /\ lo = Zq 1.
Proof.
  intros c j. assert (HV : valid_curve c) by (apply valid_curveb_ok; vm_compute; reflexivity).
  split; [exact HV|]. split; [vm_compute; reflexivity|]. split; [vm_compute; tauto|]. split.
  { split; [repeat constructor|]. split; [repeat constructor|]. split; [left; reflexivity|]. exists 0, [], 2, []. split; [reflexivity|]. split; [reflexivity|]. vm_compute. reflexivity. }
  split; [left; change (0 * 3 ^ 1 < 0 + 1)%R; lra|]. split; [|split].
  - split; [reflexivity|]. exists [[0]]%Z, (walked (cv_mul_sp (j_spec1 j) c) [0]), 0%R, [0%R]. split; [vm_compute; reflexivity|]. split; [|split].
    + replace 0%R with (qR 0) by apply qR_0. change [qR 0] with (map qR [0%Qc]). refine (computed_face_moment _ [Some 0]%Z false [0]%Qc 0%Qc _ _ _ _); [apply valid_curveb_ok; vm_compute; reflexivity|vm_compute; auto|split; [reflexivity|repeat (constructor; auto)]|vm_compute; reflexivity].
    + change (0 * 3 ^ 1 = 0 + 0)%R. ring.
    + intros i Hi. change (cv_dim c) with 1 in Hi. destruct i as [|i]; [|lia]. change (0 * 3 ^ 1 = 0 + 0)%R. ring.
  - split; [reflexivity|]. exists [[2]]%Z, (walked (cv_mul_sp (j_spec2 j) c) [2]), 1%R, [1%R]. split; [vm_compute; reflexivity|]. split; [|split].
    + replace 1%R with (qR 1) by apply qR_1. change [qR 1] with (map qR [1%Qc]). refine (computed_face_moment _ [Some 1]%Z false [1]%Qc 1%Qc _ _ _ _); [apply valid_curveb_ok; vm_compute; reflexivity|vm_compute; auto|split; [reflexivity|repeat (constructor; auto)]|vm_compute; reflexivity].
    + change (1 * 3 ^ 1 = 2 + 1)%R. ring.
    + intros i Hi. change (cv_dim c) with 1 in Hi. destruct i as [|i]; [|lia]. change (1 * 3 ^ 1 = 2 + 1)%R. ring.
  - split.
    + intros p s t u w Hp G1 G2 Hst. eapply Rle_trans; [exact (line3_dilation p s t u w Hp G1 G2 Hst)|]. right.
      unfold junction_ratio, junction_dt, norm_ratio, norm_linf, diffs_shifted. cbn -[IZR]. replace (0 - (1 + 0))%R with (-1)%R by ring. rewrite Rmax_left by apply Rabs_pos. rewrite Rabs_left by lra. field.
    + do 3 eexists. split; [vm_compute; reflexivity|apply Qc_is_canon; reflexivity].
Qed.

(** C52: the guarantee of the docstring needs rel_tol_inv=None (the default is 100): with a tolerance the loop may stop
    before all pairs up to max_depth are considered.  The AR2W2 curve with rel_tol_inv=1, max_depth=2: lo = 6, but a pair of
    vertices of fractions of depth 2 has the ratio 260/43. *)
Theorem C52_with_tolerance_refuted :
  ~ forall hq, heapq_ok hq -> forall (ratio : ratio_func) (rR : list R -> R -> R) c fuel rel_tol_inv fd m lo up am,
      valid_curve c -> check c = Some true -> ratio_ok (cv_dim c) (ratio (cv_dim c)) rR -> fd <= cv_dim c ->
      estimate_dilation_regular ratio hq fuel c rel_tol_inv None (Some fd) (Some m) = Some (lo, up, am) ->
      forall j cs1 cs2 s u t w, In j (gen_auto_junctions c ++ fst (gen_regular_junctions fuel c)) -> fraction_pair c j cs1 cs2 ->
        (Z.of_nat (Nat.min (length cs1) (length cs2)) <= m)%Z ->
        key_on_piece c (j_spec1 j) cs1 fd s u -> key_on_piece c (j_spec2 j) cs2 fd t w -> (junction_ratio rR (cv_dim c) j s u t w <= qR lo)%R.
Proof.
  pose (c := curve_or zoo_arw). pose (j := Jn (Sp (BM [(0, false); (1, false)] true) 1) (Sp (BM [(0, true); (1, true)] false) 2) [-1; -1]%Z 1%Z (Some 1)).
  intros H. assert (HE : exists lo up am, estimate_dilation_regular ratio_l2 sorted_hq 100 c (Some 1%Z) None (Some 0) (Some 2%Z) = Some (lo, up, am) /\ lo = Zq 6).
  { do 3 eexists. split; [vm_compute; reflexivity|]. apply Qc_is_canon. reflexivity. }
  destruct HE as (lo & up & am & HE & ->).
  assert (HV : valid_curve c) by (apply valid_curveb_ok; vm_compute; reflexivity).
  pose proof (H _ sorted_hq_ok ratio_l2 (norm_ratio norm_l2 2) c 100 (Some 1%Z) 0 2%Z (Zq 6) up am HV eq_refl (proj1 (proj2 (proj2 (norms_ok 2 (Nat.lt_0_succ 1)))) eq_refl) (Nat.le_0_l _) HE
    j [1; 2] [1; 0] (29 / 48)%R [1 / 2; 1]%R (53 / 192)%R [1 / 2; 1 / 4]%R) as HB. clear H HE.
  assert (R23 : qR (Q2Qc (2 # 3)) = (2 / 3)%R) by (unfold qR, Q2R; change (IZR 2 * / IZR 3 = IZR 2 / IZR 3)%R; reflexivity).
  assert (R512 : qR (Q2Qc (5 # 12)) = (5 / 12)%R) by (unfold qR, Q2R; change (IZR 5 * / IZR 12 = IZR 5 / IZR 12)%R; reflexivity).
  assert (HJ : junction_ratio (norm_ratio norm_l2 2) 2 j (29 / 48) [1 / 2; 1]%R (53 / 192) [1 / 2; 1 / 4]%R = (260 / 43)%R).
  { unfold junction_ratio, junction_dt, norm_ratio, norm_l2, diffs_shifted. cbn -[IZR]. rewrite Rmult_1_r, sqrt_sqrt by nra. field. }
  change (cv_dim c) with 2 in HB. rewrite HJ, qR_Zq in HB.
  enough (260 / 43 <= 6)%R by lra. apply HB; clear HB HJ.
  - vm_compute. tauto.
  - split; [repeat constructor|]. split; [repeat constructor|]. split; [left; reflexivity|]. exists 1, [2], 1, [0]. split; [reflexivity|]. split; [reflexivity|]. vm_compute. reflexivity.
  - vm_compute. discriminate.
  - split; [reflexivity|]. exists [[0; 1]; [1; 1]]%Z, (walked (cv_mul_sp (j_spec1 j) c) [2; 1]), (2 / 3)%R, [1; 1]%R. split; [vm_compute; reflexivity|]. split; [|split].
    + rewrite <- R23. replace [1; 1]%R with (map qR [1; 1]%Qc) by (cbn [map]; rewrite qR_1; reflexivity). refine (computed_face_moment _ [Some 1; Some 1]%Z false [1; 1]%Qc (Q2Qc (2 # 3)) _ _ _ _); [apply valid_curveb_ok; vm_compute; reflexivity|vm_compute; auto|split; [reflexivity|repeat (constructor; auto)]|vm_compute; reflexivity].
    + change (29 / 48 * 4 ^ 2 = 9 + 2 / 3)%R. field.
    + intros i Hi. change (cv_dim c) with 2 in Hi. destruct i as [|[|i]]; [| |lia]; [change (1 / 2 * 2 ^ 2 = 1 + 1)%R|change (1 * 2 ^ 2 = 3 + 1)%R]; field.
  - split; [reflexivity|]. exists [[1; 0]; [0; 1]]%Z, (walked (cv_mul_sp (j_spec2 j) c) [1; 0]), (5 / 12)%R, [0; 0]%R. split; [vm_compute; reflexivity|]. split; [|split].
    + rewrite <- R512. replace [0; 0]%R with (map qR [0; 0]%Qc) by (cbn [map]; rewrite qR_0; reflexivity). refine (computed_face_moment _ [Some 0; Some 0]%Z false [0; 0]%Qc (Q2Qc (5 # 12)) _ _ _ _); [apply valid_curveb_ok; vm_compute; reflexivity|vm_compute; auto|split; [reflexivity|repeat (constructor; auto)]|vm_compute; reflexivity].
    + change (53 / 192 * 4 ^ 2 = 4 + 5 / 12)%R. field.
    + intros i Hi. change (cv_dim c) with 2 in Hi. destruct i as [|[|i]]; [| |lia]; [change (1 / 2 * 2 ^ 2 = 2 + 0)%R|change (1 / 4 * 2 ^ 2 = 1 + 0)%R]; field.
Qed.
Print Assumptions C52_with_tolerance_refuted.
