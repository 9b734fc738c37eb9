(** Walks over the square for the three kinds of plane curves with one pattern. *)
From Verif Require Import S_YE Py L_Py L_Qc L_R L_BaseMaps M_BaseMaps M_Subsets M_Paths M_Curves M_PathGen S_BaseMaps S_Subsets S_Paths S_Curves S_PathGen S_Search
  P_PlaneCurve P_PlaneEx.
Local Open Scope Z_scope.

Definition zf (f : bool) (z : Z) : Z := if f then 2 - z else z.
Definition gate (X Y : Z) : plink := Lk [hq 0; hq 0] [hq X; hq Y].
Lemma hq_flip f z : hq (zf f z) = qflip f (hq z).
Proof. unfold hq, zf, qflip. destruct f; auto. rewrite Zq_sub. replace 1%Qc with (Zq 2 * half)%Qc by (apply Qc_is_canon; reflexivity). ring. Qed.
Lemma ok_fwd X Y cx cy (sw fx fy : bool) : ok (gate X Y) (St cx cy (zf fx 0) (zf fy 0) (zf fx (if sw then Y else X)) (zf fy (if sw then X else Y))).
Proof.
  exists (gate X Y), (sq sw fx fy false). split; [cbn; auto|]. split; [apply sq_wf|]. cbn [time_rev sq]. unfold gate. cbn [entrance exit]. rewrite !sq_mul. unfold st_link. cbn [ax ay bx by_].
  rewrite !hq_flip. destruct sw; auto.
Qed.
Lemma ok_bwd X Y cx cy (sw fx fy : bool) : ok (gate X Y) (St cx cy (zf fx (if sw then Y else X)) (zf fy (if sw then X else Y)) (zf fx 0) (zf fy 0)).
Proof.
  exists (gate X Y), (sq sw fx fy true). split; [cbn; auto|]. split; [apply sq_wf|]. cbn [time_rev sq]. unfold gate. cbn [entrance exit]. rewrite !sq_mul. unfold st_link. cbn [ax ay bx by_].
  rewrite !hq_flip. destruct sw; auto.
Qed.
Lemma cell_fwd X Y (sw fx fy : bool) x y a b u v R c d u' v' : a = 2 * x + zf fx 0 -> b = 2 * y + zf fy 0 -> c = 2 * x + zf fx (if sw then Y else X) -> d = 2 * y + zf fy (if sw then X else Y) ->
  Z.abs (u - x) + Z.abs (v - y) <= 1 -> u' = x -> v' = y -> (forall p q, R p q <-> p = x /\ q = y) -> nwalk (gate X Y) a b u v R c d u' v'.
Proof. intros. eapply walk_one; [apply (ok_fwd X Y x y sw fx fy)|..]; cbn [sx sy ax ay bx by_]; auto. Qed.
Lemma cell_bwd X Y (sw fx fy : bool) x y a b u v R c d u' v' : a = 2 * x + zf fx (if sw then Y else X) -> b = 2 * y + zf fy (if sw then X else Y) -> c = 2 * x + zf fx 0 -> d = 2 * y + zf fy 0 ->
  Z.abs (u - x) + Z.abs (v - y) <= 1 -> u' = x -> v' = y -> (forall p q, R p q <-> p = x /\ q = y) -> nwalk (gate X Y) a b u v R c d u' v'.
Proof. intros. eapply walk_one; [apply (ok_bwd X Y x y sw fx fy)|..]; cbn [sx sy ax ay bx by_]; auto. Qed.

Ltac wk := cbv beta delta [zf box]; cbv iota; intros; lia.
Ltac fwd sw fx fy x y := apply (cell_fwd _ _ sw fx fy x y); wk.
Ltac bwd sw fx fy x y := apply (cell_bwd _ _ sw fx fy x y); wk.
Ltac cat R1 p1 p2 q1 q2 R2 := apply (walk_cat _ p1 p2 q1 q2 R1 R2); [| |wk|wk].
Ltac iter a b u v P R n := eapply walk_same; [apply (walk_iter _ a b u v P R n); [wk| |wk|wk|wk]|..]; [cbv beta; intros|wk..].
Ltac by_walk H := eapply walk_same; [apply H; wk|wk..].
Local Notation touching u v x y := (Z.abs (u - x) + Z.abs (v - y) <= 1).

(** Side curves. *)
Local Notation S := (gate 2 0).
Lemma side_up f u v x y h : 1 <= h -> touching u v x y -> nwalk S (2 * x + zf f 0) (2 * y) u v (box x (x + 1) y (y + h)) (2 * x + zf f 0) (2 * y + 2 * h) x (y + h - 1).
Proof.
  intros Hh Hu. cat (box x (x + 1) y (y + 1)) (2 * x + zf f 0) (2 * y + 2) x y (box x (x + 1) (y + 1) (y + h)); [apply (cell_fwd _ _ true f false x y); destruct f; wk|].
  iter (fun i : Z => 2 * x + zf f 0) (fun i => 2 * y + 2 + 2 * i) (fun i : Z => x) (fun i => y + i) (fun i => box x (x + 1) (y + 1) (y + 1 + i)) (fun i => box x (x + 1) (y + 1 + i) (y + i + 2)) (h - 1).
  apply (cell_fwd _ _ true f false x (y + 1 + i)); destruct f; wk.
Qed.
Lemma side_down f u v x y h : 1 <= h -> touching u v x (y + h - 1) -> nwalk S (2 * x + zf f 0) (2 * y + 2 * h) u v (box x (x + 1) y (y + h)) (2 * x + zf f 0) (2 * y) x y.
Proof.
  intros Hh Hu. cat (box x (x + 1) (y + h - 1) (y + h)) (2 * x + zf f 0) (2 * y + 2 * h - 2) x (y + h - 1) (box x (x + 1) y (y + h - 1)); [apply (cell_fwd _ _ true f true x (y + h - 1)); destruct f; wk|].
  iter (fun i : Z => 2 * x + zf f 0) (fun i => 2 * y + 2 * h - 2 - 2 * i) (fun i : Z => x) (fun i => y + h - 1 - i) (fun i => box x (x + 1) (y + h - 1 - i) (y + h - 1)) (fun i => box x (x + 1) (y + h - i - 2) (y + h - 1 - i)) (h - 1).
  apply (cell_fwd _ _ true f true x (y + h - i - 2)); destruct f; wk.
Qed.
Lemma side_pair u v x y h : 2 <= h -> touching u v x y -> nwalk S (2 * x) (2 * y) u v (box x (x + 2) y (y + h)) (2 * x + 4) (2 * y) (x + 1) y.
Proof.
  intros Hh Hu. cat (box x (x + 1) y (y + h - 1)) (2 * x) (2 * y + 2 * h - 2) x (y + h - 2) (fun p q => box x (x + 2) y (y + h) p q /\ ~ box x (x + 1) y (y + h - 1) p q).
  - by_walk (side_up false u v x y (h - 1)).
  - cat (box x (x + 1) (y + h - 1) (y + h)) (2 * x + 2) (2 * y + 2 * h - 2) x (y + h - 1) (box (x + 1) (x + 2) y (y + h)).
    + fwd false false false x (y + h - 1).
    + cat (box (x + 1) (x + 2) (y + h - 1) (y + h)) (2 * x + 4) (2 * y + 2 * h - 2) (x + 1) (y + h - 1) (box (x + 1) (x + 2) y (y + h - 1)).
      * fwd false false false (x + 1) (y + h - 1).
      * by_walk (side_down true (x + 1) (y + h - 1) (x + 1) y (h - 1)).
Qed.
Lemma side_strip x k : 0 <= k -> forall u v y, touching u v x y -> nwalk S (2 * x) (2 * y) u v (box x (x + 3) y (y + 2 * k + 1)) (2 * x + 6) (2 * y) (x + 2) y.
Proof.
  intros Hk. pattern k. apply natlike_ind; auto; clear k Hk.
  - intros u v y Hu. cat (box x (x + 1) y (y + 1)) (2 * x + 2) (2 * y) x y (box (x + 1) (x + 3) y (y + 1)); [fwd false false false x y|].
    cat (box (x + 1) (x + 2) y (y + 1)) (2 * x + 4) (2 * y) (x + 1) y (box (x + 2) (x + 3) y (y + 1)); [fwd false false false (x + 1) y|fwd false false false (x + 2) y].
  - intros k Hk IH u v y Hu. unfold Z.succ. cat (box x (x + 1) y (y + 2)) (2 * x) (2 * y + 4) x (y + 1) (fun p q => (box x (x + 3) y (y + 2 * k + 3) p q) /\ ~ box x (x + 1) y (y + 2) p q).
    + by_walk (side_up false u v x y 2).
    + cat (box x (x + 3) (y + 2) (y + 2 * k + 3)) (2 * x + 6) (2 * y + 4) (x + 2) (y + 2) (box (x + 1) (x + 3) y (y + 2)).
      * by_walk (IH x (y + 1) (y + 2)).
      * cat (box (x + 2) (x + 3) (y + 1) (y + 2)) (2 * x + 4) (2 * y + 4) (x + 2) (y + 1) (fun p q => box (x + 1) (x + 3) y (y + 2) p q /\ ~ box (x + 2) (x + 3) (y + 1) (y + 2) p q); [fwd false true true (x + 2) (y + 1)|].
        cat (box (x + 1) (x + 2) y (y + 2)) (2 * x + 4) (2 * y) (x + 1) y (box (x + 2) (x + 3) y (y + 1)); [by_walk (side_down true (x + 2) (y + 1) (x + 1) y 2)|fwd false false false (x + 2) y].
Qed.
Lemma side_walk N : 2 <= N -> nwalk S 0 0 (-1) 0 (box 0 N 0 N) (N * 2) (N * 0) (N - 1) 0.
Proof.
  intros HN. assert (HP : forall k, 0 <= k -> nwalk S 0 0 (-1) 0 (box 0 (2 * k) 0 N) (4 * k) 0 (2 * k - 1) 0).
  { intros k Hk. iter (fun i => 4 * i) (fun i : Z => 0) (fun i => 2 * i - 1) (fun i : Z => 0) (fun i => box 0 (2 * i) 0 N) (fun i => box (2 * i) (2 * i + 2) 0 N) k. by_walk (side_pair (2 * i - 1) 0 (2 * i) 0 N). }
  destruct (Zeven_odd_dec N) as [E|E]; [apply Zeven_ex in E|apply Zodd_ex in E]; destruct E as (k & E).
  - by_walk (HP k).
  - cat (box 0 (2 * (k - 1)) 0 N) (4 * (k - 1)) 0 (2 * (k - 1) - 1) 0 (box (2 * (k - 1)) N 0 N); [by_walk (HP (k - 1))|by_walk (side_strip (2 * (k - 1)) k ltac:(lia) (2 * (k - 1) - 1) 0 0)].
Qed.

(** Diagonal curves. *)
Local Notation D := (gate 2 2).
Lemma diag_up x k : 0 <= k -> nwalk D (2 * x) 0 (x - 1) 0 (box x (x + 1) 0 (2 * k + 1)) (2 * x + 2) (4 * k + 2) x (2 * k).
Proof.
  intros Hk. cat (box x (x + 1) 0 1) (2 * x + 2) 2 x 0 (box x (x + 1) 1 (2 * k + 1)); [fwd false false false x 0|].
  iter (fun i : Z => 2 * x + 2) (fun i => 4 * i + 2) (fun i : Z => x) (fun i => 2 * i) (fun i => box x (x + 1) 1 (2 * i + 1)) (fun i => box x (x + 1) (2 * i + 1) (2 * i + 3)) k.
  cat (box x (x + 1) (2 * i + 1) (2 * i + 2)) (2 * x) (4 * i + 4) x (2 * i + 1) (box x (x + 1) (2 * i + 2) (2 * i + 3)); [fwd false true false x (2 * i + 1)|fwd false false false x (2 * i + 2)].
Qed.
Lemma diag_down x k : 0 <= k -> nwalk D (2 * x) (4 * k + 2) (x - 1) (2 * k) (box x (x + 1) 0 (2 * k + 1)) (2 * x + 2) 0 x 0.
Proof.
  intros Hk. cat (box x (x + 1) (2 * k) (2 * k + 1)) (2 * x + 2) (4 * k) x (2 * k) (box x (x + 1) 0 (2 * k)); [fwd false false true x (2 * k)|].
  iter (fun i : Z => 2 * x + 2) (fun i => 4 * (k - i)) (fun i : Z => x) (fun i => 2 * (k - i)) (fun i => box x (x + 1) (2 * (k - i)) (2 * k)) (fun i => box x (x + 1) (2 * (k - i) - 2) (2 * (k - i))) k.
  cat (box x (x + 1) (2 * (k - i) - 1) (2 * (k - i))) (2 * x) (4 * (k - i) - 2) x (2 * (k - i) - 1) (box x (x + 1) (2 * (k - i) - 2) (2 * (k - i) - 1)); [fwd false true true x (2 * (k - i) - 1)|fwd false false true x (2 * (k - i) - 2)].
Qed.
Lemma diag_walk k : 0 <= k -> nwalk D 0 0 (-1) 0 (box 0 (2 * k + 1) 0 (2 * k + 1)) ((2 * k + 1) * 2) ((2 * k + 1) * 2) (2 * k) (2 * k).
Proof.
  intros Hk. cat (box 0 (2 * k) 0 (2 * k + 1)) (4 * k) 0 (2 * k - 1) 0 (box (2 * k) (2 * k + 1) 0 (2 * k + 1)); [|by_walk (diag_up (2 * k) k)].
  iter (fun i => 4 * i) (fun i : Z => 0) (fun i => 2 * i - 1) (fun i : Z => 0) (fun i => box 0 (2 * i) 0 (2 * k + 1)) (fun i => box (2 * i) (2 * i + 2) 0 (2 * k + 1)) k.
  cat (box (2 * i) (2 * i + 1) 0 (2 * k + 1)) (4 * i + 2) (4 * k + 2) (2 * i) (2 * k) (box (2 * i + 1) (2 * i + 2) 0 (2 * k + 1)); [by_walk (diag_up (2 * i) k)|by_walk (diag_down (2 * i + 1) k)].
Qed.

(** Median curves: two cells in a row, from a corner of the short side to a corner of the opposite side. *)
Local Notation M := (gate 2 1).
Ltac wb f e := destruct f, e; wk.
Lemma dom_r (f e : bool) u v x y : touching u v x y -> nwalk M (2 * x) (2 * y + zf f 0) u v (box x (x + 2) y (y + 1)) (2 * x + 4) (2 * y + zf e 0) (x + 1) y.
Proof. intros. cat (box x (x + 1) y (y + 1)) (2 * x + 2) (2 * y + 1) x y (box (x + 1) (x + 2) y (y + 1)); [apply (cell_fwd _ _ false false f x y); wb f e|apply (cell_bwd _ _ false true e (x + 1) y); wb f e]. Qed.
Lemma dom_l (f e : bool) u v x y : touching u v (x + 1) y -> nwalk M (2 * x + 4) (2 * y + zf f 0) u v (box x (x + 2) y (y + 1)) (2 * x) (2 * y + zf e 0) x y.
Proof. intros. cat (box (x + 1) (x + 2) y (y + 1)) (2 * x + 2) (2 * y + 1) (x + 1) y (box x (x + 1) y (y + 1)); [apply (cell_fwd _ _ false true f (x + 1) y); wb f e|apply (cell_bwd _ _ false false e x y); wb f e]. Qed.
Lemma dom_u (f e : bool) u v x y : touching u v x y -> nwalk M (2 * x + zf f 0) (2 * y) u v (box x (x + 1) y (y + 2)) (2 * x + zf e 0) (2 * y + 4) x (y + 1).
Proof. intros. cat (box x (x + 1) y (y + 1)) (2 * x + 1) (2 * y + 2) x y (box x (x + 1) (y + 1) (y + 2)); [apply (cell_fwd _ _ true f false x y); wb f e|apply (cell_bwd _ _ true e true x (y + 1)); wb f e]. Qed.
Lemma dom_d (f e : bool) u v x y : touching u v x (y + 1) -> nwalk M (2 * x + zf f 0) (2 * y + 4) u v (box x (x + 1) y (y + 2)) (2 * x + zf e 0) (2 * y) x y.
Proof. intros. cat (box x (x + 1) (y + 1) (y + 2)) (2 * x + 1) (2 * y + 2) x (y + 1) (box x (x + 1) y (y + 1)); [apply (cell_fwd _ _ true f true x (y + 1)); wb f e|apply (cell_bwd _ _ true e false x y); wb f e]. Qed.
Ltac by_dom H f e := eapply walk_same; [apply H; wk|destruct f, e; wk..].
Ltac by_dom1 H e := eapply walk_same; [apply H; wk|destruct e; wk..].
(** runs of w such pairs *)
Lemma run_r (f e : bool) u v x y w : 1 <= w -> touching u v x y -> nwalk M (2 * x) (2 * y + zf f 0) u v (box x (x + 2 * w) y (y + 1)) (2 * x + 4 * w) (2 * y + zf e 0) (x + 2 * w - 1) y.
Proof.
  intros Hw Hu. cat (box x (x + 2) y (y + 1)) (2 * x + 4) (2 * y + zf e 0) (x + 1) y (box (x + 2) (x + 2 * w) y (y + 1)); [apply dom_r; auto|].
  iter (fun i => 2 * x + 4 + 4 * i) (fun i : Z => 2 * y + zf e 0) (fun i => x + 1 + 2 * i) (fun i : Z => y) (fun i => box (x + 2) (x + 2 + 2 * i) y (y + 1)) (fun i => box (x + 2 + 2 * i) (x + 4 + 2 * i) y (y + 1)) (w - 1).
  by_dom1 (dom_r e e (x + 1 + 2 * i) y (x + 2 + 2 * i) y) e.
Qed.
Lemma run_l (f e : bool) u v x y w : 1 <= w -> touching u v (x + 2 * w - 1) y -> nwalk M (2 * x + 4 * w) (2 * y + zf f 0) u v (box x (x + 2 * w) y (y + 1)) (2 * x) (2 * y + zf e 0) x y.
Proof.
  intros Hw Hu. cat (box (x + 2 * w - 2) (x + 2 * w) y (y + 1)) (2 * x + 4 * w - 4) (2 * y + zf e 0) (x + 2 * w - 2) y (box x (x + 2 * w - 2) y (y + 1)); [by_dom (dom_l f e u v (x + 2 * w - 2) y) f e|].
  iter (fun i => 2 * x + 4 * w - 4 - 4 * i) (fun i : Z => 2 * y + zf e 0) (fun i => x + 2 * w - 2 - 2 * i) (fun i : Z => y) (fun i => box (x + 2 * w - 2 - 2 * i) (x + 2 * w - 2) y (y + 1)) (fun i => box (x + 2 * w - 4 - 2 * i) (x + 2 * w - 2 - 2 * i) y (y + 1)) (w - 1).
  by_dom1 (dom_l e e (x + 2 * w - 2 - 2 * i) y (x + 2 * w - 4 - 2 * i) y) e.
Qed.
Lemma run_u (f e : bool) u v x y w : 1 <= w -> touching u v x y -> nwalk M (2 * x + zf f 0) (2 * y) u v (box x (x + 1) y (y + 2 * w)) (2 * x + zf e 0) (2 * y + 4 * w) x (y + 2 * w - 1).
Proof.
  intros Hw Hu. cat (box x (x + 1) y (y + 2)) (2 * x + zf e 0) (2 * y + 4) x (y + 1) (box x (x + 1) (y + 2) (y + 2 * w)); [apply dom_u; auto|].
  iter (fun i : Z => 2 * x + zf e 0) (fun i => 2 * y + 4 + 4 * i) (fun i : Z => x) (fun i => y + 1 + 2 * i) (fun i => box x (x + 1) (y + 2) (y + 2 + 2 * i)) (fun i => box x (x + 1) (y + 2 + 2 * i) (y + 4 + 2 * i)) (w - 1).
  by_dom1 (dom_u e e x (y + 1 + 2 * i) x (y + 2 + 2 * i)) e.
Qed.
Lemma run_d (f e : bool) u v x y w : 1 <= w -> touching u v x (y + 2 * w - 1) -> nwalk M (2 * x + zf f 0) (2 * y + 4 * w) u v (box x (x + 1) y (y + 2 * w)) (2 * x + zf e 0) (2 * y) x y.
Proof.
  intros Hw Hu. cat (box x (x + 1) (y + 2 * w - 2) (y + 2 * w)) (2 * x + zf e 0) (2 * y + 4 * w - 4) x (y + 2 * w - 2) (box x (x + 1) y (y + 2 * w - 2)); [by_dom (dom_d f e u v x (y + 2 * w - 2)) f e|].
  iter (fun i : Z => 2 * x + zf e 0) (fun i => 2 * y + 4 * w - 4 - 4 * i) (fun i : Z => x) (fun i => y + 2 * w - 2 - 2 * i) (fun i => box x (x + 1) (y + 2 * w - 2 - 2 * i) (y + 2 * w - 2)) (fun i => box x (x + 1) (y + 2 * w - 4 - 2 * i) (y + 2 * w - 2 - 2 * i)) (w - 1).
  by_dom1 (dom_d e e x (y + 2 * w - 2 - 2 * i) x (y + 2 * w - 4 - 2 * i)) e.
Qed.
(** two rows of width 2w or 2w+1, two columns of height 2w *)
Lemma rows_even x y w : 1 <= w -> nwalk M (2 * x) (2 * y) x (y - 1) (box x (x + 2 * w) y (y + 2)) (2 * x) (2 * y + 4) x (y + 1).
Proof.
  intros Hw. cat (box x (x + 2 * w) y (y + 1)) (2 * x + 4 * w) (2 * y + 2) (x + 2 * w - 1) y (box x (x + 2 * w) (y + 1) (y + 2)); [by_walk (run_r false true x (y - 1) x y w)|by_walk (run_l false true (x + 2 * w - 1) y x (y + 1) w)].
Qed.
Lemma rows_odd x y w : 1 <= w -> nwalk M (2 * x) (2 * y) x (y - 1) (box x (x + 2 * w + 1) y (y + 2)) (2 * x) (2 * y + 4) x (y + 1).
Proof.
  intros Hw. cat (fun p q => box x (x + 2 * w + 1) y (y + 1) p q \/ box (x + 2 * w) (x + 2 * w + 1) (y + 1) (y + 2) p q) (2 * x + 4 * w) (2 * y + 4) (x + 2 * w) (y + 1) (box x (x + 2 * w) (y + 1) (y + 2)).
  - cat (box x (x + 2 * w) y (y + 1)) (2 * x + 4 * w) (2 * y) (x + 2 * w - 1) y (box (x + 2 * w) (x + 2 * w + 1) y (y + 2)); [by_walk (run_r false false x (y - 1) x y w)|by_walk (run_u false false (x + 2 * w - 1) y (x + 2 * w) y 1)].
  - by_walk (run_l true true (x + 2 * w) (y + 1) x (y + 1) w).
Qed.
Lemma cols u v x y w : 1 <= w -> touching u v x y -> nwalk M (2 * x) (2 * y) u v (box x (x + 2) y (y + 2 * w)) (2 * x + 4) (2 * y) (x + 1) y.
Proof.
  intros Hw Hu. cat (box x (x + 1) y (y + 2 * w)) (2 * x + 2) (2 * y + 4 * w) x (y + 2 * w - 1) (box (x + 1) (x + 2) y (y + 2 * w)); [by_walk (run_u false true u v x y w)|by_walk (run_d false true x (y + 2 * w - 1) (x + 1) y w)].
Qed.
Lemma rows_evens w k : 1 <= w -> 0 <= k -> nwalk M 0 0 0 (-1) (box 0 (2 * w) 0 (2 * k)) 0 (4 * k) 0 (2 * k - 1).
Proof.
  intros Hw Hk. iter (fun i : Z => 0) (fun i => 4 * i) (fun i : Z => 0) (fun i => 2 * i - 1) (fun i => box 0 (2 * w) 0 (2 * i)) (fun i => box 0 (2 * w) (2 * i) (2 * i + 2)) k. by_walk (rows_even 0 (2 * i) w).
Qed.
(** the first two columns, then the others *)
Lemma cols_all u v y w k : 1 <= w -> 1 <= k -> touching u v 0 y -> nwalk M 0 (2 * y) u v (box 0 (2 * k) y (y + 2 * w)) (4 * k) (2 * y) (2 * k - 1) y.
Proof.
  intros Hw Hk Hu. cat (box 0 2 y (y + 2 * w)) 4 (2 * y) 1 y (box 2 (2 * k) y (y + 2 * w)); [by_walk (cols u v 0 y w)|].
  iter (fun i => 4 + 4 * i) (fun i : Z => 2 * y) (fun i => 1 + 2 * i) (fun i : Z => y) (fun i => box 2 (2 + 2 * i) y (y + 2 * w)) (fun i => box (2 + 2 * i) (2 * i + 4) y (y + 2 * w)) (k - 1). by_walk (cols (1 + 2 * i) y (2 + 2 * i) y w).
Qed.
(** N = 4k *)
Lemma median_4k k : 1 <= k -> nwalk M 0 0 0 (-1) (box 0 (4 * k) 0 (4 * k)) (4 * k * 2) (4 * k * 1) (4 * k - 1) (2 * k).
Proof.
  intros Hk. cat (box 0 (4 * k) 0 (2 * k)) 0 (4 * k) 0 (2 * k - 1) (box 0 (4 * k) (2 * k) (4 * k)); [by_walk (rows_evens (2 * k) k)|by_walk (cols_all 0 (2 * k - 1) (2 * k) k (2 * k))].
Qed.
(** four columns of height 2w, to the middle of the last ones *)
Lemma gadget u v x y w : 2 <= w -> touching u v x y -> nwalk M (2 * x) (2 * y) u v (box x (x + 4) y (y + 2 * w)) (2 * x + 8) (2 * y + 2) (x + 3) y.
Proof.
  intros Hw Hu. cat (box x (x + 1) y (y + 2 * w)) (2 * x + 2) (2 * y + 4 * w) x (y + 2 * w - 1) (box (x + 1) (x + 4) y (y + 2 * w)); [by_walk (run_u false true u v x y w)|].
  cat (box (x + 1) (x + 2) (y + 2) (y + 2 * w)) (2 * x + 4) (2 * y + 4) (x + 1) (y + 2) (fun p q => box (x + 2) (x + 4) y (y + 2 * w) p q \/ box (x + 1) (x + 2) y (y + 2) p q); [by_walk (run_d false true x (y + 2 * w - 1) (x + 1) (y + 2) (w - 1))|].
  cat (box (x + 2) (x + 3) (y + 2) (y + 2 * w)) (2 * x + 6) (2 * y + 4 * w) (x + 2) (y + 2 * w - 1) (fun p q => box (x + 3) (x + 4) (y + 2) (y + 2 * w) p q \/ box (x + 1) (x + 4) y (y + 2) p q); [by_walk (run_u false true (x + 1) (y + 2) (x + 2) (y + 2) (w - 1))|].
  cat (box (x + 3) (x + 4) (y + 2) (y + 2 * w)) (2 * x + 8) (2 * y + 4) (x + 3) (y + 2) (box (x + 1) (x + 4) y (y + 2)); [by_walk (run_d false true (x + 2) (y + 2 * w - 1) (x + 3) (y + 2) (w - 1))|].
  cat (box (x + 2) (x + 4) (y + 1) (y + 2)) (2 * x + 4) (2 * y + 4) (x + 2) (y + 1) (fun p q => box (x + 1) (x + 2) y (y + 2) p q \/ box (x + 2) (x + 4) y (y + 1) p q); [by_walk (run_l true true (x + 3) (y + 2) (x + 2) (y + 1) 1)|].
  cat (box (x + 1) (x + 2) y (y + 2)) (2 * x + 4) (2 * y) (x + 1) y (box (x + 2) (x + 4) y (y + 1)); [by_walk (run_d true true (x + 2) (y + 1) (x + 1) y 1)|by_walk (run_r false true (x + 1) y (x + 2) y 1)].
Qed.
(** N = 4k+2 *)
Lemma median_4k2 k : 1 <= k -> nwalk M 0 0 0 (-1) (box 0 (4 * k + 2) 0 (4 * k + 2)) ((4 * k + 2) * 2) ((4 * k + 2) * 1) (4 * k + 1) (2 * k).
Proof.
  intros Hk. cat (box 0 (4 * k + 2) 0 (2 * k)) 0 (4 * k) 0 (2 * k - 1) (box 0 (4 * k + 2) (2 * k) (4 * k + 2)); [by_walk (rows_evens (2 * k + 1) k)|].
  cat (box 0 (4 * k - 2) (2 * k) (4 * k + 2)) (8 * k - 4) (4 * k) (4 * k - 3) (2 * k) (box (4 * k - 2) (4 * k + 2) (2 * k) (4 * k + 2)); [by_walk (cols_all 0 (2 * k - 1) (2 * k) (k + 1) (2 * k - 1))|by_walk (gadget (4 * k - 3) (2 * k) (4 * k - 2) (2 * k) (k + 1))].
Qed.
(** N = 4k+1 *)
Lemma median_4k1 k : 1 <= k -> nwalk M 0 0 0 (-1) (box 0 (4 * k + 1) 0 (4 * k + 1)) ((4 * k + 1) * 2) ((4 * k + 1) * 1) (4 * k) (2 * k).
Proof.
  intros Hk. cat (box 0 (4 * k + 1) 0 (2 * k)) 0 (4 * k) 0 (2 * k - 1) (box 0 (4 * k + 1) (2 * k) (4 * k + 1)).
  { iter (fun i : Z => 0) (fun i => 4 * i) (fun i : Z => 0) (fun i => 2 * i - 1) (fun i => box 0 (4 * k + 1) 0 (2 * i)) (fun i => box 0 (4 * k + 1) (2 * i) (2 * i + 2)) k. by_walk (rows_odd 0 (2 * i) (2 * k)). }
  cat (box 0 (4 * k) (2 * k) (4 * k)) 0 (8 * k) 0 (4 * k - 1) (fun p q => box 0 (4 * k) (4 * k) (4 * k + 1) p q \/ box (4 * k) (4 * k + 1) (2 * k) (4 * k + 1) p q).
  { iter (fun i : Z => 0) (fun i => 4 * k + 4 * i) (fun i : Z => 0) (fun i => 2 * k + 2 * i - 1) (fun i => box 0 (4 * k) (2 * k) (2 * k + 2 * i)) (fun i => box 0 (4 * k) (2 * k + 2 * i) (2 * k + 2 * i + 2)) k. by_walk (rows_even 0 (2 * k + 2 * i) (2 * k)). }
  cat (box 0 (4 * k) (4 * k) (4 * k + 1)) (8 * k) (8 * k + 2) (4 * k - 1) (4 * k) (box (4 * k) (4 * k + 1) (2 * k) (4 * k + 1)); [by_walk (run_r false true 0 (4 * k - 1) 0 (4 * k) (2 * k))|].
  cat (box (4 * k) (4 * k + 1) (2 * k + 1) (4 * k + 1)) (8 * k) (4 * k + 2) (4 * k) (2 * k + 1) (box (4 * k) (4 * k + 1) (2 * k) (2 * k + 1)); [by_walk (run_d false false (4 * k - 1) (4 * k) (4 * k) (2 * k + 1) k)|].
  fwd false false true (4 * k) (2 * k).
Qed.
