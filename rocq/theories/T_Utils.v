(** Property theorems for utils.py. *)
From Verif Require Import Py L_Qc M_Utils S_Utils S_Ratio L_R P_Utils P_Ratio P_Combi.
From Coq Require Import Reals Permutation.
Local Open Scope nat_scope.

(** C18: the rational returned is the limit of the partial sums of the digit series. *)
Theorem C18_periodic_sum : forall (start period : list Z) (base : Z), (2 <= base)%Z -> period <> [] ->
  exists v, get_periodic_sum start period base = Some v /\
    infinite_sum (fun k => IZR (stream_digit start period k) / IZR base ^ (S k))%R (qR v).
Proof. exact periodic_sum_exact. Qed.
Print Assumptions C18_periodic_sum.

(** C18, digit form: for genuine digits the value lies in every interval addressed by a prefix of the expansion. *)
Theorem C18_enclosure : forall (start period : list Z) (base : Z) (n : nat), (2 <= base)%Z -> period <> [] ->
  (forall c, In c start \/ In c period -> (0 <= c < base)%Z) ->
  exists v, get_periodic_sum start period base = Some v /\
   (IZR (value base (stream_prefix start period n)) <= qR v * IZR base ^ n <= IZR (value base (stream_prefix start period n)) + 1)%R.
Proof. exact periodic_sum_enclosure. Qed.
Print Assumptions C18_enclosure.
Example C18_example : get_periodic_sum [1]%Z [2; 0]%Z 3%Z = Some (Q2Qc (7 # 12)) /\ (forall k, stream_digit [1]%Z [2;0]%Z (S (2 * k)) = 2%Z).
Proof.
  split; [vm_compute; f_equal; apply Qc_is_canon; reflexivity|]. intros k. unfold stream_digit. cbn [length Nat.ltb Nat.leb].
  replace (S (2 * k) - 1) with (k * 2) by lia. rewrite Nat.mod_mul by lia. reflexivity.
Qed.

(** C34: for iterables without repetitions, exactly one result for each class of tuples that differ only in the
    order of items of equal ids; every result is such a tuple, and results are distinct. *)
Theorem C34_combinations_product : forall (T : Type) (dec : forall x y : T, {x = y} + {x <> y})
   (ids : list nat) (dict : nat -> option (list T)),
  (forall i, In i ids -> exists l, dict i = Some l /\ NoDup l) ->
  exists res, combinations_product ids dict = Some res /\ NoDup res /\
    (forall t, In t res -> valid_tuple ids dict t) /\
    (forall t, valid_tuple ids dict t -> exists! r, In r res /\ same_choice ids t r).
Proof. exact (fun T dec => @combinations_product_exact T dec). Qed.
Print Assumptions C34_combinations_product.

(** C34 for arbitrary iterables: the same with (id, position) in place of the items. *)
Theorem C34_positions : forall (T : Type) (ids : list nat) (dict : nat -> option (list T)),
  (forall i, In i ids -> dict i <> None) ->
  exists choices res, combinations_product ids dict = Some res /\
    map (map Some) res = map (map (at_pos dict)) choices /\
    NoDup choices /\ (forall t, In t choices -> valid_tuple ids (pos_dict dict) t) /\
    (forall t, valid_tuple ids (pos_dict dict) t -> exists! r, In r choices /\ same_choice ids t r).
Proof. exact (@combinations_product_positions). Qed.
Print Assumptions C34_positions.
Theorem C34_missing_id : forall (T : Type) (ids : list nat) (dict : nat -> option (list T)) i,
  In i ids -> dict i = None -> combinations_product ids dict = None.
Proof. exact (@combinations_product_missing). Qed.
Print Assumptions C34_missing_id.
Example C34_example :
  combinations_product [0; 1; 0] (fun i => if Nat.eqb i 0 then Some [5; 6] else Some [7])
   = Some [[5; 7; 5]; [5; 7; 6]; [6; 7; 6]] /\
  forall i, In i [0; 1; 0] -> exists l, (if Nat.eqb i 0 then Some [5; 6] else Some [7]) = Some l /\ NoDup l.
Proof.
  split; [reflexivity|]. intros i _. destruct (Nat.eqb i 0); eexists; (split; [reflexivity|]); repeat constructor; cbn; intuition congruence.
Qed.

(** C43: the ratio functions compute ||dx||^d / dt for the max, sum and Euclidean norm (squared for l2_squared). *)
Theorem C43_values : forall d dv dt, length dv = d -> (0 < dt)%Qc ->
  (1 <= d -> exists v, ratio_linf d dv dt = Some v /\ qR v = norm_ratio norm_linf d (map qR dv) (qR dt)) /\
  (exists v, ratio_l1 d dv dt = Some v /\ qR v = norm_ratio norm_l1 d (map qR dv) (qR dt)) /\
  (Nat.even d = true -> exists v, ratio_l2 d dv dt = Some v /\ qR v = norm_ratio norm_l2 d (map qR dv) (qR dt)) /\
  (exists v, ratio_l2_squared d dv dt = Some v /\ qR v = Rsqr (norm_ratio norm_l2 d (map qR dv) (qR dt))).
Proof.
  exact (fun d dv dt HL Hdt => conj (fun H => linf_value d dv dt H HL Hdt) (conj (l1_value d dv dt HL Hdt)
    (conj (fun H => l2_value d dv dt H HL Hdt) (l2sq_value d dv dt HL Hdt)))).
Qed.
Print Assumptions C43_values.
Theorem C43_laws : forall d, 
  (1 <= d -> ratio_ok d (ratio_linf d) (norm_ratio norm_linf d)) /\
  ratio_ok d (ratio_l1 d) (norm_ratio norm_l1 d) /\
  (Nat.even d = true -> ratio_ok d (ratio_l2 d) (norm_ratio norm_l2 d)) /\
  ratio_ok d (ratio_l2_squared d) (fun dv dt => Rsqr (norm_ratio norm_l2 d dv dt)).
Proof. exact (fun d => conj (linf_ok d) (conj (l1_ok d) (conj (l2_ok d) (l2sq_ok d)))). Qed.
Print Assumptions C43_laws.
(** C43 spelled out for the rational functions themselves. *)
Theorem C43_rational_laws : forall d rQ rR dv dv' dt dt' k, ratio_ok d rQ rR -> length dv = d -> length dv' = d ->
  (0 < dt')%Qc -> (dt' <= dt)%Qc -> (0 < k)%Qc ->
  exists v v', rQ dv dt = Some v /\ rQ dv' dt' = Some v' /\ (0 <= v)%Qc /\
   rQ (map (Qcmult k) dv) (k ^ d * dt)%Qc = Some v /\
   (Permutation (map qabs dv) (map qabs dv') -> rQ dv' dt = Some v) /\
   (Forall2 (fun x y => (qabs x <= qabs y)%Qc) dv dv' -> (v <= v')%Qc).
Proof. exact ratio_ok_Q. Qed.
Print Assumptions C43_rational_laws.
Theorem C43_l2_square : forall d dv dt v, Nat.even d = true -> length dv = d -> (0 < dt)%Qc ->
  ratio_l2 d dv dt = Some v -> ratio_l2_squared d dv dt = Some (v * v)%Qc.
Proof. exact l2_square. Qed.
Print Assumptions C43_l2_square.
Theorem C43_errors : forall d dv, ratio_linf d dv 0 = None /\ ratio_l1 d dv 0 = None /\ ratio_l2_squared d dv 0 = None /\
  ratio_l2 d dv 0 = None /\ (forall dt, Nat.even d = false -> ratio_l2 d dv dt = None).
Proof. exact ratio_errors. Qed.
Print Assumptions C43_errors.
Example C43_example : ratio_l2 2 [Zq 3; Zq (-4)] (Zq 5) = Some (Zq 5) /\ ratio_linf 2 [Zq 3; Zq (-4)] (Zq 5) = Some (Q2Qc (16 # 5))
  /\ ratio_l1 2 [Zq 3; Zq (-4)] (Zq 5) = Some (Q2Qc (49 # 5)) /\ ratio_l2_squared 2 [Zq 3; Zq (-4)] (Zq 5) = Some (Zq 25).
Proof. repeat split; vm_compute; f_equal; apply Qc_is_canon; reflexivity. Qed.

(** C44 *)
Theorem C44_gen_faces : forall dim face_dim, face_dim <= dim ->
  exists fs, gen_faces dim face_dim = Some fs /\ NoDup fs /\
    forall f, In f fs <-> length f = dim /\ face_free f = face_dim /\ Forall (fun c => c = None \/ c = Some 0%Z \/ c = Some 1%Z) f.
Proof. exact gen_faces_exact. Qed.
Print Assumptions C44_gen_faces.
Theorem C44_get_lcm : forall xs, Forall (fun x => 0 < x)%Z xs ->
  exists m, get_lcm xs = Some m /\ (0 < m)%Z /\ (forall x, In x xs -> (x | m)%Z) /\
    (forall n, (forall x, In x xs -> (x | n)%Z) -> (m | n)%Z).
Proof. exact get_lcm_exact. Qed.
Print Assumptions C44_get_lcm.
Example C44_example : gen_faces 2 1 = Some [[Some 0%Z; None]; [Some 1%Z; None]; [None; Some 0%Z]; [None; Some 1%Z]]
  /\ get_lcm [4; 6; 10]%Z = Some 60%Z.
Proof. split; vm_compute; reflexivity. Qed.
