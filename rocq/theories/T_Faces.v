(** Property theorems C21: moments of faces and vertices. *)
From Verif Require Import Py L_Qc M_BaseMaps M_Subsets M_Paths M_Curves M_Zoo S_Utils L_R S_Curves P_Valid P_Faces.
From Coq Require Import Reals.
Local Open Scope nat_scope.

(** C21: get_face_moment succeeds, with and without find_point; the curve is on the face at that moment, at the
    returned point, and at no earlier (last: later) moment. *)
Theorem C21_face_moment : forall c, valid_curve c -> forall face, valid_face (cv_dim c) face -> forall lst p, p < cv_mult c ->
  exists x t,
    get_face_moment c face (Some p) lst = Some t /\ get_face_moment_point c face (Some p) lst = Some (x, t) /\
    graph (pattern_curve c p) (qR t) (map qR x) /\ on_face face (map qR x) /\
    forall t' x', graph (pattern_curve c p) t' x' -> on_face face x' -> if lst then (t' <= qR t)%R else (qR t <= t')%R.
Proof. exact face_moment_ok. Qed.
Print Assumptions C21_face_moment.
(** C21: get_vertex_moments lists every vertex of the cube once, with the only moment when the curve is there. *)
Theorem C21_vertex_moments : forall c, valid_curve c -> forall p, p < cv_mult c -> exists vs, get_vertex_moments c (Some p) = Some vs /\
  NoDup (map fst vs) /\
  (forall v, In v (map fst vs) <-> length v = cv_dim c /\ Forall (fun e => e = 0%Z \/ e = 1%Z) v) /\
  forall v t, In (v, t) vs -> forall t', graph (pattern_curve c p) t' (map IZR v) <-> t' = qR t.
Proof. exact vertex_moments_ok. Qed.
Print Assumptions C21_vertex_moments.
(** The face x = 1 of the Hilbert curve: first touched at 2/3 in its upper corner, last at 1 in the lower one. *)
Example C21_example : let c := curve_or zoo_hilbert in let q (a b : nat) := (Nq a / Nq b)%Qc in
  valid_curve c /\ valid_face (cv_dim c) [Some 1%Z; None] /\
  match get_face_moment_point c [Some 1%Z; None] (Some 0) false, get_face_moment_point c [Some 1%Z; None] (Some 0) true with
  | Some (x, t), Some (x', t') => pt_eqb x [1%Qc; 1%Qc] && Qc_eq_bool t (q 2 3) && pt_eqb x' [1%Qc; 0%Qc] && Qc_eq_bool t' 1%Qc
  | _, _ => false end = true.
Proof. cbn zeta. split; [apply valid_curveb_ok; vm_compute; auto|]. split; [split; [reflexivity|apply Forall_cons; [auto|apply Forall_cons; auto]]|]. vm_compute. reflexivity. Qed.
