(** Specification vocabulary for curves: validity, nested fractions and the graph of the map [0,1] -> [0,1]^d. *)
From Verif Require Import Py M_BaseMaps M_Subsets M_Paths M_Curves S_Subsets S_Utils.
From Coq Require Import Reals.
Local Open Scope nat_scope.

(** A prototype visits every cube of the N-grid of dimension d exactly once. *)
Definition valid_proto (d N : nat) (p : proto) : Prop :=
  pr_dim p = d /\ pr_div p = N /\
  exists cs, pr_cubes p = map Some cs /\ NoDup cs /\ (forall q, In q cs <-> grid_cube d N q).
(** A pattern of a curve with m patterns: every fraction has a spec, a valid base map and a pattern number below m. *)
Definition valid_pattern (d N m : nat) (p : pattern) : Prop :=
  valid_proto d N (pat_proto p) /\ length (pat_specs p) = N ^ d /\
  Forall (fun os => exists s, os = Some s /\ wf_spec d m s) (pat_specs p).
(** The same with some specs undefined. *)
Definition valid_fuzzy_pattern (d N m : nat) (p : pattern) : Prop :=
  valid_proto d N (pat_proto p) /\ length (pat_specs p) = N ^ d /\
  Forall (fun os => forall s, os = Some s -> wf_spec d m s) (pat_specs p).
(** The base maps stored in a path fuzzy curve are valid maps of dimension d. *)
Definition valid_kind (d : nat) (k : kind) : Prop :=
  match k with
  | KPath f => Forall (fun ld => Forall (fun pm => wf_bm d (snd pm)) (snd ld)) (links_std f) /\
               Forall (Forall (wf_bm d)) (pat_reprs f)
  | _ => True
  end.
Definition valid_fuzzy (c : curve) : Prop :=
  1 <= cv_dim c /\ 2 <= cv_div c /\ cv_pnum c < cv_mult c /\ valid_kind (cv_dim c) (cv_kind c) /\
  Forall (valid_fuzzy_pattern (cv_dim c) (cv_div c) (cv_mult c)) (cv_pats c).
(** A fully specified curve. *)
Definition valid_curve (c : curve) : Prop :=
  1 <= cv_dim c /\ 2 <= cv_div c /\ cv_pnum c < cv_mult c /\ cv_kind c = KCurve /\
  Forall (valid_pattern (cv_dim c) (cv_div c) (cv_mult c)) (cv_pats c).

(** The fraction number cnum of the selected pattern: its cube in the grid and the curve in it (a transform
    of the whole curve by the spec, curves.py:146 [spec * curve]). *)
Definition fraction (c : curve) (cnum : nat) : option (list Z * curve) :=
  match cv_pattern c with
  | Some pat =>
      match nth_error (pr_cubes (pat_proto pat)) cnum, nth_error (pat_specs pat) cnum with
      | Some (Some cube), Some (Some s) => Some (cube, cv_mul_sp s c)
      | _, _ => None
      end
  | None => None
  end.
(** Nested fractions: the cubes met on the way, and the innermost fraction. *)
Fixpoint walk (c : curve) (cnums : list nat) : option (list (list Z) * curve) :=
  match cnums with
  | [] => Some ([], c)
  | n :: rest =>
      match fraction c n with
      | Some (cube, c') => match walk c' rest with Some (cubes, c'') => Some (cube :: cubes, c'') | None => None end
      | None => None
      end
  end.
(** The moment t lies in the (closed) time interval number T = value of the digits, of length 1/G^n. *)
Definition time_in (G : nat) (cnums : list nat) (t : R) : Prop :=
  let T := value (Z.of_nat G) (map Z.of_nat cnums) in
  (IZR T <= t * IZR (Z.of_nat G) ^ length cnums <= IZR T + 1)%R.
(** The point x lies in the (closed) cube of side 1/N^n reached by the nested cubes. *)
Definition place_of (j : nat) (N : nat) (cubes : list (list Z)) : Z := value (Z.of_nat N) (map (fun q => nth j q 0%Z) cubes).
Definition point_in (d N : nat) (cubes : list (list Z)) (x : list R) : Prop :=
  length x = d /\
  forall j, j < d -> (IZR (place_of j N cubes) <= nth j x 0 * IZR (Z.of_nat N) ^ length cubes <= IZR (place_of j N cubes) + 1)%R.
(** (t, x) is on the graph of the curve: some infinite sequence of nested fractions has t in all their time
    intervals and x in all their cubes. *)
Definition prefix (delta : nat -> nat) (n : nat) : list nat := map delta (seq 0 n).
Definition graph (c : curve) (t : R) (x : list R) : Prop :=
  exists delta, forall n, exists cubes c',
    walk c (prefix delta n) = Some (cubes, c') /\
    time_in (cv_genus c) (prefix delta n) t /\ point_in (cv_dim c) (cv_div c) cubes x.
(** The same curve with another selected pattern. *)
Definition pattern_curve (c : curve) (p : nat) : curve := cv_with_pnum c p.
(** In every pattern each fraction ends where the next one begins (positions times the division N). *)
Definition joined_curve (c : curve) : Prop :=
  forall p k q f q' f' x x' j, p < cv_mult c ->
    fraction (pattern_curve c p) k = Some (q, f) -> fraction (pattern_curve c p) (S k) = Some (q', f') ->
    graph f 1 x -> graph f' 0 x' -> j < cv_dim c ->
    (IZR (nth j q 0%Z) + nth j x 0 = IZR (nth j q' 0%Z) + nth j x' 0)%R.
(** The same for the consecutive fractions of depth n, n = length of cnums (positions times N^n). *)
Definition joined_at_depth (c : curve) (n : nat) : Prop :=
  forall p cnums cnums' cubes f cubes' f' x x' j, p < cv_mult c -> length cnums = n -> length cnums' = n ->
    value (Z.of_nat (cv_genus c)) (map Z.of_nat cnums') = (value (Z.of_nat (cv_genus c)) (map Z.of_nat cnums) + 1)%Z ->
    walk (pattern_curve c p) cnums = Some (cubes, f) -> walk (pattern_curve c p) cnums' = Some (cubes', f') ->
    graph f 1 x -> graph f' 0 x' -> j < cv_dim c ->
    (IZR (place_of j (cv_div c) cubes) + nth j x 0 = IZR (place_of j (cv_div c) cubes') + nth j x' 0)%R.
(** A point of the unit cube. *)
Definition in_unit_cube (d : nat) (x : list R) : Prop := length x = d /\ forall j, j < d -> (0 <= nth j x 0 <= 1)%R.
(** A face of the cube: every coordinate is free (None) or fixed to 0 or 1 (curves.py:347-384). *)
Definition valid_face (d : nat) (face : list (option Z)) : Prop :=
  length face = d /\ Forall (fun e => e = None \/ e = Some 0%Z \/ e = Some 1%Z) face.
Definition on_face (face : list (option Z)) (x : list R) : Prop :=
  forall j e, nth_error face j = Some (Some e) -> nth j x 0%R = IZR e.
