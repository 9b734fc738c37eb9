(** Model of /repo/peano/utils.py (definitions only). *)
From Verif Require Export Py L_Qc.
From Coq Require Qcabs.
Local Open Scope nat_scope.
Notation qabs := Qcabs.Qcabs.

(** Fraction(a, b): ZeroDivisionError is None. *)
Definition frac (a b : Qc) : option Qc := if Qc_eq_dec b 0%Qc then None else Some (a / b)%Qc.
(** max of two Fractions (Python builtin), used by utils.py:83-128 *)
Definition qmax (x y : Qc) : Qc := if Qclt_le_dec x y then y else x.
(** max(...) of an iterable: ValueError on an empty one is None. *)
Definition qmax_list (l : list Qc) : option Qc :=
  match l with [] => None | x :: xs => Some (fold_left qmax xs x) end.
(** sum(...): starts with 0. *)
Definition qsum (l : list Qc) : Qc := fold_left Qcplus l 0%Qc.

(** utils.py:17-18 *)
Definition ratio_linf (d : nat) (dv : list Qc) (dt : Qc) : option Qc :=
  match qmax_list (map qabs dv) with Some m => frac (m ^ d)%Qc dt | None => None end.
(** utils.py:21-22 *)
Definition ratio_l1 (d : nat) (dv : list Qc) (dt : Qc) : option Qc :=
  frac (qsum (map qabs dv) ^ d)%Qc dt.
(** utils.py:25-26 *)
Definition ratio_l2_squared (d : nat) (dv : list Qc) (dt : Qc) : option Qc :=
  frac (qsum (map (fun x => (x ^ 2)%Qc) dv) ^ d)%Qc (dt ^ 2)%Qc.
(** utils.py:29-32; AssertionError is None *)
Definition ratio_l2 (d : nat) (dv : list Qc) (dt : Qc) : option Qc :=
  if Nat.eqb (d mod 2) 0 then frac (qsum (map (fun x => (x ^ 2)%Qc) dv) ^ (d / 2))%Qc dt else None.

(** utils.py:35-44 [get_int_cube_with_cache] without the lru_cache (it is modelled in M_Session.v).
    State of the loop: the vector x and div_power. *)
Definition int_cube_step (dim : nat) (div : Z) (st : list Z * Z) (cube : list Z) : list Z * Z :=
  (map (fun j => (nth j (fst st) 0 + nth j cube 0 * snd st)%Z) (seq 0 dim), (snd st * div)%Z).
(** utils.py:35-44  (part of) *)
Definition get_int_cube (dim : nat) (div : Z) (cubes : list (list Z)) : list Z :=
  fst (fold_left (int_cube_step dim div) (rev cubes) (repeat 0%Z dim, 1%Z)).

(** The loop of utils.py:53-58, 69-73, 76-80: (sum of digits times powers, final power). *)
Definition horner_step (G : Z) (st : Z * Z) (c : Z) : Z * Z := ((fst st + c * snd st)%Z, (snd st * G)%Z).
(** utils.py:53-58, 69-73, 76-80  the loop *)
Definition horner (G : Z) (digits : list Z) : Z * Z := fold_left (horner_step G) (rev digits) (0%Z, 1%Z).

(** utils.py:47-58 [get_int_time_with_cache] without the lru_cache (it is modelled in M_Session.v). *)
Definition get_int_time (dim : nat) (div : Z) (cnums : list Z) : Z :=
  fst (horner (div ^ Z.of_nat dim)%Z cnums).

(** utils.py:61-83 [get_periodic_sum]. *)
Definition get_periodic_sum (start period : list Z) (d : Z) : option Qc :=
  let '(n0, d_power) := horner d start in
  let '(np, dp_power) := horner d period in
  match frac (Zq n0) (Zq d_power), frac (Zq np) (Zq (d_power * (dp_power - 1))%Z) with
  | Some t0, Some tp => Some (t0 + tp)%Qc
  | _, _ => None
  end.

(** utils.py:86-91 [get_lcm]; ZeroDivisionError is None. *)
Definition get_lcm (xs : list Z) : option Z :=
  fold_left (fun acc x => match acc with
                          | Some lcm => if (Z.gcd lcm x =? 0)%Z then None else Some (lcm * x / Z.gcd lcm x)%Z
                          | None => None
                          end) xs (Some 1%Z).

(** utils.py:94-101 [gen_faces]: a face is a list of None / Some bit; combinations with a negative r: ValueError. *)
Definition gen_faces (dim face_dim : nat) : option (list (list (option Z))) :=
  if Nat.leb face_dim dim then
    Some (flat_map (fun cs =>
            map (fun values => fold_left (fun face vc => upd (snd vc) (Some (fst vc)) face) (combine values cs) (repeat None dim))
                (lprod_rep [0%Z; 1%Z] (dim - face_dim)))
          (combs (range dim) (dim - face_dim)))
  else None.

(** utils.py:104-128 [combinations_product].
    [Counter(iter_ids).items()]: ids in order of first appearance, with multiplicities. *)
Definition counter (ids : list nat) : list (nat * nat) :=
  map (fun i => (i, count_occ Nat.eq_dec ids i)) (dedup Nat.eqb ids).
(** utils.py:124-128: pop(0) from the list of the id; [None]: pop from an empty list (IndexError) *)
Fixpoint place_items {T} (ids : list nat) (lists : list (nat * list T)) : option (list T) :=
  match ids with
  | [] => Some []
  | i :: ids' =>
      match dget Nat.eqb lists i with
      | Some (x :: rest) => option_map (cons x) (place_items ids' (dset Nat.eqb lists i rest))
      | _ => None
      end
  end.
(** iter_dict is a function from ids; a missing id (KeyError) is None. *)
Definition combinations_product {T} (ids : list nat) (iter_dict : nat -> option (list T)) : option (list (list T)) :=
  match omap (fun ic => option_map (fun l => combs_repl l (snd ic)) (iter_dict (fst ic))) (counter ids) with
  | None => None
  | Some combs =>
      omap (fun groups => place_items ids (combine (map fst (counter ids)) groups)) (lprod combs)
  end.
