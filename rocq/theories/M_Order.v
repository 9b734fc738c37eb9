(** Model of ==, < and hash() of the values of the library: Python's rules for tuples and numbers, and the methods
    __eq__, __lt__, __hash__ of the classes, which all go through a tuple of data. *)
From Verif Require Import Py M_BaseMaps M_Subsets M_Paths M_Curves M_Dilation.
Local Open Scope nat_scope.

(** The classes with such methods; Point (subsets.py:68) and Proto (paths.py:22) are tuples. *)
Inductive py_class : Type := CBaseMap | CSpec | CFacetDivSubset | CLink | CPath | CJunction | CPiecePosition.
(** Values: numbers (int, bool, Fraction: they compare and hash by value), None, tuples, objects with their attributes. *)
Inductive pyval : Type := VNum (q : Qc) | VNone | VTuple (l : list pyval) | VObj (c : py_class) (attrs : list pyval).
(** Equality of classes. *)
Definition class_num (c : py_class) : nat :=
  match c with CBaseMap => 0 | CSpec => 1 | CFacetDivSubset => 2 | CLink => 3 | CPath => 4 | CJunction => 5 | CPiecePosition => 6 end.
(** Classes that define __lt__: subsets.py:198-199, 307-308, paths.py:133-134 *)
Definition has_lt (c : py_class) : bool := match c with CFacetDivSubset | CLink | CPath => true | _ => false end.

(** Which attributes __eq__ compares. base_maps.py:114-115 (coords, time_rev of the key), 303-304; subsets.py:192-193, 310-311; paths.py:136-137;
    curves.py:772-776 (not depth); dilation.py:43-47 (not depth) *)
Definition eq_mask (c : py_class) : list bool :=
  match c with
  | CBaseMap => [true; true] | CSpec => [true; true] | CFacetDivSubset => [true; true; true; true] | CLink => [true; true]
  | CPath => [true; true; true] | CJunction => [true; true; true; true; false] | CPiecePosition => [true; true; true; true; false]
  end.
(** Which attributes __lt__ compares. subsets.py:198-199, 307-308; paths.py:133-134 *)
Definition lt_mask (c : py_class) : list bool :=
  match c with CFacetDivSubset => [true; true; true; true] | CLink => [true; true] | CPath => [true; true; true] | _ => [] end.
(** Which attributes __hash__ uses. base_maps.py:61, 117-118, 299, 306-307; subsets.py:195-196, 313-314; paths.py:139-140; curves.py:769, 778-779;
    dilation.py:41, 49-50 *)
Definition hash_mask (c : py_class) : list bool :=
  match c with
  | CBaseMap => [true; true] | CSpec => [true; true] | CFacetDivSubset => [true; true; true; true] | CLink => [true; true]
  | CPath => [true; true; true] | CJunction => [true; true; true; true; false] | CPiecePosition => [true; true; true; true; false]
  end.

(** Tuples are equal if they have the same length and equal entries, compared from the left. None: an exception. *)
Definition tuple_eq (eq : pyval -> pyval -> option bool) : list pyval -> list pyval -> option bool :=
  fix go (l m : list pyval) : option bool :=
    match l, m with
    | [], [] => Some true
    | x :: l', y :: m' => match eq x y with Some true => go l' m' | r => r end
    | _, _ => Some false
    end.
(** The tuples of the attributes that count are compared. *)
Definition obj_eq (eq : pyval -> pyval -> option bool) : list bool -> list pyval -> list pyval -> option bool :=
  fix go (mask : list bool) (l m : list pyval) {struct l} : option bool :=
    match l, m with
    | [], [] => Some true
    | x :: l', y :: m' => if hd false mask then match eq x y with Some true => go (tl mask) l' m' | r => r end else go (tl mask) l' m'
    | _, _ => Some false
    end.
(** == . subsets.py:192-193, 310-311, paths.py:136-137, base_maps.py:114-115, 303-304, curves.py:775-776, dilation.py:46-47:
    the data tuples are compared. Comparing with an object of another kind is not modelled (None): most of the
    methods raise AttributeError. *)
Fixpoint py_eq (a b : pyval) {struct a} : option bool :=
  match a, b with
  | VNum x, VNum y => Some (qc_eqb x y)
  | VNone, VNone => Some true
  | VTuple l, VTuple m => tuple_eq py_eq l m
  | VObj c l, VObj c' m => if Nat.eqb (class_num c) (class_num c') then obj_eq py_eq (eq_mask c) l m else None
  | VObj _ _, _ | _, VObj _ _ => None
  | _, _ => Some false
  end.
(** Tuples: the first entries that are not equal decide, else the lengths. *)
Definition tuple_lt (lt : pyval -> pyval -> option bool) : list pyval -> list pyval -> option bool :=
  fix go (l m : list pyval) : option bool :=
    match l, m with
    | [], [] => Some false
    | [], _ :: _ => Some true
    | _ :: _, [] => Some false
    | x :: l', y :: m' => match py_eq x y with Some true => go l' m' | Some false => lt x y | None => None end
    end.
(** The same for the attributes that count. *)
Definition obj_lt (lt : pyval -> pyval -> option bool) : list bool -> list pyval -> list pyval -> option bool :=
  fix go (mask : list bool) (l m : list pyval) {struct l} : option bool :=
    match l, m with
    | [], [] => Some false
    | [], _ :: _ => Some true
    | _ :: _, [] => Some false
    | x :: l', y :: m' =>
        if hd false mask then match py_eq x y with Some true => go (tl mask) l' m' | Some false => lt x y | None => None end else go (tl mask) l' m'
    end.
(** < . subsets.py:198-199, 307-308, paths.py:133-134; TypeError (None) for None, for values of different kinds and for the
    other classes. *)
Fixpoint py_lt (a b : pyval) {struct a} : option bool :=
  match a, b with
  | VNum x, VNum y => Some (ltb_of Qccompare x y)
  | VTuple l, VTuple m => tuple_lt py_lt l m
  | VObj c l, VObj c' m => if Nat.eqb (class_num c) (class_num c') && has_lt c then obj_lt py_lt (lt_mask c) l m else None
  | _, _ => None
  end.

(** hash(): of a number, a function of its value; of a tuple, a function of the hashes of its entries; of an object, the hash
    of the tuple of the attributes that count. subsets.py:195-196, 313-314, paths.py:139-140, base_maps.py:61, 117-118, 299, 306-307, curves.py:769,
    778-779, dilation.py:41, 49-50 *)
Definition picked {A} (f : pyval -> A) : list bool -> list pyval -> list A :=
  fix go (mask : list bool) (l : list pyval) {struct l} : list A :=
    match l with [] => [] | x :: l' => if hd false mask then f x :: go (tl mask) l' else go (tl mask) l' end.
Section Hash.
Context (hash_num : Qc -> Z) (hash_none : Z) (hash_tuple : list Z -> Z).
(** hash(), see above *)
Fixpoint py_hash (a : pyval) : Z :=
  match a with
  | VNum q => hash_num q
  | VNone => hash_none
  | VTuple l => hash_tuple (map py_hash l)
  | VObj c l => hash_tuple (picked py_hash (hash_mask c) l)
  end.
End Hash.

(** The values of the model as Python values. Integers. *)
Definition v_int (z : Z) : pyval := VNum (Zq z).
(** Natural numbers. *)
Definition v_nat (n : nat) : pyval := v_int (Z.of_nat n).
(** Booleans are the integers 0 and 1. *)
Definition v_bool (b : bool) : pyval := v_int (if b then 1 else 0).
(** Tuples. *)
Definition v_tuple {A} (v : A -> pyval) (l : list A) : pyval := VTuple (map v l).
(** subsets.py:68  a point is a tuple of numbers *)
Definition v_point : list Qc -> pyval := v_tuple VNum.
(** cubes are tuples of ints *)
Definition v_cube : list Z -> pyval := v_tuple v_int.
(** base_maps.py:55  [BaseMap._key]: (coords, time_rev) *)
Definition bm_key (b : base_map) : list pyval := [v_tuple (fun kb : nat * bool => VTuple [v_nat (fst kb); v_bool (snd kb)]) (coords b); v_bool (time_rev b)].
(** base_maps.py:114-118 *)
Definition v_bm (b : base_map) : pyval := VObj CBaseMap (bm_key b).
(** base_maps.py:290, 303-307  [Spec._key]: the key of the base map and pnum *)
Definition v_spec (s : spec) : pyval := VObj CSpec [VTuple (bm_key (sp_bm s)); v_nat (sp_pnum s)].
(** subsets.py:188-199 *)
Definition v_facet (s : facet_set) : pyval :=
  VObj CFacetDivSubset [v_nat (fs_dim s); v_nat (fs_div s); VTuple [v_nat (fst (fs_facet s)); v_int (snd (fs_facet s))]; v_tuple v_cube (fs_cubes s)].
(** subsets.py:307-314 *)
Definition v_link {T} (v : T -> pyval) (l : link T) : pyval := VObj CLink [v (entrance l); v (exit l)].
(** paths.py:22-38  a Proto is the tuple of its cubes; its attributes dim and div are not part of the tuple *)
Definition v_proto (p : proto) : pyval := v_tuple (fun c => match c with Some c => v_cube c | None => VNone end) (pr_cubes p).
(** paths.py:129-140 *)
Definition v_path {T} (v : T -> pyval) (p : path T) : pyval := VObj CPath [v_link v (pa_link p); v_proto (pa_proto p); v_tuple (v_link v) (pa_links p)].
(** curves.py:764-779; depth may be None *)
Definition v_junction (j : junction) : pyval := VObj CJunction [v_tuple v_int (j_dx j); v_int (j_dt j); v_spec (j_spec1 j); v_spec (j_spec2 j); match j_depth j with Some n => v_nat n | None => VNone end].
(** dilation.py:35-50 *)
Definition v_position (p : position) : pyval := VObj CPiecePosition [v_tuple v_nat (po_cnums p); v_tuple v_cube (po_cubes p); v_nat (po_div p); v_nat (po_dim p); v_nat (length (po_cnums p))].
