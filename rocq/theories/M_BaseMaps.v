(** Model of /repo/peano/base_maps.py (definitions only). *)
From Verif Require Export Py.
From Coq Require Export QArith Qcanon Permutation.
Local Open Scope nat_scope.

(** base_maps.py:12-64  [BaseMap]: [coords] is a tuple of pairs (k, b), [time_rev] a bool.
    The object cache of [__new__] is modelled separately in M_Caches.v. *)
Notation coord := (nat * bool)%type.
(** base_maps.py:34-64  the fields of a BaseMap *)
Record base_map : Type := BM { coords : list coord; time_rev : bool }.

(** base_maps.py:55  [obj.dim = len(coords)]. *)
Definition bm_dim (b : base_map) : nat := length (coords b).

(** The values the documentation of base_maps.py:34-43 describes: [coords] defines an isometry of the cube,
    i.e. the indices k_0..k_{d-1} are a permutation of 0..d-1. The Python constructor does not check it. *)
Definition wf_bm (d : nat) (b : base_map) : Prop :=
  Permutation (map fst (coords b)) (seq 0 d).

(** base_maps.py:49-52, 114-115  == of pairs (k, b) *)
Definition coord_eqb (x y : coord) : bool := Nat.eqb (fst x) (fst y) && Bool.eqb (snd x) (snd y).
(** base_maps.py:49-52, 114-115  == of tuples *)
Fixpoint list_eqb {A} (eqb : A -> A -> bool) (l1 l2 : list A) : bool :=
  match l1, l2 with
  | [], [] => true
  | x :: l1', y :: l2' => eqb x y && list_eqb eqb l1' l2'
  | _, _ => false
  end.
(** base_maps.py:114-115  [__eq__]: comparison of the keys (coords, time_rev). *)
Definition bm_eqb (a b : base_map) : bool :=
  list_eqb coord_eqb (coords a) (coords b) && Bool.eqb (time_rev a) (time_rev b).

(** base_maps.py:66-73  [id_map] (without the cache). *)
Definition id_map (d : nat) : base_map := BM (map (fun k => (k, false)) (range d)) false.

(** base_maps.py:110-112  [cube_map]. *)
Definition cube_map (b : base_map) : base_map := BM (coords b) false.

(** base_maps.py:127-142  [__mul__] (without the cache), the loop over i.
    [other.coords[p]] is read with a default; for valid maps of one dimension the index is in range. *)
Definition bm_mul (a b : base_map) : base_map :=
  BM (map (fun pb => let kb := nth (fst pb) (coords b) (0, false) in
                     (fst kb, xorb (snd pb) (snd kb))) (coords a))
     (xorb (time_rev a) (time_rev b)).

(** base_maps.py:135  the dimension check: AssertionError is [None]. *)
Definition bm_mul_checked (a b : base_map) : option base_map :=
  if Nat.eqb (bm_dim a) (bm_dim b) then Some (bm_mul a b) else None.

(** base_maps.py:144-152  [get_inverse]: coords = [None]*dim; for i,(k,b): coords[k] = (i,b). *)
Definition bm_inv (b : base_map) : base_map :=
  BM (fold_left (fun acc ikb => upd (fst (snd ikb)) (fst ikb, snd (snd ikb)) acc)
                (enumerate (coords b)) (repeat (0, false) (bm_dim b)))
     (time_rev b).

(** base_maps.py:154-166  [__pow__]; the recursion is on fuel, [None] = fuel exhausted
    (Python: unbounded recursion). Branch order as in the source: power < 0, power == 1, even, odd. *)
Fixpoint bm_pow (fuel : nat) (b : base_map) (power : Z) : option base_map :=
  match fuel with
  | O => None
  | S fuel' =>
      if (power <? 0)%Z then bm_pow fuel' (bm_inv b) (- power)%Z
      else if (power =? 1)%Z then Some b
      else if (power mod 2 =? 0)%Z then
        match bm_pow fuel' b (power / 2)%Z with
        | Some t => Some (bm_mul t t)
        | None => None
        end
      else
        match bm_pow fuel' b ((power - 1) / 2)%Z with
        | Some t => Some (bm_mul (bm_mul t t) b)
        | None => None
        end
  end.

(** base_maps.py:168-170  [__invert__]: time reversal. *)
Definition bm_rev (b : base_map) : base_map := BM (coords b) (negb (time_rev b)).

(** base_maps.py:172-174  [conjugate_by]: [other * self * other.get_inverse()]. *)
Definition bm_conj (self other : base_map) : base_map :=
  bm_mul (bm_mul other self) (bm_inv other).

(** The common shape of apply_x, apply_vec, apply_cube, apply_cube_start: a tuple over (k, b) in coords of
    [flip x[k]] if b else [x[k]]. [x[k]] is read with a default; in range for valid maps and matching x. *)
Definition act {A} (flip : A -> A) (dflt : A) (b : base_map) (x : list A) : list A :=
  map (fun kb : coord => let v := nth (fst kb) x dflt in if snd kb then flip v else v) (coords b).

(** base_maps.py:176-178  [apply_x]. *)
Definition apply_x (b : base_map) (mx : Qc) (x : list Qc) : list Qc :=
  act (fun v => (mx - v)%Qc) 0%Qc b x.

(** base_maps.py:180-182  [apply_t]. *)
Definition apply_t (b : base_map) (mt : Qc) (t : Qc) : Qc :=
  if time_rev b then (mt - t)%Qc else t.

(** base_maps.py:184-186  [apply_vec] (used with integer vectors and with fractions). *)
Definition apply_vec (b : base_map) (v : list Z) : list Z := act Z.opp 0%Z b v.
(** base_maps.py:184-186  [apply_vec] on vectors of fractions *)
Definition apply_vecQ (b : base_map) (v : list Qc) : list Qc := act Qcopp 0%Qc b v.

(** base_maps.py:188-190  [apply_cube]. *)
Definition apply_cube (b : base_map) (div : Z) (cube : list Z) : list Z :=
  act (fun c => div - c - 1)%Z 0%Z b cube.

(** base_maps.py:192-194  [apply_cube_start]. *)
Definition apply_cube_start (b : base_map) (cube_start : list Z) (len : Z) : list Z :=
  act (fun c => 1 - c - len)%Z 0%Z b cube_start.

(** base_maps.py:196-197  [apply_cnum]. *)
Definition apply_cnum (b : base_map) (genus cnum : Z) : Z :=
  if time_rev b then (genus - 1 - cnum)%Z else cnum.

(** base_maps.py:199-211  [gen_base_maps]. *)
Definition gen_base_maps (d : nat) (tr : option bool) : list base_map :=
  let variants := match tr with None => [true; false] | Some t => [t] end in
  flat_map (fun perm =>
    flat_map (fun flip =>
      map (fun t => BM (combine perm flip) t) variants)
      (lprod_rep [true; false] d))
    (perms (range d)).

(** base_maps.py:213-269  [gen_constraint_fast]. *)
Definition qc_eqb (x y : Qc) : bool := if Qc_eq_dec x y then true else false.

(** base_maps.py:226-234: [group_id] maps a value to its group number (in order of first appearance),
    [group_coords[gid]] lists the coordinates of the group. Here: an ordered list of (value, coordinates);
    the group number is the position in this list. *)
Fixpoint add_group (gs : list (Qc * list nat)) (x : Qc) (k : nat) : list (Qc * list nat) :=
  match gs with
  | [] => [(x, [k])]
  | (y, ks) :: gs' => if qc_eqb x y then (y, ks ++ [k]) :: gs' else (y, ks) :: add_group gs' x k
  end.
(** base_maps.py:226-234  the list of positions of every group *)
Definition groups (dst : list Qc) : list (Qc * list nat) :=
  fold_left (fun gs kx => add_group gs (snd kx) (fst kx)) (enumerate dst) [].
(** base_maps.py:226-234  the group of a position *)
Fixpoint group_id (gs : list (Qc * list nat)) (x : Qc) : option nat :=
  match gs with
  | [] => None
  | (y, _) :: gs' => if qc_eqb x y then Some 0 else option_map S (group_id gs' x)
  end.
(** base_maps.py:239-247 *)
Definition flip_variants (gs : list (Qc * list nat)) (xj : Qc) : list (bool * nat) :=
  (match group_id gs xj with Some g => [(false, g)] | None => [] end) ++
  (match group_id gs (1 - xj)%Qc with Some g => [(true, g)] | None => [] end).
(** base_maps.py:250-258: running count per group, [false] as soon as some group overflows. *)
Fixpoint counts_ok (caps : list nat) (cnt : list nat) (fl : list (bool * nat)) : bool :=
  match fl with
  | [] => true
  | (_, g) :: fl' =>
      let c := S (nth g cnt 0) in
      if Nat.ltb (nth g caps 0) c then false else counts_ok caps (upd g c cnt) fl'
  end.
(** base_maps.py:264-268: each coordinate takes the next position of its group's permutation
    ([perms_copy[g].pop(0)]); [coords[new_k] = (k, b)]. *)
Fixpoint place (fl : list (nat * (bool * nat))) (ps : list (list nat)) (coords : list coord) : list coord :=
  match fl with
  | [] => coords
  | (k, (b, g)) :: fl' =>
      match nth g ps [] with
      | new_k :: rest => place fl' (upd g rest ps) (upd new_k (k, b) coords)
      | [] => coords  (* pop from an empty list: IndexError; excluded by counts_ok *)
      end
  end.
(** base_maps.py:214-270  [gen_constraint_fast] *)
Definition gen_constraint_fast (src dst : list Qc) : list base_map :=
  let d := length src in
  let gs := groups dst in
  let group_perm_list := lprod (map (fun g => perms (snd g)) gs) in
  flat_map (fun fl =>
    if counts_ok (map (fun g => length (snd g)) gs) (repeat 0 (length gs)) fl then
      map (fun ps => BM (place (enumerate fl) ps (repeat (0, false) d)) false) group_perm_list
    else [])
    (lprod (map (flip_variants gs) src)).

(** base_maps.py:272-301  [Spec]: a base map and a pattern number. *)
Record spec : Type := Sp { sp_bm : base_map; sp_pnum : nat }.
(** base_maps.py:303-304  [Spec.__eq__] *)
Definition spec_eqb (s t : spec) : bool :=
  bm_eqb (sp_bm s) (sp_bm t) && Nat.eqb (sp_pnum s) (sp_pnum t).

(** base_maps.py:323-336  [Spec.__mul__] with a BaseMap / a Spec on the right. *)
Definition sp_mul_bm (s : spec) (b : base_map) : spec := Sp (bm_mul (sp_bm s) b) (sp_pnum s).
(** base_maps.py:323-336  [Spec.__mul__] of two specs *)
Definition sp_mul (s t : spec) : spec := Sp (bm_mul (sp_bm s) (sp_bm t)) (sp_pnum s).
(** base_maps.py:338-347  [Spec.__rmul__] with a BaseMap on the left (Spec*Spec is handled by __mul__). *)
Definition bm_mul_sp (b : base_map) (s : spec) : spec := Sp (bm_mul b (sp_bm s)) (sp_pnum s).
(** base_maps.py:349-350 *)
Definition sp_rev (s : spec) : spec := Sp (bm_rev (sp_bm s)) (sp_pnum s).
(** base_maps.py:352-356 *)
Definition sp_conj (s : spec) (b : base_map) : spec := Sp (bm_conj (sp_bm s) b) (sp_pnum s).
(** base_maps.py:272-301  a spec over a valid base map of the given dimension (no check in the code) *)
Definition wf_spec (d m : nat) (s : spec) : Prop := wf_bm d (sp_bm s) /\ sp_pnum s < m.
