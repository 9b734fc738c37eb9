(** Model of the object caches of base_maps.py: BaseMap._obj_cache, _id_map_cache, _mul_cache, _inv_cache and
    Spec._obj_cache. Objects live in a store and are referred to by their number (object identity). *)
From Verif Require Export Py M_BaseMaps.
Local Open Scope nat_scope.

(** base_maps.py:54-61: the fields of a BaseMap object; the key (coords, time_rev) is kept as a base_map value.
    The stored hash is a function of the key and is not modelled. *)
Record bm_obj : Type := BObj { o_key : base_map; o_mul : list (base_map * nat); o_inv : option nat }.
(** base_maps.py:295-300: a Spec object. *)
Record sp_obj : Type := SObj { so_bm : nat; so_pnum : nat }.
(** base_maps.py:23-31, 282, 291  the class-level caches and the objects made so far *)
Record store : Type := Store {
  st_objs : list bm_obj;                    (* all BaseMap objects *)
  st_cache : list (base_map * nat);         (* BaseMap._obj_cache *)
  st_ids : list (nat * nat);                (* BaseMap._id_map_cache *)
  st_specs : list sp_obj;                   (* all Spec objects *)
  st_scache : list ((base_map * nat) * nat) (* Spec._obj_cache, keyed by (base_map key, pnum) *) }.
(** base_maps.py:23-24, 282  the caches when the module is imported *)
Definition empty_store : store := Store [] [] [] [] [].

(** base_maps.py:34-64  [BaseMap.__new__]. *)
Definition c_new (st : store) (key : base_map) : store * nat :=
  match dget bm_eqb (st_cache st) key with
  | Some o => (st, o)
  | None =>
      let o := length (st_objs st) in
      (Store (st_objs st ++ [BObj key [] None]) (dset bm_eqb (st_cache st) key o) (st_ids st) (st_specs st) (st_scache st), o)
  end.

(** base_maps.py:34-64  assignment of a field of an object *)
Definition set_obj (st : store) (o : nat) (ob : bm_obj) : store :=
  Store (upd o ob (st_objs st)) (st_cache st) (st_ids st) (st_specs st) (st_scache st).

(** base_maps.py:66-73  [id_map]. *)
Definition c_id (st : store) (d : nat) : store * nat :=
  match dget Nat.eqb (st_ids st) d with
  | Some o => (st, o)
  | None =>
      let (st1, o) := c_new st (BM (map (fun k => (k, false)) (range d)) false) in
      (Store (st_objs st1) (st_cache st1) (dset Nat.eqb (st_ids st1) d o) (st_specs st1) (st_scache st1), o)
  end.

(** base_maps.py:127-142  [__mul__]; None is the AssertionError on different dimensions.
    The loop of lines 136-140 is the [coords] part of [bm_mul]. *)
Definition c_mul (st : store) (a b : nat) : option (store * nat) :=
  match nth_error (st_objs st) a, nth_error (st_objs st) b with
  | Some oa, Some ob =>
      let key := o_key ob in
      match dget bm_eqb (o_mul oa) key with
      | Some o => Some (st, o)
      | None =>
          if Nat.eqb (bm_dim (o_key oa)) (bm_dim (o_key ob)) then
            let (st1, o) := c_new st (bm_mul (o_key oa) key) in
            match nth_error (st_objs st1) a with
            | Some oa1 => Some (set_obj st1 a (BObj (o_key oa1) (dset bm_eqb (o_mul oa1) key o) (o_inv oa1)), o)
            | None => None
            end
          else None
      end
  | _, _ => None
  end.

(** base_maps.py:144-152  [get_inverse]. *)
Definition c_inv (st : store) (a : nat) : option (store * nat) :=
  match nth_error (st_objs st) a with
  | Some oa =>
      match o_inv oa with
      | Some o => Some (st, o)
      | None =>
          let (st1, o) := c_new st (bm_inv (o_key oa)) in
          match nth_error (st_objs st1) a with
          | Some oa1 => Some (set_obj st1 a (BObj (o_key oa1) (o_mul oa1) (Some o)), o)
          | None => None
          end
      end
  | None => None
  end.

(** base_maps.py:168-170 [__invert__] and 110-112 [cube_map]: plain constructions. *)
Definition c_rev (st : store) (a : nat) : option (store * nat) :=
  match nth_error (st_objs st) a with Some oa => Some (c_new st (bm_rev (o_key oa))) | None => None end.
(** base_maps.py:110-112  [cube_map] *)
Definition c_cube_map (st : store) (a : nat) : option (store * nat) :=
  match nth_error (st_objs st) a with Some oa => Some (c_new st (cube_map (o_key oa))) | None => None end.

(** base_maps.py:172-174 [conjugate_by]. *)
Definition c_conj (st : store) (x g : nat) : option (store * nat) :=
  match c_mul st g x with
  | Some (st1, gx) =>
      match c_inv st1 g with
      | Some (st2, gi) => c_mul st2 gx gi
      | None => None
      end
  | None => None
  end.

(** base_maps.py:291  == of cache keys (dict lookup) *)
Definition spkey_eqb (x y : base_map * nat) : bool := bm_eqb (fst x) (fst y) && Nat.eqb (snd x) (snd y).
(** base_maps.py:289-301  [Spec.__new__]. *)
Definition c_spec (st : store) (b pnum : nat) : option (store * nat) :=
  match nth_error (st_objs st) b with
  | Some ob =>
      let key := (o_key ob, pnum) in
      match dget spkey_eqb (st_scache st) key with
      | Some o => Some (st, o)
      | None =>
          let o := length (st_specs st) in
          Some (Store (st_objs st) (st_cache st) (st_ids st) (st_specs st ++ [SObj b pnum])
                      (dset spkey_eqb (st_scache st) key o), o)
      end
  | None => None
  end.
(** base_maps.py:323-336, 338-347: products of specs and base maps. *)
Definition c_sp_mul (st : store) (s t : nat) : option (store * nat) :=
  match nth_error (st_specs st) s, nth_error (st_specs st) t with
  | Some os, Some ot =>
      match c_mul st (so_bm os) (so_bm ot) with
      | Some (st1, b) => c_spec st1 b (so_pnum os)
      | None => None
      end
  | _, _ => None
  end.
(** base_maps.py:323-336  [Spec.__mul__] with a base map *)
Definition c_sp_mul_bm (st : store) (s b : nat) : option (store * nat) :=
  match nth_error (st_specs st) s with
  | Some os => match c_mul st (so_bm os) b with
               | Some (st1, x) => c_spec st1 x (so_pnum os)
               | None => None
               end
  | None => None
  end.
(** base_maps.py:338-347  [Spec.__rmul__] with a base map *)
Definition c_bm_mul_sp (st : store) (b s : nat) : option (store * nat) :=
  match nth_error (st_specs st) s with
  | Some os => match c_mul st b (so_bm os) with
               | Some (st1, x) => c_spec st1 x (so_pnum os)
               | None => None
               end
  | None => None
  end.

(** The operations a program can perform; arguments are object numbers. *)
Inductive cop : Type :=
| CNew (key : base_map) | CId (d : nat) | CMul (a b : nat) | CInv (a : nat) | CRev (a : nat) | CCube (a : nat)
| CConj (x g : nat) | CSpec (b pnum : nat) | CSpMul (s t : nat) | CSpMulBm (s b : nat) | CBmMulSp (b s : nat).
(** the outcome of an operation: an object number (model only) *)
Inductive cres : Type := RBm (o : nat) | RSpec (o : nat) | RErr.
(** the outcome of an operation (model only) *)
Definition wrap (st : store) (f : nat -> cres) (r : option (store * nat)) : store * cres :=
  match r with Some (st', o) => (st', f o) | None => (st, RErr) end.
(** one call of base_maps.py:34-64, 127-174, 289-356 made by a program *)
Definition cstep (st : store) (op : cop) : store * cres :=
  match op with
  | CNew key => wrap st RBm (Some (c_new st key))
  | CId d => wrap st RBm (Some (c_id st d))
  | CMul a b => wrap st RBm (c_mul st a b)
  | CInv a => wrap st RBm (c_inv st a)
  | CRev a => wrap st RBm (c_rev st a)
  | CCube a => wrap st RBm (c_cube_map st a)
  | CConj x g => wrap st RBm (c_conj st x g)
  | CSpec b p => wrap st RSpec (c_spec st b p)
  | CSpMul s t => wrap st RSpec (c_sp_mul st s t)
  | CSpMulBm s b => wrap st RSpec (c_sp_mul_bm st s b)
  | CBmMulSp b s => wrap st RSpec (c_bm_mul_sp st b s)
  end.
(** a sequence of calls made by a program (model only: the history) *)
Definition crun (ops : list cop) : store := fold_left (fun st op => fst (cstep st op)) ops empty_store.

(** Values denoted by object numbers. *)
Definition bm_val (st : store) (o : nat) : option base_map := option_map o_key (nth_error (st_objs st) o).
(** value of a Spec object: base_maps.py:295-300 *)
Definition sp_val (st : store) (s : nat) : option spec :=
  match nth_error (st_specs st) s with
  | Some os => option_map (fun b => Sp b (so_pnum os)) (bm_val st (so_bm os))
  | None => None
  end.
