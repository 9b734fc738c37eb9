(** Model of /repo/peano/curves.py (definitions only). Exceptions are [None]. *)
From Verif Require Export Py M_BaseMaps M_Subsets M_Paths M_Utils.
From Coq Require Import Factorial.
Local Open Scope nat_scope.

(** curves.py:24-30  [Pattern]. *)
Record pattern : Type := Pat { pat_proto : proto; pat_specs : list (option spec) }.
(** curves.py:56-62  [Pattern.__invert__]. *)
Definition pat_inv (p : pattern) : pattern := Pat (pr_inv (pat_proto p)) (rev (pat_specs p)).

(** curves.py:639-644  the additional attributes of PathFuzzyCurve. *)
Record pfdata : Type := PFD {
  links_symm : list (plink * list base_map);
  links_std : list (plink * list (nat * base_map));
  pat_links : list (list plink);
  pat_reprs : list (list base_map) }.
(** The class of a curve object: FuzzyCurve itself, Curve or PathFuzzyCurve. *)
Inductive kind : Type := KFuzzy | KCurve | KPath (f : pfdata).

(** curves.py:80-105  attributes of a curve object; mult and genus are derived. *)
Record curve : Type := Cv { cv_dim : nat; cv_div : nat; cv_pats : list pattern; cv_pnum : nat; cv_kind : kind }.
(** curves.py:80-105  (part of) *)
Definition cv_mult (c : curve) : nat := length (cv_pats c).
(** curves.py:80-105  (part of) *)
Definition cv_genus (c : curve) : nat := cv_div c ^ cv_dim c.

(** curves.py:107-113  [proto] and [specs] of the selected pattern. *)
Definition cv_pattern (c : curve) : option pattern := nth_error (cv_pats c) (cv_pnum c).

(** curves.py:118-125, 646-649  [_changed]: same class, same additional attributes. *)
Definition cv_with_pats (c : curve) (ps : list pattern) : curve := Cv (cv_dim c) (cv_div c) ps (cv_pnum c) (cv_kind c).
(** curves.py:118-125, 646-649  (part of) *)
Definition cv_with_pnum (c : curve) (n : nat) : curve := Cv (cv_dim c) (cv_div c) (cv_pats c) n (cv_kind c).
(** curves.py:118-125, 646-649  (part of) *)
Definition cv_with_kind (c : curve) (k : kind) : curve := Cv (cv_dim c) (cv_div c) (cv_pats c) (cv_pnum c) k.

(** curves.py:127-129  [__invert__]; curves.py:651-663 for PathFuzzyCurve. *)
Definition pf_inv (f : pfdata) : pfdata :=
  PFD (links_symm f)
      (map (fun ld => (fst ld, map (fun pm => (fst pm, bm_rev (snd pm))) (snd ld))) (links_std f))
      (map (@rev plink) (pat_links f))
      (map (fun rs => map bm_rev (rev rs)) (pat_reprs f)).
(** curves.py:127-129, 651-663  (part of) *)
Definition kind_inv (k : kind) : kind := match k with KPath f => KPath (pf_inv f) | _ => k end.
(** curves.py:127-129, 651-663  (part of) *)
Definition cv_inv (c : curve) : curve :=
  cv_with_kind (cv_with_pats c (map pat_inv (cv_pats c))) (kind_inv (cv_kind c)).

(** curves.py:131-144  [_apply_cube_map]; curves.py:665-679 for PathFuzzyCurve ([cube_map**(-1)] is the inverse). *)
Definition pat_apply_cube_map (b : base_map) (p : pattern) : pattern :=
  Pat (pr_mul b (pat_proto p)) (map (option_map (fun s => sp_conj s b)) (pat_specs p)).
(** curves.py:131-144, 665-679  (part of) *)
Definition pf_apply_cube_map (b : base_map) (f : pfdata) : pfdata :=
  PFD (links_symm f)
      (map (fun ld => (fst ld, map (fun pm => (fst pm, bm_mul (snd pm) (bm_inv b))) (snd ld))) (links_std f))
      (pat_links f)
      (map (map (fun r => bm_mul b r)) (pat_reprs f)).
(** curves.py:131-144, 665-679  (part of) *)
Definition kind_apply_cube_map (b : base_map) (k : kind) : kind :=
  match k with KPath f => KPath (pf_apply_cube_map b f) | _ => k end.
(** curves.py:131-144, 665-679  (part of) *)
Definition cv_apply_cube_map (b : base_map) (c : curve) : curve :=
  cv_with_kind (cv_with_pats c (map (pat_apply_cube_map b) (cv_pats c))) (kind_apply_cube_map b (cv_kind c)).

(** curves.py:146-170  [__rmul__] with a BaseMap or a Spec on the left. *)
Definition cv_mul (b : base_map) (pnum : nat) (c : curve) : curve :=
  let c1 := if time_rev b then cv_inv c else c in
  let c2 := cv_apply_cube_map (cube_map b) c1 in
  if negb (Nat.eqb (cv_pnum c2) pnum) then cv_with_pnum c2 pnum else c2.
(** curves.py:146-170  (part of) *)
Definition cv_mul_bm (b : base_map) (c : curve) : curve := cv_mul b (cv_pnum c) c.
(** curves.py:146-170  (part of) *)
Definition cv_mul_sp (s : spec) (c : curve) : curve := cv_mul (sp_bm s) (sp_pnum s) c.

(** curves.py:172-183  [_compose_specs]; KeyError and IndexError are None. *)
Definition compose_specs (c : curve) (s : spec) (cnum : Z) : option spec :=
  match nth_error (cv_pats c) (sp_pnum s) with
  | None => None
  | Some pat =>
      match pyget (pat_specs pat) (apply_cnum (sp_bm s) (Z.of_nat (cv_genus c)) cnum) with
      | Some (Some last_spec) => Some (bm_mul_sp (sp_bm s) last_spec)
      | _ => None
      end
  end.

(** curves.py:185-194  [get_deep_spec]. *)
Definition get_deep_spec (c : curve) (pnum : nat) (cnums : list Z) : option spec :=
  fold_left (fun s cnum => obind s (fun s => compose_specs c s cnum)) cnums (Some (Sp (id_map (cv_dim c)) pnum)).

(** curves.py:196-197 (abstract), 553-554 (Curve), 681-698 (PathFuzzyCurve)  [gen_allowed_specs].
    For a Curve the single value yielded is the spec itself; an undefined one does not occur in a Curve. *)
Definition pf_allowed (f : pfdata) (pnum cnum : nat) : option (list spec) :=
  match nth_error (pat_links f) pnum, nth_error (pat_reprs f) pnum with
  | Some ls, Some rs =>
      match nth_error ls cnum, nth_error rs cnum with
      | Some lk, Some repr =>
          match dget pl_eqb (links_symm f) lk, dget pl_eqb (links_std f) lk with
          | Some symms, Some std =>
              Some (flat_map (fun pm => map (fun symm => Sp (bm_mul (bm_mul repr symm) (snd pm)) (fst pm)) symms) std)
          | _, _ => None
          end
      | _, _ => None
      end
  | _, _ => None
  end.
(** curves.py:196-197, 553-554, 681-698  (part of) *)
Definition get_spec (c : curve) (pnum cnum : nat) : option (option spec) :=
  match nth_error (cv_pats c) pnum with Some pat => nth_error (pat_specs pat) cnum | None => None end.
(** curves.py:196-197, 553-554, 681-698  (part of) *)
Definition gen_allowed_specs (c : curve) (pnum cnum : nat) : option (list spec) :=
  match cv_kind c, get_spec c pnum cnum with
  | KFuzzy, _ => None
  | _, None => None
  | _, Some (Some s) => Some [s]
  | KCurve, Some None => None
  | KPath f, Some None => pf_allowed f pnum cnum
  end.

(** curves.py:273-282  [_specify_allowed]; spec_dict as a nested association list; IndexError is None. *)
Definition set_specs (specs : list (option spec)) (upds : list (nat * spec)) : option (list (option spec)) :=
  fold_left (fun acc cs => obind acc (fun l => if Nat.ltb (fst cs) (length l) then Some (upd (fst cs) (Some (snd cs)) l) else None))
            upds (Some specs).
(** curves.py:273-282  (part of) *)
Definition specify_allowed (c : curve) (spec_dict : list (nat * list (nat * spec))) : option curve :=
  option_map (cv_with_pats c)
    (fold_left (fun acc pu => obind acc (fun ps =>
        match nth_error ps (fst pu) with
        | Some pat => option_map (fun specs => upd (fst pu) (Pat (pat_proto pat) specs) ps) (set_specs (pat_specs pat) (snd pu))
        | None => None
        end)) spec_dict (Some (cv_pats c))).

(** curves.py:200-214  [get_curve_example]; [next] of an empty generator (StopIteration) is None.
    [spec_dict] is a defaultdict: a pattern gets an entry when its first undefined spec is met. *)
Definition undefined_of (specs : list (option spec)) : list nat :=
  flat_map (fun cs => match snd cs with None => [fst cs] | Some _ => [] end) (enumerate specs).
(** curves.py:200-214  (part of) *)
Definition get_curve_example (c : curve) : option curve :=
  obind (omap (fun pp : nat * pattern =>
                 option_map (pair (fst pp))
                   (omap (fun cnum => match gen_allowed_specs c (fst pp) cnum with
                                      | Some (s :: _) => Some (cnum, s) | _ => None end)
                         (undefined_of (pat_specs (snd pp)))))
              (filter (fun pp => negb (match undefined_of (pat_specs (snd pp)) with [] => true | _ => false end))
                      (enumerate (cv_pats c))))
        (specify_allowed c).

(** curves.py:216-233  [gen_possible_curves]. *)
Definition all_variants (c : curve) : option (list (list spec)) :=
  omap (fun pc => gen_allowed_specs c (fst pc) (snd pc)) (list_prod (range (cv_mult c)) (range (cv_genus c))).
(** curves.py:216-233  (part of) *)
Definition slice {A} (l : list A) (i j : nat) : list A := firstn (j - i) (skipn i l).
(** curves.py:216-233  (part of) *)
Definition curve_of_specs (c : curve) (all_specs : list spec) : curve :=
  let G := cv_genus c in
  Cv (cv_dim c) (cv_div c)
     (map (fun pp => Pat (pat_proto (snd pp)) (map Some (slice all_specs (G * fst pp) (G * (fst pp + 1))))) (enumerate (cv_pats c)))
     (cv_pnum c) KCurve.
(** curves.py:216-233  (part of) *)
Definition gen_possible_curves (c : curve) : option (list curve) :=
  option_map (fun vs => map (curve_of_specs c) (lprod vs)) (all_variants c).
(** curves.py:235-241  [count_possible_curves]. *)
Definition count_possible_curves (c : curve) : option nat :=
  fold_left (fun acc pc => obind acc (fun r => option_map (fun l => r * length l) (gen_allowed_specs c (fst pc) (snd pc))))
            (list_prod (range (cv_mult c)) (range (cv_genus c))) (Some 1).
(** curves.py:243-248  [gen_defined_specs]. *)
Definition gen_defined_specs (c : curve) : list (nat * nat * spec) :=
  flat_map (fun pp => flat_map (fun cs => match snd cs with Some s => [(fst pp, fst cs, s)] | None => [] end)
                               (enumerate (pat_specs (snd pp)))) (enumerate (cv_pats c)).

(** curves.py:250-271  [specify]; ValueError (and any other exception) is None. *)
Definition specify (c : curve) (pnum cnum : nat) (s : spec) : option curve :=
  match gen_allowed_specs c pnum cnum with
  | None => None
  | Some l => if memb spec_eqb s l then
                match get_spec c pnum cnum with
                | Some (Some _) => Some c
                | _ => specify_allowed c [(pnum, [(cnum, s)])]
                end
              else None
  end.

(** curves.py:314-320, 369-376  the loops run until a spec repeats. There are mult * 2^(d+1) * d! specs, so this
    many iterations suffice for valid curves (P_Entrance.v); out of fuel is None. *)
Definition spec_fuel (c : curve) : nat := S (cv_mult c * (fact (cv_dim c) * 2 ^ S (cv_dim c))).

(** curves.py:308-323  [_get_cube_limit], the loop; [cnum] is 0 or genus-1. Result: (cubes, idx). *)
Definition proto_of (c : curve) (s : spec) : option proto :=
  match nth_error (cv_pats c) (sp_pnum s) with Some pat => Some (pr_mul (sp_bm s) (pat_proto pat)) | None => None end.
(** curves.py:308-323  (part of) *)
Fixpoint cube_limit_loop (fuel : nat) (c : curve) (cnum : nat) (cur : spec) (cubes : list (list Z))
    (index : list (spec * nat)) : option (list (list Z) * nat) :=
  match fuel with
  | 0 => None
  | S fuel' =>
      match dget spec_eqb index cur with
      | Some idx => Some (cubes, idx)
      | None =>
          match obind (proto_of c cur) (fun p => nth_error (pr_cubes p) cnum) with
          | Some (Some cube) =>
              match compose_specs c cur (Z.of_nat cnum) with
              | Some cur' => cube_limit_loop fuel' c cnum cur' (cubes ++ [cube]) (dset spec_eqb index cur (length cubes))
              | None => None
              end
          | _ => None
          end
      end
  end.
(** curves.py:325-330  [_get_limit_point]. *)
Definition get_limit_point (c : curve) (start period : list (list Z)) : option (list Qc) :=
  omap (fun j => get_periodic_sum (map (fun q => nth j q 0%Z) start) (map (fun q => nth j q 0%Z) period) (Z.of_nat (cv_div c)))
       (range (cv_dim c)).
(** curves.py:308-323  (part of) *)
Definition get_cube_limit (c : curve) (pnum cnum : nat) : option (list Qc) :=
  match cube_limit_loop (spec_fuel c) c cnum (Sp (id_map (cv_dim c)) pnum) [] [] with
  | Some (cubes, idx) => get_limit_point c (firstn idx cubes) (skipn idx cubes)
  | None => None
  end.
(** curves.py:288-306  [get_entrance], [get_exit]; the optional pnum defaults to the selected pattern. *)
Definition default_pnum (c : curve) (pnum : option nat) : nat := match pnum with Some p => p | None => cv_pnum c end.
(** curves.py:288-306  (part of) *)
Definition get_entrance (c : curve) (pnum : option nat) : option (list Qc) := get_cube_limit c (default_pnum c pnum) 0.
(** curves.py:288-306  (part of) *)
Definition get_exit (c : curve) (pnum : option nat) : option (list Qc) := get_cube_limit c (default_pnum c pnum) (cv_genus c - 1).

(** curves.py:386-401  [_get_face_cnum]; a face is a list of None / Some 0 / Some 1. *)
Definition touches_face (div : Z) (face : list (option Z)) (cube : list Z) : bool :=
  forallb (fun xe : Z * option Z =>
     match snd xe with
     | Some e => negb (((e =? 1)%Z && negb (fst xe =? div - 1)%Z) || ((e =? 0)%Z && negb (fst xe =? 0)%Z))
     | None => true
     end) (combine cube face).
(** curves.py:386-401  (part of) *)
Definition face_loop (div : Z) (face : list (option Z)) (data : list (nat * option (list Z))) : option nat :=
  (fix go data := match data with
   | [] => None
   | (cnum, Some cube) :: data' => if touches_face div face cube then Some cnum else go data'
   | (_, None) :: _ => None
   end) data.
(** curves.py:386-401  (part of) *)
Definition get_face_cnum (p : proto) (face : list (option Z)) (lst : bool) : option nat :=
  let data := enumerate (pr_cubes p) in
  face_loop (Z.of_nat (pr_div p)) face (if lst then rev data else data).

(** curves.py:347-384  [get_face_moment]: the loop, then the moment and (find_point) the point.
    The cubes are collected in both modes here. *)
Fixpoint face_moment_loop (fuel : nat) (c : curve) (face : list (option Z)) (lst : bool) (cur : spec)
    (cnums : list Z) (cubes : list (list Z)) (index : list (spec * nat)) : option (list Z * list (list Z) * nat) :=
  match fuel with
  | 0 => None
  | S fuel' =>
      match dget spec_eqb index cur with
      | Some idx => Some (cnums, cubes, idx)
      | None =>
          match proto_of c cur with
          | None => None
          | Some p =>
              match get_face_cnum p face lst with
              | None => None
              | Some cnum =>
                  match nth_error (pr_cubes p) cnum, compose_specs c cur (Z.of_nat cnum) with
                  | Some (Some cube), Some cur' =>
                      face_moment_loop fuel' c face lst cur' (cnums ++ [Z.of_nat cnum]) (cubes ++ [cube])
                                       (dset spec_eqb index cur (length cnums))
                  | _, _ => None
                  end
              end
          end
      end
  end.
(** curves.py:347-384  (part of) *)
Definition get_face_moment_point (c : curve) (face : list (option Z)) (pnum : option nat) (lst : bool)
  : option (list Qc * Qc) :=
  match face_moment_loop (spec_fuel c) c face lst (Sp (id_map (cv_dim c)) (default_pnum c pnum)) [] [] [] with
  | Some (cnums, cubes, idx) =>
      match get_periodic_sum (firstn idx cnums) (skipn idx cnums) (Z.of_nat (cv_genus c)),
            get_limit_point c (firstn idx cubes) (skipn idx cubes) with
      | Some t, Some x => Some (x, t)
      | _, _ => None
      end
  | None => None
  end.
(** curves.py:347-384  (part of) *)
Definition get_face_moment (c : curve) (face : list (option Z)) (pnum : option nat) (lst : bool) : option Qc :=
  match face_moment_loop (spec_fuel c) c face lst (Sp (id_map (cv_dim c)) (default_pnum c pnum)) [] [] [] with
  | Some (cnums, _, idx) => get_periodic_sum (firstn idx cnums) (skipn idx cnums) (Z.of_nat (cv_genus c))
  | None => None
  end.
(** curves.py:332-345  [get_vertex_moments]. *)
Definition get_vertex_moments (c : curve) (pnum : option nat) : option (list (list Z * Qc)) :=
  omap (fun v => option_map (pair v) (get_face_moment c (map Some v) pnum false)) (lprod_rep [0%Z; 1%Z] (cv_dim c)).

(** curves.py:753-783  [Junction]. *)
Record junction : Type := Jn { j_spec1 : spec; j_spec2 : spec; j_dx : list Z; j_dt : Z; j_depth : option nat }.
(** curves.py:772-776  equality of [_data], depth is not compared. *)
Definition junc_eqb (a b : junction) : bool :=
  z_list_eqb (j_dx a) (j_dx b) && (j_dt a =? j_dt b)%Z && spec_eqb (j_spec1 a) (j_spec1 b) && spec_eqb (j_spec2 a) (j_spec2 b).
(** curves.py:785-812  [RegularJunction.__init__]; [cube_map()**(-1)] is the inverse of the cube map. *)
Definition reg_junction (spec1 spec2 : spec) (dx : list Z) (depth : option nat) : junction :=
  let swap := Nat.ltb (sp_pnum spec2) (sp_pnum spec1) ||
              (Nat.eqb (sp_pnum spec1) (sp_pnum spec2) && time_rev (sp_bm spec1) && time_rev (sp_bm spec2)) in
  let dx' := if swap then map Z.opp dx else dx in
  let s1 := if swap then sp_rev spec2 else spec1 in
  let s2 := if swap then sp_rev spec1 else spec2 in
  let g := bm_inv (cube_map (sp_bm s1)) in
  Jn (bm_mul_sp g s1) (bm_mul_sp g s2) (apply_vec g dx') 1 depth.
(** curves.py:815-825  [AutoJunction]. *)
Definition auto_junction (dim pnum : nat) : junction :=
  Jn (Sp (id_map dim) pnum) (Sp (id_map dim) pnum) (repeat 0%Z dim) 0 (Some 0).
(** curves.py:407-409  [gen_auto_junctions]. *)
Definition gen_auto_junctions (c : curve) : list junction := map (auto_junction (cv_dim c)) (range (cv_mult c)).

(** curves.py:430-437  [_get_base_junction]. *)
Definition get_base_junction (c : curve) (pnum cnum : nat) (depth : option nat) : option junction :=
  match nth_error (cv_pats c) pnum with
  | None => None
  | Some pat =>
      match nth_error (pat_specs pat) cnum, nth_error (pat_specs pat) (cnum + 1),
            nth_error (pr_cubes (pat_proto pat)) cnum, nth_error (pr_cubes (pat_proto pat)) (cnum + 1) with
      | Some (Some s1), Some (Some s2), Some (Some c1), Some (Some c2) =>
          Some (reg_junction s1 s2 (map (fun cc => (snd cc - fst cc)%Z) (combine c1 c2)) depth)
      | _, _, _, _ => None
      end
  end.

(** curves.py:439-464  [_get_derived_junction] of a regular junction. *)
Definition get_derived_junction (c : curve) (j : junction) : option junction :=
  let spec1 := j_spec1 j in let spec2 := j_spec2 j in
  match nth_error (cv_pats c) (sp_pnum spec1), nth_error (cv_pats c) (sp_pnum spec2) with
  | Some p1, Some p2 =>
      let cnum1 := if time_rev (sp_bm spec1) then 0%Z else (-1)%Z in
      let cnum2 := if time_rev (sp_bm spec2) then (-1)%Z else 0%Z in
      match pyget (pat_specs p1) cnum1, pyget (pat_specs p2) cnum2,
            pr_cube (pat_proto p1) cnum1, pr_cube (pat_proto p2) cnum2 with
      | Some (Some s1), Some (Some s2), Some q1, Some q2 =>
          let cube1 := apply_cube (sp_bm spec1) (Z.of_nat (cv_div c)) q1 in
          let cube2 := apply_cube (sp_bm spec2) (Z.of_nat (cv_div c)) q2 in
          let der_delta := map (fun x : Z * Z * Z => (snd (fst x) + snd x * Z.of_nat (cv_div c) - fst (fst x))%Z)
                               (combine (combine cube1 cube2) (j_dx j)) in
          Some (reg_junction (bm_mul_sp (sp_bm spec1) s1) (bm_mul_sp (sp_bm spec2) s2) der_delta
                             (option_map S (j_depth j)))
      | _, _, _, _ => None
      end
  | _, _ => None
  end.

(** How a generator ended: exhausted, still running when the fuel ran out, or raised. *)
Inductive gen_end : Type := GDone | GFuel | GRaise.
(** curves.py:411-428  [_gen_junctions_from_base]: yields the base junctions, then the derived ones.
    [to_derive] is a Python list used with append/pop; here the top of the stack is the head. *)
Fixpoint derive_loop (fuel : nat) (c : curve) (seen stack : list junction) : list junction * gen_end :=
  match stack with
  | [] => ([], GDone)
  | j :: stack' =>
      match fuel with
      | 0 => ([], GFuel)
      | S fuel' =>
          match get_derived_junction c j with
          | None => ([], GRaise)
          | Some dj => if memb junc_eqb dj seen then derive_loop fuel' c seen stack'
                       else let r := derive_loop fuel' c (dj :: seen) (dj :: stack') in (dj :: fst r, snd r)
          end
      end
  end.
(** curves.py:411-428  (part of) *)
Definition gen_junctions_from_base (fuel : nat) (c : curve) (base : list junction) : list junction * gen_end :=
  let r := derive_loop fuel c (rev base) (rev base) in (base ++ fst r, snd r).

(** curves.py:600-608  [_gen_base_junctions]. *)
Definition gen_base_junctions (c : curve) : option (list junction) :=
  option_map (dedup junc_eqb)
    (omap (fun pc => get_base_junction c (fst pc) (snd pc) (Some 1)) (list_prod (range (cv_mult c)) (range (cv_genus c - 1)))).
(** curves.py:610-612  [Curve.gen_regular_junctions]. An exception while generating the base junctions ends the
    generator; the junctions yielded before it are not kept here. *)
Definition gen_regular_junctions (fuel : nat) (c : curve) : list junction * gen_end :=
  match gen_base_junctions c with
  | Some base => gen_junctions_from_base fuel c base
  | None => ([], GRaise)
  end.
(** curves.py:614-615  [get_depth]; max of an empty sequence (ValueError) is None. *)
Definition get_depth (fuel : nat) (c : curve) : option nat :=
  match gen_regular_junctions fuel c with
  | (js, GDone) => match omap j_depth js with
                   | Some (d :: ds) => Some (fold_left Nat.max ds d)
                   | _ => None
                   end
  | _ => None
  end.

(** curves.py:466-517  [get_junction_templates].
    [gate_specs]: dictionary (pnum, cnum) -> spec, filled by popping the variant two by two. *)
Definition pc_eqb (a b : nat * nat) : bool := Nat.eqb (fst a) (fst b) && Nat.eqb (snd a) (snd b).
(** curves.py:466-517  (part of) *)
Fixpoint gate_specs_of (G pnum : nat) (variant : list spec) (d : list (nat * nat * spec)) : list (nat * nat * spec) :=
  match variant with
  | s0 :: s1 :: rest => gate_specs_of G (S pnum) rest (dset pc_eqb (dset pc_eqb d (pnum, 0) s0) (pnum, G - 1) s1)
  | _ => d
  end.
(** curves.py:500-501 *)
Definition gate_clash (gates : list (nat * nat * spec)) (pc : nat * nat) (sp : spec) : bool :=
  match dget pc_eqb gates pc with Some s => negb (spec_eqb s sp) | None => false end.
(** curves.py:481-505 *)
Definition templates_of (c : curve) : option (list (nat * nat * list (nat * nat * spec))) :=
  let G := cv_genus c in let P := cv_mult c in
  match omap (fun pc => gen_allowed_specs c (fst pc) (snd pc)) (flat_map (fun p => [(p, 0); (p, G - 1)]) (range P)) with
  | None => None
  | Some variants =>
      option_map (@concat _)
        (omap (fun variant =>
           let gates := gate_specs_of G 0 variant [] in
           option_map (@concat _)
             (omap (fun pc : nat * nat =>
                let pc2 := (fst pc, snd pc + 1) in
                match gen_allowed_specs c (fst pc) (snd pc), gen_allowed_specs c (fst pc2) (snd pc2) with
                | Some l1, Some l2 =>
                    Some (flat_map (fun sp : spec * spec =>
                       if gate_clash gates pc (fst sp) || gate_clash gates pc2 (snd sp) then []
                       else [(pc, dset pc_eqb (dset pc_eqb gates pc (fst sp)) pc2 (snd sp))]) (list_prod l1 l2))
                | _, _ => None
                end) (list_prod (range P) (range (G - 1)))))
         (lprod variants))
  end.
(** curves.py:509-511: grouping of the template specs by pattern *)
Definition spec_dict_of (tmpl : list (nat * nat * spec)) : list (nat * list (nat * spec)) :=
  fold_left (fun d (x : nat * nat * spec) =>
     let p := fst (fst x) in
     let cur := match dget Nat.eqb d p with Some l => l | None => [] end in
     dset Nat.eqb d p (dset Nat.eqb cur (snd (fst x)) (snd x))) tmpl [].
(** curves.py:507-517; [fuel] bounds each enumeration of derived junctions, running out of it is None *)
Definition template_step (fuel : nat) (c : curve) (acc : list (junction * list curve))
    (t : nat * nat * list (nat * nat * spec)) : option (list (junction * list curve)) :=
  match specify_allowed c (spec_dict_of (snd t)) with
  | None => None
  | Some cv =>
      match get_base_junction cv (fst (fst t)) (snd (fst t)) None with
      | None => None
      | Some bj =>
          match gen_junctions_from_base fuel cv [bj] with
          | (js, GDone) =>
              Some (fold_left (fun d j => dset junc_eqb d j ((match dget junc_eqb d j with Some l => l | None => [] end) ++ [cv])) js acc)
          | _ => None
          end
      end
  end.
(** curves.py:466-517  (part of) *)
Definition get_junction_templates (fuel : nat) (c : curve) : option (list (junction * list curve)) :=
  match templates_of c with
  | None => None
  | Some ts => fold_left (fun acc t => obind acc (fun a => template_step fuel c a t)) ts (Some [])
  end.

(** curves.py:531-532  [Curve.__eq__] returns a 3-tuple: (patterns, bool, pnum). *)
Definition eq_result (a b : curve) (pnum_eq_patterns : bool) : list pattern * bool * nat :=
  (cv_pats a, pnum_eq_patterns, cv_pnum b).
(** [self.pnum == other.patterns]: an int against a tuple, always False *)
Definition curve_eq (a b : curve) : list pattern * bool * nat := eq_result a b false.
(** truth value of a non-empty tuple *)
Definition tuple3_truth {A B C} (_ : A * B * C) : bool := true.
(** curves.py:531-532  (part of) *)
Definition curve_eq_truth (a b : curve) : bool := tuple3_truth (curve_eq a b).

(** curves.py:556-563  [Curve.get_paths]. *)
Definition pl_at (links : list plink) (s : spec) : option plink :=
  option_map (pl_mul (sp_bm s)) (nth_error links (sp_pnum s)).
(** curves.py:556-563  (part of) *)
Definition get_paths (c : curve) : option (list (path (list Qc))) :=
  match omap (fun p => match get_entrance c (Some p), get_exit c (Some p) with
                       | Some e, Some x => Some (Lk e x) | _, _ => None end) (range (cv_mult c)) with
  | None => None
  | Some links =>
      omap (fun pat => obind (omap (fun os => obind os (pl_at links)) (pat_specs pat))
                             (mk_path point_ops (pat_proto pat))) (cv_pats c)
  end.

(** curves.py:595-598  [Curve.check]: [Some true] passes, [Some false] raises ValueError.
    [any] stops at the first discontinuous path; a later exception is not distinguished here. *)
Definition check (c : curve) : option bool :=
  option_map (forallb (fun b => b)) (obind (get_paths c) (omap (pa_is_continuous point_ops))).

(** curves.py:569-593  [get_subdivision]. *)
Definition subdivide_pattern (orig : curve) (new_div : nat) (p : pattern) : option pattern :=
  let N := Z.of_nat (cv_div orig) in
  match omap (fun cs : option (list Z) * option spec =>
          match cs with
          | (Some cube, Some s) =>
              match nth_error (cv_pats orig) (sp_pnum s) with
              | Some op =>
                  match omap (option_map (fun q => map (fun cn => (fst cn * N + snd cn)%Z) (combine cube q)))
                             (pr_cubes (pr_mul (sp_bm s) (pat_proto op))),
                        omap (option_map (bm_mul_sp (sp_bm s))) (if time_rev (sp_bm s) then rev (pat_specs op) else pat_specs op) with
                  | Some qs, Some ss => Some (map Some qs, map Some ss)
                  | _, _ => None
                  end
              | None => None
              end
          | _ => None
          end) (combine (pr_cubes (pat_proto p)) (pat_specs p)) with
  | Some parts => Some (Pat (Pr (cv_dim orig) new_div (concat (map fst parts))) (concat (map snd parts)))
  | None => None
  end.
(** curves.py:569-593  (part of) *)
Fixpoint get_subdivision_loop (orig cur : curve) (k : nat) : option curve :=
  match k with
  | 0 => Some cur
  | S k' =>
      let nd := cv_div cur * cv_div orig in
      match omap (subdivide_pattern orig nd) (cv_pats cur) with
      | Some ps => get_subdivision_loop orig (Cv (cv_dim orig) nd ps (cv_pnum orig) KCurve) k'
      | None => None
      end
  end.
(** curves.py:569-593  (part of) *)
Definition get_subdivision (c : curve) (k : nat) : option curve := get_subdivision_loop c c k.

(** curves.py:700-750  [PathFuzzyCurve.init_from_paths].
    [links_std] is a defaultdict of dicts; KeyError, ValueError, StopIteration are None. *)
Definition opt_group (group : option (list base_map)) (disable_time_rev : bool) (dim : nat) : list base_map :=
  let g := match group with Some g => g | None => gen_base_maps dim None end in
  if disable_time_rev then filter (fun b => negb (time_rev b)) g else g.
(** curves.py:700-750  (part of) *)
Definition std_link_of (group : list base_map) (l : plink) : option plink := min_list pl_cmp (map (fun b => pl_mul b l) group).
(** curves.py:700-750  (part of) *)
Definition init_links_std (group : list base_map) (paths : list (path (list Qc)))
  : option (list (plink * list (nat * base_map))) :=
  fold_left (fun acc (np : nat * path (list Qc)) => obind acc (fun d =>
      match std_link_of group (pa_link (snd np)) with
      | None => None
      | Some sl =>
          match first_such (fun b => pl_eqb (pl_mul b (pa_link (snd np))) sl) group with
          | None => None
          | Some m => let cur := match dget pl_eqb d sl with Some l => l | None => [] end in
                      Some (dset pl_eqb d sl (dset Nat.eqb cur (fst np) m))
          end
      end)) (enumerate paths) (Some []).
(** curves.py:700-750  (part of) *)
Definition init_fraction (group : list base_map) (std : list (plink * list (nat * base_map))) (l : plink)
  : option (plink * base_map) :=
  match std_link_of group l with
  | None => None
  | Some sl =>
      match dget pl_eqb std sl with
      | None => None   (* KeyError *)
      | Some _ => option_map (pair sl) (first_such (fun b => pl_eqb (pl_mul b sl) l) group)
      end
  end.
(** curves.py:700-750  (part of) *)
Definition init_from_paths (paths : list (path (list Qc))) (group : option (list base_map)) (disable_time_rev : bool)
  : option curve :=
  match paths with
  | [] => None
  | p0 :: _ =>
      let dim := pr_dim (pa_proto p0) in let div := pr_div (pa_proto p0) in
      let g := opt_group group disable_time_rev dim in
      match init_links_std g paths with
      | None => None
      | Some std =>
          let symm := map (fun ld => (fst ld, filter (fun b => pl_eqb (pl_mul b (fst ld)) (fst ld)) g)) std in
          match omap (fun p => omap (init_fraction g std) (pa_links p)) paths with
          | None => None
          | Some frs =>
              Some (Cv dim div (map (fun p => Pat (pa_proto p) (repeat None (length (pr_cubes (pa_proto p))))) paths) 0
                       (KPath (PFD symm std (map (map fst) frs) (map (map snd) frs))))
          end
      end
  end.
(** curves.py:565-567  [Curve.forget]. *)
Definition forget (c : curve) (group : option (list base_map)) (disable_time_rev : bool) : option curve :=
  obind (get_paths c) (fun ps => init_from_paths ps group disable_time_rev).

(** curves.py:828-838  [CurvePoint]. *)
Definition cp_mul (b : base_map) (p : list Qc * Qc) : list Qc * Qc := (pt_mul b (fst p), apply_t b 1%Qc (snd p)).
(** curves.py:828-838  (part of) *)
Definition cp_scale (f : Qc) (p : list Qc * Qc) : list Qc * Qc :=
  (map (fun x => (x * f)%Qc) (fst p), (f ^ length (fst p) * snd p)%Qc).
