(** Model of /repo/peano/gates.py (definitions only). Exceptions are [None]; the values yielded by a generator are collected
    in a list. Logging is left out, for the counters [stats] see M_GatesStats.v. *)
From Verif Require Export Py M_BaseMaps M_Subsets M_Paths M_Curves M_PathTree M_PathGen M_Utils.
Local Open Scope nat_scope.

(** [l[i] = v] with a negative index counted from the end *)
Definition pyset {A} (l : list A) (i : Z) (v : A) : list A :=
  upd (Z.to_nat (if (0 <=? i)%Z then i else (Z.of_nat (length l) + i)%Z)) v l.
(** Equality and order of pairs of cubes and tuples of gates. *)
Definition cpair_cmp : list Z * list Z -> list Z * list Z -> comparison := lex2 (lex Z.compare) (lex Z.compare).
(** == of tuples (Python builtin), used by gates.py:167-178 *)
Definition cpair_eqb (a b : list Z * list Z) : bool := z_list_eqb (fst a) (fst b) && z_list_eqb (snd a) (snd b).
(** == of tuples of gates (Python builtin), used by gates.py:167-178 *)
Definition gates_eqb : list plink -> list plink -> bool := list_eqb pl_eqb.
(** The parameters of the search for paths: the builtin hash of tree nodes, the fuel of the tree's loops, and the limits
    start_max_count and finish_max_count. *)
Record search_par (T : Type) : Type := SP { sp_hash : future_t (link T) -> Z; sp_fuel : nat; sp_start : nat; sp_finish : option nat }.
Arguments SP {T}. Arguments sp_hash {T}. Arguments sp_fuel {T}. Arguments sp_start {T}. Arguments sp_finish {T}.

Section Gates.
(** gates.py:20-36  the GatesGenerator object *)
Context (dim div mult : nat) (only_facet : bool).
(** gates.py:36  [_boundary_pnum_cnums] *)
Definition boundary : list (nat * Z) := list_prod (range mult) [0%Z; (-1)%Z].

(** gates.py:148-150  [pattern_specs] *)
Definition pattern_specs (spec_list : list spec) : list (list (option spec)) :=
  fold_left (fun ps x => upd (fst (fst x)) (pyset (nth (fst (fst x)) ps []) (snd (fst x)) (Some (snd x))) ps)
            (combine boundary spec_list) (repeat (repeat None (div ^ dim)) mult).
(** gates.py:152-153 *)
Definition cand_curve (protos : list proto) (spec_list : list spec) : curve :=
  Cv dim div (map (fun ps => Pat (fst ps) (snd ps)) (combine protos (pattern_specs spec_list))) 0 KFuzzy.
(** gates.py:158, 162  the test of an entrance or an exit (dim >= 1) *)
Definition bad_face (p : list Qc) : bool :=
  (only_facet && negb (Nat.eqb (face_dim p) (dim - 1))) || Nat.eqb (face_dim p) dim.
(** gates.py:155-165; [Some None]: return None *)
Fixpoint curve_gates (c : curve) (pnums : list nat) : option (option (list plink)) :=
  match pnums with
  | [] => Some (Some [])
  | p :: pnums' =>
      match get_entrance c (Some p) with
      | None => None
      | Some e =>
          if bad_face e then Some None else
          match get_exit c (Some p) with
          | None => None
          | Some x => if bad_face x then Some None else option_map (option_map (cons (Lk e x))) (curve_gates c pnums')
          end
      end
  end.
(** gates.py:174  tuple(sorted(gate.std() for gate in gates)) *)
Definition std_gates (gates : list plink) : option (list plink) := option_map (sorted pl_cmp) (omap pl_std gates).
(** gates.py:183-188  is there a path for every gate? *)
Definition has_paths (par : search_par (list Qc)) (gs : list plink) : option bool :=
  obind (mk_generator point_ops true dim div gs None) (fun g =>
    option_map (fun ex => match ex with Some (_ :: _) => true | _ => false end)
      (get_paths_example point_ops true g (sp_hash par) (sp_fuel par) (sp_start par) (sp_finish par) None None false)).
(** gates.py:50-51, 167-172, 176-178  the sets seen_gates and seen_std_gates *)
Definition seen_sets : Type := (list (list plink) * list (list plink))%type.
(** gates.py:145-192  [_check_and_std]: the result and the new sets *)
Definition check_and_std (par : search_par (list Qc)) (seen : seen_sets) (protos : list proto) (spec_list : list spec)
    : option (option (list plink) * seen_sets) :=
  match curve_gates (cand_curve protos spec_list) (range mult) with
  | None => None
  | Some None => Some (None, seen)
  | Some (Some gates) =>
      if memb gates_eqb gates (fst seen) then Some (None, seen) else
      match std_gates gates with
      | None => None
      | Some std =>
          if memb gates_eqb std (snd seen) then Some (None, (gates :: fst seen, snd seen)) else
          option_map (fun ok : bool => (if ok then Some std else None, (gates :: fst seen, std :: snd seen))) (has_paths par std)
      end
  end.
(** gates.py:138-143  the loop of [_check_variants], over all calls of it *)
Fixpoint check_all (par : search_par (list Qc)) (seen : seen_sets) (cands : list (list proto * list spec)) : option (list (list plink)) :=
  match cands with
  | [] => Some []
  | (protos, specs) :: cands' =>
      match check_and_std par seen protos specs with
      | None => None
      | Some (r, seen') => option_map (fun l => match r with Some gs => gs :: l | None => l end) (check_all par seen' cands')
      end
  end.
(** gates.py:130-138  the products of the variants; specs_dict is given by its values in the order of [boundary] *)
Definition candidates (groups : list (list proto * list (list spec))) : list (list proto * list spec) :=
  flat_map (fun g => map (pair (fst g)) (lprod (snd g))) groups.

(** gates.py:87-90 *)
Definition is_facet_cube (cube : list Z) : bool := existsb (fun c => (c =? 0)%Z || (c =? Z.of_nat div - 1)%Z) cube.
(** gates.py:87-90  (part of) *)
Definition facet_pairs : list (list Z * list Z) :=
  flat_map (fun l => match l with [a; b] => [(a, b)] | _ => [] end) (combs (filter is_facet_cube (lprod_rep (zrange div) dim)) 2).
(** gates.py:92-98  [std_pair] *)
Definition std_pair (pair : list Z * list Z) : list Z * list Z :=
  fold_left (fun mn b => let c1 := apply_cube b (Z.of_nat div) (fst pair) in let c2 := apply_cube b (Z.of_nat div) (snd pair) in
                         min_of cpair_cmp mn [(c1, c2); (c2, c1)]) (gen_base_maps dim (Some false)) pair.
(** gates.py:101-102 *)
Definition std_pairs_list : list (list (list Z * list Z)) :=
  combs_repl (sorted cpair_cmp (dedup cpair_eqb (map std_pair facet_pairs))) mult.
(** gates.py:108-109  [touch_same_facet] *)
Definition touch_same_facet (cube1 cube2 : list Z) : bool :=
  existsb (fun cc => ((fst cc =? snd cc) && (snd cc =? 0))%Z || ((fst cc =? snd cc) && (snd cc =? Z.of_nat div - 1))%Z) (combine cube1 cube2).
(** gates.py:114-117 *)
Definition pair_proto (pair : list Z * list Z) : proto :=
  Pr dim div (pyset (pyset (repeat None (div ^ dim)) 0 (Some (fst pair))) (-1) (Some (snd pair))).
(** gates.py:122-124  the test of a spec; the cubes are not None *)
Definition spec_touches (protos : list proto) (pnum : nat) (cnum : Z) (pn : nat) (b : base_map) : option bool :=
  obind (obind (nth_error protos pnum) (fun p => pr_cube p cnum)) (fun c1 =>
  obind (obind (nth_error protos pn) (fun p => pr_cube (pr_mul b p) cnum)) (fun c2 => Some (touch_same_facet c1 c2))).
(** gates.py:119-125 *)
Definition touching_specs (protos : list proto) (pc : nat * Z) : option (list spec) :=
  option_map (@concat _) (omap (fun pn => option_map (map (fun b => Sp b pn))
    (ofilter (spec_touches protos (fst pc) (snd pc) pn) (gen_base_maps dim None))) (range mult)).
(** gates.py:82-126  [_gen_all_gates], up to the calls of _check_variants *)
Definition all_groups : option (list (list proto * list (list spec))) :=
  omap (fun pairs => let protos := map pair_proto pairs in
          option_map (pair protos) (omap (touching_specs protos) boundary)) std_pairs_list.

(** gates.py:57-67 *)
Definition facet0 : facet_set := FS dim div (0, 0%Z) [].
(** gates.py:57-67  (part of) *)
Definition facet1 : facet_set := FS dim div (0, 1%Z) [].
(** gates.py:57-67  (part of) *)
Definition facet2 : facet_set := FS dim div (1, 0%Z) [].
(** gates.py:57-67  (part of) *)
Definition link_variants : list (link facet_set) := [Lk facet0 facet0; Lk facet0 facet1; Lk facet0 facet2].
(** gates.py:57-67  (part of) *)
Definition links_list : list (list (link facet_set)) := combs_repl link_variants mult.
(** gates.py:194-225  _NarrowLinks: the link of a narrow path and the links of its first and last fractions *)
Record narrow_links : Type := NL { nl_link : link facet_set; nl_first : link facet_set; nl_last : link facet_set }.
(** gates.py:194-225  (part of) *)
Definition nl_eqb (a b : narrow_links) : bool :=
  lk_eqb fs_eqb (nl_link a) (nl_link b) && lk_eqb fs_eqb (nl_first a) (nl_first b) && lk_eqb fs_eqb (nl_last a) (nl_last b).
(** gates.py:219  IndexError is None *)
Definition narrow_key (p : path facet_set) : option narrow_links :=
  match pyget (pa_links p) 0, pyget (pa_links p) (-1) with
  | Some l0, Some l1 => Some (NL (pa_link p) l0 l1)
  | _, _ => None
  end.
(** gates.py:195-225  [_gen_narrow_links]; dim and div of paths[0] are those of the generator *)
Definition gen_narrow_links (par : search_par facet_set) (paths : list (path facet_set)) : option (list (list narrow_links)) :=
  obind (mk_generator facet_ops false dim div (map pa_link paths) None) (fun npg =>
  obind (get_paths_example facet_ops false npg (sp_hash par) (sp_fuel par) (sp_start par) (sp_finish par) None (Some paths) false) (fun ex =>
    match ex with
    | Some (_ :: _) =>
        option_map (@lprod _) (omap (fun path =>
          obind (pg_generic facet_ops false npg (sp_hash par) (sp_fuel par) (sp_start par) (sp_finish par) false None (Some path)) (fun nps =>
          option_map (dedup nl_eqb) (omap narrow_key nps))) paths)
    | _ => Some []
    end)).
(** gates.py:75-79  the specs of one boundary fraction *)
Definition narrow_specs (narrow : list narrow_links) (pc : nat * Z) : option (list spec) :=
  obind (nth_error narrow (fst pc)) (fun n =>
    Some (flat_map (fun pn => match nth_error narrow pn with
                              | Some n' => map (fun b => Sp b pn) (fl_argmul (nl_link n') (if (snd pc =? 0)%Z then nl_first n else nl_last n))
                              | None => []
                              end) (range mult))).
(** gates.py:56-80  [_gen_facet_gates], up to the calls of _check_variants *)
Definition facet_groups (par : search_par facet_set) : option (list (list proto * list (list spec))) :=
  option_map (@concat _) (omap (fun links =>
    obind (mk_generator facet_ops false dim div links None) (fun pg =>
    obind (generate_paths facet_ops false pg (sp_hash par) (sp_fuel par) (sp_start par) (sp_finish par) None None true) (fun plist =>
    option_map (@concat _) (omap (fun paths =>
      obind (gen_narrow_links par paths) (fun narrows =>
        omap (fun narrow => option_map (pair (map pa_proto paths)) (omap (narrow_specs narrow) boundary)) narrows)) plist)))) links_list).

(** gates.py:38-54  [gen_gates]; [fpar] and [ppar]: the parameters of the searches for facet paths and for point paths. The code
    uses the defaults (100, 10**6) for the former and (1000, 1000000) for the latter. *)
Definition gen_gates (fpar : search_par facet_set) (ppar : search_par (list Qc)) : option (list (list plink)) :=
  obind (if only_facet then facet_groups fpar else all_groups) (fun groups => check_all ppar ([], []) (candidates groups)).
End Gates.
