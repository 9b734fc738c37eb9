(** Model of the generator of paths, /repo/peano/paths.py:162-396 (definitions only). Exceptions are [None]; the values
    yielded by a generator are collected in a list. The links are all of one class of subsets, given by its methods [O];
    [pt] tells whether that class is Point. *)
From Verif Require Export Py M_BaseMaps M_Subsets M_Paths M_PathTree M_Utils.
Local Open Scope nat_scope.

(** sum(abs(cj) for cj in cube), line 227 *)
Definition cdist (cube : list Z) : Z := fold_right Z.add 0%Z (map Z.abs cube).
(** paths.py:227: the cube is not too far *)
Definition cdist_ok (max_cdist : option Z) (cube : list Z) : bool :=
  match max_cdist with Some m => (cdist cube <=? m)%Z | None => true end.

Section Gen.
Context {T : Type} (O : subset_ops T) (pt : bool) (dim div : nat).

(** paths.py:186, 191-192  a defaultdict(dict) of ordered keys: [entr2exits[a][b] = 1] *)
Definition set_exit (m : list (T * list T)) (ab : T * T) : list (T * list T) :=
  let l := match dget (so_eqb O) m (fst ab) with Some l => l | None => [] end in
  dset (so_eqb O) m (fst ab) (if memb (so_eqb O) (snd ab) l then l else l ++ [snd ab]).
(** paths.py:185-196  [_init_entr2links]; the dict entrance -> links *)
Definition init_entr2links (links : list (link T)) : list (T * list (link T)) :=
  map (fun ex => (fst ex, map (Lk (fst ex)) (snd ex)))
    (fold_left set_exit
       (flat_map (fun b => flat_map (fun l =>
          let e := so_mul O b (entrance l) in let x := so_mul O b (exit l) in [(e, x); (x, e)]) links)
          (gen_base_maps dim (Some false))) []).

Context (e2l : list (T * list (link T))).
(** paths.py:198-206  [_gen_intersected_entr]; all subsets are Points if [pt] (line 182, 200) *)
Definition intersected_entr (s : T) : list T :=
  if pt then match dget (so_eqb O) e2l s with Some _ => [s] | None => [] end
  else filter (fun e => so_intersects O e s) (map fst e2l).
(** paths.py:208-211  [_gen_intersected_links]; KeyError is None *)
Definition intersected_links (s : T) : option (list (link T)) :=
  option_map (@concat _) (omap (dget (so_eqb O) e2l) (intersected_entr s)).

(** paths.py:225-230 *)
Definition std_next (max_cdist : option Z) (std_exit : T) : list (list Z * T) :=
  flat_map (fun cs => if cdist_ok max_cdist (fst cs) then map (fun e => (fst cs, e)) (intersected_entr (snd cs)) else [])
           (so_neighbours O std_exit).
(** paths.py:237-241; KeyError is None *)
Definition next_pos (b : base_map) (nexts : list (list Z * T)) : option (list (list Z * link T)) :=
  option_map (@concat _) (omap (fun ce => option_map (map (fun l => (apply_cube_start b (fst ce) 1, l)))
                                            (dget (so_eqb O) e2l (so_mul O b (snd ce)))) nexts).
(** paths.py:232-243 *)
Definition add_exit (std_exit : T) (nexts : list (list Z * T)) (acc : option (list (T * list (list Z * link T)))) (b : base_map)
  : option (list (T * list (list Z * link T))) :=
  match acc with
  | None => None
  | Some m =>
      let ex := so_mul O b std_exit in
      match dget (so_eqb O) m ex with
      | Some _ => Some m
      | None => option_map (dset (so_eqb O) m ex) (next_pos b nexts)
      end
  end.
(** paths.py:213-243  [_init_exit2next]; std_exits is a set, here in the order of insertion (orbits of different standard
    exits are disjoint, the order does not matter) *)
Definition init_exit2next (links : list (link T)) (max_cdist : option Z) : option (list (T * list (list Z * link T))) :=
  let std_exits := dedup (so_eqb O) (flat_map (fun l => [so_std O (exit l); so_std O (entrance l)]) links) in
  fold_left (fun acc se => fold_left (add_exit se (std_next max_cdist se)) (gen_base_maps dim (Some false)) acc) std_exits (Some []).

Context (e2n : list (T * list (list Z * link T))).
(** paths.py:332-333  [check_parent]; parent.proto[cnum], parent.links[cnum]: IndexError is None; [and] is lazy *)
Definition check_parent (parent : path T) (cnum : Z) (cube : list Z) (l : link T) : option bool :=
  match pyget (pr_cubes (pa_proto parent)) cnum with
  | None => None
  | Some pc =>
      if ocube_eqb (Some cube) pc then
        option_map (lk_intersects (so_intersects O) l) (pyget (pa_links parent) cnum)
      else Some false
  end.
(** paths.py:331  [cube2cnum]: the last position of a cube wins *)
Definition cube2cnum (parent : path T) : list (option (list Z) * nat) :=
  fold_left (fun m ic => dset ocube_eqb m (snd ic) (fst ic)) (enumerate (pr_cubes (pa_proto parent))) [].
(** paths.py:335-338  [check_next] *)
Definition check_next (parent : path T) (cube delta : list Z) (next_link : link T) (reverse : bool) : option bool :=
  match dget ocube_eqb (cube2cnum parent) (Some cube) with
  | None => None
  | Some cnum => check_parent parent (Z.of_nat cnum + (if reverse then -1 else 1)) (zadd cube delta) next_link
  end.
(** the filter of lines 342-344, 349-351: a loop that keeps the items that pass the check *)
Fixpoint ofilter {A} (f : A -> option bool) (l : list A) : option (list A) :=
  match l with
  | [] => Some []
  | x :: l' => match f x, ofilter f l' with
               | Some b, Some r => Some (if b then x :: r else r)
               | _, _ => None
               end
  end.
(** paths.py:335-338  (part of) *)
Definition keep_next (parent : option (path T)) (reverse : bool) (cube : list Z) (nl : list Z * link T) : option bool :=
  match parent with None => Some true | Some p => check_next p cube (fst nl) (snd nl) reverse end.
(** paths.py:340-344  [gen_next] *)
Definition gen_next (parent : option (path T)) (cube : list Z) (l : link T) : option (list (list Z * link T)) :=
  obind (dget (so_eqb O) e2n (exit l)) (ofilter (keep_next parent false cube)).
(** paths.py:346-351  [gen_prev] *)
Definition gen_prev (parent : option (path T)) (cube : list Z) (l : link T) : option (list (list Z * link T)) :=
  obind (dget (so_eqb O) e2n (entrance l))
        (fun nexts => ofilter (keep_next parent true cube) (map (fun nl => (fst nl, lk_inv (snd nl))) nexts)).
(** paths.py:355-377  the starting and the final nodes; [flip]: the link is inverted (line 373) *)
Definition nodes (parent : option (path T)) (cnum : Z) (flip : bool) (cube_sets : list (list Z * T)) : option (list (list Z * link T)) :=
  option_map (@concat _) (omap (fun cs =>
    obind (intersected_links (snd cs)) (fun ls =>
      ofilter (fun cl => match parent with None => Some true | Some p => check_parent p cnum (fst cl) (snd cl) end)
              (map (fun l => (fst cs, if flip then lk_inv l else l)) ls))) cube_sets).
(** paths.py:355-360 *)
Definition cube_sets (link : option (link T)) (parent : option (path T)) : option (list (list Z * T) * list (list Z * T)) :=
  match link, parent with
  | Some l, None => match so_divide O div (entrance l), so_divide O div (exit l) with
                    | Some s, Some f => Some (s, f) | _, _ => None end
  | None, Some p => match pr_cube (pa_proto p) 0, pyget (pa_links p) 0, pr_cube (pa_proto p) (-1), pyget (pa_links p) (-1) with
                    | Some c0, Some l0, Some c1, Some l1 => Some ([(c0, entrance l0)], [(c1, exit l1)])
                    | _, _, _, _ => None end
  | _, _ => None   (* ValueError, line 325 *)
  end.
(** paths.py:380-383  the base maps that keep the link or the parent *)
Definition std_bms (link : option (link T)) (parent : option (path T)) : list base_map :=
  filter (fun b => match parent, link with
                   | Some p, _ => match pa_mul O b p with Some q => pa_eqb O q p | None => false end
                   | None, Some l => lk_eqb (so_eqb O) (lk_mul (so_mul O) b l) l
                   | None, None => false
                   end) (gen_base_maps dim None).
(** paths.py:385-396: the loop over the paths of the tree; [seen] is the set of standard paths *)
Fixpoint yield_paths (bms : option (list base_map)) (seen : list (path T)) (data : list (list (list Z * link T))) : option (list (path T)) :=
  match data with
  | [] => Some []
  | z :: data' =>
      match mk_path O (Pr dim div (map (fun x => Some (fst x)) z)) (map snd z) with
      | None => None
      | Some p =>
          match bms with
          | None => option_map (cons p) (yield_paths bms seen data')
          | Some bs =>
              match omap (fun b => pa_mul O b p) bs with
              | None => None
              | Some images =>
                  match min_list (pa_cmp O) images with
                  | None => None
                  | Some q => if memb (pa_eqb O) q seen then yield_paths bms seen data'
                              else option_map (cons p) (yield_paths bms (q :: seen) data')
                  end
              end
          end
      end
  end.
(** paths.py:309-396  [generate_paths_generic] *)
Definition generate_generic (hash : future_t (link T) -> Z) (fuel : nat) (start_max : nat) (finish_max : option nat)
    (std : bool) (link : option (link T)) (parent : option (path T)) : option (list (path T)) :=
  match cube_sets link parent with
  | None => None
  | Some (ss, fs) =>
      match nodes parent 0 false ss, nodes parent (-1) true fs with
      | Some start, Some finish =>
          match grow (lk_eqb (so_eqb O)) hash dim div (gen_next parent) (Some (gen_prev parent)) fuel start finish start_max finish_max with
          | None => None
          | Some data => yield_paths (if std then Some (std_bms link parent) else None) [] data
          end
      | _, _ => None
      end
  end.
End Gen.

Section Api.
Context {T : Type} (O : subset_ops T) (pt : bool).
(** paths.py:165-183  the PathsGenerator object *)
Record paths_generator : Type := PG {
  pg_dim : nat; pg_div : nat; pg_links : list (link T);
  pg_e2l : list (T * list (link T)); pg_e2n : list (T * list (list Z * link T)) }.
(** paths.py:165-183  (part of) *)
Definition mk_generator (dim div : nat) (links : list (link T)) (max_cdist : option Z) : option paths_generator :=
  let e2l := init_entr2links O dim links in
  option_map (PG dim div links e2l) (init_exit2next O pt dim e2l links max_cdist).

Context (g : paths_generator) (hash : future_t (link T) -> Z) (fuel start_max : nat) (finish_max : option nat).
(** paths.py:165-183  (part of) *)
Definition pg_generic (std : bool) (link : option (link T)) (parent : option (path T)) : option (list (path T)) :=
  generate_generic O pt (pg_dim g) (pg_div g) (pg_e2l g) (pg_e2n g) hash fuel start_max finish_max std link parent.
(** paths.py:245-255  [_get_restrictions] *)
Definition restrictions (links : option (list (link T))) (parents : option (list (path T))) : option (list (option (link T) * option (path T))) :=
  match links, parents with
  | None, None => Some (map (fun l => (Some l, None)) (pg_links g))
  | Some ls, None => Some (map (fun l => (Some l, None)) ls)
  | None, Some ps => Some (map (fun p => (None, Some p)) ps)
  | Some _, Some _ => None
  end.
(** paths.py:257-273  [get_paths_example]; [next(generator, None)] runs the generator up to its first path only: here the
    whole list is computed, so an exception after the first path would differ *)
Fixpoint examples (std : bool) (rs : list (option (link T) * option (path T))) : option (option (list (path T))) :=
  match rs with
  | [] => Some (Some [])
  | (l, p) :: rs' =>
      match pg_generic std l p with
      | None => None
      | Some [] => Some None
      | Some (x :: _) => option_map (option_map (cons x)) (examples std rs')
      end
  end.
(** paths.py:257-273  (part of) *)
Definition get_paths_example (links : option (list (link T))) (parents : option (list (path T))) (std : bool) : option (option (list (path T))) :=
  obind (restrictions links parents) (examples std).
(** paths.py:275-307  [generate_paths]. The keys of paths_dict are the restrictions; combinations_product numbers them by
    their first position here, the order of the iteration over set(restrictions) does not matter. *)
Definition restr_eqb (r s : option (link T) * option (path T)) : bool :=
  match fst r, fst s with Some a, Some b => lk_eqb (so_eqb O) a b | None, None => true | _, _ => false end &&
  match snd r, snd s with Some a, Some b => pa_eqb O a b | None, None => true | _, _ => false end.
(** paths.py:275-307  (part of) *)
Fixpoint first_index {A} (eqb : A -> A -> bool) (l : list A) (x : A) : nat :=
  match l with [] => 0 | y :: l' => if eqb y x then 0 else Datatypes.S (first_index eqb l' x) end.
(** paths.py:275-307  (part of) *)
Definition generate_paths (links : option (list (link T))) (parents : option (list (path T))) (std : bool) : option (list (list (path T))) :=
  match restrictions links parents with
  | None => None
  | Some rs =>
      match omap (fun r => pg_generic std (fst r) (snd r)) rs with
      | None => None
      | Some lists =>
          match lists with
          | [l] => Some (map (fun p => [p]) l)
          | _ => if std then
                   combinations_product (map (first_index restr_eqb rs) rs) (fun i => nth_error lists i)
                 else Some (lprod lists)
          end
      end
  end.
End Api.
