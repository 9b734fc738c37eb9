(** Model of /repo/peano/_cube_path_trees.py (definitions only). Exceptions are [None]. *)
From Verif Require Export Py M_BaseMaps M_Subsets.
Local Open Scope nat_scope.

(** _cube_path_trees.py:14-18  [_CubeNode]: (cube, state). *)
Definition node_eqb {S} (seqb : S -> S -> bool) (x y : list Z * S) : bool := z_list_eqb (fst x) (fst y) && seqb (snd x) (snd y).
(** _cube_path_trees.py:24-38  [_CubePath]: the nodes from the head to the start; [length] is the length of this list, [prev] its
    tail. A path is never empty: head of [] (impossible) is None in the functions below. *)
Definition cpath (S : Type) : Type := list (list Z * S).
(** _cube_path_trees.py:31-38  [flat] *)
Definition flat {S} (p : cpath S) : list (list Z * S) := rev p.
(** Sets of cubes are lists here, used through membership and equality as sets only. *)
Definition inset (c : list Z) (s : list (list Z)) : bool := memb z_list_eqb c s.
(** inclusion of sets (Python builtin), used by _cube_path_trees.py:199-214 *)
Definition subset (s t : list (list Z)) : bool := forallb (fun c => inset c t) s.
(** == of frozensets (Python builtin), used by _cube_path_trees.py:199-214 *)
Definition set_eqb (s t : list (list Z)) : bool := subset s t && subset t s.
(** _cube_path_trees.py:40-53  [support], [tail_support] *)
Definition support {S} (p : cpath S) : list (list Z) := map fst p.
(** _cube_path_trees.py:40-53  (part of) *)
Definition tail_support {S} (p : cpath S) : list (list Z) :=
  match p with [] => [] | h :: _ => filter (fun c => negb (z_list_eqb c (fst h))) (support p) end.
(** _cube_path_trees.py:55-57  [future]: a set of cubes and a node *)
Definition future_t (S : Type) : Type := list (list Z) * (list Z * S).
(** _cube_path_trees.py:55-57  (part of) *)
Definition future_eqb {S} (seqb : S -> S -> bool) (f g : future_t S) : bool := set_eqb (fst f) (fst g) && node_eqb seqb (snd f) (snd g).
(** _cube_path_trees.py:55-57  (part of) *)
Definition future {S} (p : cpath S) : option (future_t S) :=
  match p with [] => None | h :: _ => Some (tail_support p, h) end.
(** _cube_path_trees.py:63-67  the argument of hash in [complement_future_hash] *)
Definition complement_future {S} (all_cubes : list (list Z)) (p : cpath S) : option (future_t S) :=
  match p with [] => None | h :: _ => Some (filter (fun c => negb (inset c (support p))) all_cubes, h) end.

(** A defaultdict(list) filled by appending the items under their keys; the items in the order of the dict. *)
Definition group_by {A K} (keqb : K -> K -> bool) (kl : list (K * A)) : list (K * list A) :=
  fold_left (fun d ka => dset keqb d (fst ka) ((match dget keqb d (fst ka) with Some l => l | None => [] end) ++ [snd ka])) kl [].

Section Tree.
(** next_func, prev_func: (cube, state) -> [(delta, new_state), ...]; hash: the builtin hash of a future *)
Context {S : Type} (seqb : S -> S -> bool) (hash : future_t S -> Z) (dim div : nat).
(** _cube_path_trees.py:63-67  (part of) *)
Definition step_func : Type := list Z -> S -> option (list (list Z * S)).
Context (next_func : step_func) (prev_func : option step_func).

(** _cube_path_trees.py:90 *)
Definition all_cubes : list (list Z) := lprod_rep (zrange div) dim.
(** _cube_path_trees.py:98-113  [_continue_path]; cubeset is the support of the path *)
Definition zadd (a b : list Z) : list Z := map (fun p => (fst p + snd p)%Z) (combine a b).
(** _cube_path_trees.py:98-113  (part of) *)
Definition outside (c : list Z) : bool := existsb (fun n => (n <? 0)%Z || (Z.of_nat div <=? n)%Z) c.
(** _cube_path_trees.py:98-113  (part of) *)
Definition continue_path (func : step_func) (p : cpath S) (cubeset : list (list Z)) : option (list (cpath S)) :=
  match p with
  | [] => None
  | h :: _ =>
      option_map (fun l => flat_map (fun ds : list Z * S =>
          let new_cube := zadd (fst h) (fst ds) in
          if outside new_cube || inset new_cube cubeset then [] else [(new_cube, snd ds) :: p]) l)
        (func (fst h) (snd h))
  end.
(** _cube_path_trees.py:115-128  [_depth_search]: [todo] is a stack, its top is the head of the list here; the yielded paths are
    collected in a list; running out of fuel is None (P_PathTree.v: the loop ends). *)
Fixpoint depth_loop (fuel : nat) (len : nat) (todo : list (cpath S * list (list Z))) : option (list (cpath S)) :=
  match todo with
  | [] => Some []
  | (p, cubeset) :: todo' =>
      match fuel with
      | 0 => None
      | Datatypes.S fuel' =>
          if Nat.eqb (length p + 1) len then
            match continue_path next_func p cubeset, depth_loop fuel' len todo' with
            | Some l, Some r => Some (l ++ r)
            | _, _ => None
            end
          else if Nat.ltb (length p + 1) len then
            match continue_path next_func p cubeset with
            | Some l => depth_loop fuel' len (rev (map (fun q => (q, match q with h :: _ => fst h :: cubeset | [] => cubeset end)) l) ++ todo')
            | None => None
            end
          else depth_loop fuel' len todo'
      end
  end.
(** _cube_path_trees.py:115-128  (part of) *)
Definition depth_search (fuel : nat) (paths : list (cpath S)) (len : nat) : option (list (cpath S)) :=
  depth_loop fuel len (rev (map (fun p => (p, support p)) paths)).
(** _cube_path_trees.py:130-142  [_width_search]: one step; [inl]: the limit is exceeded *)
Definition over (max_count : option nat) (n : nat) : bool := match max_count with Some m => Nat.ltb m n | None => false end.
(** _cube_path_trees.py:130-142  (part of) *)
Fixpoint width_step (func : step_func) (max_count : option nat) (curr new : list (cpath S)) : option (unit + list (cpath S)) :=
  match curr with
  | [] => Some (inr new)
  | p :: curr' =>
      match continue_path func p (support p) with
      | None => None
      | Some l => let new' := new ++ l in
                  if over max_count (length new') then Some (inl tt) else width_step func max_count curr' new'
      end
  end.
(** _cube_path_trees.py:130-142  (part of) *)
Fixpoint width_search (func : step_func) (steps : nat) (max_count : option nat) (curr : list (cpath S)) : option (list (cpath S)) :=
  match steps with
  | 0 => Some curr
  | Datatypes.S steps' =>
      match width_step func max_count curr [] with
      | None => None
      | Some (inl _) => Some curr
      | Some (inr new) => width_search func steps' max_count new
      end
  end.
(** _cube_path_trees.py:198-208  [_group_paths_by_future] *)
Definition with_future (paths : list (cpath S)) : option (list (future_t S * cpath S)) :=
  omap (fun p => option_map (fun f => (f, p)) (future p)) paths.
(** _cube_path_trees.py:198-208  (part of) *)
Definition group_paths (paths : list (cpath S)) : option (list (list (cpath S))) :=
  option_map (fun fps => flat_map (fun hg => map snd (group_by (future_eqb seqb) (snd hg)))
                (group_by Z.eqb (map (fun fp => (hash (fst fp), fp)) fps))) (with_future paths).
(** _cube_path_trees.py:210-213  [_check_glue] *)
Definition check_glue (beg fin : cpath S) : bool :=
  match beg, fin with
  | h :: _, h' :: _ => node_eqb seqb h h' && negb (existsb (fun c => inset c (tail_support beg)) (tail_support fin))
  | _, _ => false
  end.
(** _cube_path_trees.py:215-220  [_glue_paths] *)
Definition glue_paths (start mid fin : cpath S) : list (list Z * S) :=
  flat start ++ skipn (length start) (flat mid) ++ tl (rev (flat fin)).
(** _cube_path_trees.py:188-196: the paths found from one group *)
Definition grow_group (fuel mid_length : nat) (by_hash : list (Z * list (cpath S))) (paths : list (cpath S)) : option (list (list (list Z * S))) :=
  match paths with
  | [] => None
  | p0 :: _ =>
      match depth_search fuel [p0] mid_length with
      | None => None
      | Some mids =>
          option_map (@concat _) (omap (fun mid =>
            match future mid with
            | None => None
            | Some f =>
                let fins := match dget Z.eqb by_hash (hash f) with Some l => l | None => [] end in
                Some (flat_map (fun fin => map (fun st => glue_paths st mid fin) paths) (filter (check_glue mid) fins))
            end) mids)
      end
  end.
(** _cube_path_trees.py:144-196  [grow]; the yielded paths are collected in a list. start_max_count is an int; finish_max_count may
    be None. [N**d // 2 - 1] is negative only for a grid of one cube; then range() is empty, as for 0. *)
Definition grow (fuel : nat) (start finish : list (list Z * S)) (start_max : nat) (finish_max : option nat) : option (list (list (list Z * S))) :=
  let total := div ^ dim in
  let max_steps := total / 2 - 1 in
  match width_search next_func max_steps (Some start_max) (map (fun x => [x]) start) with
  | None => None
  | Some [] => Some []
  | Some starts =>
      match match finish_max with
            | None => Some (map (fun x => [x]) finish)
            | Some m => match prev_func with
                        | None => None
                        | Some pf => width_search pf max_steps (Some m) (map (fun x => [x]) finish)
                        end
            end with
      | None => None
      | Some [] => Some []
      | Some ((f0 :: _) as fins) =>
          match omap (fun p => option_map (fun f => (hash f, p)) (complement_future all_cubes p)) fins, group_paths starts with
          | Some hps, Some groups =>
              option_map (@concat _) (omap (grow_group fuel (total - length f0 + 1) (group_by Z.eqb hps)) groups)
          | _, _ => None
          end
      end
  end.
End Tree.
