(** Model of /repo/peano/paths.py: prototypes and paths (definitions only). The text format of prototypes is in
    M_Text.v, the generator of paths in M_PathGen.v. *)
From Verif Require Export Py M_BaseMaps M_Subsets.
Local Open Scope nat_scope.

(** paths.py:22-38  [Proto]: a tuple of cubes, some of which may be None. *)
Record proto : Type := Pr { pr_dim : nat; pr_div : nat; pr_cubes : list (option (list Z)) }.

(** paths.py:40-46  [Proto.__rmul__] (the dimension check is in [pr_mul_checked]). *)
Definition pr_mul (b : base_map) (p : proto) : proto :=
  Pr (pr_dim p) (pr_div p)
     (map (option_map (apply_cube b (Z.of_nat (pr_div p)))) (if time_rev b then rev (pr_cubes p) else pr_cubes p)).
(** paths.py:42-43  the exception is None. *)
Definition pr_mul_checked (b : base_map) (p : proto) : option proto :=
  if Nat.eqb (bm_dim b) (pr_dim p) then Some (pr_mul b p) else None.

(** paths.py:48-50  [Proto.__invert__]. *)
Definition pr_inv (p : proto) : proto := Pr (pr_dim p) (pr_div p) (rev (pr_cubes p)).

(** Comparison of prototypes as tuples of tuples; [None] is not comparable in Python (TypeError), here it is least;
    the generator of paths never compares such prototypes. *)
Definition ocube_cmp (a b : option (list Z)) : comparison :=
  match a, b with
  | None, None => Eq | None, Some _ => Lt | Some _, None => Gt
  | Some x, Some y => lex Z.compare x y
  end.
(** paths.py:30-60  == of the entries of a Proto (a tuple or None) *)
Definition ocube_eqb (a b : option (list Z)) : bool :=
  match a, b with None, None => true | Some x, Some y => z_list_eqb x y | _, _ => false end.
(** paths.py:48-50  (part of) *)
Definition pr_cmp (p q : proto) : comparison := lex ocube_cmp (pr_cubes p) (pr_cubes q).
(** tuple equality: dim and div are attributes, not compared *)
Definition pr_eqb (p q : proto) : bool := list_eqb ocube_eqb (pr_cubes p) (pr_cubes q).

(** The methods of the Subset interface (subsets.py:10-65) used by paths. [so_mul], [so_std] are total: where the
    Python method raises (a facet of another dimension) the argument is returned. *)
Record subset_ops (T : Type) : Type := SO {
  so_eqb : T -> T -> bool;
  so_cmp : T -> T -> comparison;
  so_mul : base_map -> T -> T;
  so_std : T -> T;
  so_intersects : T -> T -> bool;
  so_map_to_cube : nat -> list Z -> T -> option T;
  so_shift : list Z -> T -> option T;
  so_neighbours : T -> list (list Z * T);
  so_divide : nat -> T -> option (list (list Z * T)) }.
Arguments so_eqb {T}. Arguments so_cmp {T}. Arguments so_mul {T}. Arguments so_std {T}. Arguments so_intersects {T}.
Arguments so_map_to_cube {T}. Arguments so_shift {T}. Arguments so_neighbours {T}. Arguments so_divide {T}.

(** subsets.py:68-143  the methods of Point. *)
Definition point_ops : subset_ops (list Qc) :=
  SO _ pt_eqb pt_cmp pt_mul pt_std pt_eqb (fun n c p => Some (pt_map_to_cube n c p))
     (fun sh p => Some (pt_shift (map Zq sh) p)) pt_neighbours (fun n p => Some (pt_divide n p)).
(** subsets.py:146-286  the methods of FacetDivSubset; [transform] is not implemented (NotImplementedError). *)
Definition facet_ops : subset_ops facet_set :=
  SO _ fs_eqb fs_cmp (fun b s => match fs_mul b s with Some r => r | None => s end)
     (fun s => match fs_std s with Some r => r | None => s end) fs_intersects fs_map_to_cube
     (fun _ _ => None) fs_neighbours fs_divide.

(** paths.py:103-119  [Path]; [pa_link] is the attribute computed by the constructor. *)
Record path (T : Type) : Type := Pa { pa_proto : proto; pa_links : list (link T); pa_link : link T }.
Arguments Pa {T}. Arguments pa_proto {T}. Arguments pa_links {T}. Arguments pa_link {T}.

Section Paths.
  Context {T : Type} (O : subset_ops T).
  (** [proto[i]] where the cube must not be None *)
  Definition pr_cube (p : proto) (i : Z) : option (list Z) :=
    match pyget (pr_cubes p) i with Some c => c | None => None end.
  (** paths.py:111-119  [Path.__init__]; any exception is None. *)
  Definition mk_path (p : proto) (links : list (link T)) : option (path T) :=
    match pyget links 0, pyget links (-1), pr_cube p 0, pr_cube p (-1) with
    | Some l0, Some l1, Some c0, Some c1 =>
        match so_map_to_cube O (pr_div p) c0 (entrance l0), so_map_to_cube O (pr_div p) c1 (exit l1) with
        | Some e, Some x => Some (Pa p links (Lk e x))
        | _, _ => None
        end
    | _, _, _, _ => None
    end.
  (** paths.py:121-124  [Path.__rmul__]. *)
  Definition pa_mul (b : base_map) (p : path T) : option (path T) :=
    mk_path (pr_mul b (pa_proto p))
            (map (lk_mul (so_mul O) b) (if time_rev b then rev (pa_links p) else pa_links p)).
  (** paths.py:126-127  [Path.__invert__]. *)
  Definition pa_inv (p : path T) : option (path T) := pa_mul (bm_rev (id_map (pr_dim (pa_proto p)))) p.

  (** paths.py:129-137  [_data], [__lt__], [__eq__]. *)
  Definition pa_cmp (p q : path T) : comparison :=
    lex2 (lk_cmp (so_cmp O)) (lex2 pr_cmp (lex (lk_cmp (so_cmp O))))
         (pa_link p, (pa_proto p, pa_links p)) (pa_link q, (pa_proto q, pa_links q)).
  (** paths.py:129-137  (part of) *)
  Definition pa_eqb (p q : path T) : bool :=
    lk_eqb (so_eqb O) (pa_link p) (pa_link q) && pr_eqb (pa_proto p) (pa_proto q) &&
    list_eqb (lk_eqb (so_eqb O)) (pa_links p) (pa_links q).

  (** paths.py:142-159  [Path.is_continuous]; the loop over zip(proto[1:], links[1:]); any exception is None. *)
  Fixpoint continuous_loop (prev_cube : option (list Z)) (prev_link : link T)
      (rest : list (option (list Z) * link T)) : option bool :=
    match rest with
    | [] => Some true
    | (cube, lk) :: rest' =>
        match cube, prev_cube with
        | Some c, Some pc =>
            match so_shift O (map (fun cp => (fst cp - snd cp)%Z) (combine c pc)) (entrance lk) with
            | Some e => if so_intersects O (exit prev_link) e then continuous_loop cube lk rest' else Some false
            | None => None
            end
        | _, _ => None
        end
    end.
  (** paths.py:142-159  (part of) *)
  Definition pa_is_continuous (p : path T) : option bool :=
    match pr_cubes (pa_proto p), pa_links p with
    | c0 :: cs, l0 :: ls => continuous_loop c0 l0 (combine cs ls)
    | _, _ => None
    end.
End Paths.
