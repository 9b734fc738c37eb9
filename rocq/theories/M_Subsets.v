(** Model of /repo/peano/subsets.py (definitions only). *)
From Verif Require Export Py M_BaseMaps L_Qc.
Local Open Scope nat_scope.

(** subsets.py:68-143  [Point]: a tuple of Fractions. *)
Notation point := (list Qc) (only parsing).

(** Tuple comparison of points (Python tuple ordering). *)
Definition pt_cmp : list Qc -> list Qc -> comparison := lex Qccompare.
(** subsets.py:68-73  == of points (tuples) *)
Definition pt_eqb : list Qc -> list Qc -> bool := list_eqb qc_eqb.

(** subsets.py:78-89  [Point.transform], with the optional scale and shift. The loop reads shift[j] for every
    coordinate: IndexError if the shift is too short (read with a default here; callers pass equal lengths). *)
Definition pt_scale (s : Qc) (p : list Qc) : list Qc := map (fun x => (x * s)%Qc) p.
(** subsets.py:78-89  (part of) *)
Definition pt_shift (sh : list Qc) (p : list Qc) : list Qc :=
  map (fun jx => (snd jx + nth (fst jx) sh 0)%Qc) (enumerate p).

(** subsets.py:91-92  [Point.map_to_cube]; div >= 1 (Fraction(1, 0) raises). *)
Definition pt_map_to_cube (div : nat) (cube : list Z) (p : list Qc) : list Qc :=
  pt_scale (/ Nq div)%Qc (pt_shift (map Zq cube) p).

(** subsets.py:110-117  [_gen_integer_cubes]; numerator and denominator are those of the reduced fraction. *)
Definition int_range (x : Qc) : list Z :=
  let n := Qnum (this x) in let d := Zpos (Qden (this x)) in
  let r := (n / d)%Z in
  if (n mod d =? 0)%Z then [(r - 1)%Z; r] else [r].
(** subsets.py:110-117  (part of) *)
Definition gen_integer_cubes (p : list Qc) : list (list Z) := lprod (map int_range p).

(** subsets.py:97-101  [Point.gen_neighbours]. *)
Definition pt_neighbours (p : list Qc) : list (list Z * list Qc) :=
  flat_map (fun cube => if forallb (fun c => (c =? 0)%Z) cube then []
                        else [(cube, pt_shift (map (fun c => Zq (- c)) cube) p)])
           (gen_integer_cubes p).

(** subsets.py:103-108  [Point.divide]. *)
Definition pt_divide (div : nat) (p : list Qc) : list (list Z * list Qc) :=
  let scaled := pt_scale (Nq div) p in
  flat_map (fun cube => if existsb (fun c => (c <? 0)%Z || (Z.of_nat div <=? c)%Z) cube then []
                        else [(cube, pt_shift (map (fun c => Zq (- c)) cube) scaled)])
           (gen_integer_cubes scaled).

(** subsets.py:119-121  [Point.__rmul__]. *)
Definition pt_mul (b : base_map) (p : list Qc) : list Qc := apply_x b 1%Qc p.

(** subsets.py:132-137  [Point.std]. *)
Definition half : Qc := Q2Qc (1 # 2).
(** <= of Fractions (Python builtin), used by subsets.py:132-137 *)
Definition qc_leb (x y : Qc) : bool := match Qccompare x y with Gt => false | _ => true end.
(** subsets.py:132-137  (part of) *)
Definition pt_std (p : list Qc) : list Qc :=
  sorted Qccompare (map (fun x => if qc_leb x half then x else (1 - x)%Qc) p).

(** subsets.py:139-140  [Point.argstd]. *)
Definition pt_argstd (p : list Qc) : list base_map := gen_constraint_fast p (pt_std p).

(** subsets.py:142-143  [Point.face_dim]. *)
Definition face_dim (p : list Qc) : nat :=
  length (filter (fun x => negb (qc_eqb x 0%Qc) && negb (qc_eqb x 1%Qc)) p).

(** subsets.py:146-171  [FacetDivSubset]; [facet] is the pair (coord, value), value 0 or 1. *)
Record facet_set : Type := FS { fs_dim : nat; fs_div : nat; fs_facet : nat * Z; fs_cubes : list (list Z) }.

(** == of tuples of ints (Python builtin), used by subsets.py:188-199 *)
Definition z_list_eqb : list Z -> list Z -> bool := list_eqb Z.eqb.
(** == of pairs (Python builtin), used by subsets.py:188-199 *)
Definition facet_eqb (f g : nat * Z) : bool := Nat.eqb (fst f) (fst g) && Z.eqb (snd f) (snd g).
(** subsets.py:188-199  [_data], [__eq__], [__lt__]: comparison of (dim, div, facet, cubes). *)
Definition fs_eqb (s t : facet_set) : bool :=
  Nat.eqb (fs_dim s) (fs_dim t) && Nat.eqb (fs_div s) (fs_div t) && facet_eqb (fs_facet s) (fs_facet t) &&
  list_eqb z_list_eqb (fs_cubes s) (fs_cubes t).
(** subsets.py:188-199  (part of) *)
Definition fs_cmp (s t : facet_set) : comparison :=
  lex2 Nat.compare (lex2 Nat.compare (lex2 (lex2 Nat.compare Z.compare) (lex (lex Z.compare))))
    (fs_dim s, (fs_div s, (fs_facet s, fs_cubes s))) (fs_dim t, (fs_div t, (fs_facet t, fs_cubes t))).

(** subsets.py:173-178  [FacetDivSubset.intersects]. *)
Definition fs_intersects (s t : facet_set) : bool :=
  facet_eqb (fs_facet s) (fs_facet t) &&
  negb (existsb (fun cc => negb (z_list_eqb (fst cc) (snd cc))) (combine (fs_cubes s) (fs_cubes t))).

(** subsets.py:201-205  [_map_facet]; [None]: the loop finds no coordinate (Python returns None). *)
Definition fs_map_facet (s : facet_set) (b : base_map) : option (nat * Z) :=
  match find (fun jkb => Nat.eqb (fst (snd jkb)) (fst (fs_facet s))) (enumerate (coords b)) with
  | Some (j, (_, f)) => Some (j, if f then (1 - snd (fs_facet s))%Z else snd (fs_facet s))
  | None => None
  end.
(** subsets.py:207-208  [_abs_to_facet]. *)
Definition abs_to_facet (fc j : nat) : nat := if Nat.ltb j fc then j else j - 1.
(** subsets.py:210-228  [FacetDivSubset.__rmul__]; the dimension assertion and a missing facet give None. *)
Definition fs_facet_map (s : facet_set) (b : base_map) (nf : nat) : base_map :=
  BM (flat_map (fun j => if Nat.eqb j nf then []
                         else let kb := nth j (coords b) (0, false) in
                              [(abs_to_facet (fst (fs_facet s)) (fst kb), snd kb)])
               (range (fs_dim s))) false.
(** subsets.py:210-228  (part of) *)
Definition fs_mul (b : base_map) (s : facet_set) : option facet_set :=
  if Nat.eqb (fs_dim s) (bm_dim b) then
    match fs_map_facet s b with
    | Some nf => Some (FS (fs_dim s) (fs_div s) nf
                          (map (apply_cube (fs_facet_map s b (fst nf)) (Z.of_nat (fs_div s))) (fs_cubes s)))
    | None => None
    end
  else None.

(** subsets.py:246-250  [FacetDivSubset.map_to_cube]; AssertionError is None. *)
Definition fs_edge (s : facet_set) (div : nat) : Z := if (snd (fs_facet s) =? 0)%Z then 0%Z else (Z.of_nat div - 1)%Z.
(** subsets.py:246-250  (part of) *)
Definition fs_map_to_cube (div : nat) (cube : list Z) (s : facet_set) : option facet_set :=
  if Nat.eqb div (fs_div s) then
    match nth_error cube (fst (fs_facet s)) with
    | Some c => if (c =? fs_edge s div)%Z then
                  Some (FS (fs_dim s) (fs_div s) (fs_facet s)
                    (flat_map (fun c => if Nat.eqb c (fst (fs_facet s)) then [] else [nth c cube 0%Z]) (range (fs_dim s))
                     :: fs_cubes s))
                else None
    | None => None
    end
  else None.

(** subsets.py:252-260  [FacetDivSubset.gen_neighbours]. *)
Definition fs_neighbours (s : facet_set) : list (list Z * facet_set) :=
  let fc := fst (fs_facet s) in
  let dn := if (snd (fs_facet s) =? 0)%Z then ((-1)%Z, 1%Z) else (1%Z, 0%Z) in
  [(map (fun j => if negb (Nat.eqb j fc) then 0%Z else fst dn) (range (fs_dim s)),
    FS (fs_dim s) (fs_div s) (fc, snd dn) (fs_cubes s))].

(** subsets.py:262-278  [FacetDivSubset.divide]; AssertionError is None. *)
Definition fs_divide (div : nat) (s : facet_set) : option (list (list Z * facet_set)) :=
  if Nat.eqb div (fs_div s) then
    let '(facet_cubes, new_set) :=
      match fs_cubes s with
      | c :: cs => ([c], FS (fs_dim s) div (fs_facet s) cs)
      | [] => (lprod_rep (zrange div) (fs_dim s - 1), s)
      end in
    Some (map (fun fcube =>
      (map (fun j => if Nat.eqb j (fst (fs_facet s)) then fs_edge s div
                     else nth (abs_to_facet (fst (fs_facet s)) j) fcube 0%Z) (range (fs_dim s)), new_set)) facet_cubes)
  else None.

(** subsets.py:288-305  [Link]: entrance and exit subsets. *)
Record link (S : Type) : Type := Lk { entrance : S; exit : S }.
Arguments Lk {S}. Arguments entrance {S}. Arguments exit {S}.

Section LinkOps.
  Context {S : Type}.
  (** subsets.py:307-311  [__lt__], [__eq__] *)
  Definition lk_cmp (cmp : S -> S -> comparison) (a b : link S) : comparison :=
    lex2 cmp cmp (entrance a, exit a) (entrance b, exit b).
  (** subsets.py:307-311  (part of) *)
  Definition lk_eqb (eqb : S -> S -> bool) (a b : link S) : bool :=
    eqb (entrance a) (entrance b) && eqb (exit a) (exit b).
  (** subsets.py:316-320  [__rmul__] *)
  Definition lk_mul (mul : base_map -> S -> S) (b : base_map) (l : link S) : link S :=
    let ne := mul b (entrance l) in let nx := mul b (exit l) in
    if time_rev b then Lk nx ne else Lk ne nx.
  (** subsets.py:349-350  [__invert__] *)
  Definition lk_inv (l : link S) : link S := Lk (exit l) (entrance l).
  (** subsets.py:355-356  [intersects] *)
  Definition lk_intersects (inter : S -> S -> bool) (a b : link S) : bool :=
    inter (entrance a) (entrance b) && inter (exit a) (exit b).
End LinkOps.

(** Links between points. *)
Definition plink := link (list Qc).
(** subsets.py:316-320  [Link.__rmul__] for points *)
Definition pl_mul : base_map -> plink -> plink := lk_mul pt_mul.
(** subsets.py:307-311  comparison of links of points *)
Definition pl_cmp : plink -> plink -> comparison := lk_cmp pt_cmp.
(** subsets.py:307-311  == of links of points *)
Definition pl_eqb : plink -> plink -> bool := lk_eqb pt_eqb.

(** subsets.py:328-347  [Link.std] for points; [min] of an empty iterable (ValueError) is None. *)
Definition pl_std (l : plink) : option plink :=
  let entr := entrance l in let ex := exit l in
  let std1 := pt_std entr in let std2 := pt_std ex in
  match pt_cmp std1 std2 with
  | Lt => option_map (Lk std1) (min_list pt_cmp (map (fun b => pt_mul b ex) (pt_argstd entr)))
  | Gt => option_map (Lk std2) (min_list pt_cmp (map (fun b => pt_mul b entr) (pt_argstd ex)))
  | Eq => match min_list pt_cmp (map (fun b => pt_mul b ex) (pt_argstd entr)),
                min_list pt_cmp (map (fun b => pt_mul b entr) (pt_argstd ex)) with
          | Some o1, Some o2 => Some (Lk std1 (min_of pt_cmp o1 [o2]))
          | _, _ => None
          end
  end.

(** subsets.py:56-62, 236-244  [argmul_intersect] of subsets, over the given base maps.
    For facets line 241 skips maps whose image facet differs; [bm * self] raising is None there. *)
Definition pt_argmul (bms : list base_map) (p q : list Qc) : list base_map :=
  filter (fun b => pt_eqb (pt_mul b p) q) bms.
(** == of optional facets (Python builtin), used by subsets.py:236-244 *)
Definition ofacet_eqb (f : option (nat * Z)) (g : nat * Z) : bool :=
  match f with Some f => facet_eqb f g | None => false end.
(** subsets.py:56-62, 236-244  (part of) *)
Definition fs_argmul (bms : list base_map) (s t : facet_set) : list base_map :=
  filter (fun b => ofacet_eqb (fs_map_facet s b) (fs_facet t) &&
                   match fs_mul b s with Some s' => fs_intersects s' t | None => false end) bms.

(** subsets.py:358-364  [Link.argmul_intersect]; [argmul] is the method of the subset class, [all] the default
    list of base maps. *)
Definition lk_argmul {S} (argmul : list base_map -> S -> S -> list base_map) (all : list base_map) (l m : link S)
  : list base_map :=
  argmul (argmul all (entrance l) (entrance m)) (exit l) (exit m) ++
  map bm_rev (argmul (argmul all (entrance l) (exit m)) (exit l) (entrance m)).
(** subsets.py:358-364  (part of) *)
Definition pl_argmul (l m : plink) : list base_map :=
  lk_argmul pt_argmul (gen_base_maps (length (entrance l)) (Some false)) l m.
(** subsets.py:358-364  (part of) *)
Definition fl_argmul (l m : link facet_set) : list base_map :=
  lk_argmul fs_argmul (gen_base_maps (fs_dim (entrance l)) (Some false)) l m.

(** subsets.py:328-331  [Link.std] for facets; the products are assumed defined (equal dimensions). *)
Definition fl_mul (b : base_map) (l : link facet_set) : option (link facet_set) :=
  match fs_mul b (entrance l), fs_mul b (exit l) with
  | Some ne, Some nx => Some (if time_rev b then Lk nx ne else Lk ne nx)
  | _, _ => None
  end.
(** subsets.py:328-331  (part of) *)
Definition fl_std (l : link facet_set) : option (link facet_set) :=
  match omap (fun b => fl_mul b l) (gen_base_maps (fs_dim (entrance l)) None) with
  | Some ls => min_list (lk_cmp fs_cmp) ls
  | None => None
  end.
(** subsets.py:52-54  [Subset.std] used for facets. *)
Definition fs_std (s : facet_set) : option facet_set :=
  match omap (fun b => fs_mul b s) (gen_base_maps (fs_dim s) (Some false)) with
  | Some ls => min_list fs_cmp ls
  | None => None
  end.
