(** Property theorems C09-C12 (subsets.py). Nothing else is in this file. *)
From Verif Require Import Py L_Py L_Qc M_BaseMaps S_BaseMaps L_BaseMaps M_Subsets S_Utils S_Subsets P_Subsets P_Points P_Facets P_Argmul.
Local Open Scope nat_scope.

(** C09: Point.std is the smallest image of the point under the cube isometries. *)
Theorem C09_point_std : forall p, 
  (exists b, wf_bm (length p) b /\ time_rev b = false /\ pt_mul b p = pt_std p) /\
  (forall b, wf_bm (length p) b -> pt_le (pt_std p) (pt_mul b p)) /\
  pt_std (pt_std p) = pt_std p.
Proof.
  exact (fun p => conj (pt_std_image p) (conj (fun b Hb => pt_std_min (length p) b p Hb eq_refl) (pt_std_idem p))).
Qed.
Print Assumptions C09_point_std.
Theorem C09_point_orbit : forall d p q, length p = d -> length q = d ->
  (pt_std p = pt_std q <-> exists b, wf_bm d b /\ time_rev b = false /\ pt_mul b p = q).
Proof. exact pt_std_orbit. Qed.
Print Assumptions C09_point_orbit.

(** C09: Link.std of a point link (the optimised code) is the smallest image under all base maps. *)
Theorem C09_link_std : forall d l, pl_dim d l -> exists m, pl_std l = Some m /\
  (exists b, wf_bm d b /\ pl_mul b l = m) /\ (forall b, wf_bm d b -> pl_le m (pl_mul b l)) /\ pl_std m = Some m.
Proof.
  intros d l Hl. destruct (pl_std_spec d l Hl) as (m & E & H1 & H2).
  exact (ex_intro _ m (conj E (conj H1 (conj H2 (pl_std_idem d l m Hl E))))).
Qed.
Print Assumptions C09_link_std.
Theorem C09_link_orbit : forall d l l', pl_dim d l -> pl_dim d l' ->
  (pl_std l = pl_std l' <-> exists b, wf_bm d b /\ pl_mul b l = l').
Proof. exact pl_std_orbit. Qed.
Print Assumptions C09_link_orbit.

(** C09 for facet subsets and facet links (the general code of Subset.std and Link.std). *)
Theorem C09_facet_std : forall s, valid_facet s -> exists m, fs_std s = Some m /\
  (exists b, wf_bm (fs_dim s) b /\ time_rev b = false /\ fs_mul b s = Some m) /\
  (forall b s', wf_bm (fs_dim s) b -> fs_mul b s = Some s' -> fs_cmp m s' <> Gt).
Proof. exact fs_std_spec. Qed.
Print Assumptions C09_facet_std.
Theorem C09_facet_link_std : forall d l, fl_dim d l -> exists m, fl_std l = Some m /\
  (exists b, wf_bm d b /\ fl_mul b l = Some m) /\
  (forall b l', wf_bm d b -> fl_mul b l = Some l' -> lk_cmp fs_cmp m l' <> Gt).
Proof. exact fl_std_spec. Qed.
Print Assumptions C09_facet_link_std.
Theorem C09_facet_link_orbit : forall d l l', fl_dim d l -> fl_dim d l' ->
  (fl_std l = fl_std l' <-> exists b, wf_bm d b /\ fl_mul b l = Some l').
Proof. exact fl_std_orbit. Qed.
Print Assumptions C09_facet_link_orbit.
Example C09_example :
  let q (a b : nat) := (Nq a / Nq b)%Qc in
  let l := Lk [1%Qc; q 1 3; q 1 2] [q 2 3; 0%Qc; 1%Qc] in
  pl_dim 3 l /\ match pl_std l with Some m => pl_eqb m (Lk [0%Qc; 0%Qc; q 1 3] [q 1 3; q 1 2; 0%Qc]) | None => false end = true /\
  pt_eqb (pt_std (entrance l)) [0%Qc; q 1 3; q 1 2] = true.
Proof. vm_compute. repeat split. Qed.

(** C10: Point.divide yields exactly the grid cubes that contain the point, each once, with relative positions. *)
Theorem C10_divide : forall div p, 1 <= div ->
  NoDup (map fst (pt_divide div p)) /\
  forall c q, In (c, q) (pt_divide div p) <->
    Forall (fun z => 0 <= z < Z.of_nat div)%Z c /\ in_cube (Z.of_nat div) c p /\ place_in div c q p.
Proof. exact pt_divide_exact. Qed.
Print Assumptions C10_divide.
(** C10: the relative position lies in the unit cube exactly when the point lies in the grid cube. *)
Theorem C10_relative_position : forall div c q p, 1 <= div -> place_in div c q p ->
  (in_cube (Z.of_nat div) c p <-> in_cube01 1 q).
Proof. exact (fun div c q p H => place_in_cube div H c q p). Qed.
Print Assumptions C10_relative_position.
Theorem C10_neighbours : forall p,
  NoDup (map fst (pt_neighbours p)) /\
  forall c q, In (c, q) (pt_neighbours p) <->
    ~ Forall (fun z => z = 0%Z) c /\ in_cube 1 c p /\ place_in 1 c q p.
Proof. exact pt_neighbours_exact. Qed.
Print Assumptions C10_neighbours.
(** C10: map_to_cube is inverse to divide. *)
Theorem C10_map_to_cube : forall div c q p, 1 <= div -> length c = length q ->
  (pt_map_to_cube div c q = p <-> place_in div c q p).
Proof. exact (fun div c q p H HL => pt_map_to_cube_exact div H c q HL p). Qed.
Print Assumptions C10_map_to_cube.
Example C10_example :
  let q (a b : nat) := (Nq a / Nq b)%Qc in
  map fst (pt_divide 2 [q 1 2; q 1 3]) = [[0; 0]; [1; 0]]%Z /\
  map fst (pt_neighbours [1%Qc; 0%Qc]) = [[0; -1]; [1; -1]; [1; 0]]%Z.
Proof. vm_compute. split; reflexivity. Qed.

(** C11: intersects decides whether the two point sets have a common point; the sets are nested or disjoint. *)
Theorem C11_intersects : forall s t, valid_facet s -> valid_facet t -> fs_dim s = fs_dim t -> fs_div s = fs_div t ->
  (fs_intersects s t = true <-> exists x, in_facet s x /\ in_facet t x).
Proof. exact fs_intersects_exact. Qed.
Print Assumptions C11_intersects.
Theorem C11_nested_or_disjoint : forall s t, valid_facet s -> valid_facet t -> fs_dim s = fs_dim t -> fs_div s = fs_div t ->
  (forall x, in_facet s x -> in_facet t x) \/ (forall x, in_facet t x -> in_facet s x) \/
  (forall x, in_facet s x -> in_facet t x -> False).
Proof.
  intros s t Hs Ht Hd Hn. destruct (fs_intersects s t) eqn:E.
  - destruct (intersects_nested s t Hs Ht Hd Hn E) as [H|H]; [left|right; left]; exact H.
  - right; right. intros x H1 H2. rewrite (common_point_intersects s t x Hs Ht Hd Hn H1 H2) in E. discriminate.
Qed.
Print Assumptions C11_nested_or_disjoint.
Theorem C11_nonempty : forall s, valid_facet s -> exists x, in_facet s x.
Proof. exact in_facet_exists. Qed.
Print Assumptions C11_nonempty.
(** C11: b * s is the image of s; products act as a group. *)
Theorem C11_image : forall d b s, wf_bm d b -> valid_facet s -> fs_dim s = d ->
  exists s', fs_mul b s = Some s' /\ valid_facet s' /\ fs_dim s' = d /\ fs_div s' = fs_div s /\
    length (fs_cubes s') = length (fs_cubes s) /\
    forall x, length x = d -> (in_facet s' (pt_mul b x) <-> in_facet s x).
Proof. exact fs_mul_spec. Qed.
Print Assumptions C11_image.
Theorem C11_group_action : forall d a b s s', wf_bm d a -> wf_bm d b -> valid_facet s -> fs_dim s = d ->
  fs_mul b s = Some s' -> fs_mul (bm_mul a b) s = fs_mul a s' /\ fs_mul (id_map d) s = Some s.
Proof. intros d a b s s' Ha Hb HV Hd E. exact (conj (fs_mul_mul d a b s s' Ha Hb HV Hd E) (fs_mul_id d s HV Hd)). Qed.
Print Assumptions C11_group_action.
(** C11: map_to_cube puts the set into the sub-cube (and asserts that the sub-cube touches the facet). *)
Theorem C11_map_to_cube : forall s cube, valid_facet s -> grid_cube (fs_dim s) (fs_div s) cube ->
  match fs_map_to_cube (fs_div s) cube s with
  | Some s' => nth (fst (fs_facet s)) cube 0%Z = fs_edge s (fs_div s) /\
      valid_facet s' /\ fs_dim s' = fs_dim s /\ fs_div s' = fs_div s /\
      forall x y, place_in (fs_div s) cube x y -> (in_facet s' y <-> in_facet s x)
  | None => nth (fst (fs_facet s)) cube 0%Z <> fs_edge s (fs_div s)
  end.
Proof. exact fs_map_to_cube_spec. Qed.
Print Assumptions C11_map_to_cube.
(** C11: divide yields, in distinct cubes, fractions whose union is the set (less the walls of the grid if the set
    is a whole facet). *)
Theorem C11_divide : forall s, valid_facet s -> exists l, fs_divide (fs_div s) s = Some l /\ NoDup (map fst l) /\
  (forall c s', In (c, s') l -> grid_cube (fs_dim s) (fs_div s) c /\ valid_facet s' /\ fs_dim s' = fs_dim s /\ fs_div s' = fs_div s) /\
  forall y, (exists c s' x, In (c, s') l /\ place_in (fs_div s) c x y /\ in_facet s' x) <->
            in_facet s y /\ (fs_cubes s = [] -> off_grid s y).
Proof. exact fs_divide_spec. Qed.
Print Assumptions C11_divide.
(** C11: gen_neighbours yields the only other unit cube that meets the set, with the portion there. *)
Theorem C11_neighbours : forall s, valid_facet s -> exists c s', fs_neighbours s = [(c, s')] /\
  length c = fs_dim s /\ ~ Forall (fun z => z = 0%Z) c /\ valid_facet s' /\ fs_dim s' = fs_dim s /\ fs_div s' = fs_div s /\
  (forall x y, place_in 1 c x y -> (in_facet s y <-> in_facet s' x)) /\
  (forall c' y, in_facet s y -> in_cube 1 c' y -> ~ Forall (fun z => z = 0%Z) c' -> c' = c).
Proof. exact fs_neighbours_spec. Qed.
Print Assumptions C11_neighbours.
Example C11_example :
  let s := FS 3 3 (2, 1%Z) [[0; 1]; [2; 2]]%Z in
  let b := BM [(2, true); (0, false); (1, true)] false in
  valid_facet s /\ wf_bm 3 b /\ fs_mul b s = Some (FS 3 3 (0, 0%Z) [[0; 1]; [2; 0]]%Z) /\
  fs_intersects s (FS 3 3 (2, 1%Z) [[0; 1]]%Z) = true.
Proof.
  cbn zeta. split; [|split; [|split]].
  - split; [cbn; lia|]. split; [cbn; lia|]. split; [cbn; auto|]. cbn. repeat constructor; lia.
  - apply wf_bmb_ok; reflexivity.
  - reflexivity.
  - reflexivity.
Qed.

(** C12: argmul_intersect yields exactly the base maps b with (b * self) intersecting other, each once. *)
Theorem C12_point_links : forall d (l m : plink), length (entrance l) = d ->
  NoDup (pl_argmul l m) /\
  forall b, In b (pl_argmul l m) <-> wf_bm d b /\ lk_intersects pt_eqb (pl_mul b l) m = true.
Proof. exact pl_argmul_exact. Qed.
Print Assumptions C12_point_links.
Theorem C12_facet_links : forall d (l m : link facet_set), fl_dim d l ->
  NoDup (fl_argmul l m) /\
  forall b, In b (fl_argmul l m) <-> wf_bm d b /\ exists l', fl_mul b l = Some l' /\ lk_intersects fs_intersects l' m = true.
Proof. exact fl_argmul_exact. Qed.
Print Assumptions C12_facet_links.
Example C12_example :
  let z := 0%Qc in let o := 1%Qc in
  let l := Lk [z; z] [o; z] in
  pl_argmul l (Lk [o; o] [o; z]) = [BM [(1, true); (0, true)] false; BM [(1, true); (0, false)] true] /\
  length (fl_argmul (Lk (FS 2 2 (0, 0%Z) []) (FS 2 2 (1, 1%Z) [[0%Z]])) (Lk (FS 2 2 (1, 0%Z) [[1%Z]]) (FS 2 2 (0, 0%Z) []))) = 1.
Proof. vm_compute. split; reflexivity. Qed.
