(** Specification vocabulary for subsets.py. *)
From Verif Require Import Py L_Qc M_BaseMaps M_Subsets S_BaseMaps S_Utils.
Local Open Scope nat_scope.

(** Python tuple order: x <= y iff the comparison is not Gt. *)
Definition pt_le (p q : list Qc) : Prop := pt_cmp p q <> Gt.
Definition pl_le (l m : plink) : Prop := pl_cmp l m <> Gt.

(** A facet set as documented in subsets.py:146-166: facet x_{coord} = value, and inside the facet the open
    sub-cube reached by the nested sequence of div-cubes. *)
Definition valid_facet (s : facet_set) : Prop :=
  1 <= fs_div s /\ fst (fs_facet s) < fs_dim s /\ (snd (fs_facet s) = 0%Z \/ snd (fs_facet s) = 1%Z) /\
  Forall (fun c => length c = fs_dim s - 1 /\ Forall (fun x => 0 <= x < Z.of_nat (fs_div s))%Z c) (fs_cubes s).
(** m-th coordinate inside the facet x_{fc} = const: the coordinate fc is left out *)
Definition facet_coord (fc : nat) (x : list Qc) (m : nat) : Qc := nth (if Nat.ltb m fc then m else S m) x 0%Qc.
(** y lies strictly inside the interval [v/N^n, (v+1)/N^n] addressed by the digits. *)
Definition open_interval (N : nat) (digits : list Z) (y : Qc) : Prop :=
  let v := value (Z.of_nat N) digits in let s := (Z.of_nat N ^ Z.of_nat (length digits))%Z in
  (Zq v < y * Zq s)%Qc /\ (y * Zq s < Zq v + 1)%Qc.
Definition in_facet (s : facet_set) (x : list Qc) : Prop :=
  length x = fs_dim s /\ nth (fst (fs_facet s)) x 0%Qc = Zq (snd (fs_facet s)) /\
  forall m, m < fs_dim s - 1 ->
    open_interval (fs_div s) (map (fun c => nth m c 0%Z) (fs_cubes s)) (facet_coord (fst (fs_facet s)) x m).
(** (x + cube) / div *)
Definition place_in (div : nat) (cube : list Z) (x y : list Qc) : Prop :=
  Forall2 (fun cx yj => (yj * Nq div = snd cx + Zq (fst cx))%Qc) (combine cube x) y /\ length cube = length x.

(** Links whose two subsets have dimension d. *)
Definition pl_dim (d : nat) (l : plink) : Prop := length (entrance l) = d /\ length (exit l) = d.
(** Links of two valid facet sets of dimension d. *)
Definition fl_dim (d : nat) (l : link facet_set) : Prop :=
  valid_facet (entrance l) /\ valid_facet (exit l) /\ fs_dim (entrance l) = d /\ fs_dim (exit l) = d.
(** A cube of the N-grid of dimension d. *)
Definition grid_cube (d N : nat) (c : list Z) : Prop := length c = d /\ Forall (fun z => 0 <= z < Z.of_nat N)%Z c.
(** No coordinate inside the facet lies on a wall of the div-grid. *)
Definition off_grid (s : facet_set) (y : list Qc) : Prop :=
  forall m z, m < fs_dim s - 1 -> (facet_coord (fst (fs_facet s)) y m * Nq (fs_div s) <> Zq z)%Qc.
