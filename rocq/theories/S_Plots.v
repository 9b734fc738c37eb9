(** What a plot of a curve should show. *)
From Verif Require Import Py L_Qc M_BaseMaps M_Subsets M_Paths M_Curves M_Plots.
Local Open Scope nat_scope.

(** The centre of the cube q of the grid of division N. *)
Definition centre (N : nat) (q : list Z) : list Qc := map (fun z => ((Zq z + half) / Nq N)%Qc) q.
(** The arguments of ax.plot for a polyline in dimension d: the lists of first coordinates, second coordinates, ... *)
Definition columns_of (d : nat) (pts : list (list Qc)) : list (list Qc) := map (fun j => map (fun x => nth j x 0%Qc) pts) (seq 0 d).
Definition midpoint (a b : list Qc) : list Qc := map (fun ab => ((fst ab + snd ab) / Zq 2)%Qc) (combine a b).
(** An arrow head at the end of the segment from a to b: two legs from b, symmetric about the segment, one fifth of it long. *)
Definition dot (u v : list Qc) : Qc := fold_right Qcplus 0%Qc (map (fun uv => (fst uv * snd uv)%Qc) (combine u v)).
Definition minus (u v : list Qc) : list Qc := map (fun uv => (fst uv - snd uv)%Qc) (combine u v).
Definition is_arrow (a b : list Qc) (pts : list (list Qc)) : Prop :=
  exists l1 l2, pts = [l1; b; l2; b] /\ length l1 = length b /\ length l2 = length b /\ l1 <> l2 /\
    (forall j, j < length b -> (nth j b 0 - (nth j l1 0 + nth j l2 0) / Zq 2 = (nth j b 0 - nth j a 0) / Zq 5)%Qc) /\
    dot (minus l1 l2) (minus b a) = 0%Qc.
(** The lines of one kind on the axes ax, in the order of drawing, each with the number of the pattern that gives its colour. *)
Definition details (ax : nat) (ds : list draw) : list (nat * list (list Qc)) :=
  flat_map (fun d => match d with DPlot a (LDetail q) cols => if Nat.eqb a ax then [(q, cols)] else [] | _ => [] end) ds.
Definition connectors (ax : nat) (ds : list draw) : list (nat * list (list Qc)) :=
  flat_map (fun d => match d with DPlot a (LConnect q) cols => if Nat.eqb a ax then [(q, cols)] else [] | _ => [] end) ds.
Definition proto_lines (ax : nat) (ds : list draw) : list (nat * list (list Qc)) :=
  flat_map (fun d => match d with DPlot a (LProto q) cols => if Nat.eqb a ax then [(q, cols)] else [] | _ => [] end) ds.
Definition labels (ax : nat) (ds : list draw) : list (list Z * nat * bool) :=
  flat_map (fun d => match d with DText a q n b => if Nat.eqb a ax then [(q, n, b)] else [] | _ => [] end) ds.
(** The cubes and specs of a pattern (all known in a curve). *)
Definition cubes_of (pat : pattern) : list (list Z) := flat_map (fun c => match c with Some q => [q] | None => [] end) (pr_cubes (pat_proto pat)).
Definition specs_of (pat : pattern) : list spec := flat_map (fun s => match s with Some s => [s] | None => [] end) (pat_specs pat).
(** The plot of pattern p (pat) on its axes; fine: the same pattern of the subdivision that is shown. *)
Record shows (d : nat) (c : curve) (pat : pattern) (fine_div : nat) (fine : pattern) (p glob detail : nat) (ds : list draw) : Prop := Shows {
  (* the detail lines, one for each fraction and in its colour, run through the centres of all cubes of the subdivision in the order of time *)
  sh_details : exists lines arrow a b,
    concat lines = map (centre fine_div) (cubes_of fine) /\ length lines = cv_genus c /\
    Forall (fun l => length l * cv_genus c = length (cubes_of fine)) lines /\
    (exists pre, concat lines = pre ++ [a; b]) /\ is_arrow a b arrow /\
    details detail ds = map (fun i => (sp_pnum (nth i (specs_of pat) (Sp (id_map d) 0)),
                                       columns_of d (nth i lines [] ++ (if Nat.eqb (S i) (cv_genus c) then arrow else [])))) (seq 0 (cv_genus c)) /\
    (* the connecting lines join them, half in each colour *)
    connectors detail ds = flat_map (fun i =>
      let x := List.last (nth i lines []) [] in let y := hd [] (nth (S i) lines []) in
      [(sp_pnum (nth i (specs_of pat) (Sp (id_map d) 0)), columns_of d [x; midpoint x y]);
       (sp_pnum (nth (S i) (specs_of pat) (Sp (id_map d) 0)), columns_of d [midpoint x y; y])]) (seq 0 (cv_genus c - 1));
  (* the prototype: one line through the centres of its cubes *)
  sh_proto : exists arrow a b, (exists pre, map (centre (cv_div c)) (cubes_of pat) = pre ++ [a; b]) /\ is_arrow a b arrow /\
    proto_lines glob ds = [(p, columns_of d (map (centre (cv_div c)) (cubes_of pat) ++ arrow))];
  (* the names of the patterns of the fractions, if there are several patterns *)
  sh_labels : labels glob ds = if Nat.ltb 1 (cv_mult c) then map (fun qs => (fst qs, sp_pnum (snd qs), time_rev (sp_bm (snd qs)))) (combine (cubes_of pat) (specs_of pat)) else [] }.
