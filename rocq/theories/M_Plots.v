(** Model of /repo/plots.py: the lines and texts that plot_curve draws.  Floats are exact rationals here; the calls that set up the figure
    (ticks, titles, aspect, savefig) are left out. *)
From Verif Require Import Py M_BaseMaps M_Subsets M_Paths M_Curves.
Local Open Scope nat_scope.

(** plots.py:136-141  [_get_proto_center_line]; iterating over None raises TypeError *)
Definition center_line (p : proto) : option (list (list Qc)) :=
  omap (option_map (map (fun c => ((Zq c + half) / Nq (pr_div p))%Qc))) (pr_cubes p).
(** plots.py:132-133  [_get_abs_point] *)
Definition abs_point (point : list Qc) (shift : list Z) (scale : Qc) : list Qc :=
  map (fun ps => ((fst ps + Zq (snd ps)) * scale)%Qc) (combine point shift).
(** plots.py:114-121  [get_arr]: the head of an arrow; delta[1], delta[2] may raise IndexError *)
Definition get_arr (prev curr : list Qc) : option (list (list Qc)) :=
  let delta := map (fun pc => ((snd pc - fst pc) / Zq 5)%Qc) (combine prev curr) in
  match nth_error delta 0, nth_error delta 1 with
  | Some d0, Some d1 =>
      let orth := [d1; (- d0)%Qc; 0%Qc] in
      match (if list_eqb qc_eqb orth [0%Qc; 0%Qc; 0%Qc] then match nth_error delta 2 with Some d2 => Some [0%Qc; d2; (- d1)%Qc] | None => None end else Some orth) with
      | Some orth =>
          let cdo := combine (combine curr delta) orth in
          let l1 := map (fun x => (fst (fst x) - snd (fst x) + snd x)%Qc) cdo in
          let l2 := map (fun x => (fst (fst x) - snd (fst x) - snd x)%Qc) cdo in
          Some [l1; curr; l2; curr]
      | None => None
      end
  | _, _ => None
  end.

(** What a line shows, which determines its colour and width (plots.py:16-27, 101-108). *)
Inductive line_kind : Type := LDetail (pnum : nat) | LConnect (pnum : nat) | LProto (pnum : nat).
(** The calls ax.plot and ax.text; axes are numbered as in the list axs (plots.py:43, 74). *)
Inductive draw : Type :=
| DPlot (ax : nat) (kind : line_kind) (columns : list (list Qc))
| DText (ax : nat) (cube : list Z) (pnum : nat) (time_rev : bool).
(** plots.py:124-129  [draw_lines] *)
Definition draw_lines (ax : nat) (kind : line_kind) (points : list (list Qc)) (arrow : bool) : option draw :=
  match pyget points 0 with
  | None => None
  | Some p0 =>
      match (if arrow then match pyget points (-2), pyget points (-1) with Some a, Some b => option_map (app points) (get_arr a b) | _, _ => None end
             else Some points) with
      | None => None
      | Some pts => option_map (DPlot ax kind) (omap (fun j => omap (fun x => nth_error x j) pts) (range (length p0)))
      end
  end.

(** plots.py:90-104  one step of the loop over the cubes and specs of a pattern; prev: last point of prev_line and the pattern of prev_color *)
Definition plot_fraction (c sub : curve) (glob_ax detail_ax : nat) (cnum : nat) (cube : option (list Z)) (sp : option spec) (prev : option (list Qc * nat))
  : option (list draw * option (list Qc * nat)) :=
  match cube, sp with
  | Some cube, Some s =>
      if Nat.ltb (sp_pnum s) 4 then
        match nth_error (cv_pats sub) (sp_pnum s) with
        | None => None
        | Some pat =>
            match pr_mul_checked (sp_bm s) (pat_proto pat) with
            | None => None
            | Some pr =>
                match center_line pr with
                | None => None
                | Some line =>
                    let text := if Nat.ltb 1 (cv_mult c) then [DText glob_ax cube (sp_pnum s) (time_rev (sp_bm s))] else [] in
                    let abs_line := map (fun point => abs_point point cube (1 / Nq (cv_div c))%Qc) line in
                    match pyget abs_line 0, pyget abs_line (-1) with
                    | Some first, Some last =>
                        match (match prev with
                               | None => Some []
                               | Some (prev_last, prev_pnum) =>
                                   let med := map (fun ab => ((fst ab + snd ab) / Zq 2)%Qc) (combine prev_last first) in
                                   match draw_lines detail_ax (LConnect prev_pnum) [prev_last; med] false, draw_lines detail_ax (LConnect (sp_pnum s)) [med; first] false with
                                   | Some d1, Some d2 => Some [d1; d2]
                                   | _, _ => None
                                   end
                               end),
                              draw_lines detail_ax (LDetail (sp_pnum s)) abs_line (Nat.eqb (S cnum) (cv_genus c)) with
                        | Some con, Some d => Some (text ++ con ++ [d], Some (last, sp_pnum s))
                        | _, _ => None
                        end
                    | _, _ => None
                    end
                end
            end
        end
      else None
  | _, _ => None
  end.
(** plots.py:88-104  the loop *)
Fixpoint plot_fractions (c sub : curve) (glob_ax detail_ax : nat) (todo : list (nat * (option (list Z) * option spec))) (prev : option (list Qc * nat)) : option (list draw) :=
  match todo with
  | [] => Some []
  | (cnum, (cube, sp)) :: todo' =>
      match plot_fraction c sub glob_ax detail_ax cnum cube sp prev with
      | Some (ds, prev') => option_map (app ds) (plot_fractions c sub glob_ax detail_ax todo' prev')
      | None => None
      end
  end.
(** plots.py:80-108  one pattern *)
Definition plot_pattern (c sub : curve) (separate : bool) (pnum : nat) (pat : pattern) : option (list draw) :=
  let glob_ax := if separate then 2 * pnum else pnum in
  let detail_ax := if separate then 2 * pnum + 1 else pnum in
  match plot_fractions c sub glob_ax detail_ax (enumerate (combine (pr_cubes (pat_proto pat)) (pat_specs pat))) None,
        (if separate && negb (Nat.ltb pnum 4) then None else center_line (pat_proto pat)) with
  | Some ds, Some line => option_map (fun d => ds ++ [d]) (draw_lines glob_ax (LProto pnum) line true)
  | _, _ => None
  end.
(** plots.py:5-111  [plot_curve]: the lines and texts drawn; the titles (plots.py:56-58) need a name for each of several patterns *)
Definition plot_curve (c : curve) (separate : bool) (subdivision : nat) : option (list draw) :=
  if Nat.leb (cv_dim c) 3 && Nat.leb (cv_mult c) 4 then
    match (if Nat.eqb subdivision 0 then Some c else get_subdivision c subdivision) with
    | Some sub => option_map (@concat draw) (omap (fun ip => plot_pattern c sub separate (fst ip) (snd ip)) (enumerate (cv_pats c)))
    | None => None
    end
  else None.
