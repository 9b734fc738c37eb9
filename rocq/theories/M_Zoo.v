(** Model of the text constructors of curves (curves.py: Pattern.parse, Curve.parse) and of the curves of zoo.py. *)
From Verif Require Import Py M_BaseMaps M_Paths M_Curves M_Text.
From Coq Require Import String.
Local Open Scope nat_scope.

(** [str.split(',')]. *)
Fixpoint split_on (c : ascii) (t : text) : list text :=
  match t with
  | [] => [[]]
  | x :: t' => if Ascii.eqb x c then [] :: split_on c t'
               else match split_on c t' with w :: ws => (x :: w) :: ws | [] => [[x]] end
  end.
(** curves.py:32-51  [Pattern.parse] with the list of spec texts. *)
Definition proto_of_text (chain : text) : option proto :=
  match proto_parse chain with
  | Some (dim, div, cubes) => Some (Pr dim (Z.to_nat div) (map Some cubes))
  | None => None
  end.
(** curves.py:32-51  (part of) *)
Definition pattern_parse (chain : text) (specs : list text) : option pattern :=
  match proto_of_text chain, omap spec_parse specs with
  | Some p, Some ss => Some (Pat p (map Some ss))
  | _, _ => None
  end.
(** curves.py:537-551  [Curve.parse]; the specs are given as csv text. IndexError for an empty list is None. *)
Definition curve_parse (ps : list (text * text)) : option curve :=
  match omap (fun cs => pattern_parse (fst cs) (split_on ","%char (snd cs))) ps with
  | Some ((p :: _) as pats) => Some (Cv (pr_dim (pat_proto p)) (pr_div (pat_proto p)) pats 0 KCurve)
  | _ => None
  end.
(** curves.py:537-551  (part of) *)
Definition curve_text (ps : list (string * string)) : option curve :=
  curve_parse (map (fun cs => (list_ascii_of_string (fst cs), list_ascii_of_string (snd cs))) ps).

(** zoo.py:71-81  [get_hilbert_curve]. *)
Definition zoo_hilbert : option curve := curve_text [("jiJ", "ji,ij,ij,JI")]%string.
(** zoo.py:84-91  [get_peano_curve]. *)
Definition zoo_peano : option curve := curve_text [("jjiJJijj", "ij,Ij,ij,iJ,IJ,iJ,ij,Ij,ij")]%string.
(** zoo.py:94-102  [get_bauman_curve]. *)
Definition zoo_bauman : option curve := curve_text [("ijIjiiJJ", "ij,ji,Ji~,iJ~,ij,ij,Ij~,jI~,jI~")]%string.
(** zoo.py:105-113  [get_scepin_bauman_curve]. *)
Definition zoo_scepin_bauman : option curve := curve_text [("jjiJJijj", "ij,jI,ji,iJ,JI,Ji,ij,jI,ji")]%string.
(** zoo.py:116-124  [get_peano5_curve]. *)
Definition zoo_peano5 : option curve := curve_text [("jjjjiJJJJijjjjiJJJJijjjj", "ij,Ij,ij,Ij,ij, iJ,IJ,iJ,IJ,iJ, ij,Ij,ij,Ij,ij, iJ,IJ,iJ,IJ,iJ, ij,Ij,ij,Ij,ij")]%string.
(** zoo.py:127-133  [get_meurthe_curve]. *)
Definition zoo_meurthe : option curve := curve_text [("jjiJJijj", "ji,jI,ij,Ji,JI,iJ,ji,jI,ij")]%string.
(** zoo.py:136-142  [get_coil_curve]. *)
Definition zoo_coil : option curve := curve_text [("jjiJJijj", "ji,jI,ji,Ji,JI,Ji,ji,jI,ji")]%string.
(** zoo.py:145-151  [get_serpentine_curve]. *)
Definition zoo_serpentine : option curve := curve_text [("jjiJJijj", "ij,jI,ji,iJ,JI,iJ,ji,jI,ij")]%string.
(** zoo.py:154-160  [get_r_curve]. *)
Definition zoo_r_curve : option curve := curve_text [("jjiiJIJi", "ji,ji,ij,ij,ij,IJ,JI,JI,ij")]%string.
(** zoo.py:163-173  [get_ye_curve]. *)
Definition zoo_ye : option curve := curve_text [("jiJijjIIjjiJijiiJIJiJIJi", "0Ji~,0ij,0ij,0jI~,0Ji~,0Ji~,0Ji~,0IJ,0IJ,0Ji~,0ij,0ij,0jI~,0Ji~,0ij,0ij,0ij,0IJ,0jI~,0jI~,0ij,0IJ,0jI~,0jI~,0ij")]%string.
(** zoo.py:178-193  [get_beta_omega_curve]. *)
Definition zoo_beta_omega : option curve := curve_text [("jiJ", "1iJ,1jI,1ji~,1IJ~"); ("jiJ", "1iJ,1jI,1ji~,0Ji")]%string.
(** zoo.py:196-207  [get_ARW_Curve]. *)
Definition zoo_arw : option curve := curve_text [("i(Ij)i", "3ij,1Ji~,2jI,1iJ"); ("jiJ", "3ji,2Ij~,1ij,1JI"); ("jiJ", "0ji,1jI,0Ji,1JI"); ("jiJ", "0ij,2jI,0Ji,3jI~")]%string.
(** zoo.py:214-226  [get_haverkort_curve_a26]. *)
Definition zoo_haverkort_a26 : option curve := curve_text [("jkJijKJ", "Jki~,Kij~,kij,IKJ~,iKJ,kIj~,KIj,JIk")]%string.
(** zoo.py:229-242  [get_haverkort_curve_f]. *)
Definition zoo_haverkort_f : option curve := curve_text [("jkJijKJ", "iKJ,jIK,jIk~,JkI,Jki~,jik,jiK~,kiJ~")]%string.
(** zoo.py:245-275  [get_tokarev_curve]. *)
Definition zoo_tokarev : option curve := curve_text [("jkJijKJ", "jki,kij,kij,iJK,iJK,KIj,KIj,JkI")]%string.
(** zoo.py:280-291  [get_neptunus_curve]. *)
Definition zoo_neptunus : option curve := curve_text [("jkJijKJ", "1ijk,0jIK,1kJI,1JiK,1ijk,1jKI,1KJi,0JIk"); ("jkJiKjk", "1ijk,0jIK,1kJI,1JiK,0ijk,1KjI,1jki,0kIJ")]%string.
(** zoo.py:294-304  [get_luna_curve]. *)
Definition zoo_luna : option curve := curve_text [("jkJijKJ", "1kji,0jIK,1JIk,1iKJ,1ijk,1jKI,0JiK,1KiJ"); ("jkJiKjk", "1kji,0jIK,1JIk,1iKJ,0ijk,1KjI,0kij,1jik")]%string.
(** zoo.py:307-337  [get_iupiter_curve]. The lists of specs are given here after the updates and joined with commas. *)
Definition zoo_iupiter : option curve := curve_text [("jkJijKJ", "0ikJ,4jkI,1jki~,0IkJ~,0ikJ,1jkI,0jIK~,0kIJ~"); ("jkJijKJ", "0ikJ,4jkI,1jki~,0IkJ~,0ikJ,1jkI,0jIK~,2JIK"); ("jkJijKJ", "0ikJ,4jkI,1jki~,0IkJ~,0ikJ,1jkI,4jki~,0IkJ~"); ("jkJijKJ", "4ijK,4jkI,1jki~,0IkJ~,0ikJ,1jkI,0jIK~,0kIJ~"); ("jkJiKjk", "0ikJ,4jkI,1jki~,0IkJ~,3iJk,1KJI,0KIj~,0JIk~")]%string.
(** zoo.py:341-350  [get_spring_curve]. *)
Definition zoo_spring : option curve := curve_text [("jikIJiK", "1KIJ~,0KIj,1kji,0Jki~,1JkI,0kIJ,1KJi,1JiK"); ("jkJijKJ", "1KIJ~,0ijK~,0Ikj~,0KJI~,0kiJ~,0Ijk~,0IjK,1iKJ")]%string.
(** zoo.py:353-362  [get_3d_l1_best_curve]. *)
Definition zoo_l1_best_3d : option curve := curve_text [("jiJkjIJ", "ikJ~,kjI~,kjI~,JIk,JIK~,KjI,jKi~,iKj~")]%string.
(** zoo.py:365-372  [get_4d_facet_gated_curve]. *)
Definition zoo_facet_gated_4d : option curve := curve_text [("kljKLkiKlkJLKlI", "iKLJ,kLij,lJki,jklI,lKjI~,LKIj,IkLj~,ikLj,LKij~,lKji,kjlI,lJkI~,LkIJ,LKji~,iljk~,jIlK~")]%string.
(** zoo.py:41-64  [get_all_curves]. *)
Definition zoo_all : list (option curve) :=
  [zoo_hilbert; zoo_peano; zoo_bauman; zoo_scepin_bauman; zoo_peano5; zoo_meurthe; zoo_coil; zoo_serpentine; zoo_r_curve; zoo_ye; zoo_beta_omega; zoo_arw; zoo_haverkort_a26; zoo_haverkort_f; zoo_tokarev; zoo_neptunus; zoo_luna; zoo_iupiter; zoo_spring; zoo_l1_best_3d; zoo_facet_gated_4d].
