(** Model of the information that zoo.py records about its curves (definitions only). *)
From Verif Require Export Py M_Curves M_Zoo M_GatesText M_Main.
From Coq Require Import String.
Local Open Scope nat_scope.

(** zoo.py:21-32  a value of [CurveInfo.dilation]: Fraction / int (or SpecValue with eq), or an interval of two floats. The floats
    are taken as the decimal fractions written in the code. *)
Inductive dil_value : Type := DEq (v : Q) | DIn (lo up : Q).
(** zoo.py:28-38  [CurveInfo]; moments: pairs of the key and the list, gates: the results of Link.parse_gates; an absent dict is []. *)
Record curve_info : Type := CI { ci_curve : option curve; ci_dilation : list (metric * dil_value); ci_moments : list (Z * list Qc);
  ci_gates : option (list (option plink)); ci_depth : option nat; ci_junctions : option nat }.
(** helper: Link.parse_gates of the texts *)
Definition ci_links (l : list string) : option (list (option plink)) := Some (map (fun s => parse_gates (list_ascii_of_string s)) l).
(** helper: [[Fraction(k, n) for k in ks]] *)
Definition fracs (n : positive) (ks : list Z) : list Qc := map (fun k => Q2Qc (k # n)) ks.

(** zoo.py:71-81 *)
Definition info_hilbert := CI zoo_hilbert [(M_l1, DEq 9); (M_l2, DEq 6); (M_linf, DEq 6)] [] None (Some 2) None.
(** zoo.py:84-91 *)
Definition info_peano := CI zoo_peano [(M_l1, DEq (32 # 3)); (M_l2, DEq 8); (M_linf, DEq 8)] [] None (Some 1) None.
(** zoo.py:94-102 *)
Definition info_bauman := CI zoo_bauman [(M_l2, DEq (17 # 3)); (M_linf, DEq (9 # 2))] [] None None None.
(** zoo.py:105-113 *)
Definition info_scepin_bauman := CI zoo_scepin_bauman [(M_l1, DEq (32 # 3)); (M_l2, DEq (17 # 3)); (M_linf, DEq (16 # 3))] [] None None None.
(** zoo.py:116-124 *)
Definition info_peano5 := CI zoo_peano5 [] [] None None None.
(** zoo.py:127-133 *)
Definition info_meurthe := CI zoo_meurthe [(M_l1, DEq (32 # 3)); (M_l2, DEq (17 # 3)); (M_linf, DEq (16 # 3))] [] None None None.
(** zoo.py:136-142 *)
Definition info_coil := CI zoo_coil [(M_l1, DEq (32 # 3)); (M_l2, DEq (20 # 3)); (M_linf, DEq (20 # 3))] [] None None None.
(** zoo.py:145-151 *)
Definition info_serpentine := CI zoo_serpentine [(M_l1, DEq 10); (M_l2, DEq (25 # 4)); (M_linf, DEq (45 # 8))] [] None None None.
(** zoo.py:154-160 *)
Definition info_r_curve := CI zoo_r_curve [(M_l1, DEq (32 # 3)); (M_l2, DEq (20 # 3)); (M_linf, DEq (20 # 3))] [] None None None.
(** zoo.py:163-173 *)
Definition info_ye := CI zoo_ye [(M_l2, DEq (408 # 73))] [] None (Some 1) None.
(** zoo.py:178-193 *)
Definition info_beta_omega := CI zoo_beta_omega [(M_l1, DEq 9); (M_l2, DEq 5); (M_linf, DEq 5)] []
  (ci_links ["(0,1/3)->(1,1/3)"; "(0,1/3)->(2/3,0)"]%string) None None.
(** zoo.py:196-207 *)
Definition info_arw := CI zoo_arw [(M_l1, DEq 12); (M_l2, DEq (260 # 43)); (M_linf, DEq (27 # 5))] [] None None None.
(** zoo.py:214-226 *)
Definition info_haverkort_a26 := CI zoo_haverkort_a26 [(M_l1, DEq (99 + (5 # 9))); (M_l2, DIn (227 # 10) (229 # 10)); (M_linf, DEq (12 + (4 # 9)))]
  [(0, fracs 28 [0; 5; 9; 12; 16; 19; 23; 28])]%Z (ci_links ["(0,0,0)->(1,0,0)"]%string) None None.
(** zoo.py:229-242 *)
Definition info_haverkort_f := CI zoo_haverkort_f [(M_l1, DIn (89754 # 1000) (89758 # 1000)); (M_l2, DIn (185 # 10) (187 # 10)); (M_linf, DEq 14)]
  [(0, fracs 28 [1; 6; 8; 13; 15; 20; 22; 27])]%Z (ci_links ["(0,1/3,1/3)->(2/3,1/3,0)"]%string) None None.
(** zoo.py:245-275 *)
Definition info_tokarev := CI zoo_tokarev [(M_l1, DIn (982 # 10) (984 # 10)); (M_l2_squared, DEq ((8694 # 2753) * (8694 # 2753) * 69)); (M_linf, DEq (896 # 37))]
  [(0, fracs 126 [0; 22; 41; 50; 76; 85; 104; 126]);
   (1, fracs 4194176 [0; 693632; 1364617; 1659520] ++ fracs 65534 [0; 11433; 38292; 44200] ++ fracs 524272 [0; 169360; 316073; 431496]);
   (-1, fracs 4194176 [2534656; 2829559; 3500544; 4194176] ++ fracs 65534 [21334; 27242; 54101; 65534] ++ fracs 524272 [92776; 208199; 354912; 524272]);
   (2, fracs 224 [0; 0; 0; 37; 72; 128]); (-2, fracs 224 [96; 152; 187; 224; 224; 224])]%Z None (Some 3) (Some 9).
(** zoo.py:280-291 *)
Definition info_neptunus := CI zoo_neptunus [(M_l1, DIn (888 # 10) 89); (M_l2, DIn (182 # 10) (184 # 10)); (M_linf, DEq (945 # 100))] []
  (ci_links ["(0,0,0)->(1,0,0)"; "(0,0,0)->(1,1,1)"]%string) None None.
(** zoo.py:294-304 *)
Definition info_luna := CI zoo_luna [(M_l1, DIn (755 # 10) (757 # 10)); (M_l2, DIn (182 # 10) (184 # 10)); (M_linf, DEq 14)] []
  (ci_links ["(0,0,0)->(1,0,0)"; "(0,0,0)->(1,1,1)"]%string) None None.
(** zoo.py:307-337 *)
Definition info_iupiter := CI zoo_iupiter [(M_l1, DIn (886 # 10) (888 # 10)); (M_l2, DIn (248 # 10) 30); (M_linf, DIn (169 # 10) (171 # 10))] []
  (ci_links ["(0,2/5,1/5)->(4/5,2/5,0)"; "(0,2/5,1/5)->(4/5,0,2/5)"; "(0,2/5,1/5)->(1,2/5,1/5)"; "(0,1/5,2/5)->(4/5,2/5,0)"; "(0,2/5,1/5)->(4/5,1,3/5)"]%string) None None.
(** zoo.py:341-350 *)
Definition info_spring := CI zoo_spring [(M_l1, DIn (829 # 10) 83); (M_l2, DIn (169 # 10) 17)] [] None None None.
(** zoo.py:353-362 *)
Definition info_l1_best_3d := CI zoo_l1_best_3d [(M_l1, DIn (89742 # 1000) (89745 # 1000))] [] None None None.
(** zoo.py:365-372 *)
Definition info_facet_gated_4d := CI zoo_facet_gated_4d [(M_l2, DIn (619 # 10) 62)] [] None None None.
(** zoo.py:41-64  [get_all_curves] *)
Definition zoo_infos : list curve_info :=
  [info_hilbert; info_peano; info_bauman; info_scepin_bauman; info_peano5; info_meurthe; info_coil; info_serpentine; info_r_curve; info_ye; info_beta_omega;
   info_arw; info_haverkort_a26; info_haverkort_f; info_tokarev; info_neptunus; info_luna; info_iupiter; info_spring; info_l1_best_3d; info_facet_gated_4d].
