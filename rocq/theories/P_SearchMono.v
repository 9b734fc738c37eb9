(** More fuel does not change a result of the searches for paths, gates and curves. *)
From Verif Require Import Py M_BaseMaps M_Subsets M_Paths M_Curves M_PathTree M_PathGen M_Gates M_Utils M_Heap M_Sat M_Dilation M_Search M_YE P_PathGrow.
From Coq Require Import Lia.
Local Open Scope nat_scope.

(** y extends x: the same value, or x is None *)
Definition ext {A} (x y : option A) : Prop := forall r, x = Some r -> y = Some r.
Lemma ext_refl {A} (x : option A) : ext x x. Proof. intros r; auto. Qed.
Lemma ext_obind {A B} (x y : option A) (f g : A -> option B) : ext x y -> (forall a, ext (f a) (g a)) -> ext (obind x f) (obind y g).
Proof. intros H1 H2 r. destruct x as [a|]; [|discriminate]. rewrite (H1 a eq_refl). cbn. apply H2. Qed.
Lemma ext_map {A B} (x y : option A) (f : A -> B) : ext x y -> ext (option_map f x) (option_map f y).
Proof. intros H r. destruct x as [a|]; [|discriminate]. rewrite (H a eq_refl). auto. Qed.
Lemma ext_omap {A B} (f g : A -> option B) l : (forall a, ext (f a) (g a)) -> ext (omap f l) (omap g l).
Proof. intros H r. apply omap_mono. intros x y. apply H. Qed.

Section Api.
Context {T : Type} (O : subset_ops T) (pt : bool) (g : @paths_generator T) (hash : future_t (link T) -> Z) (sm : nat) (fm : option nat) (fuel fuel' : nat) (HL : fuel <= fuel').
Lemma generic_mono std lk parent : ext (pg_generic O pt g hash fuel sm fm std lk parent) (pg_generic O pt g hash fuel' sm fm std lk parent).
Proof.
  intros r. unfold pg_generic, generate_generic. destruct (cube_sets _ _ _ _) as [[ss fs]|]; auto. destruct (nodes _ _ _ _ _ _ ss) as [a|]; auto. destruct (nodes _ _ _ _ _ _ fs) as [b|]; auto.
  destruct (grow _ _ _ _ _ _ fuel _ _ _ _) as [data|] eqn:E; [|discriminate]. rewrite (grow_mono _ _ _ _ _ _ fuel fuel' _ _ _ _ _ HL E). auto.
Qed.
Lemma examples_mono std rs : ext (examples O pt g hash fuel sm fm std rs) (examples O pt g hash fuel' sm fm std rs).
Proof.
  induction rs as [|[l p] rs IH]; intros r; cbn [examples]; auto. destruct (pg_generic O pt g hash fuel sm fm std l p) as [ps|] eqn:E; [|discriminate]. rewrite (generic_mono std l p _ E). destruct ps as [|x ps]; auto. apply ext_map, IH.
Qed.
Lemma example_mono links parents std : ext (get_paths_example O pt g hash fuel sm fm links parents std) (get_paths_example O pt g hash fuel' sm fm links parents std).
Proof. unfold get_paths_example. apply ext_obind; [apply ext_refl|]. intros rs. apply examples_mono. Qed.
Lemma paths_mono links parents std : ext (generate_paths O pt g hash fuel sm fm links parents std) (generate_paths O pt g hash fuel' sm fm links parents std).
Proof.
  intros r. unfold generate_paths. destruct (restrictions _ _ _) as [rs|]; auto. destruct (omap (fun r => pg_generic O pt g hash fuel sm fm std (fst r) (snd r)) rs) as [ls|] eqn:E; [|discriminate].
  rewrite (ext_omap _ (fun r => pg_generic O pt g hash fuel' sm fm std (fst r) (snd r)) rs (fun a => generic_mono std _ _) ls E). auto.
Qed.
End Api.

Section Gates.
Context (dim div mult : nat) (fuel fuel' : nat) (HL : fuel <= fuel').
Section Point.
Context (hash : future_t (link (list Qc)) -> Z) (sm : nat) (fm : option nat).
Notation p1 := (M_Gates.SP hash fuel sm fm). Notation p2 := (M_Gates.SP hash fuel' sm fm).
Lemma has_paths_mono gs : ext (has_paths dim div p1 gs) (has_paths dim div p2 gs).
Proof. unfold has_paths. apply ext_obind; [apply ext_refl|]. intros g. cbn [sp_hash sp_fuel sp_start sp_finish]. apply ext_map, example_mono, HL. Qed.
Lemma check_std_mono facet seen protos specs : ext (check_and_std dim div mult facet p1 seen protos specs) (check_and_std dim div mult facet p2 seen protos specs).
Proof.
  intros r. unfold check_and_std. destruct (curve_gates _ _ _) as [[gates|]|]; auto. destruct (memb gates_eqb gates (fst seen)); auto. destruct (std_gates gates) as [std|]; auto. destruct (memb gates_eqb std (snd seen)); auto. apply ext_map, has_paths_mono.
Qed.
Lemma check_all_mono facet cands seen : ext (check_all dim div mult facet p1 seen cands) (check_all dim div mult facet p2 seen cands).
Proof.
  revert seen. induction cands as [|[protos specs] cands IH]; intros seen r; cbn [check_all]; auto. destruct (check_and_std dim div mult facet p1 seen protos specs) as [[x seen']|] eqn:E; [|discriminate].
  rewrite (check_std_mono facet _ _ _ _ E). apply ext_map, IH.
Qed.
Lemma gates_pcurves_mono mc gs : ext (gates_pcurves dim div mc p1 gs) (gates_pcurves dim div mc p2 gs).
Proof. unfold gates_pcurves. apply ext_obind; [apply ext_refl|]. intros g. cbn [sp_hash sp_fuel sp_start sp_finish]. apply ext_obind; [apply paths_mono, HL|]. intros ps. apply ext_refl. Qed.
Lemma gen_pcurves_mono mc gl : ext (gen_pcurves dim div mc p1 gl) (gen_pcurves dim div mc p2 gl).
Proof. unfold gen_pcurves. apply ext_map, ext_omap. intros gs. apply gates_pcurves_mono. Qed.
Lemma loop_mono mc est gens : ext (search_loop dim div mc p1 est gens) (search_loop dim div mc p2 est gens).
Proof.
  induction gens as [|[gid gates] gens IH]; cbn [search_loop]; [apply ext_refl|]. apply ext_obind; [apply gen_pcurves_mono|]. intros cs. apply ext_obind; [apply ext_refl|]. intros [r|]; [apply ext_map, IH|apply ext_refl].
Qed.
Lemma link_paths_mono mc l : ext (link_paths dim div mc p1 l) (link_paths dim div mc p2 l).
Proof. unfold link_paths. apply ext_obind; [apply ext_refl|]. intros g. cbn [sp_hash sp_fuel sp_start sp_finish]. apply paths_mono, HL. Qed.
End Point.
Section Facet.
Context (hash : future_t (link facet_set) -> Z) (sm : nat) (fm : option nat).
Notation p1 := (M_Gates.SP hash fuel sm fm). Notation p2 := (M_Gates.SP hash fuel' sm fm).
Lemma narrow_mono ps : ext (gen_narrow_links dim div p1 ps) (gen_narrow_links dim div p2 ps).
Proof.
  unfold gen_narrow_links. apply ext_obind; [apply ext_refl|]. intros g. cbn [sp_hash sp_fuel sp_start sp_finish]. apply ext_obind; [apply example_mono, HL|]. intros [[|x xs]|]; try apply ext_refl.
  apply ext_map, ext_omap. intros p. apply ext_obind; [apply generic_mono, HL|]. intros ps'. apply ext_refl.
Qed.
Lemma facet_groups_mono : ext (facet_groups dim div mult p1) (facet_groups dim div mult p2).
Proof.
  unfold facet_groups. apply ext_map, ext_omap. intros links. apply ext_obind; [apply ext_refl|]. intros g. cbn [sp_hash sp_fuel sp_start sp_finish]. apply ext_obind; [apply paths_mono, HL|]. intros pl.
  apply ext_map, ext_omap. intros ps. apply ext_obind; [apply narrow_mono|]. intros ns. apply ext_refl.
Qed.
End Facet.
Lemma gen_gates_mono facet fhash fsm ffm hash sm fm :
  ext (gen_gates dim div mult facet (M_Gates.SP fhash fuel fsm ffm) (M_Gates.SP hash fuel sm fm)) (gen_gates dim div mult facet (M_Gates.SP fhash fuel' fsm ffm) (M_Gates.SP hash fuel' sm fm)).
Proof. unfold gen_gates. apply ext_obind; [destruct facet; [apply facet_groups_mono|apply ext_refl]|]. intros gr. apply check_all_mono. Qed.
Lemma search_gates_mono gl facet fhash fsm ffm hash sm fm :
  ext (search_gates dim div mult gl facet (M_Gates.SP fhash fuel fsm ffm) (M_Gates.SP hash fuel sm fm)) (search_gates dim div mult gl facet (M_Gates.SP fhash fuel' fsm ffm) (M_Gates.SP hash fuel' sm fm)).
Proof. unfold search_gates. destruct gl; [apply ext_refl|apply gen_gates_mono]. Qed.
End Gates.
