(** Property theorems C05 (text formats of base maps and specs). Nothing else is in this file. *)
From Verif Require Import Py L_Py L_Qc M_BaseMaps S_BaseMaps L_BaseMaps M_Text P_Text.
Local Open Scope nat_scope.

(** C05: str and parse are inverse for valid maps with 1 <= dim <= 6. *)
Theorem C05_base_map_round_trip : forall d b, wf_bm d b -> 1 <= d <= 6 ->
  exists t, bm_str b = Some t /\ bm_parse t = Some b.
Proof. exact bm_parse_str. Qed.
Print Assumptions C05_base_map_round_trip.

(** The text means what the documentation says: letter k is the image (with sign) of the k-th basis vector,
    and a final '~' is written iff time is reversed. *)
Theorem C05_text_meaning : forall d b k, wf_bm d b -> 1 <= d <= 6 -> k < d ->
  exists t i f l, bm_str b = Some t /\ nth_error basis_letters i = Some l /\
    nth_error t k = Some (if f : bool then upper l else l) /\
    apply_vec b (basis_vec d k 1) = basis_vec d i (if f then -1 else 1)%Z /\
    length t = (if time_rev b then S d else d) /\ (nth_error t d = Some "~"%char <-> time_rev b = true).
Proof. exact bm_str_meaning. Qed.
Print Assumptions C05_text_meaning.

Theorem C05_spec_round_trip : forall d s, wf_bm d (sp_bm s) -> 1 <= d <= 6 -> sp_pnum s < 10 ->
  exists t, spec_str s = Some t /\ spec_parse t = Some s.
Proof. exact spec_parse_str. Qed.
Print Assumptions C05_spec_round_trip.

(** The round trip fails for every pattern number of two or more digits. *)
Theorem C05_spec_round_trip_refuted : forall d s, wf_bm d (sp_bm s) -> 1 <= d <= 6 -> 10 <= sp_pnum s ->
  exists t, spec_str s = Some t /\ spec_parse t = None.
Proof. exact spec_parse_str_big. Qed.
Print Assumptions C05_spec_round_trip_refuted.

(** parse accepts some texts and returns a value that is not a valid map: exactly those repeating a letter. *)
Theorem C05_parse_validity : forall t b, bm_parse t = Some b ->
  ((exists d, wf_bm d b) <-> NoDup (map lower (basis_of t))).
Proof. exact bm_parse_valid_iff. Qed.
Print Assumptions C05_parse_validity.
Theorem C05_parse_accepts_invalid_refuted : exists t b, bm_parse t = Some b /\ forall d, ~ wf_bm d b.
Proof. exact parse_ii. Qed.
Print Assumptions C05_parse_accepts_invalid_refuted.

Example C05_example : let b := BM [(1, false); (0, true)] true in
  wf_bm 2 b /\ bm_str b = Some ["J"; "i"; "~"]%char /\ bm_parse [" "; "J"; "i"; "~"]%char = Some b.
Proof. split; [apply wf_bmb_ok; reflexivity|split; reflexivity]. Qed.
