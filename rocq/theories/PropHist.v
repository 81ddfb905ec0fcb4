(** C39, C40: packed codes. *)
From Coq Require Import List ZArith Bool Lia.
From Verif Require Import Terms BuildModel DeriveModel DeriveProof HistModel HistSpec HistProof.
Import ListNotations.
Open Scope Z_scope.

(** C39.  The packed (literal, position) pair decodes to the pair it was made from; the code
    uses literal numbers up to 255 and positions up to 60000. *)
Theorem C39_paths_roundtrip : forall l p, 0 <= l <= 255 -> 0 <= p < 65536 ->
  decode_litnr (encode_termpath l p) = l /\ decode_pos (encode_termpath l p) = p.
Proof. exact termpath_roundtrip. Qed.
Print Assumptions C39_paths_roundtrip.
Example C39_nonvacuous : encode_termpath 3 60000 = 256608 /\ decode_litnr 256608 = 3.
Proof. split; reflexivity. Qed.

(** C40.  The rule and the side of a recorded step are read back, whatever the positions. *)
Theorem C40_rule_roundtrips : forall s, 0 <= first_pos s -> 0 <= second_pos s ->
  get_tag (code s) = rule s /\ get_extra (code s) = (if is_left s then 1 else 0).
Proof. exact tag_back. Qed.
Print Assumptions C40_rule_roundtrips.
(** The positions are read back if they are below 16.  Missing: positions 16 to 255, which the
    record holds but the readers cut to four bits (refuted below). *)
Theorem C40_positions_roundtrip_partial : forall s, positions_up_to 15 s ->
  get_pos1 (code s) = first_pos s /\ get_pos2 (code s) = second_pos s.
Proof. exact pos_back. Qed.
Print Assumptions C40_positions_roundtrip_partial.
Theorem C40_positions_refuted : exists s, positions_up_to 16 s /\ get_pos1 (code s) <> first_pos s /\ get_pos2 (code s) <> second_pos s.
Proof. exists (Resolve 16 16). vm_compute. repeat split; discriminate. Qed.
Print Assumptions C40_positions_refuted.
(** The records themselves tell steps with positions up to 255 apart. *)
Theorem C40_records_are_distinct : forall s s', positions_up_to 255 s -> positions_up_to 255 s' -> code s = code s' -> s = s'.
Proof. exact code_inj. Qed.
Print Assumptions C40_records_are_distinct.
Example C40_nonvacuous : positions_up_to 15 (Para 3 7 true) /\ code (Para 3 7 true) = 3212039.
Proof. split; [unfold positions_up_to; cbn; lia|reflexivity]. Qed.
