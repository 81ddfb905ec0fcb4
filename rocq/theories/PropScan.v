(** C67: scanning the database. *)
From Coq Require Import List ZArith Bool Lia Sorted.
From Verif Require Import Word64 AllocModel VarModel VarSpec VarProof VarAlloc VarEnd PropVar ScanModel ScanSpec ScanProof.
Import ListNotations.
Open Scope Z_scope.

Lemma reach_scan baddr k ca cf v L : tame ca cf -> vreach baddr k ca cf (v, L) ->
  exists X B F, inv k X L v B F /\ nohole B /\ (forall x, X x -> 0 < x) /\ subs (areas (base v) k) <> [].
Proof.
  intros T H. destruct (reach_ok baddr k ca cf T _ H) as (X & (B & F & Hi & NH) & Ns & _ & HX). exists X, B, F. auto.
Qed.
Lemma special_zero v o : special_record v o = false <-> Z.land (ld v (o + 8)) 1 = 0.
Proof. unfold special_record. destruct (Z.eqb_spec (Z.land (ld v (o + 8)) 1) 0); cbn; split; congruence. Qed.
Lemma first_after_ext (P Q : Z -> Prop) o r : (forall q, P q <-> Q q) -> first_after P o r -> first_after Q o r.
Proof.
  intros E. destruct r; cbn; try tauto.
  - intros (A & B & C). split; [now apply E|]. split; [exact B|]. intros q Hq. apply C. now apply E.
  - intros A q Hq. apply A. now apply E.
Qed.

(** Some databases: the states of C34; the one of [s5] has a record marked as not being data and, as
    wg_create_record leaves them, three without marks. *)
Definition s5 := reachb isvar (fun _ => true)
  [OAlloc 6; OWrite 4128 6 1 0; OAlloc 10; OWrite 4176 10 1 3; OAlloc 620; OWrite 4256 620 1 0; OAlloc 700; OWrite 12320 700 1 0].
Lemma s5_reach : vreach vaddr 0 not_from_mixed any_mark s5.
Proof. apply reachb_ok; [exact isvar_ok|constructor|vm_compute; reflexivity]. Qed.

(** C67, part (the histories of C34): asking for the record after a given one gives the record with
    the next higher address, and the end of the data exactly if there is none; it always ends and
    never complains. *)
Theorem C67_next_partial : forall baddr k can_alloc can_free v L f o, tame can_alloc can_free ->
  vreach baddr k can_alloc can_free (v, L) -> dfree (base v) <= Z.of_nat f -> record_at L o ->
  first_after (record_at L) o (next_raw k v f o).
Proof.
  intros baddr k ca cf v L f o T H Hf Ho. destruct (reach_scan _ _ _ _ _ _ T H) as (X & B & F & Hi & NH & HX & _).
  exact (next_raw_ok k X L v B F Hi NH HX f o Ho Hf).
Qed.
Print Assumptions C67_next_partial.
Example C67_nonvacuous_next : tame not_from_mixed any_mark /\ vreach vaddr 0 not_from_mixed any_mark s1 /\
  snd s1 = [(12320, 700); (9248, 3); (4256, 1); (4128, 6)] /\ length (subs (areas (base (fst s1)) 0)) = 2%nat /\
  next_raw 0 (fst s1) 9 4128 = Found 4256 /\ next_raw 0 (fst s1) 9 4256 = Found 9248 /\
  next_raw 0 (fst s1) 9 9248 = Found 12320 /\ next_raw 0 (fst s1) 9 12320 = NoMore.
Proof. split; [exact tame1|]. split; [exact s1_reach|]. repeat split; vm_compute; reflexivity. Qed.

Theorem C67_first_partial : forall baddr k can_alloc can_free v L f, tame can_alloc can_free ->
  vreach baddr k can_alloc can_free (v, L) -> dfree (base v) <= Z.of_nat f ->
  first_after (record_at L) 0 (first_raw k v f).
Proof.
  intros baddr k ca cf v L f T H Hf. destruct (reach_scan _ _ _ _ _ _ T H) as (X & B & F & Hi & NH & HX & Ns).
  exact (first_raw_ok k X L v B F Hi NH HX Ns f Hf).
Qed.
Print Assumptions C67_first_partial.
Example C67_nonvacuous_first : vreach vaddr 0 not_from_mixed any_mark s1 /\ first_raw 0 (fst s1) 9 = Found 4128 /\
  first_raw 0 vstart 9 = NoMore.
Proof. split; [exact s1_reach|]. split; vm_compute; reflexivity. Qed.

(** The loop over first and next gets every record exactly once, in the order of the addresses. *)
Theorem C67_scan_partial : forall baddr k can_alloc can_free v L f g, tame can_alloc can_free ->
  vreach baddr k can_alloc can_free (v, L) -> dfree (base v) <= Z.of_nat f -> dfree (base v) <= Z.of_nat g ->
  exists l, all_from (next_raw k v f) g (first_raw k v f) = Some l /\ StronglySorted Z.lt l /\
    forall o, In o l <-> record_at L o.
Proof.
  intros baddr k ca cf v L f g T H Hf Hg. destruct (reach_scan _ _ _ _ _ _ T H) as (X & B & F & Hi & NH & HX & Ns).
  destruct (all_ok (record_at L) (next_raw k v f) (dfree (base v))) with (g := g) (r := first_raw k v f) (o := 0) as (l & E & S & I).
  - intros o Ho. exact (record_range k X L v B F Hi o Ho).
  - intros o Ho. exact (next_raw_ok k X L v B F Hi NH HX f o Ho Hf).
  - exact (first_raw_ok k X L v B F Hi NH HX Ns f Hf).
  - lia.
  - lia.
  - exists l. split; [exact E|]. split; [exact S|]. intro o. rewrite I. split; [tauto|]. intro Ho. split; [exact Ho|].
    destruct (record_range k X L v B F Hi o Ho). lia.
Qed.
Print Assumptions C67_scan_partial.
Example C67_nonvacuous_scan : vreach vaddr 0 any_way not_marked s2 /\ snd s2 = [(9088, 64); (9632, 328); (9600, 4); (4128, 620)] /\
  all_from (next_raw 0 (fst s2) 9) 9 (first_raw 0 (fst s2) 9) = Some [4128; 9088; 9600; 9632].
Proof. split; [exact s2_reach|]. split; vm_compute; reflexivity. Qed.

(** The same for the calls that leave out the records marked as not being data. *)
Theorem C67_data_scan_partial : forall baddr k can_alloc can_free v L f g g', tame can_alloc can_free ->
  vreach baddr k can_alloc can_free (v, L) ->
  dfree (base v) <= Z.of_nat f -> dfree (base v) <= Z.of_nat g -> dfree (base v) <= Z.of_nat g' ->
  let data q := record_at L q /\ Z.land (ld v (q + 8)) 1 = 0 in
  (forall o, record_at L o -> first_after data o (next_record k v g f o)) /\
  first_after data 0 (first_record k v g f) /\
  exists l, all_from (next_record k v g f) g' (first_record k v g f) = Some l /\ StronglySorted Z.lt l /\
    forall o, In o l <-> data o.
Proof.
  intros baddr k ca cf v L f g g' T H Hf Hg Hg' data. destruct (reach_scan _ _ _ _ _ _ T H) as (X & B & F & Hi & NH & HX & Ns).
  assert (D : forall q, data_at L v q <-> data q) by (intro q; unfold data_at, data; rewrite special_zero; tauto).
  assert (N : forall o, record_at L o -> first_after data o (next_record k v g f o)).
  { intros o Ho. apply (first_after_ext (data_at L v)); [exact D|].
    pose proof (record_range k X L v B F Hi o Ho). apply (next_record_ok k X L v B F Hi NH HX f Hf g o Ho). lia. }
  assert (N0 : first_after data 0 (first_record k v g f)).
  { apply (first_after_ext (data_at L v)); [exact D|]. exact (first_record_ok k X L v B F Hi NH HX Ns g f Hf Hg). }
  split; [exact N|]. split; [exact N0|].
  destruct (all_ok data (next_record k v g f) (dfree (base v))) with (g := g') (r := first_record k v g f) (o := 0) as (l & E & S & I).
  - intros o [Ho _]. exact (record_range k X L v B F Hi o Ho).
  - intros o [Ho _]. now apply N.
  - exact N0.
  - lia.
  - lia.
  - exists l. split; [exact E|]. split; [exact S|]. intro o. rewrite I. split; [tauto|]. intro Ho. split; [exact Ho|].
    destruct (record_range k X L v B F Hi o (proj1 Ho)). lia.
Qed.
Print Assumptions C67_data_scan_partial.
Example C67_nonvacuous_data : vreach vaddr 0 not_from_mixed any_mark s5 /\ ld (fst s5) (4176 + 8) = 3 /\
  all_from (next_raw 0 (fst s5) 9) 9 (first_raw 0 (fst s5) 9) = Some [4128; 4176; 4256; 12320] /\
  all_from (next_record 0 (fst s5) 9 9) 9 (first_record 0 (fst s5) 9 9) = Some [4128; 4256; 12320].
Proof. split; [exact s5_reach|]. repeat split; vm_compute; reflexivity. Qed.

(** C67 is false of all histories: in the state of C34_refuted an object given out lies inside a
    record, and the scan passes over it; and it returns a record that was deleted. *)
Theorem C67_refuted : exists baddr k v L o o', vreach baddr k any_way any_mark (v, L) /\ record_at L o /\ ~ record_at L o' /\
  exists l, (forall f, (9 <= f)%nat -> all_from (next_raw k v f) f (first_raw k v f) = Some l) /\ ~ In o l /\ In o' l.
Proof.
  exists vaddr, 0%nat, (fst s3), (snd s3), 4800, 9600. rewrite <- surjective_pairing.
  split; [apply reachb_ok; [constructor|constructor|vm_compute; reflexivity]|].
  assert (E : snd s3 = (4800, 10) :: [(9088, 64); (9632, 328); (4128, 620)]) by (vm_compute; reflexivity).
  split; [exists 10; rewrite E; now left|].
  split; [intros (n & Hn); rewrite E in Hn; cbn in Hn; intuition discriminate|].
  exists [4128; 9088; 9600; 9632]. split; [|cbn; lia].
  intros f Hf. replace f with (9 + (f - 9))%nat by lia. generalize (f - 9)%nat as m. intro m.
  assert (E1 : first_raw 0 (fst s3) (9 + m) = Found 4128) by (vm_compute; reflexivity).
  assert (E2 : next_raw 0 (fst s3) (9 + m) 4128 = Found 9088) by (vm_compute; reflexivity).
  assert (E3 : next_raw 0 (fst s3) (9 + m) 9088 = Found 9600) by (vm_compute; reflexivity).
  assert (E4 : next_raw 0 (fst s3) (9 + m) 9600 = Found 9632) by (vm_compute; reflexivity).
  assert (E5 : next_raw 0 (fst s3) (9 + m) 9632 = NoMore) by (vm_compute; reflexivity).
  rewrite E1. cbn [all_from plus]. change (S (S (S (S (S (S (S (S (S m))))))))) with (9 + m)%nat. rewrite E2, E3, E4, E5. reflexivity.
Qed.
Print Assumptions C67_refuted.
