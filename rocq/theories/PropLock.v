(** C35: the database level reader/writer lock. *)
From Coq Require Import List ZArith Bool Relations Lia.
From Verif Require Import Word64 LockModel LockSpec LockProof PropLockEx.
Import ListNotations.
Open Scope Z_scope.

(** C35, reader-preference spin lock.  In every state reached by any number of processes in any
    interleaving, a process that holds the lock for writing is the only holder.  (The count of
    readers is kept in a 63-bit field: the bound is on processes, not on steps.) *)
Theorem C35_reader_preference_exclusion : forall n w ps, Z.of_nat n < 2 ^ 61 -> rp_run n (w, ps) -> exclusive rp_writes rp_reads ps.
Proof. exact rp_exclusive. Qed.
Print Assumptions C35_reader_preference_exclusion.
(** Whoever holds it keeps it until that process itself releases it. *)
Theorem C35_reader_preference_kept : forall s ps s' ps' i p, turns rp_step (s, ps) (s', ps') -> nth_error ps i = Some p ->
  rp_writes p || rp_reads p = true -> nth_error ps' i = Some p \/ nth_error ps' i = Some RIdle.
Proof. exact rp_kept. Qed.
Print Assumptions C35_reader_preference_kept.
(** When nobody holds it (and nobody is in the middle of a read request), the word is clear: the
    next writer gets it at once. *)
Theorem C35_reader_preference_free_again : forall n w ps, Z.of_nat n < 2 ^ 61 -> rp_run n (w, ps) ->
  (forall p, In p ps -> p = RIdle \/ p = RWTry \/ p = RRInc) -> w = 0.
Proof. exact rp_free. Qed.
Print Assumptions C35_reader_preference_free_again.

(** C35, writer-preference spin lock. *)
Theorem C35_writer_preference_exclusion : forall n s ps, Z.of_nat n < 2 ^ 61 -> wp_run n (s, ps) -> exclusive wp_writes wp_reads ps.
Proof. exact wp_exclusive. Qed.
Print Assumptions C35_writer_preference_exclusion.
Theorem C35_writer_preference_kept : forall s ps s' ps' i p, turns wp_step (s, ps) (s', ps') -> nth_error ps i = Some p ->
  wp_writes p || wp_reads p = true -> nth_error ps' i = Some p \/ nth_error ps' i = Some WIdle \/ nth_error ps' i = Some WWDec.
Proof. exact wp_kept. Qed.
Print Assumptions C35_writer_preference_kept.
Theorem C35_writer_preference_free_again : forall n w m ps, Z.of_nat n < 2 ^ 61 -> wp_run n (w, m, ps) ->
  (forall p, In p ps -> p = WIdle \/ p = WRWait \/ p = WWInc) -> w = 0 /\ m = 0.
Proof. exact wp_free. Qed.
Print Assumptions C35_writer_preference_free_again.

(** C35, queued lock (shipped configuration).  Missing from the full claim: runs in which a
    process is woken although its own request was not granted (a wake-up meant for the former
    user of its queue cell, or a signal) are left out; see the refutations below. *)
Theorem C35_queued_exclusion_partial : forall n cells base nd s ps, 0 < base -> (0 < cells)%nat ->
  tq_run false false n cells base nd (s, ps) -> exclusive tq_writes tq_reads ps.
Proof. exact tq_exclusive. Qed.
Print Assumptions C35_queued_exclusion_partial.
(** The queue itself is only touched by one process at a time. *)
Theorem C35_queue_sections_exclusive_partial : forall n cells base nd s ps i j p p', 0 < base -> (0 < cells)%nat ->
  tq_run false false n cells base nd (s, ps) -> nth_error ps i = Some p -> nth_error ps j = Some p' ->
  in_section p = true -> in_section p' = true -> i = j.
Proof. exact tq_mutex. Qed.
Print Assumptions C35_queue_sections_exclusive_partial.
Theorem C35_queued_kept : forall late interrupts s ps s' ps' i k l, tq late interrupts (s, ps) (s', ps') ->
  nth_error ps i = Some (THold k l) -> nth_error ps' i = Some (THold k l) \/ nth_error ps' i = Some (TRel k l).
Proof. exact tq_kept. Qed.
Print Assumptions C35_queued_kept.
(** When no call is in progress and nobody holds the lock, every queue cell is free again and
    the next request is granted at once. *)
Theorem C35_queued_free_again_partial : forall n cells base nd s ps k, 0 < base -> (0 < cells)%nat ->
  tq_run false false n cells base nd (s, ps) -> Forall (eq TIdle) ps ->
  q_lock s = 0 /\ exists l s', enqueue k s = Some (l, s') /\ q_waiting (q_nd s' l) = 0.
Proof. exact tq_idle. Qed.
Print Assumptions C35_queued_free_again_partial.

Example C35_nonvacuous_sharing : tq_run false false 3 3 1024 nd0 (end_of ms_share) /\
  snd (end_of ms_share) = [THold lq_read 1024; THold lq_read 1152; TSleep lq_write 1280].
Proof. split; [exact share_run|vm_compute; reflexivity]. Qed.
Example C35_nonvacuous_passing : tq_run false false 3 3 1024 nd0 (end_of ms_pass) /\
  snd (end_of ms_pass) = [TIdle; TIdle; THold lq_write 1280].
Proof. split; [exact pass_run|vm_compute; reflexivity]. Qed.
Example C35_nonvacuous_spin : exists w, rp_run 3 (w, [RRHold; RWTry; RRHold]).
Proof.
  exists 4. unfold rp_run. cbn [repeat].
  eapply rt_trans; [apply rt_step; eapply (turn rp_step _ _ 0%nat); [reflexivity|apply rp_call_r]|].
  eapply rt_trans; [apply rt_step; eapply (turn rp_step _ _ 0%nat); [reflexivity|apply rp_inc]|].
  eapply rt_trans; [apply rt_step; eapply (turn rp_step _ _ 0%nat); [reflexivity|apply rp_check_ok; reflexivity]|].
  eapply rt_trans; [apply rt_step; eapply (turn rp_step _ _ 1%nat); [reflexivity|apply rp_call_w]|].
  eapply rt_trans; [apply rt_step; eapply (turn rp_step _ _ 2%nat); [reflexivity|apply rp_call_r]|].
  eapply rt_trans; [apply rt_step; eapply (turn rp_step _ _ 2%nat); [reflexivity|apply rp_inc]|].
  exact (rt_step _ _ _ _ (turn rp_step 4 [RRHold; RWTry; RRCheck] 2%nat RRCheck 4 RRHold eq_refl (rp_check_ok 4 eq_refl))).
Qed.
Example C35_nonvacuous_spin_wp : exists w m, wp_run 2 (w, m, [WWHold; WRWait]).
Proof.
  exists 1, 1. unfold wp_run. cbn [repeat].
  eapply rt_trans; [apply rt_step; eapply (turn wp_step _ _ 0%nat); [reflexivity|apply wp_call_w]|].
  eapply rt_trans; [apply rt_step; eapply (turn wp_step _ _ 0%nat); [reflexivity|apply wp_inc]|].
  eapply rt_trans; [apply rt_step; eapply (turn wp_step _ _ 0%nat); [reflexivity|apply wp_cas_ok]|].
  exact (rt_step _ _ _ _ (turn wp_step (1, 1) [WWHold; WIdle] 1%nat WIdle (1, 1) WRWait eq_refl (wp_call_r (1, 1)))).
Qed.

(** The full claim is false of the queued lock: a releasing process wakes an address after it
    has left the queue; by then the address may be the cell of another request, whose process
    takes the wake-up for a grant. *)
Theorem C35_queued_exclusion_refuted : exists n cells base nd s ps, 0 < base /\ (0 < cells)%nat /\
  tq_run true false n cells base nd (s, ps) /\ ~ exclusive tq_writes tq_reads ps.
Proof.
  exists 3%nat, 3%nat, 1024, nd0, (fst (end_of ms_late)), (snd (end_of ms_late)). split; [lia|]. split; [lia|]. split.
  - rewrite <- surjective_pairing. exact late_run.
  - intros X. destruct (X 1%nat 2%nat (THold lq_write 1152) (THold lq_write 1024)) as [A _]; try (vm_compute; congruence). vm_compute in A. discriminate.
Qed.
Print Assumptions C35_queued_exclusion_refuted.
(** It is false as well if a waiting process receives a signal. *)
Theorem C35_queued_exclusion_signal_refuted : exists n cells base nd s ps, 0 < base /\ (0 < cells)%nat /\
  tq_run false true n cells base nd (s, ps) /\ ~ exclusive tq_writes tq_reads ps.
Proof.
  exists 3%nat, 3%nat, 1024, nd0, (fst (end_of ms_signal)), (snd (end_of ms_signal)). split; [lia|]. split; [lia|]. split.
  - rewrite <- surjective_pairing. exact signal_run.
  - intros X. destruct (X 0%nat 1%nat (THold lq_write 1024) (THold lq_write 1152)) as [A _]; try (vm_compute; congruence). vm_compute in A. discriminate.
Qed.
Print Assumptions C35_queued_exclusion_signal_refuted.
(** A grant can be lost even without those: a request can be left asleep, and later requests
    behind it, although nobody holds the lock and no release is in progress. *)
Theorem C35_queued_grant_lost_refuted : exists n cells base nd s ps i l, 0 < base /\ (0 < cells)%nat /\
  tq_run false false n cells base nd (s, ps) /\ nth_error ps i = Some (TSleep lq_write l) /\ q_waiting (q_nd s l) = 1 /\
  (forall j p, j <> i -> nth_error ps j = Some p -> p = TIdle) /\
  exists l' s', enqueue lq_write s = Some (l', s') /\ q_waiting (q_nd s' l') = 1.
Proof.
  exists 3%nat, 3%nat, 1024, nd0, (fst (end_of ms_lost)), (snd (end_of ms_lost)), 2%nat, 1280. split; [lia|]. split; [lia|]. split; [|split; [|split; [|split]]].
  - rewrite <- surjective_pairing. exact lost_run.
  - vm_compute; reflexivity.
  - vm_compute; reflexivity.
  - change (snd (end_of ms_lost)) with [TIdle; TIdle; TSleep lq_write 1280].
    intros [|[|[|j]]] p Hj Hp; cbn in Hp; try congruence. destruct j; discriminate.
  - eexists _, _. split; [vm_compute; reflexivity|]. vm_compute. reflexivity.
Qed.
Print Assumptions C35_queued_grant_lost_refuted.
