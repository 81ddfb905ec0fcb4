(** Concrete runs of the locks. *)
From Coq Require Import List ZArith Bool Relations.
From Verif Require Import Word64 LockModel LockSpec LockProof.
Import ListNotations.
Open Scope Z_scope.

Definition nd0 : Z -> qnode := fun _ => {| q_cell := 0; q_class := 0; q_waiting := 0; q_next := 0; q_prev := 0 |}.
Definition lk0 : qshared := init_locks 3 128 1024 nd0.
Definition call (i : nat) (k : Z) : list mv2 := [M1 i (MCall k); M1 i MStep; M1 i MStep; M1 i MStep; M1 i MStep].
Definition sleep_now (i : nat) : list mv2 := [M1 i MStep].
Definition give_back (i : nat) : list mv2 := [M1 i MStep; M1 i MStep; M1 i MStep; M1 i MStep].
Definition get {A} (o : option A) (d : A) : A := match o with Some x => x | None => d end.
Definition end_of (ms : list mv2) : qshared * list tpc := get (gos (lk0, repeat TIdle 3) ms) (lk0, []).

(** Two readers share the lock, a writer sleeps behind them. *)
Definition ms_share := call 0 lq_read ++ call 1 lq_read ++ call 2 lq_write ++ sleep_now 2.
(** The same, after both have released and the writer was woken. *)
Definition ms_pass := ms_share ++ give_back 0 ++ [M1 0 MStep] ++ give_back 1 ++ [M2 1 2].

(** Process 0 releases and is delayed just before its futex_wake; by then the cell of the
    process it has to wake belongs to another request. *)
Definition ms_late := call 0 lq_write ++ call 1 lq_write ++ give_back 0
  ++ [M1 1 MStep]                                       (* 1 did not sleep yet: EAGAIN, it has the lock *)
  ++ call 2 lq_write ++ sleep_now 2
  ++ give_back 1 ++ [M2 1 2]                            (* 2 has the lock *)
  ++ call 1 lq_write ++ sleep_now 1                     (* 1 asks again, gets its old cell, sleeps *)
  ++ [M2 0 1].                                          (* the delayed wake-up *)
(** A signal reaches a process waiting behind a writer. *)
Definition ms_signal := call 0 lq_write ++ call 1 lq_write ++ sleep_now 1 ++ [M1 1 MSignal].
(** 1 times out; before it has left the queue, 0 releases to it; 2 is never told. *)
Definition ms_lost := call 0 lq_write ++ call 1 lq_write ++ sleep_now 1 ++ call 2 lq_write ++ sleep_now 2
  ++ [M1 1 MTimeout] ++ give_back 0 ++ [M1 0 MStep] ++ [M1 1 MStep; M1 1 MStep; M1 1 MStep].

Lemma run_of late ints ms : gos (lk0, repeat TIdle 3) ms <> None -> (any_late (lk0, repeat TIdle 3) ms = true -> late = true) ->
  (existsb signals ms = true -> ints = true) -> tq_run late ints 3 3 1024 nd0 (end_of ms).
Proof.
  intros H Hl Hs. unfold tq_run, end_of. destruct (gos _ ms) as [c|] eqn:E; [|congruence]. cbn [get].
  eapply gos_ok; eauto.
Qed.
Lemma share_run : tq_run false false 3 3 1024 nd0 (end_of ms_share).
Proof. apply run_of; vm_compute; congruence. Qed.
Lemma pass_run : tq_run false false 3 3 1024 nd0 (end_of ms_pass).
Proof. apply run_of; vm_compute; congruence. Qed.
Lemma late_run : tq_run true false 3 3 1024 nd0 (end_of ms_late).
Proof. apply run_of; vm_compute; congruence. Qed.
Lemma signal_run : tq_run false true 3 3 1024 nd0 (end_of ms_signal).
Proof. apply run_of; vm_compute; congruence. Qed.
Lemma lost_run : tq_run false false 3 3 1024 nd0 (end_of ms_lost).
Proof. apply run_of; vm_compute; congruence. Qed.
