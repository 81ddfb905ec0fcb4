(** A concrete run of the queue: three pushes and a pick. *)
From Coq Require Import List ZArith Bool Lia.
From Verif Require Import QueueModel QueueSpec.
Import ListNotations.
Open Scope Z_scope.

Definition qj : nat -> Z := fun _ => 99.
Definition qget (o : option queue) : queue := match o with Some q => q | None => make_queue 0 0 end.
Definition qd0 := make_queue 5 0.
Definition qd1 := qget (push true qj qd0 1000 3).
Definition qd2 := qget (push true qj qd1 2000 1).
Definition qd3 := qget (push true qj qd2 3000 77).
Definition qd4 := qget (push true qj qd3 4000 1).
Definition qgiven (c : Z) := c =? 2000.

Lemma run_qd4 : qrun 5 0 [(3, 1000); (1, 2000); (5, 3000); (1, 4000)] [] [] [(3, 1000); (1, 2000); (5, 3000); (1, 4000)] qd4.
Proof.
  pose proof (q_new 5 0 ltac:(lia)) as R0.
  pose proof (q_push 5 0 _ _ _ _ _ true qj 1000 3 qd1 R0 ltac:(lia) eq_refl) as R1.
  pose proof (q_push 5 0 _ _ _ _ _ true qj 2000 1 qd2 R1 ltac:(lia) eq_refl) as R2.
  pose proof (q_push 5 0 _ _ _ _ _ true qj 3000 77 qd3 R2 ltac:(lia) eq_refl) as R3.
  exact (q_push 5 0 _ _ _ _ _ true qj 4000 1 qd4 R3 ltac:(lia) eq_refl).
Qed.
Lemma pick_qd4 : exists q, pick qgiven qd4 = Some (Some 4000, q).
Proof. eexists. reflexivity. Qed.
