(** C28: the weight-ordered queue. *)
From Coq Require Import List ZArith Bool Lia Permutation.
From Verif Require Import QueueModel QueueSpec QueueProof PropQueueEx.
Import ListNotations.
Open Scope Z_scope.

(** C28.  After any history of pushes and picks, a pick comes to an end, and returns a waiting
    clause not given before than which no other such clause is lighter, and which is the oldest of its
    weight.  (Weights above the limit count as the limit.) *)
Theorem C28_pick_is_lightest_and_oldest : forall maxprior keep In0 Out D P q given c q',
  qrun maxprior keep In0 Out D P q -> pick given q = Some (Some c, q') ->
  exists A w B, P = A ++ (w, c) :: B /\ given c = false /\
    (forall w' c', In (w', c') P -> given c' = false -> w <= w') /\
    (forall c', In (w, c') A -> given c' = true).
Proof. exact picked_order. Qed.
Print Assumptions C28_pick_is_lightest_and_oldest.
Theorem C28_empty_pick_means_none_left : forall maxprior keep In0 Out D P q given q',
  qrun maxprior keep In0 Out D P q -> pick given q = Some (None, q') -> forall e, In e P -> given (snd e) = true.
Proof. exact empty_pick. Qed.
Print Assumptions C28_empty_pick_means_none_left.
(** Every pick continues the history: it takes the entry picked and drops given ones only. *)
Theorem C28_every_pick_follows_the_specification : forall maxprior keep In0 Out D P q given,
  qrun maxprior keep In0 Out D P q ->
  exists r q' P' D', pick given q = Some (r, q') /\ picks given P r P' D' /\
    qrun maxprior keep In0 (match r with Some c => c :: Out | None => Out end) (D' ++ D) P' q'.
Proof. exact pick_lightest. Qed.
Print Assumptions C28_every_pick_follows_the_specification.
(** Nothing is lost or duplicated: what was pushed is what was picked, what was dropped as
    given before, and what still waits. *)
Theorem C28_nothing_lost : forall maxprior keep In0 Out D P q, qrun maxprior keep In0 Out D P q ->
  Permutation (map snd In0) (Out ++ map snd D ++ map snd P).
Proof. exact nothing_lost. Qed.
Print Assumptions C28_nothing_lost.
Example C28_nonvacuous :
  qrun 5 0 [(3, 1000); (1, 2000); (5, 3000); (1, 4000)] [] [] [(3, 1000); (1, 2000); (5, 3000); (1, 4000)] qd4 /\
  exists q, pick qgiven qd4 = Some (Some 4000, q).
Proof. split; [exact run_qd4|exact pick_qd4]. Qed.
