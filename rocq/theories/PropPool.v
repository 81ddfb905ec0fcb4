(** C43: the parsers' memory pool. *)
From Coq Require Import List ZArith Bool Lia.
From Verif Require Import Word64 PoolModel PoolSpec PoolProof.
Import ListNotations.
Open Scope Z_scope.

(** C43.  In every history of a pool no two blocks overlap, and every block is aligned and lies
    inside one of the subareas. *)
Theorem C43_blocks_are_disjoint : forall bs m, prun bs m -> ForallOrdPairs separate bs.
Proof. exact pool_disjoint. Qed.
Print Assumptions C43_blocks_are_disjoint.
Theorem C43_blocks_are_inside : forall bs m b, prun bs m -> In b bs ->
  0 < snd b /\ fst b mod 4 = 0 /\ exists s, In s (areas m) /\ within b (s_start s) (s_end s).
Proof. exact pool_inside. Qed.
Print Assumptions C43_blocks_are_inside.
(** Nothing undefined happens while the newest subarea has less than 2^31 bytes. *)
Theorem C43_allocation_is_defined : forall bs m n a, prun bs m -> n < 2 ^ 31 - 4 ->
  s_end (cur m) - s_start (cur m) < 2 ^ 31 -> alloc_pool m n a <> MUB.
Proof. exact pool_defined. Qed.
Print Assumptions C43_allocation_is_defined.

Definition pget (r : mres) (m : pool) : pool := match r with MOk _ m => m | _ => m end.
Definition pm0 : pool := {| freeptr := 4096; cur := {| s_size := 2 ^ 30; s_start := 4096; s_end := 4096 + 2 ^ 30 |}; older := [] |}.
Definition pm1 := pget (alloc_pool pm0 (2 ^ 30 - 10) 0) pm0.
Definition pm2 := pget (alloc_pool pm1 16 (2 ^ 40 + 1)) pm1.
Lemma run_pm2 : prun [(2 ^ 40 + 4, 16); (4096, 2 ^ 30 - 10)] pm2.
Proof.
  assert (R0 : prun [] pm0) by (apply (p_new (2 ^ 30) 4096); [lia|lia|reflexivity]).
  assert (R1 : prun [(4096, 2 ^ 30 - 10)] pm1).
  { apply (p_alloc [] pm0 (2 ^ 30 - 10) 0 4096 pm1); [exact R0|lia|intros; left; auto|vm_compute; reflexivity]. }
  apply (p_alloc [(4096, 2 ^ 30 - 10)] pm1 16 (2 ^ 40 + 1) (2 ^ 40 + 4) pm2); [exact R1|lia| |vm_compute; reflexivity].
  intros size E. right. split; [lia|]. assert (size = 2 ^ 31) by (vm_compute in E; inversion E; reflexivity). subst.
  intros s [<-|[]]. vm_compute. right. discriminate.
Qed.
Example C43_nonvacuous : prun [(2 ^ 40 + 4, 16); (4096, 2 ^ 30 - 10)] pm2 /\ length (older pm2) = 1%nat.
Proof. split; [exact run_pm2|reflexivity]. Qed.
(** Finding: a subarea of 2^31 bytes or more is recorded with a negative int size, and the next
    extension overflows (in practice it asks for 0 bytes and hands out memory outside the pool). *)
Theorem C43_huge_pool_refuted : exists bs m n, prun bs m /\ 0 < n < 2 ^ 31 - 4 /\ forall a, alloc_pool m n a = MUB.
Proof.
  exists [(2 ^ 40 + 4, 16); (4096, 2 ^ 30 - 10)], pm2, (2 ^ 31 - 8). split; [exact run_pm2|]. split; [lia|].
  intros a. vm_compute. reflexivity.
Qed.
Print Assumptions C43_huge_pool_refuted.
