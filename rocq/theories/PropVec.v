(** C38: growable vectors. *)
From Coq Require Import List ZArith Bool Lia.
From Verif Require Import Word64 VecModel VecSpec VecProof.
Import ListNotations.
Open Scope Z_scope.

(** C38.  After any sequence of successful stores, every index holds what was stored there last;
    elements never stored are zero in a new vector.  Indexes go up to 2^30. *)
Theorem C38_vector_keeps_contents : forall len h v i e, vec_run len h v -> 1 <= i -> stored h i = Some e -> rd v i = Some e.
Proof. exact vec_kept. Qed.
Print Assumptions C38_vector_keeps_contents.
Theorem C38_new_vector_is_zero : forall len h v i, vec_run len h v -> 1 <= i <= len -> stored h i = None -> rd v i = Some 0.
Proof. exact vec_fresh. Qed.
Print Assumptions C38_new_vector_is_zero.
(** A store is well defined, and fails only if the allocator does. *)
Theorem C38_store_is_defined : forall len h v i e ok junk, vec_run len h v -> 1 <= i <= index_max ->
  (exists v', vec_store ok junk v i e = VOk v') \/ (vec_store ok junk v i e = VFail /\ ok = false).
Proof. exact vec_store_defined. Qed.
Print Assumptions C38_store_is_defined.
(** The same for counting vectors, where a push stores at one more than the largest index so far. *)
Theorem C38_counting_vector_keeps_contents : forall len h v i e, cvec_run len h v -> stored h i = Some e -> rd v i = Some e.
Proof. exact cvec_kept. Qed.
Print Assumptions C38_counting_vector_keeps_contents.
Theorem C38_next_free_index : forall len h v, cvec_run len h v -> rd v 1 = Some (next_index h).
Proof. exact cvec_next. Qed.
Print Assumptions C38_next_free_index.
Theorem C38_push_appends : forall len h v e ok junk, cvec_run len h v -> next_index h < index_max ->
  (exists v', cvec_push ok junk v e = VOk v' /\ cvec_run len ((next_index h, e) :: h) v') \/
  (cvec_push ok junk v e = VFail /\ ok = false).
Proof. exact cvec_push_defined. Qed.
Print Assumptions C38_push_appends.
Theorem C38_counting_store_is_defined : forall len h v i e ok junk, cvec_run len h v -> 2 <= i < index_max ->
  (exists v', cvec_store ok junk v i e = VOk v') \/ (cvec_store ok junk v i e = VFail /\ ok = false).
Proof. exact cvec_store_defined. Qed.
Print Assumptions C38_counting_store_is_defined.
(** A vector used as a buffer: a new block lies inside and clear of the blocks taken before. *)
Theorem C38_buffer_blocks_are_disjoint : forall len bs v n pos v', buf_run len bs v -> 0 <= n <= index_max ->
  alloc_from_cvec v n = Some (pos, v') ->
  2 <= pos /\ pos + n < len /\ (forall i, pos <= i < pos + n -> exists e, rd v' i = Some e) /\
  forall p m, In (p, m) bs -> p + m <= pos.
Proof. exact buf_fresh. Qed.
Print Assumptions C38_buffer_blocks_are_disjoint.

Definition vj : nat -> Z := fun n => Z.of_nat n - 7.
Definition vget (r : vres) : vec := match r with VOk v => v | _ => [] end.
Example C38_nonvacuous : vec_run 2 [(9, 55); (1, 44)] (vget (vec_store true vj (vget (vec_store true vj (vec_new 2) 1 44)) 9 55)).
Proof.
  eapply (vr_store 2 _ _ 9 55 true vj); [eapply (vr_store 2 _ _ 1 44 true vj); [apply vr_new; unfold index_max; lia|unfold index_max; lia|reflexivity]|unfold index_max; lia|reflexivity].
Qed.
Definition cv1 := vget (cvec_push true vj (cvec_new 2 vj) 1).
Definition cv2 := vget (cvec_store true vj cv1 3 2).
Definition cv3 := vget (cvec_push true vj cv2 3).
Example C38_nonvacuous_counting : cvec_run 2 [(4, 3); (3, 2); (2, 1)] cv3 /\ rd cv3 4 = Some 3.
Proof.
  pose proof (cr_new 2 vj ltac:(unfold index_max; lia)) as R0.
  pose proof (cr_push 2 _ _ 2 1 true vj cv1 R0 eq_refl ltac:(unfold index_max; lia) eq_refl) as R1.
  pose proof (cr_store 2 _ _ 3 2 true vj cv2 R1 ltac:(unfold index_max; lia) eq_refl) as R2.
  split; [exact (cr_push 2 _ _ 4 3 true vj cv3 R2 eq_refl ltac:(unfold index_max; lia) eq_refl)|reflexivity].
Qed.
Definition bget (o : option (Z * vec)) : vec := match o with Some (_, v) => v | None => [] end.
Definition bv1 := bget (alloc_from_cvec (cvec_new 20 vj) 5).
Definition bv2 := bget (alloc_from_cvec bv1 3).
Example C38_nonvacuous_buffer : buf_run 20 [(7, 3); (2, 5)] bv2 /\ alloc_from_cvec bv2 4 = Some (10, bget (alloc_from_cvec bv2 4)).
Proof.
  pose proof (br_new 20 vj ltac:(unfold index_max; lia)) as R0.
  pose proof (br_alloc 20 _ _ 5 2 bv1 R0 ltac:(unfold index_max; lia) eq_refl) as R1.
  split; [exact (br_alloc 20 _ _ 3 7 bv2 R1 ltac:(unfold index_max; lia) eq_refl)|reflexivity].
Qed.
