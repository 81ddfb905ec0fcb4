(** C33: fixed-length allocation. *)
From Coq Require Import List ZArith Bool Lia.
From Verif Require Import Word64 AllocModel AllocSpec AllocProof EncModel EncSpec EncProof PropAllocEx.
Import ListNotations.
Open Scope Z_scope.

(** C33.  After any history of area set-ups, allocations, frees, raw chunks and writes into held
    objects, an allocation returns an aligned object that lies inside the segment and overlaps
    nothing that anybody holds. *)
Theorem C33_allocated_object_is_unused : forall d L k o d', areach (d, L) -> alloc_fixlen d k = AOk o d' ->
  0 < o /\ o mod 8 = 0 /\ o + olen (areas d' k) <= dfree d' <= dsize d' /\
  forall b, In b L -> apart (cell d' k o) b.
Proof. exact alloc_fresh. Qed.
Print Assumptions C33_allocated_object_is_unused.
Example C33_nonvacuous : areach (ad4, [ab2; ab1]) /\ (exists o d', alloc_fixlen ad4 word_area = AOk o d').
Proof.
  split; [exact reach_ad4|]. exists 1040, (of_ares (alloc_fixlen ad4 word_area) ad4).
  apply ares_ok; [vm_compute; reflexivity|lia].
Qed.
Example C33_nonvacuous_growth : (exists L, areach (exhausted, L)) /\ exists d, alloc_fixlen exhausted word_area = AOk 17408 d.
Proof. split; [exact (exhausted_reach 1024)|exact grows]. Qed.

(** No two objects held at the same time overlap. *)
Theorem C33_held_objects_are_disjoint : forall d L, areach (d, L) -> ForallOrdPairs apart L.
Proof. exact all_apart. Qed.
Print Assumptions C33_held_objects_are_disjoint.
Example C33_nonvacuous_held : areach (ad4, [ab2; ab1]) /\ ab1 <> ab2.
Proof. split; [exact reach_ad4|]. intros H. assert (ob_off ab1 = ob_off ab2) as E by congruence. vm_compute in E. discriminate. Qed.

(** No operation changes a word of an object that stays held, except a write to that word. *)
Theorem C33_contents_kept : forall d L d' L' b j, areach (d, L) -> astep (d, L) (d', L') -> In b L -> In b L' ->
  0 <= j -> 8 * j + 8 <= ob_len b ->
  mem d' (ob_off b + 8 * j) = mem d (ob_off b + 8 * j) \/
  exists v, d' = set_mem d (store (mem d) (ob_off b + 8 * j) v).
Proof. exact contents_kept. Qed.
Print Assumptions C33_contents_kept.
Example C33_nonvacuous_kept : exists d' L', astep (ad4, [ab2; ab1]) (d', L') /\ In ab2 L' /\ 8 * 0 + 8 <= ob_len ab2.
Proof.
  exists ad5, [ab2]. split; [|split; [simpl; auto|vm_compute; discriminate]].
  rewrite ab1_cell. exact (as_free ad4 [ab2] [] word_area 1024).
Qed.

(** Every freed cell becomes available again: an object once held and no longer held is
    returned by some sequence of allocations that takes no further memory from the segment. *)
Theorem C33_freed_cell_returns : forall d L k o d' L', areach (d, L) -> In (cell d k o) L ->
  asteps (d, L) (d', L') -> ~ In (cell d' k o) L' ->
  exists n os d'', alloc_many n d' k = Some (os, d'') /\ In o os /\ dfree d'' = dfree d'.
Proof. exact freed_returns. Qed.
Print Assumptions C33_freed_cell_returns.
Example C33_nonvacuous_freed : areach (ad4, [ab2; ab1]) /\ In (cell ad4 word_area 1024) [ab2; ab1] /\
  asteps (ad4, [ab2; ab1]) (ad5, [ab2]) /\ ~ In (cell ad5 word_area 1024) [ab2].
Proof. split; [exact reach_ad4|]. split; [rewrite ab1_cell; simpl; auto|]. split; [exact steps_ad5|exact ad5_not]. Qed.

(** The search for a chunk and the linking of cells come to an end. *)
Theorem C33_allocation_ends : forall d L k, areach (d, L) -> alloc_fixlen d k <> AFuel.
Proof. exact never_fuel. Qed.
Print Assumptions C33_allocation_ends.
