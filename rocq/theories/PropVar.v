(** C34: variable-length allocation. *)
From Coq Require Import List ZArith Bool Lia.
From Verif Require Import Word64 AllocModel VarModel VarSpec VarEnd.
Import ListNotations.
Open Scope Z_scope.

(* ---- a segment and some histories in it ---- *)
Definition vaddr (i : Z) : Z := 16 + 8 * i.
Definition vd0 : db := {| mem := fun _ => 0; dfree := 4096; dsize := 40000; areas := fun _ => {| olen := 0; flist := 0; subs := [] |} |}.
Definition vstart : vdb := match create_varlen vaddr 0 vd0 with Some v => v | None => {| base := vd0; bkt := fun _ => 0; dv := 0; dvs := 0 |} end.
Definition isvar (h : how) : bool := match h with FromVarBucket => false | _ => true end.
Definition reachb (ba : how -> bool) (bf : bool -> bool) (l : list op) : vdb * held :=
  match run vaddr 0 ba bf (vstart, []) l with Some s => s | None => (vstart, []) end.
Lemma reachb_ok ba bf (ca : how -> Prop) (cf : bool -> Prop) l : (forall h, ba h = true -> ca h) -> (forall m, bf m = true -> cf m) ->
  match run vaddr 0 ba bf (vstart, []) l with Some _ => true | None => false end = true ->
  vreach vaddr 0 ca cf (reachb ba bf l).
Proof.
  intros H1 H2 E. unfold reachb. destruct (run vaddr 0 ba bf (vstart, []) l) as [s|] eqn:Er; [|discriminate].
  exists vd0, vstart. split; [repeat split; cbn; try lia|]. split; [reflexivity|]. eapply run_ok; eassumption.
Qed.
Definition not_from_mixed (h : how) : Prop := h <> FromVarBucket.
Definition not_marked (m : bool) : Prop := m = false.
Lemma tame1 : tame not_from_mixed any_mark. Proof. left. auto. Qed.
Lemma tame2 : tame any_way not_marked. Proof. right. auto. Qed.
Lemma isvar_ok h : isvar h = true -> not_from_mixed h. Proof. destruct h; discriminate. Qed.
(** Four objects, one of them freed between two others, one of the freed size taken back. *)
Definition ops1 := [OAlloc 6; OAlloc 10; OAlloc 1; OAlloc 620; OFree 4176 10; OAlloc 3; OAlloc 700; OFree 4288 620; OWrite 4128 6 5 77].
Definition s1 := reachb isvar (fun _ => true) ops1.
Definition ops2 := [OAlloc 620; OAlloc 64; OAlloc 4; OFree 9088 64; OAlloc 328; OAlloc 64; OWrite 9088 64 63 4800].
Definition s2 := reachb (fun _ => true) negb ops2.
Lemma s1_reach : vreach vaddr 0 not_from_mixed any_mark s1.
Proof. apply reachb_ok; [exact isvar_ok|constructor|vm_compute; reflexivity]. Qed.
Definition s1b := reachb isvar (fun _ => true) (ops1 ++ [OAlloc 1340]).
Lemma s1b_reach : vreach vaddr 0 not_from_mixed any_mark s1b.
Proof. apply reachb_ok; [exact isvar_ok|constructor|vm_compute; reflexivity]. Qed.
Lemma s2_reach : vreach vaddr 0 any_way not_marked s2.
Proof. apply reachb_ok; [constructor|intros [|] H; [discriminate|reflexivity]|vm_compute; reflexivity]. Qed.

(** C34, part.  In every history in which no object of exactly the wanted size is taken from a
    bucket of mixed sizes, or no object marked as following a free block is freed: the objects held
    are pairwise disjoint, lie inside a chunk of the area and have at least the size asked for,
    which their head word records. *)
Theorem C34_held_objects_partial : forall baddr k can_alloc can_free v L, tame can_alloc can_free ->
  vreach baddr k can_alloc can_free (v, L) ->
  ForallOrdPairs apartz L /\
  forall o n, In (o, n) L -> 0 < o /\ o mod 8 = 0 /\ pure_size (ld v o) = 8 * n /\
    exists s, In s (subs (areas (base v) k)) /\ inside (o, n) s.
Proof. intros baddr k ca cf v L T H. exact (end_held baddr k ca cf T v L H). Qed.
Print Assumptions C34_held_objects_partial.
Example C34_nonvacuous_held1 : tame not_from_mixed any_mark /\ vreach vaddr 0 not_from_mixed any_mark s1 /\
  snd s1 = [(12320, 700); (9248, 3); (4256, 1); (4128, 6)] /\ length (subs (areas (base (fst s1)) 0)) = 2%nat.
Proof. split; [exact tame1|]. split; [exact s1_reach|]. split; vm_compute; reflexivity. Qed.
Example C34_nonvacuous_held2 : tame any_way not_marked /\ vreach vaddr 0 any_way not_marked s2 /\
  snd s2 = [(9088, 64); (9632, 328); (9600, 4); (4128, 620)].
Proof. split; [exact tame2|]. split; [exact s2_reach|]. vm_compute. reflexivity. Qed.

(** In those histories an allocation ends; what it returns is aligned, inside the area and apart from
    everything held; and the words of the objects held, but for the allocator's head word, stay as
    they are. *)
Theorem C34_allocation_partial : forall baddr k can_alloc can_free v L n, tame can_alloc can_free ->
  vreach baddr k can_alloc can_free (v, L) -> 0 <= n < 2 ^ 36 ->
  match alloc_gints baddr k 65 v n with
  | VOk h o v' => 0 < o /\ o mod 8 = 0 /\ Forall (apartz (o, n)) L /\
      (exists s, In s (subs (areas (base v') k)) /\ inside (o, n) s) /\
      (forall o1 n1 j, In (o1, n1) L -> 1 <= j < n1 -> ld v' (o1 + 8 * j) = ld v (o1 + 8 * j))
  | VFail v' => forall o1 n1 j, In (o1, n1) L -> 1 <= j < n1 -> ld v' (o1 + 8 * j) = ld v (o1 + 8 * j)
  | VFuel | VUB => False
  end.
Proof. intros baddr k ca cf v L n T H. exact (end_alloc baddr k ca cf T v L n H). Qed.
Print Assumptions C34_allocation_partial.
Definition how_of (r : vres) : option (how * Z) := match r with VOk h o _ => Some (h, o) | _ => None end.
Example C34_nonvacuous_allocation : vreach vaddr 0 not_from_mixed any_mark s1 /\
  how_of (alloc_gints vaddr 0 65 (fst s1) 10) = Some (FromBucket, 4176) /\
  vreach vaddr 0 not_from_mixed any_mark s1b /\
  how_of (alloc_gints vaddr 0 65 (fst s1b) 4) = Some (FromSplit, 4176) /\ how_of (alloc_gints vaddr 0 65 (fst s1b) 600) = Some (FromSplit, 4288) /\
  how_of (alloc_gints vaddr 0 65 (fst s1) 3000) = None /\
  how_of (alloc_gints vaddr 0 65 vstart 7) = Some (FromVictim, 4128).
Proof. split; [exact s1_reach|]. split; [vm_compute; reflexivity|]. split; [exact s1b_reach|]. repeat split; vm_compute; reflexivity. Qed.

(** In those histories freeing a held object succeeds and keeps the words of the objects that stay
    held, or is refused with code -4; and it is refused only if the object is marked as following a
    free block. *)
Theorem C34_free_partial : forall baddr k can_alloc can_free v L1 L2 o n, tame can_alloc can_free ->
  vreach baddr k can_alloc can_free (v, L1 ++ (o, n) :: L2) -> can_free (is_used_prevfree (ld v o)) ->
  (free_object baddr v o = FErr (-4) /\ is_used_prevfree (ld v o) = true) \/
  exists v', free_object baddr v o = FOk v' /\
    forall o1 n1 j, In (o1, n1) (L1 ++ L2) -> 1 <= j < n1 -> ld v' (o1 + 8 * j) = ld v (o1 + 8 * j).
Proof. intros baddr k ca cf v L1 L2 o n T H. exact (end_free baddr k ca cf T v L1 L2 o n H). Qed.
Print Assumptions C34_free_partial.
Definition freed (r : fres) : bool := match r with FOk _ => true | _ => false end.
Example C34_nonvacuous_free : vreach vaddr 0 not_from_mixed any_mark s1 /\ snd s1 = [(12320, 700); (9248, 3)] ++ (4256, 1) :: [(4128, 6)] /\
  freed (free_object vaddr (fst s1) 12320) = true /\ freed (free_object vaddr (fst s1) 4128) = true.
Proof. split; [exact s1_reach|]. repeat split; vm_compute; reflexivity. Qed.

(** C34 is false of all histories: an object of exactly the wanted size taken from a bucket of mixed
    sizes leaves the mark of the object after it; freeing that one then reads the user's data as
    the length of a free block, and a held object is merged and given out again. *)
Definition ops3 := ops2 ++ [OWrite 4128 620 84 1; OWrite 4128 620 85 0; OWrite 4128 620 86 4800; OFree 9600 4; OAlloc 10].
Definition s3 := reachb (fun _ => true) (fun _ => true) ops3.
Theorem C34_refuted : exists baddr k v o n o' n' L, vreach baddr k any_way any_mark (v, (o, n) :: L) /\
  In (o', n') L /\ ~ apartz (o, n) (o', n').
Proof.
  exists vaddr, 0%nat, (fst s3), 4800, 10, 4128, 620, [(9088, 64); (9632, 328); (4128, 620)].
  split; [|split; [cbn; auto|unfold apartz, room; cbn; lia]].
  assert (E : snd s3 = (4800, 10) :: [(9088, 64); (9632, 328); (4128, 620)]) by (vm_compute; reflexivity).
  rewrite <- E, <- surjective_pairing. apply reachb_ok; [constructor|constructor|vm_compute; reflexivity].
Qed.
Print Assumptions C34_refuted.

(** A held object may be impossible to free: the size of the free block before it is computed from
    that block's offset, so it is refused with -4 unless the two happen to be equal. *)
Definition ops4 := [OAlloc 6; OAlloc 10; OAlloc 5; OFree 4176 10].
Definition s4 := reachb isvar (fun _ => true) ops4.
Theorem C34_free_refused_refuted : exists baddr k v o n L, vreach baddr k not_from_mixed any_mark (v, (o, n) :: L) /\
  free_object baddr v o = FErr (-4).
Proof.
  exists vaddr, 0%nat, (fst s4), 4256, 5, [(4128, 6)]. split; [|vm_compute; reflexivity].
  assert (E : snd s4 = [(4256, 5); (4128, 6)]) by (vm_compute; reflexivity).
  rewrite <- E, <- surjective_pairing. apply reachb_ok; [exact isvar_ok|constructor|vm_compute; reflexivity].
Qed.
Print Assumptions C34_free_refused_refuted.
