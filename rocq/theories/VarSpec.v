(** Histories of an area of variable-length objects.  Specification vocabulary for C34. *)
From Coq Require Import List ZArith Bool.
From Verif Require Import Word64 AllocModel VarModel.
Import ListNotations.
Open Scope Z_scope.

(** An object somebody holds: its offset and the number of words asked for, the first of which is
    the allocator's head word. *)
Definition held := list (Z * Z).
(** The bytes an object of [n] words takes. *)
Definition room (n : Z) : Z := Z.max 32 (8 * n).
Definition apartz (a b : Z * Z) : Prop := fst a + room (snd a) <= fst b \/ fst b + room (snd b) <= fst a.
Definition inside (a : Z * Z) (s : subarea) : Prop :=
  sa_aoffset s <= fst a /\ fst a + room (snd a) <= sa_aoffset s + sa_asize s.

Section Histories.
Variables (baddr : Z -> Z) (k : nat).
(** A segment of at most 2^40 bytes in which the area is not yet set up. *)
Definition fresh_segment (d : db) : Prop :=
  0 < dfree d <= dsize d /\ dsize d <= 2 ^ 40 /\ dfree d mod 8 = 0 /\ subs (areas d k) = [].

(** [can_alloc h]: the ways of finding an object a history may use; [can_free m]: whether it may
    free an object whose head word says ([m]) that the block before it is free. *)
Variables (can_alloc : how -> Prop) (can_free : bool -> Prop).
Inductive vstep : vdb * held -> vdb * held -> Prop :=
| vs_alloc v L n h o v' : 0 <= n < 2 ^ 36 -> can_alloc h -> alloc_gints baddr k 65 v n = VOk h o v' ->
    vstep (v, L) (v', (o, n) :: L)
| vs_alloc_fail v L n v' : 0 <= n < 2 ^ 36 -> alloc_gints baddr k 65 v n = VFail v' -> vstep (v, L) (v', L)
| vs_free v L1 L2 o n v' : can_free (is_used_prevfree (ld v o)) -> free_object baddr v o = FOk v' ->
    vstep (v, L1 ++ (o, n) :: L2) (v', L1 ++ L2)
| vs_write v L o n j x : In (o, n) L -> 1 <= j < n -> vstep (v, L) (st v (o + 8 * j) x, L)
(** the other areas take chunks and use their memory *)
| vs_other v L d : areas d k = areas (base v) k -> dsize d = dsize (base v) ->
    dfree (base v) <= dfree d <= dsize d -> dfree d mod 8 = 0 ->
    (forall s p, In s (subs (areas d k)) -> sa_aoffset s <= p < sa_aoffset s + sa_asize s ->
       mem d p = mem (base v) p) ->
    vstep (v, L) (with_base v d, L).

Inductive vsteps : vdb * held -> vdb * held -> Prop :=
| vs_refl s : vsteps s s
| vs_step s t u : vsteps s t -> vstep t u -> vsteps s u.
Definition vreach (s : vdb * held) : Prop :=
  exists d v, fresh_segment d /\ create_varlen baddr k d = Some v /\ vsteps (v, []) s.
End Histories.
Definition any_way (h : how) : Prop := True.
Definition any_mark (m : bool) : Prop := True.
(** Histories that either never take an object of exactly the wanted size from a bucket of mixed
    sizes, or never free an object marked as having a free block before it. *)
Definition tame (can_alloc : how -> Prop) (can_free : bool -> Prop) : Prop :=
  (forall h, can_alloc h -> h <> FromVarBucket) \/ (forall m, can_free m -> m = false).
