(** Vocabulary for the properties of database files (C55). *)
From Coq Require Import Bool Arith ZArith List.
Import ListNotations.
Open Scope Z_scope.

Definition byte (b : Z) : Prop := 0 <= b < 256.

(** The [k] bytes from place [o] on are those of the signed number [z], the least one first. *)
Definition holds (t : list Z) (o k : nat) (z : Z) : Prop :=
  - 2 ^ (8 * Z.of_nat k - 1) <= z < 2 ^ (8 * Z.of_nat k - 1) /\
  forall j, (j < k)%nat -> nth_error t (o + j) = Some ((z / 256 ^ Z.of_nat j) mod 256).

Definition among (i o k : nat) : Prop := (o <= i < o + k)%nat.

(** Two texts of one length that agree except for the [k] bytes from place [o] on. *)
Definition differ_within (t t' : list Z) (o k : nat) : Prop :=
  length t = length t' /\ forall i, ~ among i o k -> nth_error t i = nth_error t' i.

(** The header: its size, the place of the lock fields and of the number of linked databases in it. *)
Definition header_layout (hsize o_locks o_extdbs : nat) : Prop :=
  8192 <= Z.of_nat hsize /\ (32 <= o_locks)%nat /\ (o_locks + 40 <= o_extdbs)%nat /\ (o_extdbs + 8 <= hsize)%nat.

(** The lock area: a word at [ql] and [mx] cells of 128 bytes from [st] on. *)
Record lock_area (hsize o_locks : nat) (m : list Z) (n ql st mx : nat) : Prop := {
  l_queue : holds m (o_locks + 8) 8 (Z.of_nat ql);
  l_storage : holds m (o_locks + 16) 8 (Z.of_nat st);
  l_max : holds m (o_locks + 24) 8 (Z.of_nat mx);
  l_word : (hsize <= ql)%nat /\ (ql + 8 <= st)%nat;
  l_cells : (1 <= mx)%nat /\ (st + 128 * mx <= n)%nat
}.
(** A database in memory, of which the first [n] bytes are in use. *)
Record database (hsize o_locks o_extdbs : nat) (m : list Z) (n ql st mx : nat) : Prop := {
  d_bytes : Forall byte m;
  d_mark : holds m 0 4 1232319011;
  d_version : holds m 4 4 131073;
  d_features : holds m 8 4 47;
  d_checksum : holds m 12 4 0;
  d_size : holds m 16 8 (Z.of_nat (length m));
  d_free : holds m 24 8 (Z.of_nat n);
  d_fits : (hsize <= n <= length m)%nat;
  d_alone : holds m o_extdbs 8 0;
  d_locks : lock_area hsize o_locks m n ql st mx
}.
(** The places in the lock area that change as locks are taken and given back. *)
Definition lock_state (o_locks ql st mx : nat) (i : nat) : Prop :=
  among i o_locks 8 \/ among i (o_locks + 32) 8 \/ among i ql 8 \/
  exists j, (j < mx)%nat /\ among i (st + 128 * j) 8.
(** No lock is taken: the queue is empty and all cells are chained on the list of free ones. *)
Record no_locks (o_locks : nat) (m : list Z) (ql st mx : nat) : Prop := {
  n_tail : holds m o_locks 8 0;
  n_word : holds m ql 8 0;
  n_free : holds m (o_locks + 32) 8 (Z.of_nat st);
  n_chain : forall j, (S j < mx)%nat -> holds m (st + 128 * j) 8 (Z.of_nat (st + 128 * S j));
  n_last : holds m (st + 128 * (mx - 1)) 8 0
}.
