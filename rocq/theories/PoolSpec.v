(** Histories of a pool: which blocks have been handed out. *)
From Coq Require Import List ZArith Bool.
From Verif Require Import Word64 PoolModel.
Import ListNotations.
Open Scope Z_scope.

(** Blocks (start, length). *)
Definition separate (b c : Z * Z) : Prop := fst b + snd b <= fst c \/ fst c + snd c <= fst b.
Definition within (b : Z * Z) (lo hi : Z) : Prop := lo <= fst b /\ fst b + snd b <= hi.
Definition areas (m : pool) : list sub := cur m :: older m.

(** malloc returns nothing, or a region clear of the pool's other subareas. *)
Definition malloc_ok (m : pool) (size a : Z) : Prop :=
  a = 0 \/ (0 < a /\ forall s, In s (areas m) -> separate (a, size) (s_start s, s_end s - s_start s)).

Inductive prun : list (Z * Z) -> pool -> Prop :=
| p_new n a m : 0 < n < 2 ^ 31 -> 0 <= a -> create_pool n a = Some m -> prun [] m
| p_alloc bs m n a p m' : prun bs m -> n < 2 ^ 31 ->
    (forall size, extend_size m n = Some size -> malloc_ok m size a) ->
    alloc_pool m n a = MOk p m' -> prun ((p, n) :: bs) m'.
