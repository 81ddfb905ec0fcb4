(** The parsers' memory pool.  Code: Db/dbmpool.c 97-225, dbmpool.h 44-72.
    Addresses are numbers; [a]: the address malloc returns, 0 for failure.  The pool header lies
    in a block of its own.  Outcome MUB: signed overflow or a subarea table index out of range. *)
From Coq Require Import List ZArith Bool.
From Verif Require Import Word64.
Import ListNotations.
Open Scope Z_scope.

(** mpool_subarea_header: [s_size] is an int *)
Record sub := { s_size : Z; s_start : Z; s_end : Z }.
(** [cur] is the subarea in use, [older] the ones before it, last first; cur_subarea = length older. *)
Record pool := { freeptr : Z; cur : sub; older : list sub }.
Inductive mres := MOk (p : Z) (m : pool) | MNull (m : pool) | MUB.

Definition align4 (p : Z) : Z := let i := p mod 4 in if i =? 0 then p else p + (4 - i).

(** wg_create_mpool 97-138; the first subarea has exactly the size asked for *)
Definition create_pool (origbytes a : Z) : option pool :=
  if a =? 0 then None
  else Some {| freeptr := align4 a; cur := {| s_size := origbytes; s_start := a; s_end := a + origbytes |}; older := [] |}.

(** The loop 158-161 *)
Fixpoint double_until (n : nat) (bytes min : Z) : option Z :=
  match n with
  | O => Some bytes
  | S n => let bytes := bytes * 2 in
           if (bytes <? int_min) || (int_max <? bytes) then None
           else if min <=? bytes then Some bytes else double_until n bytes min
  end.

Definition max_pool := 3000000000.

(** extend_mpool 148-188; [None]: MUB, [Some None]: -1 *)
Definition extend_pool (m : pool) (minbytes a : Z) : option (option pool) :=
  if 2 ^ 31 <=? minbytes + 4 then None
  else match double_until 100 (s_size (cur m)) (minbytes + 4) with
       | None => None
       | Some bytes =>
           if max_pool <? bytes then Some None
           else if a =? 0 then Some None
           else if 100 <=? Z.of_nat (S (length (older m))) then None
           else Some (Some {| freeptr := align4 a;
                              cur := {| s_size := w32 bytes; s_start := a; s_end := a + bytes |};
                              older := cur m :: older m |})
       end.
(** How much the next extension asks malloc for. *)
Definition extend_size (m : pool) (minbytes : Z) : option Z := double_until 100 (s_size (cur m)) (minbytes + 4).

(** wg_alloc_mpool 218-260 *)
Definition alloc_pool (m : pool) (bytes a : Z) : mres :=
  if bytes <=? 0 then MNull m
  else if s_end (cur m) <? freeptr m + bytes then
    match extend_pool m bytes a with
    | None => MUB
    | Some None => MNull m
    | Some (Some m) => MOk (freeptr m) {| freeptr := align4 (freeptr m + bytes); cur := cur m; older := older m |}
    end
  else MOk (freeptr m) {| freeptr := align4 (freeptr m + bytes); cur := cur m; older := older m |}.
