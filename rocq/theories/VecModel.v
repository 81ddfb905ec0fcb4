(** Growable vectors.  Code: Reasoner/mem.c 177-443, mem.h 52-60.
    A vector is the block of words malloc returned, as a list; reading or writing outside the
    block is the outcome VUB, like a signed overflow in the search for the new length.
    [ok]: whether the allocator succeeds; [junk]: what fresh memory contains (both arbitrary).
    Simplification: the element size and the flag alloc_err are not represented. *)
From Coq Require Import List ZArith Bool.
From Verif Require Import Word64.
Import ListNotations.
Open Scope Z_scope.

Definition vec := list Z.
Inductive vres := VOk (v : vec) | VFail | VUB.

Definition rd (v : vec) (i : Z) : option Z :=
  if i <? 0 then None else nth_error v (Z.to_nat i).
Fixpoint upd (v : vec) (i : nat) (e : Z) : option vec :=
  match v, i with
  | [], _ => None
  | _ :: v, O => Some (e :: v)
  | x :: v, S i => match upd v i e with Some v' => Some (x :: v') | None => None end
  end.
Definition wr (v : vec) (i e : Z) : option vec := if i <? 0 then None else upd v (Z.to_nat i) e.
Definition wr_res (v : vec) (i e : Z) : vres := match wr v i e with Some v => VOk v | None => VUB end.

(** wr_vec_new 177-199: calloc of len+2 words *)
Definition vec_new (len : Z) : vec := len :: repeat 0 (Z.to_nat (len + 1)).
(** wr_cvec_new 253-276: malloc of len+2 words *)
Definition cvec_new (len : Z) (junk : nat -> Z) : vec := len :: 2 :: map junk (seq 0 (Z.to_nat len)).

(** The loop 362; the lengths are ints. *)
Fixpoint grow (n : nat) (nlen i : Z) : option Z :=
  match n with
  | O => None
  | S n => if nlen <? i then
             (if 2 ^ 31 <=? nlen * 2 then None else grow n (nlen * 2) i)
           else Some nlen
  end.

(** wr_vec_realloc 352-375: realloc to nlen+1 words keeps the old ones *)
Definition vec_realloc (ok : bool) (junk : nat -> Z) (v : vec) (i : Z) : vres :=
  match rd v 0 with
  | None => VUB
  | Some vlen =>
      if i <=? vlen then VOk v
      else match grow 40 (if vlen <=? 0 then 2 else vlen * 2) i with
           | None => VUB
           | Some nlen =>
               if negb ok then VFail
               else wr_res (firstn (Z.to_nat (nlen + 1)) (v ++ map junk (seq 0 (Z.to_nat (nlen + 1))))) 0 nlen
           end
  end.

(** wr_vec_store 386-405 *)
Definition vec_store (ok : bool) (junk : nat -> Z) (v : vec) (i e : Z) : vres :=
  match rd v 0 with
  | None => VUB
  | Some vlen =>
      if i <=? vlen then wr_res v i e
      else match vec_realloc ok junk v i with
           | VOk nvec => wr_res nvec i e
           | r => r
           end
  end.

(** wr_cvec_store 415-424 *)
Definition cvec_store (ok : bool) (junk : nat -> Z) (v : vec) (i e : Z) : vres :=
  match vec_store ok junk v i e with
  | VOk nvec =>
      match rd nvec 1 with
      | None => VUB
      | Some next => if next <=? i then wr_res nvec 1 (i + 1) else VOk nvec
      end
  | r => r
  end.

(** wr_cvec_push 433-438 *)
Definition cvec_push (ok : bool) (junk : nat -> Z) (v : vec) (e : Z) : vres :=
  match rd v 1 with
  | None => VUB
  | Some next => cvec_store ok junk v next e
  end.

(** wr_alloc_from_cvec 443-470; vectors are aligned, so no padding is added.
    [Some (pos, v)]: the block starts at index pos. *)
Definition alloc_from_cvec (v : vec) (gints : Z) : option (Z * vec) :=
  match rd v 0, rd v 1 with
  | Some len, Some pos =>
      if len <=? pos + gints then None
      else match wr v 1 (pos + gints) with Some v => Some (pos, v) | None => None end
  | _, _ => None
  end.
