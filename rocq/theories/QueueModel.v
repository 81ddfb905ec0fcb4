(** The weight-ordered queue of clauses to be given.
    Code: Reasoner/clstore.c 1648-1770, clstore.h 78-90.
    Simplifications: the block of words is a header record and a map from priorities to bucket
    records (4 words each); a bucket's array is the list of its words.  [ok]: malloc succeeds;
    [junk]: what fresh memory contains.  [given]: wr_cl_ismarked_given at the time of the call. *)
From Coq Require Import List ZArith Bool.
Import ListNotations.
Open Scope Z_scope.

Record bucket := { arr_len : Z; next_free : Z; next_pick : Z; arr : list Z }.
Record queue := { max_prior : Z; max_used : Z; max_keep : Z; buckets : Z -> bucket }.

Definition empty_bucket := {| arr_len := 0; next_free := 0; next_pick := 0; arr := [] |}.
(** wr_make_priorqueue 1648-1667; [keep]: the limit set later by the strategy, 0 for none *)
Definition make_queue (maxprior keep : Z) : queue :=
  {| max_prior := maxprior; max_used := 0; max_keep := keep; buckets := fun _ => empty_bucket |}.

Definition set_bucket (q : queue) (p : Z) (b : bucket) (used : Z) : queue :=
  {| max_prior := max_prior q; max_used := used; max_keep := max_keep q;
     buckets := fun k => if k =? p then b else buckets q k |}.

(** Store into an array; an index outside it has no effect (never happens, see QueueProof). *)
Fixpoint put (l : list Z) (i : nat) (e : Z) : list Z :=
  match l, i with
  | [], _ => []
  | _ :: l, O => e :: l
  | x :: l, S i => x :: put l i e
  end.
Definition junk_list (junk : nat -> Z) (n : Z) : list Z := map junk (seq 0 (Z.to_nat n)).

(** wr_push_priorqueue 1676-1726; [None]: out of memory *)
Definition push (ok : bool) (junk : nat -> Z) (q : queue) (cl prior : Z) : option queue :=
  if prior <? 0 then Some q
  else if negb (max_keep q =? 0) && (max_keep q <? prior) then Some q
  else
    let prior := if max_prior q <? prior then max_prior q else prior in
    let b := buckets q prior in
    if arr_len b =? 0 then
      if negb ok then None
      else Some (set_bucket q prior
             {| arr_len := 8; next_free := 1; next_pick := 0; arr := put (junk_list junk 8) 0 cl |}
             (if max_used q <? prior then prior else max_used q))
    else if arr_len b <=? next_free b then
      if negb ok then None
      else let n := arr_len b * 2 in
           let a := arr b ++ junk_list junk (n - arr_len b) in
           Some (set_bucket q prior
             {| arr_len := n; next_free := next_free b + 1; next_pick := next_pick b;
                arr := put a (Z.to_nat (next_free b)) cl |} (max_used q))
    else Some (set_bucket q prior
           {| arr_len := arr_len b; next_free := next_free b + 1; next_pick := next_pick b;
              arr := put (arr b) (Z.to_nat (next_free b)) cl |} (max_used q)).

(** The inner loop 1744-1766 on one bucket: what was found, and the bucket left. *)
Fixpoint pick_bucket (n : nat) (given : Z -> bool) (b : bucket) : option (option Z * bucket) :=
  match n with
  | O => None
  | S n =>
      if (next_pick b <? next_free b) && (next_pick b <? arr_len b) && negb (arr_len b =? 0) then
        let cl := nth (Z.to_nat (next_pick b)) (arr b) 0 in
        let b := {| arr_len := arr_len b; next_free := next_free b; next_pick := next_pick b + 1; arr := arr b |} in
        if negb (cl =? 0) && negb (given cl) then Some (Some cl, b) else pick_bucket n given b
      else Some (None, b)
  end.
(** The outer loop 1742-1767, [n] priorities from [p] on. *)
Fixpoint pick_from (n : nat) (given : Z -> bool) (p : Z) (q : queue) : option (option Z * queue) :=
  match n with
  | O => Some (None, q)
  | S n =>
      let b := buckets q p in
      match pick_bucket (S (Z.to_nat (next_free b - next_pick b))) given b with
      | None => None
      | Some (Some cl, b) => Some (Some cl, set_bucket q p b (max_used q))
      | Some (None, b) => pick_from n given (p + 1) (set_bucket q p b (max_used q))
      end
  end.
(** wr_pick_priorqueue 1734-1770 *)
Definition pick (given : Z -> bool) (q : queue) : option (option Z * queue) :=
  pick_from (Z.to_nat (max_used q + 1)) given 0 q.
