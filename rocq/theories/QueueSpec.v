(** What a weight-ordered queue should do, on the list of waiting entries in the order of arrival. *)
From Coq Require Import List ZArith Bool Permutation.
From Verif Require Import QueueModel.
Import ListNotations.
Open Scope Z_scope.

(** (weight, clause) *)
Definition entry := (Z * Z)%type.

(** In [A ++ (w, c) :: B], what comes before the entry of [c] in the order "lighter first, oldest
    first among equals", and what comes after it. *)
Definition ahead (A : list entry) (w : Z) (B : list entry) : list entry :=
  filter (fun e => fst e <=? w) A ++ filter (fun e => fst e <? w) B.
Definition behind (A : list entry) (w : Z) (B : list entry) : list entry :=
  filter (fun e => w <? fst e) A ++ filter (fun e => w <=? fst e) B.

(** [picks given P r P' D]: a pick from the waiting entries [P] returns [r]; the entries [D] are
    dropped, all of them given already, and [P'] go on waiting. *)
Inductive picks (given : Z -> bool) (P : list entry) : option Z -> list entry -> list entry -> Prop :=
| picks_none : (forall e, In e P -> given (snd e) = true) -> picks given P None [] P
| picks_some A w c B : P = A ++ (w, c) :: B -> given c = false ->
    (forall e, In e (ahead A w B) -> given (snd e) = true) ->
    picks given P (Some c) (behind A w B) (ahead A w B).

(** The weight an entry is filed under, if it is kept at all. *)
Definition filed (maxprior keep w : Z) : option Z :=
  if w <? 0 then None else if negb (keep =? 0) && (keep <? w) then None else Some (Z.min w maxprior).

(** Histories of one queue: what was pushed (and kept), picked, dropped, and what waits. *)
Inductive qrun (maxprior keep : Z) : list entry -> list Z -> list entry -> list entry -> queue -> Prop :=
| q_new : 0 <= maxprior -> qrun maxprior keep [] [] [] [] (make_queue maxprior keep)
| q_push In Out D P q ok junk c w q' : qrun maxprior keep In Out D P q -> c <> 0 -> push ok junk q c w = Some q' ->
    qrun maxprior keep
      (match filed maxprior keep w with Some p => In ++ [(p, c)] | None => In end) Out D
      (match filed maxprior keep w with Some p => P ++ [(p, c)] | None => P end) q'
| q_pick In Out D P q given r q' P' D' : qrun maxprior keep In Out D P q -> pick given q = Some (r, q') ->
    picks given P r P' D' ->
    qrun maxprior keep In (match r with Some c => c :: Out | None => Out end) (D' ++ D) P' q'.
