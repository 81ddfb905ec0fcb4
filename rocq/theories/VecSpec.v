(** Histories of a vector: what was stored where. *)
From Coq Require Import List ZArith Bool.
From Verif Require Import Word64 VecModel.
Import ListNotations.
Open Scope Z_scope.

Definition index_max := 2 ^ 30.

(** Successful stores into a plain vector created with length [len]; the list holds the
    stores made so far, last one first. *)
Inductive vec_run (len : Z) : list (Z * Z) -> vec -> Prop :=
| vr_new : 0 <= len <= index_max -> vec_run len [] (vec_new len)
| vr_store h v i e ok junk v' : vec_run len h v -> 1 <= i <= index_max ->
    vec_store ok junk v i e = VOk v' -> vec_run len ((i, e) :: h) v'.

(** The same for a counting vector: stores at any index from 2 on, and pushes. *)
Inductive cvec_run (len : Z) : list (Z * Z) -> vec -> Prop :=
| cr_new junk : 1 <= len <= index_max -> cvec_run len [] (cvec_new len junk)
| cr_store h v i e ok junk v' : cvec_run len h v -> 2 <= i < index_max ->
    cvec_store ok junk v i e = VOk v' -> cvec_run len ((i, e) :: h) v'
| cr_push h v i e ok junk v' : cvec_run len h v -> rd v 1 = Some i -> i < index_max ->
    cvec_push ok junk v e = VOk v' -> cvec_run len ((i, e) :: h) v'.

(** What was stored last at index [i]. *)
Fixpoint stored (h : list (Z * Z)) (i : Z) : option Z :=
  match h with
  | [] => None
  | (j, e) :: h => if j =? i then Some e else stored h i
  end.
(** One more than the largest index stored so far; 2 at the start. *)
Fixpoint next_index (h : list (Z * Z)) : Z :=
  match h with [] => 2 | (j, _) :: h => Z.max (j + 1) (next_index h) end.

(** Blocks taken from a counting vector used as a buffer, last one first: (start, length). *)
Inductive buf_run (len : Z) : list (Z * Z) -> vec -> Prop :=
| br_new junk : 1 <= len <= index_max -> buf_run len [] (cvec_new len junk)
| br_alloc bs v n pos v' : buf_run len bs v -> 0 <= n <= index_max ->
    alloc_from_cvec v n = Some (pos, v') -> buf_run len ((pos, n) :: bs) v'
| br_write bs v b n i e v' : buf_run len bs v -> In (b, n) bs -> b <= i < b + n ->
    wr v i e = Some v' -> buf_run len bs v'.
