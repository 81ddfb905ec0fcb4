(** The operations on records as they are compiled: Db/dbdata.c 84 defines QUICK_REASONER, which
    takes the upkeep of the indexes, of reference counts and of links out of wg_create_record and
    wg_set_new_field and makes wg_set_field do nothing.  QyModel has the text without that
    definition; wg_create_raw_record, wg_delete_record, wg_create_multi_index, wg_drop_index and the
    queries do not depend on it.  Simplifications as in QyModel. *)
From Coq Require Import List ZArith Bool.
From Verif Require Import TtModel QyModel.
Import ListNotations.
Open Scope Z_scope.

Section DB.
Variable K : Type.
Variable null : K.

(** wg_create_record, dbdata.c 161-171: the call of wg_index_add_rec (164-167) is left out *)
Definition qcreate_record (d : db K) (p : nat) (r : Z) (len : nat) : db K * Z := (create_raw K null d p r len, r).
(** wg_set_field, dbdata.c 654-685: the old value is read, then "return 0" *)
Definition qset_field (d : db K) (r : Z) (c : nat) (v : K) : db K * Z := (d, 0).
(** wg_set_new_field, dbdata.c 867-912: the value is stored, then "return 0" *)
Definition qset_new_field (d : db K) (r : Z) (c : nat) (v : K) : db K * Z := (write K d r c v, 0).
End DB.
