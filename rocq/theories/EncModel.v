(** Encoded values: type tags, immediate values, boxed integers and doubles.
    Code: Db/dbdata.h 332-460, Db/dbdata.c 1406-1452 (wg_get_encoded_type), 1512-1565
    (wg_encode_int, wg_decode_int), 1569-1595 (char), 1599-1651 (double), 1654-1760 (fixpoint,
    date, time), 2887-2925 (var), build.c/dballoc.h 565 (anonymous constants).
    No database log (logging.active = 0), no attached kb (encode_kb_offset is the identity);
    CHECK is not defined, so range checks of the encoders are compiled out.
    Simplification: the bit pattern of a double is one opaque word. *)
From Coq Require Import List ZArith Bool.
From Verif Require Import Word64 AllocModel.
Import ListNotations.
Open Scope Z_scope.

Definition WG_ILLEGAL := 255.
Definition word_area : nat := 3.         (* alloc_word 217 *)
Definition doubleword_area : nat := 4.   (* alloc_doubleword 218 *)

(** dbdata.h 336-338 *)
Definition fits_smallint (i : Z) : bool := shr (shl64 i 3) 3 =? i.
Definition encode_smallint (i : Z) : Z := Z.lor (shl64 i 3) 3.
Definition decode_smallint (w : Z) : Z := shr w 3.
(** 345-346: i & ~3 *)
Definition encode_fullint_offset (o : Z) : Z := Z.lor o 1.
Definition decode_fullint_offset (w : Z) : Z := Z.land w (Z.lnot 3).
(** 363-364, 351, 357-358, 369-370 *)
Definition encode_fulldouble_offset (o : Z) : Z := Z.lor o 2.
Definition decode_fulldouble_offset (w : Z) : Z := Z.land w (Z.lnot 7).
Definition encode_datarec_offset (o : Z) : Z := o.
Definition encode_longstr_offset (o : Z) : Z := Z.lor o 4.
Definition decode_longstr_offset (w : Z) : Z := Z.land w (Z.lnot 7).
Definition encode_shortstr_offset (o : Z) : Z := Z.lor o 6.
Definition decode_shortstr_offset (w : Z) : Z := Z.land w (Z.lnot 7).
(** 378-432; date, time and fixpoint are computed as 32-bit ints *)
Definition encode_var (i : Z) : Z := Z.lor (shl64 i 4) 7.
Definition decode_var (w : Z) : Z := shr w 4.
Definition encode_char (c : Z) : Z := Z.lor (shl64 c 8) 31.
Definition decode_char (w : Z) : Z := (shr w 8 + 128) mod 256 - 128.
Definition encode_date (i : Z) : Z := Z.lor (shl32 i 8) 47.
Definition decode_date (w : Z) : Z := w32 (shr w 8).
Definition encode_time (i : Z) : Z := Z.lor (shl32 i 8) 63.
Definition decode_time (w : Z) : Z := shr (w mod 2 ^ 32) 8.
(** the argument is the rounded multiple of 1/10000 *)
Definition encode_fixpoint (k : Z) : Z := Z.lor (shl32 k 8) 15.
Definition decode_fixpoint (w : Z) : Z := shr w 8.
Definition encode_anonconst (i : Z) : Z := Z.lor (shl32 i 8) 95.
Definition decode_anonconst (w : Z) : Z := shr w 8.

(** 442-458 *)
Definition issmallint (w : Z) : bool := Z.land w 7 =? 3.
Definition isfullint (w : Z) : bool := Z.land w 3 =? 1.
Definition isfulldouble (w : Z) : bool := Z.land w 7 =? 2.
Definition isvar (w : Z) : bool := Z.land w 15 =? 7.

(** wg_encode_int 1512-1552 *)
Definition encode_int (d : db) (i : Z) : Z * db :=
  if fits_smallint i then (encode_smallint i, d)
  else match alloc_fixlen d word_area with
       | AOk o d => (encode_fullint_offset o, set_mem d (store (mem d) o i))
       | AFail d => (WG_ILLEGAL, d)
       | AFuel => (WG_ILLEGAL, d)
       end.
(** wg_decode_int 1554-1565 *)
Definition decode_int (d : db) (w : Z) : Z :=
  if issmallint w then decode_smallint w
  else if isfullint w then mem d (decode_fullint_offset w)
  else 0.
(** wg_encode_double 1599-1638, wg_decode_double 1640-1651; [b]: bit pattern *)
Definition encode_double (d : db) (b : Z) : Z * db :=
  match alloc_fixlen d doubleword_area with
  | AOk o d => (encode_fulldouble_offset o, set_mem d (store (mem d) o b))
  | AFail d => (WG_ILLEGAL, d)
  | AFuel => (WG_ILLEGAL, d)
  end.
Definition decode_double (d : db) (w : Z) : Z :=
  if isfulldouble w then mem d (decode_fulldouble_offset w) else 0.

(** wg_get_encoded_type 1406-1452; type codes dbdata.h 60-73 *)
Definition get_type (d : db) (w : Z) : Z :=
  if w =? 0 then 1
  else if Z.land w 3 =? 3 then
    if isvar w then 14
    else if issmallint w then 3
    else let b := Z.land w 255 in
         if b =? 31 then 9 else if b =? 15 then 10 else if b =? 47 then 11
         else if b =? 63 then 12 else if b =? 79 then 5 else if b =? 7 then 14
         else if b =? 95 then 13 else -1
  else let b := Z.land w 7 in
       if b =? 0 then 2
       else if b =? 4 then Z.land (mem d (decode_longstr_offset w + 8)) 255
       else if b =? 6 then 5
       else if b =? 2 then 4
       else if b =? 1 then 3
       else if b =? 5 then 3
       else -1.
