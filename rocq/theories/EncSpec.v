(** The values a user can store, their types, and what "nobody touched it" means. *)
From Coq Require Import List ZArith Bool.
From Verif Require Import Word64 AllocModel AllocSpec EncModel.
Import ListNotations.
Open Scope Z_scope.

(** Values with their ranges; a boxed value is given by the offset of its box. *)
Inductive value :=
| VNull
| VInt (i : Z) | VBoxedInt (o : Z) | VDouble (o : Z)
| VRecord (o : Z) | VShort (o : Z) | VLong (o ty : Z)
| VChar (c : Z) | VFix (k : Z) | VDate (i : Z) | VTime (i : Z) | VAnon (i : Z) | VVar (i : Z).

Definition box (o : Z) : Prop := 0 < o <= int_max /\ o mod 8 = 0.
Definition in_range (d : db) (v : value) : Prop :=
  match v with
  | VNull => True
  | VInt i => - 2 ^ 60 <= i < 2 ^ 60                  (* integers stored without a box *)
  | VBoxedInt o | VDouble o | VRecord o | VShort o => box o
  | VLong o ty => box o /\ mem d (o + 8) mod 256 = ty /\ (ty = 5 \/ ty = 6 \/ ty = 7 \/ ty = 8)
  | VChar c => -128 <= c <= 127
  | VFix k => -8000000 <= k <= 8000000                (* +-800, in units of 1/10000 *)
  | VDate i => -8323200 <= i <= 8323200
  | VTime i => 0 <= i <= 8640000
  | VAnon i => 0 <= i < 200
  | VVar i => - 2 ^ 59 <= i < 2 ^ 59
  end.
Definition encode (v : value) : Z :=
  match v with
  | VNull => 0
  | VInt i => encode_smallint i
  | VBoxedInt o => encode_fullint_offset o
  | VDouble o => encode_fulldouble_offset o
  | VRecord o => encode_datarec_offset o
  | VShort o => encode_shortstr_offset o
  | VLong o _ => encode_longstr_offset o
  | VChar c => encode_char c
  | VFix k => encode_fixpoint k
  | VDate i => encode_date i
  | VTime i => encode_time i
  | VAnon i => encode_anonconst i
  | VVar i => encode_var i
  end.
(** The type codes of the API (dbapi.h): null 1, record 2, int 3, double 4, str 5, xml literal 6,
    uri 7, blob 8, char 9, fixpoint 10, date 11, time 12, anonymous constant 13, variable 14. *)
Definition type_code (v : value) : Z :=
  match v with
  | VNull => 1 | VRecord _ => 2 | VInt _ => 3 | VBoxedInt _ => 3 | VDouble _ => 4 | VShort _ => 5
  | VLong _ ty => ty | VChar _ => 9 | VFix _ => 10 | VDate _ => 11 | VTime _ => 12 | VAnon _ => 13 | VVar _ => 14
  end.

(** A step that overwrites a word of [b]. *)
Definition writes_to (b : obj) (d d' : db) : Prop :=
  exists j v, 0 <= j /\ 8 * j + 8 <= ob_len b /\ d' = set_mem d (store (mem d) (ob_off b + 8 * j) v).

(** Histories during which [b] stays held and is not overwritten. *)
Inductive quiet (b : obj) : db * list obj -> db * list obj -> Prop :=
| q_refl s : In b (snd s) -> quiet b s s
| q_step s t u : quiet b s t -> astep t u -> In b (snd u) -> ~ writes_to b (fst t) (fst u) -> quiet b s u.
