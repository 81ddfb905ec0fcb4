(** Comparison of encoded values.
    Code: Db/dbcompare.c 51-270 (wg_compare), dbcompare.h 40-61 (WG_COMPARE), dbdata.c 623-632
    (wg_get_record_len), dballoc.h 235-236, dbdata.h 281.
    USE_CHILD_DB is not defined.  Simplifications: the texts of a string (up to its terminating
    0), its prefix or xsd type (None for a NULL pointer) and the bytes of a blob are given by the
    word, as parameters; characters are unsigned, as strcmp and memcmp compare them; fixpoints
    are compared by their multiple of 1/10000, not by the double it is divided to. *)
From Coq Require Import List ZArith Bool Floats.SpecFloat.
From Verif Require Import Word64 AllocModel EncModel.
Import ListNotations.
Open Scope Z_scope.

Definition WG_EQUAL := 0.
Definition WG_GREATER := 1.
Definition WG_LESSTHAN := -1.

(** The double with a given bit pattern (binary64). *)
Definition sf_of_bits (b : Z) : spec_float :=
  let neg := b <? 0 in
  let e := (b mod 2 ^ 63) / 2 ^ 52 in
  let f := b mod 2 ^ 52 in
  if e =? 2047 then (if f =? 0 then S754_infinity neg else S754_nan)
  else if e =? 0 then (if f =? 0 then S754_zero neg else S754_finite neg (Z.to_pos f) (-1074))
  else S754_finite neg (Z.to_pos (f + 2 ^ 52)) (e - 1075).
(** The C operators == and > on doubles. *)
Definition dbl_eq (a b : Z) : bool := SFeqb (sf_of_bits a) (sf_of_bits b).
Definition dbl_gt (a b : Z) : bool := SFltb (sf_of_bits b) (sf_of_bits a).

(** strcmp and memcmp: the sign of the first difference *)
Fixpoint strcmp (a b : list Z) : Z :=
  match a, b with
  | [], [] => 0
  | [], _ :: _ => -1
  | _ :: _, [] => 1
  | x :: a, y :: b => if x =? y then strcmp a b else if y <? x then 1 else -1
  end.
Fixpoint memcmp (n : nat) (a b : list Z) : Z :=
  match n, a, b with
  | S n, x :: a, y :: b => if x =? y then memcmp n a b else if y <? x then 1 else -1
  | _, _, _ => 0
  end.
Definition sign_of (r : Z) : Z := if 0 <? r then WG_GREATER else if r <? 0 then WG_LESSTHAN else WG_EQUAL.
Definition gt_lt (gt : bool) : Z := if gt then WG_GREATER else WG_LESSTHAN.

Section Compare.
  Variable d : db.
  Variable text : Z -> list Z.
  Variable extra : Z -> option (list Z).
  Variable blob : Z -> list Z.

  (** dbdata.c 631: ((head & ~3) >> 3) - RECORD_HEADER_GINTS *)
  Definition record_len (o : Z) : Z := shr (Z.land (mem d o) (Z.lnot 3)) 3 - 3.
  Definition get_field (o : Z) (i : nat) : Z := mem d (o + 8 * (3 + Z.of_nat i)).

  (** 210-227 *)
  Definition compare_extra (a b : Z) : option Z :=
    match extra a, extra b with
    | None, None => None
    | Some ea, None => match ea with [] => None | _ => Some WG_GREATER end
    | None, Some eb => match eb with [] => None | _ => Some WG_LESSTHAN end
    | Some ea, Some eb => let r := strcmp ea eb in
                          if 0 <? r then Some WG_GREATER else if r <? 0 then Some WG_LESSTHAN else None
    end.
  Definition compare_text (a b : Z) : Z := sign_of (strcmp (text a) (text b)).

  (** 136-153 *)
  Fixpoint compare_fields (cmp : Z -> Z -> Z) (n : nat) (i : nat) (a b : Z) : Z :=
    match n with
    | O => WG_EQUAL
    | S n =>
        let ea := get_field a i in
        let eb := get_field b i in
        if ea =? eb then compare_fields cmp n (S i) a b
        else let cr := cmp ea eb in
             if cr =? WG_EQUAL then compare_fields cmp n (S i) a b else cr
    end.

  (** wg_compare 51-270 *)
  Fixpoint wg_compare (depth : nat) (a b : Z) : Z :=
    let ta := get_type d a in
    let tb := get_type d b in
    if tb =? ta then
      if 9 <? ta then
        if 10 <? ta then
          if ta =? 11 then gt_lt (decode_date b <? decode_date a)
          else if ta =? 12 then gt_lt (decode_time b <? decode_time a)
          else if ta =? 14 then gt_lt (decode_var b <? decode_var a)
          else gt_lt (b <? a)
        else gt_lt (decode_fixpoint b <? decode_fixpoint a)
      else if ta <? 5 then
        if ta =? 2 then
          match depth with
          | O => gt_lt (b <? a)
          | S depth =>
              let la := record_len a in
              let lb := record_len b in
              if negb (la =? lb) then gt_lt (lb <? la)
              else compare_fields (wg_compare depth) (Z.to_nat la) 0 a b
          end
        else if ta =? 3 then
          let x := decode_int d a in
          let y := decode_int d b in
          if x =? y then WG_EQUAL else gt_lt (y <? x)
        else
          let x := decode_double d a in
          let y := decode_double d b in
          if dbl_eq x y then WG_EQUAL else gt_lt (dbl_gt x y)
      else if ta =? 5 then compare_text a b
      else if (ta =? 7) || (ta =? 6) then
        match compare_extra a b with Some r => r | None => compare_text a b end
      else if ta =? 9 then
        let buf x := let c := decode_char x mod 256 in if c =? 0 then [] else [c] in
        sign_of (strcmp (buf a) (buf b))
      else
        let x := blob a in
        let y := blob b in
        let r := memcmp (Nat.min (length x) (length y)) x y in
        sign_of (if r =? 0 then Z.of_nat (length x) - Z.of_nat (length y) else r)
    else gt_lt (tb <? ta).

  (** WG_COMPARE; the depth is WG_COMPARE_REC_DEPTH = 7 *)
  Definition compare_words (depth : nat) (a b : Z) : Z := if a =? b then WG_EQUAL else wg_compare depth a b.
End Compare.
