(** The journal: what the operations write and how it is read back: Db/dblog.c 77-104, 268-330, 396-447
    (variable length integers), 530-590, 600-684 (reading), 1000-1170 (writing); Db/dblog.h 39-48;
    the calls in Db/dbdata.c 195-235, 268, 674, 885, 1512-1550, 1611-1631, 2180-2240, 2940-3013.

    A byte is an integer from 0 to 255.  Writes are whole unless the process dies (a short write is an
    error of the operation).  Applying the entries, and the four bytes
    at the start of the file, are not part of this model; nor are several processes writing at once.  64-bit gint. *)
From Coq Require Import ZArith List Bool.
Import ListNotations.
Open Scope Z_scope.

(** enc_varint 268-330: [n] is the number of further bytes with seven bits; the tests are unrolled there,
    and val >= 1 << 7 (i + 1) is the test on val >> 7 i *)
Fixpoint enc_from (n : nat) (v : Z) : list Z :=
  match n with
  | O => [v mod 256]
  | S n => if v >=? 128 then (v mod 128 + 128) :: enc_from n (v / 128) else [v mod 128]
  end.
Definition enc_varint (val : Z) : list Z := enc_from 8 (val mod 2 ^ 64).
(** fget_varint 396-447; the bits or-ed are disjoint *)
Fixpoint get_from (n : nat) (f : list Z) : option (Z * list Z) :=
  match f with
  | [] => None
  | c :: f =>
      match n with
      | O => Some (c, f)
      | S n =>
          if c >=? 128 then
            match get_from n f with
            | Some (t, f) => Some (c mod 128 + 128 * t, f)
            | None => None
            end
          else Some (c, f)
      end
  end.
Definition fget_varint (f : list Z) : option (Z * list Z) := get_from 8 f.

Fixpoint le_bytes (n : nat) (z : Z) : list Z :=
  match n with O => [] | S n => (z mod 256) :: le_bytes n (z / 256) end.
Definition int_of_long (z : Z) : Z := (z + 2 ^ 31) mod 2 ^ 32 - 2 ^ 31.
(** fits_smallint, dbdata.h 336, with SMALLINTSHFT 3, of a gint and of an int *)
Definition fits_small (z : Z) : bool := (- 2 ^ 60 <=? z) && (z <? 2 ^ 60).
Definition fits_small_int (z : Z) : bool := (- 2 ^ 28 <=? z) && (z <? 2 ^ 28).

Definition T_INT := 3. Definition T_DOUBLE := 4.
(** wg_log_create_record, wg_log_delete_record, wg_log_encval, wg_log_set_field, wg_log_set_meta *)
Definition log_create_record (length : Z) : list Z := 64 :: enc_varint length.
Definition log_delete_record (enc : Z) : list Z := 128 :: enc_varint enc.
Definition log_encval (enc : Z) : list Z := enc_varint enc.
Definition log_set_field (rec col data : Z) : list Z := 192 :: enc_varint rec ++ enc_varint col ++ enc_varint data.
Definition log_set_meta (rec meta : Z) : list Z := 32 :: enc_varint rec ++ enc_varint meta.
(** wg_log_encode 1073-1137 for integers (through an int), doubles, strings *)
Definition log_encode_int (data : Z) : list Z :=
  let i := int_of_long data in if fits_small_int i then [] else T_INT :: le_bytes 4 i.
Definition log_encode_double (bits : Z) : list Z := T_DOUBLE :: le_bytes 8 bits.
Definition log_encode_str (type : Z) (s ext : list Z) : list Z :=
  type :: enc_varint (Z.of_nat (length s)) ++ enc_varint (Z.of_nat (length ext)) ++ s ++ ext.

(** Operations with the offset or the encoded value they gave (0 or WG_ILLEGAL when they failed) *)
Inductive op :=
| OCreate (length off : Z)
| ODelete (off : Z)
| OSet (off col enc : Z)
| OMeta (off meta : Z)
| OInt (data enc : Z)
| ODouble (bits enc : Z)
| OStr (type : Z) (s ext : list Z) (enc : Z)         (* wg_encode_unistr *)
| OUri (s prefix : list Z) (enc : Z).                  (* wg_encode_uri *)
(** What an operation appends to the journal.  wg_encode_uri logs only the result (the version for the
    reasoner does not call wg_encode_unistr). *)
Definition written (o : op) : list Z :=
  match o with
  | OCreate l off => log_create_record l ++ log_encval off
  | ODelete off => log_delete_record off
  | OSet off col enc => log_set_field off col enc
  | OMeta off meta => log_set_meta off meta
  | OInt data enc => if fits_small data then [] else log_encode_int data ++ log_encval enc
  | ODouble bits enc => log_encode_double bits ++ log_encval enc
  | OStr type s ext enc => log_encode_str type s ext ++ log_encval enc
  | OUri s p enc => log_encval enc
  end.
Definition journal (ops : list op) : list Z := concat (map written ops).

(** Entries as they are read *)
Inductive entry :=
| ECre (length off : Z) | EDel (off : Z) | ESet (off col enc : Z) | EMeta (off meta : Z)
| EInt (bytes : list Z) (enc : Z) | EDouble (bytes : list Z) (enc : Z) | EStr (type : Z) (s ext : list Z) (enc : Z)
| EOther (type enc : Z).                                  (* recover_encode answers -1 and reading goes on *)

(** fread of [n] bytes *)
Definition take (n : Z) (f : list Z) : option (list Z * list Z) :=
  if (Z.of_nat (length f) <? n) then None else Some (firstn (Z.to_nat n) f, skipn (Z.to_nat n) f).
Notation "'let?' p := x 'in' y" := (match x with Some p => y | None => None end) (at level 200, p pattern).

(** recover_encode 533-598 with the result that follows, 630-646.  Where reading the data fails, the end
    of the file has been reached, and the reading of the result fails. *)
Definition read_encode (type : Z) (f : list Z) : option (entry * list Z) :=
  if type =? T_INT then
    let? (b, f) := take 4 f in let? (enc, f) := fget_varint f in Some (EInt b enc, f)
  else if type =? T_DOUBLE then
    let? (b, f) := take 8 f in let? (enc, f) := fget_varint f in Some (EDouble b enc, f)
  else if (type =? 5) || (type =? 6) || (type =? 7) || (type =? 8) || (type =? 13) then
    let? (l, f) := fget_varint f in let? (e, f) := fget_varint f in
    let? (s, f) := take l f in let? (x, f) := take e f in
    let? (enc, f) := fget_varint f in Some (EStr type s x enc, f)
  else let? (enc, f) := fget_varint f in Some (EOther type enc, f).
(** One round of recover_journal 606-680 *)
Definition read_entry (f : list Z) : option (entry * list Z) :=
  match f with
  | [] => None
  | c :: f =>
      let cmd := Z.land c 224 in
      if cmd =? 64 then let? (l, f) := fget_varint f in let? (o, f) := fget_varint f in Some (ECre l o, f)
      else if cmd =? 128 then let? (o, f) := fget_varint f in Some (EDel o, f)
      else if cmd =? 0 then read_encode (Z.land c 31) f
      else if cmd =? 192 then
        let? (o, f) := fget_varint f in let? (col, f) := fget_varint f in let? (e, f) := fget_varint f in Some (ESet o col e, f)
      else if cmd =? 32 then let? (o, f) := fget_varint f in let? (m, f) := fget_varint f in Some (EMeta o m, f)
      else None
  end.
(** The loop: the entries read, and whether it ended at the end of the file without an error.  Each
    round takes a byte, so the length of the file is fuel enough. *)
Fixpoint read_from (n : nat) (f : list Z) : list entry * bool :=
  match n, f with
  | _, [] => ([], true)
  | O, _ => ([], false)
  | S n, _ =>
      match read_entry f with
      | None => ([], false)
      | Some (e, f) => let '(es, ok) := read_from n f in (e :: es, ok)
      end
  end.
Definition read_journal (f : list Z) : list entry * bool := read_from (length f) f.
