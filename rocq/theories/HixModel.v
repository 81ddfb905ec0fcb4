(** Hash indexes of the database: Db/dbhash.c 286-585 (keys and buckets), Db/dbindex.c 1467-1710
    (rows in an index), 2001-2262 (creating an index), 2615-2982 (keeping indexes up), and the
    operations on records that call them, Db/dbdata.c 161-325, 654-960.
    QUICK_REASONER (Db/dbdata.c 84), which takes the upkeep out of the build as shipped, is the
    argument [quick] of the operations.
    Simplifications.  Hash chains and lists of row offsets, linked through offsets in the segment,
    are lists.  The table of index lists by column (index_table) is the list of the indexes in the
    order of creation, which is the order in each of its lists, filtered by column.  All indexes are
    plain hash indexes: no templates, no JSON expansion, no T-trees (those are QyModel).  Records are
    ordinary ones, without links back from records they refer to.  Allocation succeeds.  A field
    holds a value instead of an encoded word. *)
From Coq Require Import List ZArith Bool.
Import ListNotations.
Open Scope Z_scope.

(** Field values by their type, wg_get_encoded_type, Db/dbdata.c 1406-1452.  Doubles and fixpoint
    numbers are given by the 64 bits of the double decoded from them, records by their encoded
    offset, strings by their bytes (language tags, which neither keys nor comparisons read, are left
    out), URIs and XML literals with the prefix or datatype they may have. *)
Inductive val :=
| VNull
| VRec (enc : Z)
| VInt (i : Z)
| VDouble (bits : Z)
| VFix (bits : Z)
| VStr (s : list Z)
| VXml (xsdtype : option (list Z)) (s : list Z)
| VUri (prefix : option (list Z)) (s : list Z)
| VBlob (s : list Z)
| VChar (c : Z)
| VDate (n : Z)
| VTime (n : Z)
| VVar (n : Z)
| VAnon (s : list Z).
Lemma val_eq_dec : forall a b : val, {a = b} + {a <> b}.
Proof. decide equality; try apply Z.eq_dec; try (apply list_eq_dec, Z.eq_dec); decide equality; apply list_eq_dec, Z.eq_dec. Defined.
Definition key := list Z.
Definition key_eqb (a b : key) : bool := if list_eq_dec Z.eq_dec a b then true else false.

(** The low [n] bytes of a number as stored in memory. *)
Fixpoint bytes (n : nat) (z : Z) : list Z := match n with O => [] | S n => (z mod 256) :: bytes n (z / 256) end.
(** CONCAT_FOR_HASHING, dbhash.c 288-300 *)
Definition concat_for_hashing (ex : option (list Z)) (s : list Z) : list Z :=
  match ex with Some e => e ++ 0 :: s | None => s end.
(** wg_decode_for_hashing, dbhash.c 312-403: a byte for the type and the bytes of the value; integers,
    characters, dates, times and variables go through an "int"; [None] for the result 0 *)
Definition decode_for_hashing (v : val) : option key :=
  match v with
  | VNull => Some (1 :: bytes 8 0)
  | VRec e => Some (2 :: bytes 8 e)
  | VInt i => Some (3 :: bytes 4 i)
  | VDouble b => Some (4 :: bytes 8 b)
  | VFix b => Some (10 :: bytes 8 b)
  | VStr s => Some (5 :: s)
  | VUri p s => Some (7 :: concat_for_hashing p s)
  | VXml x s => Some (6 :: concat_for_hashing x s)
  | VChar c => Some (9 :: bytes 4 c)
  | VDate n => Some (11 :: bytes 4 n)
  | VTime n => Some (12 :: bytes 4 n)
  | VVar n => Some (14 :: bytes 4 n)
  | VBlob _ => None
  | VAnon _ => None
  end.
(** hash_recurse and hash_extend_prefix, dbindex.c 1516-1601, without the final operation: the key of
    a row of values, a 0 byte between two values; [None] for the result -1 *)
Fixpoint key_rec (prefix : key) (values : list val) : option key :=
  match values with
  | [] => Some prefix
  | v :: values =>
      match decode_for_hashing v with
      | None => None
      | Some fld => key_rec (match prefix with [] => fld | _ => prefix ++ 0 :: fld end) values
      end
  end.
Definition key_of (values : list val) : option key := key_rec [] values.

(** A bucket of a hash chain: its key (HASHIDX_META and the data) and its list of row offsets. *)
Definition bucket := (key * list Z)%type.
Definition chains := Z -> list bucket.
Definition upd (ch : chains) (i : Z) (b : list bucket) : chains := fun j => if j =? i then b else ch j.

Section Hash.
(** hash_bytes, dbhash.c 408-418, with the size of the table of the index: any function *)
Variable h : key -> Z.

(** find_idxhash_bucket, dbhash.c 426-445: the rows of the matching bucket *)
Fixpoint find_bucket (c : list bucket) (k : key) : option (list Z) :=
  match c with [] => None | (k', rows) :: c => if key_eqb k' k then Some rows else find_bucket c k end.
(** the chain with the rows of the matching bucket replaced *)
Fixpoint set_bucket (c : list bucket) (k : key) (rows : list Z) : list bucket :=
  match c with [] => [] | (k', rows') :: c => if key_eqb k' k then (k', rows) :: c else (k', rows') :: set_bucket c k rows end.
(** the chain without the matching bucket *)
Fixpoint unlink_bucket (c : list bucket) (k : key) : list bucket :=
  match c with [] => [] | (k', rows') :: c => if key_eqb k' k then c else (k', rows') :: unlink_bucket c k end.
(** wg_idxhash_store, dbhash.c 454-512 *)
Definition idxhash_store (ch : chains) (k : key) (off : Z) : chains :=
  match find_bucket (ch (h k)) k with
  | Some rows => upd ch (h k) (set_bucket (ch (h k)) k (off :: rows))
  | None => upd ch (h k) ((k, [off]) :: ch (h k))
  end.
(** the loop of wg_idxhash_remove, dbhash.c 538-548: takes out the first cell with the offset *)
Fixpoint take_out (off : Z) (rows : list Z) : option (list Z) :=
  match rows with
  | [] => None
  | r :: rows => if r =? off then Some rows else match take_out off rows with Some l => Some (r :: l) | None => None end
  end.
(** wg_idxhash_remove, dbhash.c 520-559 *)
Definition idxhash_remove (ch : chains) (k : key) (off : Z) : chains * Z :=
  match find_bucket (ch (h k)) k with
  | None => (ch, -1)
  | Some rows =>
      match take_out off rows with
      | None => (ch, -1)
      | Some [] => (upd ch (h k) (unlink_bucket (ch (h k)) k), 0)
      | Some rows' => (upd ch (h k) (set_bucket (ch (h k)) k rows'), 0)
      end
  end.
(** wg_idxhash_find, dbhash.c 567-583: the list of offsets, empty for the result 0 *)
Definition idxhash_find (ch : chains) (k : key) : list Z :=
  match find_bucket (ch (h k)) k with Some rows => rows | None => [] end.

(** wg_index_header, Db/dballoc.h 385-398, and its hash table *)
Record index := { cols : list Z; table : chains }.
Definition last_col (ix : index) : Z := last (cols ix) 0.
(** A record: its offset and its fields. *)
Definition record := (Z * list val)%type.
Record db := { recs : list record; ixs : list index }.

(** wg_get_field, Db/dbdata.c 1197-1213, without CHECK: [None] is a read past the end of the record *)
Definition get_field (fs : list val) (c : Z) : option val := nth_error fs (Z.to_nat c).
Fixpoint get_fields (fs : list val) (cs : list Z) : option (list val) :=
  match cs with
  | [] => Some []
  | c :: cs =>
      match get_field fs c, get_fields fs cs with Some v, Some vs => Some (v :: vs) | _, _ => None end
  end.
(** hash_add_row, dbindex.c 1474-1484; [None] when it reads past the end of the record *)
Definition hash_add_row (ix : index) (r : Z) (fs : list val) : option (index * Z) :=
  match get_fields fs (cols ix) with
  | None => None
  | Some vs =>
      match key_of vs with
      | None => Some (ix, -1)
      | Some k => Some ({| cols := cols ix; table := idxhash_store (table ix) k r |}, 0)
      end
  end.
(** hash_remove_row, dbindex.c 1491-1501 *)
Definition hash_remove_row (ix : index) (r : Z) (fs : list val) : option (index * Z) :=
  match get_fields fs (cols ix) with
  | None => None
  | Some vs =>
      match key_of vs with
      | None => Some (ix, -1)
      | Some k => let (t, e) := idxhash_remove (table ix) k r in Some ({| cols := cols ix; table := t |}, e)
      end
  end.
(** wg_search_hash, dbindex.c 1693-1710: [None] for the result -1 *)
Definition search_hash (ix : index) (values : list val) : option (list Z) :=
  match key_of values with None => None | Some k => Some (idxhash_find (table ix) k) end.

(** The loops over lists of indexes with INDEX_ADD_ROW, dbindex.c 2616-2640: an index that meets the
    test gets the row; the first failure ends with -2, the rest of the list is not reached. *)
Fixpoint add_where (test : index -> bool) (r : Z) (fs : list val) (l : list index) : option (list index * Z) :=
  match l with
  | [] => Some ([], 0)
  | ix :: l =>
      if test ix then
        match hash_add_row ix r fs with
        | None => None
        | Some (ix', e) =>
            if e =? 0 then match add_where test r fs l with Some (l', e') => Some (ix' :: l', e') | None => None end
            else Some (ix' :: l, -2)
        end
      else match add_where test r fs l with Some (l', e') => Some (ix :: l', e') | None => None end
  end.
(** ... with INDEX_REMOVE_ROW, dbindex.c 2642-2666: a failure is an error only below -2 *)
Fixpoint remove_where (test : index -> bool) (r : Z) (fs : list val) (l : list index) : option (list index * Z) :=
  match l with
  | [] => Some ([], 0)
  | ix :: l =>
      if test ix then
        match hash_remove_row ix r fs with
        | None => None
        | Some (ix', e) =>
            if e <? -2 then Some (ix' :: l, -2)
            else match remove_where test r fs l with Some (l', e') => Some (ix' :: l', e') | None => None end
        end
      else match remove_where test r fs l with Some (l', e') => Some (ix :: l', e') | None => None end
  end.
Definition on_column (c : Z) (fs : list val) (ix : index) : bool :=
  existsb (Z.eqb c) (cols ix) && (last_col ix <? Z.of_nat (length fs)).
(** wg_index_add_field, dbindex.c 2675-2733, and wg_index_del_field, 2843-2904 *)
Definition index_add_field (l : list index) (r : Z) (fs : list val) (c : Z) := add_where (on_column c fs) r fs l.
Definition index_del_field (l : list index) (r : Z) (fs : list val) (c : Z) := remove_where (on_column c fs) r fs l.
(** the columns looked at, dbindex.c 2750-2753 and 2921-2924 *)
Definition columns_of (fs : list val) : list Z := map Z.of_nat (seq 0 (Nat.min (length fs) 128)).
(** the test at dbindex.c 2762 and 2933: the index is in the list of the column and the column is its last *)
Definition ends_at (c : Z) (ix : index) : bool := existsb (Z.eqb c) (cols ix) && (last_col ix =? c).
(** wg_index_add_rec, dbindex.c 2741-2834 *)
Fixpoint index_add_rec (cs : list Z) (l : list index) (r : Z) (fs : list val) : option (list index * Z) :=
  match cs with
  | [] => Some (l, 0)
  | c :: cs =>
      match add_where (ends_at c) r fs l with
      | None => None
      | Some (l', e) => if e =? 0 then index_add_rec cs l' r fs else Some (l', e)
      end
  end.
(** wg_index_del_rec, dbindex.c 2911-2982 *)
Fixpoint index_del_rec (cs : list Z) (l : list index) (r : Z) (fs : list val) : option (list index * Z) :=
  match cs with
  | [] => Some (l, 0)
  | c :: cs =>
      match remove_where (ends_at c) r fs l with
      | None => None
      | Some (l', e) => if e =? 0 then index_del_rec cs l' r fs else Some (l', e)
      end
  end.

Fixpoint fields_of (l : list record) (r : Z) : option (list val) :=
  match l with [] => None | (r', fs) :: l => if r' =? r then Some fs else fields_of l r end.
Fixpoint put_fields (l : list record) (r : Z) (fs : list val) : list record :=
  match l with [] => [] | (r', fs') :: l => if r' =? r then (r', fs) :: l else (r', fs') :: put_fields l r fs end.
Definition put_val (fs : list val) (c : Z) (v : val) : list val := firstn (Z.to_nat c) fs ++ v :: skipn (S (Z.to_nat c)) fs.
(** wg_create_raw_record, dbdata.c 186-236: the place the allocator finds for the record is [p] in the
    order of scanning and [r] as an offset *)
Definition create_raw (d : db) (p : nat) (r : Z) (len : nat) : db :=
  {| recs := firstn p (recs d) ++ (r, repeat VNull len) :: skipn p (recs d); ixs := ixs d |}.
(** wg_create_record, dbdata.c 161-171; the result is the offset, 0 for NULL *)
Definition create_record (quick : bool) (d : db) (p : nat) (r : Z) (len : nat) : option (db * Z) :=
  let d1 := create_raw d p r len in
  if quick then Some (d1, r)
  else match index_add_rec (columns_of (repeat VNull len)) (ixs d1) r (repeat VNull len) with
       | None => None
       | Some (l, e) => Some ({| recs := recs d1; ixs := l |}, if e <? -1 then 0 else r)
       end.
(** wg_set_field, dbdata.c 654-845.  The old and the new value are compared here where the code
    compares their encoded words, so that writing an equal string stored elsewhere, which takes the
    row out of the indexes and puts it back, is nothing here. *)
Definition set_field (quick : bool) (d : db) (r : Z) (c : Z) (v : val) : option (db * Z) :=
  match fields_of (recs d) r with
  | None => None
  | Some fs =>
      match get_field fs c with
      | None => None
      | Some old =>
          if quick then Some (d, 0)
          else if val_eq_dec old v then Some (d, 0)
          else
            let fs' := put_val fs c v in
            if c <=? 127 then
              match index_del_field (ixs d) r fs c with
              | None => None
              | Some (l, e) =>
                  if e <? -1 then Some ({| recs := recs d; ixs := l |}, -3)
                  else match index_add_field l r fs' c with
                       | None => None
                       | Some (l', e') => Some ({| recs := put_fields (recs d) r fs'; ixs := l' |}, if e' <? -1 then -3 else 0)
                       end
              end
            else Some ({| recs := put_fields (recs d) r fs'; ixs := ixs d |}, 0)
      end
  end.
(** wg_set_new_field, dbdata.c 867-960, without CHECK *)
Definition set_new_field (quick : bool) (d : db) (r : Z) (c : Z) (v : val) : option (db * Z) :=
  match fields_of (recs d) r with
  | None => None
  | Some fs =>
      match get_field fs c with
      | None => None
      | Some _ =>
          let fs' := put_val fs c v in
          let rs := put_fields (recs d) r fs' in
          if quick then Some ({| recs := rs; ixs := ixs d |}, 0)
          else if c <=? 127 then
            match index_add_field (ixs d) r fs' c with
            | None => None
            | Some (l', e') => Some ({| recs := rs; ixs := l' |}, if e' <? -1 then -3 else 0)
            end
          else Some ({| recs := rs; ixs := ixs d |}, 0)
      end
  end.
(** wg_delete_record, dbdata.c 246-325 *)
Definition delete_record (d : db) (r : Z) : option (db * Z) :=
  match fields_of (recs d) r with
  | None => None
  | Some fs =>
      match index_del_rec (columns_of fs) (ixs d) r fs with
      | None => None
      | Some (l, e) =>
          if e <? -1 then Some ({| recs := recs d; ixs := l |}, -3)
          else Some ({| recs := filter (fun x => negb (fst x =? r)) (recs d); ixs := l |}, 0)
      end
  end.

(** sort_columns, dbindex.c 2001-2019 *)
Fixpoint sort_columns (n : nat) (prev : Z) (columns : list Z) : list Z :=
  match n with
  | O => []
  | S n =>
      let lowest := fold_left (fun m c => if (c <? m) && (prev <? c) then c else m) columns 128 in
      if lowest =? 128 then [] else lowest :: sort_columns n lowest columns
  end.
Definition cols_eqb (a b : list Z) : bool := if list_eq_dec Z.eq_dec a b then true else false.
(** create_hash_index, dbindex.c 1608-1661: only the first column is compared with the length of the
    record, the result of hash_add_row is not looked at *)
Fixpoint fill_index (ix : index) (l : list record) : option index :=
  match l with
  | [] => Some ix
  | (r, fs) :: l =>
      if Z.of_nat (length fs) <=? hd 0 (cols ix) then fill_index ix l
      else match hash_add_row ix r fs with None => None | Some (ix', _) => fill_index ix' l end
  end.
(** wg_create_multi_index, dbindex.c 2048-2262, for the type WG_INDEX_TYPE_HASH without a template *)
Definition create_index (d : db) (columns : list Z) : option (db * Z) :=
  let n := length columns in
  if (n <? 1)%nat || (10 <? n)%nat then Some (d, -1)
  else
    let cs := sort_columns n (-1) columns in
    if (length cs <? n)%nat then Some (d, -1)
    else if existsb (fun ix => cols_eqb (cols ix) cs) (ixs d) then Some (d, -1)
    else match fill_index {| cols := cs; table := fun _ => [] |} (recs d) with
         | None => None
         | Some ix => Some ({| recs := recs d; ixs := ixs d ++ [ix] |}, 0)
         end.
End Hash.
