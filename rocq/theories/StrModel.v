(** Strings, URIs, XML literals and blobs in the database: the table of long strings, encoding,
    decoding and freeing.
    Code: Db/dbdata.c 2934-3226 (encoding), 3280-3490 (decoding), 2069-2237 and 2720-2762 (the
    wrappers), 1234-1383 (freeing); Db/dbhash.c 140-285 (the hash table); Db/dbdata.h 624-690
    (the object); Db/dballoc.h 172, 232.  Configuration: USETINYSTR, USE_DBLOG, USE_CHILD_DB and
    CHECK not defined, USE_REASONER defined.
    Simplifications: an object or cell is named by its offset, and which free offset the
    allocator returns, if any, is a parameter; lengths are unbounded (the code compares them as
    C ints); the fields of the object which the table does not use (the hash, counts and lists
    of the prover, the list of URIs) are left out, and so is the failure of the allocation of a
    cell for the list of URIs (3207-3211).  Reading a place which is not allocated is the
    outcome [None].  Bytes are 0..255. *)
From Coq Require Import List ZArith Bool.
Import ListNotations.
Open Scope Z_scope.

Definition bytes := list Z.

(** An encoded value: with an attached external knowledge base ([K]) words are relative to its
    base (encode_kb_offset, dbdata.h 472-475), so that they tell which segment they point to. *)
Inductive word := WShort (o : Z) | WLong (o : Z) | KShort (o : Z) | KLong (o : Z).

(** A long string object, dbdata.h 628-664; [l_size] is getusedobjectsize of its first word. *)
Record lobj := { l_size : Z; l_meta : Z; l_ref : Z; l_chain : option Z; l_extra : option word; l_data : bytes }.

Record heap := { longs : list (Z * lobj); shorts : list (Z * bytes); buckets : Z -> option Z }.
Definition empty_heap : heap := {| longs := []; shorts := []; buckets := fun _ => None |}.

Section Assoc.
  Context {A : Type}.
  Fixpoint aget (l : list (Z * A)) (o : Z) : option A :=
    match l with [] => None | (k, a) :: l' => if k =? o then Some a else aget l' o end.
  Fixpoint aset (l : list (Z * A)) (o : Z) (a : A) : list (Z * A) :=
    match l with
    | [] => [(o, a)]
    | (k, b) :: l' => if k =? o then (o, a) :: l' else (k, b) :: aset l' o a
    end.
  Definition adel (l : list (Z * A)) (o : Z) : list (Z * A) := filter (fun p => negb (fst p =? o)) l.
End Assoc.

Definition put_long (h : heap) (o : Z) (b : lobj) : heap :=
  {| longs := aset (longs h) o b; shorts := shorts h; buckets := buckets h |}.
Definition put_short (h : heap) (o : Z) (s : bytes) : heap :=
  {| longs := longs h; shorts := aset (shorts h) o s; buckets := buckets h |}.
Definition put_bucket (h : heap) (b : Z) (x : option Z) : heap :=
  {| longs := longs h; shorts := shorts h; buckets := fun i => if i =? b then x else buckets h i |}.
Definition del_long (h : heap) (o : Z) : heap :=
  {| longs := adel (longs h) o; shorts := shorts h; buckets := buckets h |}.
Definition del_short (h : heap) (o : Z) : heap :=
  {| longs := longs h; shorts := adel (shorts h) o; buckets := buckets h |}.
Definition with_ref (b : lobj) (n : Z) : lobj :=
  {| l_size := l_size b; l_meta := l_meta b; l_ref := n; l_chain := l_chain b; l_extra := l_extra b; l_data := l_data b |}.
Definition with_chain (b : lobj) (c : option Z) : lobj :=
  {| l_size := l_size b; l_meta := l_meta b; l_ref := l_ref b; l_chain := c; l_extra := l_extra b; l_data := l_data b |}.

(** ** Types, dbapi.h 55-58, and sizes *)
Definition STR := 5.
Definition XML := 6.
Definition URI := 7.
Definition BLOB := 8.
Definition SHORTSTR_SIZE := 32.                                      (* dballoc.h 172 *)
Definition HEADER_BYTES := 13 * 8.                                   (* dbdata.h 647, 64-bit gint *)
(** The size of an object for [n] bytes: dbdata.c 3116-3122 and getusedobjectsize (dballoc.h
    232), which changes no multiple of 8 above MIN_VARLENOBJ_SIZE. *)
Definition objsize (n : Z) : Z :=
  let lengints := n / 8 in
  let lengints := if n mod 8 =? 0 then lengints else lengints + 1 in
  8 * (lengints + 13).

(** The C string at the start of a block. *)
Fixpoint cstr (l : bytes) : bytes :=
  match l with [] => [] | c :: l' => if c =? 0 then [] else c :: cstr l' end.

(** ** The hash function, dbhash.c 161-180 (sdbm; the chars are signed, the sum unsigned long) *)
Definition schar (b : Z) : Z := if b <? 128 then b else b - 256.
Definition hstep (h b : Z) : Z := (schar b + h * 64 + h * 65536 - h) mod 2 ^ 64.
Definition hashsum (data : bytes) (extra : option bytes) : Z :=
  fold_left hstep (data ++ match extra with Some e => cstr e | None => [] end) 0.

(** ** Decoding *)
(** The length of the data of a long string, dbdata.c 3367-3370, 3426-3429, dbhash.c 258-259. *)
Definition strsize (b : lobj) : Z := l_size b - Z.shiftr (Z.land (l_meta b) 65280) 8.
Definition ltype (b : lobj) : Z := Z.land (l_meta b) 255.            (* LONGSTR_META_TYPEMASK *)

(** The heap a word points into, and the object. *)
Definition long_at (kb : option heap) (h : heap) (w : word) : option lobj :=
  match w with
  | WLong o => aget (longs h) o
  | KLong o => match kb with Some k => aget (longs k) o | None => None end
  | _ => None
  end.
Definition short_at (kb : option heap) (h : heap) (w : word) : option bytes :=
  match w with
  | WShort o => aget (shorts h) o
  | KShort o => match kb with Some k => aget (shorts k) o | None => None end
  | _ => None
  end.

(** wg_get_encoded_type of a string word: a short string is of type WG_STRTYPE. *)
Definition decode_type (kb : option heap) (h : heap) (w : word) : option Z :=
  match w with
  | WShort _ | KShort _ => match short_at kb h w with Some _ => Some STR | None => None end
  | _ => match long_at kb h w with Some b => Some (ltype b) | None => None end
  end.
(** wg_decode_unistr, dbdata.c 3280-3304: the C string at the address returned. *)
Definition decode_cstr (kb : option heap) (h : heap) (w : word) : option bytes :=
  match w with
  | WShort _ | KShort _ => option_map cstr (short_at kb h w)
  | _ => match long_at kb h w with Some b => Some (cstr (l_data b)) | None => None end
  end.
(** wg_decode_unistr_len, 3343-3375. *)
Definition decode_len (kb : option heap) (h : heap) (w : word) : option Z :=
  match w with
  | WShort _ | KShort _ => option_map (fun s => Z.of_nat (length (cstr s))) (short_at kb h w)
  | _ => match long_at kb h w with Some b => Some (strsize b - 1) | None => None end
  end.
(** wg_decode_unistr_copy, 3384-3445: the bytes left in a buffer which is large enough. *)
Definition decode_copy (kb : option heap) (h : heap) (w : word) : option bytes :=
  match w with
  | WShort _ | KShort _ => option_map (fun s => cstr s ++ [0]) (short_at kb h w)
  | _ => match long_at kb h w with Some b => Some (firstn (Z.to_nat (strsize b)) (l_data b)) | None => None end
  end.
(** wg_decode_unistr_lang, 3307-3335: [Some None]: there is none.  The words kept in an object
    of the knowledge base are relative to it, those of a local object too (3330). *)
Definition shift (w : word) : word := match w with WShort o => KShort o | WLong o => KLong o | _ => w end.
Definition decode_lang (kb : option heap) (h : heap) (w : word) : option (option bytes) :=
  match w with
  | WShort _ | KShort _ => Some None
  | WLong _ =>
      match long_at kb h w with
      | None => None
      | Some b => match l_extra b with
                  | None => Some None
                  | Some e => option_map Some (decode_cstr kb h e)
                  end
      end
  | KLong _ =>
      match long_at kb h w with
      | None => None
      | Some b => match l_extra b with
                  | None => Some None
                  | Some e => option_map Some (decode_cstr kb h (shift e))
                  end
      end
  end.

(** ** Looking up *)
Fixpoint beqb (x y : bytes) : bool :=
  match x, y with
  | [], [] => true
  | a :: x', b :: y' => (a =? b) && beqb x' y'
  | _, _ => false
  end.

(** wg_right_strhash_bucket, dbhash.c 205-225; [data] has [size] bytes. *)
Definition right_bucket (kb : option heap) (h : heap) (o : Z) (data : bytes) (extra : option bytes) (type : Z) : option bool :=
  let w := WLong o in
  match decode_type kb h w, decode_len kb h w, long_at kb h w, decode_lang kb h w with
  | Some t, Some len, Some b, Some lang =>
      if negb (t =? type) then Some false                            (* 213-214 *)
      else if negb (len + 1 =? Z.of_nat (length data)) then Some false  (* 215-216 *)
      else if negb (beqb (firstn (length data) (l_data b)) data) then Some false  (* 219 *)
      else match lang, extra with                                    (* 220-222 *)
           | None, None => Some true
           | Some x, Some e => Some (beqb x (cstr e))
           | _, _ => Some false
           end
  | _, _, _, _ => None
  end.

Inductive fres := FFound (o : Z) | FNone | FWild.
(** wg_find_strhash_bucket, dbhash.c 188-199. *)
Fixpoint find_bucket (n : nat) (kb : option heap) (h : heap) (c : option Z) (data : bytes) (extra : option bytes) (type : Z) : fres :=
  match c with
  | None => FNone
  | Some o =>
      match n with
      | O => FWild
      | S n' =>
          match right_bucket kb h o data extra type with
          | Some true => FFound o
          | Some false =>
              match aget (longs h) o with
              | Some b => find_bucket n' kb h (l_chain b) data extra type
              | None => FWild
              end
          | None => FWild
          end
      end
  end.

Section Encode.
  (** The length of the array of buckets, of the database and of the knowledge base. *)
  Variables nb knb : Z.
  (** The external knowledge base, if one is attached; it is never changed. *)
  Variable kb : option heap.
  (** The allocators: wg_alloc_gints for an object of that many bytes, alloc_shortstr. *)
  Variable al : heap -> Z -> option Z.
  Variable ash : heap -> option Z.

  (** The result: [None], a wild read; [Some (h, None)], WG_ILLEGAL. *)
  Definition enc_res := option (heap * option word).

  (** Short strings, wg_encode_unistr 2969-3001: each call gets a cell of its own, filled up
      with zeros. *)
  Definition encode_short (h : heap) (s : bytes) : enc_res :=
    match ash h with
    | None => Some (h, None)
    | Some o => Some (put_short h o (s ++ repeat 0 (Z.to_nat (SHORTSTR_SIZE - Z.of_nat (length s)))), Some (WShort o))
    end.

  (** The object as filled in at 3127-3168 and 3193, [n] bytes long. *)
  Definition new_obj (data : bytes) (type : Z) (extra : option word) (chain : option Z) : lobj :=
    let n := Z.of_nat (length data) in
    {| l_size := objsize n; l_meta := Z.lor (Z.shiftl (objsize n - n) 8) type; l_ref := 0;
       l_chain := chain; l_extra := extra; l_data := data |}.

  (** find_create_longstr, 3039-3226; [enc] encodes the extra string (wg_encode_str, 3136).
      The head of the chain is read before (3092) and stored after (3191-3193) that call. *)
  Definition find_create (enc : heap -> bytes -> enc_res) (h : heap) (data : bytes) (extra : option bytes) (type : Z) : enc_res :=
    let sum := hashsum data extra in
    let found_kb :=
      match kb with
      | None => FNone
      | Some k => find_bucket (length (longs k)) None k (buckets k (sum mod knb)) data extra type  (* 3067-3081 *)
      end in
    match found_kb with
    | FWild => None
    | FFound o => Some (h, Some (KLong o))
    | FNone =>
        let b := sum mod nb in
        let head := buckets h b in                                   (* 3092 *)
        match find_bucket (length (longs h)) kb h head data extra type with
        | FWild => None
        | FFound o => Some (h, Some (WLong o))                       (* 3098-3111 *)
        | FNone =>
            match al h (objsize (Z.of_nat (length data))) with       (* 3119 *)
            | None => Some (h, None)
            | Some o =>
                let h1 := put_long h o (new_obj data type None None) in
                match extra with
                | None =>
                    Some (put_bucket (put_long h1 o (new_obj data type None head)) b (Some o), Some (WLong o))
                | Some e =>
                    match enc h1 e with                              (* 3136 *)
                    | None => None
                    | Some (h2, None) => Some (h2, None)             (* the object is not given back *)
                    | Some (h2, Some w) =>
                        match                                        (* 3143-3157 *)
                          (match w with
                           | WLong x => match aget (longs h2) x with
                                        | Some xb => Some (put_long h2 x (with_ref xb (l_ref xb + 1)))
                                        | None => None
                                        end
                           | _ => Some h2
                           end)
                        with
                        | None => None
                        | Some h3 =>
                            Some (put_bucket (put_long h3 o (new_obj data type (Some w) head)) b (Some o), Some (WLong o))
                        end
                    end
                end
            end
        end
    end.

  (** wg_encode_str(db,str,NULL), through wg_encode_unistr; the string without its NUL. *)
  Definition encode_plain (h : heap) (s : bytes) : enc_res :=
    if Z.of_nat (length s) <? SHORTSTR_SIZE then encode_short h s
    else find_create (fun _ _ => None) h (s ++ [0]) None STR.

  (** wg_encode_str (with a language), wg_encode_xmlliteral, wg_encode_uri and wg_encode_blob;
      [data] includes the NUL of all but a blob.  The extra string is a C string. *)
  Definition encode (h : heap) (type : Z) (data : bytes) (extra : option bytes) : enc_res :=
    match extra with
    | None =>
        if (type =? STR) && (Z.of_nat (length data) - 1 <? SHORTSTR_SIZE) then encode_short h (cstr data)
        else find_create (fun _ _ => None) h data None type
    | Some _ => find_create (fun h s => encode_plain h (cstr s)) h data extra type
    end.

  (** ** Freeing, without a knowledge base *)
  (** wg_remove_from_strhash, dbhash.c 233-285: the loop; [prev] is the object whose chain field
      is looked at, [None] the array. *)
  Fixpoint unchain (n : nat) (h : heap) (b : Z) (prev : option Z) (c : option Z) (o : Z) : option heap :=
    match c with
    | None => Some h                                                 (* 281: an error is shown *)
    | Some x =>
        match n with
        | O => None
        | S n' =>
            match aget (longs h) x with
            | None => None
            | Some xb =>
                if x =? o then
                  match prev with
                  | None => Some (put_bucket h b (l_chain xb))
                  | Some p =>
                      match aget (longs h) p with
                      | Some pb => Some (put_long h p (with_chain pb (l_chain xb)))
                      | None => None
                      end
                  end
                else unchain n' h b (Some x) (l_chain xb) o
            end
        end
    end.
  Definition remove_from_strhash (h : heap) (o : Z) : option heap :=
    match aget (longs h) o with
    | None => None
    | Some ob =>
        match (match l_extra ob with None => Some None | Some e => option_map Some (decode_cstr None h e) end) with
        | None => None
        | Some extra =>
            let data := firstn (Z.to_nat (strsize ob)) (l_data ob) in
            let b := hashsum data extra mod nb in
            unchain (length (longs h)) h b None (buckets h b) o
        end
    end.

  (** free_field_encoffset, dbdata.c 1276-1383, of a string word; the recursion goes down the
      extra strings. *)
  Fixpoint free_field (n : nat) (h : heap) (w : word) : option heap :=
    match w with
    | WShort o => match aget (shorts h) o with Some _ => Some (del_short h o) | None => None end
    | WLong o =>
        match n with
        | O => None
        | S n' =>
            match aget (longs h) o with
            | None => None
            | Some ob =>
                if 0 <? l_ref ob - 1 then Some (put_long h o (with_ref ob (l_ref ob - 1)))
                else
                  match remove_from_strhash h o with
                  | None => None
                  | Some h1 =>
                      match (match l_extra ob with None => Some h1 | Some e => free_field n' h1 e end) with
                      | None => None
                      | Some h2 => Some (del_long h2 o)
                      end
                  end
            end
        end
    | _ => None
    end.

  (** wg_free_encoded, 1234-1262.  With a knowledge base attached the word is relative to its
      base, but is used with that of the database: a wild access. *)
  Definition free_encoded (h : heap) (w : word) : option heap :=
    match kb with
    | Some _ => None
    | None =>
        match w with
        | WLong o =>
            match aget (longs h) o with
            | None => None
            | Some ob => let h1 := put_long h o (with_ref ob (l_ref ob + 1)) in
                         free_field (S (length (longs h1))) h1 w
            end
        | _ => free_field 1 h w
        end
    end.
End Encode.
