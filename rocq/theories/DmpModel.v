(** Model of writing a database to a file, checking such a file and loading it (Db/dbdump.c,
    Db/crc1.h).  Line numbers without a file name are those of Db/dbdump.c.

    A memory segment and a file are lists of bytes, a byte is a number from 0 to 255.  Compiled as
    in config.h: 64-bit gint, little-endian, LOCK_PROTO 3, without CHECK and USE_DBLOG.  malloc of the
    buffers succeeds, and reading from a file gives the bytes in it. *)
From Coq Require Import Bool Arith ZArith List.
Import ListNotations.
Open Scope Z_scope.

Definition mem := list Z.

(** conversion to gint32, to char and to gint *)
Definition s32 (z : Z) : Z := (z + 2 ^ 31) mod 2 ^ 32 - 2 ^ 31.
Definition schar (b : Z) : Z := if b <? 128 then b else b - 256.
Definition s64 (z : Z) : Z := (z + 2 ^ 63) mod 2 ^ 64 - 2 ^ 63.

(** crc_table, crc1.h 28-81 *)
Definition table : list Z :=
  [0x00000000; 0x77073096; 0xee0e612c; 0x990951ba; 0x076dc419; 0x706af48f; 0xe963a535; 0x9e6495a3;
   0x0edb8832; 0x79dcb8a4; 0xe0d5e91e; 0x97d2d988; 0x09b64c2b; 0x7eb17cbd; 0xe7b82d07; 0x90bf1d91;
   0x1db71064; 0x6ab020f2; 0xf3b97148; 0x84be41de; 0x1adad47d; 0x6ddde4eb; 0xf4d4b551; 0x83d385c7;
   0x136c9856; 0x646ba8c0; 0xfd62f97a; 0x8a65c9ec; 0x14015c4f; 0x63066cd9; 0xfa0f3d63; 0x8d080df5;
   0x3b6e20c8; 0x4c69105e; 0xd56041e4; 0xa2677172; 0x3c03e4d1; 0x4b04d447; 0xd20d85fd; 0xa50ab56b;
   0x35b5a8fa; 0x42b2986c; 0xdbbbc9d6; 0xacbcf940; 0x32d86ce3; 0x45df5c75; 0xdcd60dcf; 0xabd13d59;
   0x26d930ac; 0x51de003a; 0xc8d75180; 0xbfd06116; 0x21b4f4b5; 0x56b3c423; 0xcfba9599; 0xb8bda50f;
   0x2802b89e; 0x5f058808; 0xc60cd9b2; 0xb10be924; 0x2f6f7c87; 0x58684c11; 0xc1611dab; 0xb6662d3d;
   0x76dc4190; 0x01db7106; 0x98d220bc; 0xefd5102a; 0x71b18589; 0x06b6b51f; 0x9fbfe4a5; 0xe8b8d433;
   0x7807c9a2; 0x0f00f934; 0x9609a88e; 0xe10e9818; 0x7f6a0dbb; 0x086d3d2d; 0x91646c97; 0xe6635c01;
   0x6b6b51f4; 0x1c6c6162; 0x856530d8; 0xf262004e; 0x6c0695ed; 0x1b01a57b; 0x8208f4c1; 0xf50fc457;
   0x65b0d9c6; 0x12b7e950; 0x8bbeb8ea; 0xfcb9887c; 0x62dd1ddf; 0x15da2d49; 0x8cd37cf3; 0xfbd44c65;
   0x4db26158; 0x3ab551ce; 0xa3bc0074; 0xd4bb30e2; 0x4adfa541; 0x3dd895d7; 0xa4d1c46d; 0xd3d6f4fb;
   0x4369e96a; 0x346ed9fc; 0xad678846; 0xda60b8d0; 0x44042d73; 0x33031de5; 0xaa0a4c5f; 0xdd0d7cc9;
   0x5005713c; 0x270241aa; 0xbe0b1010; 0xc90c2086; 0x5768b525; 0x206f85b3; 0xb966d409; 0xce61e49f;
   0x5edef90e; 0x29d9c998; 0xb0d09822; 0xc7d7a8b4; 0x59b33d17; 0x2eb40d81; 0xb7bd5c3b; 0xc0ba6cad;
   0xedb88320; 0x9abfb3b6; 0x03b6e20c; 0x74b1d29a; 0xead54739; 0x9dd277af; 0x04db2615; 0x73dc1683;
   0xe3630b12; 0x94643b84; 0x0d6d6a3e; 0x7a6a5aa8; 0xe40ecf0b; 0x9309ff9d; 0x0a00ae27; 0x7d079eb1;
   0xf00f9344; 0x8708a3d2; 0x1e01f268; 0x6906c2fe; 0xf762575d; 0x806567cb; 0x196c3671; 0x6e6b06e7;
   0xfed41b76; 0x89d32be0; 0x10da7a5a; 0x67dd4acc; 0xf9b9df6f; 0x8ebeeff9; 0x17b7be43; 0x60b08ed5;
   0xd6d6a3e8; 0xa1d1937e; 0x38d8c2c4; 0x4fdff252; 0xd1bb67f1; 0xa6bc5767; 0x3fb506dd; 0x48b2364b;
   0xd80d2bda; 0xaf0a1b4c; 0x36034af6; 0x41047a60; 0xdf60efc3; 0xa867df55; 0x316e8eef; 0x4669be79;
   0xcb61b38c; 0xbc66831a; 0x256fd2a0; 0x5268e236; 0xcc0c7795; 0xbb0b4703; 0x220216b9; 0x5505262f;
   0xc5ba3bbe; 0xb2bd0b28; 0x2bb45a92; 0x5cb36a04; 0xc2d7ffa7; 0xb5d0cf31; 0x2cd99e8b; 0x5bdeae1d;
   0x9b64c2b0; 0xec63f226; 0x756aa39c; 0x026d930a; 0x9c0906a9; 0xeb0e363f; 0x72076785; 0x05005713;
   0x95bf4a82; 0xe2b87a14; 0x7bb12bae; 0x0cb61b38; 0x92d28e9b; 0xe5d5be0d; 0x7cdcefb7; 0x0bdbdf21;
   0x86d3d2d4; 0xf1d4e242; 0x68ddb3f8; 0x1fda836e; 0x81be16cd; 0xf6b9265b; 0x6fb077e1; 0x18b74777;
   0x88085ae6; 0xff0f6a70; 0x66063bca; 0x11010b5c; 0x8f659eff; 0xf862ae69; 0x616bffd3; 0x166ccf45;
   0xa00ae278; 0xd70dd2ee; 0x4e048354; 0x3903b3c2; 0xa7672661; 0xd06016f7; 0x4969474d; 0x3e6e77db;
   0xaed16a4a; 0xd9d65adc; 0x40df0b66; 0x37d83bf0; 0xa9bcae53; 0xdebb9ec5; 0x47b2cf7f; 0x30b5ffe9;
   0xbdbdf21c; 0xcabac28a; 0x53b39330; 0x24b4a3a6; 0xbad03605; 0xcdd70693; 0x54de5729; 0x23d967bf;
   0xb3667a2e; 0xc4614ab8; 0x5d681b02; 0x2a6f2b94; 0xb40bbe37; 0xc30c8ea1; 0x5a05df1b; 0x2d02ef8d].
Definition crc_table (i : Z) : Z := s32 (nth (Z.to_nat i) table 0).
(** update_crc32, crc1.h 83-91.  crc is a signed int: ^= 0xffffffff turns all bits round and >> keeps
    the sign. *)
Definition crc_step (crc b : Z) : Z :=
  Z.lxor (crc_table (Z.land 255 (Z.lxor (schar b) crc))) (Z.shiftr crc 8).
Definition update_crc32 (buf : list Z) (crc : Z) : Z := Z.lnot (fold_left crc_step buf (Z.lnot crc)).

(** Reading and writing ints and gints in memory *)
Fixpoint unsigned (l : list Z) : Z := match l with [] => 0 | b :: l => b + 256 * unsigned l end.
Definition get32 (m : mem) (o : nat) : Z := s32 (unsigned (firstn 4 (skipn o m))).
Definition get64 (m : mem) (o : nat) : Z := s64 (unsigned (firstn 8 (skipn o m))).
Fixpoint bytes (k : nat) (z : Z) : list Z := match k with O => [] | S k => z mod 256 :: bytes k (z / 256) end.
Definition put (m : mem) (o : nat) (l : list Z) : mem := firstn o m ++ l ++ skipn (o + length l) m.

(** Offsets of the first fields of db_memsegment_header (Db/dballoc.h 471-482) *)
Definition o_mark := 0%nat.
Definition o_version := 4%nat.
Definition o_features := 8%nat.
Definition o_checksum := 12%nat.
Definition o_size := 16%nat.
Definition o_free := 24%nat.
Definition magic := 1232319011.                    (* MEMSEGMENT_MAGIC_MARK, dballoc.h 152 *)
Definition version := 131073.                      (* MEMSEGMENT_VERSION, dballoc.h 154; config.h 119-125 *)
Definition features := 47.                         (* MEMSEGMENT_FEATURES, dbfeatures.h *)
Definition bufsize := Z.to_nat 8192.                   (* 188 *)

(** * Writing (wg_dump, wg_dump_internal 77-181, with locking)
    The bytes in the order they are written, each with its place: 141, then 143-144.  [m0] is the
    memory when dbh->free is read (88), [m1] the memory when the checksum is computed (138) and [m2]
    the memory when it is written (141): other processes can be at work in between. *)
Definition used (m : mem) : nat := Z.to_nat (get64 m o_free).
Definition writes (m0 m1 m2 : mem) : list (nat * Z) :=
  let data := firstn (used m0) m2 in
  let crc := update_crc32 (firstn (used m0) m1) 0 in
  combine (seq 0 (length data)) data ++ combine (seq o_checksum 4) (bytes 4 crc).
Definition write_at (f : list Z) (w : nat * Z) : list Z :=
  if Nat.ltb (fst w) (length f) then put f (fst w) [snd w] else f ++ [snd w].
(** The file after [k] of the writes; fopen with "wb" has emptied it (106). *)
Definition file_after (k : nat) (m0 m1 m2 : mem) : list Z :=
  fold_left write_at (firstn k (writes m0 m1 m2)) [].
(** What the system does: opening, locking, the results of the two fwrites, how many of the writes have
    reached the file in the end, unlocking.  The results of fseek, fflush and fclose are not looked at
    (143, 177-178). *)
Record world := { opened : bool; locked : bool; written : bool; sum_written : bool; reached : nat; unlocked : bool }.
Definition dump (w : world) (old : option (list Z)) (m0 m1 m2 : mem) : Z * option (list Z) :=
  if negb (opened w) then (-1, old)
  else if negb (locked w) then (-1, Some [])
  else
    let err := if written w && sum_written w then 0 else -1 in
    let err := if unlocked w then err else -2 in
    (err, Some (file_after (reached w) m0 m1 m2)).

(** * Checking *)
(** wg_check_header_compat, Db/dbmem.c 537-564; the values below -1 are not told apart *)
Definition compatible (h : mem) : bool :=
  (get32 h o_mark =? magic) && (get32 h o_version =? version) && (get32 h o_features =? features).
(** 243-249: the rest of the file, piece by piece; [None]: out of fuel *)
Fixpoint read_on (fuel : nat) (rest : list Z) (filesize crc : Z) : option (Z * Z) :=
  match rest with
  | [] => Some (filesize, crc)
  | _ =>
      match fuel with
      | O => None
      | S fuel =>
          let buf := firstn bufsize rest in
          read_on fuel (skipn bufsize rest) (filesize + Z.of_nat (length buf)) (update_crc32 buf crc)
      end
  end.
(** wg_check_dump 200-268: the result, minsize and maxsize *)
Definition check_dump (file : option (list Z)) : option (Z * Z * Z) :=
  match file with
  | None => Some (-1, 0, 0)
  | Some f =>
      let buf := firstn bufsize f in
      if Nat.ltb (length buf) bufsize then Some (-1, 0, 0)
      else if negb (compatible buf) then Some (-2, 0, 0)
      else
        let minsize := get64 buf o_free in
        let maxsize := get64 buf o_size in
        let dump_crc := get32 buf o_checksum in
        let buf := put buf o_checksum (bytes 4 0) in
        match read_on (length f) (skipn bufsize f) (Z.of_nat bufsize) (update_crc32 buf 0) with
        | None => None
        | Some (filesize, crc) =>
            if negb (filesize =? minsize) then Some (-3, minsize, maxsize)
            else if negb (crc =? dump_crc) then Some (-3, minsize, maxsize)
            else Some (0, minsize, maxsize)
        end
  end.

(** * Loading *)
Inductive outcome := Done (err : Z) (m : mem) | Crash.

Section Import.
  (** sizeof(db_memsegment_header) and the offsets of its last fields locks and extdbs (dballoc.h
      546-547), of which extdbs starts with count *)
  Variable hsize o_locks o_extdbs : nat.

  (** a gint stored at an offset from the segment; outside of it: Crash *)
  Definition set64 (m : mem) (o : Z) (v : Z) : option mem :=
    if (0 <=? o) && (o + 8 <=? Z.of_nat (length m)) then Some (put m (Z.to_nat o) (bytes 8 v)) else None.
  (** wg_init_locks, Db/dblock.c 1242-1278; the loop 1260-1264 over [n] cells.  Fields of syn_var_area:
      tail, queue_lock, storage, max_nodes, freelist (dballoc.h 338-350); cells are SYN_VAR_PADDING =
      128 bytes apart and start with next_cell. *)
  Fixpoint chain_cells (n : nat) (m : mem) (i : Z) : option mem :=
    match n with
    | O => Some m
    | S n => match set64 m i (i + 128) with Some m => chain_cells n m (i + 128) | None => None end
    end.
  Definition init_locks (m : mem) : outcome :=
    let storage := get64 m (o_locks + 16) in
    let max_nodes := get64 m (o_locks + 24) in
    if max_nodes <=? 0 then Crash                   (* tmp is NULL: 1265 *)
    else
      match chain_cells (Z.to_nat max_nodes) m storage with
      | None => Crash
      | Some m =>
          match set64 m (storage + (max_nodes - 1) * 128) 0 with
          | None => Crash
          | Some m =>
              let m := put m (o_locks + 32) (bytes 8 (get64 m (o_locks + 16))) in
              let m := put m o_locks (bytes 8 0) in
              match set64 m (get64 m (o_locks + 8)) 0 with
              | None => Crash
              | Some m => Done 0 m
              end
          end
      end.
  (** wg_import_dump 279-357 *)
  Definition import_dump (m : mem) (file : option (list Z)) : outcome :=
    match file with
    | None => Done (-1) m
    | Some f =>
        let short := Nat.ltb (length f) hsize in
        let dbsize := if short then -1 else get64 f o_free in
        if negb short && negb (get64 f o_extdbs =? 0) then Done (-1) m
        else if get64 m o_size <? dbsize then Done (-1) m
        else if 0 <? dbsize then
          let newsize := get64 m o_size in
          let n := Z.to_nat dbsize in
          if Nat.ltb (length m) n then Crash
          else if Nat.ltb (length f) n then Done (-2) (f ++ skipn (length f) m)
          else
            let m := firstn n f ++ skipn n m in
            let m := put m o_size (bytes 8 newsize) in
            let m := put m o_checksum (bytes 4 0) in
            init_locks m
        else Done (-1) m
    end.
End Import.
