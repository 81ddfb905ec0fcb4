(** Records that refer to records and strings: setting fields, deleting records, listing parents.
    Code: Db/dbdata.c 160-225 (creation), 247-331 (wg_delete_record), 458-501 (parents),
    654-846 (wg_set_field), 867-985 (wg_set_new_field), 1234-1394 (wg_free_encoded,
    free_field_encoffset), 3039-3200 (find_create_longstr).
    [quick]: whether QUICK_REASONER is defined (dbdata.c 84: it is).
    Simplifications: offsets of records, list cells, long strings and other cells are separate
    numbers; what is in memory is a list of the objects in use.  Indexes (C36, C47), the hash table
    of strings (C49), the log and attached databases are left out.  The places of new objects are
    given (C33, C34: they are not in use).  [None]: memory that is not in use is read or freed, or
    memory at offset 0 (the segment header) is written. *)
From Coq Require Import List ZArith Bool.
Import ListNotations.
Open Scope Z_scope.

(** A field: empty, kept in the word itself, a record, a long string, or another cell of its own
    (short string, double, full integer): dbdata.h 332-448 *)
Inductive value := VNull | VPlain (z : Z) | VRec (o : Z) | VStr (s : Z) | VBox (b : Z).
Definition value_eqb (a b : value) : bool :=
  match a, b with
  | VNull, VNull => true
  | VPlain x, VPlain y | VRec x, VRec y | VStr x, VStr y | VBox x, VBox y => x =? y
  | _, _ => false
  end.

(** [back]: RECORD_BACKLINKS_POS, the first cell of the list of referring records, or 0 *)
Record rec := { fields : list value; back : Z }.
(** LONGSTR_REFCOUNT_POS and LONGSTR_EXTRASTR_POS (dbdata.h 660-680) *)
Record lstr := { count : Z; extra : value }.
(** [cells]: list cells, with car (the offset of the referring record) and cdr *)
Record db := { recs : list (Z * rec); cells : list (Z * (Z * Z)); strs : list (Z * lstr); boxes : list Z }.

Fixpoint get {A} (k : Z) (l : list (Z * A)) : option A :=
  match l with [] => None | (j, x) :: l => if j =? k then Some x else get k l end.
Fixpoint put {A} (k : Z) (x : A) (l : list (Z * A)) : list (Z * A) :=
  match l with [] => [] | (j, y) :: l => if j =? k then (j, x) :: l else (j, y) :: put k x l end.
Fixpoint del {A} (k : Z) (l : list (Z * A)) : list (Z * A) :=
  match l with [] => [] | (j, y) :: l => if j =? k then l else (j, y) :: del k l end.
Fixpoint set_nth (i : nat) (v : value) (l : list value) : list value :=
  match l, i with [], _ => [] | _ :: l, O => v :: l | x :: l, S i => x :: set_nth i v l end.

Definition set_recs (d : db) x := {| recs := x; cells := cells d; strs := strs d; boxes := boxes d |}.
Definition set_cells (d : db) x := {| recs := recs d; cells := x; strs := strs d; boxes := boxes d |}.
Definition set_strs (d : db) x := {| recs := recs d; cells := cells d; strs := x; boxes := boxes d |}.
Definition set_boxes (d : db) x := {| recs := recs d; cells := cells d; strs := strs d; boxes := x |}.

(** What next_offset points to: the word in the record's header or the cdr of a cell *)
Inductive loc := Head (o : Z) | Cdr (c : Z).
Definition read (d : db) (a : loc) : option Z :=
  match a with
  | Head o => match get o (recs d) with Some x => Some (back x) | None => None end
  | Cdr c => match get c (cells d) with Some (_, n) => Some n | None => None end
  end.
Definition write (d : db) (a : loc) (z : Z) : option db :=
  match a with
  | Head o => match get o (recs d) with
              | Some x => Some (set_recs d (put o {| fields := fields x; back := z |} (recs d)))
              | None => None
              end
  | Cdr c => match get c (cells d) with
             | Some (p, _) => Some (set_cells d (put c (p, z) (cells d)))
             | None => None
             end
  end.

(** Enough for any list of cells *)
Definition fuel (d : db) : nat := S (length (cells d)).

(** The loops 305-314 and 758-767: unlink the first cell of record [parent]; [false]: not found *)
Fixpoint unlink (n : nat) (d : db) (a : loc) (parent : Z) : option (bool * db) :=
  match n with
  | O => None
  | S n =>
      match read d a with
      | None => None
      | Some c =>
          if c =? 0 then Some (false, d)
          else match get c (cells d) with
               | None => None
               | Some (car, cdr) =>
                   if car =? parent
                   then match write d a cdr with
                        | Some d => Some (true, set_cells d (del c (cells d)))
                        | None => None
                        end
                   else unlink n d (Cdr c) parent
               end
      end
  end.
(** The loop 818-819: the end of the list *)
Fixpoint list_end (n : nat) (d : db) (a : loc) : option loc :=
  match n with
  | O => None
  | S n => match read d a with
           | None => None
           | Some c => if c =? 0 then Some a else list_end n d (Cdr c)
           end
  end.
(** 812-822, 945-955: a new cell at the end of the list.  814: a failed allocation gives 0, and the
    cell is then written into the segment header. *)
Definition link (d : db) (o new parent : Z) : option db :=
  if new =? 0 then None
  else match list_end (fuel d) d (Head o) with
       | None => None
       | Some a => write (set_cells d ((new, (parent, 0)) :: cells d)) a new
       end.

(** 777-782, 1252-1258: one more reference to a long string *)
Definition incr (d : db) (v : value) : option db :=
  match v with
  | VStr s => match get s (strs d) with
              | Some x => Some (set_strs d (put s {| count := count x + 1; extra := extra x |} (strs d)))
              | None => None
              end
  | _ => Some d
  end.
(** free_field_encoffset 1277-1394, called when isptr *)
Fixpoint free_value (n : nat) (d : db) (v : value) : option db :=
  match n with
  | O => None
  | S n =>
      match v with
      | VStr s =>
          match get s (strs d) with
          | None => None
          | Some x =>
              let t := count x - 1 in
              if 0 <? t then Some (set_strs d (put s {| count := t; extra := extra x |} (strs d)))
              else match free_value n d (extra x) with
                   | Some d => Some (set_strs d (del s (strs d)))
                   | None => None
                   end
          end
      | VBox b => if existsb (Z.eqb b) (boxes d) then Some (set_boxes d (remove Z.eq_dec b (boxes d))) else None
      | _ => Some d
      end
  end.
(** A string of a string has no string of its own (3138: encoded with NULL). *)
Definition depth : nat := 3%nat.

(** 790, 908: the word of the field *)
Definition store (d : db) (r : Z) (i : nat) (v : value) : option db :=
  match get r (recs d) with
  | Some x => Some (set_recs d (put r {| fields := set_nth i v (fields x); back := back x |} (recs d)))
  | None => None
  end.

(** wg_set_field 654-846; [cell]: the place of a new list cell *)
Definition set_field (quick : bool) (d : db) (r : Z) (i : nat) (v : value) (cell : Z) : option (Z * db) :=
  match get r (recs d) with
  | None => None
  | Some x =>
      match nth_error (fields x) i with
      | None => None
      | Some old =>
          if quick then Some (0, d)
          else if value_eqb old v then Some (0, d)
          else match (match old with VRec o => unlink (fuel d) d (Head o) r | _ => Some (true, d) end) with
               | None => None
               | Some (false, d) => Some (-4, d)
               | Some (true, d) =>
                   match incr d v with
                   | None => None
                   | Some d =>
                       match free_value depth d old with
                       | None => None
                       | Some d =>
                           match store d r i v with
                           | None => None
                           | Some d =>
                               match v with
                               | VRec o => match link d o cell r with Some d => Some (0, d) | None => None end
                               | _ => Some (0, d)
                               end
                           end
                       end
                   end
               end
      end
  end.
(** wg_set_new_field 867-985 *)
Definition set_new_field (quick : bool) (d : db) (r : Z) (i : nat) (v : value) (cell : Z) : option (Z * db) :=
  match get r (recs d) with
  | None => None
  | Some x =>
      match nth_error (fields x) i with
      | None => None
      | Some _ =>
          match store d r i v with
          | None => None
          | Some d =>
              if quick then Some (0, d)
              else match incr d v with
                   | None => None
                   | Some d =>
                       match v with
                       | VRec o => match link d o cell r with Some d => Some (0, d) | None => None end
                       | _ => Some (0, d)
                       end
                   end
          end
      end
  end.

(** The loop 289-322 of wg_delete_record over the fields; [Some (-3, _)]: the list of the child does not
    have the record *)
Fixpoint delete_fields (d : db) (r : Z) (fs : list value) : option (Z * db) :=
  match fs with
  | [] => Some (0, d)
  | v :: fs =>
      match (match v with VRec o => unlink (fuel d) d (Head o) r | _ => Some (true, d) end) with
      | None => None
      | Some (false, d) => Some (-3, d)
      | Some (true, d) =>
          match free_value depth d v with
          | None => None
          | Some d => delete_fields d r fs
          end
      end
  end.
(** wg_delete_record 247-331 *)
Definition delete_record (d : db) (r : Z) : option (Z * db) :=
  match get r (recs d) with
  | None => None
  | Some x =>
      if negb (back x =? 0) then Some (-1, d)
      else match delete_fields d r (fields x) with
           | Some (z, d) => if z =? 0 then Some (0, set_recs d (del r (recs d))) else Some (z, d)
           | None => None
           end
  end.

(** wg_create_record 160-225: [n] empty fields, at [o] *)
Definition create_record (d : db) (n : nat) (o : Z) : option (Z * db) :=
  Some (0, set_recs d ((o, {| fields := repeat VNull n; back := 0 |}) :: recs d)).
(** Encoding a short string, double or big integer, at [b] *)
Definition encode_box (d : db) (b : Z) : option (Z * db) := Some (0, set_boxes d (b :: boxes d)).
(** find_create_longstr 3115-3190, a new string at [s]; [ex]: the encoded language, prefix or VNull *)
Definition encode_str (d : db) (s : Z) (ex : value) : option (Z * db) :=
  match incr d ex with
  | Some d => Some (0, set_strs d ((s, {| count := 0; extra := ex |}) :: strs d))
  | None => None
  end.
(** wg_free_encoded 1234-1263 *)
Definition free_encoded (d : db) (v : value) : option (Z * db) :=
  match incr d v with
  | Some d => match free_value depth d v with Some d => Some (0, d) | None => None end
  | None => None
  end.

(** wg_get_field *)
Definition get_field (d : db) (r : Z) (i : nat) : option value :=
  match get r (recs d) with Some x => nth_error (fields x) i | None => None end.

(** wg_get_first_parent 458-474; 0: NULL *)
Definition first_parent (d : db) (r : Z) : option Z :=
  match read d (Head r) with
  | None => None
  | Some c => if c =? 0 then Some 0 else match get c (cells d) with Some (p, _) => Some p | None => None end
  end.
(** The loop 491-497 *)
Fixpoint next_loop (n : nat) (d : db) (car cdr parent : Z) : option Z :=
  match n with
  | O => None
  | S n =>
      if cdr =? 0 then Some 0
      else match get cdr (cells d) with
           | None => None
           | Some (car', cdr') =>
               if (car =? parent) && negb (car' =? 0) then Some car' else next_loop n d car' cdr' parent
           end
  end.
(** wg_get_next_parent 479-501 *)
Definition next_parent (d : db) (r parent : Z) : option Z :=
  match read d (Head r) with
  | None => None
  | Some c => if c =? 0 then Some 0
              else match get c (cells d) with
                   | Some (p, nx) => next_loop (fuel d) d p nx parent
                   | None => None
                   end
  end.
