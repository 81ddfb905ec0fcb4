(** Going through the records of the database.
    Code: Db/dbdata.c 332-342 (wg_get_first_record), 344-353 (wg_get_next_record), 355-374
    (wg_get_first_raw_record), 376-453 (wg_get_next_raw_record); dbdata.h 282-296; dballoc.h 222-245.
    The area and its blocks are those of VarModel.  The subarea array is [rev (subs a)], since
    AllocModel lists the last subarea first; it has at most 64 elements, as the area is not extended
    beyond that.  The checks of the database pointer and of the kind of the record given are left
    out. *)
From Coq Require Import List ZArith Bool.
From Verif Require Import Word64 AllocModel VarModel.
Import ListNotations.
Open Scope Z_scope.

(** What a call returns: a record, NULL at the end of the data, NULL with the message "out of area";
    [Spent]: the bound of the model on the number of blocks passed was too small. *)
Inductive answer := Found (o : Z) | NoMore | Lost | Spent.

Section Scan.
Variables (k : nat) (v : vdb).
(** dbdata.c 425-426: the subareas in the order of the array *)
Definition chunks : list subarea := rev (subs (areas (base v) k)).
(** dbdata.c 427-445: the subareas after the one the offset is in *)
Fixpoint after (l : list subarea) (o : Z) : option (list subarea) :=
  match l with
  | [] => None
  | a :: r => if (sa_aoffset a <=? o) && (o <? sa_offset a + sa_size a) then Some r else after r o
  end.
(** dbdata.c 405-452: the loop, from the block at [o] of [sz] bytes *)
Fixpoint walk (f : nat) (o sz : Z) : answer :=
  match f with
  | O => Spent
  | S f =>
    let o := o + sz in
    let head := ld v o in
    if is_used head then Found o
    else if is_free head then walk f o (pure_size head)
    else if ld v (o + 8) =? 1 then walk f o (used_size head)
    else match after chunks o with
         | None => Lost
         | Some [] => NoMore
         | Some (a :: _) => walk f (sa_aoffset a) (used_size (ld v (sa_aoffset a)))
         end
  end.
(** dbdata.c 379-453 *)
Definition next_raw (f : nat) (o : Z) : answer := walk f o (used_size (ld v o)).
(** dbdata.c 358-374; an area has always a first subarea *)
Definition first_raw (f : nat) : answer :=
  match chunks with [] => Lost | a :: _ => next_raw f (sa_aoffset a) end.
(** dbdata.h 295-296 *)
Definition special_record (o : Z) : bool := negb (Z.land (ld v (o + 8)) 1 =? 0).
(** dbdata.c 347-353; [g] bounds the number of records passed *)
Fixpoint next_record (g f : nat) (o : Z) : answer :=
  match g with
  | O => Spent
  | S g => match next_raw f o with
           | Found o' => if special_record o' then next_record g f o' else Found o'
           | r => r
           end
  end.
(** dbdata.c 337-342 *)
Definition first_record (g f : nat) : answer :=
  match first_raw f with
  | Found o => if special_record o then next_record g f o else Found o
  | r => r
  end.
(** The records a loop over first and next gets, as any caller writes it (dbdump.c, dbutil.c) *)
Fixpoint all_from (next : Z -> answer) (g : nat) (r : answer) : option (list Z) :=
  match r with
  | NoMore => Some []
  | Found o => match g with
               | O => None
               | S g => match all_from next g (next o) with Some l => Some (o :: l) | None => None end
               end
  | Lost | Spent => None
  end.
End Scan.
