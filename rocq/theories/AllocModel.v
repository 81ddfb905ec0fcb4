(** The database memory segment: chunks and fixed-length object areas.
    Code: Db/dballoc.c 313-385 (init_db_subarea, alloc_db_segmentchunk), 620-644
    (make_subarea_freelist), 757-905 (wg_alloc_fixlen_object, extend_fixedlen_area, the
    wg_free_* functions).  Configuration: sizeof(gint) = 8, SUBAREA_ALIGNMENT_BYTES = 8,
    MIN_VARLENOBJ_SIZE = 32, MINIMAL/INITIAL_SUBAREA_SIZE = 8192, SUBAREA_ARRAY_SIZE = 64.
    Simplifications: memory is a map from byte offsets to words, used at multiples of 8 only;
    the fields of the segment header (outside the areas) are a record. *)
From Coq Require Import List ZArith Bool.
From Verif Require Import Word64.
Import ListNotations.
Open Scope Z_scope.

Definition memory := Z -> Z.
Definition store (m : memory) (o v : Z) : memory := fun p => if p =? o then v else m p.

(** dballoc.h 283-300 *)
Record subarea := { sa_size : Z; sa_offset : Z; sa_aoffset : Z; sa_asize : Z }.
(** [subs]: last subarea first; last_subarea_index = length - 1. *)
Record area := { olen : Z; flist : Z; subs : list subarea }.
Record db := { mem : memory; dfree : Z; dsize : Z; areas : nat -> area }.

Definition set_mem (d : db) m := {| mem := m; dfree := dfree d; dsize := dsize d; areas := areas d |}.
Definition set_area (d : db) (k : nat) (a : area) :=
  {| mem := mem d; dfree := dfree d; dsize := dsize d;
     areas := fun j => if Nat.eqb j k then a else areas d j |}.
Definition set_flist (a : area) f := {| olen := olen a; flist := f; subs := subs a |}.

(** What has to be added to reach the next multiple of 8: 326-327, 361-362. *)
Definition pad8 (z : Z) : Z := let i := 8 - z mod 8 in if i =? 8 then 0 else i.

(** alloc_db_segmentchunk 350-375: [None] is the return value 0. *)
Definition alloc_chunk (d : db) (size : Z) : option (Z * db) :=
  let lastfree := dfree d in
  let nextfree := w64 (lastfree + size) in
  if nextfree <? 0 then None
  else let nextfree := nextfree + pad8 nextfree in
       if dsize d <=? nextfree then None
       else Some (lastfree, {| mem := mem d; dfree := nextfree; dsize := dsize d; areas := areas d |}).

(** init_db_subarea 313-340 *)
Definition init_subarea (d : db) (k : nat) (size : Z) : option db :=
  if size <? 8192 then None
  else match alloc_chunk d size with
       | None => None
       | Some (chunk, d) =>
           let i := pad8 chunk in
           let asize := size - i in
           let a := areas d k in
           Some (set_area d k {| olen := olen a; flist := 0;
                   subs := {| sa_size := size; sa_offset := chunk; sa_aoffset := chunk + i;
                              sa_asize := asize - asize mod 32 |} :: subs a |})
       end.

(** The loop of make_subarea_freelist 636-639; [None]: out of fuel. *)
Fixpoint link_cells (n : nat) (len i max : Z) (m : memory) : option memory :=
  match n with
  | O => None
  | S n => if i <=? max then link_cells n len (i + len) max (store m i (i + len))
           else Some (store m i 0)
  end.

(** make_subarea_freelist 620-644, for the subarea created last. *)
Definition make_freelist (n : nat) (d : db) (k : nat) : option db :=
  let a := areas d k in
  match subs a with
  | [] => None
  | s :: _ =>
      match link_cells n (olen a) (sa_aoffset s) (sa_aoffset s + sa_asize s - 2 * olen a) (mem d) with
      | None => None
      | Some m => Some (set_area (set_mem d m) k (set_flist a (sa_aoffset s)))
      end
  end.

(** Enough iterations for the loop over a subarea. *)
Definition cells_fuel (s : subarea) : nat := S (Z.to_nat (sa_asize s)).

Inductive ares := AOk (o : Z) (d : db) | AFail (d : db) | AFuel.

(** The loop of extend_fixedlen_area 807-817: halve until a chunk is found. *)
Fixpoint try_sizes (n : nat) (d : db) (k : nat) (newsize : Z) : option (option db) :=
  match n with
  | O => None
  | S n => if newsize <? 8192 then Some None
           else match init_subarea d k newsize with
                | Some d' => Some (Some d')
                | None => try_sizes n d k (shr newsize 1)
                end
  end.

(** extend_fixedlen_area 787-826; 62 halvings bring any 63-bit size below 8192. *)
Definition extend_fixlen (d : db) (k : nat) : option (option db) :=
  match subs (areas d k) with
  | [] => Some None
  | s :: _ =>
      if 64 <=? Z.of_nat (length (subs (areas d k))) then Some None
      else match try_sizes 64 d k (shl64 (sa_size s) 1) with
           | None => None
           | Some None => Some None
           | Some (Some d') =>
               match subs (areas d' k) with
               | [] => Some None
               | s' :: _ => match make_freelist (cells_fuel s') d' k with
                            | None => None
                            | Some d'' => Some (Some d'')
                            end
               end
           end
  end.

Definition pop (d : db) (k : nat) (f : Z) : db := set_area d k (set_flist (areas d k) (mem d f)).

(** wg_alloc_fixlen_object 757-778 *)
Definition alloc_fixlen (d : db) (k : nat) : ares :=
  let f := flist (areas d k) in
  if f =? 0 then
    match extend_fixlen d k with
    | None => AFuel
    | Some None => AFail d
    | Some (Some d') =>
        let f := flist (areas d' k) in
        if f =? 0 then AFail d' else AOk f (pop d' k f)
    end
  else AOk f (pop d k f).

(** wg_free_listcell ... wg_free_fixlen_object 838-905 *)
Definition free_fixlen (d : db) (k : nat) (o : Z) : db :=
  set_area (set_mem d (store (mem d) o (flist (areas d k)))) k (set_flist (areas d k) o).

(** Setting up one area, e.g. 186-203: the first subarea has the initial size. *)
Definition create_area (d : db) (k : nat) (len : Z) : option db :=
  match init_subarea d k 8192 with
  | None => None
  | Some d' =>
      let a := areas d' k in
      let d' := set_area d' k {| olen := len; flist := flist a; subs := subs a |} in
      match subs a with
      | [] => None
      | s :: _ => make_freelist (cells_fuel s) d' k
      end
  end.
