(** Variable-length objects of the database segment.
    Code: Db/dballoc.c 684-755 (init_subarea_freespace), 919-1041 (wg_alloc_gints), 1055-1097
    (extend_varlen_area), 1109-1181 (split_free), 1194-1205 (wg_freebuckets_index), 1214-1381
    (wg_free_object); dballoc.h 165-170, 222-245.
    Configuration and simplifications as in AllocModel; the bucket array is a map from indexes to
    words, and [baddr i] the offset of its element i.  [VUB]: the bucket array is indexed outside
    its bounds. *)
From Coq Require Import List ZArith Bool.
From Verif Require Import Word64 AllocModel.
Import ListNotations.
Open Scope Z_scope.

(** dballoc.h 222-241 *)
Definition low_bits (h : Z) : Z := Z.land h 3.
Definition pure_size (h : Z) : Z := Z.land h (Z.lnot 3).
Definition is_free (h : Z) : bool := low_bits h =? 1.
Definition is_used (h : Z) : bool := Z.land h 1 =? 0.
Definition is_used_prevfree (h : Z) : bool := low_bits h =? 2.
Definition is_special (h : Z) : bool := low_bits h =? 3.
Definition used_size (h : Z) : Z :=
  let z := pure_size h in if z <=? 32 then 32 else if negb (Z.rem z 8 =? 0) then z + 4 else z.
Definition mk_free (s : Z) : Z := Z.lor (pure_size s) 1.
Definition mk_used (s : Z) : Z := pure_size s.
Definition mk_prevfree (s : Z) : Z := Z.lor (pure_size s) 2.
Definition mk_special (s : Z) : Z := Z.lor s 3.

(** The segment, the buckets 0..287, the designated victim and its size *)
Record vdb := { base : db; bkt : Z -> Z; dv : Z; dvs : Z }.
Definition ld (v : vdb) (o : Z) : Z := mem (base v) o.
Definition st (v : vdb) (o x : Z) : vdb :=
  {| base := set_mem (base v) (store (mem (base v)) o x); bkt := bkt v; dv := dv v; dvs := dvs v |}.
Definition set_bkt (v : vdb) (i x : Z) : vdb :=
  {| base := base v; bkt := fun j => if j =? i then x else bkt v j; dv := dv v; dvs := dvs v |}.
Definition set_dv (v : vdb) (o s : Z) : vdb := {| base := base v; bkt := bkt v; dv := o; dvs := s |}.

(** How an object was found; only used to name histories *)
Inductive how := FromBucket | FromSplit | FromVictim | FromVarBucket.
Inductive vres := VOk (h : how) (o : Z) (v : vdb) | VFail (v : vdb) | VFuel | VUB.
Inductive fres := FOk (v : vdb) | FErr (code : Z) | FUB.

Section Var.
Variable baddr : Z -> Z.
Variable k : nat.

(** wg_freebuckets_index 1194-1205 *)
Fixpoint var_index (n : nat) (i cursize size : Z) : Z :=
  match n with
  | O => -1
  | S n => if size <? cursize then 256 + i else var_index n (i + 1) (cursize * 2) size
  end.
Definition bucket_index (size : Z) : Z := if size <? 256 then size else var_index 32 0 512 size.

(** Putting the free object [o] in front of its bucket: 711-718, 1168-1176, 1371-1381; the
    stores are to different words, so their order (freelist first in 1373) does not matter *)
Definition push_free (v : vdb) (o size i : Z) : vdb :=
  let freelist := bkt v i in
  let v := st v o (mk_free size) in
  let v := st v (o + size - 8) (mk_free size) in
  let v := if freelist =? 0 then v else st v (freelist + 16) o in
  let v := st v (o + 8) freelist in
  let v := st v (o + 16) (baddr i) in
  set_bkt v i o.

(** init_subarea_freespace 684-755 for the subarea created last; [first]: arrayindex = 0 *)
Definition init_freespace (v : vdb) (first : bool) : option vdb :=
  match subs (areas (base v) k) with
  | [] => None
  | s :: _ =>
      let size := sa_asize s in
      let offset := sa_aoffset s in
      let pushed :=
        if negb first && negb (dv v =? 0) && (32 <=? dvs v) then
          let i := bucket_index (dvs v) in
          if i <? 0 then None else Some (push_free v (dv v) (dvs v) i)
        else Some v in
      match pushed with
      | None => None
      | Some v =>
          let v := st v offset (mk_special 32) in
          let v := st v (offset + 8) 0 in
          let v := st v (offset + 16) 0 in
          let v := st v (offset + 32 - 8) 32 in
          let e := offset + size - 32 in
          let v := st v e (mk_special 32) in
          let v := st v (e + 8) 0 in
          let v := st v (e + 16) 0 in
          let v := st v (e + 32 - 8) 32 in
          let freeoffset := offset + 32 in
          let freesize := size - 64 in
          let v := st v freeoffset (mk_special freesize) in
          let v := st v (freeoffset + 8) 1 in
          Some (set_dv v freeoffset freesize)
      end
  end.

Definition with_base (v : vdb) (d : db) : vdb := {| base := d; bkt := bkt v; dv := dv v; dvs := dvs v |}.
(** 1079-1089: double until large enough, then halve until a chunk is found *)
Fixpoint grow (n : nat) (newsize minsize : Z) : option Z :=
  match n with
  | O => None
  | S n => if (0 <=? newsize) && (newsize <? minsize) then grow n (shl64 newsize 1) minsize else Some newsize
  end.
Fixpoint shrink (n : nat) (d : db) (newsize minsize : Z) : option (option db) :=
  match n with
  | O => None
  | S n => if newsize <? minsize then Some None
           else match init_subarea d k newsize with
                | Some d' => Some (Some d')
                | None => shrink n d (shr newsize 1) minsize
                end
  end.
(** extend_varlen_area 1055-1097; [XFail]: the return value 0 *)
Inductive xres := XOk (v : vdb) | XFail | XFuel | XUB.
Definition extend_varlen (v : vdb) (minbytes : Z) : xres :=
  match subs (areas (base v) k) with
  | [] => XFail
  | s :: _ =>
      if 64 <=? Z.of_nat (length (subs (areas (base v) k))) then XFail
      else
        let minsize := w64 (minbytes + 8 + 64) in
        let minsize := if minsize <? 8192 then 8192 else minsize in
        match grow 64 (shl64 (sa_size s) 1) minsize with
        | None => XFuel
        | Some newsize =>
            match shrink 64 (base v) newsize minsize with
            | None => XFuel
            | Some None => XFail
            | Some (Some d) => match init_freespace (with_base v d) false with Some v => XOk v | None => XUB end
            end
        end
  end.

(** split_free 1109-1181; [None]: a negative return value *)
Definition split_free (v : vdb) (nr i : Z) : option vdb :=
  let object := bkt v i in
  let oldsize := ld v object in
  if negb (is_free oldsize) then None
  else
    let oldsize := pure_size oldsize in
    let oldnextptr := ld v (object + 8) in
    let v := st v object (mk_used nr) in
    let v := set_bkt v i oldnextptr in
    let splitsize := oldsize - nr in
    let splitobject := object + nr in
    let j := bucket_index splitsize in
    if j <? 0 then None else Some (push_free v splitobject splitsize j).

(** The first bucket from [i] on, below 256, whose first object can be split: 957-960, 993-996 *)
Fixpoint find_split (v : vdb) (n : nat) (i used : Z) : option Z :=
  match n with
  | O => None
  | S n =>
      if i <? 256 then
        if negb (bkt v i =? 0) && (used + 32 <=? pure_size (ld v (bkt v i))) then Some i
        else find_split v n (i + 1) used
      else None
  end.
(** 1006-1030: [inl]: an object of exactly the size, [inr]: one to split *)
Fixpoint find_var (v : vdb) (n : nat) (i used : Z) : option (Z + Z) :=
  match n with
  | O => None
  | S n =>
      if i <? 288 then
        if bkt v i =? 0 then find_var v n (i + 1) used
        else
          let size := pure_size (ld v (bkt v i)) in
          if size =? used then Some (inl i)
          else if used + 32 <=? size then Some (inr i)
          else find_var v n (i + 1) used
      else None
  end.
(** 943-947, 1011-1015: taking the first object of a bucket *)
Definition pop_free (v : vdb) (i : Z) : vdb :=
  let res := bkt v i in
  let nextel := ld v (res + 8) in
  let v := set_bkt v i nextel in
  if nextel =? 0 then v else st v (nextel + 16) (baddr i).
(** clearing the mark of the object that follows, 951-953, 1355-1357; setting it, 1339-1341, 1362-1364 *)
Definition clear_mark (v : vdb) (o : Z) : vdb := if is_used (ld v o) then st v o (mk_used (ld v o)) else v.
Definition set_mark (v : vdb) (o : Z) : vdb := if is_used (ld v o) then st v o (mk_prevfree (ld v o)) else v.

Definition split_at (v : vdb) (used wanted i : Z) : vres :=
  let res := bkt v i in
  match split_free v used i with
  | None => VFail v
  | Some v => VOk FromSplit res (st v res (mk_used wanted))
  end.
(** 1006-1030 *)
Definition alloc_var (v : vdb) (used wanted : Z) : option vres :=
  let i := bucket_index used in
  if i <? 0 then Some VUB
  else match find_var v 288 i used with
       | Some (inl i) => let res := bkt v i in Some (VOk FromVarBucket res (st (pop_free v i) res (mk_used wanted)))
       | Some (inr i) => Some (split_at v used wanted i)
       | None => None
       end.
(** 993-1030 *)
Definition alloc_search (v : vdb) (used wanted : Z) : option vres :=
  match find_split v 256 (used + 1) used with
  | Some i => Some (split_at v used wanted i)
  | None => alloc_var v used wanted
  end.
(** 971-991 *)
Definition alloc_victim (v : vdb) (used wanted : Z) : option vres :=
  let size := dvs v in
  if (used <=? size) && negb (dv v =? 0) then
    let res := dv v in
    if used =? size then Some (VOk FromVictim res (st (set_dv v 0 0) res (mk_used wanted)))
    else if used + 32 <=? size then
      let v := st v (res + used) (mk_special (size - used)) in
      let v := st v (res + used + 8) 1 in
      let v := set_dv v (res + used) (size - used) in
      Some (VOk FromVictim res (st v res (mk_used wanted)))
    else None
  else None.
(** wg_alloc_gints 941-1030: without the extension *)
Definition alloc_here (v : vdb) (used wanted : Z) : option vres :=
  if (used <? 256) && negb (bkt v used =? 0) then
    let res := bkt v used in
    let v := pop_free v used in
    let v := st v res (mk_used wanted) in
    Some (VOk FromBucket res (clear_mark v (res + used)))
  else match find_split v 3 (used + 1) used with
       | Some i => Some (split_at v used wanted i)
       | None => match alloc_victim v used wanted with
                 | Some r => Some r
                 | None => alloc_search v used wanted
                 end
       end.
(** 932-938: 8-byte words, so wantedbytes % 8 = 0 *)
Definition used_bytes (wanted : Z) : Z := if wanted <=? 32 then 32 else wanted.
Fixpoint alloc_gints (n : nat) (v : vdb) (nr : Z) : vres :=
  match n with
  | O => VFuel
  | S n =>
      let wanted := w64 (nr * 8) in
      if wanted <? 0 then VFail v
      else
        let used := used_bytes wanted in
        match alloc_here v used wanted with
        | Some r => r
        | None =>
            match extend_varlen v used with
            | XOk v => alloc_gints n v nr
            | XFail => VFail v
            | XFuel => VFuel
            | XUB => VUB
            end
        end
  end.

(** Taking a free object out of its list: 1272-1287, 1313-1328 *)
Definition unlink (v : vdb) (o size : Z) : option vdb :=
  let nextptr := ld v (o + 8) in
  let prevptr := ld v (o + 16) in
  let i := bucket_index size in
  if i <? 0 then None
  else
    let v := if bkt v i =? o then set_bkt v i nextptr else st v (prevptr + 8) nextptr in
    Some (if nextptr =? 0 then v else st v (nextptr + 16) prevptr).
Definition make_victim (v : vdb) (o size : Z) : vdb :=
  st (st (set_dv v o size) o (mk_special size)) (o + 8) 1.
(** 1347-1381: the object [o], not merged with the victim *)
Definition free_store (v : vdb) (o size : Z) : fres :=
  let push v o size := let i := bucket_index size in if i <? 0 then FUB else FOk (push_free v o size i) in
  if dvs v <? size then
    let d := dv v in
    let ds := dvs v in
    let v := make_victim v o size in
    let v := clear_mark v (o + size) in
    if d =? 0 then FOk v
    else push (set_mark v (d + ds)) d ds
  else push v o size.
(** 1305-1381 *)
Definition free_next (v : vdb) (o size : Z) : fres :=
  let nexto := o + size in
  let nexth := ld v nexto in
  if is_free nexth then
    match unlink v nexto (pure_size nexth) with
    | None => FUB
    | Some v => free_store v o (size + pure_size nexth)
    end
  else if is_special nexth && (nexto =? dv v) then FOk (make_victim v o (size + dvs v))
  else free_store (set_mark v nexto) o size.
(** wg_free_object 1214-1381; getfreeobjectsize is applied to the offset of the previous object,
    not to its head (1266) *)
Definition free_object (v : vdb) (o : Z) : fres :=
  let head := ld v o in
  if is_free head then FErr (-2)
  else
    let size := used_size head in
    if size <? 32 then FErr (-3)
    else if is_used_prevfree head then
      let psize := pure_size (ld v (o - 8)) in
      let po := o - psize in
      if negb (is_free (ld v po)) || negb (pure_size po =? psize) then FErr (-4)
      else match unlink v po psize with
           | None => FUB
           | Some v => free_next v po (size + psize)
           end
    else if dv v + dvs v =? o then FOk (make_victim v (dv v) (size + dvs v))
    else free_next v o size.

(** The first subarea of the area, dballoc.c 231-236 *)
Definition create_varlen (d : db) : option vdb :=
  match init_subarea d k 8192 with
  | None => None
  | Some d => init_freespace {| base := d; bkt := fun _ => 0; dv := 0; dvs := 0 |} true
  end.
End Var.
