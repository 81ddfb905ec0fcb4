(** Applying the journal: recover_journal 600-684, add_tran_offset, add_tran_enc, translate_offset and
    translate_encoded 447-527 of Db/dblog.c, over the hash table of GhModel.

    Memory is modelled as a partial function from offsets to records and stored data.  An encoded value
    is an immediate value or an offset with type bits; the bits stay the same, and the offset in a value
    is taken to be the logged one.  Stored data is not freed in the model, there are no indexes and
    no references to other databases.  The same operations run when the journal is written and when it is
    applied, as in the code; the offsets they are given then come from the allocator and are arguments. *)
From Coq Require Import ZArith List Bool.
From Verif Require GhModel.
Import ListNotations.
Open Scope Z_scope.

Inductive val := Imm (z : Z) | Ref (off : Z).
Inductive cell := Rec (len : Z) (fields : Z -> val) (meta : Z) | Data (d : list Z).
Definition heap := Z -> option cell.
Definition upd {A} (f : Z -> A) (k : Z) (x : A) : Z -> A := fun j => if j =? k then x else f j.

(** The logged operations: wg_create_record dbdata.c 180-235, wg_delete_record 248-330, wg_set_field
    640-860, setting the meta word dbschema.c 100-150, and the encoding of stored data (strings may be
    shared), each with the offset it gave *)
Inductive op := Cre (len off : Z) | Del (off : Z) | SetF (off col : Z) (v : val) | Meta (off meta : Z) | Enc (d : list Z) (off : Z)
| CreFail (len : Z).   (* wg_create_record without memory; logged with the offset 0 *)
(** None: the operation is not possible (no record there, no such field, memory in use) *)
Definition exec (o : op) (m : heap) : option heap :=
  match o with
  | Cre len off => match m off with None => Some (upd m off (Some (Rec len (fun _ => Imm 0) 0))) | _ => None end
  | Del off => match m off with Some (Rec _ _ _) => Some (upd m off None) | _ => None end
  | SetF off col v =>
      match m off with
      | Some (Rec len f meta) =>
          if (0 <=? col) && (col <? len) then Some (upd m off (Some (Rec len (upd f col v) meta))) else None
      | _ => None
      end
  | Meta off x => match m off with Some (Rec len f _) => Some (upd m off (Some (Rec len f x))) | _ => None end
  | Enc d off =>
      match m off with
      | None => Some (upd m off (Some (Data d)))
      | Some (Data e) => if list_eq_dec Z.eq_dec d e then Some m else None
      | _ => None
      end
  | CreFail len => Some m
  end.

Section Rp.
Variable h : Z -> Z.
(** translate_encoded 490-527 *)
Definition translate_val (t : GhModel.table) (v : val) : val :=
  match v with Imm z => Imm z | Ref off => Ref (GhModel.translate h t off) end.
(** One entry of the journal; [n] is the offset the allocator gives now.  The operation with the offsets
    translated, and the new entry of the table (add_tran_offset when the offset differs) *)
Definition translate_op (t : GhModel.table) (o : op) (n : Z) : op :=
  match o with
  | Cre len off => Cre len n
  | Del off => Del (GhModel.translate h t off)
  | SetF off col v => SetF (GhModel.translate h t off) col (translate_val t v)
  | Meta off x => Meta (GhModel.translate h t off) x
  | Enc d off => Enc d n
  | CreFail len => Cre len n
  end.
Definition added (o : op) (n : Z) : list (Z * Z) :=
  match o with
  | Cre _ off | Enc _ off => if n =? off then [] else [(off, n)]
  | _ => []
  end.
(** NoMemory: the allocator has nothing, or nothing free, to give; NoTable: the table is full; Bad: an
    operation on something that is not there *)
Inductive result := Done (m : heap) (t : GhModel.table) | NoMemory | NoTable | Bad.
Fixpoint replay (js : list (op * Z)) (m : heap) (t : GhModel.table) : result :=
  match js with
  | [] => Done m t
  | (o, n) :: js =>
      match exec (translate_op t o n) m with
      | None => match o with Cre _ _ | Enc _ _ => NoMemory | CreFail _ => replay js m t | _ => Bad end
      | Some m =>
          match GhModel.adds h (added o n) t with
          | GhModel.Ok t => replay js m t
          | _ => NoTable
          end
      end
  end.
End Rp.
