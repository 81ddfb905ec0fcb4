(** Documents: finding the document a record belongs to, deleting a document.
    Code: Db/dbschema.c 160-255; of wg_set_field and wg_delete_record (Db/dbdata.c 247-328, 654-846) the part
    about fields and backlinks, with USE_BACKLINKING.

    Memory is a partial function from offsets to records.  A field is an immediate value or a reference to
    a record; strings and other data count as immediate.  Indexes are not modelled. *)
From Coq Require Import ZArith List Bool Arith.
Import ListNotations.
Open Scope Z_scope.

Inductive val := Imm (z : Z) | Ref (off : Z).
(** [doc]: RECORD_META_DOC; [back]: the chain of backlinks, an entry for each field that refers to the record *)
Record rec := mkR { fields : list val; doc : bool; back : list Z }.
Definition heap := Z -> option rec.
Definition upd (m : heap) (k : Z) (x : option rec) : heap := fun j => if j =? k then x else m j.
(** WG_COMPARE_REC_DEPTH, Db/dbcompare.h *)
Definition REC_DEPTH := 7%nat.

(** find_document_recursive 186-208; the chain is followed to its end *)
Fixpoint first_some (f : Z -> option Z) (l : list Z) : option Z :=
  match l with [] => None | x :: l => match f x with Some y => Some y | None => first_some f l end end.
Fixpoint find (depth : nat) (m : heap) (off : Z) : option Z :=
  match m off with
  | None => None
  | Some r =>
      if doc r then Some off
      else match depth with O => None | S depth => first_some (find depth m) (back r) end
  end.
(** wg_find_document 165-172 *)
Definition find_document (m : heap) (off : Z) : option Z := find (REC_DEPTH - 1) m off.

(** wg_set_field with the value 0 over a reference to [c]: the first entry for the record is taken from the
    chain of [c]; None: the chain is corrupt *)
Fixpoint remove1 (x : Z) (l : list Z) : option (list Z) :=
  match l with
  | [] => None
  | y :: l => if y =? x then Some l else option_map (cons y) (remove1 x l)
  end.
Fixpoint set_nth (i : nat) (v : val) (l : list val) : list val :=
  match l, i with
  | [], _ => []
  | _ :: l, O => v :: l
  | x :: l, S i => x :: set_nth i v l
  end.
Definition clear_field (m : heap) (off : Z) (r : rec) (i : nat) (c : Z) : option heap :=
  let m := upd m off (Some (mkR (set_nth i (Imm 0) (fields r)) (doc r) (back r))) in
  match m c with
  | None => None
  | Some rc => match remove1 off (back rc) with
               | None => None
               | Some b => Some (upd m c (Some (mkR (fields rc) (doc rc) b)))
               end
  end.
(** How a call ends: 0, an error code, or a freed record is accessed (undefined behaviour) *)
Inductive outcome := Done | Fail | Freed.
(** The loop of delete_record_recursive 239-249 over the fields from [i]; the answer and the memory *)
Fixpoint loop (del : heap -> Z -> outcome * heap) (n i : nat) (off : Z) (m : heap) : outcome * heap :=
  match n with
  | O => (Done, m)
  | S n =>
      match m off with
      | None => (Freed, m)
      | Some r =>
          match nth i (fields r) (Imm 0) with
          | Imm _ => loop del n (S i) off m
          | Ref c =>
              match clear_field m off r i c with
              | None => (Fail, m)
              | Some m => match del m c with
                          | (Done, m) => loop del n (S i) off m
                          | x => x
                          end
              end
          end
      end
  end.
(** wg_delete_record: not when something refers to the record.  No reference is left in its fields here. *)
Definition delete_record (m : heap) (off : Z) : outcome * heap :=
  match m off with
  | Some r => match back r with [] => (Done, upd m off None) | _ => (Fail, m) end
  | None => (Freed, m)
  end.
Fixpoint del (depth : nat) (m : heap) (off : Z) : outcome * heap :=
  match depth with
  | O => (Fail, m)
  | S depth =>
      match m off with
      | None => (Freed, m)
      | Some r =>
          match loop (del depth) (length (fields r)) 0 off m with
          | (Done, m) => delete_record m off
          | x => x
          end
      end
  end.
(** wg_delete_document 216-227, built with USE_BACKLINKING; the check that it is a document is by CHECK only *)
Definition delete_document (m : heap) (off : Z) : outcome * heap := del REC_DEPTH m off.
