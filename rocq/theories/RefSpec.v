(** Histories of operations on records, and what can be observed. *)
From Coq Require Import List ZArith Bool.
From Verif Require Import RefModel.
Import ListNotations.
Open Scope Z_scope.

(** In use: records, strings, other cells *)
Definition is_rec (d : db) (o : Z) : Prop := exists x, get o (recs d) = Some x.
Definition is_str (d : db) (s : Z) : Prop := exists x, get s (strs d) = Some x.
Definition exists_in (d : db) (v : value) : Prop :=
  match v with VRec o => is_rec d o | VStr s => is_str d s | VBox b => In b (boxes d) | _ => True end.

(** Record [p] has [v] in one of its fields; the string [s] has [v] as its language or prefix. *)
Definition refers (d : db) (p : Z) (v : value) : Prop := exists i, get_field d p i = Some v.
Definition extends (d : db) (s : Z) (v : value) : Prop := exists x, get s (strs d) = Some x /\ extra x = v.
Definition in_use (d : db) (v : value) : Prop := (exists p, refers d p v) \/ (exists s, extends d s v).

(** What a program does: new records and encoded values, setting fields, deleting, freeing *)
Inductive op := Create (n : nat) (o : Z) | Box (b : Z) | Str (s : Z) (ex : value)
  | Set_ (r : Z) (i : nat) (v : value) (cell : Z) | SetNew (r : Z) (i : nat) (v : value) (cell : Z)
  | Delete (r : Z) | Free (v : value).
Definition apply (quick : bool) (d : db) (o : op) : option (Z * db) :=
  match o with
  | Create n a => create_record d n a
  | Box b => encode_box d b
  | Str s ex => encode_str d s ex
  | Set_ r i v c => set_field quick d r i v c
  | SetNew r i v c => set_new_field quick d r i v c
  | Delete r => delete_record d r
  | Free v => free_encoded d v
  end.

(** A value that may be stored: it exists, and a short string, double or big integer is in no field yet. *)
Definition usable (d : db) (v : value) : Prop := exists_in d v /\ match v with VBox _ => ~ in_use d v | _ => True end.
(** Cells are allocated where nothing is in use; records and fields named exist; set_new_field is for
    empty fields. *)
Definition fresh_cell (d : db) (c : Z) : Prop := c <> 0 /\ get c (cells d) = None.
Definition allowed (d : db) (o : op) : Prop :=
  match o with
  | Create _ a => a <> 0 /\ ~ is_rec d a
  | Box b => ~ In b (boxes d)
  | Str s ex => ~ is_str d s /\ usable d ex /\ ex <> VStr s /\
      match ex with VNull => True | VBox _ => True | VStr e => extends d e VNull | _ => False end
  | Set_ r i v c => get_field d r i <> None /\ (get_field d r i = Some v \/ usable d v) /\ fresh_cell d c
  | SetNew r i v c => get_field d r i = Some VNull /\ usable d v /\ fresh_cell d c
  | Delete r => is_rec d r
  | Free v => usable d v
  end.

Definition empty : db := {| recs := []; cells := []; strs := []; boxes := [] |}.
Inductive reach (quick : bool) : db -> Prop :=
| re_empty : reach quick empty
| re_step d o z d' : reach quick d -> allowed d o -> apply quick d o = Some (z, d') -> reach quick d'.

(** The parents listed one after the other, till NULL; [None]: not ended after [n] *)
Fixpoint list_parents (n : nat) (d : db) (r p : Z) : option (list Z) :=
  match n with
  | O => None
  | S n => if p =? 0 then Some []
           else match next_parent d r p with
                | Some q => match list_parents n d r q with Some l => Some (p :: l) | None => None end
                | None => None
                end
  end.
Definition parents_listed (n : nat) (d : db) (r : Z) : option (list Z) :=
  match first_parent d r with Some p => list_parents n d r p | None => None end.
