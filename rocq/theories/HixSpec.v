(** What a hash index is for: histories of a database with hash indexes and the records a search
    should find.  Specification vocabulary for C69. *)
From Coq Require Import List ZArith Bool.
From Verif Require Import HixModel.
Import ListNotations.
Open Scope Z_scope.

(** The record has the values [vs] in the columns [cs]. *)
Definition has (cs : list Z) (vs : list val) (fs : list val) : Prop :=
  Forall2 (fun c v => nth_error fs (Z.to_nat c) = Some v) cs vs.

(** Values a key can be made of. *)
Definition hashable (v : val) : Prop := match v with VBlob _ | VAnon _ => False | _ => True end.
Definition text (s : list Z) : Prop := Forall (fun b => 1 <= b <= 255) s.
Definition opt_text (o : option (list Z)) : Prop := match o with Some s => text s | None => True end.
Definition word (z : Z) : Prop := 0 <= z < 2 ^ 64.
Definition int32 (z : Z) : Prop := - 2 ^ 31 <= z < 2 ^ 31.
(** Values in the range of their type, integers and variables within 32 bits. *)
Definition ordinary (v : val) : Prop :=
  match v with
  | VNull => True
  | VRec e => word e | VDouble b => word b | VFix b => word b
  | VInt i => int32 i | VChar c => int32 c | VDate n => int32 n | VTime n => int32 n | VVar n => int32 n
  | VStr s => text s
  | VUri p s => opt_text p /\ text s
  | VXml p s => opt_text p /\ text s
  | VBlob _ => True
  | VAnon _ => True
  end.
Definition no_prefix (v : val) : Prop :=
  match v with VUri (Some _) _ => False | VXml (Some _) _ => False | _ => True end.
(** Rows whose keys can be told apart: ordinary values, a prefix or datatype in the last column only. *)
Definition plain_row (vs : list val) : Prop := Forall ordinary vs /\ Forall no_prefix (removelast vs).
(** All rows of the database that the index can hold are such rows. *)
Definition clear_rows (d : db) (ix : index) : Prop :=
  forall r fs vs, In (r, fs) (recs d) -> has (cols ix) vs fs -> Forall hashable vs -> plain_row vs.

Section Histories.
Variables (h : key -> Z) (quick : bool).
(** [all_well]: whether every operation reports success. *)
Variable all_well : bool.
Definition good (b : bool) : Prop := if all_well then b = true else True.
(** Operations; records are filled by the operations for new records only while there is no index. *)
Inductive step : db -> db -> Prop :=
| st_create d p r len d' x : 0 < r -> fields_of (recs d) r = None ->
    create_record h quick d p r len = Some (d', x) -> (quick = true -> ixs d = []) -> good (x =? r) -> step d d'
| st_raw d p r len : 0 < r -> fields_of (recs d) r = None -> ixs d = [] -> step d (create_raw d p r len)
| st_set d r c v d' x : 0 <= c -> set_field h quick d r c v = Some (d', x) -> good (x =? 0) -> step d d'
| st_set_new d r c v d' x : 0 <= c -> ixs d = [] -> set_new_field h quick d r c v = Some (d', x) -> step d d'
| st_delete d r d' x : delete_record h d r = Some (d', x) -> good (x =? 0) -> step d d'
| st_index d columns d' x : create_index h d columns = Some (d', x) -> good (x =? 0) -> step d d'.
Inductive reach : db -> Prop :=
| r_empty : reach {| recs := []; ixs := [] |}
| r_step d d' : reach d -> step d d' -> reach d'.
End Histories.
