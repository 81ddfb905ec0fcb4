(** Histories of a table in the program as it is compiled. *)
From Coq Require Import List ZArith.
From Verif Require Import TtModel TtSpec QyModel QySpec QkModel.
Import ListNotations.
Open Scope Z_scope.

Section Spec.
Context {K : Type}.
Variable cmp : K -> K -> comparison.
Variable null : K.
Variable same : K -> K -> bool.

(** An index should have the record with fields [f] in it: the record has the column indexed, and
    agrees with the template. *)
Definition concerns (h : header K) (f : list K) : Prop :=
  (hcol K h < length f)%nat /\ match htmpl K h with Some t => agrees cmp t f | None => True end.
Definition unconcerned (d : db K) (f : list K) : Prop := forall h, In h (hdrs K d) -> ~ concerns h f.
(** A change by an operation; [ok d f] is asked of the records a change is about, before and after it. *)
Variable ok : db K -> list K -> Prop.
Inductive qchange : db K -> db K -> Prop :=
| k_create d p r len d' : r <> 0 -> ~ In r (map fst (recs K d)) -> ok d (repeat null len) ->
    qcreate_record K null d p r len = (d', r) -> qchange d d'
| k_new d r f c v d' : In (r, f) (recs K d) -> (c < length f)%nat -> ok d f -> ok d (put_nth K c v f) ->
    qset_new_field K d r c v = (d', 0) -> qchange d d'
| k_set d r f c v d' : In (r, f) (recs K d) -> (c < length f)%nat -> qset_field K d r c v = (d', 0) -> qchange d d'
| k_delete d r f d' : In (r, f) (recs K d) -> delete_record K cmp null d r = Some (d', 0) -> qchange d d'
| k_index d c t i root al d' e : 0 < i < 2 ^ 31 -> ~ In i (map (hid K) (hdrs K d)) -> root <> 0 ->
    fresh al d -> (forall n, al n <> root) -> create_index K cmp null d c t i root al = Some (d', e) -> qchange d d'
| k_drop d i d' e : drop_index K d i = (d', e) -> qchange d d'.
Inductive qhistory : db K -> Prop :=
| k_start : qhistory (no_db K)
| k_step d d' : qhistory d -> qchange d d' -> qhistory d'.
End Spec.
