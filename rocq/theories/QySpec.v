(** Specification vocabulary for tables with indexes and for queries. *)
From Coq Require Import List ZArith.
From Verif Require Import TtModel TtSpec QyModel.
Import ListNotations.
Open Scope Z_scope.

Section Spec.
Context {K : Type}.
Variable cmp : K -> K -> comparison.
Variable null : K.
Variable same : K -> K -> bool.

(** A record with fields [f] meets a condition: it has the field, and the field compares as asked. *)
Definition meets (f : list K) (a : arg K) : Prop :=
  exists v, nth_error f (acol K a) = Some v /\
    match acond K a with
    | CEq => cmp v (aval K a) = Eq
    | CNe => cmp v (aval K a) <> Eq
    | CLt => cmp v (aval K a) = Lt
    | CGt => cmp v (aval K a) = Gt
    | CLe => cmp v (aval K a) <> Gt
    | CGe => cmp v (aval K a) <> Lt
    end.
(** A record agrees with a match record: it has every field fixed there, with an equal value. *)
Definition agrees (m : list (option K)) (f : list K) : Prop :=
  forall i v, nth_error m i = Some (Some v) -> exists w, nth_error f i = Some w /\ cmp w v = Eq.
(** What a query asks for. *)
Definition wanted (m : option (list (option K))) (args : list (arg K)) (f : list K) : Prop :=
  Forall (meets f) args /\ match m with Some m => agrees m f | None => True end.
(** Exactly the wanted records, each once. *)
Definition answers (d : db K) m args (l : list Z) : Prop :=
  NoDup l /\ forall r, In r l <-> exists f, In (r, f) (recs K d) /\ wanted m args f.
(** Fetching from the query gives these rows one after the other and then no more, whatever
    happens to the database meanwhile. *)
Inductive yields (n : nat) : query K -> list Z -> Prop :=
| y_end q : (forall d, exists q', fetch K cmp null n d q = Some (None, q') /\ forall d', exists q'', fetch K cmp null n d' q' = Some (None, q'')) -> yields n q []
| y_row q r l q' : (forall d, fetch K cmp null n d q = Some (Some r, q')) -> yields n q' l -> yields n q (r :: l).

(** A column with a condition "greater than v" and one "less than v". *)
Definition empty_gap (args : list (arg K)) : Prop :=
  exists a b, In a args /\ In b args /\ acol K a = acol K b /\ acond K a = CGt /\ acond K b = CLt /\
    cmp (aval K a) (aval K b) = Eq.

(** Offsets a T-tree node can get: not 0, different, not in use in an index. *)
Definition fresh (al : nat -> Z) (d : db K) : Prop :=
  (forall n, al n <> 0) /\ (forall n m, al n = al m -> n = m) /\
  forall h n, In h (hdrs K d) -> ~ In (al n) (nodes (tr K (hix K h))).
(** A change of the database by an operation that succeeds, with [ok d n f] for each record that
    is created: its fields are [f] once [n] of them are set. *)
Variable ok : db K -> nat -> list K -> Prop.
Inductive change : db K -> db K -> Prop :=
| q_create d p r len al d' : r <> 0 -> ~ In r (map fst (recs K d)) -> fresh al d -> ok d 0 (repeat null len) ->
    create_record K cmp null d p r len al = Some (d', r) -> change d d'
| q_fill d p r vs al d' : r <> 0 -> ~ In r (map fst (recs K d)) -> fresh al d ->
    (forall n, (0 < n <= length vs)%nat -> ok d n (firstn n vs ++ repeat null (length vs - n))) ->
    create_filled K cmp null d p r vs al = Some (d', 0) -> change d d'
| q_delete d r f d' : In (r, f) (recs K d) -> delete_record K cmp null d r = Some (d', 0) -> change d d'
| q_set d r f c v al d' : In (r, f) (recs K d) -> (c < length f)%nat -> fresh al d ->
    set_field K cmp null same d r c v al = Some (d', 0) -> change d d'
| q_index d c t i root al d' e : 0 < i < 2 ^ 31 -> ~ In i (map (hid K) (hdrs K d)) -> root <> 0 ->
    fresh al d -> (forall n, al n <> root) -> create_index K cmp null d c t i root al = Some (d', e) -> change d d'
| q_drop d i d' e : drop_index K d i = (d', e) -> change d d'.
Inductive history : db K -> Prop :=
| q_start : history (no_db K)
| q_step d d' : history d -> change d d' -> history d'.
End Spec.
(** No index has a template the record agrees with. *)
Definition untemplated {K} (cmp : K -> K -> comparison) (d : db K) (f : list K) : Prop :=
  forall h t, In h (hdrs K d) -> htmpl K h = Some t -> ~ agrees cmp t f.
(** The template of an index agrees with a record only once its last column, one after the
    column indexed, is set. *)
Definition settled {K} (cmp : K -> K -> comparison) (d : db K) (n : nat) (f : list K) : Prop :=
  forall h t, In h (hdrs K d) -> htmpl K h = Some t -> agrees cmp t f -> (hcol K h < length t <= n)%nat.
(** Two templates fix the same fields with equal values. *)
Definition same_template {K} (cmp : K -> K -> comparison) (t u : option (list (option K))) : Prop :=
  match t, u with
  | None, None => True
  | Some t, Some u => forall j, match nth j t None, nth j u None with
                                | None, None => True
                                | Some a, Some b => cmp a b = Eq
                                | _, _ => False
                                end
  | _, _ => False
  end.
(** An index that cannot be: on a field past the 128th, or with a template that is too long, fixes
    no field, or fixes the indexed one. *)
Definition improper_index {K} (c : nat) (t : option (list (option K))) : Prop :=
  (127 < c)%nat \/ exists u, t = Some u /\
    ((128 < length u)%nat \/ (forall j, nth j u None = None) \/ nth c u None <> None).
