(** Histories of the memory segment: who holds what.  Specification vocabulary for C33. *)
From Coq Require Import List ZArith Bool.
From Verif Require Import Word64 AllocModel.
Import ListNotations.
Open Scope Z_scope.

(** A piece of memory somebody holds: an object of area [Some k], or a raw chunk. *)
Record obj := { ob_area : option nat; ob_off : Z; ob_len : Z }.

Definition apart (a b : obj) : Prop := ob_off a + ob_len a <= ob_off b \/ ob_off b + ob_len b <= ob_off a.

(** A segment before any area is set up: only the header is taken. *)
Definition blank (d : db) : Prop :=
  0 < dfree d <= dsize d /\ dsize d <= int_max /\ dfree d mod 8 = 0 /\
  forall k, flist (areas d k) = 0 /\ subs (areas d k) = [].

Definition cell (d : db) (k : nat) (o : Z) : obj :=
  {| ob_area := Some k; ob_off := o; ob_len := olen (areas d k) |}.

(** One operation; the second component is the list of objects held by users. *)
Inductive astep : db * list obj -> db * list obj -> Prop :=
| as_create d L k len d' : subs (areas d k) = [] -> 8 <= len <= 4096 -> len mod 8 = 0 ->
    create_area d k len = Some d' -> astep (d, L) (d', L)
| as_alloc d L k o d' : alloc_fixlen d k = AOk o d' -> astep (d, L) (d', cell d' k o :: L)
| as_alloc_fail d L k d' : alloc_fixlen d k = AFail d' -> astep (d, L) (d', L)
| as_free d L1 L2 k o : astep (d, L1 ++ cell d k o :: L2) (free_fixlen d k o, L1 ++ L2)
| as_chunk d L size o d' : 0 < size <= int_max -> alloc_chunk d size = Some (o, d') ->
    astep (d, L) (d', {| ob_area := None; ob_off := o; ob_len := size |} :: L)
| as_write d L b j v : In b L -> 0 <= j -> 8 * j + 8 <= ob_len b ->
    astep (d, L) (set_mem d (store (mem d) (ob_off b + 8 * j) v), L).

Inductive asteps : db * list obj -> db * list obj -> Prop :=
| a_refl s : asteps s s
| a_step s t u : asteps s t -> astep t u -> asteps s u.

(** States reached by some history from a blank segment. *)
Definition areach (s : db * list obj) : Prop := exists d0, blank d0 /\ asteps (d0, []) s.

(** [n] allocations in a row, none of them failing. *)
Fixpoint alloc_many (n : nat) (d : db) (k : nat) : option (list Z * db) :=
  match n with
  | O => Some ([], d)
  | S n => match alloc_fixlen d k with
           | AOk o d' => match alloc_many n d' k with
                         | Some (os, d'') => Some (o :: os, d'')
                         | None => None
                         end
           | _ => None
           end
  end.
