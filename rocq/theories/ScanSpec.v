(** The records of a database, in the order of their addresses.  Vocabulary for C67. *)
From Coq Require Import List ZArith.
From Verif Require Import VarSpec ScanModel.
Import ListNotations.
Open Scope Z_scope.

(** There is a record at [o]. *)
Definition record_at (L : held) (o : Z) : Prop := exists n, In (o, n) L.
(** [r] is the first of the offsets in [P] after [o]; the end if there is none. *)
Definition first_after (P : Z -> Prop) (o : Z) (r : answer) : Prop :=
  match r with
  | Found q => P q /\ o < q /\ forall q', P q' -> o < q' -> q <= q'
  | NoMore => forall q', P q' -> q' <= o
  | Lost | Spent => False
  end.
