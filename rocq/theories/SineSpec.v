(** Relevance from the goals over symbols.  Specification vocabulary for C68. *)
From Coq Require Import List ZArith Bool.
From Verif Require Import SineModel.
Import ListNotations.
Open Scope Z_scope.

(** The symbol [u] occurs in the clause. *)
Fixpoint occursb (u : Z) (x : tm) : bool :=
  match x with Sym v => u =? v | Other => false | App l => existsb (occursb u) l end.
Definition has (u : Z) (c : clause) : bool := existsb (occursb u) (atoms c).
(** In how many clauses a symbol occurs. *)
Definition count (cls : list clause) (u : Z) : Z := Z.of_nat (length (filter (has u) cls)).

Section Near.
(** The bound [g] and the doubled tolerance. *)
Variables (g tol2 : Z) (cls : list clause).
(** A symbol triggers a clause it occurs in if it is rare, or not much more frequent than any other
    symbol of the clause. *)
Definition triggers (u : Z) (c : clause) : Prop :=
  has u c = true /\ (count cls u <= g \/ forall v, has v c = true -> 2 * count cls u <= tol2 * count cls v).
(** [near n c]: the clause is reached from a goal in a chain of [n] clauses, each triggered by a
    symbol of the one before. *)
Inductive near : Z -> clause -> Prop :=
| near_goal c : In c cls -> goal c = true -> near 1 c
| near_step n c u d : near n c -> has u c = true -> In d cls -> triggers u d -> near (n + 1) d.
End Near.
(** All symbols of the clause occur in at least [m] clauses. *)
Definition all_common (m : Z) (cls : list clause) (c : clause) : Prop :=
  m <> 0 /\ forall v, has v c = true -> m <= count cls v.

(** The clauses have different numbers, and these and the numbers of their symbols are within the
    tables. *)
Definition fits (cls : list clause) : Prop :=
  NoDup (map cid cls) /\
  (forall c, In c cls -> 0 <= cid c < table_size) /\
  (forall c u, In c cls -> has u c = true -> 0 <= u < table_size).
(** The largest count of a symbol of the clauses. *)
Definition is_largest_count (cls : list clause) (m : Z) : Prop :=
  (forall u, count cls u <= m) /\ (m = 0 \/ exists u, count cls u = m).
