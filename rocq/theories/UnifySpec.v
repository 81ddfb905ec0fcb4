(** Specification vocabulary for unification and matching: no reference to the algorithms. *)
From Coq Require Import List ZArith.
From Verif Require Import Terms.
Import ListNotations.
Open Scope Z_scope.

(** A substitution respects a set of bindings when it gives each bound variable the same
    value as the term it is bound to. *)
Definition solves (s : subst) (b : Z -> option term) : Prop :=
  forall i t, b i = Some t -> s i = app s t.

(** No binding cycle: variables can be ranked so that a bound variable's rank exceeds the
    ranks of all variables of its value. *)
Definition acyclic (b : Z -> option term) : Prop :=
  exists r : Z -> nat, forall i t j, b i = Some t -> In j (tvars t) -> (r j < r i)%nat.

(** The bindings applied exhaustively: bound variables are replaced by the fully
    instantiated value, unbound variables stay. *)
Definition exhaustive (b : Z -> option term) (s : subst) : Prop :=
  solves s b /\ forall i, b i = None -> s i = TVar i.

(** [b'] has all bindings of [b], unchanged. *)
Definition extends (b b' : Z -> option term) : Prop :=
  forall i t, b i = Some t -> b' i = Some t.

Definition unifier (s : subst) (x y : term) : Prop := app s x = app s y.
