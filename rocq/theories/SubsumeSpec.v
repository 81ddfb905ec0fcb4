(** What subsumption means, independent of the algorithm. *)
From Coq Require Import List ZArith Bool Permutation.
From Verif Require Import Terms.
Import ListNotations.

(** A literal: negated or not, and an atom. *)
Definition literal := (bool * term)%type.
Definition inst (t : subst) (l : literal) : literal := (fst l, app t (snd l)).

(** [C] subsumes [D]: some substitution maps the literals of [C] one to one onto literals of
    [D] (multiset inclusion of the instance of [C] in [D]). *)
Definition subsumes (C D : list literal) : Prop :=
  exists t rest, Permutation (map (inst t) C ++ rest) D.

(** A literal with the arguments of an answer atom, one whose predicate is [ans], removed. *)
Definition blank (ans : cst) (l : literal) : literal :=
  match snd l with
  | TRec (TCst c :: _) => if cst_eq_dec c ans then (fst l, TRec [TCst ans]) else l
  | _ => l
  end.
Definition answer_literal (ans : cst) (l : literal) : Prop :=
  exists ts, snd l = TRec (TCst ans :: ts).

(** The literals a test compares when it ignores the arguments of answers: those of [L], and,
    if [one] is set and the general clause [C] has more than one literal, without the
    arguments of answer atoms. *)
Definition compared (one : bool) (ans : cst) (C L : list literal) : list literal :=
  match one, C with
  | true, _ :: _ :: _ => map (blank ans) L
  | _, _ => L
  end.
