(** Specification vocabulary for the ordering of equations. *)
From Coq Require Import List ZArith.
From Verif Require Import Terms.
Import ListNotations.

(** At most 1000 different variables. *)
Definition few_vars (t : term) : Prop := (length (nodup Z.eq_dec (tvars t)) <= Z.to_nat 1000)%nat.
(** Every compound term starts with its function symbol, a constant. *)
Fixpoint headed (t : term) : Prop :=
  match t with
  | TRec fs => match fs with TCst _ :: _ => True | _ => False end /\
               (fix all (l : list term) : Prop := match l with [] => True | f :: l => headed f /\ all l end) fs
  | _ => True
  end.
(** No variable is bound. *)
Definition nobind (i : Z) : option term := None.
(** [t] is a field of [u], or of a field of [u], and so on. *)
Inductive inside_of (t : term) : term -> Prop :=
| in_here fs : In t fs -> inside_of t (TRec fs)
| in_deep fs f : In f fs -> inside_of t f -> inside_of t (TRec fs).
(** The constants of a term. *)
Fixpoint tcsts (t : term) : list cst :=
  match t with
  | TVar _ => []
  | TCst c => [c]
  | TRec fs => flat_map tcsts fs
  end.
