(** Sequences of operations on the variable banks and trail.
    Code: Reasoner/unify.c 62-71, 253-260, 1100-1115, 1152-1167. *)
From Coq Require Import List ZArith Bool.
From Verif Require Import Terms UnifyModel MatchModel.
Import ListNotations.

(** One call made by the reasoner.  [OUnify] carries the fuel for the model recursion. *)
Inductive vop :=
| OUnify (fuel : nat) (x y : term)     (* wr_unify_term, unify.c 62 *)
| OMatch (x y : term)                  (* wr_match_term, unify.c 253 *)
| OClear.                              (* wr_clear_varstack, unify.c 1100 *)

(** [None]: out of fuel, or an undefined stray read happened. *)
Definition vstep (sb : stray_env) (o : vop) (s : vst) : option vst :=
  match o with
  | OUnify n x y => match unify_term n x y s with Done _ s' => Some s' | OutOfFuel => None end
  | OMatch x y => match match_term sb x y s with MDone _ s' => Some s' | MStray => None end
  | OClear => Some (clear_varstack s)
  end.

Fixpoint vrun (sb : stray_env) (ops : list vop) (s : vst) : option vst :=
  match ops with
  | [] => Some s
  | o :: ops' => match vstep sb o s with Some s' => vrun sb ops' s' | None => None end
  end.
