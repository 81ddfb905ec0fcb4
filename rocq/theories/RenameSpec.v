(** Vocabulary for renaming: evaluation of built-in functions bottom-up, and variable
    renamings. *)
From Coq Require Import List ZArith.
From Verif Require Import Terms.
Import ListNotations.
Open Scope Z_scope.

(** All results, or none. *)
Fixpoint all_some {A} (l : list (option A)) : option (list A) :=
  match l with
  | [] => Some []
  | Some x :: l' => match all_some l' with Some r => Some (x :: r) | None => None end
  | None :: _ => None
  end.

(** [evaluated comp t]: [t] with [comp] applied to every record, innermost first. *)
Fixpoint evaluated (comp : term -> option term) (t : term) : option term :=
  match t with
  | TRec fs => match all_some (map (evaluated comp) fs) with
               | Some gs => comp (TRec gs)
               | None => None
               end
  | _ => Some t
  end.

(** Renaming variables. *)
Definition rename (r : Z -> Z) (t : term) : term := app (fun i => TVar (r i)) t.

Definition injective_on (l : list Z) (r : Z -> Z) : Prop :=
  forall i j, In i l -> In j l -> r i = r j -> i = j.
