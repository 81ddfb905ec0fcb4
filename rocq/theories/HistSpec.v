(** The proof steps that are recorded. *)
From Coq Require Import List ZArith Bool.
From Verif Require Import HistModel.
Open Scope Z_scope.

Inductive step :=
| Resolve (p q : Z) | InstGen (p q : Z) | Propagate (p q : Z) | Factor (p q : Z)
| Reflexive (p : Z) | Para (p q : Z) (left : bool)
| ArithInst | PropInst | ExtProp | Simplify.

Definition code (s : step) : Z :=
  match s with
  | Resolve p q => hist_resolve p q | InstGen p q => hist_instgen p q | Propagate p q => hist_propagate p q
  | Factor p q => hist_factorial p q | Reflexive p => hist_reflexive p | Para p q l => hist_para p q l
  | ArithInst => hist_arithinst | PropInst => hist_propinst | ExtProp => hist_extprop | Simplify => hist_simplify
  end.
(** The rule numbers of history.h. *)
Definition rule (s : step) : Z :=
  match s with
  | Resolve _ _ => 1 | Factor _ _ => 2 | Para _ _ _ => 3 | Reflexive _ => 4 | Simplify => 5
  | Propagate _ _ => 6 | PropInst => 7 | InstGen _ _ => 8 | ExtProp => 9 | ArithInst => 10
  end.
Definition first_pos (s : step) : Z :=
  match s with
  | Resolve p _ | InstGen p _ | Propagate p _ | Factor p _ | Reflexive p | Para p _ _ => p
  | _ => 0
  end.
Definition second_pos (s : step) : Z :=
  match s with
  | Resolve _ q | InstGen _ q | Propagate _ q | Factor _ q | Para _ q _ => q
  | _ => 0
  end.
Definition is_left (s : step) : bool := match s with Para _ _ l => l | _ => false end.
Definition positions_up_to (n : Z) (s : step) : Prop := 0 <= first_pos s <= n /\ 0 <= second_pos s <= n.
