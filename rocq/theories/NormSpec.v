(** What it means that nothing is left to rewrite. *)
From Coq Require Import List ZArith.
From Verif Require Import Terms OrdModel OrdSpec.
Import ListNotations.
Open Scope Z_scope.

(** [l] is larger than [r]; [l] is the larger side of the equation [e]. *)
Definition larger (word : cst -> Z) (l r : term) : Prop := exists n, order_eqterms word n nobind l r = Some 1.
Definition larger_side (word : cst -> Z) (e : term * term) (l : term) : Prop :=
  l = fst e /\ larger word (fst e) (snd e) \/ l = snd e /\ larger word (snd e) (fst e).
(** [u] is an instance of the larger side of one of the equations. *)
Definition rewritable (word : cst -> Z) (eqs : list (term * term)) (u : term) : Prop :=
  exists e l s, In e eqs /\ larger_side word e l /\ app s l = u.
(** [t] itself, and everything inside it *)
Definition part_of (u t : term) : Prop := u = t \/ inside_of u t.
(** The truth constants *)
Definition truth (u : term) : Prop := u = TCst (CImm 351) \/ u = TCst (CImm 95).
(** Built-in functions give the term itself, something inside it, or a constant from [P]. *)
Definition computes_simply (comp : term -> option term) (P : cst -> Prop) : Prop :=
  forall fs t, comp (TRec fs) = Some t -> t = TRec fs \/ inside_of t (TRec fs) \/ exists c, P c /\ t = TCst c.
(** Enough fuel to compare the sides *)
Definition enough (word : cst -> Z) (m : nat) (eqs : list (term * term)) : Prop :=
  forall e, In e eqs -> order_eqterms word m nobind (fst e) (snd e) <> None.
Definition terms_ok (eqs : list (term * term)) : Prop := forall e, In e eqs -> headed (fst e) /\ headed (snd e).
(** Rewriting is defined by a number of steps allowed; it ends when some number suffices. *)
Definition constants_from (C : list cst) (eqs : list (term * term)) : Prop :=
  forall e, In e eqs -> incl (tcsts (fst e)) C /\ incl (tcsts (snd e)) C.
Definition variables_from (rv : Z -> Prop) (eqs : list (term * term)) : Prop :=
  forall e i, In e eqs -> In i (tvars (fst e)) \/ In i (tvars (snd e)) -> rv i.
Definition small_equations (eqs : list (term * term)) : Prop :=
  forall e, In e eqs -> few_vars (fst e) /\ few_vars (snd e).
