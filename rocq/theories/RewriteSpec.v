(** What rewriting may assume: symbols are not overloaded and equations are usable. *)
From Coq Require Import List ZArith Bool.
From Verif Require Import Terms UnifyModel SubsumeSpec Semantics.
Import ListNotations.
Open Scope Z_scope.

(** A division of the constants: [fn] function symbols, [pr] predicate symbols with their
    numbers of arguments (0 for propositional symbols).  Anything else is an individual
    constant only. *)
Record signature := { fn : cst -> Prop; pr : cst -> nat -> Prop }.

(** Terms: a record starts with a function symbol; individual constants are not predicate
    symbols (they may be function symbols too). *)
Inductive sig_term (S : signature) : term -> Prop :=
| st_var i : sig_term S (TVar i)
| st_cst c : sig_term S (TCst c)
| st_rec c args : fn S c -> Forall (sig_term S) args -> sig_term S (TRec (TCst c :: args)).
Inductive sig_atom (S : signature) : term -> Prop :=
| sa_cst c : pr S c 0 -> sig_atom S (TCst c)
| sa_rec c args : pr S c (length args) -> Forall (sig_term S) args -> sig_atom S (TRec (TCst c :: args)).

(** A usable equation: sides are terms, the left one neither a variable, nor a symbol used
    as function or predicate symbol, nor headed by a predicate symbol; no extra variables on
    the right; variables from the set [rv] only. *)
Definition usable (S : signature) (rv : Z -> Prop) (rule : term * term) : Prop :=
  let (l, r) := rule in
  sig_term S l /\ sig_term S r /\ (forall i, In i (tvars r) -> In i (tvars l)) /\
  (forall i, In i (tvars l) -> rv i) /\
  match l with
  | TVar _ => False
  | TCst c => ~ fn S c /\ forall n, ~ pr S c n
  | TRec (TCst c :: _) => forall n, ~ pr S c n
  | TRec _ => False
  end.

(** The equation is true in [M]. *)
Definition rule_true (M : interp) (rule : term * term) : Prop :=
  forall v, eval M v (fst rule) = eval M v (snd rule).

(** Built-in evaluation stays within the language: no new variables; terms give terms; atoms
    give atoms headed by a predicate symbol. *)
Definition comp_tame (S : signature) (comp : term -> option term) : Prop :=
  forall fs t, comp (TRec fs) = Some t ->
    (forall i, In i (tvars t) -> In i (tvars (TRec fs))) /\
    (sig_term S (TRec fs) -> sig_term S t) /\
    (sig_atom S (TRec fs) -> t = TCst atrue \/ t = TCst afalse \/ exists gs, t = TRec gs /\ sig_atom S t).

(** No variable is bound. *)
Definition clean (s : vst) : Prop := (forall i, bank s i = None) /\ trail s = [].
(** The variables of a term are not variables of equations. *)
Definition apart (rv : Z -> Prop) (x : term) : Prop := forall i, In i (tvars x) -> ~ rv i.
