(** Tarski semantics of terms, atoms, literals and clauses, with equality.  Specification
    only: no reference to any algorithm. *)
From Coq Require Import List ZArith Bool.
From Verif Require Import Terms SubsumeSpec.
Import ListNotations.
Open Scope Z_scope.

(** The propositional constants true and false: ACONST_TRUE, ACONST_FALSE
    (Db/dballoc.h 566-568, encode_anonconst Db/dbdata.h 427-431). *)
Definition atrue : cst := CImm 351.
Definition afalse : cst := CImm 95.

(** An interpretation: a domain, a value for each constant, a function for each function
    symbol, a relation for each predicate symbol, a truth value for each propositional
    symbol.  [iodd] gives a value to records that are not terms of first-order logic. *)
Record interp := {
  dom : Type;
  icst : cst -> dom;
  ifun : cst -> list dom -> dom;
  ipred : cst -> list dom -> Prop;
  iprop : cst -> Prop;
  iodd : list dom -> dom }.

(** First-order terms: every record starts with a constant, its function symbol. *)
Fixpoint fot (t : term) : bool :=
  match t with
  | TVar _ | TCst _ => true
  | TRec fs =>
      match fs with
      | TCst _ :: args => forallb fot args
      | _ => false
      end
  end.

(** Atoms: a propositional constant, or a predicate symbol applied to terms. *)
Definition foa (a : term) : bool :=
  match a with TVar _ => false | _ => fot a end.

Section Eval.
  Variable eqc : cst.       (** the equality symbol *)
  Variable M : interp.

  Fixpoint eval (v : Z -> dom M) (t : term) : dom M :=
    match t with
    | TVar i => v i
    | TCst c => icst M c
    | TRec fs =>
        match fs with
        | TCst c :: args => ifun M c (map (eval v) args)
        | _ => iodd M (map (eval v) fs)
        end
    end.

  (** Truth of an atom.  Equality between two terms means having the same value. *)
  Definition holds (v : Z -> dom M) (a : term) : Prop :=
    match a with
    | TVar _ => False
    | TCst c => if cst_eq_dec c atrue then True
                else if cst_eq_dec c afalse then False
                else iprop M c
    | TRec (TCst c :: args) =>
        if cst_eq_dec c eqc then
          match args with
          | [x; y] => eval v x = eval v y
          | _ => ipred M c (map (eval v) args)
          end
        else ipred M c (map (eval v) args)
    | TRec _ => False
    end.

  Definition lit_holds (v : Z -> dom M) (l : literal) : Prop :=
    if fst l then ~ holds v (snd l) else holds v (snd l).

  (** A clause is the disjunction of its literals ... *)
  Definition clause_holds (v : Z -> dom M) (c : list literal) : Prop :=
    exists l, In l c /\ lit_holds v l.

  (** ... with all variables universally quantified. *)
  Definition valid_in (c : list literal) : Prop := forall v, clause_holds v c.
End Eval.

(** First-order clauses. *)
Definition focl (c : list literal) : Prop := forall l, In l c -> foa (snd l) = true.

(** No counter-example: [M] is a model of a clause set. *)
Definition models (eqc : cst) (M : interp) (cs : list literal -> Prop) : Prop :=
  forall c, cs c -> valid_in eqc M c.

(** [c] follows from the premises, in every interpretation of class [K]. *)
Definition follows (eqc : cst) (K : interp -> Prop) (premises : list (list literal)) (c : list literal) : Prop :=
  forall M, K M -> (forall p, In p premises -> valid_in eqc M p) -> valid_in eqc M c.

(** Interpretations that agree with an evaluator of built-in functions: the evaluator
    never changes the value of a term nor the truth of an atom. *)
Definition agrees_with (eqc : cst) (comp : term -> option term) (M : interp) : Prop :=
  forall fs t', comp (TRec fs) = Some t' ->
    forall v, eval M v t' = eval M v (TRec fs) /\ (holds eqc M v t' <-> holds eqc M v (TRec fs)).
