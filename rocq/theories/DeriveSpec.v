(** Reading stored and derived clauses as literal lists. *)
From Coq Require Import List ZArith Bool.
From Verif Require Import Terms UnifySpec UnifyModel SubsumeSpec Semantics MetaModel BuildModel DeriveModel.
Import ListNotations.
Open Scope Z_scope.

Definition lit_of_clit (l : clit) : literal := (meta_is_neg (lmeta l), latom l).
(** The clause a stored record stands for. *)
Definition clause_of (c : scl) : list literal := map lit_of_clit (cl_lits c).
(** The clause a derived literal list stands for. *)
Definition derived (r : list mlit) : list literal := map (fun x => (meta_is_neg (fst x), snd x)) r.

(** No two literals of a clause share the word of their atom while having opposite signs,
    and a word denotes one atom. *)
Definition coherent (c : scl) : Prop :=
  forall l1 l2, In l1 (cl_lits c) -> In l2 (cl_lits c) -> lword l1 = lword l2 ->
    lit_of_clit l1 = lit_of_clit l2.

(** Variables of real clauses are numbered below the first unreal variable. *)
Definition real_clause (c : scl) : Prop :=
  forall l i, In l (cl_lits c) -> In i (tvars (latom l)) -> i < 4000.

(** A first-order clause with real variables. *)
Definition proper (c : scl) : Prop := focl (clause_of c) /\ real_clause c.

(** The clause stated by the outcome of an inference; [None] if no clause is stated. *)
Definition stated (d : dres) : option (list literal) :=
  match d with
  | DProof => Some []
  | DClause r _ => Some (derived r)
  | _ => None
  end.

(** Equality is used with two arguments only. *)
Definition binary_eq (eqc : cst) (c : scl) : Prop :=
  forall l args, In l (cl_lits c) -> latom l = TRec (TCst eqc :: args) -> length args = 2%nat.

(** A binding state an inference may start from: acyclic, first-order values, and neither
    binding nor mentioning variables outside the real ones. *)
Definition vgood (s : vst) : Prop :=
  acyclic (bank s) /\ (forall i, first_unreal <= i -> bank s i = None) /\ (forall i t, bank s i = Some t -> fot t = true) /\
  (forall i t, bank s i = Some t -> forall j, In j (tvars t) -> j < first_unreal).

Definition is_cut (cut : option Z) (l : clit) : bool :=
  match cut with Some w => lword l =? w | None => false end.

(** The literals that are kept, with the bindings applied. *)
Definition kept (cut : option Z) (lits : list clit) : list literal :=
  map lit_of_clit (filter (fun l => negb (is_cut cut l)) lits).

