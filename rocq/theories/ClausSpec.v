(** Meaning of formulas, independent of the conversion.  A formula is a first-order formula over
    the atoms of the input, read in an arbitrary interpretation with a non-empty domain. *)
From Coq Require Import List String Bool Arith.
From Verif Require Import ClausModel.
Import ListNotations.
Open Scope string_scope.

Record interp (D : Type) := mkI {
  cst : atom -> D;                      (* meaning of a name used as a constant *)
  fn : atom -> list D -> D;             (* of a name used as a function *)
  pr : atom -> list D -> Prop           (* of a name used as a predicate *)
}.
Arguments cst {D}. Arguments fn {D}. Arguments pr {D}. Arguments mkI {D}.

(** An environment gives values to the names that are variables; the others are constants. *)
Definition env (D : Type) := atom -> option D.

(** [e'] differs from [e] only on the names [vs], which it makes variables *)
Definition variant {D} (vs : list sx) (e e' : env D) : Prop :=
  forall a, (In (Sa a) vs -> e' a <> None) /\ (~ In (Sa a) vs -> e' a = e a).

Fixpoint tm {D} (I : interp D) (e : env D) (t : sx) : D :=
  match t with
  | Sa a => match e a with Some d => d | None => cst I a end
  | Sl (Sa h :: args) => fn I h (map (tm I e) args)
  | Sl _ => cst I (Con CNot)
  end.

(** The two truth constants, in both spellings the code uses *)
Definition logic_const (a : atom) : option bool :=
  match a with
  | Sym TUri s | Sym TAnon s =>
      if String.eqb s "$true" then Some true else if String.eqb s "$false" then Some false else None
  | _ => None
  end.

Fixpoint sem {D} (I : interp D) (e : env D) (f : sx) {struct f} : Prop :=
  match f with
  | Sa a => match logic_const a with Some true => True | Some false => False | None => pr I a [] end
  | Sl [(Sl _) as g] => sem I e g
  | Sl (Sa (Con c) :: args) =>
      match c, args with
      | CNot, [x] => ~ sem I e x
      | CAnd, _ => (fix all l := match l with [] => True | x :: r => sem I e x /\ all r end) args
      | COr, _ => (fix any l := match l with [] => False | x :: r => sem I e x \/ any r end) args
      | CImp, _ =>
          (fix imp l := match l with [] => False | [x] => sem I e x | x :: r => sem I e x -> imp r end) args
      | CEqv, [x; y] => sem I e x <-> sem I e y
      | CAll, [Sl vs; b] => forall e', variant vs e e' -> sem I e' b
      | CEx, [Sl vs; b] => exists e', variant vs e e' /\ sem I e' b
      | _, _ => False
      end
  | Sl (Sa h :: args) => pr I h (map (tm I e) args)
  | _ => False
  end.

(** Well-formed terms and formulas.  [bin]: "and", "or" and "imp" have exactly two arguments,
    as the parsers build them; otherwise at least two. *)
Definition sym (a : atom) : Prop := match a with Sym _ _ => True | Con _ => False end.
Fixpoint term_ok (t : sx) : Prop :=
  match t with
  | Sa a => sym a
  | Sl (Sa a :: args) => sym a /\ (fix all l := match l with [] => True | x :: r => term_ok x /\ all r end) args
  | Sl _ => False
  end.
Definition arity (bin : bool) (l : list sx) : Prop := if bin then List.length l = 2 else 2 <= List.length l.
Inductive atomic : sx -> Prop :=
| At_atom a : sym a -> atomic (Sa a)
| At_app a args : sym a -> Forall term_ok args -> atomic (Sl (Sa a :: args)).
Inductive wff (bin : bool) : sx -> Prop :=
| W_atomic f : atomic f -> wff bin f
| W_par l : wff bin (Sl l) -> wff bin (Sl [Sl l])
| W_not f : wff bin f -> wff bin (Sl [Sa (Con CNot); f])
| W_many c args : (c = CAnd \/ c = COr \/ c = CImp) -> arity bin args -> Forall (wff bin) args ->
    wff bin (Sl (Sa (Con c) :: args))
| W_eqv f g : wff bin f -> wff bin g -> wff bin (Sl [Sa (Con CEqv); f; g])
| W_q c vs f : (c = CAll \/ c = CEx) -> vs <> [] -> Forall sym vs -> wff bin f -> wff bin (Sl [Sa (Con c); Sl (map Sa vs); f]).

(** Literals; negation normal form: negation only in front of atomic formulas *)
Inductive literal : sx -> Prop :=
| L_pos f : atomic f -> literal f
| L_neg f : atomic f -> literal (Sl [Sa (Con CNot); f]).
Inductive nnf (bin : bool) : sx -> Prop :=
| N_lit f : literal f -> nnf bin f
| N_many c args : (c = CAnd \/ c = COr) -> arity bin args -> Forall (nnf bin) args ->
    nnf bin (Sl (Sa (Con c) :: args))
| N_q c vs f : (c = CAll \/ c = CEx) -> Forall sym vs -> nnf bin f -> nnf bin (Sl [Sa (Con c); Sl (map Sa vs); f]).

(** The names in a formula other than connectives; the names bound by a quantifier in it *)
Fixpoint syms (t : sx) : list atom :=
  match t with
  | Sa (Con _) => []
  | Sa a => [a]
  | Sl l => flat_map syms l
  end.
Fixpoint binders (t : sx) : list atom :=
  match t with
  | Sa _ => []
  | Sl l =>
      match l with
      | Sa (Con CAll) :: v :: r | Sa (Con CEx) :: v :: r => (syms v ++ flat_map binders r)%list
      | _ => flat_map binders l
      end
  end.
(** No name has the spelling of a bound name without being that name *)
Definition spelling_ok (f : sx) : Prop :=
  forall a b, In a (syms f) -> In b (binders f) -> astr a = astr b -> a = b.

(** Names in argument position of a term, and names used as functions in it *)
Fixpoint targs (t : sx) : list atom :=
  match t with
  | Sa a => [a]
  | Sl (Sa _ :: args) => flat_map targs args
  | Sl _ => []
  end.
Fixpoint theads (t : sx) : list atom :=
  match t with
  | Sa _ => []
  | Sl (Sa h :: args) => h :: flat_map theads args
  | Sl _ => []
  end.
(** Free names in argument position of a formula; names used as predicates or functions in it *)
Definition mem (a : atom) (vs : list sx) : bool :=
  existsb (fun x => match x with Sa b => atom_eqb a b | Sl _ => false end) vs.
Fixpoint fargs (f : sx) : list atom :=
  match f with
  | Sa _ => []
  | Sl [(Sl _) as g] => fargs g
  | Sl (Sa (Con c) :: args) =>
      match c, args with
      | CAll, [Sl vs; b] | CEx, [Sl vs; b] => filter (fun a => negb (mem a vs)) (fargs b)
      | _, _ => flat_map fargs args
      end
  | Sl (Sa _ :: args) => flat_map targs args
  | Sl _ => []
  end.
Fixpoint fheads (f : sx) : list atom :=
  match f with
  | Sa a => [a]
  | Sl [(Sl _) as g] => fheads g
  | Sl (Sa (Con c) :: args) =>
      match c, args with
      | CAll, [Sl vs; b] | CEx, [Sl vs; b] => fheads b
      | _, _ => flat_map fheads args
      end
  | Sl (Sa h :: args) => h :: flat_map theads args
  | Sl _ => []
  end.

(** Quantifier-free formulas of literals, "and" and "or" *)
Inductive qf : sx -> Prop :=
| Q_lit f : literal f -> qf f
| Q_two c f g : (c = CAnd \/ c = COr) -> qf f -> qf g -> qf (Sl [Sa (Con c); f; g]).

(** Environments of clauses: the variables are the atoms of variable type *)
Definition full {D} (u : env D) : Prop := forall a, u a <> None <-> is_tvar a = true.
(** No name is a variable: for formulas whose variables are all bound *)
Definition none {D} : env D := fun _ => None.
(** Two interpretations that differ only in the names [N] *)
Definition same_but {D} (N : atom -> Prop) (I I' : interp D) : Prop :=
  forall a, ~ N a -> cst I a = cst I' a /\ (forall ds, fn I a ds = fn I' a ds) /\ (forall ds, pr I a ds <-> pr I' a ds).

(** Clauses as formulas, and conjunctions of them *)
Inductive disj : sx -> Prop :=
| C_lit f : literal f -> disj f
| C_or f g : disj f -> disj g -> disj (Sl [Sa (Con COr); f; g]).
Inductive cnf : sx -> Prop :=
| F_cl f : disj f -> cnf f
| F_and f g : cnf f -> cnf g -> cnf (Sl [Sa (Con CAnd); f; g]).
(** A formula, if there is one, is true for all values of its variables *)
Definition holds {D} (I : interp D) (d : option sx) : Prop :=
  match d with None => True | Some g => forall u, full u -> sem I u g end.
Definition names_of (d : option sx) : list atom := match d with None => [] | Some g => syms g end.
(** Clauses as the conversion returns them: a list of literals, or the constant true *)
Definition clause_ok (c : sx) : Prop := c = s_true \/ exists lits, c = Sl lits /\ lits <> [] /\ Forall literal lits.
Definition clause_true {D} (I : interp D) (u : env D) (c : sx) : Prop :=
  match c with Sa a => sem I u c | Sl lits => Exists (sem I u) lits end.
(** [I] is a model of the clauses: all are true for all values of the variables *)
Definition clauses_true {D} (I : interp D) (cls : list sx) : Prop :=
  forall u, full u -> Forall (clause_true I u) cls.
(** [I] is a model of a formula whose free variables, the names that [isv] makes variables, are
    read as universally quantified *)
Definition formula_true {D} (isv : string -> bool) (I : interp D) (f : sx) : Prop :=
  forall e, (forall a, e a <> None <-> var_like isv a = true) -> sem I e f.

(** What the conversion needs of its input besides well-formedness *)
Record input_ok (isv : string -> bool) (f : sx) (k m : nat) : Prop := {
  io_wff : wff true f;
  (* variables are of a type that can be bound *)
  io_bind : forall b, In b (binders f) -> bindable b = true;
  (* no name has the spelling of a variable without being that variable *)
  io_spell : forall a b, In a (syms f) -> In b (syms f) -> In b (binders f) \/ var_like isv b = true ->
    astr a = astr b -> a = b;
  (* names of predicates and functions are not variables *)
  io_heads : forall h, In h (fheads f) -> ~ In h (binders f) /\ var_like isv h = false;
  (* the input has no names that the conversion will make *)
  io_sk : forall i, k < i -> ~ In (skatom i) (syms f);
  io_df : forall i, m < i -> ~ In (dfatom i) (syms f)
}.
Definition made (k k' m m' : nat) (a : atom) : Prop :=
  (exists i, k < i <= k' /\ a = skatom i) \/ (exists i, m < i <= m' /\ a = dfatom i).
