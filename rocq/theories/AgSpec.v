(** Vocabulary for numeric instantiation: subterms, the candidate lists and histories of runs. *)
From Coq Require Import List ZArith Bool.
From Verif Require Import Terms AgModel.
Import ListNotations.
Open Scope Z_scope.

Inductive subterm (u : term) : term -> Prop :=
| sub_here : subterm u u
| sub_in fs f : In f fs -> subterm u f -> subterm u (TRec fs).

(** A subterm that is not part of a number such as $uminus(5). *)
Inductive visible (code : term -> comp) (numc : cst -> option num) (u : term) : term -> Prop :=
| vis_here : decode code numc u = None -> visible code numc u u
| vis_in fs f : decode code numc (TRec fs) = None -> In f fs -> visible code numc u f -> visible code numc u (TRec fs).

(** Better rank first; of the same rank, the one nearer to zero; then integers before doubles, and
    the lesser one.  Values in units of 2^-1074. *)
Definition value (v : num) : Z := match v with NInt z => z * 2 ^ 1074 | NReal r => r end.
Definition before (x y : cand) : Prop :=
  crank x < crank y \/ crank x = crank y /\
  (Z.abs (value (cnum x)) < Z.abs (value (cnum y)) \/ Z.abs (value (cnum x)) = Z.abs (value (cnum y)) /\
   match cnum x, cnum y with
   | NInt _, NReal _ => True
   | NReal _, NInt _ => False
   | _, _ => value (cnum x) < value (cnum y)
   end).
(** The candidate list is in order: nothing later comes before something earlier. *)
Definition in_order (l : list cand) : Prop :=
  forall i j x y, (i < j)%nat -> nth_error l i = Some x -> nth_error l j = Some y -> ~ before y x.
(** The built-ins that compute with numbers *)
Definition arithmetic (c : comp) : bool :=
  match c with CPlus | CMinus | CMult | CCompare | CUminus | COtherArith => true | NoComp | CEqual | COther => false end.
(** [v] is a candidate with rank at most [r]. *)
Definition offered (v : num) (r : Z) (l : list cand) : Prop := exists c, In c l /\ cnum c = v /\ crank c <= r.

(** States a process can be in between runs: any runs with any settings, from the start. *)
Inductive between_runs : gst -> Prop :=
| br_start : between_runs fresh
| br_run code numc answer fo slot_of cf ask on got cs g g' log ls :
    between_runs g -> run code numc answer fo slot_of cf ask on got cs (reset g) [] = (g', log, ls) -> between_runs g'.

(** The variables of a term, each once, in the order of first occurrence. *)
Definition once (l : list Z) : list Z := fold_left (fun acc v => if existsb (Z.eqb v) acc then acc else acc ++ [v]) l [].
Definition term_vars (t : term) : list Z := once (tvars t).

(** [v] is an argument of an ordinary atom (no built-in, no answer), where resolution can bind it. *)
Definition direct (code : term -> comp) (answer : term -> bool) (ats : list term) (v : Z) : Prop :=
  exists fs, In (TRec fs) ats /\ answer (TRec fs) = false /\ code (TRec fs) = NoComp /\ In (TVar v) fs.
(** At most 32 different variables in the clause. *)
Definition few_vars (ats : list term) : Prop := (length (nodup Z.eq_dec (flat_map tvars ats)) <= 32)%nat.

(** What a probe [k] for clause [c] may be: the one or two variables, as many as allowed, of an
    arithmetic term of the clause, none of which resolution can bind, with as many numbers, each
    among the first [cand_limit] candidates [cs]. *)
Definition proper_probe (code : term -> comp) (answer : term -> bool) (cf : conf) (c : call) (cs : list cand) (k : key) : Prop :=
  let '(p, vs, ns) := k in
  p = ptr c /\ (length vs = 1%nat \/ length vs = 2%nat /\ mode cf = 2) /\ Z.of_nat (length vs) <= max_vars cf /\
  (exists a u, In a (atoms c) /\ subterm u a /\ arithmetic (code u) = true /\ vs = term_vars u) /\
  (few_vars (atoms c) -> forall v, In v vs -> ~ direct code answer (atoms c) v) /\
  length ns = length vs /\
  (forall n, In n ns -> exists i x, Z.of_nat i < cand_limit cf /\ nth_error cs i = Some x /\ cnum x = n).

(** The candidates for a call. *)
Definition cands (code : term -> comp) (numc : cst -> option num) (answer : term -> bool) (fo : fops) (c : call) (g : gst) : list cand :=
  fst (complete fo (vals (scan_clause code numc answer fo (atoms c))) (glob g)).

(** [n] is a solution of [n op k = t], or of [k op n = t] when [swapped]. *)
Definition solves (op : comp) (swapped : bool) (n k t : Z) : Prop :=
  match op, swapped with
  | CPlus, _ => n + k = t
  | CMinus, false => n - k = t
  | CMinus, true => k - n = t
  | CMult, _ => n * k = t /\ k <> 0
  | _, _ => False
  end.

(** A bound of a comparison and, if they are 64-bit integers, its neighbours are candidates. *)
Definition bounds (v : num) (l : list cand) : Prop :=
  offered v 20 l /\
  match v with
  | NInt z => (in64 (z - 1) = true -> offered (NInt (z - 1)) 30 l) /\ (in64 (z + 1) = true -> offered (NInt (z + 1)) 30 l)
  | NReal _ => True
  end.
(** [e] is an operation on the integer [k] and its only variable, which comes second when [sw]. *)
Definition linear (code : term -> comp) (numc : cst -> option num) (e : term) (sw : bool) (k : Z) : Prop :=
  exists x, term_vars e = [x] /\
  (if sw then decode_arg code numc 1 e = Some (NInt k) /\ arg 2 e = Some (TVar x)
   else arg 1 e = Some (TVar x) /\ decode_arg code numc 2 e = Some (NInt k)).
(** The atom [a] is an equation of [e] and the integer [t], either way round. *)
Definition equation (code : term -> comp) (numc : cst -> option num) (a e : term) (t : Z) : Prop :=
  code a = CEqual /\ (arg 1 a = Some e /\ decode_arg code numc 2 a = Some (NInt t) \/
                      decode_arg code numc 1 a = Some (NInt t) /\ arg 2 a = Some e).

(** The arithmetic terms of the clause have fewer than 32 different lists of one or two variables. *)
Definition few_terms (code : term -> comp) (ats : list term) : Prop :=
  exists L, (length L < 32)%nat /\ forall a u, In a ats -> subterm u a -> arithmetic (code u) = true -> (length (term_vars u) <= 2)%nat -> In (term_vars u) L.
