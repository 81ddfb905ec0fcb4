(** What an answer says, and when two answers are the same. *)
From Coq Require Import List ZArith Bool.
From Verif Require Import Terms SubsumeSpec Semantics MetaModel DeriveModel DeriveSpec.
Import ListNotations.
Open Scope Z_scope.

(** The predicate symbol and the arguments of an atom. *)
Definition pred_of (a : term) : option cst := match a with TRec (TCst c :: _) => Some c | _ => None end.
Definition args_of (a : term) : list term := match a with TRec (_ :: args) => args | _ => [] end.
Definition is_ans (ans : cst) (l : literal) : Prop := pred_of (snd l) = Some ans.

(** Answer literals occur with a positive sign only. *)
Definition ans_positive (ans : cst) (c : list literal) : Prop := forall l, In l c -> is_ans ans l -> fst l = false.
(** All literals are positive answer literals, and there is one. *)
Definition pure_answer (ans : cst) (c : list literal) : Prop :=
  c <> [] /\ forall l, In l c -> fst l = false /\ is_ans ans l.

(** The evaluator of built-in functions neither takes nor gives answer atoms. *)
Definition not_evaluated (ans : cst) (comp : term -> option term) : Prop :=
  forall fs t, comp (TRec fs) = Some t -> pred_of (TRec fs) = Some ans \/ pred_of t = Some ans -> t = TRec fs.

(** The question put by a clause [~Q1 | ... | ~Qk | $ans(t1..tn)]: its literals without the
    answer literals; it is answered by [rho] if they are all false, i.e. all [Qi] true. *)
Definition answered (eqc ans : cst) (M : interp) (rho : Z -> dom M) (q : list literal) : Prop :=
  forall l, In l q -> ~ is_ans ans l -> ~ lit_holds eqc M rho l.
(** The values [ds] are an answer in [M] to one of the questions among the clauses [cs]. *)
Definition correct_answer (eqc ans : cst) (cs : list (list literal)) (M : interp) (ds : list (dom M)) : Prop :=
  exists q rho l, In q cs /\ In l q /\ is_ans ans l /\ answered eqc ans M rho q /\
    map (eval M rho) (args_of (snd l)) = ds.

(** Two answer clauses are the same: both facts or both rules, with the same literals in the
    same order. *)
Definition is_rule (c : scl) : bool := match c with SRule _ => true | _ => false end.
Definition same_answer (x y : scl) : Prop := is_rule x = is_rule y /\ clause_of x = clause_of y.

(** The answers listed in the vector: words of clauses at 2, 4, 6, ... *)
From Verif Require Import MatchModel VecModel AnsModel.
Definition listed (v : vec) (L : list Z) : Prop :=
  rd v 1 = Some (2 + 2 * Z.of_nat (length L)) /\
  forall i x, nth_error L i = Some x -> rd v (2 + 2 * Z.of_nat i) = Some x.

(** Registrations from the start, with histories kept: the clauses registered without an
    error (last one first) and the vector. *)
Inductive registering (sb : stray_env) (mem : Z -> scl) : list Z -> vec -> Prop :=
| rg_start junk : registering sb mem [] (no_answers junk)
| rg_add h v w hist ok1 ok2 junk r v' : registering sb mem h v ->
    register sb mem true hist ok1 ok2 junk (Some v) w = RRet r (Some v') ->
    registering sb mem (if 0 <=? r then w :: h else h) v'.
