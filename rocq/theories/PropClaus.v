(** C22-C26: conversion of formulas to clauses.  The meaning of formulas is [sem] of ClausSpec. *)
From Coq Require Import List String Bool Arith Lia.
From Verif Require Import ClausModel ClausSpec ClausProof ClausMini ClausSk ClausDist ClausEnd ClausProp.
Import ListNotations.
Open Scope string_scope.

(** C22: pushing negations in always succeeds, gives a formula in negation normal form, and
    keeps (positive sign) or negates (negative sign) the meaning in every interpretation and
    environment; also for "and", "or" and "imp" with more than two arguments ([bin] = false). *)
Theorem C22_nnf_keeps_meaning : forall bin f, wff bin f -> forall s, exists f',
  negpush f s = Some f' /\ nnf bin f' /\
  forall D (I : interp D) e, sem I e f' <-> (if s then sem I e f else ~ sem I e f).
Proof. exact negpush_ok. Qed.

(** C23, for "and" and "or" of two arguments and formulas where no other name has the spelling of
    a bound one.  Missing: more than two arguments, and other spellings; both are refuted below. *)
Theorem C23_miniscope_keeps_meaning_partial : forall f, nnf true f -> spelling_ok f -> exists f',
  miniscope f = Some f' /\ nnf true f' /\ (forall D (I : interp D) e, sem I e f' <-> sem I e f).
Proof. exact c23. Qed.
Theorem C23_many_arguments_refuted : exists f f' (I : interp unit) e, nnf false f /\ spelling_ok f /\
  miniscope f = Some f' /\ ~ (sem I e f' <-> sem I e f).
Proof. exact c23_many. Qed.
Theorem C23_spelling_refuted : exists f f' (I : interp bool) e, nnf true f /\
  miniscope f = Some f' /\ ~ (sem I e f' <-> sem I e f).
Proof. exact c23_spell. Qed.

(** C24: skolemizing a closed formula succeeds; the result has no quantifiers, implies the formula,
    and every interpretation satisfying the formula becomes a model of the result by changing only
    the new names. *)
Theorem C24_skolemization : forall f k, nnf true f -> (forall b, In b (binders f) -> bindable b = true) ->
  (forall h, In h (fheads f) -> ~ In h (binders f)) -> (forall a, In a (fargs f) -> is_tvar a = false) ->
  (forall i, k < i -> ~ In (skatom i) (syms f)) ->
  exists f' n' k', skolemize f [] 0 k = Some (f', n', k') /\ qf f' /\
    (forall D (I : interp D), (forall u, full u -> sem I u f') -> sem I none f) /\
    (forall D (I : interp D), sem I none f ->
       exists I', same_but (fun a => exists i, k < i <= k' /\ a = skatom i) I I' /\ forall u, full u -> sem I' u f').
Proof. exact c24. Qed.

(** C25: with or without definitions.  [out]: the result together with the definitions. *)
Theorem C25_distribution : forall fuel strat f m r s, qf f -> (forall i, m < i -> ~ In (dfatom i) (syms f)) ->
  distribute fuel strat f false (mkd m None) = Some (r, s) ->
  let out := match d_defs s with None => r | Some d => mk_and r d end in
  cnf out /\
  (forall D (I : interp D), (forall u, full u -> sem I u out) -> forall u, full u -> sem I u f) /\
  (forall D (I : interp D), (forall u, full u -> sem I u f) ->
     exists I', same_but (fun a => exists i, m < i <= d_nr s /\ a = dfatom i) I I' /\ forall u, full u -> sem I' u out).
Proof. exact c25. Qed.
(** the result and the formula agree for each assignment, wherever the definitions hold *)
Theorem C25_pointwise : forall fuel strat f indef s r s', qf f -> distribute fuel strat f indef s = Some (r, s') ->
  forall D (I : interp D), holds I (d_defs s') -> forall u, full u -> (sem I u r <-> sem I u f).
Proof. exact c25_pt. Qed.
(** without definitions the distribution ends for every formula, and adds no definition *)
Theorem C25_distribution_ends : forall f indef s, qf f -> exists fuel r, distribute fuel false f indef s = Some (r, s).
Proof. exact dist_total. Qed.
(** the list of clauses made from the result is equivalent to it *)
Theorem C25_flatten : forall f, cnf f -> exists cls, flatten f = Some cls /\ Forall clause_ok cls /\
  forall D (I : interp D) u, sem I u f <-> Forall (clause_true I u) cls.
Proof. exact flatten_ok. Qed.

(** C26: the clauses of an accepted formula imply it, and every model of the formula becomes a
    model of the clauses by changing only the names made by the conversion. *)
Theorem C26_clausification : forall isv fuel strat frm k m out k' m', input_ok isv frm k m -> ~ atomic frm ->
  clausify isv fuel strat frm k m = Some (out, k', m') ->
  exists cls, flatten out = Some cls /\ Forall clause_ok cls /\
    (forall D (I : interp D), clauses_true I cls -> formula_true isv I frm) /\
    (forall D (I : interp D), formula_true isv I frm ->
       exists I', same_but (made k k' m m') I I' /\ clauses_true I' cls).
Proof. exact clausify_main. Qed.
Theorem C26_satisfiable_iff : forall isv fuel strat frm k m out k' m', input_ok isv frm k m -> ~ atomic frm ->
  clausify isv fuel strat frm k m = Some (out, k', m') ->
  exists cls, flatten out = Some cls /\
    forall D, (exists I : interp D, clauses_true I cls) <-> (exists I : interp D, formula_true isv I frm).
Proof. exact c26_sat. Qed.
Theorem C26_accepted : forall isv frm k m, input_ok isv frm k m -> (forall f, frm <> Sl [Sl f]) ->
  exists fuel out k', clausify isv fuel false frm k m = Some (out, k', m).
Proof. exact clausify_total. Qed.

Print Assumptions C22_nnf_keeps_meaning.
Print Assumptions C23_miniscope_keeps_meaning_partial.
Print Assumptions C23_many_arguments_refuted.
Print Assumptions C23_spelling_refuted.
Print Assumptions C24_skolemization.
Print Assumptions C25_distribution.
Print Assumptions C25_pointwise.
Print Assumptions C25_distribution_ends.
Print Assumptions C25_flatten.
Print Assumptions C26_clausification.
Print Assumptions C26_satisfiable_iff.
Print Assumptions C26_accepted.

(** Non-trivial cases: all X exists Y (p(X,Y) <=> not q(Y,Z)), Z free. *)
Definition x := Sym TUri "X". Definition y := Sym TUri "Y". Definition z := Sym TUri "Z".
Definition p := Sym TUri "p". Definition q := Sym TUri "q".
Definition caps (s : string) : bool := match s with String c _ => Nat.leb 65 (Ascii.nat_of_ascii c) && Nat.leb (Ascii.nat_of_ascii c) 90 | _ => false end.
Definition f0 : sx := Sl [Sa (Con CAll); Sl [Sa x]; Sl [Sa (Con CEx); Sl [Sa y];
  Sl [Sa (Con CEqv); Sl [Sa p; Sa x; Sa y]; Sl [Sa (Con CNot); Sl [Sa q; Sa y; Sa z]]]]].
Example f0_wff : wff true f0.
Proof.
  change (Sl [Sa x]) with (Sl (map Sa [x])). repeat (apply (W_q true CAll [x]) || apply (W_q true CEx [y]) || apply W_eqv || apply W_not);
   auto; try discriminate; try (repeat constructor; fail); apply W_atomic; repeat constructor.
Qed.
Example f0_input : input_ok caps f0 0 0.
Proof.
  constructor.
  - exact f0_wff.
  - cbn. intuition (subst; reflexivity).
  - cbn. intros a b Ha Hb _ E. intuition (subst; try reflexivity; discriminate).
  - cbn. intros h H. intuition (subst; try reflexivity; discriminate).
  - intros i _ H. cbn in H. unfold skatom in H. intuition discriminate.
  - intros i _ H. cbn in H. unfold dfatom in H. intuition discriminate.
Qed.
Example f0_clauses : exists out k', clausify caps 20 true f0 0 0 = Some (out, k', 0) /\ k' = 1 /\
  flatten out = Some
    [Sl [Sl [Sa (Con CNot); Sl [Sa p; Sa (Sym TVar "X2"); Sl [Sa (skatom 1); Sa (Sym TVar "X1"); Sa (Sym TVar "X2")]]];
         Sl [Sa (Con CNot); Sl [Sa q; Sl [Sa (skatom 1); Sa (Sym TVar "X1"); Sa (Sym TVar "X2")]; Sa (Sym TVar "X1")]]];
     Sl [Sl [Sa p; Sa (Sym TVar "X2"); Sl [Sa (skatom 1); Sa (Sym TVar "X1"); Sa (Sym TVar "X2")]];
         Sl [Sa q; Sl [Sa (skatom 1); Sa (Sym TVar "X1"); Sa (Sym TVar "X2")]; Sa (Sym TVar "X1")]]].
Proof. vm_compute. eexists _, _. split; [reflexivity|]. split; reflexivity. Qed.

(** (p(X) & q(X)) v (p(Y) & q(Y)), inside a definition: two definitions are made *)
Definition lit h v := Sl [Sa (Sym TUri h); Sa (Sym TVar v)].
Definition f2 : sx := mk_or (mk_and (mk_and (lit "p" "X") (lit "q" "X")) (mk_and (lit "r" "X") (lit "s" "X")))
                            (mk_and (mk_and (lit "p" "Y") (lit "q" "Y")) (mk_and (lit "r" "Y") (lit "s" "Y"))).
Example f2_qf : qf f2.
Proof. unfold f2. repeat (apply (Q_two CAnd) || apply (Q_two COr); auto); apply Q_lit, L_pos; repeat constructor. Qed.
Example f2_defs : exists r s, distribute 30 true f2 true (mkd 0 None) = Some (r, s) /\ d_nr s = 2 /\
  r = mk_or (Sl [Sa (dfatom 1); Sa (Sym TVar "X")]) (Sl [Sa (dfatom 2); Sa (Sym TVar "Y")]).
Proof. vm_compute. eexists _, _. split; [reflexivity|]. split; reflexivity. Qed.
Definition big v := mk_and (mk_and (lit "p" v) (lit "q" v)) (mk_and (lit "r" v) (lit "s" v)).
Example f3_threshold : exists r s, distribute 30 true (mk_or (mk_and (big "X") (big "Z")) (mk_and (big "Y") (big "U"))) false (mkd 0 None) = Some (r, s) /\ d_nr s = 2.
Proof. vm_compute. eexists _, _. split; reflexivity. Qed.
