(** C19: the search as a whole. *)
From Coq Require Import List ZArith Bool.
From Verif Require Import Terms SubsumeSpec Semantics DeriveModel DeriveSpec RewriteSpec SearchModel SearchProof PropDeriveEx PropRewriteEx PropSearchEx.
Import ListNotations.
Open Scope Z_scope.

(** C19.  If some run over the input clauses reports a proof, the input has no model (among
    the interpretations that agree with the built-in functions). *)
Theorem C19_reported_proof_is_refutation : forall sb comp eqc S rv K0,
  comp_tame S comp -> (forall n, pr S eqc n -> n = 2%nat) ->
  (forall c, In c K0 -> sig_clause S (clause_of c)) ->
  reports sb comp eqc S rv K0 ->
  forall M, agrees_with eqc comp M -> ~ (forall c, In c K0 -> valid_in eqc M (clause_of c)).
Proof. exact reports_unsat. Qed.
Print Assumptions C19_reported_proof_is_refutation.
Example C19_nonvacuous : comp_tame sig1 comp0 /\ (forall n, pr sig1 EQ n -> n = 2%nat) /\
  (forall c, In c K0 -> sig_clause sig1 (clause_of c)) /\ reports sb0 comp0 EQ sig1 rv0 K0.
Proof. split; [apply comp0_tame1|]. split; [exact sig1_eq|]. split; [exact K0_sig|exact run_reports]. Qed.

(** Every clause kept at any moment of any run follows from the input clauses. *)
Theorem C19_kept_clauses_follow : forall sb comp eqc S rv K0 K c,
  comp_tame S comp -> (forall n, pr S eqc n -> n = 2%nat) ->
  (forall c, In c K0 -> sig_clause S (clause_of c)) ->
  reach sb comp eqc S rv K0 K -> In c K ->
  follows eqc (agrees_with eqc comp) (map clause_of K0) (clause_of c).
Proof. exact reach_follows. Qed.
Print Assumptions C19_kept_clauses_follow.
Example C19_nonvacuous_kept : reach sb0 comp0 EQ sig1 rv0 K0 (k5 :: K0) /\ ~ In k5 K0.
Proof.
  split; [eapply r_learn; [apply r_start|exact learn_k5]|].
  simpl. intros [H|[H|[H|[H|[]]]]]; discriminate.
Qed.

(** Without equations for rewriting no separation of symbols is needed: any first-order input
    with binary equality will do. *)
Lemma plain_unsat sb comp eqc rv K0 : comp_tame (any_sig eqc) comp ->
  (forall c, In c K0 -> proper c /\ binary_eq eqc c /\ forall l, In l (cl_lits c) -> latom l <> TCst eqc) ->
  reports sb comp eqc (any_sig eqc) rv K0 ->
  forall M, agrees_with eqc comp M -> ~ (forall c, In c K0 -> valid_in eqc M (clause_of c)).
Proof.
  intros A B C M D. apply (reports_unsat sb comp eqc (any_sig eqc) rv K0); auto.
  intros c Hc. destruct (B c Hc) as (E&F&G). apply any_sig_clause; auto.
Qed.
Theorem C19_any_symbols : forall sb comp eqc rv K0, comp_tame (any_sig eqc) comp ->
  (forall c, In c K0 -> proper c /\ binary_eq eqc c /\ forall l, In l (cl_lits c) -> latom l <> TCst eqc) ->
  reports sb comp eqc (any_sig eqc) rv K0 ->
  forall M, agrees_with eqc comp M -> ~ (forall c, In c K0 -> valid_in eqc M (clause_of c)).
Proof. exact plain_unsat. Qed.
Print Assumptions C19_any_symbols.
Example C19_nonvacuous_any : reports sb0 comp0 EQ (any_sig EQ) rv0 Kp /\
  (forall c, In c Kp -> proper c /\ binary_eq EQ c /\ forall l, In l (cl_lits c) -> latom l <> TCst EQ).
Proof. exact run_plain. Qed.
