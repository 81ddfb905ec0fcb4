(** C41: rewriting with unit equations. *)
From Coq Require Import List ZArith Bool Lia.
From Verif Require Import Terms UnifyModel MatchModel MetaModel SubsumeSpec Semantics DeriveModel DeriveSpec SimpModel SimpSpec
  RewriteModel RewriteSpec RewriteProof PropDeriveEx PropCutEx PropRewriteEx.
Import ListNotations.
Open Scope Z_scope.

(** C41.  A rewritten term has the same value in every model of the equations ... *)
Theorem C41_rewriting_keeps_value : forall sb eqc comp rules M S rv,
  (forall k rule, In rule (rules k) -> usable S rv rule) ->
  (forall k rule, In rule (rules k) -> rule_true M rule) ->
  agrees_with eqc comp M -> comp_tame S comp ->
  forall n x s t s', clean s -> sig_term S x -> apart rv x ->
  build_rw sb comp rules n x s = WOk t s' ->
  clean s' /\ sig_term S t /\ (forall i, In i (tvars t) -> In i (tvars x)) /\ forall v, eval M v t = eval M v x.
Proof. exact build_rw_term. Qed.
Print Assumptions C41_rewriting_keeps_value.

(** ... and a rewritten atom the same truth value. *)
Theorem C41_rewriting_keeps_truth : forall sb eqc comp rules M S rv,
  (forall k rule, In rule (rules k) -> usable S rv rule) ->
  (forall k rule, In rule (rules k) -> rule_true M rule) ->
  agrees_with eqc comp M -> comp_tame S comp ->
  forall n x s t s', clean s -> sig_atom S x -> apart rv x ->
  build_rw sb comp rules n x s = WOk t s' ->
  clean s' /\ (t = TCst atrue \/ t = TCst afalse \/ sig_atom S t) /\
  (forall i, In i (tvars t) -> In i (tvars x)) /\ forall v, holds eqc M v t <-> holds eqc M v x.
Proof. exact build_rw_atom. Qed.
Print Assumptions C41_rewriting_keeps_truth.

Example C41_nonvacuous :
  (forall t r, In r (rules0 t) -> usable sig0 rv0 r) /\ (forall t r, In r (rules0 t) -> rule_true (M1 True) r) /\
  agrees_with EQ comp0 (M1 True) /\ comp_tame sig0 comp0 /\ sig_atom sig0 t0 /\ apart rv0 t0 /\
  exists s, build_rw sb0 comp0 rules0 40 t0 empty_vst = WOk (P (R (F (F b)) (F b))) s.
Proof.
  split; [exact rules0_usable|]. split; [exact rules0_true|]. split; [apply comp0_agrees|]. split; [exact comp0_tame|].
  split; [apply t0_atom|]. split; [apply t0_atom|exact ex_rewrite].
Qed.

(** Simplification (C44) with this rewriting: the assumption it makes is met. *)
Lemma rw_instance sb eqc comp rules M S rv rw ls :
  (forall k rule, In rule (rules k) -> usable S rv rule) ->
  (forall k rule, In rule (rules k) -> rule_true M rule) ->
  agrees_with eqc comp M -> comp_tame S comp ->
  (forall l, In l ls -> sig_atom S (latom l) /\ apart rv (latom l)) ->
  (forall l w t ch, In l ls -> rw l = RwTo w t ch ->
     (exists n s s', clean s /\ build_rw sb comp rules n (latom l) s = WOk t s') /\
     (forall l', In l' ls -> lword l' = w -> latom l' = t)) ->
  rw_keeps eqc M rw ls.
Proof.
  intros A B C D E F l w t ch Hl Hr. destruct (F l w t ch Hl Hr) as ((n&s&s'&Hs&Hb)&Hw). destruct (E l Hl) as [E1 E2].
  split; auto. apply (build_rw_atom sb eqc comp rules M S rv A B C D n (latom l) s t s' Hs E1 E2 Hb).
Qed.
Theorem C44_rewriting_is_admissible : forall sb eqc comp rules M S rv rw ls,
  (forall k rule, In rule (rules k) -> usable S rv rule) ->
  (forall k rule, In rule (rules k) -> rule_true M rule) ->
  agrees_with eqc comp M -> comp_tame S comp ->
  (forall l, In l ls -> sig_atom S (latom l) /\ apart rv (latom l)) ->
  (forall l w t ch, In l ls -> rw l = RwTo w t ch ->
     (exists n s s', clean s /\ build_rw sb comp rules n (latom l) s = WOk t s') /\
     (forall l', In l' ls -> lword l' = w -> latom l' = t)) ->
  rw_keeps eqc M rw ls.
Proof. exact rw_instance. Qed.
Print Assumptions C44_rewriting_is_admissible.

(** Without the separation of symbols the property fails: a true equation between constants
    also rewrites function symbols ... *)
Theorem C41_function_symbol_refuted :
  exists rules x t n s', (forall k r, In r (rules k) -> rule_true M3 r) /\ fot x = true /\
    build_rw sb0 comp0 rules n x empty_vst = WOk t s' /\ forall v, eval M3 v t <> eval M3 v x.
Proof. exact overloaded_refuted. Qed.
Print Assumptions C41_function_symbol_refuted.

(** ... and a true equation between terms rewrites atoms with a predicate of the same name. *)
Theorem C41_predicate_symbol_refuted :
  exists rules x t n s', (forall k r, In r (rules k) -> rule_true M4 r) /\ foa x = true /\
    build_rw sb0 comp0 rules n x empty_vst = WOk t s' /\ forall v, ~ (holds EQ M4 v t <-> holds EQ M4 v x).
Proof. exact predicate_refuted. Qed.
Print Assumptions C41_predicate_symbol_refuted.
