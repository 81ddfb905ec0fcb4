(** C01-C04: unification and the variable trail. *)
From Coq Require Import List ZArith Bool.
From Verif Require Import Terms UnifySpec UnifyModel MatchModel TrailModel UnifyProof TrailProof PropUnifyEx.
Import ListNotations.
Open Scope Z_scope.

(** C01.  Success means the resulting bindings, applied exhaustively, make both terms equal. *)
Theorem C01_unify_sound : forall n x y s s',
  acyclic (bank s) -> unify_term n x y s = Done true s' ->
  exists sg, exhaustive (bank s') sg /\ app sg x = app sg y.
Proof. exact unify_sound. Qed.
Print Assumptions C01_unify_sound.

Example C01_nonvacuous :
  acyclic (bank ex_s) /\ exists s', unify_term 20 ex_x ex_y ex_s = Done true s' /\ bank s' 1 <> None /\ bank s' 4 <> None /\ bank s' 3 <> None.
Proof. exact ex_success. Qed.

(** C02.  The answer is yes exactly when some substitution compatible with the earlier
    bindings makes the terms equal ... *)
Theorem C02_unify_complete : forall n x y s r s',
  acyclic (bank s) -> unify_term n x y s = Done r s' ->
  (r = true <-> exists t, solves t (bank s) /\ app t x = app t y).
Proof. exact unify_complete. Qed.
Print Assumptions C02_unify_complete.

(** ... and each such substitution factors through the computed bindings. *)
Theorem C02_unify_most_general : forall n x y s s',
  acyclic (bank s) -> unify_term n x y s = Done true s' ->
  forall sg t, exhaustive (bank s') sg -> solves t (bank s) -> app t x = app t y ->
  forall u, app t (app sg u) = app t u.
Proof. exact unify_mgu. Qed.
Print Assumptions C02_unify_most_general.

Example C02_nonvacuous : acyclic (bank ex_s) /\
  (exists s', unify_term 20 ex_x ex_y ex_s = Done true s') /\
  (exists s', unify_term 20 ex_x ex_z ex_s = Done false s').
Proof. exact ex_both. Qed.

(** C03.  Terminates from any acyclic bindings recorded on the trail (fuel large enough
    always gives one and the same answer), and keeps bindings acyclic. *)
Theorem C03_unify_terminates : forall s x y,
  acyclic (bank s) -> (forall i, bank s i <> None -> In i (trail s)) ->
  exists n r s', forall m, (n <= m)%nat -> unify_term m x y s = Done r s'.
Proof. exact unify_total. Qed.
Print Assumptions C03_unify_terminates.

Theorem C03_unify_acyclic : forall n x y s r s',
  acyclic (bank s) -> unify_term n x y s = Done r s' ->
  acyclic (bank s') /\ extends (bank s) (bank s').
Proof. exact unify_acyclic. Qed.
Print Assumptions C03_unify_acyclic.

(** The pointer-equality shortcut of the code changes nothing. *)
Theorem C03_unify_self : forall s x, acyclic (bank s) -> exists n, unify_term n x x s = Done true s.
Proof. exact unify_refl. Qed.
Print Assumptions C03_unify_self.

Example C03_nonvacuous : acyclic (bank ex_s) /\ (forall i, bank ex_s i <> None -> In i (trail ex_s)) /\ bank ex_s 1 <> None.
Proof. exact ex_trail. Qed.

(** C04.  Clearing after any sequence of attempts unassigns everything; clearing the top
    slice restores the state at the slice's start. *)
Theorem C04_clear_undoes_all : forall sb ops s,
  vrun sb ops empty_vst = Some s ->
  (forall i, bank (clear_varstack s) i = None) /\ trail (clear_varstack s) = [].
Proof. exact clear_after_any. Qed.
Print Assumptions C04_clear_undoes_all.

Theorem C04_topslice_restores : forall sb ops1 ops2 s s',
  vrun sb ops1 empty_vst = Some s -> forallb no_clear ops2 = true -> vrun sb ops2 s = Some s' ->
  (forall i, bank (clear_topslice (length (trail s)) s') i = bank s i) /\
  trail (clear_topslice (length (trail s)) s') = trail s.
Proof. exact topslice_after_any. Qed.
Print Assumptions C04_topslice_restores.

Example C04_nonvacuous : exists s s',
  vrun (fun _ => true) [OUnify 20 ex_x ex_y; OClear; OMatch ex_x (f [b; a])] empty_vst = Some s /\
  vrun (fun _ => true) [OUnify 20 ex_y ex_z; OMatch (TVar 1) b] s = Some s' /\
  bank s 1 <> None /\ bank s 2 = None /\ bank s' 2 <> None.
Proof. exact ex_ops. Qed.
