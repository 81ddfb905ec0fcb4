(** Concrete terms for the non-vacuity examples of PropUnify.v and PropMatch.v. *)
From Coq Require Import List ZArith Bool Lia.
From Verif Require Import Terms UnifySpec UnifyModel MatchModel TrailModel.
Import ListNotations.
Open Scope Z_scope.

Definition f (l : list term) : term := TRec (TCst (CLong 100) :: l).
Definition a : term := TCst (CImm 11).
Definition b : term := TCst (CInt 70000000000).
(** f(X1, a)  f(f(X2,b), X3)  f(f(a,X3), b), and the start bindings {X1 := f(X2, X3)} *)
Definition ex_x : term := f [TVar 1; a].
Definition ex_y : term := f [f [TVar 2; b]; TVar 4].
Definition ex_z : term := f [f [a; TVar 3]; b].
Definition ex_s : vst := setvar 1 (f [TVar 2; TVar 3]) empty_vst.

Lemma ex_acyclic : acyclic (bank ex_s).
Proof.
  exists (fun i => if Z.eqb i 1 then 1%nat else 0%nat). intros i t j. unfold ex_s; simpl.
  destruct (Z.eqb_spec i 1) as [->|]; [|discriminate]. intros H; injection H as <-. simpl.
  intros [<-|[<-|[]]]; simpl; lia.
Qed.

Lemma ex_success : acyclic (bank ex_s) /\
  exists s', unify_term 20 ex_x ex_y ex_s = Done true s' /\ bank s' 1 <> None /\ bank s' 4 <> None /\ bank s' 3 <> None.
Proof.
  split; [apply ex_acyclic|]. eexists. split; [reflexivity|].
  repeat split; vm_compute; discriminate.
Qed.

Lemma ex_both : acyclic (bank ex_s) /\
  (exists s', unify_term 20 ex_x ex_y ex_s = Done true s') /\
  (exists s', unify_term 20 ex_x ex_z ex_s = Done false s').
Proof. split; [apply ex_acyclic|]. split; eexists; vm_compute; reflexivity. Qed.

Lemma ex_trail : acyclic (bank ex_s) /\ (forall i, bank ex_s i <> None -> In i (trail ex_s)) /\ bank ex_s 1 <> None.
Proof.
  split; [apply ex_acyclic|]. split; [|vm_compute; discriminate].
  intros i. unfold ex_s; simpl. destruct (Z.eqb_spec i 1) as [->|]; auto.
Qed.

Lemma ex_ops : exists s s',
  vrun (fun _ => true) [OUnify 20 ex_x ex_y; OClear; OMatch ex_x (f [b; a])] empty_vst = Some s /\
  vrun (fun _ => true) [OUnify 20 ex_y ex_z; OMatch (TVar 1) b] s = Some s' /\
  bank s 1 <> None /\ bank s 2 = None /\ bank s' 2 <> None.
Proof.
  eexists. eexists. split; [reflexivity|]. split; [reflexivity|].
  repeat split; vm_compute; discriminate.
Qed.

Lemma match_example :
  exists s', match_term (fun _ => true) ex_x (f [f [a; b]; a]) empty_vst = MDone true s' /\ bank s' 1 = Some (f [a; b]).
Proof. eexists. split; reflexivity. Qed.
