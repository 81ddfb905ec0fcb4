(** A run of the search that reports a proof. *)
From Coq Require Import List ZArith Bool Lia.
From Verif Require Import Terms UnifyModel MatchModel MetaModel SubsumeSpec Semantics BuildModel DeriveModel DeriveSpec
  CutModel CutSpec DupModel SimpModel SimpSpec RewriteModel RewriteSpec SearchModel SearchProof PropDeriveEx PropCutEx PropRewriteEx.
Import ListNotations.
Open Scope Z_scope.

Definition sig1 : signature :=
  {| fn := fun c => c = CLong 3 \/ c = CLong 4;
     pr := fun c n => (c = CLong 1 \/ c = CLong 2) /\ n = 1%nat \/ c = EQ /\ n = 2%nat |}.
Lemma sig1_eq n : pr sig1 EQ n -> n = 2%nat.
Proof. simpl. intros [[[H|H] _]|[_ H]]; auto; discriminate. Qed.
Lemma comp0_tame1 S : comp_tame S comp0.
Proof. intros fs t E. injection E as <-. split; auto. split; auto. intros H. right. right. eauto. Qed.

(** P(X) | Q(F(X)),  ~P(a),  a = b,  ~Q(F(b)). *)
Definition k1 := SRule [pl 801 (P (TVar 0)); pl 802 (Q (F (TVar 0)))].
Definition k2 := SRule [nl 803 (P a)].
Definition k3 := SFact 804 (Eqn a b).
Definition k4 := SRule [nl 805 (Q (F b))].
Definition K0 := [k1; k2; k3; k4].
(** Copies of the first two in banks 1 and 2. *)
Definition k1' := SRule [pl 811 (P X1); pl 812 (Q (F X1))].
(** The clause learned: Q(F(a)). *)
Definition k5 := SRule [pl 821 (Q (F a))].
Definition rw1 (l : clit) : rwres := if term_eq_dec (latom l) (Q (F a)) then RwTo 831 (Q (F b)) true else RwKeep.
Definition rules1 (t : term) : list (term * term) := if term_eq_dec t a then [(a, b)] else [].
Definition u1 : ustore := {| pos_units := []; neg_units := [Q (F b)] |}.
Definition u_none : ustore := {| pos_units := []; neg_units := [] |}.

Lemma K0_sig : forall c, In c K0 -> sig_clause sig1 (clause_of c).
Proof.
  intros c Hc. simpl in Hc. repeat (destruct Hc as [<-|Hc]; [
    intros l Hl; simpl in Hl; repeat (destruct Hl as [<-|Hl]; [
      apply sa_rec; [simpl; auto|repeat constructor; simpl; auto]|]); destruct Hl|]). destruct Hc.
Qed.

Lemma variant_refl c : variant c c.
Proof.
  exists TVar. split; [eauto|]. rewrite <- (map_id c) at 1. apply map_ext_in. intros [n t] _. unfold inst. cbn.
  assert (E : forall t, app TVar t = t).
  { induction t0 as [i|d|fs IH] using term_ind'; cbn; auto. f_equal. rewrite <- (map_id fs) at 2.
    apply map_ext_in. rewrite Forall_forall in IH. auto. }
  rewrite E. reflexivity.
Qed.
Lemma known_refl K c : In c K -> known K (clause_of c).
Proof. intros H. exists c. split; auto. apply variant_refl. Qed.

Ltac stored_tac := split; [
  intros ? ? H1 H2; simpl in H1, H2;
    repeat (destruct H1 as [<-|H1]; [repeat (destruct H2 as [<-|H2]; [simpl; intros; first [reflexivity|lia]|]); destruct H2|]); destruct H1
 |intros i j ? ? E1 E2 Hij _ _; destruct i as [|[|[|i]]], j as [|[|[|j]]]; simpl in E1, E2; try discriminate;
    try congruence; injection E1 as <-; injection E2 as <-; simpl; lia
 |intros ? H; simpl in H; repeat (destruct H as [<-|H]; [vm_compute; discriminate|]); destruct H
 |intros ? ? H1 H2; simpl in H1, H2;
    repeat (destruct H1 as [<-|H1]; [repeat (destruct H2 as [<-|H2]; [simpl; intros; first [reflexivity|discriminate]|]); destruct H2|]); destruct H1
 |intros ? ? H; simpl in H; repeat (destruct H as [<-|H]; [simpl; intuition lia|]); destruct H].

Lemma k1'_parent : parent sb0 K0 k1'.
Proof.
  split; [|split; [stored_tac|reflexivity]].
  exists k1. split; [simpl; auto|]. exists (fun i => TVar (i + 1000)). split; [eauto|reflexivity].
Qed.
Lemma k2_parent : parent sb0 K0 k2.
Proof. split; [apply known_refl; simpl; auto|]. split; [stored_tac|reflexivity]. Qed.

Definition s5 : bst :=
  match resolve sb0 comp0 3 20 20 k1' 0 k2 0 empty_vst with DClause _ s => s | _ => start_build empty_vst end.
Lemma r5_eq : resolve sb0 comp0 3 20 20 k1' 0 k2 0 empty_vst = DClause [(4, Q (F a))] s5.
Proof. reflexivity. Qed.

Lemma learn_k5 : step sb0 comp0 EQ sig1 rv0 K0 (Learn k5).
Proof.
  apply (st_keep sb0 comp0 EQ sig1 rv0 K0 [(4, Q (F a))] s5 u_none None true true true (fun _ _ => []) 20 [(4, Q (F a))] k5).
  - rewrite <- r5_eq. apply i_resolve; [exact k1'_parent|exact k2_parent|]. intros v. reflexivity.
  - intros c [].
  - intros c [].
  - intros n x y [].
  - vm_compute. reflexivity.
  - split; [|stored_tac]. apply variant_refl.
Qed.

Lemma run_reports : reports sb0 comp0 EQ sig1 rv0 K0.
Proof.
  exists (k5 :: K0). split; [eapply r_learn; [apply r_start|exact learn_k5]|].
  apply (st_simp_proof sb0 comp0 EQ sig1 rv0 (k5 :: K0) u1 None rw1 (fun _ _ => []) k5).
  - apply known_refl. simpl. auto.
  - stored_tac.
  - intros c [<-|[]]. apply (known_refl (k5 :: K0) k4). simpl. auto 8.
  - intros c [].
  - intros m t d [].
  - exists rules1. split.
    + intros key rule. unfold rules1. destruct (term_eq_dec key a); [|intros []]. intros [<-|[]]. split.
      * split; [constructor|]. split; [constructor|]. split; [simpl; tauto|]. split; [simpl; tauto|]. simpl.
        split; [intros [|]; discriminate|]. intros m [[[|] _]|[? _]]; discriminate.
      * left. apply (known_refl (k5 :: K0) k3). simpl. auto 8.
    + intros l w t ch [<-|[]]. unfold rw1. cbn [latom pl]. destruct (term_eq_dec _ _) as [_|n0]; [|exfalso; apply n0; reflexivity].
      intros E; injection E as <- <- <-. split; [intros i []|]. split.
      * exists 20%nat, empty_vst. eexists. split; [split; reflexivity|]. vm_compute. reflexivity.
      * intros l' [<-|[]]. simpl. lia.
  - vm_compute. reflexivity.
Qed.

(** A run without equations: Q(F(a)), ~Q(F(a)). *)
Definition k6 := SRule [nl 805 (Q (F a))].
Definition Kp := [k5; k6].
Lemma run_plain : reports sb0 comp0 EQ (any_sig EQ) rv0 Kp /\ (forall c, In c Kp -> proper c /\ binary_eq EQ c /\ forall l, In l (cl_lits c) -> latom l <> TCst EQ).
Proof.
  split.
  - exists Kp. split; [apply r_start|]. apply st_proof.
    replace DProof with (resolve sb0 comp0 3 20 20 k5 0 k6 0 empty_vst) by reflexivity.
    apply i_resolve; [| |intros v; reflexivity]; (split; [apply known_refl; simpl; auto|]; split; [stored_tac|reflexivity]).
  - intros c [<-|[<-|[]]]; (split; [proper_tac|]; split;
      [intros l args [<-|[]] E; simpl in E; discriminate|intros l [<-|[]]; discriminate]).
Qed.
