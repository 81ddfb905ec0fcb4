(** Concrete cases for C41. *)
From Coq Require Import List ZArith Bool Lia.
From Verif Require Import Terms UnifyModel MatchModel MetaModel SubsumeSpec Semantics DeriveModel RewriteModel RewriteSpec
  RewriteProof PropDeriveEx PropCutEx.
Import ListNotations.
Open Scope Z_scope.

(** Functions F and R, predicates P and Q; rules F(R(X,Y)) -> R(F(X),X) and a -> b. *)
Definition sig0 : signature :=
  {| fn := fun c => c = CLong 3 \/ c = CLong 4; pr := fun c n => (c = CLong 1 \/ c = CLong 2) /\ n = 1%nat |}.
Definition rv0 (i : Z) : Prop := 2000 <= i < 3000.
Definition rule1 : term * term := (F (R X2 (TVar 2001)), R (F X2) X2).
Definition rule2 : term * term := (a, b).
Definition rules0 (t : term) : list (term * term) :=
  if term_eq_dec t (k 4) then [rule1] else if term_eq_dec t a then [rule2] else [].

Ltac sig_tac := repeat first [apply st_var | apply st_cst | apply st_rec; [simpl; auto|] | constructor].
Lemma rules0_usable : forall t r, In r (rules0 t) -> usable sig0 rv0 r.
Proof.
  intros t r. unfold rules0. destruct (term_eq_dec t (k 4)); [|destruct (term_eq_dec t a)]; simpl; intros H.
  - destruct H as [<-|[]]. unfold usable, rule1. split; [sig_tac|]. split; [sig_tac|]. split; [simpl; tauto|].
    split; [simpl; unfold rv0; intros i [<-|[<-|[]]]; lia|]. simpl. intros m [[H|H] _]; discriminate.
  - destruct H as [<-|[]]. unfold usable, rule2. split; [sig_tac|]. split; [sig_tac|]. split; [simpl; tauto|].
    split; [simpl; tauto|]. simpl. split; [intros [H|H]; discriminate|]; intros m [[H|H] _]; discriminate.
  - destruct H.
Qed.
Lemma rules0_true : forall t r, In r (rules0 t) -> rule_true (M1 True) r.
Proof. intros t r _ v. simpl. destruct (eval _ _ _), (eval _ _ _). reflexivity. Qed.
Lemma comp0_tame : comp_tame sig0 comp0.
Proof. intros fs t E. injection E as <-. split; auto. split; auto. intros H. right. right. eauto. Qed.

(** P(F(F(R(a,X)))) becomes P(R(F(F(b)),F(b))). *)
Definition t0 : term := P (F (F (R a X3))).
Lemma t0_atom : sig_atom sig0 t0 /\ apart rv0 t0.
Proof.
  split.
  - apply sa_rec; [simpl; auto|]. constructor; [|constructor]. unfold F, R. sig_tac.
  - intros i [<-|[]]. unfold rv0. lia.
Qed.
Lemma ex_rewrite : exists s, build_rw sb0 comp0 rules0 40 t0 empty_vst = WOk (P (R (F (F b)) (F b))) s.
Proof. eexists. vm_compute. reflexivity. Qed.

(** Finding: the equation a = b between constants rewrites the function symbol a. *)
Definition M3 : interp :=
  {| dom := bool; icst := fun _ => true; ifun := fun c _ => if cst_eq_dec c (CLong 10) then true else false;
     ipred := fun _ _ => True; iprop := fun _ => True; iodd := fun _ => true |}.
Definition rules_ab (t : term) : list (term * term) := if term_eq_dec t a then [(a, b)] else [].
Lemma overloaded_refuted :
  exists rules x t n s', (forall k r, In r (rules k) -> rule_true M3 r) /\ fot x = true /\
    build_rw sb0 comp0 rules n x empty_vst = WOk t s' /\ forall v, eval M3 v t <> eval M3 v x.
Proof.
  exists rules_ab, (TRec [a; b]), (TRec [b; b]), 10%nat, empty_vst. split; [|split; [reflexivity|split; [vm_compute; reflexivity|]]].
  - intros k0 r. unfold rules_ab. destruct (term_eq_dec k0 a); [|intros []]. intros [<-|[]] v. reflexivity.
  - intros v. vm_compute. discriminate.
Qed.

(** Finding: a symbol used both as function and as predicate: the equation P(X) = a between
    terms turns the atom P(b) into the propositional symbol a. *)
Definition M4 : interp :=
  {| dom := unit; icst := fun _ => tt; ifun := fun _ _ => tt; ipred := fun _ _ => False; iprop := fun _ => True;
     iodd := fun _ => tt |}.
Definition rules_p (t : term) : list (term * term) := if term_eq_dec t (k 1) then [(P X2, a)] else [].
Lemma predicate_refuted :
  exists rules x t n s', (forall k r, In r (rules k) -> rule_true M4 r) /\ foa x = true /\
    build_rw sb0 comp0 rules n x empty_vst = WOk t s' /\ forall v, ~ (holds EQ M4 v t <-> holds EQ M4 v x).
Proof.
  exists rules_p, (P b), a, 10%nat, (clear_varstack (setvar 2000 b empty_vst)).
  split; [|split; [reflexivity|split; [vm_compute; reflexivity|]]].
  - intros k0 r. unfold rules_p. destruct (term_eq_dec k0 (k 1)); [|intros []]. intros [<-|[]] v. reflexivity.
  - intros v. vm_compute. tauto.
Qed.
