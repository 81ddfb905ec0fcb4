(** Concrete cases for C16, C18 and C44. *)
From Coq Require Import List ZArith Bool Lia.
From Verif Require Import Terms UnifyModel MatchModel MetaModel SubsumeSpec Semantics DeriveModel DeriveSpec
  CutModel CutSpec DupModel SimpModel SimpSpec PropDeriveEx.
Import ListNotations.
Open Scope Z_scope.

Definition X3 := TVar 3000.
Definition Y3 := TVar 3001.
Definition Z3 := TVar 3002.
Definition npl : Z := 4.
Definition nng : Z := 4 + neg_raw.

(** Units: ~P(a), Q(b). *)
Definition u0 : ustore := {| pos_units := [Q b]; neg_units := [P a] |}.
Lemma ex_cut :
  cut_and_subsume sb0 true u0 None [(npl, P a); (npl, R X3 X3); (nng, Q b)] =
    KOk [(0, P a); (npl, R X3 X3); (0, Q b)] 2 /\
  remove_cuts [(0, P a); (npl, R X3 X3); (0, Q b)] 2 = [(npl, R X3 X3)] /\
  cut_and_subsume sb0 true u0 None [(npl, P b); (nng, P a)] = KSubsumed.
Proof. vm_compute. auto. Qed.

(** Strong cut: R(X,b) | P(X) | ~Q(Y) with the units ~P(F(Z)) (unification is not allowed as
    two literals have variables) and Q(Z): only ~Q(Y) is cut; in P(X) | Q(a) the first
    literal is cut by unification. *)
Definition cands0 (neg : bool) (x : term) : list term :=
  if neg then [P (F (TVar 0))] else [Q (TVar 0)].
Lemma ex_strong :
  (exists s, strong_cut sb0 cands0 20 [(npl, P X3); (nng, Q Y3)] empty_vst = TOk [(npl, P X3); (0, Q Y3)] 1 s) /\
  (exists s, strong_cut sb0 cands0 20 [(npl, P X3); (npl, R a a)] empty_vst = TOk [(0, P X3); (npl, R a a)] 1 s).
Proof. split; eexists; vm_compute; reflexivity. Qed.
Lemma ex_cands_true (M : interp) : valid_in EQ M [(true, P (F (TVar 0)))] -> valid_in EQ M [(false, Q (TVar 0))] ->
  cands_true EQ M cands0.
Proof. intros A B [|] x y [<-|[]]; split; auto. Qed.
(** A model: P nowhere true, Q everywhere. *)
Definition M2 : interp :=
  {| dom := unit; icst := fun _ => tt; ifun := fun _ _ => tt;
     ipred := fun c _ => c <> CLong 1; iprop := fun _ => True; iodd := fun _ => tt |}.
Lemma ex_cands_model : cands_true EQ M2 cands0 /\ units_true EQ M2 u0.
Proof.
  split.
  - apply ex_cands_true; intros v; eexists; (split; [left; reflexivity|]); vm_compute; [tauto|]. discriminate.
  - intros c [<-|[<-|[]]] v; eexists; (split; [left; reflexivity|]); vm_compute; [discriminate|tauto].
Qed.

(** Double cut: P(X) | Q(X) | R(X,X) with the clause Q(X) | ~R(X,X) loses R(X,X). *)
Definition cdc := SRule [pl 801 (P X3); pl 802 (Q X3); pl 803 (R X3 X3)].
Definition dbl0 (m : Z) (x : term) : list (clit * clit) := [(pl 901 (Q X3), nl 902 (R X3 X3))].
Lemma ex_double : words_ok (cl_lits cdc) /\
  simplify_doublecut sb0 dbl0 cdc = SmClause [(4, P X3); (4, Q X3)].
Proof.
  split; [|vm_compute; reflexivity].
  intros x y Hx Hy. simpl in Hx, Hy.
  repeat (destruct Hx as [<-|Hx]; [repeat (destruct Hy as [<-|Hy]; [simpl; intros; first [reflexivity|lia]|]); destruct Hy|]); destruct Hx.
Qed.

(** Simplification: ~Q(a) | P(a) | R(X,a), where Q(a) is rewritten to Q(b) and ~P(a) is a
    unit.  Q(b) is a unit, so ~Q(a) goes as well. *)
Definition csi := SRule [nl 801 (Q a); pl 802 (P a); pl 803 (R X3 a)].
Definition rw0 (l : clit) : rwres := if lword l =? 801 then RwTo 901 (Q b) true else RwKeep.
Lemma ex_simplify : words_ok (cl_lits csi) /\ rw_keeps EQ M2 rw0 (cl_lits csi) /\ doubles_true EQ M2 dbl0 /\
  simplify sb0 u0 None rw0 dbl0 csi = SmClause [(4, R X3 a)].
Proof.
  split; [|split; [|split]].
  - intros x y Hx Hy. simpl in Hx, Hy.
    repeat (destruct Hx as [<-|Hx]; [repeat (destruct Hy as [<-|Hy]; [simpl; intros; first [reflexivity|lia]|]); destruct Hy|]); destruct Hx.
  - intros l w t ch Hl. unfold rw0. simpl in Hl.
    destruct Hl as [<-|[<-|[<-|[]]]]; simpl; intros E; try discriminate. injection E as <- <- <-. split.
    + intros v. vm_compute. tauto.
    + intros l' [<-|[<-|[<-|[]]]]; simpl; lia.
  - intros m x d [<-|[]] v. exists (false, Q X3). split; [vm_compute; auto|]. vm_compute. discriminate.
  - vm_compute. reflexivity.
Qed.

(** The pipeline on P(a) | R(X,Y) | R(X,Z): P(a) is cut, R(X,Z) is dropped. *)
Lemma ex_post : post sb0 u0 None true true true cands0 20 [(npl, P a); (npl, R X3 Y3); (npl, R X3 Z3)] empty_vst =
  PClause [(npl, R X3 Z3)].
Proof. vm_compute. reflexivity. Qed.
Lemma ex_post_proof : post sb0 u0 None true true true cands0 20 [(npl, P a); (nng, Q Y3)] empty_vst = PProof.
Proof. vm_compute. reflexivity. Qed.

(** Duplicates: a chain R(X,Y) | R(X,Z) | P(X) | R(X,a) is reduced to P(X) | R(X,a). *)
Lemma ex_dup : (forall x, In x [(npl, R X3 Y3); (npl, R X3 Z3); (npl, P X3); (npl, R X3 a)] -> foa (snd x) = true) /\
  find_duplicates sb0 [(npl, R X3 Y3); (npl, R X3 Z3); (npl, P X3); (npl, R X3 a)] = Some [(npl, P X3); (npl, R X3 a)].
Proof. split; [|vm_compute; reflexivity]. intros x H. simpl in H. repeat (destruct H as [<-|H]; [reflexivity|]). destruct H. Qed.
