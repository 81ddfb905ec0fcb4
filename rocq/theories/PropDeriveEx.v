(** Concrete clauses for the non-vacuity examples and refutations of C12-C17 and C20. *)
From Coq Require Import List ZArith Bool Lia.
From Verif Require Import Terms UnifySpec TermsProof UnifyModel UnifyProof MatchModel MetaModel SubsumeSpec Semantics SemProof
  RenameSpec RenameProof BuildModel BuildProof DeriveModel DeriveSpec DeriveProof TautProof TrailProof.
Import ListNotations.
Open Scope Z_scope.

Lemma vgood_clear s : (forall i, bank s i = None) -> vgood s.
Proof.
  intros H. split; [|split; [|split]].
  - exists (fun _ => 0%nat). intros i t j E. rewrite H in E. discriminate.
  - intros; apply H.
  - intros i t E. rewrite H in E. discriminate.
  - intros i t E. rewrite H in E. discriminate.
Qed.

(** Symbols. *)
Definition EQ : cst := CLong 99.
Definition k (n : Z) : term := TCst (CLong n).
Definition P (t : term) := TRec [k 1; t].
Definition Q (t : term) := TRec [k 2; t].
Definition R (t u : term) := TRec [k 3; t; u].
Definition F (t : term) := TRec [k 4; t].
Definition Eqn (t u : term) := TRec [TCst EQ; t; u].
Definition a := k 10.
Definition b := k 11.
Definition pl (w : Z) (t : term) : clit := {| lmeta := 4; lword := w; latom := t |}.
Definition nl (w : Z) (t : term) : clit := {| lmeta := 4 + neg_raw; lword := w; latom := t |}.
Definition sb0 : stray_env := fun _ => false.
Definition comp0 (t : term) : option term := Some t.
Definition X1 := TVar 1000.   (* given clause, bank 1 *)
Definition Y1 := TVar 1001.
Definition X2 := TVar 2000.   (* active clause, bank 2 *)

Lemma comp0_agrees M : agrees_with EQ comp0 M.
Proof. intros fs t E v. injection E as <-. split; tauto. Qed.

Ltac proper_tac := split; [intros ? H; simpl in H; repeat (destruct H as [<-|H]; [reflexivity|]); destruct H
                          |intros ? ? H; simpl in H; repeat (destruct H as [<-|H]; [simpl; intuition lia|]); destruct H].
Ltac coherent_tac := intros ? ? H1 H2; simpl in H1, H2;
  repeat (destruct H1 as [<-|H1]; [repeat (destruct H2 as [<-|H2]; [simpl; intros; first [reflexivity|lia]|]); destruct H2|]); destruct H1.

(** P(X) | Q(X) and ~P(F(Y)) | R(Y,Y): resolvent Q(F(Z)) | R(Z,Z), bank 3. *)
Definition cx := SRule [pl 801 (P X1); pl 802 (Q X1)].
Definition cy := SRule [nl 803 (P (F X2)); pl 804 (R X2 X2)].
Lemma ex_resolve : proper cx /\ proper cy /\ coherent cx /\ coherent cy /\
  stated (resolve sb0 comp0 3 20 20 cx 0 cy 0 empty_vst) =
    Some [(false, Q (F (TVar 3000))); (false, R (TVar 3000) (TVar 3000))].
Proof. split; [proper_tac|]. split; [proper_tac|]. split; [coherent_tac|]. split; [coherent_tac|]. vm_compute. reflexivity. Qed.

(** P(X) and ~P(a) *)
Lemma ex_resolve_proof :
  resolve sb0 comp0 3 20 20 (SFact 801 (P X1)) 0 (SRule [nl 803 (P a)]) 0 empty_vst = DProof.
Proof. vm_compute. reflexivity. Qed.

(** A one-element interpretation in which every atom has the given truth value. *)
Definition M1 (tv : Prop) : interp :=
  {| dom := unit; icst := fun _ => tt; ifun := fun _ _ => tt; ipred := fun _ _ => tv; iprop := fun _ => tv;
     iodd := fun _ => tt |}.

(** Finding: p | ~p sharing one atom record, resolved with ~p, gives a "proof". *)
Lemma shared_word_refuted :
  exists x y, proper x /\ proper y /\ coherent y /\
    valid_in EQ (M1 False) (clause_of x) /\ valid_in EQ (M1 False) (clause_of y) /\
    resolve sb0 comp0 3 20 20 x 0 y 0 empty_vst = DProof.
Proof.
  exists (SRule [pl 801 (P a); nl 801 (P a)]), (SRule [nl 803 (P a)]).
  split; [proper_tac|]. split; [proper_tac|]. split; [coherent_tac|].
  split; [intros v; exists (true, P a); split; [vm_compute; auto|vm_compute; auto]|].
  split; [intros v; exists (true, P a); split; [vm_compute; auto|vm_compute; auto]|].
  vm_compute. reflexivity.
Qed.

(** P(X) | P(F(Y)) | Q(X): factor P(F(Z)) | Q(F(Z)) *)
Definition cf := SRule [pl 801 (P X1); pl 802 (P (F Y1)); nl 803 (Q X1)].
Lemma ex_factor : proper cf /\ coherent cf /\
  (forall xl yl, nth_error (cl_lits cf) 0 = Some xl -> nth_error (cl_lits cf) 1 = Some yl -> lword xl <> lword yl) /\
  stated (factor sb0 comp0 3 20 20 cf 0 1 empty_vst) = Some [(false, P (F (TVar 3000))); (true, Q (F (TVar 3000)))].
Proof.
  split; [proper_tac|]. split; [coherent_tac|].
  split; [|vm_compute; reflexivity]. simpl. intros xl yl E1 E2. injection E1 as <-. injection E2 as <-. simpl. lia.
Qed.

Lemma factor_shared_refuted :
  exists c, proper c /\ coherent c /\ valid_in EQ (M1 True) (clause_of c) /\
    stated (factor sb0 comp0 3 20 20 c 0 1 empty_vst) = Some [].
Proof.
  exists (SRule [pl 801 (P X1); pl 801 (P X1)]).
  split; [proper_tac|]. split; [coherent_tac|]. split; [|vm_compute; reflexivity].
  intros v. exists (false, P X1). split; vm_compute; auto.
Qed.

(** F(X)=X | ~Q(X) into R(b, F(a)): R(b, a) | ~Q(a) *)
Definition ce := SRule [pl 801 (Eqn (F X1) X1); nl 802 (Q X1)].
Definition ct := SRule [pl 803 (R b (F a)); pl 804 (P X2)].
Lemma ex_para : proper ce /\ proper ct /\ coherent ce /\ binary_eq EQ ce /\
  exists k, stated (paramodulate sb0 comp0 3 20 EQ false 20 ce 0 true true ct k empty_vst) =
    Some [(true, Q a); (false, R b a); (false, P (TVar 3000))].
Proof.
  split; [proper_tac|]. split; [proper_tac|]. split; [coherent_tac|]. split.
  - intros l args Hl. simpl in Hl. destruct Hl as [<-|[<-|[]]]; simpl; intros E; try discriminate.
    injection E as <-. reflexivity.
  - exists 2%nat. vm_compute. reflexivity.
Qed.

(** ~ F(X)=F(a) | Q(X): Q(a) *)
Definition cr := SRule [nl 801 (Eqn (F X1) (F a)); pl 802 (Q X1)].
Lemma ex_refl : proper cr /\ coherent cr /\ binary_eq EQ cr /\
  stated (reflexive sb0 comp0 3 20 EQ 20 cr 0 empty_vst) = Some [(false, Q a)].
Proof.
  split; [proper_tac|]. split; [coherent_tac|]. split; [|vm_compute; reflexivity].
  intros l args Hl. simpl in Hl. destruct Hl as [<-|[<-|[]]]; simpl; intros E; try discriminate.
  injection E as <-. reflexivity.
Qed.

(** Finding: =(a,a,b) is treated as a=a. *)
Lemma ternary_refuted :
  exists c, proper c /\ coherent c /\ valid_in EQ (M1 False) (clause_of c) /\
    reflexive sb0 comp0 3 20 EQ 20 c 0 empty_vst = DProof.
Proof.
  exists (SRule [nl 801 (TRec [TCst EQ; a; a; b])]).
  split; [proper_tac|]. split; [coherent_tac|]. split; [|vm_compute; reflexivity].
  intros v. exists (true, TRec [TCst EQ; a; a; b]). split; vm_compute; auto.
Qed.

(** Finding: the equality test is made on an atom that is no record. *)
Lemma prop_atom_stray :
  reflexive sb0 comp0 3 20 EQ 20 (SRule [nl 801 (TCst (CLong 50)); pl 802 (Q a)]) 0 empty_vst = DStray.
Proof. reflexivity. Qed.

(** Duplicate and constant literals. *)
Definition cd := SRule [pl 801 (P X1); pl 802 (Q a); pl 803 (P X1); pl 804 (TCst afalse); nl 805 (TCst atrue)].
Lemma ex_merge :
  (forall l, In l (cl_lits cd) -> foa (latom l) = true) /\ (forall l, In l (cl_lits cd) -> real (latom l)) /\
  exists s, result_aux sb0 comp0 3 20 0 (cl_lits cd) None None [] (start_build empty_vst) =
    AOk [(4, P (TVar 3000)); (4, Q a)] s.
Proof.
  split; [intros ? H; simpl in H; repeat (destruct H as [<-|H]; [reflexivity|]); destruct H|].
  split; [intros ? H; simpl in H; repeat (destruct H as [<-|H]; [intros i; simpl; unfold first_unreal; intuition lia|]); destruct H|].
  eexists. vm_compute. reflexivity.
Qed.
Definition cdt := SRule [pl 801 (P X1); pl 802 (Q a); nl 803 (P X1)].
Lemma ex_taut : tautology_cl sb0 cdt = Some true /\
  exists s, result_aux sb0 comp0 3 20 0 (cl_lits cdt) None None [] (start_build empty_vst) = ADrop Tautology s.
Proof. split; [reflexivity|]. eexists. vm_compute. reflexivity. Qed.

(** C20: f(X,Y), g(Y) with {Y := f(Z,Z)}; two variables are renamed. *)
Definition sR : vst := setvar 1001 (R (TVar 1002) (TVar 1002)) empty_vst.
Lemma ex_session :
  acyclic (bank sR) /\ (forall i, first_unreal <= i -> bank sR i = None) /\
  (forall i t, bank sR i = Some t -> real t) /\ (forall x, In x [R X1 Y1; Q Y1] -> real x) /\
  exists s', build_all comp0 3 20 [R X1 Y1; Q Y1] (start_build sR) =
    BsOk [R (TVar 3000) (R (TVar 3001) (TVar 3001)); Q (R (TVar 3001) (TVar 3001))] s'.
Proof.
  split; [|split; [|split; [|split]]].
  - exists (fun i => if i =? 1001 then 1%nat else 0%nat). intros i t j. unfold sR. simpl.
    destruct (Z.eqb_spec i 1001) as [->|]; [|discriminate]. intros E; injection E as <-. simpl.
    intros [<-|[<-|[]]]; simpl; lia.
  - intros i Hi. unfold first_unreal in Hi. unfold sR. simpl. destruct (Z.eqb_spec i 1001); [lia|reflexivity].
  - intros i t. unfold sR. simpl. destruct (Z.eqb_spec i 1001); [|discriminate].
    intros E; injection E as <-. intros j. unfold first_unreal. simpl. intuition lia.
  - intros x [<-|[<-|[]]] j; unfold first_unreal; simpl; intuition lia.
  - eexists. vm_compute. reflexivity.
Qed.
