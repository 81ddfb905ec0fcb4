(** C48: answers. *)
From Coq Require Import List ZArith Bool Lia Permutation.
From Verif Require Import Terms UnifyModel MatchModel MetaModel SubsumeSpec Semantics BuildModel DeriveModel DeriveSpec CutModel CutSpec
  DupModel SimpModel SimpSpec RewriteModel RewriteSpec SearchModel SearchProof VecModel AnsModel AnsSpec AnsSign AnsSound AnsReg
  PropDeriveEx PropCutEx PropRewriteEx PropSearchEx.
Import ListNotations.
Open Scope Z_scope.

(** C48.  The input contains questions: clauses with positive answer literals.  If a clause
    kept in some run is recognised as an answer, all its literals are positive answer
    literals, and in every model of the clauses which are not questions one of them, for
    each value of its variables, gives a correct answer to one of the questions. *)
Theorem C48_answer_is_correct : forall sb comp eqc ans S rv K0 K c n,
  comp_tame S comp -> (forall n, pr S eqc n -> n = 2%nat) -> (forall k, In k K0 -> sig_clause S (clause_of k)) ->
  ans <> eqc -> not_evaluated ans comp -> (forall k, In k K0 -> ans_positive ans (clause_of k)) ->
  reach sb comp eqc S rv K0 K -> In c K -> derived_is_answer ans c = Some n -> 0 < n ->
  forall M, agrees_with eqc comp M ->
  (forall k, In k K0 -> (forall l, In l (clause_of k) -> ~ is_ans ans l) -> valid_in eqc M (clause_of k)) ->
  pure_answer ans (clause_of c) /\
  forall v, exists l, In l (clause_of c) /\
    correct_answer eqc ans (map clause_of K0) M (map (eval M v) (args_of (snd l))).
Proof. exact answers_correct. Qed.
Print Assumptions C48_answer_is_correct.

(** The test for an answer is exact on clauses of first-order atoms. *)
Theorem C48_answer_test_is_exact : forall ans c,
  (forall l, In l (clause_of c) -> foa (snd l) = true /\ exists fs, snd l = TRec fs) ->
  exists n, derived_is_answer ans c = Some n /\
    (0 < n <-> (clause_of c <> [] /\ forall l, In l (clause_of c) -> is_ans ans l)) /\
    (n = -1 \/ n = Z.of_nat (length (clause_of c))).
Proof. exact answer_lit_total. Qed.
Print Assumptions C48_answer_test_is_exact.

(** P(a).  ~P(X) | $ans(X).  The answer learned: $ans(a). *)
Definition ANS : cst := CLong 50.
Definition Ans (t : term) : term := TRec [TCst ANS; t].
Definition ka1 := SFact 901 (P a).
Definition ka2 := SRule [nl 902 (P (TVar 0)); pl 903 (Ans (TVar 0))].
Definition Ka := [ka1; ka2].
Definition ka2' := SRule [nl 912 (P X1); pl 913 (Ans X1)].
Definition ka3 := SFact 921 (Ans a).
Definition sigA : signature :=
  {| fn := fun c => c = CLong 3 \/ c = CLong 4;
     pr := fun c n => (c = CLong 1 \/ c = CLong 2 \/ c = ANS) /\ n = 1%nat \/ c = EQ /\ n = 2%nat |}.
Definition sa5 : bst :=
  match resolve sb0 comp0 3 20 20 ka2' 0 ka1 0 empty_vst with DClause _ s => s | _ => start_build empty_vst end.
Lemma ra5_eq : resolve sb0 comp0 3 20 20 ka2' 0 ka1 0 empty_vst = DClause [(4, Ans a)] sa5.
Proof. reflexivity. Qed.
Lemma ka2'_parent : parent sb0 Ka ka2'.
Proof.
  split; [|split; [stored_tac|reflexivity]].
  exists ka2. split; [simpl; auto|]. exists (fun i => TVar (i + 1000)). split; [eauto|reflexivity].
Qed.
Lemma ka1_parent : parent sb0 Ka ka1.
Proof. split; [apply known_refl; simpl; auto|]. split; [stored_tac|reflexivity]. Qed.
Lemma learn_ka3 : step sb0 comp0 EQ sigA rv0 Ka (Learn ka3).
Proof.
  apply (st_keep sb0 comp0 EQ sigA rv0 Ka [(4, Ans a)] sa5 u_none None true true true (fun _ _ => []) 20 [(4, Ans a)] ka3).
  - rewrite <- ra5_eq. apply i_resolve; [exact ka2'_parent|exact ka1_parent|]. intros v. reflexivity.
  - intros c [].
  - intros c [].
  - intros n x y [].
  - vm_compute. reflexivity.
  - split; [|stored_tac]. apply variant_refl.
Qed.
Definition Ma : interp :=
  {| dom := Z; icst := fun c => match c with CLong o => o | _ => 0 end; ifun := fun _ _ => 0; ipred := fun c ds => c = CLong 1 /\ ds = [eval {|
       dom := Z; icst := fun c => match c with CLong o => o | _ => 0 end; ifun := fun _ _ => 0; ipred := fun _ _ => True; iprop := fun _ => True; iodd := fun _ => 0 |} (fun _ => 0) a];
     iprop := fun _ => True; iodd := fun _ => 0 |}.
(** The hypotheses are met, and the models in question exist. *)
Example C48_nonvacuous :
  comp_tame sigA comp0 /\ (forall n, pr sigA EQ n -> n = 2%nat) /\ (forall k, In k Ka -> sig_clause sigA (clause_of k)) /\
  ANS <> EQ /\ not_evaluated ANS comp0 /\ (forall k, In k Ka -> ans_positive ANS (clause_of k)) /\
  reach sb0 comp0 EQ sigA rv0 Ka (ka3 :: Ka) /\ derived_is_answer ANS ka3 = Some 1 /\
  agrees_with EQ comp0 Ma /\
  (forall k, In k Ka -> (forall l, In l (clause_of k) -> ~ is_ans ANS l) -> valid_in EQ Ma (clause_of k)).
Proof.
  split; [apply comp0_tame1|]. split; [simpl; intros n [[[H|[H|H]] _]|[_ H]]; auto; discriminate|]. split.
  { intros k [<-|[<-|[]]] l Hl; simpl in Hl; repeat (destruct Hl as [<-|Hl]; [
      apply sa_rec; [simpl; auto|repeat constructor; simpl; auto]|]); destruct Hl. }
  split; [discriminate|]. split; [intros fs t E _; injection E as <-; reflexivity|]. split.
  { intros k [<-|[<-|[]]] l Hl; simpl in Hl; repeat (destruct Hl as [<-|Hl]; [first [reflexivity|discriminate]|]); destruct Hl. }
  split; [eapply r_learn; [apply r_start|exact learn_ka3]|]. split; [reflexivity|]. split.
  { intros fs t E v. injection E as <-. split; [reflexivity|tauto]. }
  intros k [<-|[<-|[]]] Hn.
  - intros v. eexists. split; [left; reflexivity|]. unfold lit_holds. cbn. split; reflexivity.
  - exfalso. apply (Hn (false, Ans (TVar 0))); [simpl; auto|reflexivity].
Qed.

(** Registration, from an empty list on, while histories are kept and every clause is
    recorded with a clause: the list holds no answer twice, only answers registered, and
    for each one registered an equal one. *)
Theorem C48_answers_listed_once_partial : forall sb mem h v, registering sb mem h v -> Z.of_nat (length h) < 2 ^ 28 ->
  exists L, listed v L /\
    (forall i j x y, nth_error L i = Some x -> nth_error L j = Some y -> i <> j -> ~ same_answer (mem x) (mem y)) /\
    (forall x, In x L -> In x h) /\ (forall w, In w h -> exists x, In x L /\ same_answer (mem x) (mem w)).
Proof. exact registered_once. Qed.
Print Assumptions C48_answers_listed_once_partial.

(** One more: the same list, or one answer more; the number returned is the number listed.
    No block is used after it was moved. *)
Theorem C48_register_partial : forall sb mem h v L w hist ok1 ok2 junk,
  registering sb mem h v -> Z.of_nat (length h) < 2 ^ 28 -> listed v L ->
  w <> 0 -> ~ In 0 L -> (forall c, sb c = true) ->
  exists r a, register sb mem true hist ok1 ok2 junk (Some v) w = RRet r a /\
    match a with
    | None => r = -1 /\ ok2 = false
    | Some v' =>
        ((exists x, In x L /\ same_answer (mem x) (mem w)) /\ v' = v /\ r = Z.of_nat (length L)) \/
        ((forall x, In x L -> ~ same_answer (mem x) (mem w)) /\
           (hist = None /\ v' = v /\ r = -1 \/ hist <> None /\ listed v' (L ++ [w]) /\ r = Z.of_nat (length (L ++ [w]))))
    end.
Proof. exact register_once. Qed.
Print Assumptions C48_register_partial.

(** The search goes on until as many answers are listed as were asked for; where no answers
    are kept, the first proof ends it. *)
Theorem C48_enough : forall v L required pf, listed v L ->
  enough_answers true required (Some v) pf =
    Some (if required <=? Z.of_nat (length L) then (true, pf) else (false, false)) /\
  have_answers true (Some v) pf = Some (pf || (1 <=? Z.of_nat (length L))) /\
  (forall a, enough_answers false required a pf = Some (true, pf) /\ have_answers false a pf = Some pf) /\
  enough_answers true required None pf = Some (true, pf) /\ have_answers true None pf = Some pf.
Proof. exact enough_spec. Qed.
Print Assumptions C48_enough.

(** A proof without an answer is registered as NULL: with one answer or proof listed before
    it, or with another one coming after it, the program reads through NULL. *)
Theorem C48_refuted_answerless_proof : forall sb mem h v L w hist ok1 ok2 junk,
  registering sb mem h v -> Z.of_nat (length h) < 2 ^ 28 -> listed v L -> L <> [] -> w = 0 \/ nth_error L 0 = Some 0 ->
  register sb mem true hist ok1 ok2 junk (Some v) w = RCrash.
Proof. exact register_crash. Qed.
Print Assumptions C48_refuted_answerless_proof.

Definition b2 : term := TCst (CLong 7).
Definition memx (w : Z) : scl :=
  if w =? 1 then SRule [pl 931 (Ans a); pl 932 (Ans b2)]
  else if w =? 2 then SRule [pl 933 (Ans b2); pl 934 (Ans a)] else ka3.
Definition jx : nat -> Z := fun n => Z.of_nat n.
Definition vx (r : rres) : vec := match r with RRet _ (Some v) => v | _ => [] end.
Notation reg_ x v := (register (fun _ => true) memx true (Some 77) true true jx (Some v) x).
Definition v_1 := vx (reg_ 1 (no_answers jx)).
Definition v_2 := vx (reg_ 3 v_1).
Definition v_2' := vx (reg_ 2 v_1).
Definition v_3 := vx (reg_ 1 v_2).
Lemma E_1 : reg_ 1 (no_answers jx) = RRet 1 (Some v_1). Proof. vm_compute. reflexivity. Qed.
Lemma E_2 : reg_ 3 v_1 = RRet 2 (Some v_2). Proof. vm_compute. reflexivity. Qed.
Lemma E_2' : reg_ 2 v_1 = RRet 2 (Some v_2'). Proof. vm_compute. reflexivity. Qed.
Lemma E_3 : reg_ 1 v_2 = RRet 2 (Some v_3). Proof. vm_compute. reflexivity. Qed.
Lemma R_1 : registering (fun _ => true) memx [1] v_1.
Proof. exact (rg_add _ _ [] (no_answers jx) 1 (Some 77) true true jx 1 v_1 (rg_start _ _ jx) E_1). Qed.
Lemma R_2 : registering (fun _ => true) memx [3; 1] v_2.
Proof. exact (rg_add _ _ [1] v_1 3 (Some 77) true true jx 2 v_2 R_1 E_2). Qed.
Lemma R_2' : registering (fun _ => true) memx [2; 1] v_2'.
Proof. exact (rg_add _ _ [1] v_1 2 (Some 77) true true jx 2 v_2' R_1 E_2'). Qed.
Lemma R_3 : registering (fun _ => true) memx [1; 3; 1] v_3.
Proof. exact (rg_add _ _ [3; 1] v_2 1 (Some 77) true true jx 2 v_3 R_2 E_3). Qed.
Lemma two_listed v x y : rd v 1 = Some 6 -> rd v 2 = Some x -> rd v 4 = Some y -> listed v [x; y].
Proof.
  intros A B C. split; [exact A|]. intros [|[|i]] z H; [injection H as <-; exact B|injection H as <-; exact C|].
  destruct i; discriminate.
Qed.
Lemma L_3 : listed v_3 [1; 3].
Proof. apply two_listed; vm_compute; reflexivity. Qed.
Lemma L_2' : listed v_2' [1; 2].
Proof. apply two_listed; vm_compute; reflexivity. Qed.
(** An answer registered again is not listed again. *)
Example C48_registers : registering (fun _ => true) memx [1; 3; 1] v_3 /\ listed v_3 [1; 3] /\ reg_ 1 v_2 = RRet 2 (Some v_3).
Proof. exact (conj R_3 (conj L_3 E_3)). Qed.

(** Disjunctive answers that differ in the order of their parts are both listed. *)
Theorem C48_refuted_order : exists mem h v L x y, registering (fun _ => true) mem h v /\ listed v L /\ NoDup L /\
  In x L /\ In y L /\ x <> y /\ Permutation (clause_of (mem x)) (clause_of (mem y)).
Proof.
  exists memx, [2; 1], v_2', [1; 2], 1, 2. split; [exact R_2'|]. split; [exact L_2'|].
  split; [repeat constructor; simpl; intuition lia|]. simpl. repeat split; auto; [lia|]. apply perm_swap.
Qed.
Print Assumptions C48_refuted_order.
