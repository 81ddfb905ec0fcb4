(** C52: numeric instantiation and instance generation add consequences of the clause only. *)
From Coq Require Import List ZArith Bool Lia.
From Verif Require Import Terms UnifySpec SubsumeSpec Semantics UnifyModel UnifyProof MatchModel MetaModel BuildModel DeriveModel DeriveSpec DeriveProof RewriteSpec ShapeProof PropDerive
  InstModel InstProof SearchModel SearchProof PropDeriveEx PropRewriteEx PropSearchEx.
Import ListNotations.
Open Scope Z_scope.

Lemma stored_neat S c : stored_ok c -> sig_clause S (clause_of c) -> neat_clause S c.
Proof.
  intros H Hs l Hl. split; [apply (Hs (lit_of_clit l)); apply in_map; auto|]. split; [|apply (so_metas _ H); auto].
  apply below_real. intros j Hj. apply (so_vars _ H l j Hl Hj).
Qed.

(** C52.  The clause that numeric instantiation builds from a stored clause, whatever numbers
    are put for whatever one or two of its variables, is true in every model of that clause. *)
Theorem C52_numeric_instance : forall sb comp eqc S nb c bs d,
  comp_tame S comp -> stored_ok c -> sig_clause S (clause_of c) ->
  (forall v e, In (v, e) bs -> exists l, In l (cl_lits c) /\ In v (tvars (latom l))) ->
  stated (probe sb comp 3 nb c bs) = Some d ->
  follows eqc (agrees_with eqc comp) [clause_of c] d.
Proof.
  intros sb comp eqc S nb c bs d Ht Hc Hs Hb E M Hm Hv.
  eapply (probe_sound sb comp nb S eqc M); eauto using stored_neat.
  - intros v e H. destruct (Hb v e H) as (l&Hl&Hj). apply (so_vars _ Hc l v Hl Hj).
  - apply Hv. simpl. auto.
Qed.
Print Assumptions C52_numeric_instance.

(** It says no less than that instance either: it has exactly the models of the clause with the
    numbers put for the variables. *)
Definition put_numbers (bs : list (Z * cst)) : subst :=
  fun i => match find (fun p => fst p =? i) bs with Some (_, c) => TCst c | None => TVar i end.
Lemma bind_numbers_bank : forall bs s s', bind_numbers bs s = Some s' ->
  forall i, bank s' i = match find (fun p => fst p =? i) bs with Some (_, c) => Some (TCst c) | None => bank s i end.
Proof.
  induction bs as [|[v c] bs IH]; intros s s' E i; cbn [bind_numbers find fst] in *; [congruence|].
  destruct (_ || _); [discriminate|]. destruct (bank s v) eqn:Ev; [discriminate|]. destruct (number c); [|discriminate].
  rewrite (IH _ _ E i). cbn [bank setvar]. rewrite (Z.eqb_sym v i). destruct (Z.eqb_spec i v) as [->|]; [|reflexivity].
  destruct (find (fun p => fst p =? v) bs) as [[v' c']|] eqn:F; [|reflexivity].
  apply find_some in F as [F1 F2]. exfalso. simpl in F2. apply Z.eqb_eq in F2. subst v'.
  revert E F1. clear. generalize (TCst c) as t. intros t E F.
  assert (Hs : bank (setvar v t s) v = Some t) by (cbn [bank setvar]; rewrite Z.eqb_refl; reflexivity).
  revert Hs E. generalize (setvar v t s). clear s. intros s. revert s.
  induction bs as [|[u e] bs IH]; intros s Hs E; [contradiction|]. cbn [bind_numbers] in E.
  destruct (_ || _); [discriminate|]. destruct (bank s u) eqn:Eu; [discriminate|]. destruct (number e); [|discriminate].
  destruct F as [F|F]; [injection F as -> ->; congruence|].
  apply (IH F) with (s := setvar u (TCst e) s); auto. cbn [bank setvar].
  destruct (Z.eqb_spec v u) as [->|]; [congruence|auto].
Qed.
Lemma bind_numbers_vgood bs s : (forall v e, In (v, e) bs -> v < first_unreal) -> bind_numbers bs empty_vst = Some s ->
  vgood s /\ exhaustive (bank s) (put_numbers bs).
Proof.
  intros Hb E. pose proof (bind_numbers_bank _ _ _ E) as B.
  assert (C : forall i t, bank s i = Some t -> exists c, In (i, c) bs /\ t = TCst c /\ put_numbers bs i = TCst c).
  { intros i t H. rewrite B in H. unfold put_numbers. destruct (find _ bs) as [[v c]|] eqn:F; [|discriminate].
    apply find_some in F as [F1 F2]. simpl in F2. apply Z.eqb_eq in F2. subst. injection H as <-. eauto. }
  split; [split; [|split; [|split]]|split].
  - exists (fun _ => 0%nat). intros i t j H Hj. destruct (C _ _ H) as (c&_&->&_). destruct Hj.
  - intros i Hi. destruct (bank s i) eqn:H; auto. destruct (C _ _ H) as (c&Hc&_). specialize (Hb _ _ Hc). lia.
  - intros i t H. destruct (C _ _ H) as (c&_&->&_). reflexivity.
  - intros i t H j Hj. destruct (C _ _ H) as (c&_&->&_). destruct Hj.
  - intros i t H. destruct (C _ _ H) as (c&_&->&->). reflexivity.
  - intros i H. rewrite B in H. unfold put_numbers. destruct (find _ bs) as [[v c]|]; [discriminate|reflexivity].
Qed.
Theorem C52_numeric_exact : forall sb comp eqc S nb c bs d,
  stored_ok c -> sig_clause S (clause_of c) ->
  (forall v e, In (v, e) bs -> exists l, In l (cl_lits c) /\ In v (tvars (latom l))) ->
  stated (probe sb comp 3 nb c bs) = Some d ->
  forall M, agrees_with eqc comp M ->
  (valid_in eqc M d <-> valid_in eqc M (map (fun l => (fst l, app (put_numbers bs) (snd l))) (clause_of c))).
Proof.
  intros sb comp eqc S nb c bs d Hc Hs Hb E M Hm. unfold probe in E. destruct (_ || _); [discriminate|].
  destruct (bind_numbers bs empty_vst) as [s|] eqn:Eb; [|discriminate].
  destruct (bind_numbers_vgood bs s) as [G X]; auto.
  { intros v e H. destruct (Hb v e H) as (l&Hl&Hj). apply (so_vars _ Hc l v Hl Hj). }
  assert (E' : stated (instance sb comp 3 nb c s) = Some d) by (destruct (instance sb comp 3 nb c s); auto).
  apply finish_stated in E' as (r&s1&E1&->).
  rewrite (build_clause_equiv_all sb comp 3 nb eqc (cl_lits c) None s (put_numbers bs) r s1 G X) with (M := M); auto.
  - unfold kept. replace (filter _ (cl_lits c)) with (cl_lits c); [reflexivity|].
    symmetry. clear. induction (cl_lits c) as [|l ls IH]; [reflexivity|]. cbn [filter is_cut negb] in *. f_equal. exact IH.
  - intros l Hl. apply (sig_atom_foa S). apply (Hs (lit_of_clit l)). apply in_map. auto.
  - intros l Hl. intros j Hj. apply (so_vars _ Hc l j Hl Hj).
Qed.
Print Assumptions C52_numeric_exact.

(** The same for the clause built by instance generation: it follows from the one parent it
    is an instance of. *)
Theorem C52_generated_instance : forall sb comp eqc S nb nu x i y j (usex : bool) s s2 d c,
  comp_tame S comp -> stored_ok x -> sig_clause S (clause_of x) -> stored_ok y -> sig_clause S (clause_of y) ->
  (forall v, bank s v = None) -> instgen sb comp 3 nb nu x i y j usex s s2 d -> stated d = Some c ->
  follows eqc (agrees_with eqc comp) [clause_of (if usex then x else y)] c.
Proof.
  intros sb comp eqc S nb nu x i y j usex s s2 d c Ht Hx Sx Hy Sy Hb Hi E M Hm Hv.
  destruct (instgen_ready sb comp nb S nu x i y j usex s s2 d) as [R ->]; eauto using stored_neat.
  eapply (instance_sound sb comp nb S eqc M Hm); [exact R| |exact E|apply Hv; simpl; auto].
  destruct usex; eapply (neat_proper S); apply stored_neat; auto.
Qed.
Print Assumptions C52_generated_instance.

(** A clause with a comparison: ~ $less(X,8) | Q(X), the built-in deciding ground comparisons
    of small integers. *)
Definition LESS := CLong 30.
Definition num (z : Z) := CImm (8 * z + 3).
Definition comp1 (t : term) : option term :=
  match t with
  | TRec [TCst (CLong 30); TCst (CImm u); TCst (CImm w)] => Some (TCst (if u <? w then atrue else afalse))
  | _ => Some t
  end.
Definition sig2 : signature := {| fn := fun c => c = CLong 3; pr := fun c n => c = LESS /\ n = 2%nat \/ c = CLong 2 /\ n = 1%nat |}.
Lemma comp1_tame : comp_tame sig2 comp1.
Proof.
  intros fs t E.
  assert (H : t = TRec fs \/ ((t = TCst atrue \/ t = TCst afalse) /\ exists args, fs = TCst LESS :: args)).
  { unfold comp1 in E. repeat (match type of E with context [match ?x with _ => _ end] => destruct x; try (injection E as <-; left; reflexivity) end);
      injection E as <-; right; split; auto; eexists; reflexivity. }
  destruct H as [->|[H (args&->)]].
  - split; auto. split; auto. intros H. right. right. eauto.
  - split; [destruct H as [->| ->]; intros i []|]. split.
    + intros A. inversion A as [| |c a B]; subst. simpl in B. discriminate.
    + intros _. destruct H as [->| ->]; auto.
Qed.
Ltac sig_tac := cbn; repeat first [apply st_var|apply st_cst|apply st_rec|apply sa_rec|apply Forall_cons|apply Forall_nil|solve [simpl; auto]].
Definition nless (t u : term) : term := TRec [TCst LESS; t; u].
Definition kn := SRule [pl 901 (nless (TVar 0) (TCst (num 8))); nl 902 (Q (TVar 0))].
Example C52_nonvacuous : comp_tame sig2 comp1 /\ stored_ok kn /\ sig_clause sig2 (clause_of kn) /\
  (forall v e, In (v, e) [(0, num 8)] -> exists l, In l (cl_lits kn) /\ In v (tvars (latom l))) /\
  stated (probe sb0 comp1 3 20 kn [(0, num 8)]) = Some [(true, Q (TCst (num 8)))].
Proof.
  split; [exact comp1_tame|]. split; [stored_tac|]. split; [|split; [|reflexivity]].
  - intros l [<-|[<-|[]]]; sig_tac.
  - intros v e [E|[]]. injection E as <- <-. eexists. split; [left; reflexivity|]. simpl. auto.
Qed.

(** P(X,Y) | Q(X) and ~P(F(Z),W), resolved on the first literals. *)
Definition P2 (t u : term) : term := TRec [TCst (CLong 1); t; u].
Definition kx := SRule [pl 911 (P2 (TVar 1000) (TVar 1001)); pl 912 (Q (TVar 1000))].
Definition ky := SRule [nl 913 (P2 (F (TVar 2000)) (TVar 2001))].
Definition sig3 : signature := {| fn := fun c => c = CLong 3 \/ c = CLong 4; pr := fun c n => c = CLong 1 /\ n = 2%nat \/ c = CLong 2 /\ n = 1%nat |}.
Definition after_resolve : vst :=
  match resolve sb0 comp0 3 20 20 kx 0 ky 0 empty_vst with DClause _ s => vars s | _ => empty_vst end.
Definition after_unify : vst := setvar 1001 (TVar 2001) (setvar 1000 (F (TVar 2000)) empty_vst).
Lemma after_resolve_eq : after_resolve = setvar 2000 (TVar 4000) after_unify.
Proof. reflexivity. Qed.
Example C52_nonvacuous_generated : comp_tame sig3 comp0 /\ stored_ok kx /\ sig_clause sig3 (clause_of kx) /\
  stored_ok ky /\ sig_clause sig3 (clause_of ky) /\
  instgen sb0 comp0 3 20 20 kx 0 ky 0 true empty_vst after_resolve (instance sb0 comp0 3 20 kx after_resolve).
Proof.
  split; [apply comp0_tame1|]. split; [stored_tac|]. split; [|split; [stored_tac|split]].
  - intros l [<-|[<-|[]]]; sig_tac.
  - intros l [<-|[]]; sig_tac.
  - exists (pl 911 (P2 (TVar 1000) (TVar 1001))), (nl 913 (P2 (F (TVar 2000)) (TVar 2001))), after_unify.
    split; [reflexivity|]. split; [reflexivity|]. split; [reflexivity|]. split; [reflexivity|].
    split; [|split; [reflexivity|reflexivity]].
    intros v. rewrite after_resolve_eq. cbn [bank setvar]. destruct (Z.eqb_spec v 2000) as [->|]; [|left; reflexivity].
    right. right. split; [reflexivity|]. exists 0. split; [unfold varsinbank; lia|reflexivity].
Qed.

(** The generated clause need not be the instance the unifier asks for: variables renamed for
    the resolvent keep their numbers while the numbering starts again, so two different
    variables can get the same number.  Here the unifier asks for P(F(V),W) | Q(F(V)); what is
    built is P(F(V),V) | Q(F(V)). *)
Theorem C52_generated_most_general_refuted :
  exists x y nu nb s' d r, stored_ok x /\ stored_ok y /\
    unify_term nu (latom (nth 0 (cl_lits x) {| lmeta := 0; lword := 0; latom := TVar 0 |}))
                  (latom (nth 0 (cl_lits y) {| lmeta := 0; lword := 0; latom := TVar 0 |})) empty_vst = Done true s' /\
    resolve sb0 comp0 3 nb nu x 0 y 0 empty_vst = DClause d r /\
    stated (instance sb0 comp0 3 nb x s') = Some [(false, P2 (F (TVar 3000)) (TVar 3001)); (false, Q (F (TVar 3000)))] /\
    stated (instance sb0 comp0 3 nb x (vars r)) = Some [(false, P2 (F (TVar 3000)) (TVar 3000)); (false, Q (F (TVar 3000)))].
Proof.
  exists kx, ky, 20%nat, 20%nat. eexists _, _, _.
  split; [stored_tac|]. split; [stored_tac|]. split; [vm_compute; reflexivity|]. split; [vm_compute; reflexivity|].
  split; vm_compute; reflexivity.
Qed.
Print Assumptions C52_generated_most_general_refuted.
