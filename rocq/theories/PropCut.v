(** C16, C18, C44: cut-offs, duplicate removal and simplification. *)
From Coq Require Import List ZArith Bool Lia.
From Verif Require Import Terms UnifySpec TermsProof UnifyModel MatchModel MetaModel SubsumeSpec Semantics SemProof
  BuildModel DeriveModel DeriveSpec CutModel CutSpec CutProof DupModel DupProof SimpModel SimpSpec SimpProof
  PropDeriveEx PropCutEx.
Import ListNotations.
Open Scope Z_scope.

(** C16.  Literals cut with unit clauses: the literals that remain form a clause equivalent
    to the derived one in every model of the units ... *)
Lemma unit_cut sb fwd loc kb r r' n eqc M : with_metas r -> units_true eqc M loc -> kb_true eqc M kb ->
  cut_and_subsume sb fwd loc kb r = KOk r' n ->
  (valid_in eqc M (derived (remove_cuts r' n)) <-> valid_in eqc M (derived r)) /\
  (forall x, In x (remove_cuts r' n) -> In x r) /\ (length (remove_cuts r' n) + n = length r)%nat.
Proof.
  intros Hm Hl Hk E.
  assert (H : forall v, (clause_holds eqc M v (unmarked r') <-> clause_holds eqc M v (derived r)) /\
        length r' = length r /\ length (filter is_kept r') = (length r - n)%nat /\ (n <= length r)%nat /\
        (forall x, In x r' -> fst x <> 0 -> In x r) /\ map snd r' = map snd r).
  { intros v. pose proof (cut_and_subsume_ok sb eqc M fwd loc kb r v (units_hold_of eqc M loc Hl) (kb_hold_of eqc M kb Hk)) as H.
    rewrite E in H. apply H. auto. }
  destruct (H (fun _ => icst M atrue)) as (_&L1&L2&L3&I1&_).
  assert (Er : remove_cuts r' n = filter is_kept r') by (apply remove_cuts_ok; lia).
  rewrite Er. split; [|split].
  - split; intros Hv v; specialize (Hv v); apply H; auto.
  - intros x Hx. pose proof (filter_metas r' x Hx). apply filter_In in Hx as [Hx _]. auto.
  - lia.
Qed.
Theorem C16_unit_cut_off_sound : forall sb fwd loc kb r r' n eqc M,
  with_metas r -> units_true eqc M loc -> kb_true eqc M kb ->
  cut_and_subsume sb fwd loc kb r = KOk r' n ->
  (valid_in eqc M (derived (remove_cuts r' n)) <-> valid_in eqc M (derived r)) /\
  (forall x, In x (remove_cuts r' n) -> In x r) /\ (length (remove_cuts r' n) + n = length r)%nat.
Proof. exact unit_cut. Qed.
Print Assumptions C16_unit_cut_off_sound.

(** ... and a clause dropped as subsumed by a unit follows from the units. *)
Lemma unit_subsumed sb fwd loc kb r eqc M : units_true eqc M loc -> kb_true eqc M kb ->
  cut_and_subsume sb fwd loc kb r = KSubsumed -> valid_in eqc M (derived r).
Proof.
  intros Hl Hk E v. pose proof (cut_and_subsume_ok sb eqc M fwd loc kb r v (units_hold_of eqc M loc Hl) (kb_hold_of eqc M kb Hk)) as H.
  rewrite E in H. exact H.
Qed.
Theorem C16_subsumed_by_unit_follows : forall sb fwd loc kb r eqc M,
  units_true eqc M loc -> kb_true eqc M kb ->
  cut_and_subsume sb fwd loc kb r = KSubsumed -> valid_in eqc M (derived r).
Proof. exact unit_subsumed. Qed.
Print Assumptions C16_subsumed_by_unit_follows.
Example C16_nonvacuous_unit :
  cut_and_subsume sb0 true u0 None [(npl, P a); (npl, R X3 X3); (nng, Q b)] =
    KOk [(0, P a); (npl, R X3 X3); (0, Q b)] 2 /\
  remove_cuts [(0, P a); (npl, R X3 X3); (0, Q b)] 2 = [(npl, R X3 X3)] /\
  cut_and_subsume sb0 true u0 None [(npl, P b); (nng, P a)] = KSubsumed.
Proof. exact ex_cut. Qed.

(** Cutting by matching or unification with units: what remains is true in every model of
    the units and the clause, whatever bindings are left over from the inference. *)
Lemma strong_sound sb cands nu r s r' n s' eqc M :
  acyclic (bank s) -> (forall i t, bank s i = Some t -> fot t = true) -> (forall x, In x r -> foa (snd x) = true) ->
  cands_true eqc M cands -> strong_cut sb cands nu r s = TOk r' n s' ->
  valid_in eqc M (unmarked r) -> valid_in eqc M (unmarked r').
Proof.
  intros Ha Hb Hf Hc E.
  pose proof (strong_cut_ok sb eqc M cands (fun n a y Hy => Hc _ _ _ Hy) nu r s (conj Ha Hb) Hf) as H.
  rewrite E in H. exact H.
Qed.
Theorem C16_strong_cut_off_sound : forall sb cands nu r s r' n s' eqc M,
  acyclic (bank s) -> (forall i t, bank s i = Some t -> fot t = true) -> (forall x, In x r -> foa (snd x) = true) ->
  cands_true eqc M cands -> strong_cut sb cands nu r s = TOk r' n s' ->
  valid_in eqc M (unmarked r) -> valid_in eqc M (unmarked r').
Proof. exact strong_sound. Qed.
Print Assumptions C16_strong_cut_off_sound.
Example C16_nonvacuous_strong :
  (exists s, strong_cut sb0 cands0 20 [(npl, P X3); (nng, Q Y3)] empty_vst = TOk [(npl, P X3); (0, Q Y3)] 1 s) /\
  (exists s, strong_cut sb0 cands0 20 [(npl, P X3); (npl, R a a)] empty_vst = TOk [(0, P X3); (npl, R a a)] 1 s) /\
  cands_true EQ M2 cands0 /\ units_true EQ M2 u0.
Proof. split; [apply ex_strong|]. split; [apply ex_strong|exact ex_cands_model]. Qed.

(** Cutting with a two-literal clause gives an equivalent clause, in every model of the
    two-literal clauses. *)
Lemma double_sound sb dbl c eqc M : words_ok (cl_lits c) -> doubles_true eqc M dbl ->
  match simplify_doublecut sb dbl c with
  | SmNull | SmIllegal => False
  | SmProof => ~ valid_in eqc M (clause_of c)
  | SmClause r => r <> [] /\ (valid_in eqc M (derived r) <-> valid_in eqc M (clause_of c))
  | SmSame | SmStray => True
  end.
Proof.
  intros Hw Hd. pose proof (simplify_doublecut_ok sb eqc M (fun _ => RwKeep) dbl Hd c) as H.
  destruct (simplify_doublecut sb dbl c) as [| | | |r|]; auto.
  - apply (H (fun _ => icst M atrue) Hw).
  - apply (H (fun _ => icst M atrue) Hw).
  - intros Hv. apply (H (fun _ => icst M atrue) Hw). apply Hv.
  - split; [apply (H (fun _ => icst M atrue) Hw)|]. split; intros Hv v; apply (H v Hw); apply Hv.
Qed.
Theorem C16_double_cut_off_sound : forall sb dbl c eqc M,
  words_ok (cl_lits c) -> doubles_true eqc M dbl ->
  match simplify_doublecut sb dbl c with
  | SmNull | SmIllegal => False
  | SmProof => ~ valid_in eqc M (clause_of c)
  | SmClause r => r <> [] /\ (valid_in eqc M (derived r) <-> valid_in eqc M (clause_of c))
  | SmSame | SmStray => True
  end.
Proof. exact double_sound. Qed.
Print Assumptions C16_double_cut_off_sound.
Example C16_nonvacuous_double : words_ok (cl_lits cdc) /\
  simplify_doublecut sb0 dbl0 cdc = SmClause [(4, P X3); (4, Q X3)].
Proof. exact ex_double. Qed.

(** The whole treatment of a derived clause: cut-offs, removal of the cut literals, removal of
    duplicates.  A proof is reported only if the derived clause contradicts the units; a
    clause kept is equivalent to the derived one. *)
Lemma processing sb loc kb fwd strong dups cands nu r s eqc M :
  units_true eqc M loc -> kb_true eqc M kb -> cands_true eqc M cands ->
  acyclic (bank s) -> (forall i t, bank s i = Some t -> fot t = true) ->
  (forall x, In x r -> foa (snd x) = true) -> with_metas r ->
  match post sb loc kb fwd strong dups cands nu r s with
  | PProof => ~ valid_in eqc M (derived r)
  | PSubsumed => valid_in eqc M (derived r)
  | PClause r' => r' <> [] /\ (forall x, In x r' -> In x r) /\ (valid_in eqc M (derived r) <-> valid_in eqc M (derived r'))
  | PStray | PFuel => True
  end.
Proof.
  intros A B C D E F G. pose proof (post_ok sb eqc M loc kb A B fwd strong dups cands nu r s C (conj D E) F G) as H.
  destruct (post sb loc kb fwd strong dups cands nu r s); auto.
  intros Hv. destruct (H Hv (fun _ => icst M atrue)) as (l&[]&_).
Qed.
Theorem C16_processing_of_derived_clause_sound : forall sb loc kb fwd strong dups cands nu r s eqc M,
  units_true eqc M loc -> kb_true eqc M kb -> cands_true eqc M cands ->
  acyclic (bank s) -> (forall i t, bank s i = Some t -> fot t = true) ->
  (forall x, In x r -> foa (snd x) = true) -> with_metas r ->
  match post sb loc kb fwd strong dups cands nu r s with
  | PProof => ~ valid_in eqc M (derived r)
  | PSubsumed => valid_in eqc M (derived r)
  | PClause r' => r' <> [] /\ (forall x, In x r' -> In x r) /\ (valid_in eqc M (derived r) <-> valid_in eqc M (derived r'))
  | PStray | PFuel => True
  end.
Proof. exact processing. Qed.
Print Assumptions C16_processing_of_derived_clause_sound.
Example C16_nonvacuous_processing :
  post sb0 u0 None true true true cands0 20 [(npl, P a); (npl, R X3 Y3); (npl, R X3 Z3)] empty_vst = PClause [(npl, R X3 Z3)] /\
  post sb0 u0 None true true true cands0 20 [(npl, P a); (nng, Q Y3)] empty_vst = PProof.
Proof. split; [exact ex_post|exact ex_post_proof]. Qed.

(** C18.  Duplicate removal gives a sub-clause with the same models, never the empty clause. *)
Theorem C18_duplicate_removal_keeps_models : forall sb r r',
  (forall x, In x r -> foa (snd x) = true) -> find_duplicates sb r = Some r' ->
  (forall x, In x r' -> In x r) /\ (r <> [] -> r' <> []) /\
  forall eqc M, valid_in eqc M (derived r) <-> valid_in eqc M (derived r').
Proof. exact find_duplicates_ok. Qed.
Print Assumptions C18_duplicate_removal_keeps_models.
Example C18_nonvacuous :
  (forall x, In x [(npl, R X3 Y3); (npl, R X3 Z3); (npl, P X3); (npl, R X3 a)] -> foa (snd x) = true) /\
  find_duplicates sb0 [(npl, R X3 Y3); (npl, R X3 Z3); (npl, P X3); (npl, R X3 a)] = Some [(npl, P X3); (npl, R X3 a)].
Proof. exact ex_dup. Qed.

(** C44.  Simplifying a selected clause: a clause dropped is true in every model of the
    clauses used, a proof is reported only if the clause is false in them, and the clause
    put in its place is equivalent. *)
Lemma simp_sound sb loc kb rw dbl c eqc M :
  units_true eqc M loc -> kb_true eqc M kb -> doubles_true eqc M dbl ->
  words_ok (cl_lits c) -> rw_keeps eqc M rw (cl_lits c) ->
  match simplify sb loc kb rw dbl c with
  | SmNull => valid_in eqc M (clause_of c)
  | SmProof => ~ valid_in eqc M (clause_of c)
  | SmClause r => r <> [] /\ (valid_in eqc M (derived r) <-> valid_in eqc M (clause_of c))
  | SmSame | SmIllegal | SmStray => True
  end.
Proof.
  intros A B C D E. pose proof (fun v => simplify_ok sb eqc M loc kb A B rw dbl C c v D E) as H.
  destruct (simplify sb loc kb rw dbl c) as [| | | |r|]; auto.
  - intros Hv. apply (H (fun _ => icst M atrue)). apply Hv.
  - split; [apply (H (fun _ => icst M atrue))|]. split; intros Hv v; apply (H v); apply Hv.
Qed.
Theorem C44_simplification_sound : forall sb loc kb rw dbl c eqc M,
  units_true eqc M loc -> kb_true eqc M kb -> doubles_true eqc M dbl ->
  words_ok (cl_lits c) -> rw_keeps eqc M rw (cl_lits c) ->
  match simplify sb loc kb rw dbl c with
  | SmNull => valid_in eqc M (clause_of c)
  | SmProof => ~ valid_in eqc M (clause_of c)
  | SmClause r => r <> [] /\ (valid_in eqc M (derived r) <-> valid_in eqc M (clause_of c))
  | SmSame | SmIllegal | SmStray => True
  end.
Proof. exact simp_sound. Qed.
Print Assumptions C44_simplification_sound.
Example C44_nonvacuous : units_true EQ M2 u0 /\ doubles_true EQ M2 dbl0 /\ words_ok (cl_lits csi) /\
  rw_keeps EQ M2 rw0 (cl_lits csi) /\ simplify sb0 u0 None rw0 dbl0 csi = SmClause [(4, R X3 a)].
Proof. destruct ex_simplify as (A&B&C&D). split; [apply ex_cands_model|]. auto. Qed.
