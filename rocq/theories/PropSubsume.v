(** C08-C11: fingerprints, sorting and subsumption. *)
From Coq Require Import List ZArith Bool Permutation Sorting.Sorted.
From Verif Require Import Terms UnifySpec UnifyModel MatchModel MetaModel MetaProof MetaWordProof SortProof
  SubsumeModel SubsumeSpec SubsumeProof SubsumeTop ClauseMetaProof PropSubsumeEx.
Import ListNotations.
Open Scope Z_scope.

(** C08.  If [y] is an instance of [x], the fingerprint comparison of two literals with the
    same polarity lets the pair through, and the early exit of the subsumption loop does not
    fire.  Needs: no empty record in [y], and hashes of the symbols of [y] that are
    non-negative and do not overflow a C int in sum. *)
Lemma filter_sound_litword bh x y t neg : app t x = y -> nonempty y = true -> hash_fits bh y ->
  matchable_lit_meta (litword bh neg x) (litword bh neg y) = true /\
  sort_meta_bigger (litword bh neg x) (litword bh neg y) = false.
Proof.
  intros. assert (hash_fits bh x) by (subst; eapply hash_fits_instance; eauto).
  rewrite !litword_lw by auto. eapply filter_sound; eauto.
Qed.
Theorem C08_filter_passes_instances_partial : forall bh x y t neg,
  app t x = y -> nonempty y = true -> hash_fits bh y ->
  matchable_lit_meta (litword bh neg x) (litword bh neg y) = true /\
  sort_meta_bigger (litword bh neg x) (litword bh neg y) = false.
Proof. exact filter_sound_litword. Qed.
Print Assumptions C08_filter_passes_instances_partial.

(** Finding: without the bound on the sum the claim is false. *)
Theorem C08_hash_overflow_refuted :
  exists x y t, app t x = y /\ nonempty y = true /\ (forall c, 1 <= bh1 c <= 999997) /\
    matchable_lit_meta (litword bh1 false x) (litword bh1 false y) = false.
Proof. exact overflow_refuted. Qed.
Print Assumptions C08_hash_overflow_refuted.

Example C08_nonvacuous : app (fun _ => a) (p [X; b]) = p [a; b] /\ nonempty (p [a; b]) = true /\ hash_fits bh0 (p [a; b]).
Proof.
  split; [reflexivity|]. split; [reflexivity|]. split; [intros c; pose proof (bh0_range c); Lia.lia|vm_compute; reflexivity].
Qed.

(** C09.  Sorting permutes the (fingerprint, atom) pairs and leaves them in the order the
    early exit relies on: a later literal is never bigger than an earlier one. *)
Theorem C09_sort_permutes_and_orders : forall lex (l : list mlit),
  Permutation l (sort_cl lex l) /\
  StronglySorted (fun x y => sort_meta_bigger (fst y) (fst x) = false) (sort_cl lex l).
Proof. exact sort_cl_ok. Qed.
Print Assumptions C09_sort_permutes_and_orders.

Example C09_nonvacuous : prep D1 <> fst (calc_clause_meta bh0 D1) /\ length (prep D1) = 4%nat.
Proof. split; [vm_compute; discriminate|reflexivity]. Qed.

(** C10.  For clauses whose fingerprints the prover computed and whose literals it sorted,
    starting with no bindings, and if more than one answer is wanted ([one] = false) or the
    first clause has no answer literal: the answer is yes exactly when some substitution maps
    the literals of the first clause one to one onto literals of the second, and no bindings
    are left behind. *)
Theorem C10_subsumption_exact_partial : forall bh one ans c1 c2 s r s',
  stored bh c1 -> stored bh c2 -> clear s ->
  (one = true -> forall l, In l (lits_of c1) -> ~ answer_literal ans l) ->
  subsume_cl (fun _ => true) one ans c1 c2 s = SDone r s' ->
  (r = true <-> subsumes (lits_of c1) (lits_of c2)) /\ clear s'.
Proof. exact subsume_exact_plain. Qed.
Print Assumptions C10_subsumption_exact_partial.

(** In every case: with one answer wanted, and a general clause of several literals, the test
    is exact for the clauses without the arguments of their answer literals. *)
Theorem C10_subsumption_exact_but_for_answers : forall bh one ans c1 c2 s r s',
  stored bh c1 -> stored bh c2 -> clear s ->
  subsume_cl (fun _ => true) one ans c1 c2 s = SDone r s' ->
  (r = true <-> subsumes (compared one ans (lits_of c1) (lits_of c1))
                         (compared one ans (lits_of c1) (lits_of c2))) /\ clear s'.
Proof. exact subsume_exact. Qed.
Print Assumptions C10_subsumption_exact_but_for_answers.

(** So a clause which is really subsumed is found in every case. *)
Theorem C10_real_subsumption_found : forall bh one ans c1 c2 s r s',
  stored bh c1 -> stored bh c2 -> clear s ->
  subsume_cl (fun _ => true) one ans c1 c2 s = SDone r s' ->
  subsumes (lits_of c1) (lits_of c2) -> r = true.
Proof. exact subsume_found. Qed.
Print Assumptions C10_real_subsumption_found.

(** Finding: in the default configuration, with one answer wanted, a clause which leads to a
    different answer counts as subsumed. *)
Theorem C10_answers_refuted : exists c1 c2 s',
  stored bh0 c1 /\ stored bh0 c2 /\
  subsume_cl (fun _ => true) true ansc c1 c2 empty_vst = SDone true s' /\
  ~ subsumes (lits_of c1) (lits_of c2).
Proof. exact answers_refuted. Qed.
Print Assumptions C10_answers_refuted.

Theorem C10_subsumption_answers : forall one ans c1 c2 s, subsume_cl (fun _ => true) one ans c1 c2 s <> SStray.
Proof. intros. apply subsume_answers. reflexivity. Qed.
Print Assumptions C10_subsumption_answers.

(** The hypotheses of C10 hold of every non-empty literal list that went through fingerprint
    calculation and sorting, and that preparation keeps the literals. *)
Theorem C10_prepared_clause_is_stored : forall bh lex (l : list mlit), l <> [] ->
  (forall x, In x l -> hash_fits bh (snd x) /\ nonempty (snd x) = true /\ gp (leaves (snd x)) <> []) ->
  let l' := sort_cl lex (fst (calc_clause_meta bh l)) in
  stored bh (Rule l') /\ Permutation (map lit_of l') (map lit_of l).
Proof. exact prepared_stored. Qed.
Print Assumptions C10_prepared_clause_is_stored.

Example C10_nonvacuous :
  stored bh0 (Rule (prep C1)) /\ stored bh0 (Rule (prep D1)) /\ stored bh0 (Rule (prep D2)) /\
  (exists s', subsume_cl (fun _ => true) one0 ansc (Rule (prep C1)) (Rule (prep D1)) empty_vst = SDone true s') /\
  (exists s', subsume_cl (fun _ => true) one0 ansc (Rule (prep C1)) (Rule (prep D2)) empty_vst = SDone false s') /\
  (forall l, In l (lits_of (Rule (prep C1))) -> ~ answer_literal ansc l) /\
  stored bh0 (Rule (prep A3)) /\ stored bh0 (Rule (prep A4)) /\
  (exists s', subsume_cl (fun _ => true) one0 ansc (Rule (prep A3)) (Rule (prep A4)) empty_vst = SDone true s').
Proof.
  split; [|split; [|split; [|split; [exact ex_subsumed|split; [exact ex_not_subsumed|split; [|split; [|split; [|exact ex_answers2]]]]]]]].
  - apply (prepared_stored bh0 lex0 C1); apply (ex_ready C1); simpl; auto.
  - apply (prepared_stored bh0 lex0 D1); apply (ex_ready D1); simpl; auto.
  - apply (prepared_stored bh0 lex0 D2); apply (ex_ready D2); simpl; auto.
  - intros l Hl (ts&He). vm_compute in Hl. destruct Hl as [<-|[<-|[]]]; discriminate.
  - apply (prepared_stored bh0 lex0 A3); apply (ex_ready A3); simpl; auto 10.
  - apply (prepared_stored bh0 lex0 A4); apply (ex_ready A4); simpl; auto 10.
Qed.

(** C11.  The clause filter passes real subsumers, provided: both are rule clauses, a ground
    first clause only meets a ground second clause, and no counter of the second clause is
    exactly 255. *)
Theorem C11_block_filter_passes_subsumers_partial : forall bh (C D : list mlit),
  (forall x, In x D -> usable bh (lit_of x)) -> (forall x, In x C -> gp (leaves (snd x)) <> []) ->
  (clause_ground (map lit_of C) = true -> clause_ground (map lit_of D) = true) ->
  ~ In 255 (counters (map lit_of D)) ->
  subsumes (map lit_of C) (map lit_of D) ->
  clmetablock_can_subsume (snd (calc_clause_meta bh C)) (snd (calc_clause_meta bh D)) = true.
Proof. exact block_filter_sound. Qed.
Print Assumptions C11_block_filter_passes_subsumers_partial.

(** Findings: each of the three provisos is needed. *)
Theorem C11_ground_subsumer_refuted :
  exists C D : list mlit, (forall x, In x (C ++ D) -> usable bh0 (lit_of x)) /\
    ~ In 255 (counters (map lit_of D)) /\
    subsumes (map lit_of C) (map lit_of D) /\
    clmetablock_can_subsume (snd (calc_clause_meta bh0 C)) (snd (calc_clause_meta bh0 D)) = false.
Proof. exact block_ground_refuted. Qed.
Print Assumptions C11_ground_subsumer_refuted.

Theorem C11_counter_255_refuted :
  exists C D : list mlit, (forall x, In x (C ++ D) -> usable bh0 (lit_of x)) /\
    (clause_ground (map lit_of C) = true -> clause_ground (map lit_of D) = true) /\
    subsumes (map lit_of C) (map lit_of D) /\
    clmetablock_can_subsume (snd (calc_clause_meta bh0 C)) (snd (calc_clause_meta bh0 D)) = false.
Proof. exact block_255_refuted. Qed.
Print Assumptions C11_counter_255_refuted.

Theorem C11_fact_refuted :
  exists (C : list mlit) (f : term), (forall x, In x C -> usable bh0 (lit_of x)) /\ usable bh0 (false, f) /\ tvars f = [] /\
    subsumes (map lit_of C) [(false, f)] /\
    clmetablock_can_subsume (snd (calc_clause_meta bh0 C)) fact_metablock = false.
Proof. exact block_fact_refuted. Qed.
Print Assumptions C11_fact_refuted.

Example C11_nonvacuous : (forall x, In x D1 -> usable bh0 (lit_of x)) /\ (forall x, In x P1 -> gp (leaves (snd x)) <> []) /\
  (clause_ground (map lit_of P1) = true -> clause_ground (map lit_of D1) = true) /\
  ~ In 255 (counters (map lit_of D1)) /\ subsumes (map lit_of P1) (map lit_of D1).
Proof. exact block_example. Qed.
