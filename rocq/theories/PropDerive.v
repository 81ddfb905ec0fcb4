(** C12-C15, C17, C20: the inference rules are sound, clause building keeps the meaning,
    derived clauses are variants. *)
From Coq Require Import List ZArith Bool Classical_Prop.
From Verif Require Import Terms UnifySpec UnifyModel MatchModel MetaModel SubsumeSpec Semantics
  RenameSpec RenameProof BuildModel DeriveModel DeriveSpec DeriveProof TautProof TrailProof PropDeriveEx.
Import ListNotations.
Open Scope Z_scope.

(** Throughout: [sb] is the outcome of stray header reads (any), [comp] the evaluator of
    built-in functions (any that [M] agrees with), [bk] the target variable bank, [nb] and [nu]
    fuel, and the variable table is clear at the start. *)

(** C12.  A clause stated by resolution (the empty clause when a proof is reported) is true
    in every interpretation in which both parents are. *)
Lemma resolve_sound_clear sb comp bk nb eqc nu x i y j s c : (forall v, bank s v = None) ->
  proper x -> proper y -> coherent x -> coherent y ->
  stated (resolve sb comp bk nb nu x i y j s) = Some c ->
  follows eqc (agrees_with eqc comp) [clause_of x; clause_of y] c.
Proof.
  intros Hs Px Py Cx Cy E M HM HP.
  apply (resolve_sound sb comp bk nb eqc M HM nu x i y j s c (vgood_clear s Hs) Px Py Cx Cy E); apply HP; simpl; auto.
Qed.
Theorem C12_resolution_sound : forall sb comp bk nb eqc nu x i y j s c,
  (forall v, bank s v = None) ->
  proper x -> proper y -> coherent x -> coherent y ->
  stated (resolve sb comp bk nb nu x i y j s) = Some c ->
  follows eqc (agrees_with eqc comp) [clause_of x; clause_of y] c.
Proof. exact resolve_sound_clear. Qed.
Print Assumptions C12_resolution_sound.

Example C12_nonvacuous : proper cx /\ proper cy /\ coherent cx /\ coherent cy /\
  stated (resolve sb0 comp0 3 20 20 cx 0 cy 0 empty_vst) =
    Some [(false, Q (F (TVar 3000))); (false, R (TVar 3000) (TVar 3000))].
Proof. exact ex_resolve. Qed.
Example C12_nonvacuous_proof :
  resolve sb0 comp0 3 20 20 (SFact 801 (P X1)) 0 (SRule [nl 803 (P a)]) 0 empty_vst = DProof.
Proof. exact ex_resolve_proof. Qed.

(** Finding: all literals with the word of the cut atom are dropped, whatever their sign.  A
    parent containing p and ~p with one shared atom record gives a wrong proof.  Parents that
    passed the tautology test have no such pair: C17_passed_parent_is_coherent. *)
Theorem C12_shared_atom_refuted :
  exists x y, proper x /\ proper y /\ coherent y /\
    valid_in EQ (M1 False) (clause_of x) /\ valid_in EQ (M1 False) (clause_of y) /\
    resolve sb0 comp0 3 20 20 x 0 y 0 empty_vst = DProof.
Proof. exact shared_word_refuted. Qed.
Print Assumptions C12_shared_atom_refuted.

(** C13.  Factoring, for two literals that are separate records. *)
Lemma factor_sound_clear sb comp bk nb eqc nu x i j s c : (forall v, bank s v = None) ->
  proper x -> coherent x ->
  (forall xl yl, nth_error (cl_lits x) i = Some xl -> nth_error (cl_lits x) j = Some yl -> lword xl <> lword yl) ->
  stated (factor sb comp bk nb nu x i j s) = Some c ->
  follows eqc (agrees_with eqc comp) [clause_of x] c.
Proof.
  intros Hs Px Cx Hw E M HM HP.
  apply (factor_sound sb comp bk nb eqc M HM nu x i j s c (vgood_clear s Hs) Px Cx Hw E). apply HP; simpl; auto.
Qed.
Theorem C13_factoring_sound : forall sb comp bk nb eqc nu x i j s c,
  (forall v, bank s v = None) -> proper x -> coherent x ->
  (forall xl yl, nth_error (cl_lits x) i = Some xl -> nth_error (cl_lits x) j = Some yl -> lword xl <> lword yl) ->
  stated (factor sb comp bk nb nu x i j s) = Some c ->
  follows eqc (agrees_with eqc comp) [clause_of x] c.
Proof. exact factor_sound_clear. Qed.
Print Assumptions C13_factoring_sound.

Example C13_nonvacuous : proper cf /\ coherent cf /\
  (forall xl yl, nth_error (cl_lits cf) 0 = Some xl -> nth_error (cl_lits cf) 1 = Some yl -> lword xl <> lword yl) /\
  stated (factor sb0 comp0 3 20 20 cf 0 1 empty_vst) = Some [(false, P (F (TVar 3000))); (true, Q (F (TVar 3000)))].
Proof. exact ex_factor. Qed.

(** Finding: two literals sharing one atom record are both dropped. *)
Theorem C13_shared_atom_refuted :
  exists c, proper c /\ coherent c /\ valid_in EQ (M1 True) (clause_of c) /\
    stated (factor sb0 comp0 3 20 20 c 0 1 empty_vst) = Some [].
Proof. exact factor_shared_refuted. Qed.
Print Assumptions C13_shared_atom_refuted.

(** C14.  Paramodulation from literal [i] of [x], in either direction and either argument
    order of the unification, into any offered subterm of [y]. *)
Lemma para_sound_clear sb comp bk nb eqc deep nu x i left from y k s c : (forall v, bank s v = None) ->
  proper x -> proper y -> coherent x -> binary_eq eqc x ->
  stated (paramodulate sb comp bk nb eqc deep nu x i left from y k s) = Some c ->
  follows eqc (agrees_with eqc comp) [clause_of x; clause_of y] c.
Proof.
  intros Hs Px Py Cx Hb E M HM HP.
  apply (paramodulate_sound sb comp bk nb eqc M HM deep nu x i left from y k s c (vgood_clear s Hs) Px Py Cx Hb E);
    apply HP; simpl; auto.
Qed.
Theorem C14_paramodulation_sound : forall sb comp bk nb eqc deep nu x i left from y k s c,
  (forall v, bank s v = None) ->
  proper x -> proper y -> coherent x -> binary_eq eqc x ->
  stated (paramodulate sb comp bk nb eqc deep nu x i left from y k s) = Some c ->
  follows eqc (agrees_with eqc comp) [clause_of x; clause_of y] c.
Proof. exact para_sound_clear. Qed.
Print Assumptions C14_paramodulation_sound.

Example C14_nonvacuous : proper ce /\ proper ct /\ coherent ce /\ binary_eq EQ ce /\
  exists k, stated (paramodulate sb0 comp0 3 20 EQ false 20 ce 0 true true ct k empty_vst) =
    Some [(true, Q a); (false, R b a); (false, P (TVar 3000))].
Proof. exact ex_para. Qed.

(** C15.  Reflexivity resolution. *)
Lemma reflexive_sound_clear sb comp bk nb eqc nu x i s c : (forall v, bank s v = None) ->
  proper x -> coherent x -> binary_eq eqc x ->
  stated (reflexive sb comp bk nb eqc nu x i s) = Some c ->
  follows eqc (agrees_with eqc comp) [clause_of x] c.
Proof.
  intros Hs Px Cx Hb E M HM HP.
  apply (reflexive_sound sb comp bk nb eqc M HM nu x i s c (vgood_clear s Hs) Px Cx Hb E). apply HP; simpl; auto.
Qed.
Theorem C15_reflexivity_sound : forall sb comp bk nb eqc nu x i s c,
  (forall v, bank s v = None) -> proper x -> coherent x -> binary_eq eqc x ->
  stated (reflexive sb comp bk nb eqc nu x i s) = Some c ->
  follows eqc (agrees_with eqc comp) [clause_of x] c.
Proof. exact reflexive_sound_clear. Qed.
Print Assumptions C15_reflexivity_sound.

Example C15_nonvacuous : proper cr /\ coherent cr /\ binary_eq EQ cr /\
  stated (reflexive sb0 comp0 3 20 EQ 20 cr 0 empty_vst) = Some [(false, Q a)].
Proof. exact ex_refl. Qed.

(** Findings: "=" with three arguments is taken for an equation between the first two, and
    the equality test reads through an atom that is no record. *)
Theorem C15_ternary_equality_refuted :
  exists c, proper c /\ coherent c /\ valid_in EQ (M1 False) (clause_of c) /\
    reflexive sb0 comp0 3 20 EQ 20 c 0 empty_vst = DProof.
Proof. exact ternary_refuted. Qed.
Print Assumptions C15_ternary_equality_refuted.
Theorem C15_propositional_atom_refuted :
  reflexive sb0 comp0 3 20 EQ 20 (SRule [nl 801 (TCst (CLong 50)); pl 802 (Q a)]) 0 empty_vst = DStray.
Proof. exact prop_atom_stray. Qed.
Print Assumptions C15_propositional_atom_refuted.

(** C17.  Building a clause from literals [lits] under the bindings of [s] (with the literals
    of word [cut] left out): the result has the models of the instantiated literals; when
    building reports a tautology, the instantiated literals are true in every interpretation. *)
Lemma build_clause_equiv_all sb comp bk nb eqc lits cut s sg r s' :
  vgood s -> exhaustive (bank s) sg ->
  (forall l, In l lits -> foa (latom l) = true) -> (forall l, In l lits -> real (latom l)) ->
  result_aux sb comp bk nb 0 lits cut None [] (start_build s) = AOk r s' ->
  forall M, agrees_with eqc comp M ->
  (valid_in eqc M (derived r) <-> valid_in eqc M (map (inst sg) (kept cut lits))).
Proof. intros. eapply build_clause_equiv; eauto. Qed.
Theorem C17_merging_keeps_models : forall sb comp bk nb eqc lits cut s sg r s',
  vgood s -> exhaustive (bank s) sg ->
  (forall l, In l lits -> foa (latom l) = true) -> (forall l, In l lits -> real (latom l)) ->
  result_aux sb comp bk nb 0 lits cut None [] (start_build s) = AOk r s' ->
  forall M, agrees_with eqc comp M ->
  (valid_in eqc M (derived r) <-> valid_in eqc M (map (inst sg) (kept cut lits))).
Proof. exact build_clause_equiv_all. Qed.
Print Assumptions C17_merging_keeps_models.

Lemma build_clause_taut_all sb comp bk nb eqc lits cut s sg s' :
  vgood s -> exhaustive (bank s) sg ->
  (forall l, In l lits -> foa (latom l) = true) -> (forall l, In l lits -> real (latom l)) ->
  result_aux sb comp bk nb 0 lits cut None [] (start_build s) = ADrop Tautology s' ->
  forall M, agrees_with eqc comp M -> valid_in eqc M (map (inst sg) (kept cut lits)).
Proof. intros. apply (build_clause_taut sb comp bk nb eqc M) with (s := s) (s' := s'); auto. exact classic. Qed.
Theorem C17_dropped_is_tautology : forall sb comp bk nb eqc lits cut s sg s',
  vgood s -> exhaustive (bank s) sg ->
  (forall l, In l lits -> foa (latom l) = true) -> (forall l, In l lits -> real (latom l)) ->
  result_aux sb comp bk nb 0 lits cut None [] (start_build s) = ADrop Tautology s' ->
  forall M, agrees_with eqc comp M -> valid_in eqc M (map (inst sg) (kept cut lits)).
Proof. exact build_clause_taut_all. Qed.
Print Assumptions C17_dropped_is_tautology.

(** The test on whole clauses: exact, and what it reports is valid. *)
Theorem C17_tautology_test_exact : forall sb l b, tautology_cl sb (SRule l) = Some b ->
  (forall x y, In x l -> In y l -> latom x = latom y -> Z.land (lmeta x) cansubs_raw = Z.land (lmeta y) cansubs_raw) ->
  (b = true <-> exists at_, In (true, at_) (clause_of (SRule l)) /\ In (false, at_) (clause_of (SRule l))).
Proof. exact taut_exact. Qed.
Print Assumptions C17_tautology_test_exact.

Theorem C17_tautology_is_valid : forall sb c, tautology_cl sb c = Some true ->
  forall eqc M, valid_in eqc M (clause_of c).
Proof. exact (fun sb c H eqc M => taut_clause_valid sb eqc M c classic H). Qed.
Print Assumptions C17_tautology_is_valid.

Theorem C17_passed_parent_is_coherent : forall sb l, tautology_cl sb (SRule l) = Some false ->
  (forall x y, In x l -> In y l -> latom x = latom y -> Z.land (lmeta x) cansubs_raw = Z.land (lmeta y) cansubs_raw) ->
  (forall x y, In x l -> In y l -> lword x = lword y -> latom x = latom y) ->
  coherent (SRule l).
Proof. exact passed_coherent. Qed.
Print Assumptions C17_passed_parent_is_coherent.

Example C17_nonvacuous_merge :
  (forall l, In l (cl_lits cd) -> foa (latom l) = true) /\ (forall l, In l (cl_lits cd) -> real (latom l)) /\
  exists s, result_aux sb0 comp0 3 20 0 (cl_lits cd) None None [] (start_build empty_vst) =
    AOk [(4, P (TVar 3000)); (4, Q a)] s.
Proof. exact ex_merge. Qed.
Example C17_nonvacuous_tautology : tautology_cl sb0 cdt = Some true /\
  exists s, result_aux sb0 comp0 3 20 0 (cl_lits cdt) None None [] (start_build empty_vst) = ADrop Tautology s.
Proof. exact ex_taut. Qed.

(** C20.  The atoms built in one session are the instantiated originals with their variables
    renamed injectively into bank [bk], with built-in functions evaluated ... *)
Theorem C20_stored_clause_is_a_variant : forall comp bk n s xs rs s' sg,
  acyclic (bank s) -> exhaustive (bank s) sg ->
  (forall i, first_unreal <= i -> bank s i = None) ->
  (forall i t, bank s i = Some t -> real t) ->
  (forall x, In x xs -> real x) ->
  build_all comp bk n xs (start_build s) = BsOk rs s' ->
  exists r, injective_on (all_tvars (map (app sg) xs)) r /\
    (forall i, In i (all_tvars (map (app sg) xs)) -> bk * varsinbank <= r i < bk * varsinbank + varsinbank) /\
    map (fun x => evaluated comp (rename r (app sg x))) xs = map Some rs.
Proof. exact session_renames. Qed.
Print Assumptions C20_stored_clause_is_a_variant.

(** ... building succeeds when there are at most 1000 variables ... *)
Theorem C20_within_limit_succeeds : forall comp bk s xs sg L,
  acyclic (bank s) -> exhaustive (bank s) sg ->
  (forall i, first_unreal <= i -> bank s i = None) ->
  (forall i t, bank s i = Some t -> real t) ->
  (forall x, In x xs -> real x) ->
  (forall t, comp t <> None) ->
  (length L <= Z.to_nat varsinbank)%nat -> incl (all_tvars (map (app sg) xs)) L ->
  exists n rs s', build_all comp bk n xs (start_build s) = BsOk rs s'.
Proof. exact session_succeeds. Qed.
Print Assumptions C20_within_limit_succeeds.

(** ... and clearing the trail afterwards leaves no bindings. *)
Lemma session_clears comp bk n xs s rs s' : consistent s ->
  build_all comp bk n xs (start_build s) = BsOk rs s' ->
  (forall i, bank (clear_varstack (vars s')) i = None) /\ trail (clear_varstack (vars s')) = [].
Proof.
  intros Hc E. apply clear_ok. apply session_grown in E. eapply grown_consistent; [exact Hc|exact E].
Qed.
Theorem C20_table_clear_again : forall comp bk n xs s rs s', consistent s ->
  build_all comp bk n xs (start_build s) = BsOk rs s' ->
  (forall i, bank (clear_varstack (vars s')) i = None) /\ trail (clear_varstack (vars s')) = [].
Proof. exact session_clears. Qed.
Print Assumptions C20_table_clear_again.

Example C20_nonvacuous :
  acyclic (bank sR) /\ (forall i, first_unreal <= i -> bank sR i = None) /\
  (forall i t, bank sR i = Some t -> real t) /\ (forall x, In x [R X1 Y1; Q Y1] -> real x) /\
  exists s', build_all comp0 3 20 [R X1 Y1; Q Y1] (start_build sR) =
    BsOk [R (TVar 3000) (R (TVar 3001) (TVar 3001)); Q (R (TVar 3001) (TVar 3001))] s'.
Proof. exact ex_session. Qed.
