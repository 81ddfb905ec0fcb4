(** C50, C51: printed proofs. *)
From Coq Require Import List ZArith Bool Lia Relations.
From Verif Require Import Word64 EncModel PrfModel PrfSpec PrfBase PrfRec PrfOp PrfPrint PrfProof PrfRole.
Import ListNotations.
Open Scope Z_scope.

(** C50.  Whatever clauses were derived and however, the proof printed for one of them ends, lists
    exactly the clauses it rests on, once each and numbered in order, and every line names the rule
    and cites by earlier numbers exactly the clauses the step was made from.  Proof text with
    propositional instantiation is covered for the plain style only. *)
Theorem C50_complete_partial : forall g d m stray fi (tptp : bool) h c o ans f,
  derivation g d m -> calm m stray fi d -> In (h, c, o) d ->
  (tptp = true -> forall x c t v, ~ made d x (OPropinst c t v)) -> (length d <= f)%nat ->
  exists lines, show m stray fi f tptp (cl_hist m c) ans = Some (map Some lines) /\ is_proof d c o ans lines.
Proof.
  intros g d m stray fi tptp h c o ans f D C I NT Hf.
  destruct (shown g d m stray fi D C tptp h c o ans f I NT Hf) as [A [body [last [E [P _]]]]].
  exists (body ++ [last]). auto.
Qed.
Print Assumptions C50_complete_partial.

Lemma map_some_inj {X} (l l' : list X) : map Some l = map Some l' -> l = l'.
Proof.
  revert l'. induction l as [|x l IH]; intros [|y l'] E; try discriminate; [reflexivity|].
  cbn in E. injection E as -> E. f_equal. apply IH, E.
Qed.

(** The positions and substitutions in the lines are those of the step, when positions are below
    16 and no rewriting into the given clause is involved. *)
Theorem C50_positions_partial : forall g d m stray fi h c o ans f lines,
  derivation g d m -> calm m stray fi d -> In (h, c, o) d -> (length d <= f)%nat ->
  show m stray fi f false (cl_hist m c) ans = Some (map Some lines) ->
  each_line d c o lines (fun _ o l => low o -> details o (l_items l)).
Proof.
  intros g d m stray fi h c o ans f lines D C I Hf E.
  destruct (shown g d m stray fi D C false h c o ans f I ltac:(discriminate) Hf) as [A [body [last [E' [_ [B L]]]]]].
  rewrite E in E'. injection E' as E'. apply map_some_inj in E'. subst lines.
  intros body' last' Eq. apply app_inj_tail in Eq. destruct Eq as [<- <-]. split.
  - intros l o' Il M. destruct (B l o' Il M) as [h' [n [_ [_ [_ [_ [_ [K _]]]]]]]]. exact (K eq_refl).
  - destruct L as [_ [_ [_ [_ [K _]]]]]. exact (K eq_refl).
Qed.
Print Assumptions C50_positions_partial.

(** C51.  The role printed with a derived clause tells whether goals or assumptions are behind it,
    going through the clauses its rules were applied to. *)
Theorem C51_role_partial : forall g d m stray fi (tptp : bool) h c o ans f lines,
  derivation g d m -> calm m stray fi d -> In (h, c, o) d ->
  (tptp = true -> forall x c t v, ~ made d x (OPropinst c t v)) -> (length d <= f)%nat ->
  strategy g <> 2 -> strategy g <> 3 ->
  (forall x name r, made d x (OInput name r) -> r = GOAL \/ r = ASSUMPTION \/ r = AXIOM \/ r = EXTAXIOM) ->
  show m stray fi f tptp (cl_hist m c) ans = Some (map Some lines) ->
  each_line d c o lines (fun x o l => derived o ->
    right_role (l_role l) (behind main_parents d GOAL x) (behind main_parents d ASSUMPTION x)).
Proof.
  intros g d m stray fi tptp h c o ans f lines D C I NT Hf S2 S3 In0 E.
  destruct (shown g d m stray fi D C tptp h c o ans f I NT Hf) as [A [body [last [E' [_ [B L]]]]]].
  rewrite E in E'. injection E' as E'. apply map_some_inj in E'. subst lines.
  assert (R : forall h x o', In (h, x, o') d -> derived o' ->
    right_role (decode_priority (nth 0 (rec m h) 0)) (behind main_parents d GOAL x) (behind main_parents d ASSUMPTION x)).
  { intros h' x o' J T. destruct (in_split _ _ J) as [d1 [d2 Eq]].
    destruct (roles g d m D (conj S2 S3) In0 (S (length d2)) d1 h' x o' d2 Eq ltac:(lia)) as [_ K].
    { intros ->. exact T. }
    specialize (K T). unfold prio in K. rewrite (proj1 (stored _ _ _ D _ _ _ J)) in K. exact K. }
  intros body' last' Eq. apply app_inj_tail in Eq. destruct Eq as [<- <-]. split.
  - intros l o' Il M T. destruct (B l o' Il M) as [h' [n [J [_ [_ [_ [_ [_ [K _]]]]]]]]]. rewrite (K T). exact (R _ _ _ J T).
  - intro T. destruct L as [_ [_ [_ [_ [_ [K _]]]]]]. rewrite (K T). exact (R _ _ _ I T).
Qed.
Print Assumptions C51_role_partial.

(** A derivation in one go: record, clause and step, oldest first. *)
Definition plain_env : env := {| strategy := 0; included := false; pos_unit := fun _ => false; neg_cl := fun _ => false |}.
Fixpoint run (m : mem) (d : dlist) (l : dlist) : option (mem * dlist) :=
  match l with
  | [] => Some (m, d)
  | (h, c, o) :: l =>
      match derive plain_env m h c (Z.of_nat (length d)) (Z.of_nat (length d)) o with
      | Some m' => run m' ((h, c, o) :: d) l
      | None => None
      end
  end.
Fixpoint steps_ok (d l : dlist) : Prop :=
  match l with
  | [] => True
  | (h, c, o) :: l => (usable d o /\ h <> 0 /\ c <> 0 /\ ~ In h (map (fun e => fst (fst e)) d) /\ ~ In c (map clause_of d))
                      /\ steps_ok ((h, c, o) :: d) l
  end.
Lemma run_derivation l : forall m d m' d', derivation plain_env d m -> steps_ok d l -> run m d l = Some (m', d') ->
  derivation plain_env d' m'.
Proof.
  induction l as [|[[h c] o] l IH]; intros m d m' d' D S E; cbn in E.
  - injection E as <- <-. exact D.
  - destruct (derive plain_env m h c (Z.of_nat (length d)) (Z.of_nat (length d)) o) as [m1|] eqn:E1; [|discriminate].
    destruct S as [[U [H1 [H2 [H3 H4]]]] S]. refine (IH m1 ((h, c, o) :: d) m' d' _ S E).
    eapply D_step; eassumption.
Qed.
Definition final (l : dlist) : mem := match run empty [] l with Some (m, _) => m | None => empty end.
Ltac member := match goal with |- exists o', made _ ?p o' /\ _ =>
  eexists; split; [eexists; cbn; repeat (first [left; reflexivity|right])|discriminate] end.
Ltac use_ok := split; [cbn; unfold GOAL, ASSUMPTION, AXIOM, EXTAXIOM; repeat split; lia|cbn [parents listed before_null app]; intros p Ip;
  repeat (destruct Ip as [<-|Ip]; [member|]); destruct Ip].
Ltac steps := cbn [steps_ok]; repeat (first [exact Logic.I|split; [split; [|split; [discriminate|split; [discriminate|split; cbn; lia]]]|]]).
Lemma final_derivation l : steps_ok [] l -> (exists m, run empty [] l = Some (m, rev l)) -> derivation plain_env (rev l) (final l).
Proof.
  intros S [m E]. unfold final. rewrite E. apply (run_derivation l empty [] m (rev l) (D_none _) S E).
Qed.
Definition quiet : Z -> Z -> Z := fun _ _ => 0.
Lemma quiet_calm m fi d : calm m quiet fi d.
Proof. intros h c nm p _ E. discriminate. Qed.

(** Two axioms, an assumption and a goal; a resolvent cut by the goal; a rewrite; a factor. *)
Definition ex_steps : dlist :=
  [ (8, 1000, OInput 16 AXIOM); (16, 1008, OInput 24 AXIOM); (24, 1016, OInput 32 ASSUMPTION);
    (32, 1024, OInput 40 GOAL);
    (40, 1032, OResolve 1000 1016 1 0 None);
    (48, 1040, OPara true 1008 0 true 1032 2 3 (Some [1024; 0; 77]));
    (56, 1048, OFactor 1040 1 2 None);
    (64, 1056, OSimplify 1048 (Some [1024]) [1008]) ].
Lemma ex_derivation : derivation plain_env (rev ex_steps) (final ex_steps).
Proof.
  apply final_derivation; [|eexists; reflexivity].
  unfold ex_steps. steps. all: use_ok.
Qed.
Example C50_case : exists lines,
  show (final ex_steps) quiet (fun _ => 0) 8 false (cl_hist (final ex_steps) 1056) 1056 = Some (map Some lines) /\
  is_proof (rev ex_steps) 1056 (OSimplify 1048 (Some [1024]) [1008]) 1056 lines /\
  map l_clause lines = [1008; 1000; 1016; 1032; 1024; 1040; 1048; 1056] /\
  map l_rule lines = [RIn; RIn; RIn; RMp; RIn; RPara; RMerge; RSimp] /\
  map cited lines = [[]; []; []; [2; 3]; []; [1; 4; 5]; [6]; [7; 5; 1]] /\
  nth_error (map l_items lines) 5 = Some [IRef 1 [] None; IRef 4 [2; 3] None; IRef 5 [] None] /\
  map l_role lines = [AXIOM; AXIOM; ASSUMPTION; FROMASSUMPTION; GOAL; FROMASSUMPTION; FROMASSUMPTION; FROMASSUMPTION].
Proof.
  destruct (C50_complete_partial _ _ _ quiet (fun _ => 0) false 64 1056 _ 1056 8 ex_derivation (quiet_calm _ _ _)
    ltac:(cbn; left; reflexivity) ltac:(discriminate) ltac:(cbn; lia)) as [lines [E P]].
  exists lines. split; [exact E|]. split; [exact P|].
  vm_compute in E. injection E as E.
  repeat (destruct lines as [|? lines]; [discriminate E|]; cbn in E; injection E as <- E).
  destruct lines; [|discriminate E]. vm_compute. repeat split; reflexivity.
Qed.

(** The role theorem applies to the same proof. *)
Example C51_case : exists lines,
  show (final ex_steps) quiet (fun _ => 0) 8 false (cl_hist (final ex_steps) 1056) 1056 = Some (map Some lines) /\
  each_line (rev ex_steps) 1056 (OSimplify 1048 (Some [1024]) [1008]) lines (fun x o l => derived o ->
    right_role (l_role l) (behind main_parents (rev ex_steps) GOAL x) (behind main_parents (rev ex_steps) ASSUMPTION x)).
Proof.
  destruct C50_case as [lines [E _]]. exists lines. split; [exact E|].
  refine (C51_role_partial plain_env _ _ quiet (fun _ => 0) false 64 1056 _ 1056 8 lines ex_derivation (quiet_calm _ _ _)
    _ _ _ _ _ _ E); [cbn; left; reflexivity|discriminate|cbn; lia|discriminate|discriminate|].
  intros x name r [h I]. cbn in I. repeat (destruct I as [I|I]; [injection I as <- <- <- <- || discriminate I; auto|]).
  destruct I.
Qed.

(** The positions of a step are printed modulo 16. *)
Definition far_steps : dlist :=
  [ (8, 1000, OInput 16 AXIOM); (16, 1008, OInput 24 AXIOM); (24, 1016, OResolve 1000 1008 17 0 None) ].
Lemma far_derivation : derivation plain_env (rev far_steps) (final far_steps).
Proof. apply final_derivation; [|eexists; reflexivity]. unfold far_steps. steps. all: use_ok. Qed.
Theorem C50_positions_refuted : exists g d m stray fi h c c1 c2 lines,
  derivation g d m /\ calm m stray fi d /\ In (h, c, OResolve c1 c2 17 0 None) d /\
  show m stray fi (length d) false (cl_hist m c) c = Some (map Some lines) /\
  map l_items lines = [[]; []; [IRef 1 [1] None; IRef 2 [] None]] /\
  ~ each_line d c (OResolve c1 c2 17 0 None) lines (fun _ o l => details o (l_items l)).
Proof.
  exists plain_env, (rev far_steps), (final far_steps), quiet, (fun _ => 0), 24, 1016, 1000, 1008.
  destruct (C50_complete_partial _ _ _ quiet (fun _ => 0) false 24 1016 _ 1016 3 far_derivation (quiet_calm _ _ _)
    ltac:(cbn; left; reflexivity) ltac:(discriminate) ltac:(cbn; lia)) as [lines [E _]].
  exists lines. split; [exact far_derivation|]. split; [apply quiet_calm|]. split; [cbn; left; reflexivity|].
  split; [exact E|]. vm_compute in E. injection E as E.
  destruct lines as [|l1 [|l2 [|l3 [|]]]]; try discriminate E. cbn in E. injection E as <- <- <-.
  split; [reflexivity|]. intro H. destruct (H [_; _] _ eq_refl) as [_ L]. cbn in L.
  destruct L as [n1 [ps1 [n2 [ps2 [rest [Eq [A1 _]]]]]]]. injection Eq as _ <- _ <- _.
  destruct A1 as [A1|[A1 _]]; discriminate A1.
Qed.
Print Assumptions C50_positions_refuted.

(** A rewrite into the given clause is printed with the two positions exchanged. *)
Definition into_steps : dlist :=
  [ (8, 1000, OInput 16 AXIOM); (16, 1008, OInput 24 AXIOM); (24, 1016, OPara false 1000 1 true 1008 2 3 None) ].
Lemma into_derivation : derivation plain_env (rev into_steps) (final into_steps).
Proof. apply final_derivation; [|eexists; reflexivity]. unfold into_steps. steps. all: use_ok. Qed.
Theorem C50_into_positions_refuted : exists g d m stray fi h c c1 c2 lines,
  derivation g d m /\ calm m stray fi d /\ In (h, c, OPara false c1 1 true c2 2 3 None) d /\
  show m stray fi (length d) false (cl_hist m c) c = Some (map Some lines) /\
  map l_items lines = [[]; []; [IRef 1 [2] (Some true); IRef 2 [1; 3] None]] /\
  ~ each_line d c (OPara false c1 1 true c2 2 3 None) lines (fun _ o l => details o (l_items l)).
Proof.
  exists plain_env, (rev into_steps), (final into_steps), quiet, (fun _ => 0), 24, 1016, 1000, 1008.
  destruct (C50_complete_partial _ _ _ quiet (fun _ => 0) false 24 1016 _ 1016 3 into_derivation (quiet_calm _ _ _)
    ltac:(cbn; left; reflexivity) ltac:(discriminate) ltac:(cbn; lia)) as [lines [E _]].
  exists lines. split; [exact into_derivation|]. split; [apply quiet_calm|]. split; [cbn; left; reflexivity|].
  split; [exact E|]. vm_compute in E. injection E as E.
  destruct lines as [|l1 [|l2 [|l3 [|]]]]; try discriminate E. cbn in E. injection E as <- <- <-.
  split; [reflexivity|]. intro H. destruct (H [_; _] _ eq_refl) as [_ L]. cbn in L.
  destruct L as [n1 [ps1 [s [n2 [rest [Eq [A1 _]]]]]]]. injection Eq as _ <- <- _ _ _.
  destruct A1 as [A1|[A1 _]]; discriminate A1.
Qed.
Print Assumptions C50_into_positions_refuted.

(** In TPTP style the instantiating term is taken for a parent: the line cites number 0. *)
Definition inst_steps : dlist := [ (8, 1000, OInput 16 AXIOM); (16, 1008, OPropinst 1000 43 None) ].
Lemma inst_derivation : derivation plain_env (rev inst_steps) (final inst_steps).
Proof. apply final_derivation; [|eexists; reflexivity]. unfold inst_steps. steps. all: use_ok. Qed.
Theorem C50_tptp_instantiation_refuted : exists g d m stray fi h c o lines,
  derivation g d m /\ calm m stray fi d /\ In (h, c, o) d /\
  show m stray fi (length d) true (cl_hist m c) c = Some (map Some lines) /\
  map cited lines = [[]; [1; 0]] /\ ~ is_proof d c o c lines.
Proof.
  exists plain_env, (rev inst_steps), (final inst_steps), quiet, (fun _ => 0), 16, 1008, (OPropinst 1000 43 None).
  destruct (show (final inst_steps) quiet (fun _ => 0) (length (rev inst_steps)) true (cl_hist (final inst_steps) 1008) 1008)
    as [ls|] eqn:E; [|vm_compute in E; discriminate].
  vm_compute in E. injection E as <-.
  eexists [_; _]. split; [exact inst_derivation|]. split; [apply quiet_calm|]. split; [cbn; left; reflexivity|].
  split; [cbn [map]; reflexivity|]. split; [reflexivity|].
  intros [body [last [Eq [_ [_ [_ [_ [[_ [_ F]] _]]]]]]]]. destruct body as [|b1 [|b2 [|]]]; try discriminate.
  injection Eq as <- <-. cbn in F. inversion F as [|? ? ? ? _ F2]. inversion F2.
Qed.
Print Assumptions C50_tptp_instantiation_refuted.

(** An input record is read past its end: when the word there reads as the tag of an
    instantiation, a clause that has nothing to do with the proof is listed. *)
Definition two_steps : dlist := [ (8, 1000, OInput 16 AXIOM); (16, 1008, OInput 24 AXIOM) ].
Lemma two_derivation : derivation plain_env (rev two_steps) (final two_steps).
Proof. apply final_derivation; [|eexists; reflexivity]. unfold two_steps. steps. all: use_ok. Qed.
Definition loud (h i : Z) : Z :=
  if h =? 16 then if i =? TAG_POS then encode_smallint (tag_plain T_ARITHINST) else if i =? PARENT1_POS then 1000 else 0 else 0.
Theorem C50_stray_refuted : exists g d m stray fi h c o lines,
  derivation g d m /\ In (h, c, o) d /\
  show m stray fi (length d) false (cl_hist m c) c = Some (map Some lines) /\
  map l_clause lines = [1000; 1008] /\ parents o = [] /\ ~ is_proof d c o c lines.
Proof.
  exists plain_env, (rev two_steps), (final two_steps), loud, (fun _ => 0), 16, 1008, (OInput 24 AXIOM).
  destruct (show (final two_steps) loud (fun _ => 0) (length (rev two_steps)) false (cl_hist (final two_steps) 1008) 1008)
    as [ls|] eqn:E; [|vm_compute in E; discriminate].
  vm_compute in E. injection E as <-.
  eexists [_; _]. split; [exact two_derivation|]. split; [cbn; left; reflexivity|].
  split; [cbn [map]; reflexivity|]. split; [reflexivity|]. split; [reflexivity|].
  intros [body [last [Eq [_ [_ [An _]]]]]]. destruct body as [|b1 [|b2 [|]]]; try discriminate.
  injection Eq as <- <-. specialize (proj1 (An 1000) ltac:(cbn; auto)) as A. apply clos_trans_tn1 in A.
  assert (N : forall x, ~ parent (rev two_steps) x 1008).
  { intros x [o [[h I] J]]. cbn in I. destruct I as [I|[I|[]]]; [|discriminate I].
    injection I as <- <-. destruct J. }
  inversion A; eapply N; eassumption.
Qed.
Print Assumptions C50_stray_refuted.

(** The goal that cut a literal is not told in the role. *)
Definition cut_steps : dlist :=
  [ (8, 1000, OInput 16 AXIOM); (16, 1008, OInput 24 AXIOM); (24, 1016, OInput 32 GOAL);
    (32, 1024, OResolve 1000 1008 0 0 (Some [1016])) ].
Lemma cut_derivation : derivation plain_env (rev cut_steps) (final cut_steps).
Proof. apply final_derivation; [|eexists; reflexivity]. unfold cut_steps. steps. all: use_ok. Qed.
Theorem C51_role_refuted : exists g d m stray fi h c o lines,
  derivation g d m /\ calm m stray fi d /\ In (h, c, o) d /\ strategy g = 0 /\
  show m stray fi (length d) false (cl_hist m c) c = Some (map Some lines) /\
  behind parents d GOAL c /\
  ~ each_line d c o lines (fun x o l => derived o ->
      right_role (l_role l) (behind parents d GOAL x) (behind parents d ASSUMPTION x)).
Proof.
  exists plain_env, (rev cut_steps), (final cut_steps), quiet, (fun _ => 0), 32, 1024, (OResolve 1000 1008 0 0 (Some [1016])).
  destruct (C50_complete_partial _ _ _ quiet (fun _ => 0) false 32 1024 _ 1024 4 cut_derivation (quiet_calm _ _ _)
    ltac:(cbn; left; reflexivity) ltac:(discriminate) ltac:(cbn; lia)) as [lines [E _]].
  exists lines. split; [exact cut_derivation|]. split; [apply quiet_calm|]. split; [cbn; left; reflexivity|].
  split; [reflexivity|]. split; [exact E|].
  assert (B : behind parents (rev cut_steps) GOAL 1024).
  { exists 1016, 32. split; [exists 24; cbn; auto|]. apply rt_step.
    exists (OResolve 1000 1008 0 0 (Some [1016])). split; [exists 32; cbn; auto|cbn; auto]. }
  split; [exact B|]. vm_compute in E. injection E as E.
  destruct lines as [|l1 [|l2 [|l3 [|l4 [|]]]]]; try discriminate E. cbn in E. injection E as <- <- <- <-.
  intro H. destruct (H [_; _; _] _ eq_refl) as [_ L]. specialize (L Logic.I). cbn in L.
  destruct L as [[L _]|[[L _]|[[L _]|[_ [L _]]]]]; try discriminate L. exact (L B).
Qed.
Print Assumptions C51_role_refuted.
