(** Soundness of the search. *)
From Coq Require Import List ZArith Bool Lia.
From Verif Require Import Terms UnifySpec TermsProof UnifyModel UnifyProof MatchModel MetaModel SubsumeSpec Semantics SemProof
  BuildModel BuildProof DeriveModel DeriveSpec DeriveProof TautProof CutModel CutSpec CutProof DupModel DupProof
  SimpModel SimpSpec SimpProof RewriteModel RewriteSpec RewriteProof ShapeProof InstModel InstProof SearchModel.
Import ListNotations.
Open Scope Z_scope.

Definition sig_clause (S : signature) (c : list literal) : Prop := forall l, In l c -> sig_atom S (snd l).

Lemma rename_sig_term S sg : (forall i, exists j, sg i = TVar j) -> forall t, sig_term S t -> sig_term S (app sg t).
Proof.
  intros Hsg. induction t as [i|c|fs IH] using term_ind'; intros H; cbn [app].
  - destruct (Hsg i) as [j ->]. constructor.
  - constructor.
  - apply sig_term_rec in H as (c&args&->&Hc&Ha). cbn [map]. constructor; auto.
    apply Forall_inv_tail in IH. rewrite Forall_forall in *. intros x Hx. apply in_map_iff in Hx as (y&<-&Hy). auto.
Qed.
Lemma rename_sig_atom S sg t : (forall i, exists j, sg i = TVar j) -> sig_atom S t -> sig_atom S (app sg t).
Proof.
  intros Hsg H. inversion H as [c Hc|c args Hc Ha]; subst; cbn [app map]; constructor; auto.
  - rewrite map_length. auto.
  - rewrite Forall_forall in *. intros x Hx. apply in_map_iff in Hx as (y&<-&Hy). apply rename_sig_term; auto.
Qed.
Lemma variant_sig S c d : variant c d -> sig_clause S c -> sig_clause S d.
Proof. intros (sg&Hsg&->) Hc l Hl. apply in_map_iff in Hl as (k&<-&Hk). apply rename_sig_atom; auto. Qed.
Lemma sig_focl S c : sig_clause S c -> focl c.
Proof. intros H l Hl. eapply sig_atom_foa; eauto. Qed.
Lemma variant_valid S eqc M c d : variant c d -> sig_clause S c -> valid_in eqc M c -> valid_in eqc M d.
Proof. intros (sg&_&->) Hs. apply valid_inst. eapply sig_focl; eauto. Qed.

(** ** The literals of a simplified clause *)
Section Parts.
  Variable sb : stray_env.
  Variable loc : ustore.
  Variable kb : option ustore.
  Variable rw : clit -> rwres.
  Variable dbl : Z -> term -> list (clit * clit).

  Definition from_lits (ls : list clit) (t : term) : Prop :=
    exists l, In l ls /\ (t = latom l \/ exists w ch, rw l = RwTo w t ch /\ t <> TCst atrue /\ t <> TCst afalse).
  Definition sl_from (ls : list clit) (k : slres) : Prop :=
    match k with SlOk r _ _ => forall x : mlit, In x r -> from_lits ls (snd x) | _ => True end.

  Lemma from_more l ls t : from_lits ls t -> from_lits (l :: ls) t.
  Proof. intros (x&Hx&H). exists x. simpl. auto. Qed.
  Lemma sl_cut_from l ls k : sl_from ls k -> sl_from (l :: ls) (sl_cut k).
  Proof. destruct k; simpl; auto. intros H x Hx. apply from_more. auto. Qed.
  Lemma sl_keep_from l ls m t ch k : from_lits [l] t -> sl_from ls k -> sl_from (l :: ls) (sl_keep (m, t) ch k).
  Proof.
    intros Ht. destruct k; simpl; auto. intros H x [<-|Hx]; [|apply from_more; auto].
    destruct Ht as (l'&[<-|[]]&Ht). exists l. simpl. auto.
  Qed.
  Lemma simp_lit_from xcl many dc ch l ls m w t go : from_lits [l] t -> (forall dc, sl_from ls (go dc)) ->
    sl_from (l :: ls) (simp_lit sb loc kb dbl xcl many dc ch m w t go).
  Proof.
    intros Ht Hgo. unfold simp_lit. destruct (cut_lit _ _ _ _ _ _); try exact I; [|apply sl_cut_from; auto].
    destruct (if negb dc && many then _ else _); try exact I.
    - apply sl_cut_from. auto.
    - apply sl_keep_from; auto.
  Qed.
  Lemma simp_loop_from xcl many : forall ls dc, sl_from ls (simp_loop sb loc kb rw dbl xcl many ls dc).
  Proof.
    induction ls as [|l ls IH]; intros dc; cbn [simp_loop]; [intros x []|]. cbv zeta.
    destruct (rw l) as [| |w t ch] eqn:Er; [|exact I|].
    - apply simp_lit_from; auto. exists l. simpl. auto.
    - destruct (term_eq_dec t (TCst atrue)) as [_|H1].
      { destruct (meta_is_neg _); [apply sl_cut_from; auto|exact I]. }
      destruct (term_eq_dec t (TCst afalse)) as [_|H2].
      { destruct (meta_is_neg _); [exact I|apply sl_cut_from; auto]. }
      apply simp_lit_from; auto. exists l. simpl. split; auto. right. exists w, ch. auto.
  Qed.
  Lemma dc_loop_from xcl : forall ls dc, match dc_loop sb dbl xcl ls dc with
    | SlOk r _ _ => forall x : mlit, In x r -> exists l, In l ls /\ snd x = latom l | _ => True end.
  Proof.
    induction ls as [|l ls IH]; intros dc; cbn [dc_loop]; [intros x []|].
    destruct (if dc then ENo else _); auto.
    - specialize (IH true). destruct (dc_loop sb dbl xcl ls true); simpl; auto.
      intros x Hx. destruct (IH x Hx) as (k&Hk&E). eauto.
    - specialize (IH dc). destruct (dc_loop sb dbl xcl ls dc); simpl; auto.
      intros x [<-|Hx]; [exists l; auto|]. destruct (IH x Hx) as (k&Hk&E). eauto.
  Qed.

  Lemma simplify_from c r : simplify sb loc kb rw dbl c = SmClause r ->
    forall x : mlit, In x r -> from_lits (cl_lits c) (snd x).
  Proof.
    destruct c as [w a|ls]; cbn [simplify].
    - destruct (rw _) as [| |w' t ch] eqn:Er; try discriminate.
      destruct (term_eq_dec t (TCst atrue)); [discriminate|]. destruct (term_eq_dec t (TCst afalse)); [discriminate|].
      destruct ch; [|discriminate]. intros E; injection E as <-. intros x [<-|[]].
      eexists. split; [left; reflexivity|]. right. eauto.
    - pose proof (simp_loop_from ls (1 <? length ls)%nat ls false) as H.
      destruct (simp_loop _ _ _ _ _ _ _ _ _) as [| | |r0 cuts ch]; try discriminate.
      destruct (cuts || ch); [|discriminate]. destruct r0 as [|y r0]; [discriminate|].
      intros E; injection E as <-. exact H.
  Qed.
  Lemma doublecut_from c r : simplify_doublecut sb dbl c = SmClause r ->
    forall x : mlit, In x r -> exists l, In l (cl_lits c) /\ snd x = latom l.
  Proof.
    destruct c as [w a|ls]; cbn [simplify_doublecut]; [discriminate|].
    destruct (length ls <? 2)%nat; [discriminate|].
    pose proof (dc_loop_from ls ls false) as H. destruct (dc_loop _ _ _ _ _) as [| | |r0 cuts ch]; try discriminate.
    destruct cuts; [|discriminate]. destruct r0 as [|y r0]; [discriminate|]. intros E; injection E as <-. exact H.
  Qed.
End Parts.

Section Search.
  Variable sb : stray_env.
  Variable comp : term -> option term.
  Variable eqc : cst.
  Variable S : signature.
  Variable rv : Z -> Prop.
  Hypothesis Htame : comp_tame S comp.
  Hypothesis Heq : forall n, pr S eqc n -> n = 2%nat.
  Variable M : interp.
  Hypothesis Hcomp : agrees_with eqc comp M.

  Definition good (K : list scl) : Prop :=
    forall c, In c K -> sig_clause S (clause_of c) /\ valid_in eqc M (clause_of c).

  Lemma known_good K c : good K -> known K c -> sig_clause S c /\ valid_in eqc M c.
  Proof.
    intros Hg (k&Hk&Hv). destruct (Hg k Hk) as [A B]. split; [eapply variant_sig; eauto|eapply variant_valid; eauto].
  Qed.

  Lemma no_clause : ~ valid_in eqc M [].
  Proof. intros H. destruct (H (fun _ => icst M atrue)) as (l&[]&_). Qed.

  Lemma sig_lit c l : sig_clause S (clause_of c) -> In l (cl_lits c) -> sig_atom S (latom l).
  Proof. intros H Hl. apply (H (lit_of_clit l)). apply in_map. auto. Qed.

  Lemma parent_good K x : good K -> parent sb K x ->
    neat_clause S x /\ proper x /\ coherent x /\ binary_eq eqc x /\ valid_in eqc M (clause_of x) /\ stored_ok x.
  Proof.
    intros Hg (Hk&Hs&Ht). destruct (known_good _ _ Hg Hk) as [A B].
    assert (N : neat_clause S x).
    { intros l Hl. split; [eapply sig_lit; eauto|]. split; [|apply (so_metas _ Hs); auto].
      apply below_real. intros j Hj. unfold first_unreal. apply (so_vars _ Hs l j Hl Hj). }
    split; auto. split; [eapply neat_proper; eauto|]. split.
    - destruct x as [w a|l].
      + intros l1 l2 [<-|[]] [<-|[]] _. reflexivity.
      + eapply passed_coherent; eauto; [apply (so_bits _ Hs)|apply (so_words _ Hs)].
    - split; auto. intros l args Hl E. pose proof (sig_lit _ _ A Hl) as Ha. rewrite E in Ha.
      inversion Ha; subst. apply Heq; auto.
  Qed.

  Lemma infers_good K d : good K -> infers sb comp eqc K d ->
    (forall c, stated d = Some c -> valid_in eqc M c) /\
    (forall r s, d = DClause r s -> neat S 3 r /\ acyclic (bank (vars s)) /\ bank_fot (bank (vars s))).
  Proof.
    intros Hg H. assert (Hn : forall r s, neat_res S 3 d -> d = DClause r s ->
      neat S 3 r /\ acyclic (bank (vars s)) /\ bank_fot (bank (vars s))) by (intros r s H1 ->; exact H1).
    destruct H as [nb nu x i y j s Px Py Hs|nb nu x i j s Px Hs|nb nu x i s Px Hs|nb deep nu x i left from y k s Px Py Hs
      |nb nu x i y j usex s s2 d Px Py Hs Hi|nb x bs Px Hb].
    - destruct (parent_good _ _ Hg Px) as (X1&X2&X3&X4&X5&X6). destruct (parent_good _ _ Hg Py) as (Y1&Y2&Y3&Y4&Y5&Y6).
      split; [|intros r s0; apply Hn; eapply resolve_neat; eauto].
      intros c E. apply (resolve_sound sb comp 3 nb eqc M Hcomp nu x i y j s c (blank_vgood s Hs)); auto.
    - destruct (parent_good _ _ Hg Px) as (X1&X2&X3&X4&X5&X6).
      split; [|intros r s0; apply Hn; eapply factor_neat; eauto].
      intros c E. destruct x as [w a|lits]; [discriminate|].
      assert (Hw : i <> j /\ (forall xl yl, nth_error lits i = Some xl -> nth_error lits j = Some yl ->
                is_rec (latom xl) = true /\ is_rec (latom yl) = true)).
      { unfold factor in E. destruct (Nat.ltb_spec i j); [|discriminate]. split; [lia|].
        intros xl yl E1 E2. rewrite E1, E2 in E. destruct (negpolarities _ _); [discriminate|].
        destruct (is_rec (latom xl)), (is_rec (latom yl)); simpl in E; try discriminate; auto. }
      destruct Hw as [Hij Hw].
      apply (factor_sound sb comp 3 nb eqc M Hcomp nu (SRule lits) i j s c (blank_vgood s Hs)); auto.
      intros xl yl E1 E2. destruct (Hw xl yl E1 E2). apply (so_own _ X6 i j); auto.
    - destruct (parent_good _ _ Hg Px) as (X1&X2&X3&X4&X5&X6).
      split; [|intros r s0; apply Hn; eapply reflexive_neat; eauto].
      intros c E. apply (reflexive_sound sb comp 3 nb eqc M Hcomp nu x i s c (blank_vgood s Hs)); auto.
    - destruct (parent_good _ _ Hg Px) as (X1&X2&X3&X4&X5&X6). destruct (parent_good _ _ Hg Py) as (Y1&Y2&Y3&Y4&Y5&Y6).
      split; [|intros r s0; apply Hn; eapply paramodulate_neat; eauto].
      intros c E. apply (paramodulate_sound sb comp 3 nb eqc M Hcomp deep nu x i left from y k s c (blank_vgood s Hs)); auto.
    - destruct (parent_good _ _ Hg Px) as (X1&X2&X3&X4&X5&X6). destruct (parent_good _ _ Hg Py) as (Y1&Y2&Y3&Y4&Y5&Y6).
      apply (instgen_ready sb comp nb S) in Hi as [R ->]; auto.
      split; [intros c E; eapply (instance_sound sb comp nb S eqc M Hcomp (if usex then x else y)); eauto; destruct usex; auto|].
      intros r s0. apply Hn. eapply instance_neat; eauto. destruct usex; auto.
    - destruct (parent_good _ _ Hg Px) as (X1&X2&X3&X4&X5&X6).
      assert (Hv : forall v e, In (v, e) bs -> v < first_unreal).
      { intros v e H. destruct (Hb v e H) as (l&Hl&Hj). unfold first_unreal. apply (so_vars _ X6 l v Hl Hj). }
      split; [intros c E; eapply (probe_sound sb comp nb S eqc M Hcomp x); eauto|].
      intros r s0. apply Hn. eapply probe_neat; eauto.
  Qed.

  Lemma units_good K u : good K -> units_known K u -> units_true eqc M u.
  Proof. intros Hg H c Hc. apply (known_good K c Hg). auto. Qed.
  Lemma kb_good K kb : good K -> kb_known K kb -> kb_true eqc M kb.
  Proof. intros Hg H c Hc. apply (known_good K c Hg). auto. Qed.
  Lemma cands_good K cands : good K -> cands_known K cands -> cands_true eqc M cands.
  Proof.
    intros Hg H neg a y Hy. destruct (known_good K _ Hg (H neg a y Hy)) as [A B]. split; auto.
    apply (sig_atom_foa S). apply (A (neg, y)). simpl. auto.
  Qed.
  Lemma doubles_good K dbl : good K -> doubles_known K dbl -> doubles_true eqc M dbl.
  Proof. intros Hg H m t d Hd. apply (known_good K _ Hg). eauto. Qed.

  Lemma rules_good K rules : good K -> rules_known eqc S rv K rules ->
    forall k rule, In rule (rules k) -> rule_true M rule.
  Proof.
    intros Hg H k rule Hr v. destruct (H k rule Hr) as [_ [E|E]]; destruct (known_good _ _ Hg E) as [_ Hv];
      destruct (Hv v) as (l&[<-|[]]&Hh); unfold lit_holds in Hh; cbn [fst snd] in Hh; apply holds_eq in Hh; auto.
  Qed.

  Lemma rewriting_good K rw c : good K -> rewriting sb comp eqc S rv K rw (cl_lits c) -> sig_clause S (clause_of c) ->
    rw_keeps eqc M rw (cl_lits c) /\
    (forall l w t ch, In l (cl_lits c) -> rw l = RwTo w t ch -> t = TCst atrue \/ t = TCst afalse \/ sig_atom S t).
  Proof.
    intros Hg (rules&Hr&H) Hs.
    assert (Hb : forall l w t ch, In l (cl_lits c) -> rw l = RwTo w t ch ->
      (t = TCst atrue \/ t = TCst afalse \/ sig_atom S t) /\ (forall v, holds eqc M v t <-> holds eqc M v (latom l))).
    { intros l w t ch Hl E. destruct (H l w t ch Hl E) as (Ha&(n&s&s'&Hc&Hb)&_).
      destruct (build_rw_atom sb eqc comp rules M S rv (fun k rule Hk => proj1 (Hr k rule Hk)) (rules_good _ _ Hg Hr)
                  Hcomp Htame n (latom l) s t s' Hc (sig_lit _ _ Hs Hl) Ha Hb) as (_&A&_&B). auto. }
    split.
    - intros l w t ch Hl E. split; [eapply Hb; eauto|]. apply (H l w t ch Hl E).
    - intros l w t ch Hl E. eapply Hb; eauto.
  Qed.

  Lemma stored_good r c : stored r c -> (forall x : mlit, In x r -> sig_atom S (snd x)) -> valid_in eqc M (derived r) ->
    sig_clause S (clause_of c) /\ valid_in eqc M (clause_of c).
  Proof.
    intros [Hv _] Hs Hval.
    assert (Hd : sig_clause S (derived r)).
    { intros l Hl. apply in_map_iff in Hl as (x&<-&Hx). simpl. auto. }
    split; [eapply variant_sig; eauto|eapply variant_valid; eauto].
  Qed.

  Lemma step_good K e : good K -> step sb comp eqc S rv K e ->
    match e with
    | Report => False
    | Learn c => sig_clause S (clause_of c) /\ valid_in eqc M (clause_of c)
    end.
  Proof.
    intros Hg H. destruct H as [Hi|r s loc kb fwd strong dups cands nu Hi Hu Hk Hc Hp|r s loc kb fwd strong dups cands nu r' c Hi Hu Hk Hc Hp Hst
      |dbl c Hk Hs Hd E|dbl c r c' Hk Hs Hd E Hst|loc kb rw dbl c Hk Hs Hu Hkb Hd Hrw E|loc kb rw dbl c r c' Hk Hs Hu Hkb Hd Hrw E Hst].
    - destruct (infers_good _ _ Hg Hi) as [A _]. apply no_clause. apply A. reflexivity.
    - destruct (infers_good _ _ Hg Hi) as [A B]. destruct (B r s eq_refl) as (N&Ac&Bf).
      pose proof (post_ok sb eqc M loc kb (units_good _ _ Hg Hu) (kb_good _ _ Hg Hk) fwd strong dups cands nu r (vars s)
        (cands_good _ _ Hg Hc) (conj Ac Bf) (fun x Hx => sig_atom_foa S _ (proj1 (N x Hx))) (fun x Hx => proj2 (proj2 (N x Hx)))) as H.
      rewrite Hp in H. apply no_clause. apply H. apply A. reflexivity.
    - destruct (infers_good _ _ Hg Hi) as [A B]. destruct (B r s eq_refl) as (N&Ac&Bf).
      pose proof (post_ok sb eqc M loc kb (units_good _ _ Hg Hu) (kb_good _ _ Hg Hk) fwd strong dups cands nu r (vars s)
        (cands_good _ _ Hg Hc) (conj Ac Bf) (fun x Hx => sig_atom_foa S _ (proj1 (N x Hx))) (fun x Hx => proj2 (proj2 (N x Hx)))) as H.
      rewrite Hp in H. destruct H as (_&Hsub&Hv). eapply stored_good; eauto.
      + intros x Hx. apply N. auto.
      + apply Hv. apply A. reflexivity.
    - destruct (known_good _ _ Hg Hk) as [A B].
      pose proof (fun v => simplify_doublecut_ok sb eqc M (fun _ => RwKeep) dbl (doubles_good _ _ Hg Hd) c v (so_words _ Hs)) as H.
      rewrite E in H. apply (H (fun _ => icst M atrue)). apply B.
    - destruct (known_good _ _ Hg Hk) as [A B].
      pose proof (fun v => simplify_doublecut_ok sb eqc M (fun _ => RwKeep) dbl (doubles_good _ _ Hg Hd) c v (so_words _ Hs)) as H.
      rewrite E in H. eapply stored_good; eauto.
      + intros x Hx. destruct (doublecut_from sb dbl c r E x Hx) as (l&Hl&->). eapply sig_lit; eauto.
      + intros v. apply (H v). apply B.
    - destruct (known_good _ _ Hg Hk) as [A B]. destruct (rewriting_good _ _ _ Hg Hrw A) as [R1 R2].
      pose proof (fun v => simplify_ok sb eqc M loc kb (units_good _ _ Hg Hu) (kb_good _ _ Hg Hkb) rw dbl (doubles_good _ _ Hg Hd) c v (so_words _ Hs) R1) as H.
      rewrite E in H. apply (H (fun _ => icst M atrue)). apply B.
    - destruct (known_good _ _ Hg Hk) as [A B]. destruct (rewriting_good _ _ _ Hg Hrw A) as [R1 R2].
      pose proof (fun v => simplify_ok sb eqc M loc kb (units_good _ _ Hg Hu) (kb_good _ _ Hg Hkb) rw dbl (doubles_good _ _ Hg Hd) c v (so_words _ Hs) R1) as H.
      rewrite E in H. eapply stored_good; eauto.
      + intros x Hx. destruct (simplify_from sb loc kb rw dbl c r E x Hx) as (l&Hl&[->|(w&ch&Er&N1&N2)]).
        * eapply sig_lit; eauto.
        * destruct (R2 l w _ ch Hl Er) as [|[|]]; auto; contradiction.
      + intros v. apply (H v). apply B.
  Qed.

  Lemma reach_good K0 K : good K0 -> reach sb comp eqc S rv K0 K -> good K.
  Proof.
    intros H0 H. induction H as [|K c H IH Hs|K K' H IH Hi]; auto.
    - intros x [<-|Hx]; auto. apply (step_good K (Learn c)); auto.
    - intros x Hx. auto.
  Qed.
End Search.

Lemma reports_unsat sb comp eqc S rv K0 : comp_tame S comp -> (forall n, pr S eqc n -> n = 2%nat) ->
  (forall c, In c K0 -> sig_clause S (clause_of c)) -> reports sb comp eqc S rv K0 ->
  forall M, agrees_with eqc comp M -> ~ (forall c, In c K0 -> valid_in eqc M (clause_of c)).
Proof.
  intros Ht He Hs (K&Hr&Hst) M Hm Hv.
  assert (H0 : good eqc S M K0) by (intros c Hc; auto).
  apply (step_good sb comp eqc S rv Ht He M Hm K Report); auto.
  eapply reach_good; eauto.
Qed.

Lemma reach_follows sb comp eqc S rv K0 K c : comp_tame S comp -> (forall n, pr S eqc n -> n = 2%nat) ->
  (forall c, In c K0 -> sig_clause S (clause_of c)) -> reach sb comp eqc S rv K0 K -> In c K ->
  follows eqc (agrees_with eqc comp) (map clause_of K0) (clause_of c).
Proof.
  intros Ht He Hs Hr Hc M Hm Hv.
  assert (H0 : good eqc S M K0) by (intros k Hk; split; auto; apply Hv; apply in_map; auto).
  apply (reach_good sb comp eqc S rv Ht He M Hm K0 K H0 Hr c Hc).
Qed.

(** Any first-order clauses with binary equality, when no equation is used for rewriting. *)
Definition any_sig (eqc : cst) : signature := {| fn := fun _ => True; pr := fun c n => c = eqc -> n = 2%nat |}.
Lemma any_sig_term eqc : forall t, fot t = true -> sig_term (any_sig eqc) t.
Proof.
  induction t as [i|c|fs IH] using term_ind'; intros H; try constructor.
  apply fot_rec in H as (c&args&->&Ha). constructor; simpl; auto. apply Forall_inv_tail in IH.
  rewrite Forall_forall in *. auto.
Qed.
Lemma any_sig_clause eqc c : proper c -> binary_eq eqc c -> (forall l, In l (cl_lits c) -> latom l <> TCst eqc) ->
  sig_clause (any_sig eqc) (clause_of c).
Proof.
  intros [Hf _] Hb Hn l Hl. pose proof (Hf l Hl) as Ha. apply in_map_iff in Hl as (x&<-&Hx). cbn [lit_of_clit snd] in *.
  destruct (latom x) as [i|d|fs] eqn:E; [discriminate| |].
  - constructor. simpl. intros ->. exfalso. apply (Hn x Hx). auto.
  - unfold foa in Ha. apply fot_rec in Ha as (d&args&->&Hargs). constructor.
    + simpl. intros ->. eapply Hb; eauto.
    + apply Forall_forall. intros t Ht. apply any_sig_term. auto.
Qed.
