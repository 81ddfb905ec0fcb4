(** Soundness of the processing of derived clauses and of simplification. *)
From Coq Require Import List ZArith Bool Lia.
From Verif Require Import Terms UnifySpec TermsProof UnifyModel MatchModel MatchProof MetaModel SubsumeSpec Semantics SemProof
  BuildModel DeriveModel DeriveSpec CutModel CutSpec CutProof DupModel DupProof SimpModel SimpSpec.
Import ListNotations.
Open Scope Z_scope.

Section Simp.
  Variable sb : stray_env.
  Variable eqc : cst.
  Variable M : interp.
  Notation holdsl := (lit_holds eqc M).
  Notation holdsc := (clause_holds eqc M).
  Variable loc : ustore.
  Variable kb : option ustore.
  Hypothesis Hloc : units_true eqc M loc.
  Hypothesis Hkb : kb_true eqc M kb.

  Lemma Hl : units_hold eqc M loc. Proof. apply units_hold_of. exact Hloc. Qed.
  Lemma Hk : kb_hold eqc M kb. Proof. apply kb_hold_of. exact Hkb. Qed.

  Lemma unmarked_full (r : list mlit) : with_metas r -> unmarked r = derived r.
  Proof.
    intros H. unfold unmarked. f_equal. induction r as [|x r IH]; simpl; auto.
    unfold is_kept at 1. destruct (Z.eqb_spec (fst x) 0) as [E|_].
    - exfalso. apply (H x); simpl; auto.
    - simpl. f_equal. apply IH. intros y Hy. apply H. simpl; auto.
  Qed.

  Lemma filter_len {A} (f : A -> bool) l : (length (filter f l) <= length l)%nat.
  Proof. induction l as [|x l IH]; simpl; auto. destruct (f x); simpl; lia. Qed.

  Lemma filter_metas (r : list mlit) : with_metas (filter is_kept r).
  Proof.
    intros x Hx. apply filter_In in Hx as [_ Hx]. unfold is_kept in Hx. destruct (Z.eqb_spec (fst x) 0); [discriminate|auto].
  Qed.

  Lemma post_ok fwd strong dups cands nu r s :
    cands_true eqc M cands -> goodb s -> (forall x, In x r -> foa (snd x) = true) -> with_metas r ->
    match post sb loc kb fwd strong dups cands nu r s with
    | PProof => valid_in eqc M (derived r) -> valid_in eqc M []
    | PSubsumed => valid_in eqc M (derived r)
    | PClause r' => r' <> [] /\ (forall x, In x r' -> In x r) /\ (valid_in eqc M (derived r) <-> valid_in eqc M (derived r'))
    | _ => True
    end.
  Proof.
    intros Hc Hs Hf Hm. unfold post.
    assert (Hsub : forall r', (forall x, In x r' -> In x r) -> valid_in eqc M (derived r') -> valid_in eqc M (derived r)).
    { intros r' Hi Hv v. destruct (Hv v) as (l&A&B). exists l. split; auto.
      unfold derived in *. apply in_map_iff in A as (x&<-&Hx). apply (in_map (fun x : mlit => (meta_is_neg (fst x), snd x))). auto. }
    pose proof (cut_and_subsume_ok sb eqc M fwd loc kb r) as Hcs.
    destruct (cut_and_subsume sb fwd loc kb r) as [|r1 n1|]; auto.
    - intros v. apply Hcs; [apply Hl|apply Hk].
    - assert (Hcs' : forall v, (holdsc v (unmarked r1) <-> holdsc v (derived r)) /\
        length r1 = length r /\ length (filter is_kept r1) = (length r - n1)%nat /\ (n1 <= length r)%nat /\
        (forall x, In x r1 -> fst x <> 0 -> In x r) /\ map snd r1 = map snd r).
      { intros v. apply Hcs; auto using Hl, Hk. } clear Hcs.
      assert (Hne : inhabited (Z -> dom M)) by (constructor; exact (fun _ => icst M atrue)).
      destruct Hne as [v0]. destruct (Hcs' v0) as (_&L1&L2&L3&I1&S1).
      assert (Hv1 : valid_in eqc M (derived r) -> valid_in eqc M (unmarked r1)).
      { intros H v. apply Hcs'. apply H. }
      assert (Hf1 : forall x, In x r1 -> foa (snd x) = true).
      { intros x Hx. assert (In (snd x) (map snd r)) by (rewrite <- S1; apply in_map; auto).
        apply in_map_iff in H as (y&<-&Hy). auto. }
      assert (Hst : match (if strong then strong_cut sb cands nu r1 s else TOk r1 0 s) with
                    | TOk r2 n2 _ => (valid_in eqc M (unmarked r1) -> valid_in eqc M (unmarked r2)) /\
                        length r2 = length r1 /\ length (filter is_kept r2) = (length (filter is_kept r1) - n2)%nat /\
                        (n2 <= length (filter is_kept r1))%nat /\ (forall x, In x r2 -> fst x <> 0 -> In x r1) /\ (strong = false -> n2 = 0%nat)
                    | _ => True end).
      { destruct strong.
        - assert (Hck : forall n a y, In y (cands (negb n) a) -> cand_ok eqc M n y).
          { intros n a y Hy. apply Hc in Hy. exact Hy. }
          pose proof (strong_cut_ok sb eqc M cands Hck nu r1 s Hs Hf1) as A.
          pose proof (strong_loop_shape sb cands nu (1 <? nonground r1)%nat r1 s) as B.
          unfold strong_cut in *. destruct (strong_loop sb cands nu (1 <? nonground r1)%nat r1 s) as [r2 n2 s2| |]; auto.
          destruct B as (B1&B2&B3&B4&B5). repeat split; auto. discriminate.
        - repeat split; auto; lia. }
      destruct (if strong then strong_cut sb cands nu r1 s else TOk r1 0 s) as [r2 n2 s2| |]; auto.
      destruct Hst as (V2&M1&M2&M3&M4&_). cbv zeta.
      assert (E3 : (if (0 <? n1)%nat || (0 <? n2)%nat then remove_cuts r2 (n1 + n2) else r2) = filter is_kept r2).
      { destruct ((0 <? n1)%nat || (0 <? n2)%nat) eqn:E.
        - apply remove_cuts_ok. lia.
        - apply orb_false_iff in E as [E1 E2]. apply Nat.ltb_ge in E1, E2.
          assert (Hlen : length (filter is_kept r2) = length r2) by lia.
          clear -Hlen. induction r2 as [|x r2 IH]; simpl in *; auto.
          pose proof (filter_len is_kept r2). destruct (is_kept x); simpl in *; [|lia].
          f_equal. apply IH. lia. }
      rewrite E3. destruct (filter is_kept r2) as [|x0 r3'] eqn:E4.
      + intros Hv. apply Hv1, V2 in Hv. unfold unmarked in Hv. rewrite E4 in Hv. exact Hv.
      + rewrite <- E4 in *. set (r3 := filter is_kept r2) in *.
        assert (Hi3 : forall x, In x r3 -> In x r).
        { intros x Hx. pose proof (filter_metas r2 x Hx) as Hx0. apply filter_In in Hx as [Hx _].
          apply I1; auto. }
        assert (Hne3 : r3 <> []) by (rewrite E4; discriminate).
        destruct (dups && (1 <? length r3)%nat).
        * destruct (find_duplicates sb r3) as [r4|] eqn:E5; auto.
          destruct (find_duplicates_ok sb r3 r4) as (A&B&C); auto.
          split; [auto|]. split; [auto|]. split.
          -- intros Hv. apply C. apply V2, Hv1. auto.
          -- intros Hv. apply (Hsub r4); auto.
        * split; auto. split; auto. split; [|apply Hsub; auto]. intros Hv. apply V2, Hv1, Hv.
  Qed.

  Variable rw : clit -> rwres.
  Variable dbl : Z -> term -> list (clit * clit).
  Hypothesis Hdbl : doubles_true eqc M dbl.

  (** What a run over a part of the literals achieves at a valuation; [D] is the word of the
      literal removed by a double cut. *)
  Definition outcome (xcl ls : list clit) (dc : bool) (v : Z -> dom M) (k : slres) : Prop :=
    match k with
    | SlDrop => holdsc v (map lit_of_clit ls)
    | SlOk r _ _ =>
        (holdsc v (derived r) -> holdsc v (map lit_of_clit ls)) /\
        exists D, (dc = true -> D = None) /\
          (forall l, In l ls -> holdsl v (lit_of_clit l) -> holdsc v (derived r) \/
             (D = Some (lword l) /\ exists l', In l' xcl /\ lword l' <> lword l /\ holdsl v (lit_of_clit l')))
    | _ => True
    end.

  Lemma outcome_cut xcl l ls dc v k : ~ holdsl v (lit_of_clit l) -> outcome xcl ls dc v k ->
    outcome xcl (l :: ls) dc v (sl_cut k).
  Proof.
    intros Hn. destruct k as [| | |r c ch]; simpl; auto.
    - intros H. apply holds_cons. auto.
    - intros (A&D&B1&B2). split.
      + intros H. apply holds_cons. auto.
      + exists D. split; [auto|]. intros l' [<-|Hl'] Hh; [contradiction|]. auto.
  Qed.

  Lemma outcome_keep xcl l ls dc v t ch k : (holdsl v (meta_is_neg (lmeta l), t) <-> holdsl v (lit_of_clit l)) ->
    outcome xcl ls dc v k ->
    outcome xcl (l :: ls) dc v (sl_keep (lmeta l, t) ch k).
  Proof.
    intros Ht. destruct k as [| | |r c ch']; simpl; auto.
    - intros H. apply holds_cons. auto.
    - intros (A&D&B1&B2).
      assert (E : holdsc v (derived ((lmeta l, t) :: r)) <-> holdsl v (meta_is_neg (lmeta l), t) \/ holdsc v (derived r))
        by apply holds_cons.
      split.
      + rewrite E. intros [H|H]; apply holds_cons; [left; apply Ht; auto|auto].
      + exists D. split; [auto|]. intros l' [<-|Hl'] Hh; [left; apply E; left; apply Ht; auto|].
        destruct (B2 l' Hl' Hh); [left; apply E; auto|auto].
  Qed.

  Lemma outcome_double xcl l ls v k :
    (holdsl v (lit_of_clit l) -> exists l', In l' xcl /\ lword l' <> lword l /\ holdsl v (lit_of_clit l')) ->
    outcome xcl ls true v k ->
    outcome xcl (l :: ls) false v (sl_cut k).
  Proof.
    intros Hd. destruct k as [| | |r c ch]; simpl; auto.
    - intros H. apply holds_cons. auto.
    - intros (A&D&B1&B2). rewrite B1 in B2 by auto. split.
      + intros H. apply holds_cons. auto.
      + exists (Some (lword l)). split; [discriminate|]. intros l' [<-|Hl'] Hh; [right; auto|].
        destruct (B2 l' Hl' Hh) as [H|[H _]]; [auto|discriminate].
  Qed.

  Lemma outcome_drop xcl l ls dc v : holdsl v (lit_of_clit l) -> outcome xcl (l :: ls) dc v SlDrop.
  Proof. intros H. simpl. apply holds_cons. auto. Qed.

  (** The double cut of literal [l], whose atom has become [t] with word [w]. *)
  Lemma double_found xcl l w t v : In l xcl ->
    (holds eqc M v t <-> holds eqc M v (latom l)) ->
    (forall l', In l' xcl -> lword l' = w -> latom l' = t) ->
    doublecut sb w (lmeta l) xcl (dbl (lmeta l) t) = EYes ->
    holdsl v (lit_of_clit l) -> exists l', In l' xcl /\ lword l' <> lword l /\ holdsl v (lit_of_clit l').
  Proof.
    intros Hin Ht Hw E Hh.
    assert (Hh' : holdsl v (meta_is_neg (lmeta l), t)).
    { unfold lit_holds, lit_of_clit in *. simpl in *. destruct (meta_is_neg (lmeta l)); tauto. }
    destruct (Z.eq_dec w (lword l)) as [->|Hne].
    - apply (doublecut_sound sb eqc M _ _ t xcl _ v (fun d Hd => Hdbl _ _ d Hd) Hw E Hh').
    - apply doublecut_ok in E as (y0&y1&_&E).
      assert (Hn : forall y, neg_found w (lmeta l) xcl y -> exists l', In l' xcl /\ lword l' <> lword l /\ holdsl v (lit_of_clit l')).
      { intros y (k&Hk1&Ew&Em&_&_). exists k. split; auto. split; [congruence|].
        unfold lit_of_clit. rewrite Em, (Hw k Hk1 Ew). auto. }
      destruct E as [[E _]|[_ E]]; eauto.
  Qed.

  Lemma simp_lit_ok xcl many dc ch l ls w t v go : In l xcl ->
    (holds eqc M v t <-> holds eqc M v (latom l)) ->
    (forall l', In l' xcl -> lword l' = w -> latom l' = t) ->
    (forall dc, outcome xcl ls dc v (go dc)) ->
    outcome xcl (l :: ls) dc v (simp_lit sb loc kb dbl xcl many dc ch (lmeta l) w t go).
  Proof.
    intros Hin Ht Hw Hgo. unfold simp_lit.
    assert (Ht' : holdsl v (meta_is_neg (lmeta l), t) <-> holdsl v (lit_of_clit l)).
    { unfold lit_holds, lit_of_clit. simpl. destruct (meta_is_neg (lmeta l)); tauto. }
    pose proof (cut_lit_ok sb eqc M (many || ch) loc kb (lmeta l) t v Hl Hk) as Hc.
    destruct (cut_lit sb (many || ch) loc kb (lmeta l) t).
    - destruct (negb dc && many) eqn:Ed.
      + destruct dc; [discriminate|].
        pose proof (double_found xcl l w t v Hin Ht Hw) as Hd.
        destruct (doublecut sb w (lmeta l) xcl (dbl (lmeta l) t)); simpl; auto.
        * apply outcome_double; auto.
        * apply outcome_keep; auto.
      + apply outcome_keep; auto.
    - apply outcome_cut; auto. rewrite <- Ht'. auto.
    - apply outcome_drop. apply Ht'. auto.
    - exact I.
  Qed.

  Lemma simp_loop_ok xcl many v : words_ok xcl -> rw_keeps eqc M rw xcl ->
    forall ls dc, (forall l, In l ls -> In l xcl) -> outcome xcl ls dc v (simp_loop sb loc kb rw dbl xcl many ls dc).
  Proof.
    intros Hw Hr. induction ls as [|l ls IH]; intros dc Hin; cbn [simp_loop].
    - simpl. split; auto. exists None. split; auto. intros l [].
    - assert (Hlx : In l xcl) by (apply Hin; simpl; auto).
      assert (IH' : forall dc, outcome xcl ls dc v (simp_loop sb loc kb rw dbl xcl many ls dc)).
      { intros dc'. apply IH. intros; apply Hin; simpl; auto. }
      cbv zeta. destruct (rw l) as [| |w t ch] eqn:Er.
      + apply simp_lit_ok; auto. tauto.
      + exact I.
      + destruct (Hr l w t ch Hlx Er) as [H1 H2]. specialize (H1 v).
        destruct (term_eq_dec t (TCst atrue)) as [->|_]; [|destruct (term_eq_dec t (TCst afalse)) as [->|_]].
        * assert (Hh : holds eqc M v (latom l)) by (apply H1; vm_compute; auto).
          destruct (meta_is_neg (lmeta l)) eqn:En.
          -- apply outcome_cut; auto. unfold lit_holds, lit_of_clit. simpl. rewrite En. tauto.
          -- apply outcome_drop. unfold lit_holds, lit_of_clit. simpl. rewrite En. auto.
        * assert (Hh : ~ holds eqc M v (latom l)) by (intros H; apply H1 in H; vm_compute in H; auto).
          destruct (meta_is_neg (lmeta l)) eqn:En.
          -- apply outcome_drop. unfold lit_holds, lit_of_clit. simpl. rewrite En. auto.
          -- apply outcome_cut; auto. unfold lit_holds, lit_of_clit. simpl. rewrite En. auto.
        * apply simp_lit_ok; auto.
  Qed.

  Lemma outcome_final xcl v r c ch : outcome xcl xcl false v (SlOk r c ch) ->
    (holdsc v (derived r) <-> holdsc v (map lit_of_clit xcl)).
  Proof.
    intros (A&D&_&B). split; auto. intros (l&Hl'&Hh). apply in_map_iff in Hl' as (x&<-&Hx).
    destruct (B x Hx Hh) as [H|(HD&y&Hy&Hne&Hyh)]; auto.
    destruct (B y Hy Hyh) as [H|(HD'&_)]; auto. congruence.
  Qed.

  Lemma simplify_ok c v : words_ok (cl_lits c) -> rw_keeps eqc M rw (cl_lits c) ->
    match simplify sb loc kb rw dbl c with
    | SmNull => holdsc v (clause_of c)
    | SmProof => ~ holdsc v (clause_of c)
    | SmClause r => r <> [] /\ (holdsc v (derived r) <-> holdsc v (clause_of c))
    | _ => True
    end.
  Proof.
    intros Hw Hr. destruct c as [w a|ls]; cbn [simplify].
    - destruct (rw _) as [| |w' t ch] eqn:Er; auto.
      destruct (Hr _ w' t ch (or_introl eq_refl) Er) as [H1 _]. specialize (H1 v). cbn [latom] in H1.
      assert (Hc : holdsc v (clause_of (SFact w a)) <-> holds eqc M v a).
      { unfold clause_of. simpl. split; [intros (l&[<-|[]]&H); exact H|intros H; exists (false, a); simpl; auto]. }
      destruct (term_eq_dec t (TCst atrue)) as [->|_]; [|destruct (term_eq_dec t (TCst afalse)) as [->|_]].
      + apply Hc, H1. vm_compute. auto.
      + rewrite Hc, <- H1. vm_compute. auto.
      + destruct ch; auto. split; [discriminate|]. rewrite Hc, <- H1. unfold derived. simpl.
        split; [intros (l&[<-|[]]&H); exact H|intros H; exists (false, t); simpl; auto].
    - pose proof (simp_loop_ok ls (1 <? length ls)%nat v Hw Hr ls false (fun l H => H)) as Ho.
      destruct (simp_loop sb loc kb rw dbl ls (1 <? length ls)%nat ls false) as [| | |r c ch]; auto.
      apply outcome_final in Ho. destruct (c || ch); auto.
      destruct r as [|x r].
      + unfold clause_of. simpl. rewrite <- Ho. apply holds_nil.
      + split; [discriminate|]. exact Ho.
  Qed.

  Lemma dc_loop_ok xcl v : words_ok xcl ->
    forall ls dc, (forall l, In l ls -> In l xcl) -> outcome xcl ls dc v (dc_loop sb dbl xcl ls dc).
  Proof.
    intros Hw. induction ls as [|l ls IH]; intros dc Hin; cbn [dc_loop].
    - simpl. split; auto. exists None. split; auto. intros l [].
    - assert (Hlx : In l xcl) by (apply Hin; simpl; auto).
      assert (IH' : forall dc, outcome xcl ls dc v (dc_loop sb dbl xcl ls dc)).
      { intros dc'. apply IH. intros; apply Hin; simpl; auto. }
      destruct dc.
      + apply outcome_keep; auto. reflexivity.
      + pose proof (double_found xcl l (lword l) (latom l) v Hlx) as Hd.
        destruct (doublecut sb (lword l) (lmeta l) xcl (dbl (lmeta l) (latom l))); simpl; auto.
        * apply outcome_double; auto. apply Hd; auto. tauto.
        * apply outcome_keep; auto. reflexivity.
  Qed.

  Lemma dc_loop_nodrop xcl ls : forall dc, dc_loop sb dbl xcl ls dc <> SlDrop /\ dc_loop sb dbl xcl ls dc <> SlIllegal.
  Proof.
    induction ls as [|l ls IH]; intros dc; cbn [dc_loop]; [split; discriminate|].
    destruct (if dc then ENo else doublecut sb (lword l) (lmeta l) xcl (dbl (lmeta l) (latom l))).
    - destruct (IH true). destruct (dc_loop sb dbl xcl ls true); simpl; split; congruence.
    - destruct (IH dc). destruct (dc_loop sb dbl xcl ls dc); simpl; split; congruence.
    - split; discriminate.
  Qed.

  Lemma simplify_doublecut_ok c v : words_ok (cl_lits c) ->
    match simplify_doublecut sb dbl c with
    | SmNull | SmIllegal => False
    | SmProof => ~ holdsc v (clause_of c)
    | SmClause r => r <> [] /\ (holdsc v (derived r) <-> holdsc v (clause_of c))
    | _ => True
    end.
  Proof.
    intros Hw. destruct c as [w a|ls]; cbn [simplify_doublecut]; auto.
    destruct (length ls <? 2)%nat; auto.
    pose proof (dc_loop_ok ls v Hw ls false (fun l H => H)) as Ho.
    pose proof (dc_loop_nodrop ls ls false) as [Hn1 Hn2].
    destruct (dc_loop sb dbl ls ls false) as [| | |r c ch]; try contradiction; auto.
    apply outcome_final in Ho. destruct c; auto.
    destruct r as [|x r].
    - unfold clause_of. simpl. rewrite <- Ho. apply holds_nil.
    - split; [discriminate|]. exact Ho.
  Qed.
End Simp.
