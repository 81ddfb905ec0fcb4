(** Cut clauses follow from the recorded cutters, with the strong cut. *)
From Coq Require Import List ZArith Bool Lia.
From Verif Require Import Terms UnifySpec TermsProof UnifyModel MatchModel MatchProof MetaModel SubsumeSpec Semantics SemProof
  BuildModel DeriveModel DeriveSpec CutModel CutSpec CutProof DupModel DupProof SimpModel SimpSpec SimpProof LogModel LogSpec LogRw LogProof.
Import ListNotations.
Open Scope Z_scope.

Section Strong.
  Variable sb : stray_env.
  Variable eqc : cst.
  Variable M : interp.
  Notation holdsl := (lit_holds eqc M).
  Notation holdsc := (clause_holds eqc M).
  Notation ground_holds := (ground_holds eqc M).

  (** A literal that is cut has the property [F]. *)
  Definition cut_as (F : mlit -> Prop) (x x' : mlit) : Prop := x' = x \/ (fst x <> 0 /\ x' = (0, snd x) /\ F x).
  Definition false_all (x : mlit) : Prop := forall v, ~ holdsl v (meta_is_neg (fst x), snd x).
  Definition false_some (x : mlit) : Prop := (Z -> dom M) -> exists w, ~ holdsl w (meta_is_neg (fst x), snd x).

  Lemma match_sem v r r' : Forall2 (cut_as false_all) r r' -> holdsc v (unmarked r) -> holdsc v (unmarked r').
  Proof.
    induction 1 as [|x x' r r' Hx Hr IH]; auto. rewrite !unmarked_cons. destruct Hx as [->|(Hn&->&Hf)].
    - destruct (fst x =? 0); auto. rewrite !holds_cons. tauto.
    - cbn [fst Z.eqb]. destruct (Z.eqb_spec (fst x) 0); [contradiction|]. rewrite holds_cons. intros [H|H]; auto.
      exfalso. apply (Hf v H).
  Qed.
  Lemma unify_sem r r' : Forall2 (cut_as false_some) r r' -> (count_nonground r <= 1)%nat ->
    forall v, exists w, (holdsc w (unmarked r) -> holdsc v (unmarked r')) /\ (count_nonground r = 0%nat -> w = v).
  Proof.
    induction 1 as [|x x' r r' Hx Hr IH]; intros Hc v.
    - exists v. auto.
    - cbn [count_nonground] in *. destruct (Z.eqb_spec (fst x) 0) as [Ex|Ex].
      + destruct Hx as [->|(Hn&_)]; [|contradiction]. destruct (IH Hc v) as (w&B1&B2). exists w. rewrite !unmarked_cons, Ex. auto.
      + destruct (has_vars (snd x)) eqn:Hv.
        * assert (Hc0 : count_nonground r = 0%nat) by lia.
          assert (Hground : forall l, In l (unmarked r) -> forall v w, holdsl v l -> holdsl w l).
          { clear -Hc0. intros l Hl. unfold unmarked, derived in Hl. apply in_map_iff in Hl as (y&<-&Hy).
            apply filter_In in Hy as [Hy Ky]. intros v w. apply ground_holds. unfold ground_lit.
            induction r as [|z r IHr]; [destruct Hy|]. cbn [count_nonground] in Hc0.
            destruct Hy as [->|Hy].
            - unfold is_kept in Ky. destruct (fst y =? 0); [discriminate|]. destruct (has_vars (snd y)); [lia|auto].
            - apply IHr; auto. destruct (fst z =? 0); auto. destruct (has_vars (snd z)); [lia|auto]. }
          destruct (IH ltac:(lia) v) as (w&B1&B2). specialize (B2 Hc0). subst w.
          destruct Hx as [->|(_&->&Hf)].
          -- exists v. split; [|lia]. rewrite !unmarked_cons. destruct (Z.eqb_spec (fst x) 0); [contradiction|]. rewrite !holds_cons. tauto.
          -- destruct (Hf v) as [w Hw]. exists w. split; [|lia]. rewrite !unmarked_cons. cbn [fst Z.eqb].
             destruct (Z.eqb_spec (fst x) 0); [contradiction|].
             rewrite holds_cons. intros [H|(l&Hl&H)]; [tauto|]. apply B1. exists l. split; auto. eapply Hground; eauto.
        * destruct (IH Hc v) as (w&B1&B2). exists w. split; [|auto].
          rewrite !unmarked_cons. destruct (Z.eqb_spec (fst x) 0); [contradiction|].
          rewrite holds_cons. intros [H|H]; destruct Hx as [->|(_&->&Hf)].
          -- destruct (Z.eqb_spec (fst x) 0); [contradiction|]. rewrite holds_cons. left. eapply ground_holds; eauto.
          -- exfalso. destruct (Hf v) as [w' Hw]. apply Hw. eapply ground_holds; eauto.
          -- destruct (Z.eqb_spec (fst x) 0); [contradiction|]. rewrite holds_cons. auto.
          -- cbn [fst Z.eqb]. auto.
  Qed.

  (** ** The searches *)
  Lemma strong_atom_erase nu um x ys : forall s,
    strong_cut_atom sb nu um x ys s = match strong_atom_rec sb nu um x ys s with
      FFound _ s' => SDone true s' | FNot s' => SDone false s' | FStray => SStray | FFuel => SFuel end.
  Proof.
    induction ys as [|y ys IH]; intros s; cbn [strong_cut_atom strong_atom_rec]; auto. destruct um.
    - destruct (match_term sb y x s) as [[|] s1|]; auto.
    - destruct (unify_term nu x y s) as [[|] s1|]; auto.
  Qed.
  Lemma strong_atom_ok nu um x n : foa x = true -> forall ys s, (um = false -> goodb s) -> (forall y, In y ys -> foa y = true) ->
    match strong_atom_rec sb nu um x ys s with
    | FFound y s' => (um = false -> goodb s') /\ In y ys /\ (cand_ok eqc M n y ->
        if um then forall v, ~ holdsl v (n, x) else (Z -> dom M) -> exists w, ~ holdsl w (n, x))
    | FNot s' => um = false -> goodb s'
    | _ => True
    end.
  Proof.
    intros Hx.
    induction ys as [|y ys IH]; intros s Hs Hy; cbn [strong_atom_rec]; auto. destruct um.
    - destruct (match_term sb y x s) as [[|] s1|] eqn:E; auto.
      + split; [discriminate|]. split; [simpl; auto|]. intros Hc.
        apply (strong_match sb eqc M nu x n Hx [y] s) with (s' := clear_varstack s1).
        * intros z [<-|[]]. exact Hc.
        * cbn [strong_cut_atom]. rewrite E. auto.
      + specialize (IH (clear_varstack s1) ltac:(discriminate) (fun z Hz => Hy z (or_intror Hz))).
        destruct (strong_atom_rec sb nu true x ys (clear_varstack s1)); auto. destruct IH as (A&B&C). split; [auto|]. split; [simpl; auto|auto].
    - specialize (Hs eq_refl). pose proof (Hy y (or_introl eq_refl)) as Hfy.
      destruct (unify_term nu x y s) as [[|] s1|] eqn:E; auto;
        pose proof (clear_goodb _ (unify_goodb nu x y s _ s1 Hs (foa_fot x Hx) (foa_fot y Hfy) E)) as Hg.
      + split; [auto|]. split; [simpl; auto|]. intros Hc.
        pose proof (strong_unify sb eqc M nu x n Hx [y] s Hs) as H. cbn [strong_cut_atom] in H. rewrite E in H.
        apply H; auto. intros z [<-|[]]. exact Hc.
      + specialize (IH (clear_varstack s1) (fun _ => Hg) (fun z Hz => Hy z (or_intror Hz))).
        destruct (strong_atom_rec sb nu false x ys (clear_varstack s1)); auto. destruct IH as (A&B&C). split; [auto|]. split; [simpl; auto|auto].
  Qed.

  Variable cands : bool -> term -> list term.
  Hypothesis Hcands : forall neg a y, In y (cands neg a) -> foa y = true.

  Lemma strong_erase nu um r : forall s c, fst (strong_rec sb cands nu um r s c) = strong_loop sb cands nu um r s.
  Proof.
    induction r as [|x r IH]; intros s c; cbn [strong_rec strong_loop]; auto. destruct (fst x =? 0).
    - rewrite <- (IH s c). destruct (strong_rec sb cands nu um r s c) as [[| |] c2]; auto.
    - rewrite strong_atom_erase. destruct (strong_atom_rec _ _ _ _ _ _) as [y s1|s1| |]; auto.
      + rewrite <- (IH s1 (add_cut 1 (KUnit (negb (meta_is_neg (fst x))) y) c)).
        destruct (strong_rec sb cands nu um r s1 _) as [[| |] c2]; auto.
      + rewrite <- (IH s1 c). destruct (strong_rec sb cands nu um r s1 c) as [[| |] c2]; auto.
  Qed.
  Lemma strong_grow nu um r : forall s c, cuts_ok 1 c ->
    prefix (cvec c) (cvec (snd (strong_rec sb cands nu um r s c))) /\ cuts_ok 1 (snd (strong_rec sb cands nu um r s c)).
  Proof.
    induction r as [|x r IH]; intros s c Hc; cbn [strong_rec]; [auto using prefix_refl|]. destruct (fst x =? 0).
    - destruct (IH s c Hc) as [A B]. destruct (strong_rec sb cands nu um r s c) as [[| |] c2]; auto.
    - destruct (strong_atom_rec _ _ _ _ _ _) as [y s1|s1| |]; try (split; [apply prefix_refl|exact Hc]).
      + destruct (IH s1 _ (add_cut_ok 1 (KUnit (negb (meta_is_neg (fst x))) y) c ltac:(lia) Hc)) as [A B].
        pose proof (prefix_trans _ _ _ (add_cut_prefix 1 (KUnit (negb (meta_is_neg (fst x))) y) c) A) as A'.
        destruct (strong_rec sb cands nu um r s1 _) as [[| |] c2]; auto.
      + destruct (IH s1 c Hc) as [A B]. destruct (strong_rec sb cands nu um r s1 c) as [[| |] c2]; auto.
  Qed.
  Lemma strong_marks nu um r : (forall x, In x r -> foa (snd x) = true) -> forall s c r' n s' c', (um = false -> goodb s) -> cuts_ok 1 c ->
    strong_rec sb cands nu um r s c = (TOk r' n s', c') -> (length (cvec c') < 98)%nat -> cutters_true eqc M c' ->
    Forall2 (cut_as (if um then false_all else false_some)) r r'.
  Proof.
    induction r as [|x r IH]; intros Hf s c r' n s' c' Hs Hc; cbn [strong_rec].
    - intros H _ _. injection H as <- _ _ _. constructor.
    - specialize (IH (fun y Hy => Hf y (or_intror Hy))). destruct (Z.eqb_spec (fst x) 0) as [Ex|Ex].
      + destruct (strong_rec sb cands nu um r s c) as [[r2 n2 s2| |] c2] eqn:E; try discriminate.
        intros H Hl Ht. injection H as <- <- <- <-. constructor; [left; auto|]. eapply IH; eauto.
      + pose proof (strong_atom_ok nu um (snd x) (meta_is_neg (fst x)) (Hf x (or_introl eq_refl))
          (cands (negb (meta_is_neg (fst x))) (snd x)) s Hs (fun y => Hcands _ _ y)) as Hok.
        destruct (strong_atom_rec _ _ _ _ _ _) as [y s1|s1| |]; try discriminate.
        * destruct Hok as (A&A'&B).
          pose proof (add_cut_ok 1 (KUnit (negb (meta_is_neg (fst x))) y) c ltac:(lia) Hc) as Hc1.
          destruct (strong_grow nu um r s1 _ Hc1) as [G1 _].
          destruct (strong_rec sb cands nu um r s1 _) as [[r2 n2 s2| |] c2] eqn:E; try discriminate.
          intros H Hl Ht. injection H as <- <- <- <-. cbn [snd] in G1.
          constructor; [|eapply IH; eauto]. right. split; [exact Ex|]. split; [reflexivity|].
          pose proof (add_cut_in 1 _ c c2 ltac:(lia) Hc G1 Hl) as Hk. apply Ht in Hk.
          assert (Hco : cand_ok eqc M (meta_is_neg (fst x)) y) by (split; [eauto|exact Hk]).
          specialize (B Hco). destruct um; exact B.
        * destruct (strong_rec sb cands nu um r s1 c) as [[r2 n2 s2| |] c2] eqn:E; try discriminate.
          intros H Hl Ht. injection H as <- <- <- <-. constructor; [left; auto|]. eapply IH; eauto.
  Qed.
  Lemma strong_follows nu r s c r' n s' c' : goodb s -> (forall x, In x r -> foa (snd x) = true) -> cuts_ok 1 c ->
    strong_rec sb cands nu (1 <? nonground r)%nat r s c = (TOk r' n s', c') -> (length (cvec c') < 98)%nat -> cutters_true eqc M c' ->
    valid_in eqc M (unmarked r) -> valid_in eqc M (unmarked r').
  Proof.
    intros Hs Hf Hc E Hl Ht Hv v. pose proof (strong_marks nu _ r Hf s c r' n s' c' (fun _ => Hs) Hc E Hl Ht) as H.
    destruct (Nat.ltb_spec 1 (nonground r)) as [H1|H1].
    - apply (match_sem v r r' H). apply Hv.
    - assert (Hn : (count_nonground r <= 1)%nat).
      { unfold nonground in H1. destruct (Nat.ltb_spec 1 (length (filter is_kept r))) as [H2|H2]; [exact H1|apply filter_one; exact H2]. }
      destruct (unify_sem r r' H Hn v) as (w&Hw&_). apply Hw, Hv.
  Qed.

  Variable loc : ustore.
  Variable kb : option ustore.
  Lemma cuts_shape fwd r : forall c r' n c', cuts_ok 1 c -> cuts_rec sb loc kb fwd r c = (KOk r' n, c') -> cuts_ok 1 c'.
  Proof.
    induction r as [|x r IH]; intros c r' n c' Hc; cbn [cuts_rec].
    - intros H. injection H as <- <- <-. exact Hc.
    - destruct (cut_rec sb loc kb fwd (fst x) (snd x)) as [|k| |]; try discriminate.
      + destruct (cuts_rec sb loc kb fwd r c) as [[|r2 n2|] c2] eqn:Er; try discriminate.
        intros H. injection H as <- <- <-. eapply IH; eauto.
      + destruct (cuts_rec sb loc kb fwd r (add_cut 1 k c)) as [[|r2 n2|] c2] eqn:Er; try discriminate.
        intros H. injection H as <- <- <-. eapply IH; [|eauto]. apply add_cut_ok; [lia|exact Hc].
  Qed.
  Lemma cuts_lengths fwd r : with_metas r -> forall c r' n c', cuts_rec sb loc kb fwd r c = (KOk r' n, c') ->
    length r' = length r /\ length (filter is_kept r') = (length r - n)%nat /\ (n <= length r)%nat /\
    (forall x, In x r' -> fst x <> 0 -> In x r) /\ map snd r' = map snd r.
  Proof.
    induction r as [|x r IH]; intros Hm c r' n c'; cbn [cuts_rec].
    - intros H. injection H as <- <- <-. simpl. intuition.
    - specialize (IH (fun y Hy => Hm y (or_intror Hy))).
      assert (Kx : is_kept x = true) by (unfold is_kept; pose proof (Hm x (or_introl eq_refl)); destruct (Z.eqb_spec (fst x) 0); [contradiction|auto]).
      destruct (cut_rec sb loc kb fwd (fst x) (snd x)) as [|k| |]; try discriminate.
      + destruct (cuts_rec sb loc kb fwd r c) as [[|r2 n2|] c2] eqn:Er; try discriminate.
        intros H. injection H as <- <- <-. destruct (IH _ _ _ _ Er) as (A&B&C&D&E). cbn [filter]. rewrite Kx. cbn [length map].
        split; [lia|]. split; [lia|]. split; [lia|]. split; [|congruence]. intros y [<-|Hy] H0; simpl; auto.
      + destruct (cuts_rec sb loc kb fwd r (add_cut 1 k c)) as [[|r2 n2|] c2] eqn:Er; try discriminate.
        intros H. injection H as <- <- <-. destruct (IH _ _ _ _ Er) as (A&B&C&D&E). cbn [filter]. unfold is_kept at 1. cbn [fst Z.eqb negb length map snd].
        split; [lia|]. split; [lia|]. split; [lia|]. split; [|congruence]. intros y [<-|Hy] H0; [simpl in H0; lia|]. simpl; auto.
  Qed.

  Lemma post_erase fwd strong dups nu r s : fst (post_rec sb loc kb cands fwd strong dups nu r s) = post sb loc kb fwd strong dups cands nu r s.
  Proof.
    unfold post_rec, post. rewrite <- (cuts_erase sb loc kb fwd r no_cuts). destruct (cuts_rec sb loc kb fwd r no_cuts) as [[|r1 n1|] c1]; auto.
    cbn [fst]. unfold strong_cut. destruct strong.
    - rewrite <- (strong_erase nu (1 <? nonground r1)%nat r1 s c1). destruct (strong_rec sb cands nu (1 <? nonground r1)%nat r1 s c1) as [[r2 n2 s2| |] c2]; auto.
    - reflexivity.
  Qed.

  Lemma post_follows fwd strong dups nu r s k p : goodb s -> (forall x, In x r -> foa (snd x) = true) -> with_metas r ->
    post_rec sb loc kb cands fwd strong dups nu r s = (k, p) -> (length p < 98)%nat ->
    (forall c, In c p -> valid_in eqc M (cutter_clause c)) -> valid_in eqc M (derived r) ->
    match k with PProof => valid_in eqc M [] | PClause r' => valid_in eqc M (derived r') | _ => True end.
  Proof.
    intros Hs Hf Hm E Hl Ht Hv. unfold post_rec in E.
    destruct (cuts_rec sb loc kb fwd r no_cuts) as [[|r1 n1|] c1] eqn:E1; try (injection E as <- <-; exact Logic.I).
    pose proof (cuts_shape fwd r _ _ _ _ (no_cuts_ok 1) E1) as Hc1.
    destruct (cuts_lengths fwd r Hm _ _ _ _ E1) as (L1&L2&L3&_&S1).
    assert (Hf1 : forall x, In x r1 -> foa (snd x) = true).
    { intros x Hx. assert (Hi : In (snd x) (map snd r)) by (rewrite <- S1; apply in_map; auto).
      apply in_map_iff in Hi as (y&<-&Hy). auto. }
    set (k2 := if strong then strong_rec sb cands nu (1 <? nonground r1)%nat r1 s c1 else (TOk r1 0 s, c1)) in *.
    assert (Hg : prefix (cvec c1) (cvec (snd k2)) /\ cuts_ok 1 (snd k2)).
    { unfold k2. destruct strong; [apply strong_grow; exact Hc1|]. split; [apply prefix_refl|exact Hc1]. }
    destruct k2 as [[r2 n2 s2| |] c2] eqn:E2; try (injection E as <- <-; exact Logic.I). cbn [snd] in Hg. destruct Hg as [Hp Hc2].
    injection E as <- <-. rewrite (read_all 1) in * by exact Hc2.
    assert (Hv1 : valid_in eqc M (unmarked r1)).
    { intros v. apply (cuts_follow sb loc kb eqc M fwd r v Hm no_cuts r1 n1 c1 (no_cuts_ok 1) E1).
      - pose proof (prefix_length _ _ Hp). lia.
      - intros c Hc. apply Ht. apply (prefix_incl _ _ Hp). exact Hc.
      - apply Hv. }
    assert (H2 : valid_in eqc M (unmarked r2) /\ length r2 = length r1 /\ length (filter is_kept r2) = (length (filter is_kept r1) - n2)%nat /\
      (n2 <= length (filter is_kept r1))%nat /\ map snd r2 = map snd r1).
    { unfold k2 in E2. destruct strong.
      - split; [exact (strong_follows nu r1 s c1 r2 n2 s2 c2 Hs Hf1 Hc1 E2 Hl Ht Hv1)|].
        pose proof (strong_loop_shape sb cands nu (1 <? nonground r1)%nat r1 s) as B. rewrite <- (strong_erase nu _ r1 s c1), E2 in B. cbn [fst] in B.
        destruct B as (B1&B2&B3&_&B5). auto.
      - injection E2 as <- <- <- <-. split; [exact Hv1|]. split; [auto|]. split; [lia|]. split; [lia|auto]. }
    destruct H2 as (V2&M1&M2&M3&M4). cbv zeta.
    assert (E3 : (if (0 <? n1)%nat || (0 <? n2)%nat then remove_cuts r2 (n1 + n2) else r2) = filter is_kept r2).
    { destruct ((0 <? n1)%nat || (0 <? n2)%nat) eqn:E.
      - apply remove_cuts_ok. lia.
      - apply orb_false_iff in E as [F1 F2]. apply Nat.ltb_ge in F1, F2.
        assert (Hlen : length (filter is_kept r2) = length r2) by lia.
        clear -Hlen. induction r2 as [|x r2 IH]; simpl in *; auto.
        pose proof (filter_len is_kept r2). destruct (is_kept x); simpl in *; [|lia].
        f_equal. apply IH. lia. }
    rewrite E3. unfold unmarked in V2. destruct (filter is_kept r2) as [|x0 r3'] eqn:E4; [exact V2|].
    destruct (dups && (1 <? length (x0 :: r3'))%nat); [|exact V2].
    destruct (find_duplicates sb (x0 :: r3')) as [r4|] eqn:E5; [|exact Logic.I].
    apply (find_duplicates_ok sb (x0 :: r3') r4); auto. intros x Hx. rewrite <- E4 in Hx. apply filter_In in Hx as [Hx _].
    assert (Hi : In (snd x) (map snd r1)) by (rewrite <- M4; apply in_map; auto).
    apply in_map_iff in Hi as (y&<-&Hy). auto.
  Qed.
End Strong.
