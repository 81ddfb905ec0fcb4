(** Instances of a true clause are true, whatever sane bindings they are built with. *)
From Coq Require Import List ZArith Bool Lia.
From Verif Require Import Terms UnifySpec TermsProof UnifyModel UnifyProof MatchModel MetaModel SubsumeSpec Semantics SemProof
  BuildModel BuildProof DeriveModel DeriveSpec DeriveProof RewriteModel RewriteSpec ShapeProof InstModel.
Import ListNotations.
Open Scope Z_scope.

Section Inst.
  Variable sb : stray_env.
  Variable comp : term -> option term.
  Variable nb : nat.
  Variable S : signature.
  Variable eqc : cst.
  Variable M : interp.
  Hypothesis Htame : comp_tame S comp.
  Hypothesis Hcomp : agrees_with eqc comp M.

  Definition ready (s : vst) : Prop := bgood (start_build s) /\ fine S (start_build s).

  Lemma instance_sound c s d : ready s -> proper c -> stated (instance sb comp 3 nb c s) = Some d ->
    valid_in eqc M (clause_of c) -> valid_in eqc M d.
  Proof.
    intros [Hg _] Pc Hst Hv v. apply finish_stated in Hst as (r&s1&E&->).
    pose proof (result_aux_ok sb comp 3 nb eqc M Hcomp (cl_lits c) 0 None None [] (start_build s) Hg
      (fun l Hl => proj1 (proper_lit _ l Pc Hl)) I) as H.
    rewrite E in H. destruct H as (A&B&C).
    destruct (valuation_exists 3 M s1 v B) as (sg&w&He&R&T&v0&Ew).
    apply (C w v R T I). right. destruct (Hv w) as (l&Hl&Hh). apply in_map_iff in Hl as (x&<-&Hx).
    exists x. auto.
  Qed.

  Lemma instance_neat c s : ready s -> neat_clause S c -> neat_res S 3 (instance sb comp 3 nb c s).
  Proof.
    intros [Hg Hf] Hc. unfold instance. apply finish_neat. intros r s1 E.
    eapply (aux_both S comp 3 Htame sb nb eqc M Hcomp) in E; eauto using neat_nil.
    - destruct E as (A&_&_&B). auto.
    - eapply lits_fine_mono; [|exact Hc]. unfold varsinbank; lia.
    - exact I.
  Qed.

  Lemma left_over_ready s s2 : vgood s -> bank_sig S (bank s) -> left_over s s2 -> ready s2.
  Proof.
    intros (A&B&C&D) Hs L.
    assert (Hv : forall i t, bank s2 i = Some t -> bank s i = Some t \/ (i < first_unreal /\ exists k, 0 <= k < varsinbank /\ t = TVar (first_unreal + k))).
    { intros i t E. destruct (L i) as [H|[H|(Hi&k&Hk&H)]]; try congruence.
      - left. congruence.
      - right. split; auto. exists k. split; auto. congruence. }
    assert (Hb : forall i, first_unreal <= i -> bank s2 i = None).
    { intros i Hi. destruct (L i) as [H|[H|(H&_)]]; auto; [rewrite H; auto|lia]. }
    assert (Hf : bank_fot (bank s2)).
    { intros i t E. destruct (Hv i t E) as [H|(_&k&_&->)]; [eapply C; eauto|reflexivity]. }
    split.
    - split; auto; [|simpl; lia]. destruct A as [rk A].
      exists (fun i => if first_unreal <=? i then 0%nat else Datatypes.S (rk i)). simpl. intros i t j E Hj.
      destruct (Z.leb_spec first_unreal i) as [Hi|Hi]; [rewrite Hb in E by auto; discriminate|].
      destruct (Hv i t E) as [H|(_&k&Hk&->)].
      + destruct (first_unreal <=? j); [lia|]. specialize (A i t j H Hj). lia.
      + destruct Hj as [<-|[]]. destruct (Z.leb_spec first_unreal (first_unreal + k)); lia.
    - split; [simpl; unfold varsinbank; lia|]. simpl. intros i t E.
      destruct (Hv i t E) as [H|(_&k&Hk&->)].
      + split; [eapply Hs; eauto|]. apply (below_mono 0); [unfold varsinbank; lia|]. apply below_real. eapply D; eauto.
      + split; [constructor|]. intros j [<-|[]]. lia.
  Qed.

  Lemma instgen_ready nu x i y j usex s s2 d : blank s -> neat_clause S x -> neat_clause S y ->
    instgen sb comp 3 nb nu x i y j usex s s2 d ->
    ready s2 /\ d = instance sb comp 3 nb (if usex then x else y) s2.
  Proof.
    intros Hs Hx Hy (xl&yl&s'&Ex&Ey&_&Eu&L&_&->). split; auto.
    apply nth_error_In in Ex. apply nth_error_In in Ey.
    destruct (Hx _ Ex) as (X1&X2&_). destruct (Hy _ Ey) as (Y1&Y2&_).
    apply (left_over_ready s'); auto.
    - eapply unify_vgood; [apply blank_vgood; exact Hs| | | | |exact Eu].
      + apply sig_atom_foa in X1. destruct (latom xl); auto; discriminate.
      + apply sig_atom_foa in Y1. destruct (latom yl); auto; discriminate.
      + apply below_real; auto.
      + apply below_real; auto.
    - apply (unify_atom_sig S) in Eu; auto. apply blank_sig; auto.
  Qed.

  Lemma bind_numbers_ready : forall bs s s', ready s -> (forall v c, In (v, c) bs -> v < first_unreal) ->
    bind_numbers bs s = Some s' -> ready s'.
  Proof.
    induction bs as [|[v c] bs IH]; intros s s' Hr Hb; cbn [bind_numbers]; [congruence|].
    destruct (_ || _); [discriminate|]. destruct (bank s v) eqn:Ev; [discriminate|].
    destruct (number c); [|discriminate]. apply IH; [|intros v' c' H; apply (Hb v' c'); simpl; auto].
    pose proof (Hb v c (or_introl eq_refl)) as Hv. destruct Hr as [[A B C D] [F1 F2]]. simpl in *. split.
    - split; simpl; auto.
      + destruct (exhaustive_exists _ A) as [sg Hsg]. apply (acyclic_setvar _ _ _ sg); auto.
      + intros j Hj. destruct (Z.eqb_spec j v); [lia|auto].
      + apply bank_fot_setvar; auto.
    - split; simpl; auto. intros j t. destruct (Z.eqb j v); [|apply F2].
      intros E; injection E as <-. split; [constructor|intros k []].
  Qed.
  Lemma empty_ready : ready empty_vst.
  Proof.
    split.
    - apply vgood_start. apply blank_vgood. intros v. reflexivity.
    - split; [simpl; unfold varsinbank; lia|]. simpl. discriminate.
  Qed.

  Lemma probe_sound c bs d : neat_clause S c -> (forall v e, In (v, e) bs -> v < first_unreal) ->
    stated (probe sb comp 3 nb c bs) = Some d -> valid_in eqc M (clause_of c) -> valid_in eqc M d.
  Proof.
    intros Hc Hb. unfold probe. destruct (_ || _); [discriminate|].
    destruct (bind_numbers bs empty_vst) as [s|] eqn:E; [|discriminate].
    apply bind_numbers_ready in E; auto using empty_ready. intros Hst. apply (instance_sound c s); auto.
    - eapply neat_proper; eauto.
    - destruct (instance sb comp 3 nb c s); auto.
  Qed.
  Lemma probe_neat c bs : neat_clause S c -> (forall v e, In (v, e) bs -> v < first_unreal) ->
    neat_res S 3 (probe sb comp 3 nb c bs).
  Proof.
    intros Hc Hb. unfold probe. destruct (_ || _); [exact I|].
    destruct (bind_numbers bs empty_vst) as [s|] eqn:E; [|exact I].
    apply bind_numbers_ready in E; auto using empty_ready.
    pose proof (instance_neat c s E Hc) as H. destruct (instance sb comp 3 nb c s); auto.
    destruct H as [H _]. split; auto. destruct empty_ready as [[A _ C _] _]. auto.
  Qed.
End Inst.
