(** Only clauses that are there are recorded. *)
From Coq Require Import List ZArith Bool Lia.
From Verif Require Import Terms UnifyModel MatchModel MetaModel SubsumeSpec Semantics BuildModel DeriveModel DeriveSpec
  CutModel CutSpec DupModel SimpModel RewriteModel RewriteSpec LogModel LogSpec.
Import ListNotations.
Open Scope Z_scope.

Section Rw.
  Variable sb : stray_env.
  Variable comp : term -> option term.
  Variable rules : term -> list (term * term).
  Definition known (g : rlog) : Prop := forall q, In q g -> exists k, In q (rules k).
  Definition stays (f : term -> vst -> rlog -> wres * rlog) : Prop := forall x s g, known g -> known (snd (f x s g)).

  Lemma add_known r g k : In r (rules k) -> known g -> known (add_rewriter r g).
  Proof. intros Hr Hg q. unfold add_rewriter. destruct (_ <? _); auto. intros Hq. apply in_app_or in Hq as [Hq|[<-|[]]]; eauto. Qed.
  Lemma find_rec_in x l r : find_rec sb x l = QFound r -> In r l.
  Proof.
    induction l as [|[a b] l IH]; simpl; [discriminate|]. destruct (equal_term sb a x); intros E; try discriminate; auto.
    injection E as <-. auto.
  Qed.
  Lemma constant_stays n : stays (constant_rec sb rules n).
  Proof.
    induction n as [|n IH]; intros x s g Hg; cbn [constant_rec]; auto.
    destruct (find_rec sb x (rules x)) eqn:E; auto. apply IH. eapply add_known; eauto. eapply find_rec_in; eauto.
  Qed.
  Lemma loop_stays f : stays f -> forall xs s g, known g -> known (snd (loop_rec f xs s g)).
  Proof.
    intros Hf. induction xs as [|x xs IH]; intros s g Hg; cbn [loop_rec]; auto.
    pose proof (Hf x s g Hg) as H. destruct (f x s g) as [[t s1| | |] g1]; auto.
    pose proof (IH s1 g1 H) as H'. destruct (loop_rec f xs s1 g1) as [[ts s2| | |] g2]; auto.
  Qed.
  Lemma apply_stays down rc n b s g : stays down -> stays rc -> known g -> known (snd (apply_rec comp down rc n b s g)).
  Proof.
    intros H1 H2 Hg. assert (Hn : forall v s, known (snd (next_rec down rc v s g))) by (intros [i|c|fs] s0; simpl; auto).
    destruct b as [i|c|fs]; cbn [apply_rec]; auto.
    - destruct (bank s i); auto.
    - destruct (build_sub comp n (TRec fs) s); auto.
  Qed.
  Lemma try_stays down rc n x k : stays down -> stays rc -> forall l s g, incl l (rules k) -> known g ->
    known (snd (try_rec sb comp down rc n x l s g)).
  Proof.
    intros H1 H2. induction l as [|[a b] l IH]; intros s g Hl Hg; cbn [try_rec]; auto.
    destruct (match_term sb a x s) as [[|] s1|]; auto.
    - apply apply_stays; auto. eapply add_known; eauto. apply Hl. simpl. auto.
    - apply IH; auto. intros q Hq. apply Hl. simpl. auto.
  Qed.
  Lemma build_stays n : stays (build_rec sb comp rules n).
  Proof.
    induction n as [|n IH]; intros x s g Hg; cbn [build_rec]; auto.
    destruct x as [i|c|fs]; auto; [apply constant_stays; auto|].
    pose proof (loop_stays _ IH fs s g Hg) as H. destruct (loop_rec (build_rec sb comp rules n) fs s g) as [[ts s1| | |] g1]; auto.
    destruct (w_computed comp ts s1) as [t s2| | |]; auto. destruct (is_truth t); auto.
    apply try_stays with (k := head_of t); auto using constant_stays, incl_refl.
  Qed.
End Rw.

Section Cut.
  Variable sb : stray_env.
  Variable loc : ustore.
  Variable kb : option ustore.
  Variable dbl : Z -> term -> list (clit * clit).
  Variable cands : bool -> term -> list term.
  Notation there := (is_there loc kb dbl cands).
  Definition all_there (c : cuts) : Prop := forall k, In k (cvec c) -> there k.

  Lemma add_there slack k c : there k -> all_there c -> all_there (add_cut slack k c).
  Proof.
    intros Hk Hc q. unfold add_cut. cbv zeta. cbn [cvec]. destruct (_ <? _)%nat; auto.
    intros Hq. apply in_app_or in Hq as [Hq|[<-|[]]]; auto.
  Qed.
  Lemma find_in a us u : find_unit sb a us = UFound u -> In u us.
  Proof.
    induction us as [|w us IH]; simpl; [discriminate|]. destruct (equal_term sb a w); intros E; try discriminate; auto.
    injection E as <-. auto.
  Qed.
  Lemma opposite_in meta u x : In x (opposite_sign meta u) -> In [(negb (meta_is_neg meta), x)] (unit_clauses u).
  Proof.
    unfold opposite_sign, unit_clauses. intros H. apply in_or_app. destruct (meta_is_neg meta); simpl; [left|right].
    - exact (in_map (fun a => [(false, a)]) _ _ H).
    - exact (in_map (fun a => [(true, a)]) _ _ H).
  Qed.
  Lemma cut_there fwd meta a k : cut_rec sb loc kb fwd meta a = RCut k -> there k.
  Proof.
    unfold cut_rec. destruct (if fwd then find_unit sb a (same_sign meta loc) else UNone); try discriminate.
    destruct (if fwd then find_kb sb kb a (same_sign meta) else UNone); try discriminate.
    destruct (find_unit sb a (opposite_sign meta loc)) eqn:E; try discriminate.
    - intros H; injection H as <-. left. apply in_or_app. left. apply opposite_in. eapply find_in; eauto.
    - destruct (find_kb sb kb a (opposite_sign meta)) eqn:E2; try discriminate.
      intros H; injection H as <-. left. apply in_or_app. right. unfold find_kb in E2. destruct kb as [k0|]; [|discriminate].
      apply opposite_in. eapply find_in; eauto.
  Qed.
  Lemma double_there w m xcl ds y0 y1 : double_rec sb w m xcl ds = DFound y0 y1 -> In (y0, y1) ds.
  Proof.
    induction ds as [|[z0 z1] ds IH]; simpl; [discriminate|].
    destruct (doublecut_aux sb w m xcl z0 z1); intros H; try discriminate; auto. injection H as <- <-. auto.
  Qed.

  Variable rules : term -> list (term * term).
  Variable rw : clit -> rlog -> rwres * rlog.
  Hypothesis Hrw : forall l g, known rules g -> known rules (snd (rw l g)).
  Definition good_st (s : st) : Prop := all_there (fst s) /\ known rules (snd s).
  Lemma lit_there xcl many dc ch meta w t go s : good_st s -> (forall dc s, good_st s -> good_st (snd (go dc s))) ->
    good_st (snd (lit_rec sb loc kb dbl xcl many dc ch meta w t go s)).
  Proof.
    intros [Hs1 Hs2] Hgo. unfold lit_rec. destruct (cut_rec sb loc kb (many || ch) meta t) as [|k| |] eqn:Ec; try (split; assumption).
    - destruct (negb dc && many).
      + destruct (double_rec sb w meta xcl (dbl meta t)) as [y0 y1| |] eqn:Ed; [| |split; assumption].
        * unfold fmap. cbn [snd]. apply Hgo. split; [|exact Hs2]. apply add_there; [|exact Hs1]. apply double_there in Ed. exists meta, t. exact Ed.
        * apply Hgo. split; assumption.
      + apply Hgo. split; assumption.
    - apply Hgo. split; [|exact Hs2]. apply add_there; [|exact Hs1]. eapply cut_there; eauto.
  Qed.
  Lemma loop_there xcl many ls : forall dc s, good_st s -> good_st (snd (loop_simp sb loc kb rw dbl xcl many ls dc s)).
  Proof.
    induction ls as [|l ls IH]; intros dc s Hs; cbn [loop_simp]; auto. cbv zeta.
    pose proof (Hrw l (snd s) (proj2 Hs)) as H. destruct (rw l (snd s)) as [[| |w t ch] g]; cbn [snd] in H.
    - apply lit_there; auto. split; [apply Hs|exact H].
    - split; [apply Hs|exact H].
    - assert (Hg : good_st (fst s, g)) by (split; [apply Hs|exact H]).
      destruct (term_eq_dec t (TCst atrue)); [|destruct (term_eq_dec t (TCst afalse))].
      + destruct (meta_is_neg (lmeta l)); auto. unfold fmap. cbn [snd]. auto.
      + destruct (meta_is_neg (lmeta l)); auto. unfold fmap. cbn [snd]. auto.
      + apply lit_there; auto.
  Qed.
  Lemma read_there c k : all_there c -> In k (read_cuts c) -> there k.
  Proof. intros H Hk. apply H. unfold read_cuts in Hk. rewrite <- (firstn_skipn (NROF_CUT - 1) (cvec c)). apply in_or_app. auto. Qed.
  Lemma simplify_there c r p : simplify_rec sb loc kb rw dbl c = (r, p) ->
    (forall k, In k (p_cutters p) -> there k) /\ known rules (p_rewriters p).
  Proof.
    assert (Hn : known rules []) by (intros q []).
    assert (Hh : forall s, good_st s -> (forall k, In k (p_cutters (history s)) -> there k) /\ known rules (p_rewriters (history s))).
    { intros s [A B]. split; [|exact B]. intros k. apply read_there. exact A. }
    assert (Ht : forall g, known rules g -> good_st (no_cuts, g)) by (intros g Hg; split; [intros k []|exact Hg]).
    destruct c as [w a|ls]; cbn [simplify_rec].
    - pose proof (Hrw {| lmeta := 4; lword := w; latom := a |} [] Hn) as H.
      destruct (rw {| lmeta := 4; lword := w; latom := a |} []) as [[| |w' t ch] g]; cbn [snd] in H.
      + intros E; injection E as <- <-. auto.
      + intros E; injection E as <- <-. auto.
      + destruct (term_eq_dec t (TCst atrue)); [|destruct (term_eq_dec t (TCst afalse)); [|destruct ch]]; intros E; injection E as <- <-; auto.
    - cbv zeta. intros E; injection E as <- <-. apply Hh. apply loop_there. apply Ht. exact Hn.
  Qed.

  Lemma cuts_there fwd r : forall c, all_there c -> all_there (snd (cuts_rec sb loc kb fwd r c)).
  Proof.
    induction r as [|x r IH]; intros c Hc; cbn [cuts_rec]; auto.
    destruct (cut_rec sb loc kb fwd (fst x) (snd x)) as [|k| |] eqn:E; auto.
    - pose proof (IH c Hc) as H. destruct (cuts_rec sb loc kb fwd r c) as [[| |] c2]; auto.
    - pose proof (IH (add_cut 1 k c) (add_there 1 k c (cut_there _ _ _ _ E) Hc)) as H.
      destruct (cuts_rec sb loc kb fwd r (add_cut 1 k c)) as [[| |] c2]; auto.
  Qed.
  Lemma strong_in nu um x ys : forall s y s', strong_atom_rec sb nu um x ys s = FFound y s' -> In y ys.
  Proof.
    induction ys as [|z ys IH]; intros s y s'; cbn [strong_atom_rec]; [discriminate|]. destruct um.
    - destruct (match_term sb z x s) as [[|] s1|]; intros H; try discriminate; [injection H as <- _; simpl; auto|right; eauto].
    - destruct (unify_term nu x z s) as [[|] s1|]; intros H; try discriminate; [injection H as <- _; simpl; auto|right; eauto].
  Qed.
  Lemma strong_there nu um r : forall s c, all_there c -> all_there (snd (strong_rec sb cands nu um r s c)).
  Proof.
    induction r as [|x r IH]; intros s c Hc; cbn [strong_rec]; auto. destruct (fst x =? 0).
    - pose proof (IH s c Hc) as H. destruct (strong_rec sb cands nu um r s c) as [[| |] c2]; auto.
    - destruct (strong_atom_rec _ _ _ _ _ _) as [y s1|s1| |] eqn:E; auto.
      + apply strong_in in E. pose proof (IH s1 (add_cut 1 (KUnit (negb (meta_is_neg (fst x))) y) c)) as H.
        assert (H' : all_there (snd (strong_rec sb cands nu um r s1 (add_cut 1 (KUnit (negb (meta_is_neg (fst x))) y) c)))).
        { apply H. apply add_there; [|exact Hc]. right. eauto. }
        destruct (strong_rec sb cands nu um r s1 _) as [[| |] c2]; auto.
      + pose proof (IH s1 c Hc) as H. destruct (strong_rec sb cands nu um r s1 c) as [[| |] c2]; auto.
  Qed.
  Lemma post_there fwd strong dups nu r s k p : post_rec sb loc kb cands fwd strong dups nu r s = (k, p) -> forall c, In c p -> there c.
  Proof.
    unfold post_rec. assert (H0 : all_there no_cuts) by (intros c []).
    pose proof (cuts_there fwd r no_cuts H0) as H1.
    destruct (cuts_rec sb loc kb fwd r no_cuts) as [[|r1 n1|] c1]; cbn [snd] in H1; try (intros E; injection E as <- <-; intros c; apply read_there; exact H1).
    set (k2 := if strong then strong_rec sb cands nu (1 <? nonground r1)%nat r1 s c1 else (TOk r1 0 s, c1)) in *.
    assert (H2 : all_there (snd k2)) by (unfold k2; destruct strong; [apply strong_there|]; exact H1).
    destruct k2 as [[r2 n2 s2| |] c2]; cbn [snd] in H2; intros E; injection E as <- <-; intros c; apply read_there; exact H2.
  Qed.
End Cut.
