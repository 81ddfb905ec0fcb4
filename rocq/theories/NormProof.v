(** Rewritten terms cannot be rewritten. *)
From Coq Require Import List ZArith Bool Lia.
From Verif Require Import Terms UnifySpec TermsProof UnifyModel UnifyProof MatchModel MatchProof TrailProof RewriteModel RewriteSpec RewriteProof
  OrdModel OrdSpec OrdProof OrdThm OrdEnd NormModel NormSpec.
Import ListNotations.
Open Scope Z_scope.

Section N.
  Variable word : cst -> Z.
  Variable m : nat.
  Notation ord0 := (ord0 word).

  Lemma larger_ord l r : larger word l r <-> ord0 l r = 1.
  Proof.
    split; [intros (n&H); symmetry; apply (order_plain word n); exact H|]. intros H. destruct (ord_verdict word l r 1 H) as (n&E). exists n. exact E.
  Qed.
  Lemma ord_nonvar i r : ord0 (TVar i) r <> 1.
  Proof. destruct r; cbn [OrdProof.ord0]; try discriminate. destruct (Zmem _ _); discriminate. Qed.
  Lemma ord_cst c r : ord0 (TCst c) r = 1 -> exists d, r = TCst d.
  Proof. destruct r; cbn [OrdProof.ord0]; try discriminate. eauto. Qed.

  Lemma stored_in eqs l r : In (l, r) (stored word m eqs) -> ord0 l r = 1 /\ (In (l, r) eqs \/ In (r, l) eqs).
  Proof.
    unfold stored. intros H. apply in_flat_map in H. destruct H as ([a b]&I&H). unfold rewriter in H. cbn [fst snd] in H.
    destruct (order_eqterms word m nobind a b) as [v|] eqn:E; [|destruct H]. apply order_plain in E.
    destruct (Z.eqb_spec v 1) as [->|N1]; [|destruct (Z.eqb_spec v 2) as [->|N2]]; cbn [andb] in H.
    - destruct (is_var a); cbn [negb] in H; [destruct (1 =? 2) eqn:X; [discriminate|destruct H]|]. destruct H as [H|[]]. injection H as <- <-. auto.
    - destruct (is_var b); cbn [negb] in H; [destruct H|]. destruct H as [H|[]]. injection H as <- <-. split; [|auto]. rewrite ord_flip, <- E. reflexivity.
    - destruct H.
  Qed.
  Lemma stored_has eqs e l : enough word m eqs -> In e eqs -> larger_side word e l -> exists r, In (l, r) (stored word m eqs).
  Proof.
    intros EN I L. specialize (EN e I). destruct e as [a b]. cbn [fst snd] in *. destruct (order_eqterms word m nobind a b) as [v|] eqn:E; [|congruence]. pose proof (order_plain word m a b v E) as V.
    destruct L as [[-> L]|[-> L]]; apply larger_ord in L.
    - exists b. apply in_flat_map. exists (a, b). split; [exact I|]. unfold rewriter. cbn [fst snd] in *. rewrite E, V, L. cbn [Z.eqb Pos.eqb andb].
      destruct a; cbn [is_var negb]; [exfalso; eapply ord_nonvar; eauto|left; reflexivity|left; reflexivity].
    - exists a. apply in_flat_map. exists (a, b). split; [exact I|]. unfold rewriter. cbn [fst snd] in *. rewrite E, V. rewrite (ord_flip word b a), L. cbn.
      destruct b; cbn [is_var negb]; [exfalso; eapply ord_nonvar; eauto|left; reflexivity|left; reflexivity].
  Qed.

  Variable sb : stray_env.
  Variable comp : term -> option term.
  Variable hash : term -> Z.
  Variables loc kb : list (term * term).
  Hypothesis Hok : terms_ok (loc ++ kb).
  Hypothesis Hen : enough word m (loc ++ kb).
  Variable P : cst -> Prop.
  Hypothesis Hc : computes_simply comp P.
  Let rules := rules_at hash (stored word m loc) (stored word m kb).

  Lemma rules_in k l r : In (l, r) (rules k) -> ord0 l r = 1 /\ headed l /\ headed r.
  Proof.
    intros H. assert (X : exists eqs, incl eqs (loc ++ kb) /\ In (l, r) (stored word m eqs)).
    { unfold rules, rules_at, in_bucket in H. apply in_app_or in H. destruct H as [H|H]; apply filter_In in H; destruct H as [H _]; [exists loc|exists kb]; split; auto; intros e He; apply in_or_app; auto. }
    destruct X as (eqs&IN&H1). apply stored_in in H1. destruct H1 as [O [I|I]]; destruct (Hok _ (IN _ I)); auto.
  Qed.
  Lemma rules_has u : rewritable word (loc ++ kb) u -> exists l r s, In (l, r) (rules (head_of u)) /\ app s l = u.
  Proof.
    intros (e&l&s&I&L&A). assert (X : exists r, In (l, r) (stored word m loc) \/ In (l, r) (stored word m kb)).
    { assert (EL : enough word m loc) by (intros q Q; apply Hen, in_or_app; left; exact Q). assert (EK : enough word m kb) by (intros q Q; apply Hen, in_or_app; right; exact Q).
      apply in_app_or in I. destruct I as [I|I]; [destruct (stored_has _ _ _ EL I L) as (r&R)|destruct (stored_has _ _ _ EK I L) as (r&R)]; eauto. }
    destruct X as (r&X). exists l, r, s. split; [|exact A].
    assert (HL : headed l) by (destruct (Hok e I); destruct L as [[-> _]|[-> _]]; assumption).
    assert (NV : forall i, l <> TVar i) by (intros i ->; destruct L as [[E L]|[E L]]; rewrite <- E in L; apply larger_ord in L; eapply ord_nonvar; eauto).
    assert (HH : head_of u = head_of l).
    { subst u. destruct l as [i|c|fs]; [exfalso; eapply NV; eauto|reflexivity|]. apply headed_rec in HL. destruct HL as [(c&q&->) _]. reflexivity. }
    unfold rules, rules_at, in_bucket. apply in_or_app. rewrite HH. destruct X as [X|X]; [left|right]; apply filter_In; (split; [exact X|apply Z.eqb_refl]).
  Qed.

  Definition settled (t : term) : Prop := forall u, part_of u t -> rewritable word (loc ++ kb) u -> truth u.
  Lemma settled_var i : settled (TVar i).
  Proof.
    intros u [->|H]; [|inversion H]. intros (e&l&s&I&L&A). destruct l; try discriminate. exfalso. destruct L as [[E L]|[E L]]; rewrite <- E in L; apply larger_ord in L; eapply ord_nonvar; eauto.
  Qed.
  Lemma settled_inside t u : inside_of u t -> settled t -> settled u.
  Proof.
    intros H S v V. apply S. right. destruct V as [->|V]; [exact H|]. clear S. induction H as [fs I|fs f I H IH]; [eapply in_deep; eauto|eapply in_deep; eauto].
  Qed.
  Lemma settled_truth t : is_truth t = true -> settled t.
  Proof.
    intros H u [->|I] _.
    - destruct t as [|c|]; try discriminate. destruct c; try discriminate. cbn in H. apply orb_true_iff in H. destruct H as [H|H]; apply Z.eqb_eq in H; subst; [left|right]; reflexivity.
    - destruct t; try discriminate. inversion I.
  Qed.

  Lemma find_none x : forall l, find_rule sb x l = LNone -> forall r, ~ In (x, r) l.
  Proof.
    induction l as [|[a b] l IH]; cbn; [auto|]. pose proof (equal_term_spec sb a x) as E. destruct (equal_term sb a x); try discriminate. intros H r [X|X]; [|eapply IH; eauto].
    injection X as -> ->. apply E. reflexivity.
  Qed.
  Lemma constant_ok n : forall c s t s', rewrite_constant sb rules n (TCst c) s = WOk t s' -> s' = s /\ settled t.
  Proof.
    induction n as [|n IH]; intros c s t s'; cbn [rewrite_constant]; [discriminate|]. destruct (find_rule sb (TCst c) (rules (TCst c))) as [b| |] eqn:E; [| |discriminate].
    - apply find_rule_ok in E. apply rules_in in E. destruct E as [O _]. destruct (ord_cst _ _ O) as (d&->). apply IH.
    - intros [= <- <-]. split; [reflexivity|]. intros u [->|I] R; [|inversion I]. exfalso. apply rules_has in R. destruct R as (l&r&q&I&A). cbn [head_of] in I.
      destruct l as [i|d|fs]; [apply rules_in in I; destruct I as [I _]; eapply ord_nonvar; eauto| |discriminate]. cbn in A. injection A as ->. eapply find_none; eauto.
  Qed.
  Lemma sub_state n : forall x s t s', build_sub comp n x s = WOk t s' -> s' = s.
  Proof.
    induction n as [|n IH]; intros x s t s'; cbn [build_sub]; [discriminate|]. destruct (deref n (bank s) x) as [[i|c|fs]|]; try discriminate; try (intros [= <- <-]; reflexivity).
    assert (L : forall xs s ts s', w_loop (build_sub comp n) xs s = WsOk ts s' -> s' = s).
    { induction xs as [|y ys IHy]; intros s0 ts s1; cbn [w_loop]; [intros [= <- <-]; reflexivity|]. destruct (build_sub comp n y s0) as [t0 s2| | |] eqn:E; try discriminate.
      apply IH in E. subst s2. destruct (w_loop (build_sub comp n) ys s0) as [ts' s3| | |] eqn:El; try discriminate. intros [= <- <-]. eapply IHy; eauto. }
    destruct (w_loop (build_sub comp n) fs s) as [ts s1| | |] eqn:El; try discriminate. apply L in El. subst s1. unfold w_computed. destruct (comp (TRec ts)); [|discriminate]. intros [= <- <-]. reflexivity.
  Qed.

  Definition settles (f : term -> vst -> wres) : Prop := forall x s t s', clean s -> f x s = WOk t s' -> clean s' /\ settled t.
  Lemma clean_match s lhs x r s1 : clean s -> match_term sb lhs x s = MDone r s1 -> clean (clear_varstack s1).
  Proof. intros C E. eapply clean_after; [exact C|eapply match_grown; eauto]. Qed.
  Lemma apply_ok down n rhs s1 t s' : settles down -> clean (clear_varstack s1) -> apply_rule comp down (rewrite_constant sb rules n) n rhs s1 = WOk t s' -> clean s' /\ settled t.
  Proof.
    intros D C. assert (F : forall v, match v with TVar _ => WOk v (clear_varstack s1) | TRec _ => down v (clear_varstack s1) | TCst _ => rewrite_constant sb rules n v (clear_varstack s1) end = WOk t s' -> clean s' /\ settled t).
    { intros [i|c|fs] H.
      - injection H as <- <-. split; [exact C|apply settled_var].
      - apply constant_ok in H. destruct H as [-> H]. auto.
      - apply (D _ _ _ _ C H). }
    destruct rhs as [i|c|fs]; cbn [apply_rule].
    - destruct (bank s1 i) as [v|]; [|discriminate]. apply F.
    - apply (F (TCst c)).
    - destruct (build_sub comp n (TRec fs) s1) as [v s2| | |] eqn:E; try discriminate. apply sub_state in E. subst s2. apply F.
  Qed.
  Lemma try_ok down n x : settles down -> forall l, (forall q, In q l -> In q (rules (head_of x))) -> forall s t s', clean s ->
    try_rules sb comp down (rewrite_constant sb rules n) n x l s = WOk t s' ->
    clean s' /\ (settled t \/ t = x /\ forall lhs rhs q, In (lhs, rhs) l -> app q lhs <> x).
  Proof.
    intros D. induction l as [|[lhs rhs] l IH]; intros HL s t s' C; cbn [try_rules].
    - intros [= <- <-]. split; [exact C|]. right. split; [reflexivity|]. intros ? ? ? [].
    - pose proof (match_never_wrong sb lhs x s) as NW. destruct (match_term sb lhs x s) as [[|] s1|] eqn:E; try discriminate.
      + intros H. apply apply_ok in H; [|exact D|eapply clean_match; eauto]. destruct H as [H1 H2]. auto.
      + intros H. apply IH in H; [|intros; apply HL; right; assumption|eapply clean_match; eauto]. destruct H as [H1 H2]. split; [exact H1|]. destruct H2 as [H2|[H2 H3]]; [auto|]. right. split; [exact H2|].
        intros a b q [X|X]; [injection X as <- <-; apply NW; intros i u B; rewrite (proj1 C) in B; discriminate|apply (H3 _ _ _ X)].
  Qed.
  Lemma fields_settled ts u : Forall settled ts -> inside_of u (TRec ts) -> settled u.
  Proof. intros F H. rewrite Forall_forall in F. inversion H; subst; [auto|]. eapply settled_inside; eauto. Qed.
  Lemma build_settles n : settles (build_rw sb comp rules n).
  Proof.
    induction n as [|n IH]; intros x s t s' C; cbn [build_rw]; [discriminate|]. destruct x as [i|c|fs].
    - intros [= <- <-]. split; [exact C|apply settled_var].
    - intros H. apply constant_ok in H. destruct H as [-> H]. auto.
    - assert (L : forall xs s ts s', clean s -> w_loop (build_rw sb comp rules n) xs s = WsOk ts s' -> clean s' /\ Forall settled ts).
      { induction xs as [|y ys IHy]; intros s0 ts s1 C0; cbn [w_loop]; [intros [= <- <-]; auto|]. destruct (build_rw sb comp rules n y s0) as [t0 s2| | |] eqn:E; try discriminate.
        apply IH in E; [|exact C0]. destruct E as [C2 S2]. destruct (w_loop (build_rw sb comp rules n) ys s2) as [ts' s3| | |] eqn:El; try discriminate. intros [= <- <-].
        apply IHy in El; [|exact C2]. destruct El. auto. }
      destruct (w_loop (build_rw sb comp rules n) fs s) as [ts s1| | |] eqn:El; try discriminate. apply L in El; [|exact C]. destruct El as [C1 F]. unfold w_computed.
      destruct (comp (TRec ts)) as [t0|] eqn:Ec; [|discriminate]. destruct (is_truth t0) eqn:T; [intros [= <- <-]; split; [exact C1|apply settled_truth, T]|].
      intros H. apply try_ok in H; [|exact IH|auto|exact C1]. destruct H as [C2 [S|[-> NM]]]; [auto|]. split; [exact C2|].
      assert (TOP : ~ rewritable word (loc ++ kb) t0) by (intros R; apply rules_has in R; destruct R as (l&r&q&I&A); apply (NM _ _ q I A)).
      destruct (Hc _ _ Ec) as [->|[I|(c&_&->)]].
      + intros u [->|I] R; [contradiction|]. apply (fields_settled ts u F I); [left; reflexivity|exact R].
      + apply (fields_settled ts t0 F I).
      + intros u [->|I] R; [contradiction|inversion I].
  Qed.
End N.
