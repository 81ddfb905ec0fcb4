(** Rewriting keeps the value of terms and the truth of atoms. *)
From Coq Require Import List ZArith Bool Lia.
From Verif Require Import Terms UnifySpec TermsProof UnifyModel UnifyProof MatchModel MatchProof TrailProof SubsumeSpec
  Semantics SemProof BuildModel RewriteModel RewriteSpec.
Import ListNotations.
Open Scope Z_scope.

Section Rw.
  Variable sb : stray_env.
  Variable eqc : cst.
  Variable comp : term -> option term.
  Variable rules : term -> list (term * term).
  Variable M : interp.
  Variable S : signature.
  Variable rv : Z -> Prop.
  Hypothesis Hrules : forall k rule, In rule (rules k) -> usable S rv rule.
  Hypothesis Htrue : forall k rule, In rule (rules k) -> rule_true M rule.
  Hypothesis Hcomp : agrees_with eqc comp M.
  Hypothesis Htame : comp_tame S comp.

  Lemma clean_consistent s : clean s -> consistent s.
  Proof. intros [H1 H2]. unfold consistent. rewrite H2. split; [constructor|]. intros i. rewrite H1. simpl. tauto. Qed.

  Lemma clean_after s s' : clean s -> grown s s' -> clean (clear_varstack s').
  Proof. intros H G. apply clear_ok. eapply grown_consistent; [apply clean_consistent|]; eauto. Qed.

  Lemma sig_fot t : sig_term S t -> fot t = true.
  Proof.
    induction t as [i|c|fs IH] using term_ind'; intros H; auto. inversion H as [| |c args Hf Ha E]; subst. simpl.
    apply forallb_forall. intros x Hx. rewrite Forall_forall in IH, Ha. apply IH; simpl; auto.
  Qed.
  Lemma sig_args c args x : sig_term S (TRec (TCst c :: args)) -> In x args -> sig_term S x.
  Proof. intros H Hx. inversion H; subst. rewrite Forall_forall in *. auto. Qed.

  (** [t] may stand for [x]. *)
  Definition same (x t : term) : Prop :=
    sig_term S t /\ (forall i, In i (tvars t) -> In i (tvars x)) /\ forall v, eval M v t = eval M v x.

  Lemma same_refl x : sig_term S x -> same x x.
  Proof. repeat split; auto. Qed.
  Lemma same_trans x y z : same x y -> same y z -> same x z.
  Proof. intros (A&B&C) (D&E&F). split; [auto|]. split; [auto|]. intros v. rewrite F. auto. Qed.

  Lemma find_rule_ok x l b : find_rule sb x l = LFound b -> In (x, b) l.
  Proof.
    induction l as [|[lhs rhs] l IH]; simpl; [discriminate|].
    pose proof (equal_term_spec sb lhs x) as He.
    destruct (equal_term sb lhs x); intros E; try discriminate.
    - injection E as <-. subst. auto.
    - auto.
  Qed.

  Lemma rewrite_constant_ok n : forall x s t s', sig_term S x -> rewrite_constant sb rules n x s = WOk t s' ->
    s' = s /\ same x t.
  Proof.
    induction n as [|n IH]; intros x s t s' Hx; cbn [rewrite_constant]; [discriminate|].
    destruct (find_rule sb x (rules x)) as [b| |] eqn:E; [| |discriminate].
    - apply find_rule_ok in E. intros H.
      pose proof (Hrules _ _ E) as (A&B&C&_). apply IH in H as [-> H]; auto. split; auto.
      eapply same_trans; [|exact H]. split; [auto|]. split; auto.
      intros v. symmetry. apply (Htrue _ _ E).
    - intros H. injection H as <- <-. split; auto using same_refl.
  Qed.

  (** Symbols are not rewritten. *)
  Lemma rewrite_symbol n c s t s' : fn S c \/ (exists k, pr S c k) -> rewrite_constant sb rules n (TCst c) s = WOk t s' ->
    t = TCst c /\ s' = s.
  Proof.
    intros Hc. destruct n as [|n]; cbn [rewrite_constant]; [discriminate|].
    destruct (find_rule sb (TCst c) (rules (TCst c))) as [b| |] eqn:E; [| |discriminate].
    - apply find_rule_ok in E. pose proof (Hrules _ _ E) as (_&_&_&_&A&B). destruct Hc as [Hc|[k Hc]]; [contradiction|]. exfalso. apply (B k). auto.
    - intros H. injection H as <- <-. auto.
  Qed.

  Lemma computed_ok ts s t s' : sig_term S (TRec ts) -> w_computed comp ts s = WOk t s' -> s' = s /\ same (TRec ts) t.
  Proof.
    unfold w_computed. intros Hs. destruct (comp (TRec ts)) as [t0|] eqn:E; [|discriminate].
    intros H. injection H as <- <-. split; auto.
    destruct (Htame _ _ E) as (A&B&_). split; auto. split; auto. intros v. apply (Hcomp _ _ E).
  Qed.

  (** ** Instantiating the right side *)
  Section Sub.
    Variable b : Z -> option term.
    Variable V : Z -> Prop.
    Hypothesis Hb : forall i t, b i = Some t -> sig_term S t /\ forall j, In j (tvars t) -> V j.
    Variable w : Z -> dom M.
    Hypothesis Hw : respects M w b.

    Lemma deref_ok n : forall x t, deref n b x = Some t -> sig_term S x -> (forall i, In i (tvars x) -> b i <> None \/ V i) ->
      sig_term S t /\ (forall i, In i (tvars t) -> b i <> None \/ V i) /\ (forall i, t = TVar i -> b i = None) /\
      eval M w t = eval M w x.
    Proof.
      intros x t E Hx Hv. split; [|split; [|split]].
      - revert x t E Hx Hv. assert (H : forall i t, varval n b i = Some t -> sig_term S t).
        { induction n as [|n IH]; intros i t; simpl; [discriminate|].
          destruct (b i) as [u|] eqn:E; [|intros H; injection H as <-; constructor].
          destruct u; intros H; try (injection H as <-; apply (Hb _ _ E)). eauto. }
        intros [i|c|fs] t E Hx Hv; simpl in E; try (injection E as <-; auto). eauto.
      - revert x t E Hx Hv. assert (H : forall i t, varval n b i = Some t -> (b i <> None \/ V i) -> forall j, In j (tvars t) -> b j <> None \/ V j).
        { induction n as [|n IH]; intros i t; simpl; [discriminate|].
          destruct (b i) as [u|] eqn:E.
          - destruct (Hb _ _ E) as [_ Hu]. destruct u as [k|c|fs]; intros H _ j Hj.
            + apply (IH k t H); auto. right. apply Hu. simpl; auto.
            + injection H as <-. destruct Hj.
            + injection H as <-. right. apply Hu. auto.
          - intros H Hi j. injection H as <-. simpl. intros [<-|[]]. rewrite E. destruct Hi; [congruence|auto]. }
        intros [i|c|fs] t E Hx Hv; simpl in E; try (injection E as <-; auto; fail).
        apply (H i t E). apply Hv. simpl; auto.
      - intros i ->. destruct x as [k|c|fs]; simpl in E; try discriminate.
        clear -E. revert k E. induction n as [|n IH]; intros k; simpl; [discriminate|].
        destruct (b k) as [u|] eqn:Eb; [destruct u; try discriminate; apply IH|].
        intros H; injection H as <-; auto.
      - eapply respects_deref; eauto.
    Qed.

    Definition sub_ok (x t : term) : Prop :=
      sig_term S t /\ (forall i, In i (tvars t) -> V i) /\ eval M w t = eval M w x.

    Lemma build_sub_ok n : forall x s t s', bank s = b -> sig_term S x -> (forall i, In i (tvars x) -> b i <> None \/ V i) ->
      build_sub comp n x s = WOk t s' -> s' = s /\ sub_ok x t.
    Proof.
      induction n as [|n IH]; intros x s t s' Es Hx Hv; cbn [build_sub]; [discriminate|].
      rewrite Es. destruct (deref n b x) as [u|] eqn:Ed; [|discriminate].
      destruct (deref_ok n x u Ed Hx Hv) as (A&B&C&D).
      destruct u as [i|c|fs].
      - intros H; injection H as <- <-. split; auto. split; auto. split; auto.
        intros j [<-|[]]. destruct (B i) as [H|H]; simpl; auto. exfalso; apply H; auto.
      - intros H; injection H as <- <-. split; auto. split; auto. split; auto. intros j [].
      - inversion A as [| |c args Hc Ha E]; subst fs.
        cbn [w_loop]. destruct n as [|n']; [discriminate|].
        change (build_sub comp (Datatypes.S n') (TCst c) s) with (WOk (TCst c) s). cbv iota.
        assert (Hl : forall xs s ts s', bank s = b -> (forall x, In x xs -> sig_term S x /\ forall i, In i (tvars x) -> b i <> None \/ V i) ->
          w_loop (build_sub comp (Datatypes.S n')) xs s = WsOk ts s' -> s' = s /\ Forall2 sub_ok xs ts).
        { induction xs as [|y ys IHy]; intros s0 ts s1 Es0 Hys; cbn [w_loop].
          - intros H; injection H as <- <-. auto.
          - destruct (build_sub comp (Datatypes.S n') y s0) as [t0 s2| | |] eqn:Ey; try discriminate.
            destruct (Hys y (or_introl eq_refl)) as [Y1 Y2].
            apply IH in Ey as [-> Hy]; auto.
            destruct (w_loop (build_sub comp (Datatypes.S n')) ys s0) as [ts' s3| | |] eqn:El; try discriminate.
            intros H; injection H as <- <-. apply IHy in El as [-> Hys']; auto. intros; apply Hys; simpl; auto. }
        destruct (w_loop (build_sub comp (Datatypes.S n')) args s) as [ts s1| | |] eqn:El; try discriminate.
        apply Hl in El as [-> Hts]; auto.
        + intros H.
          assert (Hst : sig_term S (TRec (TCst c :: ts))).
          { constructor; auto. clear -Hts. induction Hts as [|x y xs ys H1 H2 IH']; constructor; auto. apply H1. }
          apply computed_ok in H as [-> H]; auto. split; auto.
          destruct H as (H1&H2&H3). split; auto. split.
          * intros i Hi. apply H2 in Hi. simpl in Hi. clear -Hi Hts.
            induction Hts as [|x y xs ys H1 H2 IH']; simpl in Hi; [destruct Hi|]. apply in_app_or in Hi as [Hi|Hi]; auto.
            apply H1; auto.
          * rewrite H3, <- D. simpl. f_equal. clear -Hts. induction Hts as [|x y xs ys H1 H2 IH']; simpl; auto.
            f_equal; auto. apply H1.
        + intros x0 Hx0. split; [rewrite Forall_forall in Ha; auto|]. intros i Hi. apply B. simpl.
          apply in_flat_map. exists x0. auto.
    Qed.
  End Sub.


  Definition goes (f : term -> vst -> wres) : Prop :=
    forall x s t s', clean s -> sig_term S x -> apart rv x -> f x s = WOk t s' -> clean s' /\ same x t.

  Lemma same_apart x t : apart rv x -> same x t -> apart rv t.
  Proof. intros A (_&B&_) i Hi. auto. Qed.

  Lemma apply_rule_ok down rc n lhs rhs x s s1 t s' : goes down -> goes rc ->
    clean s -> sig_term S x -> apart rv x -> usable S rv (lhs, rhs) -> rule_true M (lhs, rhs) ->
    match_term sb lhs x s = MDone true s1 ->
    apply_rule comp down rc n rhs s1 = WOk t s' -> clean s' /\ same x t.
  Proof.
    intros Hd Hr Hs Hx Hax (U1&U2&U3&U4&_) Ht Em.
    pose proof (match_bindings sb lhs x s s1 Em) as (B1&B2&B3).
    assert (Hc : clean (clear_varstack s1)) by (eapply clean_after; [eauto|eapply match_grown; eauto]).
    set (tau := fun i => match bank s1 i with Some u => u | None => TVar i end).
    destruct (B3 tau) as [_ Etau]. { intros i u E. unfold tau. rewrite E. auto. }
    assert (Hsub : forall i u, In i (tvars lhs) -> bank s1 i = Some u -> sig_term S u /\ forall j, In j (tvars u) -> In j (tvars x)).
    { intros i u Hi E. assert (Eu : tau i = u) by (unfold tau; rewrite E; auto).
      rewrite <- Etau in Hx |- *. clear -Hi Eu Hx U1. rewrite <- Eu.
      induction lhs as [k|c|fs IH] using term_ind'.
      - destruct Hi as [<-|[]]. simpl. auto.
      - destruct Hi.
      - inversion U1 as [| |c args Hc Ha E]; subst fs. simpl in Hi.
        apply in_flat_map in Hi as (y&Hy&Hi). rewrite Forall_forall in IH, Ha.
        destruct (IH y) as [A B]; auto.
        + simpl; auto.
        + eapply sig_args; [exact Hx|]. simpl. apply in_map. auto.
        + split; auto. intros j Hj. simpl. apply in_flat_map. exists (app tau y). split; [apply in_map; auto|auto]. }
    assert (Hbk : forall i u, bank s1 i = Some u -> sig_term S u /\ forall j, In j (tvars u) -> In j (tvars x)).
    { intros i u E. destruct (in_dec Z.eq_dec i (tvars lhs)) as [Hi|Hi]; [eauto|].
      rewrite B2, (proj1 Hs) in E; auto. discriminate. }
    assert (Hunb : forall i, In i (tvars x) -> bank s1 i = None).
    { intros i Hi. rewrite B2; [apply (proj1 Hs)|]. intros Hl. apply (Hax i Hi). auto. }
    (* values *)
    set (wv := fun (v : Z -> dom M) i => match bank s1 i with Some u => eval M v u | None => v i end).
    assert (Hwx : forall v u, (forall j, In j (tvars u) -> In j (tvars x)) -> eval M (wv v) u = eval M v u).
    { intros v u Hu. apply eval_ext. intros i Hi. unfold wv. rewrite Hunb; auto. }
    assert (Hlhs : forall v, eval M (wv v) lhs = eval M v x).
    { intros v. rewrite <- Etau, eval_app by (apply sig_fot; auto). apply eval_ext. intros i _. unfold wv, tau.
      destruct (bank s1 i); reflexivity. }
    assert (Hfin : forall u, sig_term S u -> (forall j, In j (tvars u) -> In j (tvars x)) ->
       (forall v, eval M (wv v) u = eval M (wv v) rhs) -> same x u).
    { intros u A B C. split; auto. split; auto. intros v. rewrite <- (Hwx v u B), C, <- Hlhs.
      symmetry. apply Ht. }
    assert (Hdone : forall u, same x u ->
      match u with
      | TVar _ => WOk u (clear_varstack s1)
      | TRec _ => down u (clear_varstack s1)
      | TCst _ => rc u (clear_varstack s1)
      end = WOk t s' -> clean s' /\ same x t).
    { intros u Hu. destruct u as [i|c|fs]; intros H.
      - injection H as <- <-. auto.
      - apply Hr in H as [A B]; auto; [split; eauto using same_trans|apply Hu|eapply same_apart; eauto].
      - apply Hd in H as [A B]; auto; [split; eauto using same_trans|apply Hu|eapply same_apart; eauto]. }
    destruct rhs as [i|c|fs]; cbn [apply_rule].
    - destruct (bank s1 i) as [u|] eqn:Eu; [|discriminate]. apply Hdone.
      destruct (Hbk i u Eu) as [A B]. apply Hfin; auto. intros v. rewrite Hwx; auto. simpl. unfold wv. rewrite Eu. auto.
    - apply (Hdone (TCst c)). apply Hfin; auto. intros j [].
    - destruct (build_sub comp n (TRec fs) s1) as [u s2| | |] eqn:Eb; try discriminate.
      assert (Hok : forall v, s2 = s1 /\ sub_ok (fun i => In i (tvars x)) (wv v) (TRec fs) u).
      { intros v. apply (build_sub_ok (bank s1) (fun i => In i (tvars x)) Hbk (wv v)) with (n := n); auto.
        intros k z Ez. unfold wv at 1. rewrite Ez. symmetry. apply Hwx. apply (Hbk k z Ez). }
      assert (Hne : inhabited (Z -> dom M)) by (constructor; exact (fun _ => icst M atrue)).
      destruct Hne as [v0]. destruct (Hok v0) as [-> (A&B&_)]. apply Hdone. apply Hfin; auto.
      intros v. apply (Hok v).
  Qed.

  Lemma try_rules_ok down rc n x : goes down -> goes rc -> sig_term S x -> apart rv x ->
    forall l s t s', (forall rule, In rule l -> usable S rv rule /\ rule_true M rule) -> clean s ->
    try_rules sb comp down rc n x l s = WOk t s' -> clean s' /\ same x t.
  Proof.
    intros Hd Hr Hx Hax. induction l as [|[lhs rhs] l IH]; intros s t s' Hl Hs; cbn [try_rules].
    - intros H; injection H as <- <-. split; auto using same_refl.
    - destruct (Hl _ (or_introl eq_refl)) as [U T].
      destruct (match_term sb lhs x s) as [[|] s1|] eqn:Em; try discriminate.
      + eapply apply_rule_ok; eauto.
      + apply IH; [intros; apply Hl; simpl; auto|]. eapply clean_after; [eauto|eapply match_grown; eauto].
  Qed.

  Lemma goes_loop f c args s ts s' : goes f ->
    (forall s t s', f (TCst c) s = WOk t s' -> t = TCst c /\ s' = s) ->
    clean s -> (forall x, In x args -> sig_term S x /\ apart rv x) ->
    w_loop f (TCst c :: args) s = WsOk ts s' ->
    exists args', ts = TCst c :: args' /\ clean s' /\ Forall2 same args args'.
  Proof.
    intros Hf Hc Hs Ha. cbn [w_loop]. destruct (f (TCst c) s) as [t s1| | |] eqn:E; try discriminate.
    apply Hc in E as [-> ->].
    assert (Hl : forall xs s ts s', clean s -> (forall x, In x xs -> sig_term S x /\ apart rv x) ->
      w_loop f xs s = WsOk ts s' -> clean s' /\ Forall2 same xs ts).
    { induction xs as [|y ys IHy]; intros s0 ts0 s1 Hs0 Hys; cbn [w_loop].
      - intros H; injection H as <- <-. auto.
      - destruct (f y s0) as [t0 s2| | |] eqn:Ey; try discriminate.
        destruct (Hys y (or_introl eq_refl)) as [Y1 Y2].
        apply Hf in Ey as [Hs2 Hy]; auto.
        destruct (w_loop f ys s2) as [ts' s3| | |] eqn:El; try discriminate.
        intros H; injection H as <- <-. apply IHy in El as [Hs3 Hys']; auto. intros; apply Hys; simpl; auto. }
    destruct (w_loop f args s) as [ts' s3| | |] eqn:El; try discriminate.
    intros H; injection H as <- <-. apply Hl in El as [A B]; eauto.
  Qed.

  Lemma Forall2_same args args' : Forall2 same args args' ->
    Forall (sig_term S) args' /\ (forall i, In i (flat_map tvars args') -> In i (flat_map tvars args)) /\
    forall v, map (eval M v) args' = map (eval M v) args.
  Proof.
    induction 1 as [|x y xs ys (A&B&C) H2 (IH1&IH2&IH3)]; simpl; [auto|]. split; [constructor; auto|]. split.
    - intros i Hi. apply in_or_app. apply in_app_or in Hi as [Hi|Hi]; auto.
    - intros v. rewrite C, IH3. auto.
  Qed.

  Lemma apart_args c args x : apart rv (TRec (TCst c :: args)) -> In x args -> apart rv x.
  Proof. intros H Hx i Hi. apply H. simpl. apply in_flat_map. eauto. Qed.

  Lemma build_rw_goes n : goes (build_rw sb comp rules n).
  Proof.
    induction n as [|n IH]; intros x s t s' Hs Hx Ha; cbn [build_rw]; [discriminate|].
    destruct x as [i|c|fs].
    - intros H; injection H as <- <-. split; auto using same_refl.
    - intros H. apply rewrite_constant_ok in H as [-> H]; auto.
    - inversion Hx as [| |c args Hc Hargs E]; subst fs.
      destruct (w_loop (build_rw sb comp rules n) (TCst c :: args) s) as [ts s1| | |] eqn:El; try discriminate.
      apply goes_loop in El; auto.
      + destruct El as (args'&->&Hs1&Hsame). apply Forall2_same in Hsame as (S1&S2&S3).
        assert (Hst : sig_term S (TRec (TCst c :: args'))) by (constructor; auto).
        assert (Hx' : same (TRec (TCst c :: args)) (TRec (TCst c :: args'))).
        { split; auto. split; auto. intros v. simpl. rewrite S3. auto. }
        destruct (w_computed comp (TCst c :: args') s1) as [t0 s2| | |] eqn:Ec; try discriminate.
        apply computed_ok in Ec as [-> Ec]; auto.
        assert (H0 : same (TRec (TCst c :: args)) t0) by eauto using same_trans.
        destruct (is_truth t0).
        * intros H; injection H as <- <-. auto.
        * intros H. apply try_rules_ok in H as [A B]; auto.
          -- split; eauto using same_trans.
          -- intros y u t1 u' Hu Hy _ Hy'. apply rewrite_constant_ok in Hy' as [-> Hy']; auto.
          -- apply H0.
          -- eapply same_apart; eauto.
          -- intros rule Hr. split; eauto.
      + intros u t0 u' Hu. destruct n; cbn [build_rw] in Hu; [discriminate|]. apply rewrite_symbol in Hu; eauto.
      + intros y Hy. rewrite Forall_forall in Hargs. split; auto. eapply apart_args; eauto.
  Qed.

  Lemma build_rw_term n x s t s' : clean s -> sig_term S x -> apart rv x -> build_rw sb comp rules n x s = WOk t s' ->
    clean s' /\ sig_term S t /\ (forall i, In i (tvars t) -> In i (tvars x)) /\ forall v, eval M v t = eval M v x.
  Proof. intros A B C D. apply build_rw_goes in D as (E&F&G&H); auto. Qed.

  Lemma no_rule_for_atom down rc n c args k : pr S c k -> forall l s t s',
    (forall rule, In rule l -> usable S rv rule) -> clean s ->
    try_rules sb comp down rc n (TRec (TCst c :: args)) l s = WOk t s' -> clean s' /\ t = TRec (TCst c :: args).
  Proof.
    intros Hp. induction l as [|[lhs rhs] l IH]; intros s t s' Hl Hs; cbn [try_rules].
    - intros H; injection H as <- <-. auto.
    - destruct (Hl _ (or_introl eq_refl)) as (U1&U2&U3&U4&U5).
      destruct (match_term sb lhs (TRec (TCst c :: args)) s) as [[|] s1|] eqn:Em; try discriminate.
      + exfalso. pose proof (match_bindings _ _ _ _ _ Em) as (_&_&B3).
        destruct (B3 (fun i => match bank s1 i with Some u => u | None => TVar i end)) as [_ E].
        { intros i u E. rewrite E. auto. }
        destruct lhs as [i|c'|fs]; [contradiction|discriminate|].
        destruct fs as [|[i|c'|gs] fs]; try contradiction. simpl in E. injection E as -> _. apply (U5 k). auto.
      + apply IH; [intros; apply Hl; simpl; auto|]. eapply clean_after; [eauto|eapply match_grown; eauto].
  Qed.

  Lemma build_rw_atom n x s t s' : clean s -> sig_atom S x -> apart rv x -> build_rw sb comp rules n x s = WOk t s' ->
    clean s' /\ (t = TCst atrue \/ t = TCst afalse \/ sig_atom S t) /\
    (forall i, In i (tvars t) -> In i (tvars x)) /\ forall v, holds eqc M v t <-> holds eqc M v x.
  Proof.
    intros Hs Hx Ha. destruct n as [|n]; cbn [build_rw]; [discriminate|].
    inversion Hx as [c Hc E|c args Hc Hargs E]; subst x.
    - intros H. apply rewrite_symbol in H as [-> ->]; eauto. split; [auto|]. split; [auto|]. split; [auto|]. tauto.
    - destruct (w_loop (build_rw sb comp rules n) (TCst c :: args) s) as [ts s1| | |] eqn:El; try discriminate.
      apply goes_loop in El; auto using build_rw_goes.
      + destruct El as (args'&->&Hs1&Hsame). assert (Hlen : length args = length args') by (clear -Hsame; induction Hsame; simpl; congruence). apply Forall2_same in Hsame as (S1&S2&S3).
        assert (Hst : sig_atom S (TRec (TCst c :: args'))) by (constructor; auto; rewrite <- Hlen; auto).
        assert (Hh : forall v, holds eqc M v (TRec (TCst c :: args')) <-> holds eqc M v (TRec (TCst c :: args))).
        { intros v. apply holds_cong. auto. }
        unfold w_computed. destruct (comp (TRec (TCst c :: args'))) as [t0|] eqn:Ec; [|discriminate].
        destruct (Htame _ _ Ec) as (T1&_&T2). specialize (T2 Hst).
        assert (H0 : forall v, holds eqc M v t0 <-> holds eqc M v (TRec (TCst c :: args))).
        { intros v. rewrite (proj2 (Hcomp _ _ Ec v)). auto. }
        assert (Hv0 : forall i, In i (tvars t0) -> In i (tvars (TRec (TCst c :: args)))).
        { intros i Hi. apply T1 in Hi. simpl in *. auto. }
        destruct (is_truth t0) eqn:Eq.
        * intros H; injection H as <- <-. split; auto. split; auto. destruct T2 as [->|[->|(gs&->&A)]]; auto.
        * destruct T2 as [->|[->|(gs&->&A)]]; try discriminate.
          inversion A as [|c' args0 Hc' Hargs0 E']; subst gs.
          intros H. apply (no_rule_for_atom _ _ _ c' args0 _ Hc') in H as [B ->]; auto.
          intros rule Hr. eapply Hrules; eauto.
      + intros u t0 u' Hu. destruct n; cbn [build_rw] in Hu; [discriminate|]. apply rewrite_symbol in Hu; eauto.
      + intros y Hy. rewrite Forall_forall in Hargs. split; auto. eapply apart_args; eauto.
  Qed.
End Rw.
