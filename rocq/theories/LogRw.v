(** Rewriting is justified by the equations it records. *)
From Coq Require Import List ZArith Bool Lia.
From Verif Require Import Terms UnifySpec TermsProof UnifyModel UnifyProof MatchModel MatchProof TrailProof SubsumeSpec
  Semantics SemProof BuildModel DeriveModel RewriteModel RewriteSpec RewriteProof LogModel LogSpec.
Import ListNotations.
Open Scope Z_scope.

Definition prefix {A} (g g' : list A) : Prop := exists d, g' = g ++ d.
Lemma prefix_refl {A} (g : list A) : prefix g g. Proof. exists []. rewrite app_nil_r. auto. Qed.
Lemma prefix_trans {A} (a b c : list A) : prefix a b -> prefix b c -> prefix a c.
Proof. intros [d ->] [e ->]. exists (d ++ e). rewrite app_assoc. auto. Qed.
Lemma prefix_incl {A} (a b : list A) : prefix a b -> incl a b.
Proof. intros [d ->] x Hx. apply in_or_app. auto. Qed.
Lemma prefix_length {A} (a b : list A) : prefix a b -> (length a <= length b)%nat.
Proof. intros [d ->]. rewrite app_length. lia. Qed.

Lemma nrofs : NROF_REWRITE - 4 = 9996.
Proof. reflexivity. Qed.
Lemma add_prefix r g : prefix g (add_rewriter r g).
Proof. unfold add_rewriter. destruct (_ <? _); [exists [r]; auto|apply prefix_refl]. Qed.
Lemma add_in r g g' : prefix (add_rewriter r g) g' -> Z.of_nat (length g') < 9994 -> In r g'.
Proof.
  intros Hp Hl. pose proof (prefix_length _ _ Hp) as H1. pose proof (prefix_length _ _ (add_prefix r g)) as H2.
  apply (prefix_incl _ _ Hp). unfold add_rewriter. rewrite nrofs.
  destruct (Z.ltb_spec (2 + Z.of_nat (length g)) 9996); [|lia]. apply in_or_app. simpl. auto.
Qed.

Section Rw.
  Variable sb : stray_env.
  Variable eqc : cst.
  Variable comp : term -> option term.
  Variable rules : term -> list (term * term).

  (** ** The vector only grows, and the result is that of RewriteModel *)
  Definition grows (f : term -> vst -> rlog -> wres * rlog) : Prop := forall x s g, prefix g (snd (f x s g)).
  Definition erases (f : term -> vst -> rlog -> wres * rlog) (f0 : term -> vst -> wres) : Prop :=
    forall x s g, fst (f x s g) = f0 x s.

  Lemma find_rec_erase x l :
    match find_rec sb x l with
    | QFound r => find_rule sb x l = LFound (snd r) | QNone => find_rule sb x l = LNone | QStray => find_rule sb x l = LStray
    end.
  Proof. induction l as [|[a b] l IH]; simpl; auto. destruct (equal_term sb a x); simpl; auto. Qed.
  Lemma constant_grows n : grows (constant_rec sb rules n).
  Proof.
    induction n as [|n IH]; intros x s g; cbn [constant_rec]; [apply prefix_refl|].
    destruct (find_rec sb x (rules x)); try apply prefix_refl.
    eapply prefix_trans; [apply add_prefix|apply IH].
  Qed.
  Lemma constant_erases n : erases (constant_rec sb rules n) (rewrite_constant sb rules n).
  Proof.
    induction n as [|n IH]; intros x s g; cbn [constant_rec rewrite_constant]; auto.
    pose proof (find_rec_erase x (rules x)) as H. destruct (find_rec sb x (rules x)); rewrite H; simpl; auto.
  Qed.
  Lemma loop_grows f : grows f -> forall xs s g, prefix g (snd (loop_rec f xs s g)).
  Proof.
    intros Hf. induction xs as [|x xs IH]; intros s g; cbn [loop_rec]; [apply prefix_refl|].
    pose proof (Hf x s g) as H. destruct (f x s g) as [[t s1| | |] g1]; try exact H.
    pose proof (IH s1 g1) as H'. destruct (loop_rec f xs s1 g1) as [[ts s2| | |] g2]; eapply prefix_trans; eauto.
  Qed.
  Lemma loop_erases f f0 : erases f f0 -> forall xs s g, fst (loop_rec f xs s g) = w_loop f0 xs s.
  Proof.
    intros Hf. induction xs as [|x xs IH]; intros s g; cbn [loop_rec w_loop]; auto.
    pose proof (Hf x s g) as H. destruct (f x s g) as [[t s1| | |] g1]; simpl in H; rewrite <- H; auto.
    pose proof (IH s1 g1) as H'. destruct (loop_rec f xs s1 g1) as [[ts s2| | |] g2]; simpl in H'; rewrite <- H'; auto.
  Qed.
  Lemma next_grows down rc v s g : grows down -> grows rc -> prefix g (snd (next_rec down rc v s g)).
  Proof. intros H1 H2. destruct v; simpl; auto. apply prefix_refl. Qed.
  Lemma apply_grows down rc n b s g : grows down -> grows rc -> prefix g (snd (apply_rec comp down rc n b s g)).
  Proof.
    intros H1 H2. destruct b as [i|c|fs]; cbn [apply_rec]; auto.
    - destruct (bank s i); [apply next_grows; auto|apply prefix_refl].
    - destruct (build_sub comp n (TRec fs) s); try apply prefix_refl. apply next_grows; auto.
  Qed.
  Lemma apply_erases down rc d0 r0 n b s g : erases down d0 -> erases rc r0 ->
    fst (apply_rec comp down rc n b s g) = apply_rule comp d0 r0 n b s.
  Proof.
    intros H1 H2. assert (H : forall v s, fst (next_rec down rc v s g) = match v with TVar _ => WOk v s | TRec _ => d0 v s | TCst _ => r0 v s end).
    { intros [i|c|fs] s0; simpl; auto. }
    destruct b as [i|c|fs]; cbn [apply_rec apply_rule]; auto.
    - destruct (bank s i); auto.
    - destruct (build_sub comp n (TRec fs) s); auto.
  Qed.
  Lemma try_grows down rc n x : grows down -> grows rc -> forall l s g, prefix g (snd (try_rec sb comp down rc n x l s g)).
  Proof.
    intros H1 H2. induction l as [|[a b] l IH]; intros s g; cbn [try_rec]; [apply prefix_refl|].
    destruct (match_term sb a x s) as [[|] s1|]; auto; [|apply prefix_refl].
    eapply prefix_trans; [apply add_prefix|apply apply_grows; auto].
  Qed.
  Lemma try_erases down rc d0 r0 n x : erases down d0 -> erases rc r0 -> forall l s g,
    fst (try_rec sb comp down rc n x l s g) = try_rules sb comp d0 r0 n x l s.
  Proof.
    intros H1 H2. induction l as [|[a b] l IH]; intros s g; cbn [try_rec try_rules]; auto.
    destruct (match_term sb a x s) as [[|] s1|]; auto. apply apply_erases; auto.
  Qed.
  Lemma build_grows n : grows (build_rec sb comp rules n).
  Proof.
    induction n as [|n IH]; intros x s g; cbn [build_rec]; [apply prefix_refl|].
    destruct x as [i|c|fs]; [apply prefix_refl|apply constant_grows|].
    pose proof (loop_grows _ IH fs s g) as H. destruct (loop_rec (build_rec sb comp rules n) fs s g) as [[ts s1| | |] g1]; try exact H.
    destruct (w_computed comp ts s1) as [t s2| | |]; try exact H. destruct (is_truth t); [exact H|].
    eapply prefix_trans; [exact H|apply try_grows; auto using constant_grows].
  Qed.
  Lemma build_erases n : erases (build_rec sb comp rules n) (build_rw sb comp rules n).
  Proof.
    induction n as [|n IH]; intros x s g; cbn [build_rec build_rw]; auto.
    destruct x as [i|c|fs]; auto; [apply constant_erases|].
    pose proof (loop_erases _ _ IH fs s g) as H. destruct (loop_rec (build_rec sb comp rules n) fs s g) as [[ts s1| | |] g1];
      simpl in H; rewrite <- H; auto.
    destruct (w_computed comp ts s1) as [t s2| | |]; auto. destruct (is_truth t); auto.
    apply try_erases; auto using constant_erases.
  Qed.

  (** ** What is recorded is enough *)
  Variable M : interp.
  Variable S : signature.
  Variable rv : Z -> Prop.
  Hypothesis Hrules : forall k rule, In rule (rules k) -> usable S rv rule.
  Hypothesis Hcomp : agrees_with eqc comp M.
  Hypothesis Htame : comp_tame S comp.
  Notation same := (same M S).

  Definition fits (g : rlog) : Prop := Z.of_nat (length g) < 9994 /\ forall q, In q g -> rule_true M q.
  Lemma fits_prefix g g' : prefix g g' -> fits g' -> fits g.
  Proof. intros Hp [A B]. pose proof (prefix_length _ _ Hp). split; [lia|]. intros q Hq. apply B. apply (prefix_incl _ _ Hp). auto. Qed.
  Lemma fits_added r g g' : prefix (add_rewriter r g) g' -> fits g' -> rule_true M r.
  Proof. intros Hp [A B]. apply B. eapply add_in; eauto. Qed.

  Definition goesr (f : term -> vst -> rlog -> wres * rlog) : Prop :=
    forall x s g t s' g', clean s -> sig_term S x -> apart rv x -> f x s g = (WOk t s', g') -> fits g' -> clean s' /\ same x t.

  Lemma find_rec_ok x l r : find_rec sb x l = QFound r -> In r l /\ fst r = x.
  Proof.
    induction l as [|[a b] l IH]; simpl; [discriminate|].
    pose proof (equal_term_spec sb a x) as He. destruct (equal_term sb a x); intros E; try discriminate.
    - injection E as <-. auto.
    - apply IH in E as [A B]. auto.
  Qed.
  Lemma constant_goes n : goesr (constant_rec sb rules n).
  Proof.
    induction n as [|n IH]; intros x s g t s' g' Hs Hx Ha; cbn [constant_rec]; [discriminate|].
    destruct (find_rec sb x (rules x)) as [r| |] eqn:E; [| |discriminate].
    - apply find_rec_ok in E as [Ei Ex]. intros H Hf.
      pose proof (constant_grows n (snd r) s (add_rewriter r g)) as Hg. rewrite H in Hg. simpl in Hg.
      pose proof (fits_added _ _ _ Hg Hf) as Ht.
      pose proof (Hrules _ _ Ei) as Hu. destruct r as [a b]. simpl in Ex. subst a. destruct Hu as (A&B&C&_).
      assert (Hsame : same x b). { split; [exact B|]. split; [exact C|]. intros v. symmetry. apply Ht. }
      apply IH in H as [A' B']; auto.
      + split; auto. eapply same_trans; eauto.
      + eapply same_apart; eauto.
    - intros H _. injection H as <- <- <-. split; auto. apply same_refl. auto.
  Qed.

  Lemma log_dec : forall a b : rlog, {a = b} + {a <> b}.
  Proof. apply list_eq_dec. intros [a b] [c d]. destruct (term_eq_dec a c), (term_eq_dec b d); [left|right|right|right]; congruence. Qed.
  (** A run that ends with the vector [g'] *)
  Definition ending (f : term -> vst -> rlog -> wres * rlog) (g g' : rlog) (x : term) (s : vst) : wres :=
    if log_dec (snd (f x s g)) g' then fst (f x s g) else WFuel.
  Lemma ending_goes f g g' : goesr f -> fits g' -> goes M S rv (ending f g g').
  Proof.
    intros Hf Hg x s t s' Hs Hx Ha. unfold ending. destruct (log_dec (snd (f x s g)) g') as [E|]; [|discriminate].
    intros H. apply (Hf x s g t s' g'); auto. destruct (f x s g); simpl in *; congruence.
  Qed.
  Lemma apply_goes down rc n lhs rhs x s s1 g t s' g' : goesr down -> goesr rc ->
    clean s -> sig_term S x -> apart rv x -> usable S rv (lhs, rhs) -> rule_true M (lhs, rhs) ->
    match_term sb lhs x s = MDone true s1 -> apply_rec comp down rc n rhs s1 g = (WOk t s', g') -> fits g' -> clean s' /\ same x t.
  Proof.
    intros Hd Hr Hs Hx Ha Hu Ht Em E Hg.
    apply (apply_rule_ok sb eqc comp M S rv Hcomp Htame (ending down g g') (ending rc g g') n lhs rhs x s s1 t s'); auto using ending_goes.
    assert (Hn : forall v s, next_rec down rc v s g = (WOk t s', g') ->
      match v with TVar _ => WOk v s | TRec _ => ending down g g' v s | TCst _ => ending rc g g' v s end = WOk t s').
    { intros [i|c|fs] s0; cbn [next_rec]; intros H; [congruence| |]; unfold ending; rewrite H; cbn [fst snd];
        (destruct (log_dec g' g'); [auto|contradiction]). }
    destruct rhs as [i|c|fs]; cbn [apply_rec apply_rule] in *.
    - destruct (bank s1 i); [|discriminate]. apply Hn. auto.
    - apply (Hn (TCst c)). auto.
    - destruct (build_sub comp n (TRec fs) s1); try discriminate. apply Hn. auto.
  Qed.
  Lemma try_goes down rc n x : goesr down -> goesr rc -> grows down -> grows rc -> sig_term S x -> apart rv x ->
    forall l s g t s' g', (forall rule, In rule l -> usable S rv rule) -> clean s ->
    try_rec sb comp down rc n x l s g = (WOk t s', g') -> fits g' -> clean s' /\ same x t.
  Proof.
    intros Hd Hr Gd Gr Hx Hax. induction l as [|[a b] l IH]; intros s g t s' g' Hl Hs; cbn [try_rec].
    - intros H _; injection H as <- <- <-. split; auto. apply same_refl; auto.
    - pose proof (Hl _ (or_introl eq_refl)) as U.
      destruct (match_term sb a x s) as [[|] s1|] eqn:Em; try discriminate.
      + intros H Hf. pose proof (apply_grows down rc n b s1 (add_rewriter (a, b) g) Gd Gr) as G. rewrite H in G.
        exact (apply_goes down rc n a b x s s1 _ t s' g' Hd Hr Hs Hx Hax U (fits_added _ _ _ G Hf) Em H Hf).
      + apply IH; [intros; apply Hl; simpl; auto|]. eapply clean_after; [eauto|eapply match_grown; eauto].
  Qed.
  Lemma loop_goes f c args s g ts s' g' : goesr f -> grows f ->
    (forall s g t s' g', f (TCst c) s g = (WOk t s', g') -> t = TCst c /\ s' = s) ->
    clean s -> (forall x, In x args -> sig_term S x /\ apart rv x) ->
    loop_rec f (TCst c :: args) s g = (WsOk ts s', g') -> fits g' ->
    exists args', ts = TCst c :: args' /\ clean s' /\ Forall2 same args args'.
  Proof.
    intros Hf Gf Hc Hs Ha. cbn [loop_rec]. destruct (f (TCst c) s g) as [[t s1| | |] g1] eqn:E; try discriminate.
    apply Hc in E as [-> ->].
    assert (Hl : forall xs s g ts s' g', clean s -> (forall x, In x xs -> sig_term S x /\ apart rv x) ->
      loop_rec f xs s g = (WsOk ts s', g') -> fits g' -> clean s' /\ Forall2 same xs ts).
    { clear -Hf Gf. induction xs as [|y ys IHy]; intros s0 g0 ts0 s1 g1 Hs0 Hys; cbn [loop_rec].
      - intros H _; injection H as <- <- <-. auto.
      - destruct (f y s0 g0) as [[t0 s2| | |] g2] eqn:Ey; try discriminate.
        destruct (Hys y (or_introl eq_refl)) as [Y1 Y2].
        pose proof (loop_grows f Gf ys s2 g2) as Gl.
        destruct (loop_rec f ys s2 g2) as [[ts' s3| | |] g3] eqn:El; try discriminate.
        intros H Hfit; injection H as <- <- <-. simpl in Gl.
        destruct (Hf _ _ _ _ _ _ Hs0 Y1 Y2 Ey (fits_prefix _ _ Gl Hfit)) as [Hs2 Hy].
        destruct (IHy _ _ _ _ _ Hs2 (fun x Hx => Hys x (or_intror Hx)) El Hfit) as [Hs3 Hys']. auto. }
    destruct (loop_rec f args s g1) as [[ts' s3| | |] g3] eqn:El; try discriminate.
    intros H Hfit; injection H as <- <- <-. apply Hl in El as [A B]; eauto.
  Qed.
  Lemma symbol_rec n c s g t s' g' : fn S c \/ (exists k, pr S c k) -> constant_rec sb rules n (TCst c) s g = (WOk t s', g') ->
    t = TCst c /\ s' = s.
  Proof.
    intros Hc H. pose proof (constant_erases n (TCst c) s g) as E. rewrite H in E. simpl in E. symmetry in E.
    eapply rewrite_symbol; eauto.
  Qed.

  Lemma build_goes n : goesr (build_rec sb comp rules n).
  Proof.
    induction n as [|n IH]; intros x s g t s' g' Hs Hx Ha; cbn [build_rec]; [discriminate|].
    destruct x as [i|c|fs].
    - intros H _; injection H as <- <- <-. split; auto. apply same_refl; auto.
    - intros H Hf. apply constant_goes in H; auto.
    - inversion Hx as [| |c args Hc Hargs E]; subst fs.
      destruct (loop_rec (build_rec sb comp rules n) (TCst c :: args) s g) as [[ts s1| | |] g1] eqn:El; try discriminate.
      destruct (w_computed comp ts s1) as [t0 s2| | |] eqn:Ec; try discriminate.
      intros H Hf.
      assert (Hf1 : fits g1).
      { destruct (is_truth t0); [injection H as <- <- <-; auto|].
        pose proof (try_grows (build_rec sb comp rules n) (constant_rec sb rules n) n t0 (build_grows n) (constant_grows n) (rules (head_of t0)) s2 g1) as G.
        rewrite H in G. eapply fits_prefix; eauto. }
      apply loop_goes in El; auto using build_grows.
      + destruct El as (args'&->&Hs1&Hsame). apply Forall2_same in Hsame as (S1&S2&S3).
        assert (Hst : sig_term S (TRec (TCst c :: args'))) by (constructor; auto).
        assert (Hx' : same (TRec (TCst c :: args)) (TRec (TCst c :: args'))).
        { split; auto. split; auto. intros v. simpl. rewrite S3. auto. }
        apply (computed_ok eqc comp M S Hcomp Htame) in Ec as [-> Ec]; auto.
        assert (H0 : same (TRec (TCst c :: args)) t0) by (eapply same_trans; eauto).
        destruct (is_truth t0).
        * injection H as <- <- <-. auto.
        * apply try_goes in H as [A B]; auto using constant_goes, build_grows, constant_grows.
          -- split; auto. eapply same_trans; eauto.
          -- apply H0.
          -- eapply same_apart; eauto.
          -- intros rule Hr. eapply Hrules; eauto.
      + intros u g0 t1 u' g0' Hu. destruct n; cbn [build_rec] in Hu; [discriminate|]. apply symbol_rec in Hu; eauto.
      + intros y Hy. rewrite Forall_forall in Hargs. split; auto. eapply apart_args; eauto.
  Qed.

  Lemma atom_rec down rc d0 r0 n c args k : erases down d0 -> erases rc r0 -> pr S c k -> forall l s g t s' g',
    (forall rule, In rule l -> usable S rv rule) -> clean s ->
    try_rec sb comp down rc n (TRec (TCst c :: args)) l s g = (WOk t s', g') -> clean s' /\ t = TRec (TCst c :: args).
  Proof.
    intros Ed Er Hp l s g t s' g' Hl Hs H. pose proof (try_erases down rc d0 r0 n (TRec (TCst c :: args)) Ed Er l s g) as E.
    rewrite H in E. simpl in E. symmetry in E. eapply no_rule_for_atom; eauto.
  Qed.

  Lemma build_atom n x s g t s' g' : clean s -> sig_atom S x -> apart rv x -> build_rec sb comp rules n x s g = (WOk t s', g') -> fits g' ->
    forall v, holds eqc M v t <-> holds eqc M v x.
  Proof.
    intros Hs Hx Ha. destruct n as [|n]; cbn [build_rec]; [discriminate|].
    inversion Hx as [c Hc E|c args Hc Hargs E]; subst x.
    - intros H _. apply symbol_rec in H as [-> ->]; eauto. tauto.
    - destruct (loop_rec (build_rec sb comp rules n) (TCst c :: args) s g) as [[ts s1| | |] g1] eqn:El; try discriminate.
      destruct (w_computed comp ts s1) as [t0 s2| | |] eqn:Ec; try discriminate.
      intros H Hf.
      assert (Hf1 : fits g1).
      { destruct (is_truth t0); [injection H as <- <- <-; auto|].
        pose proof (try_grows (build_rec sb comp rules n) (constant_rec sb rules n) n t0 (build_grows n) (constant_grows n) (rules (head_of t0)) s2 g1) as G.
        rewrite H in G. eapply fits_prefix; eauto. }
      apply loop_goes in El; auto using build_goes, build_grows.
      + destruct El as (args'&->&Hs1&Hsame). assert (Hlen : length args = length args') by (clear -Hsame; induction Hsame; simpl; congruence). apply Forall2_same in Hsame as (S1&S2&S3).
        assert (Hst : sig_atom S (TRec (TCst c :: args'))) by (constructor; auto; rewrite <- Hlen; auto).
        assert (Hh : forall v, holds eqc M v (TRec (TCst c :: args')) <-> holds eqc M v (TRec (TCst c :: args))).
        { intros v. apply holds_cong. auto. }
        unfold w_computed in Ec. destruct (comp (TRec (TCst c :: args'))) as [t1|] eqn:Ec'; [|discriminate].
        injection Ec as -> ->.
        destruct (Htame _ _ Ec') as (T1&_&T2). specialize (T2 Hst).
        assert (H0 : forall v, holds eqc M v t0 <-> holds eqc M v (TRec (TCst c :: args))).
        { intros v. rewrite (proj2 (Hcomp _ _ Ec' v)). auto. }
        destruct (is_truth t0) eqn:Eq.
        * injection H as <- <- <-. auto.
        * destruct T2 as [->|[->|(gs&->&A)]]; try discriminate.
          inversion A as [|c' args0 Hc' Hargs0 E']; subst gs.
          apply (atom_rec _ _ _ _ _ c' args0 _ (build_erases n) (constant_erases n) Hc') in H as [B ->]; auto.
          intros rule Hr. eapply Hrules; eauto.
      + intros u g0 t1 u' g0' Hu. destruct n; cbn [build_rec] in Hu; [discriminate|]. apply symbol_rec in Hu; eauto.
      + intros y Hy. rewrite Forall_forall in Hargs. split; auto. eapply apart_args; eauto.
  Qed.
End Rw.
