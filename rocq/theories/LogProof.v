(** Simplified and cut clauses follow from what is recorded. *)
From Coq Require Import List ZArith Bool Lia.
From Verif Require Import Terms UnifySpec TermsProof UnifyModel MatchModel MatchProof MetaModel SubsumeSpec Semantics SemProof
  BuildModel DeriveModel DeriveSpec CutModel CutSpec CutProof SimpModel SimpSpec SimpProof RewriteModel RewriteSpec LogModel LogSpec LogRw.
Import ListNotations.
Open Scope Z_scope.

(** ** The vector of cutters: [lim] are recorded *)
Definition cuts_ok (slack : nat) (c : cuts) : Prop := length (cvec c) = Nat.min (ncuts c) (99 - slack).
Lemma no_cuts_ok slack : cuts_ok slack no_cuts. Proof. reflexivity. Qed.
Lemma add_cut_prefix slack k c : prefix (cvec c) (cvec (add_cut slack k c)).
Proof. unfold add_cut. cbv zeta. simpl cvec. destruct (_ <? _)%nat; [exists [k]; auto|apply prefix_refl]. Qed.
Lemma add_cut_ok slack k c : (slack < 99)%nat -> cuts_ok slack c -> cuts_ok slack (add_cut slack k c).
Proof.
  unfold cuts_ok, add_cut. cbv zeta. cbn [ncuts cvec]. intros Hs H.
  change NROF_CUT with 100%nat. destruct (Nat.ltb_spec (S (ncuts c) + slack) 100).
  - rewrite app_length, H. change (length [k]) with 1%nat. lia.
  - rewrite H. lia.
Qed.
Lemma add_cut_in slack k c c' : (slack < 99)%nat -> cuts_ok slack c -> prefix (cvec (add_cut slack k c)) (cvec c') ->
  (length (cvec c') < 99 - slack)%nat -> In k (cvec c').
Proof.
  intros Hs Hc Hp Hl. pose proof (prefix_length _ _ Hp) as H1. pose proof (add_cut_ok slack k c Hs Hc) as H2. unfold cuts_ok in H2.
  apply (prefix_incl _ _ Hp). rewrite H2 in H1. unfold add_cut in *. cbv zeta in *. cbn [ncuts cvec] in *.
  change NROF_CUT with 100%nat in *. destruct (Nat.ltb_spec (S (ncuts c) + slack) 100); [|lia]. apply in_or_app. simpl. auto.
Qed.
Lemma read_all slack c : cuts_ok slack c -> read_cuts c = cvec c.
Proof. unfold cuts_ok, read_cuts. intros H. apply firstn_all2. change (NROF_CUT - 1)%nat with 99%nat. lia. Qed.

Section Log.
  Variable sb : stray_env.
  Variable loc : ustore.
  Variable kb : option ustore.

  Lemma find_unit_erase a us :
    in_units sb a us = match find_unit sb a us with UFound _ => EYes | UNone => ENo | UStray => EStray end.
  Proof. induction us as [|u us IH]; simpl; auto. destruct (equal_term sb a u); auto. Qed.
  Lemma find_kb_erase a f :
    in_kb sb a kb f = match find_kb sb kb a f with UFound _ => EYes | UNone => ENo | UStray => EStray end.
  Proof. unfold in_kb, find_kb. destruct kb; auto. apply find_unit_erase. Qed.
  Lemma find_unit_ok a us u : find_unit sb a us = UFound u -> u = a.
  Proof.
    induction us as [|w us IH]; simpl; [discriminate|].
    pose proof (equal_term_spec sb a w) as He. destruct (equal_term sb a w); intros E; try discriminate; auto.
    injection E as <-. auto.
  Qed.
  Lemma find_kb_ok a f u : find_kb sb kb a f = UFound u -> u = a.
  Proof. unfold find_kb. destruct kb; [apply find_unit_ok|discriminate]. Qed.

  Lemma cut_rec_erase fwd meta a :
    cut_lit sb fwd loc kb meta a =
    match cut_rec sb loc kb fwd meta a with RNo => CNo | RCut _ => CYes | RSubsumed => CSubsumed | RStray => CStray end.
  Proof.
    unfold cut_lit, cut_rec. rewrite !find_unit_erase, !find_kb_erase.
    destruct fwd; repeat match goal with |- context [match ?x with UFound _ => _ | UNone => _ | UStray => _ end] => destruct x; auto end.
  Qed.
  Lemma cut_rec_ok fwd meta a k : cut_rec sb loc kb fwd meta a = RCut k -> k = KUnit (negb (meta_is_neg meta)) a.
  Proof.
    unfold cut_rec. destruct (if fwd then find_unit sb a (same_sign meta loc) else UNone); try discriminate.
    destruct (if fwd then find_kb sb kb a (same_sign meta) else UNone); try discriminate.
    destruct (find_unit sb a (opposite_sign meta loc)) eqn:E; try discriminate.
    - intros H; injection H as <-. apply find_unit_ok in E. congruence.
    - destruct (find_kb sb kb a (opposite_sign meta)) eqn:E2; try discriminate.
      intros H; injection H as <-. apply find_kb_ok in E2. congruence.
  Qed.
  Lemma double_rec_erase w m xcl ds :
    doublecut sb w m xcl ds = match double_rec sb w m xcl ds with DFound _ _ => EYes | DNone => ENo | DStray => EStray end.
  Proof. induction ds as [|[y0 y1] ds IH]; simpl; auto. destruct (doublecut_aux sb w m xcl y0 y1); auto. Qed.
  Lemma double_rec_ok w m xcl ds y0 y1 : double_rec sb w m xcl ds = DFound y0 y1 -> doublecut sb w m xcl [(y0, y1)] = EYes.
  Proof.
    induction ds as [|[z0 z1] ds IH]; simpl; [discriminate|].
    destruct (doublecut_aux sb w m xcl z0 z1) eqn:E; intros H; try discriminate.
    - injection H as <- <-. rewrite E. auto.
    - auto.
  Qed.

  (** ** The result is that of SimpModel *)
  Section Erase.
    Variable rw : clit -> rlog -> rwres * rlog.
    Variable rw0 : clit -> rwres.
    Variable dbl : Z -> term -> list (clit * clit).
    Hypothesis Hrw : forall l g, fst (rw l g) = rw0 l.
    Lemma lit_erase xcl many dc ch meta w t go go0 s : (forall dc s, fst (go dc s) = go0 dc) ->
      fst (lit_rec sb loc kb dbl xcl many dc ch meta w t go s) = simp_lit sb loc kb dbl xcl many dc ch meta w t go0.
    Proof.
      intros Hg. unfold lit_rec, simp_lit. rewrite cut_rec_erase. destruct (cut_rec sb loc kb (many || ch) meta t); auto.
      - rewrite double_rec_erase. destruct (negb dc && many).
        + destruct (double_rec sb w meta xcl (dbl meta t)); unfold fmap; simpl; rewrite ?Hg; auto.
        + unfold fmap; simpl. rewrite Hg. auto.
      - unfold fmap; simpl. rewrite Hg. auto.
    Qed.
    Lemma loop_erase xcl many ls : forall dc s, fst (loop_simp sb loc kb rw dbl xcl many ls dc s) = simp_loop sb loc kb rw0 dbl xcl many ls dc.
    Proof.
      induction ls as [|l ls IH]; intros dc s; cbn [loop_simp simp_loop]; auto. cbv zeta.
      pose proof (Hrw l (snd s)) as H. destruct (rw l (snd s)) as [[| |w t ch] g]; simpl in H; rewrite <- H; auto.
      - apply lit_erase. exact IH.
      - destruct (term_eq_dec t (TCst atrue)); [|destruct (term_eq_dec t (TCst afalse))].
        + destruct (meta_is_neg (lmeta l)); auto. unfold fmap. simpl. rewrite IH. auto.
        + destruct (meta_is_neg (lmeta l)); auto. unfold fmap. simpl. rewrite IH. auto.
        + apply lit_erase. exact IH.
    Qed.
    Lemma simplify_erase c : fst (simplify_rec sb loc kb rw dbl c) = simplify sb loc kb rw0 dbl c.
    Proof.
      destruct c as [w a|ls]; cbn [simplify_rec simplify].
      - pose proof (Hrw {| lmeta := 4; lword := w; latom := a |} []) as H.
        destruct (rw {| lmeta := 4; lword := w; latom := a |} []) as [[| |w' t ch] g]; simpl in H; rewrite <- H; auto.
        destruct (term_eq_dec t (TCst atrue)); auto. destruct (term_eq_dec t (TCst afalse)); auto. destruct ch; auto.
      - cbv zeta. cbn [fst]. rewrite loop_erase. reflexivity.
    Qed.
  End Erase.
  Lemma cuts_erase fwd r : forall c, fst (cuts_rec sb loc kb fwd r c) = cut_and_subsume sb fwd loc kb r.
  Proof.
    induction r as [|x r IH]; intros c; cbn [cuts_rec cut_and_subsume]; auto. rewrite cut_rec_erase.
    destruct (cut_rec sb loc kb fwd (fst x) (snd x)) as [|k| |]; auto.
    - rewrite <- (IH c). destruct (cuts_rec sb loc kb fwd r c) as [[| |] c2]; auto.
    - rewrite <- (IH (add_cut 1 k c)). destruct (cuts_rec sb loc kb fwd r (add_cut 1 k c)) as [[| |] c2]; auto.
  Qed.

  (** ** What is recorded is enough *)
  Variable eqc : cst.
  Variable M : interp.
  Notation holdsl := (lit_holds eqc M).
  Notation holdsc := (clause_holds eqc M).
  Definition cutters_true (c : cuts) : Prop := forall k, In k (cvec c) -> valid_in eqc M (cutter_clause k).

  Lemma unit_cuts neg a v : valid_in eqc M (cutter_clause (KUnit (negb neg) a)) -> ~ holdsl v (neg, a).
  Proof.
    intros H. destruct (H v) as (l&[<-|[]]&Hl). unfold lit_holds in *. simpl in *. destruct neg; simpl in *; tauto.
  Qed.

  Lemma cuts_grow fwd r : forall c, prefix (cvec c) (cvec (snd (cuts_rec sb loc kb fwd r c))).
  Proof.
    induction r as [|x r IH]; intros c; cbn [cuts_rec]; [apply prefix_refl|].
    destruct (cut_rec sb loc kb fwd (fst x) (snd x)) as [|k| |]; try apply prefix_refl.
    - pose proof (IH c) as H. destruct (cuts_rec sb loc kb fwd r c) as [[| |] c2]; exact H.
    - pose proof (IH (add_cut 1 k c)) as H. pose proof (prefix_trans _ _ _ (add_cut_prefix 1 k c) H) as H'.
      destruct (cuts_rec sb loc kb fwd r (add_cut 1 k c)) as [[| |] c2]; exact H'.
  Qed.
  Lemma cuts_follow fwd r v : with_metas r -> forall c r' n c', cuts_ok 1 c -> cuts_rec sb loc kb fwd r c = (KOk r' n, c') ->
    (length (cvec c') < 98)%nat -> cutters_true c' -> (holdsc v (unmarked r') <-> holdsc v (derived r)).
  Proof.
    induction r as [|x r IH]; intros Hm c r' n c' Hc; cbn [cuts_rec].
    - intros H _ _. injection H as <- <- <-. reflexivity.
    - assert (Hm' : with_metas r) by (intros y Hy; apply Hm; simpl; auto). specialize (IH Hm').
      destruct (cut_rec sb loc kb fwd (fst x) (snd x)) as [|k| |] eqn:E; try discriminate.
      + destruct (cuts_rec sb loc kb fwd r c) as [[|r2 n2|] c2] eqn:Er; try discriminate.
        intros H Hl Ht. injection H as <- <- <-. rewrite unmarked_cons.
        pose proof (Hm x (or_introl eq_refl)) as Hx. apply Z.eqb_neq in Hx. rewrite Hx.
        assert (E1 : forall q, holdsc v ((meta_is_neg (fst x), snd x) :: q) <-> holdsl v (meta_is_neg (fst x), snd x) \/ holdsc v q) by (intros; apply holds_cons).
        unfold derived at 1. cbn [map]. rewrite !E1, (IH _ _ _ _ Hc Er Hl Ht). reflexivity.
      + pose proof (cuts_grow fwd r (add_cut 1 k c)) as G.
        destruct (cuts_rec sb loc kb fwd r (add_cut 1 k c)) as [[|r2 n2|] c2] eqn:Er; try discriminate.
        intros H Hl Ht. injection H as <- <- <-. rewrite unmarked_cons. cbn [fst snd]. change (0 =? 0) with true. cbv iota.
        simpl in G. pose proof (add_cut_in 1 k c c2 ltac:(lia) Hc G Hl) as Hk. apply Ht in Hk. apply cut_rec_ok in E. subst k.
        rewrite (IH _ _ _ _ (add_cut_ok 1 _ c ltac:(lia) Hc) Er Hl Ht).
        unfold derived at 2. cbn [map]. rewrite (holds_cons eqc M). pose proof (unit_cuts _ _ v Hk). tauto.
  Qed.

  Variable rw : clit -> rlog -> rwres * rlog.
  Variable dbl : Z -> term -> list (clit * clit).
  Definition sfits (s : st) : Prop :=
    (length (cvec (fst s)) < 97)%nat /\ cutters_true (fst s) /\ Z.of_nat (length (snd s)) < 9994 /\ (forall q, In q (snd s) -> rule_true M q).
  Definition ext (s s' : st) : Prop := prefix (cvec (fst s)) (cvec (fst s')) /\ incl (snd s) (snd s') /\ (length (snd s) <= length (snd s'))%nat.
  Lemma ext_refl s : ext s s. Proof. split; [apply prefix_refl|]. split; [apply incl_refl|lia]. Qed.
  Lemma ext_trans a b c : ext a b -> ext b c -> ext a c.
  Proof. intros (A&B&C) (D&E&F). split; [eapply prefix_trans; eauto|]. split; [eapply incl_tran; eauto|lia]. Qed.
  Lemma ext_cut k s : ext s (add_cut 2 k (fst s), snd s).
  Proof. split; [apply add_cut_prefix|]. split; [apply incl_refl|cbn [snd]; lia]. Qed.
  Lemma sfits_ext s s' : ext s s' -> sfits s' -> sfits s.
  Proof.
    intros (A&B&C) (D&E&F&G). pose proof (prefix_length _ _ A) as H. split; [lia|]. split; [|split; [lia|auto]].
    intros k Hk. apply E. apply (prefix_incl _ _ A). auto.
  Qed.
  Definition kept (P : slres -> Prop) (k : slres) : Prop := match k with SlOk _ _ _ => P k | _ => True end.

  Section Go.
    Variable xcl : list clit.
    Variable v : Z -> dom M.
    Variable ls : list clit.
    Definition goes_on (go : bool -> st -> slres * st) : Prop :=
      forall dc s, cuts_ok 2 (fst s) -> cuts_ok 2 (fst (snd (go dc s))) /\ ext s (snd (go dc s)) /\
        (sfits (snd (go dc s)) -> kept (outcome eqc M xcl ls dc v) (fst (go dc s))).
  End Go.

  Lemma kept_cut xcl l ls dc dc' v k : (forall k, outcome eqc M xcl ls dc' v k -> outcome eqc M xcl (l :: ls) dc v (sl_cut k)) ->
    kept (outcome eqc M xcl ls dc' v) k -> kept (outcome eqc M xcl (l :: ls) dc v) (sl_cut k).
  Proof. intros H. destruct k as [| | |r c ch]; cbn [kept sl_cut]; auto. intros Hk. apply (H _ Hk). Qed.

  Lemma lit_goes xcl many dc ch l ls w t v go s : In l xcl -> cuts_ok 2 (fst s) ->
    (sfits s -> holds eqc M v t <-> holds eqc M v (latom l)) ->
    (forall l', In l' xcl -> lword l' = w -> latom l' = t) ->
    goes_on xcl v ls go ->
    let k := lit_rec sb loc kb dbl xcl many dc ch (lmeta l) w t go s in
    cuts_ok 2 (fst (snd k)) /\ ext s (snd k) /\ (sfits (snd k) -> kept (outcome eqc M xcl (l :: ls) dc v) (fst k)).
  Proof.
    intros Hin Hs Ht Hw Hgo. cbv zeta. unfold lit_rec.
    assert (Ht' : sfits s -> (holdsl v (meta_is_neg (lmeta l), t) <-> holdsl v (lit_of_clit l))).
    { intros H. apply Ht in H. unfold lit_holds, lit_of_clit. simpl. destruct (meta_is_neg (lmeta l)); tauto. }
    destruct (cut_rec sb loc kb (many || ch) (lmeta l) t) as [|k| |] eqn:Ec.
    - assert (Hkeep : let k := fmap (sl_keep (lmeta l, t) ch) (go dc s) in
        cuts_ok 2 (fst (snd k)) /\ ext s (snd k) /\ (sfits (snd k) -> kept (outcome eqc M xcl (l :: ls) dc v) (fst k))).
      { cbv zeta. unfold fmap. cbn [fst snd]. destruct (Hgo dc s Hs) as (A&B&C). split; [exact A|]. split; [exact B|].
        intros Hf. specialize (C Hf). pose proof (Ht' (sfits_ext _ _ B Hf)) as Ht2.
        destruct (fst (go dc s)) as [| | |r c ch'] eqn:E; cbn [kept sl_keep]; auto.
        apply (outcome_keep eqc M xcl l ls dc v t ch (SlOk r c ch') Ht2). exact C. }
      destruct (negb dc && many) eqn:Ed; [|exact Hkeep].
      destruct dc; [discriminate|].
      destruct (double_rec sb w (lmeta l) xcl (dbl (lmeta l) t)) as [y0 y1| |] eqn:Edr; [|exact Hkeep|].
      + unfold fmap. cbn [fst snd]. destruct (Hgo true (add_cut 2 (KDouble y0 y1) (fst s), snd s)) as (A&B&C).
        { apply add_cut_ok; [lia|exact Hs]. }
        split; [exact A|]. split; [eapply ext_trans; [apply ext_cut|exact B]|].
        intros Hf. specialize (C Hf). pose proof (sfits_ext _ _ (ext_trans _ _ _ (ext_cut (KDouble y0 y1) s) B) Hf) as Hf0.
        apply kept_cut with (dc' := true); [|exact C]. intros k. apply outcome_double.
        apply (double_found sb eqc M (fun _ => RwKeep) (fun _ _ => [(y0, y1)])) with (w := w) (t := t); auto.
        * intros m t0 d [<-|[]]. destruct Hf as (F1&F2&_). apply (F2 (KDouble y0 y1)).
          eapply (add_cut_in 2 _ (fst s)); [lia|exact Hs|exact (proj1 B)|exact F1].
        * eapply double_rec_ok; eauto.
      + split; [exact Hs|]. split; [apply ext_refl|]. intros _. exact Logic.I.
    - unfold fmap. cbn [fst snd]. destruct (Hgo dc (add_cut 2 k (fst s), snd s)) as (A&B&C).
      { apply add_cut_ok; [lia|exact Hs]. }
      split; [exact A|]. split; [eapply ext_trans; [apply ext_cut|exact B]|].
      intros Hf. specialize (C Hf). pose proof (sfits_ext _ _ (ext_trans _ _ _ (ext_cut k s) B) Hf) as Hf0.
      apply kept_cut with (dc' := dc); [|exact C]. intros k0. apply outcome_cut.
      rewrite <- (Ht' Hf0). apply cut_rec_ok in Ec. subst k. apply unit_cuts. destruct Hf as (F1&F2&_). apply F2.
      eapply (add_cut_in 2 _ (fst s)); [lia|exact Hs|exact (proj1 B)|exact F1].
    - split; [exact Hs|]. split; [apply ext_refl|]. intros _. exact Logic.I.
    - split; [exact Hs|]. split; [apply ext_refl|]. intros _. exact Logic.I.
  Qed.

  Variable ok : interp -> Prop.
  Hypothesis Hok : ok M.

  Lemma loop_goes_on xcl many v : words_ok xcl -> rw_recorded rw ok eqc xcl ->
    forall ls, (forall l, In l ls -> In l xcl) -> goes_on xcl v ls (loop_simp sb loc kb rw dbl xcl many ls).
  Proof.
    intros Hw Hr. induction ls as [|l ls IH]; intros Hin dc s Hs; cbn [loop_simp].
    - split; [exact Hs|]. split; [apply ext_refl|]. intros _. simpl. split; auto. exists None. split; auto. intros l [].
    - assert (Hlx : In l xcl) by (apply Hin; simpl; auto).
      assert (IH' : goes_on xcl v ls (loop_simp sb loc kb rw dbl xcl many ls)).
      { apply IH. intros; apply Hin; simpl; auto. }
      cbv zeta. destruct (rw l (snd s)) as [k g] eqn:Er.
      destruct (Hr l (snd s) k g Hlx Er) as (R1&R2&R3).
      assert (Hext : ext s (fst s, g)) by (split; [apply prefix_refl|split; auto]).
      assert (Hw0 : forall l', In l' xcl -> lword l' = lword l -> latom l' = latom l) by (intros; apply Hw; auto).
      assert (Hcut : (sfits (fst s, g) -> ~ holdsl v (lit_of_clit l)) ->
        let k := fmap sl_cut (loop_simp sb loc kb rw dbl xcl many ls dc (fst s, g)) in
        cuts_ok 2 (fst (snd k)) /\ ext s (snd k) /\ (sfits (snd k) -> kept (outcome eqc M xcl (l :: ls) dc v) (fst k))).
      { intros Hn. cbv zeta. unfold fmap. cbn [fst snd]. destruct (IH' dc (fst s, g) Hs) as (A&B&C).
        split; [exact A|]. split; [eapply ext_trans; eauto|]. intros Hf. specialize (C Hf).
        apply kept_cut with (dc' := dc); [|exact C]. intros k0. apply outcome_cut. apply Hn. eapply sfits_ext; eauto. }
      destruct k as [| |w t ch].
      + destruct (lit_goes xcl many dc false l ls (lword l) (latom l) v _ (fst s, g) Hlx Hs ltac:(tauto) Hw0 IH') as (A&B&C).
        split; [exact A|]. split; [eapply ext_trans; eauto|exact C].
      + split; [exact Hs|]. split; [exact Hext|]. intros _. exact Logic.I.
      + destruct (R3 w t ch eq_refl) as [H1 H2].
        assert (H3 : sfits (fst s, g) -> holds eqc M v t <-> holds eqc M v (latom l)).
        { intros (_&_&F3&F4). apply H2; auto. }
        destruct (term_eq_dec t (TCst atrue)) as [->|_]; [|destruct (term_eq_dec t (TCst afalse)) as [->|_]].
        * destruct (meta_is_neg (lmeta l)) eqn:En.
          -- apply Hcut. intros Hf. unfold lit_holds, lit_of_clit. simpl. rewrite En. intros Hh. apply Hh. apply (H3 Hf). vm_compute. auto.
          -- split; [exact Hs|]. split; [exact Hext|]. intros _. exact Logic.I.
        * destruct (meta_is_neg (lmeta l)) eqn:En.
          -- split; [exact Hs|]. split; [exact Hext|]. intros _. exact Logic.I.
          -- apply Hcut. intros Hf. unfold lit_holds, lit_of_clit. simpl. rewrite En. intros Hh. apply (H3 Hf) in Hh. vm_compute in Hh. auto.
        * destruct (lit_goes xcl many dc ch l ls w t v _ (fst s, g) Hlx Hs H3 H1 IH') as (A&B&C).
          split; [exact A|]. split; [eapply ext_trans; eauto|exact C].
  Qed.

  Lemma simplify_follows c v p r : words_ok (cl_lits c) -> rw_recorded rw ok eqc (cl_lits c) ->
    simplify_rec sb loc kb rw dbl c = (r, p) -> (length (p_cutters p) < 97)%nat -> Z.of_nat (length (p_rewriters p)) < 9994 ->
    parents_true eqc M p ->
    match r with
    | SmProof => ~ holdsc v (clause_of c)
    | SmClause r' => r' <> [] /\ (holdsc v (derived r') <-> holdsc v (clause_of c))
    | _ => True
    end.
  Proof.
    intros Hw Hr E Hc Hg [Hp1 Hp2]. destruct c as [w a|ls]; cbn [simplify_rec] in E.
    - destruct (rw {| lmeta := 4; lword := w; latom := a |} []) as [[| |w' t ch] g] eqn:Er;
        try (injection E as <- <-; exact Logic.I).
      destruct (Hr _ [] _ g (or_introl eq_refl) Er) as (_&_&R3). destruct (R3 w' t ch eq_refl) as [_ H1].
      assert (Hc' : holdsc v (clause_of (SFact w a)) <-> holds eqc M v a).
      { unfold clause_of. simpl. split; [intros (l&[<-|[]]&H); exact H|intros H; exists (false, a); simpl; auto]. }
      destruct (term_eq_dec t (TCst atrue)) as [->|_]; [|destruct (term_eq_dec t (TCst afalse)) as [->|_]; [|destruct ch]];
        injection E as <- <-; cbn [history p_rewriters fst snd] in *; try exact Logic.I.
      + specialize (H1 Hg M Hok Hp2 v). cbn [latom] in H1. rewrite Hc', <- H1. vm_compute. auto.
      + specialize (H1 Hg M Hok Hp2 v). cbn [latom] in H1. split; [discriminate|]. rewrite Hc', <- H1. unfold derived. simpl.
        split; [intros (l&[<-|[]]&H); exact H|intros H; exists (false, t); simpl; auto].
    - cbv zeta in E. destruct (loop_goes_on ls (1 <? length ls)%nat v Hw Hr ls (fun l H => H) false (no_cuts, []) (no_cuts_ok 2)) as (A&_&B).
      destruct (loop_simp sb loc kb rw dbl ls (1 <? length ls)%nat ls false (no_cuts, [])) as [k s] eqn:El. cbn [fst snd] in *.
      injection E as <- <-. cbn [history p_cutters p_rewriters] in *. rewrite (read_all 2) in * by exact A.
      assert (Hf : sfits s) by (split; [exact Hc|]; split; [exact Hp1|]; split; [exact Hg|exact Hp2]).
      specialize (B Hf). destruct k as [| | |r c ch]; try exact Logic.I. cbn [kept] in B.
      apply outcome_final in B. destruct (c || ch); [|exact Logic.I].
      destruct r as [|x r].
      + unfold clause_of. simpl. rewrite <- B. apply holds_nil.
      + split; [discriminate|]. exact B.
  Qed.
End Log.
