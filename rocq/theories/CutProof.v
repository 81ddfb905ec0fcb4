(** Soundness of the cut-offs. *)
From Coq Require Import List ZArith Bool Lia.
From Verif Require Import Terms UnifySpec TermsProof UnifyModel UnifyProof MatchModel MatchProof MetaModel TrailProof
  SubsumeSpec Semantics SemProof BuildModel DeriveModel DeriveSpec DeriveProof CutModel CutSpec.
Import ListNotations.
Open Scope Z_scope.

Section Cut.
  Variable sb : stray_env.
  Variable eqc : cst.
  Variable M : interp.
  Notation holdsl := (lit_holds eqc M).
  Notation holdsc := (clause_holds eqc M).

  Definition units_hold (u : ustore) : Prop :=
    (forall a v, In a (pos_units u) -> holds eqc M v a) /\ (forall a v, In a (neg_units u) -> ~ holds eqc M v a).

  Lemma units_hold_of u : (forall c, In c (unit_clauses u) -> valid_in eqc M c) -> units_hold u.
  Proof.
    intros H. split; intros a v Ha.
    - destruct (H [(false, a)]) with (v := v) as (l&[<-|[]]&Hl); auto.
      apply in_or_app. left. apply (in_map (fun a => [(false, a)])). auto.
    - destruct (H [(true, a)]) with (v := v) as (l&[<-|[]]&Hl); auto.
      apply in_or_app. right. apply (in_map (fun a => [(true, a)])). auto.
  Qed.

  Definition kb_hold (kb : option ustore) : Prop := match kb with Some u => units_hold u | None => True end.
  Lemma kb_hold_of kb : (forall c, In c (kb_clauses kb) -> valid_in eqc M c) -> kb_hold kb.
  Proof. destruct kb; simpl; auto. apply units_hold_of. Qed.

  Lemma in_units_ok a us : in_units sb a us = EYes -> In a us.
  Proof.
    induction us as [|u us IH]; simpl; [discriminate|].
    pose proof (equal_term_spec sb a u) as He. destruct (equal_term sb a u); intros H; try discriminate; auto.
  Qed.

  (** An opposite unit makes the literal false; a unit of the same sign makes it true. *)
  Lemma opposite_false u meta a v : units_hold u -> In a (opposite_sign meta u) -> ~ holdsl v (meta_is_neg meta, a).
  Proof.
    intros [Hp Hn]. unfold opposite_sign, lit_holds. simpl. destruct (meta_is_neg meta); intros Ha H.
    - apply H. auto.
    - eapply Hn; eauto.
  Qed.
  Lemma same_true u meta a v : units_hold u -> In a (same_sign meta u) -> holdsl v (meta_is_neg meta, a).
  Proof. intros [Hp Hn]. unfold same_sign, lit_holds. simpl. destruct (meta_is_neg meta); intros Ha; auto. Qed.

  Lemma cut_lit_ok fwd loc kb meta a v : units_hold loc -> kb_hold kb ->
    match cut_lit sb fwd loc kb meta a with
    | CYes => ~ holdsl v (meta_is_neg meta, a)
    | CSubsumed => holdsl v (meta_is_neg meta, a)
    | _ => True
    end.
  Proof.
    intros Hl Hk. unfold cut_lit.
    destruct (if fwd then in_units sb a (same_sign meta loc) else ENo) eqn:E1; auto.
    - destruct fwd; [|discriminate]. apply in_units_ok in E1. eapply same_true; eauto.
    - destruct (if fwd then in_kb sb a kb (same_sign meta) else ENo) eqn:E2; auto.
      + destruct fwd; [|discriminate]. destruct kb as [k|]; [|discriminate]. apply in_units_ok in E2. eapply same_true; eauto.
      + destruct (in_units sb a (opposite_sign meta loc)) eqn:E3; auto.
        * apply in_units_ok in E3. eapply opposite_false; eauto.
        * destruct (in_kb sb a kb (opposite_sign meta)) eqn:E4; auto.
          destruct kb as [k|]; [|discriminate]. apply in_units_ok in E4. eapply opposite_false; eauto.
  Qed.

  Lemma cut_lit_false fwd loc kb meta a v : units_hold loc -> kb_hold kb ->
    cut_lit sb fwd loc kb meta a = CYes -> ~ holdsl v (meta_is_neg meta, a).
  Proof. intros A B E. pose proof (cut_lit_ok fwd loc kb meta a v A B) as H. rewrite E in H. auto. Qed.
  Lemma cut_lit_true fwd loc kb meta a v : units_hold loc -> kb_hold kb ->
    cut_lit sb fwd loc kb meta a = CSubsumed -> holdsl v (meta_is_neg meta, a).
  Proof. intros A B E. pose proof (cut_lit_ok fwd loc kb meta a v A B) as H. rewrite E in H. auto. Qed.

  Lemma holds_cons v l c : holdsc v (l :: c) <-> holdsl v l \/ holdsc v c.
  Proof.
    unfold clause_holds. split.
    - intros (k&[<-|H]&Hk); eauto.
    - intros [H|(k&Hk&H)]; [exists l|exists k]; simpl; auto.
  Qed.
  Lemma holds_nil v : ~ holdsc v [].
  Proof. intros (l&[]&_). Qed.

  Lemma unmarked_cons x r : unmarked (x :: r) = if fst x =? 0 then unmarked r else (meta_is_neg (fst x), snd x) :: unmarked r.
  Proof. unfold unmarked, is_kept. simpl. destruct (fst x =? 0); reflexivity. Qed.

  (** Marking keeps the truth of the clause, at every valuation. *)
  Lemma cut_and_subsume_ok fwd loc kb r v : units_hold loc -> kb_hold kb ->
    match cut_and_subsume sb fwd loc kb r with
    | KOk r' n => with_metas r -> (holdsc v (unmarked r') <-> holdsc v (derived r)) /\
        length r' = length r /\ length (filter is_kept r') = (length r - n)%nat /\ (n <= length r)%nat /\
        (forall x, In x r' -> fst x <> 0 -> In x r) /\ map snd r' = map snd r
    | KSubsumed => holdsc v (derived r)
    | KStray => True
    end.
  Proof.
    intros Hl Hk. induction r as [|x r IH]; cbn [cut_and_subsume].
    - simpl. intuition lia.
    - pose proof (cut_lit_ok fwd loc kb (fst x) (snd x) v Hl Hk) as Hc.
      destruct (cut_lit sb fwd loc kb (fst x) (snd x)) eqn:Ec; auto.
      + destruct (cut_and_subsume sb fwd loc kb r) as [|r' n|]; auto.
        * unfold derived in *. simpl. rewrite holds_cons. auto.
        * intros Hm. destruct IH as (A&B&C&D&E&F); [intros y Hy; apply Hm; simpl; auto|].
          assert (Hx : fst x <> 0) by (apply Hm; simpl; auto).
          rewrite unmarked_cons. destruct (Z.eqb_spec (fst x) 0) as [|_]; [contradiction|].
          unfold derived in *. cbn [map]. rewrite !holds_cons, A. split; [tauto|].
          split; [simpl; lia|]. split; [|split; [simpl; lia|split]].
          -- cbn [filter]. unfold is_kept at 1. destruct (Z.eqb_spec (fst x) 0); [contradiction|]. cbn [negb length]. lia.
          -- intros y [<-|Hy] Hy0; simpl; auto.
          -- simpl. congruence.
      + destruct (cut_and_subsume sb fwd loc kb r) as [|r' n|]; auto.
        * unfold derived in *. simpl. rewrite holds_cons. auto.
        * intros Hm. destruct IH as (A&B&C&D&E&F); [intros y Hy; apply Hm; simpl; auto|].
          rewrite unmarked_cons. cbn [fst Z.eqb]. unfold derived in *. cbn [map]. rewrite holds_cons, A. split; [tauto|].
          split; [simpl; lia|]. split; [simpl; lia|]. split; [simpl; lia|]. split; [|simpl; congruence].
          intros y [<-|Hy] Hy0; simpl in *; [lia|]. auto.
      + unfold derived. simpl. rewrite holds_cons. auto.
  Qed.

  (** Compaction keeps exactly the unmarked literals when the count is right. *)
  Lemma remove_cuts_ok r n : length (filter is_kept r) = (length r - n)%nat -> remove_cuts r n = filter is_kept r.
  Proof.
    intros H. unfold remove_cuts. rewrite <- H. rewrite firstn_app, Nat.sub_diag, firstn_all. simpl. apply app_nil_r.
  Qed.

  (** ** Strong cut *)
  Lemma has_vars_false t : has_vars t = false -> tvars t = [].
  Proof.
    induction t as [i|c|fs IH] using term_ind'; simpl; intros H; auto; [discriminate|].
    induction IH as [|f fs Hf Hfs IH]; simpl in *; auto.
    apply orb_false_iff in H as [H1 H2]. rewrite Hf, IH; auto.
  Qed.

  Definition goodb (s : vst) : Prop := acyclic (bank s) /\ bank_fot (bank s).

  Lemma submap_acyclic (b b' : Z -> option term) : extends b b' -> acyclic b' -> acyclic b.
  Proof. intros He [rk Hr]. exists rk. intros i t j E. apply Hr. apply He. auto. Qed.
  Lemma clear_submap s : extends (bank (clear_varstack s)) (bank s).
  Proof. intros i t. simpl. rewrite clear_cells_ok. destruct (in_dec Z.eq_dec i (trail s)); [discriminate|auto]. Qed.
  Lemma clear_goodb s : goodb s -> goodb (clear_varstack s).
  Proof.
    intros [A B]. split; [eapply submap_acyclic; [apply clear_submap|auto]|].
    intros i t E. apply clear_submap in E. eauto.
  Qed.

  (** What a successful attempt says: some valuation makes the two atoms agree. *)
  Lemma unify_valuation nu x y s s' (v : Z -> dom M) : goodb s -> foa x = true -> foa y = true ->
    unify_term nu x y s = Done true s' ->
    exists w, (holds eqc M w x <-> holds eqc M w y).
  Proof.
    intros [Ha Hf] Hx Hy E.
    pose proof (unify_uspec nu (fun _ => True) x y s Ha) as Hu.
    unfold unify_term in E. rewrite E in Hu. destruct Hu as (H1&H2&H3); auto.
    destruct (exhaustive_exists _ H1) as [sg He]. assert (Hs : solves sg (bank s')) by apply He.
    exists (fun i => eval M v (sg i)). rewrite <- !holds_app; auto. apply H3 in Hs as [_ ->]. tauto.
  Qed.

  Lemma unify_goodb nu x y s r s' : goodb s -> fot x = true -> fot y = true ->
    unify_term nu x y s = Done r s' -> goodb s'.
  Proof.
    intros [Ha Hf] Hx Hy E.
    pose proof (unify_uspec nu (fun _ => True) x y s Ha) as Hu.
    pose proof (unify_fot nu x y s r s' Hx Hy Hf E).
    unfold unify_term in E. rewrite E in Hu. destruct Hu as (H1&H2&H3); auto. split; auto.
  Qed.

  Lemma foa_fot a : foa a = true -> fot a = true.
  Proof. destruct a; auto; discriminate. Qed.

  (** Unit atoms in the role of candidates for a literal of sign [n]. *)
  Definition cand_ok (n : bool) (y : term) : Prop := foa y = true /\ valid_in eqc M [(negb n, y)].

  Lemma cand_false n y v : cand_ok n y -> ~ holdsl v (n, y).
  Proof.
    intros [_ Hv]. destruct (Hv v) as (l&[<-|[]]&Hl). unfold lit_holds in *. simpl in *. destruct n; simpl in *; tauto.
  Qed.

  (** With matching, the cut literal is false everywhere. *)
  Lemma strong_match nu x n : foa x = true -> forall ys s, (forall y, In y ys -> cand_ok n y) ->
    forall s', strong_cut_atom sb nu true x ys s = SDone true s' -> forall v, ~ holdsl v (n, x).
  Proof.
    intros Hx. induction ys as [|y ys IH]; intros s Hy s'; cbn [strong_cut_atom]; [discriminate|].
    destruct (match_term sb y x s) as [[|] s1|] eqn:E; [| |discriminate].
    - intros _ v Hh. pose proof (match_bindings sb y x s s1 E) as (_&_&Hb).
      destruct (Hy y (or_introl eq_refl)) as [Hfy _].
      set (t := fun i => match bank s1 i with Some u => u | None => TVar i end).
      destruct (Hb t) as [_ Ht]. { intros i u Ei. unfold t. rewrite Ei. auto. }
      apply (cand_false n y (fun i => eval M v (t i)) (Hy y (or_introl eq_refl))).
      rewrite <- Ht in Hh. pose proof (lit_holds_app eqc M v t (n, y) Hfy) as Hl.
      unfold inst in Hl. simpl in Hl. apply Hl. auto.
    - apply IH. intros; apply Hy; simpl; auto.
  Qed.

  (** With unification, some instance is false. *)
  Lemma strong_unify nu x n : foa x = true -> forall ys s, goodb s -> (forall y, In y ys -> cand_ok n y) ->
    match strong_cut_atom sb nu false x ys s with
    | SDone b s' => goodb s' /\ (b = true -> (Z -> dom M) -> exists w, ~ holdsl w (n, x))
    | _ => True
    end.
  Proof.
    intros Hx. induction ys as [|y ys IH]; intros s Hs Hy; cbn [strong_cut_atom].
    - split; auto. discriminate.
    - destruct (Hy y (or_introl eq_refl)) as [Hfy Hv].
      destruct (unify_term nu x y s) as [[|] s1|] eqn:E; auto.
      + split; [apply clear_goodb; apply (unify_goodb nu x y s _ s1 Hs (foa_fot x Hx) (foa_fot y Hfy) E)|]. intros _ v.
        destruct (unify_valuation nu x y s s1 v Hs Hx Hfy E) as [w Hw]. exists w.
        pose proof (cand_false n y w (Hy y (or_introl eq_refl))) as Hc.
        unfold lit_holds in *. simpl in *. destruct n; tauto.
      + apply IH; [apply clear_goodb; apply (unify_goodb nu x y s _ s1 Hs (foa_fot x Hx) (foa_fot y Hfy) E)|intros; apply Hy; simpl; auto].
  Qed.

  Variable cands : bool -> term -> list term.
  Hypothesis cands_ok : forall n a y, In y (cands (negb n) a) -> cand_ok n y.

  Lemma strong_loop_shape nu um r : forall s, match strong_loop sb cands nu um r s with
    | TOk r' n s' => length r' = length r /\ (length (filter is_kept r') = length (filter is_kept r) - n)%nat /\
        (n <= length (filter is_kept r))%nat /\ (forall x, In x r' -> fst x <> 0 -> In x r) /\ map snd r' = map snd r
    | _ => True end.
  Proof.
    induction r as [|x r IH]; intros s; cbn [strong_loop].
    - simpl. intuition lia.
    - destruct (Z.eqb_spec (fst x) 0) as [Ex|Ex].
      + specialize (IH s). destruct (strong_loop sb cands nu um r s) as [r' n s'| |]; auto.
        destruct IH as (A&B&C&D&F). assert (Kx : is_kept x = false) by (unfold is_kept; rewrite Ex; auto). cbn [filter]. rewrite Kx. cbn [length map].
        repeat split; try lia; [|congruence]. intros y [<-|Hy] Hy0; [congruence|]. right; auto.
      + destruct (strong_cut_atom _ _ _ _ _ _) as [b s1| |]; auto. specialize (IH s1).
        destruct (strong_loop sb cands nu um r s1) as [r' n s'| |]; auto.
        destruct IH as (A&B&C&D&F).
        assert (Kx : is_kept x = true) by (unfold is_kept; destruct (Z.eqb_spec (fst x) 0); [contradiction|auto]).
        destruct b.
        * cbn [filter]. rewrite Kx. unfold is_kept at 1. cbn [fst Z.eqb negb length map snd].
          repeat split; try lia; [|congruence]. intros y [<-|Hy] Hy0; [simpl in Hy0; lia|]. right; auto.
        * cbn [filter]. rewrite Kx. cbn [length map].
          repeat split; try lia; [|congruence]. intros y [<-|Hy] Hy0; [left; auto|]. right; auto.
  Qed.

  (** Matching mode. *)
  Lemma strong_loop_match nu r v : (forall x, In x r -> foa (snd x) = true) -> forall s,
    match strong_loop sb cands nu true r s with
    | TOk r' n s' => holdsc v (unmarked r) -> holdsc v (unmarked r')
    | _ => True end.
  Proof.
    induction r as [|x r IH]; intros Hf s; cbn [strong_loop]; auto.
    destruct (Z.eqb_spec (fst x) 0) as [Ex|Ex].
    - specialize (IH (fun y Hy => Hf y (or_intror Hy)) s).
      destruct (strong_loop sb cands nu true r s); auto. rewrite !unmarked_cons, Ex. auto.
    - destruct (strong_cut_atom _ _ _ _ _ _) as [b s1| |] eqn:E; auto.
      specialize (IH (fun y Hy => Hf y (or_intror Hy)) s1).
      destruct (strong_loop sb cands nu true r s1) as [r' n s'| |]; auto.
      destruct b.
      + rewrite !unmarked_cons. cbn [fst Z.eqb]. destruct (Z.eqb_spec (fst x) 0); [contradiction|].
        rewrite holds_cons. intros [H|H]; auto. exfalso.
        refine (strong_match nu (snd x) (meta_is_neg (fst x)) (Hf x (or_introl eq_refl)) _ s _ s1 E v H).
        intros y Hy. apply (cands_ok _ (snd x)). auto.
      + rewrite !unmarked_cons. destruct (Z.eqb_spec (fst x) 0); [contradiction|].
        rewrite !holds_cons. tauto.
  Qed.

  (** Unification mode: ground literals that are cut are false; when the cut literals include
      one with variables, some valuation falsifies it. *)
  Definition ground_lit (x : mlit) : Prop := has_vars (snd x) = false.

  Lemma ground_holds x v w : ground_lit x -> holdsl v (meta_is_neg (fst x), snd x) -> holdsl w (meta_is_neg (fst x), snd x).
  Proof.
    intros Hg. apply has_vars_false in Hg.
    assert (H : holds eqc M v (snd x) <-> holds eqc M w (snd x)).
    { apply holds_ext. rewrite Hg. intros i []. }
    unfold lit_holds; simpl. destruct (meta_is_neg (fst x)); tauto.
  Qed.

  (** All but at most one literal ground. *)
  Lemma strong_loop_unify nu r : (forall x, In x r -> foa (snd x) = true) -> (count_nonground r <= 1)%nat ->
    forall s, goodb s ->
    match strong_loop sb cands nu false r s with
    | TOk r' n s' => goodb s' /\ forall v, exists w,
        (holdsc w (unmarked r) -> holdsc v (unmarked r')) /\
        (count_nonground r = 0%nat -> w = v)
    | _ => True end.
  Proof.
    induction r as [|x r IH]; intros Hf Hc s Hs; cbn [strong_loop].
    - split; auto. intros v. exists v. auto.
    - cbn [count_nonground] in Hc.
      destruct (Z.eqb_spec (fst x) 0) as [Ex|Ex].
      + specialize (IH (fun y Hy => Hf y (or_intror Hy)) Hc s Hs).
        destruct (strong_loop sb cands nu false r s) as [r' n s'| |]; auto. destruct IH as [A B]. split; auto.
        intros v. destruct (B v) as (w&B1&B2). exists w. rewrite !unmarked_cons. cbn [count_nonground].
        rewrite Ex. auto.
      + pose proof (strong_unify nu (snd x) (meta_is_neg (fst x)) (Hf x (or_introl eq_refl))
                     (cands (negb (meta_is_neg (fst x))) (snd x)) s Hs
                     (fun y Hy => cands_ok _ (snd x) y Hy)) as Hu.
        destruct (strong_cut_atom _ _ _ _ _ _) as [b s1| |]; auto. destruct Hu as [G1 Hu].
        destruct (has_vars (snd x)) eqn:Hv.
        * (* x is the one literal with variables: the others are ground *)
          assert (Hc0 : count_nonground r = 0%nat) by lia.
          assert (Hc1 : (count_nonground r <= 1)%nat) by lia.
          specialize (IH (fun y Hy => Hf y (or_intror Hy)) Hc1 s1 G1).
          destruct (strong_loop sb cands nu false r s1) as [r' n s'| |]; auto. destruct IH as [A B].
          cut (goodb s' /\ forall v, exists w, (holdsc w (unmarked (x :: r)) -> holdsc v (unmarked (if b then (0, snd x) :: r' else x :: r'))) /\
                 (count_nonground (x :: r) = 0%nat -> w = v)); [destruct b; auto|]. split; auto.
          assert (Hground : forall l, In l (unmarked r) -> forall v w, holdsl v l -> holdsl w l).
          { clear -Hc0. intros l Hl. unfold unmarked, derived in Hl. apply in_map_iff in Hl as (y&<-&Hy).
            apply filter_In in Hy as [Hy Ky]. intros v w. apply ground_holds. unfold ground_lit.
            induction r as [|z r IHr]; [destruct Hy|]. cbn [count_nonground] in Hc0.
            destruct Hy as [->|Hy].
            - unfold is_kept in Ky. destruct (fst y =? 0); [discriminate|]. destruct (has_vars (snd y)); [lia|auto].
            - apply IHr; auto. destruct (fst z =? 0); auto. destruct (has_vars (snd z)); [lia|auto]. }
          intros v. destruct (B v) as (w&B1&B2). specialize (B2 Hc0). subst w.
          destruct b.
          -- destruct (Hu eq_refl v) as [w Hw]. exists w. split.
             ++ rewrite !unmarked_cons. cbn [fst Z.eqb]. destruct (Z.eqb_spec (fst x) 0); [contradiction|].
                rewrite holds_cons. intros [H|(l&Hl&H)]; [tauto|]. apply B1. exists l. split; auto. eapply Hground; eauto.
             ++ cbn [count_nonground]. destruct (Z.eqb_spec (fst x) 0); [contradiction|]. rewrite Hv. lia.
          -- exists v. split; auto. rewrite !unmarked_cons. destruct (Z.eqb_spec (fst x) 0); [contradiction|].
             rewrite !holds_cons. tauto.
        * specialize (IH (fun y Hy => Hf y (or_intror Hy)) Hc s1 G1).
          destruct (strong_loop sb cands nu false r s1) as [r' n s'| |]; auto. destruct IH as [A B].
          cut (goodb s' /\ forall v, exists w, (holdsc w (unmarked (x :: r)) -> holdsc v (unmarked (if b then (0, snd x) :: r' else x :: r'))) /\
                 (count_nonground (x :: r) = 0%nat -> w = v)); [destruct b; auto|]. split; auto.
          intros v. destruct (B v) as (w&B1&B2). exists w. split.
          -- rewrite !unmarked_cons. destruct (Z.eqb_spec (fst x) 0); [contradiction|].
             rewrite holds_cons. intros [H|H].
             ++ destruct b.
                ** exfalso. destruct (Hu eq_refl v) as [w' Hw]. apply Hw. eapply ground_holds; eauto.
                ** rewrite unmarked_cons. destruct (Z.eqb_spec (fst x) 0); [contradiction|]. rewrite holds_cons. left.
                   eapply ground_holds; eauto.
             ++ destruct b; rewrite unmarked_cons; cbn [fst Z.eqb]; auto.
                destruct (Z.eqb_spec (fst x) 0); [contradiction|]. rewrite holds_cons. auto.
          -- cbn [count_nonground]. destruct (Z.eqb_spec (fst x) 0); [contradiction|]. rewrite Hv. auto.
  Qed.

  Lemma filter_one (r : list mlit) : (length (filter is_kept r) <= 1)%nat -> (count_nonground r <= 1)%nat.
  Proof.
    induction r as [|x r IH]; simpl; auto. unfold is_kept at 1. destruct (fst x =? 0); simpl; auto.
    intros H. assert (Hr : count_nonground r = 0%nat).
    { assert (length (filter is_kept r) = 0%nat) by lia. clear -H0.
      induction r as [|z r IHr]; simpl in *; auto. unfold is_kept at 1 in H0. destruct (fst z =? 0); simpl in *; [auto|lia]. }
    rewrite Hr. destruct (has_vars (snd x)); lia.
  Qed.

  (** The strong cut as a whole. *)
  Lemma strong_cut_ok nu r s : goodb s -> (forall x, In x r -> foa (snd x) = true) ->
    match strong_cut sb cands nu r s with
    | TOk r' n s' => valid_in eqc M (unmarked r) -> valid_in eqc M (unmarked r')
    | _ => True end.
  Proof.
    intros Hs Hf. unfold strong_cut, nonground.
    destruct (Nat.ltb_spec 1 (length (filter is_kept r))) as [H1|H1].
    - destruct (Nat.ltb_spec 1 (count_nonground r)) as [H2|H2].
      + destruct (strong_loop sb cands nu true r s) as [r' n s'| |] eqn:E; auto. intros Hv v.
        pose proof (strong_loop_match nu r v Hf s) as H. rewrite E in H. apply H, Hv.
      + pose proof (strong_loop_unify nu r Hf H2 s Hs) as H.
        destruct (strong_loop sb cands nu false r s) as [r' n s'| |]; auto. intros Hv v.
        destruct H as [_ H]. destruct (H v) as (w&Hw&_). apply Hw, Hv.
    - change (1 <? 0)%nat with false. pose proof (strong_loop_unify nu r Hf (filter_one r H1) s Hs) as H.
      destruct (strong_loop sb cands nu false r s) as [r' n s'| |]; auto. intros Hv v.
      destruct H as [_ H]. destruct (H v) as (w&Hw&_). apply Hw, Hv.
  Qed.

  (** ** Double cut *)
  Definition pos_found (xw : Z) (xcl : list clit) (y : clit) : Prop :=
    exists l, In l xcl /\ lword l <> xw /\ lit_of_clit l = lit_of_clit y.
  Definition neg_found (xw xm : Z) (xcl : list clit) (y : clit) : Prop :=
    exists l, In l xcl /\ lword l = xw /\ lmeta l = xm /\ latom l = latom y /\ meta_is_neg (lmeta y) = negb (meta_is_neg (lmeta l)).

  (** After scanning with literal [i] from a state using other literals only. *)
  Lemma dc_inner_ok xw xm i y xcl : forall ls j d, (forall l, In l ls -> In l xcl) ->
    match dc_inner sb xw xm i y j ls d with
    | DcReturn => used (iused d) i = false /\
        ((negm d = true /\ pos_found xw xcl y) \/ (posm d = true /\ neg_found xw xm xcl y))
    | DcGo d' =>
        d' = d \/ (used (iused d) i = false /\ iused d' = Some i /\
          ((posm d' = true /\ negm d' = negm d /\ pos_found xw xcl y) \/ (posm d' = posm d /\ negm d' = true /\ neg_found xw xm xcl y)))
    | DcStray => True
    end.
  Proof.
    induction ls as [|l ls IH]; intros j d Hls; cbn [dc_inner]; auto.
    assert (Hl : In l xcl) by (apply Hls; simpl; auto).
    assert (Hls' : forall l, In l ls -> In l xcl) by (intros; apply Hls; simpl; auto).
    unfold dc_step. pose proof (equal_term_spec sb (latom y) (latom l)) as He.
    destruct (negb (xw =? lword l) && Bool.eqb (meta_is_neg (lmeta y)) (meta_is_neg (lmeta l))) eqn:E1.
    - apply andb_true_iff in E1 as [E1 E2]. apply negb_true_iff, Z.eqb_neq in E1. apply eqb_prop in E2.
      destruct (negb (used (jused d) j) && negb (used (iused d) i) && same_cansubs (lmeta y) (lmeta l)) eqn:E3;
        [|apply IH; auto].
      apply andb_true_iff in E3 as [E3 _]. apply andb_true_iff in E3 as [_ E3]. apply negb_true_iff in E3.
      destruct (equal_term sb (latom y) (latom l)); auto; [|apply IH; auto].
      assert (Hp : pos_found xw xcl y).
      { exists l. repeat split; auto. unfold lit_of_clit. rewrite E2, He. auto. }
      destruct (negm d) eqn:En; [split; auto|].
      specialize (IH (S j) {| posm := true; negm := false; iused := Some i; jused := Some j |} Hls').
      destruct (dc_inner sb xw xm i y (S j) ls _) as [|d'|]; auto.
      + destruct IH as [IH _]. simpl in IH. rewrite Nat.eqb_refl in IH. discriminate.
      + destruct IH as [->|[IH _]]; [|simpl in IH; rewrite Nat.eqb_refl in IH; discriminate].
        right. split; auto.
    - destruct ((xw =? lword l) && (xm =? lmeta l) && negb (used (jused d) j) && negb (used (iused d) i) &&
         negb (Bool.eqb (meta_is_neg (lmeta y)) (meta_is_neg (lmeta l))) && same_cansubs (lmeta y) (lmeta l)) eqn:E3;
        [|apply IH; auto].
      rewrite !andb_true_iff, !negb_true_iff in E3. destruct E3 as (((((E4&E5)&_)&E6)&E7)&_).
      apply Z.eqb_eq in E4. apply Z.eqb_eq in E5.
      destruct (equal_term sb (latom y) (latom l)); auto; [|apply IH; auto].
      assert (Hn : neg_found xw xm xcl y).
      { exists l. repeat split; auto. destruct (meta_is_neg (lmeta y)), (meta_is_neg (lmeta l)); simpl in *; congruence. }
      destruct (posm d) eqn:En; [split; auto|].
      specialize (IH (S j) {| posm := false; negm := true; iused := Some i; jused := Some j |} Hls').
      destruct (dc_inner sb xw xm i y (S j) ls _) as [|d'|]; auto.
      + destruct IH as [IH _]. simpl in IH. rewrite Nat.eqb_refl in IH. discriminate.
      + destruct IH as [->|[IH _]]; [|simpl in IH; rewrite Nat.eqb_refl in IH; discriminate].
        right. split; auto.
  Qed.

  Lemma doublecut_aux_ok xw xm xcl y0 y1 : doublecut_aux sb xw xm xcl y0 y1 = EYes ->
    (neg_found xw xm xcl y0 /\ pos_found xw xcl y1) \/ (pos_found xw xcl y0 /\ neg_found xw xm xcl y1).
  Proof.
    unfold doublecut_aux. set (d0 := {| posm := false; negm := false; iused := None; jused := None |}).
    pose proof (dc_inner_ok xw xm 0 y0 xcl xcl 0 d0 ltac:(auto)) as H0.
    destruct (dc_inner sb xw xm 0 y0 0 xcl d0) as [|d|]; [| |discriminate].
    - intros _. destruct H0 as [_ [[H _]|[H _]]]; discriminate.
    - pose proof (dc_inner_ok xw xm 1 y1 xcl xcl 0 d ltac:(auto)) as H1.
      destruct (dc_inner sb xw xm 1 y1 0 xcl d) as [|d'|]; [|discriminate|discriminate]. intros _.
      destruct H1 as [_ [[Hn Hp]|[Hp Hn]]].
      + destruct H0 as [->|(_&_&[(_&E&_)|(_&_&H)])]; [discriminate| |auto]. rewrite E in Hn. discriminate.
      + destruct H0 as [->|(_&_&[(_&_&H)|(E&_&_)])]; [discriminate|auto|]. rewrite E in Hp. discriminate.
  Qed.

  Lemma doublecut_ok xw xm xcl ds : doublecut sb xw xm xcl ds = EYes ->
    exists y0 y1, In (y0, y1) ds /\
    ((neg_found xw xm xcl y0 /\ pos_found xw xcl y1) \/ (pos_found xw xcl y0 /\ neg_found xw xm xcl y1)).
  Proof.
    induction ds as [|[y0 y1] ds IH]; cbn [doublecut]; [discriminate|].
    destruct (doublecut_aux sb xw xm xcl y0 y1) eqn:E; [|..]; try discriminate.
    - intros _. exists y0, y1. split; simpl; auto. apply doublecut_aux_ok; auto.
    - intros H. destruct (IH H) as (z0&z1&A&B). exists z0, z1. simpl; auto.
  Qed.

  (** The cut literal, if true, makes another literal of the clause true. *)
  Lemma doublecut_sound xw xm xa xcl ds v :
    (forall d, In d ds -> valid_in eqc M (double_clause d)) ->
    (forall l, In l xcl -> lword l = xw -> latom l = xa) ->
    doublecut sb xw xm xcl ds = EYes -> holdsl v (meta_is_neg xm, xa) ->
    exists l, In l xcl /\ lword l <> xw /\ holdsl v (lit_of_clit l).
  Proof.
    intros Hd Hw E Hh. apply doublecut_ok in E as (y0&y1&Hin&E).
    destruct (Hd _ Hin v) as (l&Hl&Hlh).
    assert (Hneg : forall y, neg_found xw xm xcl y -> ~ holdsl v (lit_of_clit y)).
    { intros y (k&Hk&Ew&Em&Ea&En). unfold lit_holds, lit_of_clit in *. simpl in *.
      rewrite En, <- Ea, (Hw k Hk Ew), Em. destruct (meta_is_neg xm); simpl; tauto. }
    assert (Hpos : forall y, pos_found xw xcl y -> holdsl v (lit_of_clit y) -> exists l, In l xcl /\ lword l <> xw /\ holdsl v (lit_of_clit l)).
    { intros y (k&Hk&Ew&Ek) Hy. exists k. rewrite Ek. auto. }
    destruct E as [[En Ep]|[Ep En]]; destruct Hl as [<-|[<-|[]]]; simpl in Hlh.
    - exfalso. eapply Hneg; eauto.
    - eapply Hpos; eauto.
    - eapply Hpos; eauto.
    - exfalso. eapply Hneg; eauto.
  Qed.
End Cut.
