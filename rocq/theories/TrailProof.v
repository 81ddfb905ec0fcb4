(** The trail records exactly the assigned variables, so clearing undoes everything. *)
From Coq Require Import List ZArith Bool Lia.
From Verif Require Import Terms UnifySpec TermsProof UnifyModel UnifyProof MatchModel MatchProof TrailModel.
Import ListNotations.
Open Scope Z_scope.

(** Unification only ever sets unassigned variables (no acyclicity needed). *)
Lemma unify_grows : forall n x y s r s', unify_aux n x y s = Done r s' -> grows (fun _ => True) s s'.
Proof.
  induction n as [|n IH]; intros x y s r s'; [discriminate|]. cbn [unify_aux].
  destruct (deref n (bank s) x) as [x'|] eqn:Ex; [|discriminate].
  destruct (deref n (bank s) y) as [y'|] eqn:Ey; [|discriminate].
  apply deref_ok in Ex as [Rx _]. apply deref_ok in Ey as [Ry _].
  assert (Hset : forall i t, bank s i = None -> grows (fun _ => True) s (setvar i t s)).
  { intros; apply grows_set; auto. constructor. }
  destruct x' as [i|c|xs], y' as [j|d|ys]; simpl in Rx, Ry.
  - destruct (Z.eqb i j); intros H; injection H as <- <-; [constructor|auto].
  - intros H; injection H as <- <-; auto.
  - destruct (occurs_in n (bank s) i ys) as [[|]|]; [| |discriminate]; intros H; injection H as <- <-; [constructor|auto].
  - intros H; injection H as <- <-; auto.
  - destruct (cst_same_word c d); intros H; injection H as <- <-; constructor.
  - intros H; injection H as <- <-; constructor.
  - destruct (occurs_in n (bank s) j xs) as [[|]|]; [| |discriminate]; intros H; injection H as <- <-; [constructor|auto].
  - intros H; injection H as <- <-; constructor.
  - destruct (Nat.eqb _ _); [|intros H; injection H as <- <-; constructor].
    clear Rx Ry. revert ys s Hset r s'. induction xs as [|a xs IHl]; intros [|b ys] s Hset r s'; cbn [unify_loop];
      try (intros H; injection H as <- <-; constructor).
    destruct (unify_aux n a b s) as [q s1|] eqn:E; [|discriminate].
    apply IH in E. destruct q.
    + intros H. eapply grows_trans; [exact E|]. eapply IHl; [|exact H].
      intros; apply grows_set; auto. constructor.
    + intros H; injection H as <- <-; auto.
Qed.

Definition grown (s s' : vst) : Prop :=
  exists new, trail s' = new ++ trail s /\ NoDup new /\
    (forall i, In i new -> bank s i = None /\ bank s' i <> None) /\
    (forall i, ~ In i new -> bank s' i = bank s i).

Lemma grown_refl s : grown s s.
Proof. exists []. repeat split; auto using NoDup_nil; simpl in *; tauto. Qed.

Lemma grown_trans s1 s2 s3 : grown s1 s2 -> grown s2 s3 -> grown s1 s3.
Proof.
  intros (n1&T1&D1&N1&B1) (n2&T2&D2&N2&B2). exists (n2 ++ n1).
  assert (Hdis : forall i, In i n2 -> ~ In i n1).
  { intros i H2 H1. apply N2 in H2. apply N1 in H1. tauto. }
  split; [rewrite <- app_assoc, <- T1; auto|]. split.
  { clear -D1 D2 Hdis. induction D2 as [|k l Hk Hd IHd]; simpl; auto. constructor.
    - rewrite in_app_iff. intros [|]; auto. apply (Hdis k); simpl; auto.
    - apply IHd. intros; apply Hdis; simpl; auto. }
  split.
  - intros i Hi. apply in_app_or in Hi as [Hi|Hi].
    + destruct (N2 i Hi) as [A B]. rewrite <- B1 by (apply Hdis; auto). auto.
    + destruct (N1 i Hi) as [A B]. split; auto.
      destruct (in_dec Z.eq_dec i n2) as [Hin|Hin]; [apply N2 in Hin; tauto|rewrite B2; auto].
  - intros i Hi. rewrite in_app_iff in Hi. rewrite B2, B1 by tauto. auto.
Qed.

Lemma unify_grown n x y s r s' : unify_term n x y s = Done r s' -> grown s s'.
Proof.
  intros H. apply unify_grows in H. apply grows_trail in H as (new&A&B&C&D).
  exists new. repeat split; auto; apply C; auto.
Qed.

Lemma match_grown sb x y s r s' : match_term sb x y s = MDone r s' -> grown s s'.
Proof.
  intros H. pose proof (match_spec sb x y s) as Hm. unfold match_term in H. rewrite H in Hm.
  destruct Hm as [(new&A&B&C&D) _]. exists new. repeat split; auto; apply C; auto.
Qed.

Definition consistent (s : vst) : Prop :=
  NoDup (trail s) /\ forall i, bank s i <> None <-> In i (trail s).

Lemma grown_consistent s s' : consistent s -> grown s s' -> consistent s'.
Proof.
  intros [Hd Hc] (new&T&D&N&B). split.
  - rewrite T. clear T B. induction D as [|k l Hk Hd' IHd]; simpl; auto. constructor.
    + rewrite in_app_iff. intros [|H]; auto. apply Hc in H. apply H, N. simpl; auto.
    + apply IHd. intros; apply N; simpl; auto.
  - intros i. rewrite T, in_app_iff. destruct (in_dec Z.eq_dec i new) as [Hin|Hin].
    + apply N in Hin as H. tauto.
    + rewrite B, Hc by auto. tauto.
Qed.

Lemma clear_cells_ok l b i : clear_cells l b i = if in_dec Z.eq_dec i l then None else b i.
Proof.
  unfold clear_cells. revert b; induction l as [|a l IH]; intros b; cbn [fold_left].
  - destruct (in_dec Z.eq_dec i []) as [[]|]; auto.
  - rewrite IH. destruct (in_dec Z.eq_dec i l) as [H|H], (in_dec Z.eq_dec i (a :: l)) as [H'|H'];
      try reflexivity.
    + exfalso; apply H'; simpl; auto.
    + destruct (Z.eqb_spec i a) as [->|]; auto. destruct H' as [->|H']; contradiction.
    + destruct (Z.eqb_spec i a) as [->|]; auto. exfalso; apply H'; simpl; auto.
Qed.

Lemma clear_ok s : consistent s -> (forall i, bank (clear_varstack s) i = None) /\ trail (clear_varstack s) = [].
Proof.
  intros [Hd Hc]. split; auto. intros i. simpl. rewrite clear_cells_ok.
  destruct (in_dec Z.eq_dec i (trail s)) as [|H]; auto.
  destruct (bank s i) eqn:E; auto. exfalso. apply H, Hc. congruence.
Qed.

Lemma vrun_consistent sb ops s s' : consistent s -> vrun sb ops s = Some s' -> consistent s'.
Proof.
  revert s; induction ops as [|o ops IH]; intros s Hc; cbn [vrun].
  - intros H; injection H as <-; auto.
  - destruct (vstep sb o s) as [s1|] eqn:E; [|discriminate]. apply IH.
    destruct o as [n x y|x y|]; cbn [vstep] in E.
    + destruct (unify_term n x y s) as [r s2|] eqn:E2; [|discriminate]. injection E as <-.
      apply unify_grown in E2. eapply grown_consistent; eauto.
    + destruct (match_term sb x y s) as [r s2|] eqn:E2; [|discriminate]. injection E as <-.
      apply match_grown in E2. eapply grown_consistent; eauto.
    + injection E as <-. apply clear_ok in Hc as [A B]. split; rewrite B; [constructor|].
      intros i. rewrite A. simpl. tauto.
Qed.

Lemma empty_consistent : consistent empty_vst.
Proof. split; simpl; [constructor|]. intros i. split; [congruence|intros []]. Qed.

Lemma clear_after_any sb ops s : vrun sb ops empty_vst = Some s ->
  (forall i, bank (clear_varstack s) i = None) /\ trail (clear_varstack s) = [].
Proof. intros H. apply clear_ok. eapply vrun_consistent; [apply empty_consistent|exact H]. Qed.

Definition no_clear (o : vop) : bool := match o with OClear => false | _ => true end.

Lemma vrun_grown sb ops s s' : forallb no_clear ops = true -> vrun sb ops s = Some s' -> grown s s'.
Proof.
  revert s; induction ops as [|o ops IH]; intros s Hn; cbn [vrun].
  - intros H; injection H as <-. apply grown_refl.
  - cbn [forallb] in Hn. apply andb_true_iff in Hn as [Ho Hn].
    destruct (vstep sb o s) as [s1|] eqn:E; [|discriminate]. intros H.
    eapply grown_trans; [|apply IH; eauto].
    destruct o as [n x y|x y|]; cbn [vstep] in E; [| |discriminate].
    + destruct (unify_term n x y s) as [r s2|] eqn:E2; [|discriminate]. injection E as <-.
      eapply unify_grown; eauto.
    + destruct (match_term sb x y s) as [r s2|] eqn:E2; [|discriminate]. injection E as <-.
      eapply match_grown; eauto.
Qed.

Lemma topslice_restores s s' : grown s s' ->
  (forall i, bank (clear_topslice (length (trail s)) s') i = bank s i) /\
  trail (clear_topslice (length (trail s)) s') = trail s.
Proof.
  intros (new&T&D&N&B). unfold clear_topslice. simpl. rewrite T, app_length.
  replace (length new + length (trail s) - length (trail s))%nat with (length new) by lia.
  rewrite firstn_app, skipn_app, Nat.sub_diag, firstn_all, skipn_all. simpl. rewrite app_nil_r.
  split; auto. intros i. rewrite clear_cells_ok. destruct (in_dec Z.eq_dec i new) as [H|H].
  - symmetry. apply N; auto.
  - apply B; auto.
Qed.

Lemma topslice_after_any sb ops1 ops2 s s' :
  vrun sb ops1 empty_vst = Some s -> forallb no_clear ops2 = true -> vrun sb ops2 s = Some s' ->
  (forall i, bank (clear_topslice (length (trail s)) s') i = bank s i) /\
  trail (clear_topslice (length (trail s)) s') = trail s.
Proof. intros _ Hn H. apply topslice_restores. eapply vrun_grown; eauto. Qed.

(** Every variable is pushed at most once between clears: the trail never holds more
    entries than there are variables in use. *)
Lemma trail_bounded sb ops s L : vrun sb ops empty_vst = Some s ->
  (forall i, In i (trail s) -> In i L) -> (length (trail s) <= length L)%nat.
Proof.
  intros H HL. apply vrun_consistent in H as [Hd _]; [|apply empty_consistent].
  apply NoDup_incl_length; auto.
Qed.
