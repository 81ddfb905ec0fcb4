(** Proofs about term equality and matching. *)
From Coq Require Import List ZArith Bool Lia.
From Verif Require Import Terms UnifySpec TermsProof UnifyModel UnifyProof MatchModel.
Import ListNotations.
Open Scope Z_scope.

Lemma equal_cst_exact c d : equal_cst c d = true <-> c = d.
Proof.
  unfold equal_cst.
  destruct c as [w|z|[v|k]|bs|o], d as [w'|z'|[v'|k']|bs'|o']; simpl;
    try (split; congruence);
    try (destruct (Z.eqb_spec w w')); try (destruct (Z.eqb_spec z z'));
    try (destruct (Z.eqb_spec v v')); try (destruct (Z.eqb_spec k k'));
    try (destruct (Z.eqb_spec o o')); try (split; congruence).
  rewrite bytes_eq_iff. split; congruence.
Qed.

Lemma equal_macro_spec sb x : forall y,
  match equal_macro sb x y with
  | EYes => x = y
  | ENo => x <> y
  | EStray => x <> y
  end.
Proof.
  induction x as [i|c|xs IH] using term_ind'; intros y; destruct y as [j|d|ys]; cbn [equal_macro];
    try discriminate.
  - destruct (Z.eqb_spec i j); simpl; congruence.
  - pose proof (equal_cst_exact c d). destruct (equal_cst c d); simpl.
    + f_equal. tauto.
    + intros E; injection E as E. apply H in E. discriminate.
  - destruct d; try discriminate. destruct (sb _); discriminate.
  - destruct (Nat.eqb_spec (length xs) (length ys)) as [Hl|Hl]; [|congruence].
    assert (H : match equal_loop (equal_macro sb) xs ys with
                | EYes => xs = ys | ENo => xs <> ys | EStray => xs <> ys end).
    { revert ys Hl. induction IH as [|a xs Ha _ IHl]; intros [|b ys] Hl; try discriminate.
      - reflexivity.
      - cbn [equal_loop]. specialize (Ha b). destruct (equal_macro sb a b); [|congruence|congruence].
        specialize (IHl ys ltac:(simpl in Hl; lia)).
        destruct (equal_loop (equal_macro sb) xs ys); congruence. }
    destruct (equal_loop (equal_macro sb) xs ys); congruence.
Qed.

Lemma equal_term_spec sb x y :
  match equal_term sb x y with
  | EYes => x = y
  | ENo => x <> y
  | EStray => x <> y
  end.
Proof.
  pose proof (equal_macro_spec sb x y) as H.
  destruct x as [i|c|xs], y as [j|d|ys]; cbn [equal_term equal_macro] in *; try exact H; try discriminate.
Qed.

Lemma equal_macro_refl sb x : equal_macro sb x x = EYes.
Proof.
  induction x as [i|c|xs IH] using term_ind'; cbn [equal_macro].
  - rewrite Z.eqb_refl. reflexivity.
  - destruct (equal_cst c c) eqn:E; auto.
    assert (equal_cst c c = true) by (apply equal_cst_exact; auto). congruence.
  - rewrite Nat.eqb_refl. induction IH as [|a xs Ha _ IHl]; auto.
    cbn [equal_loop]. rewrite Ha. exact IHl.
Qed.

Lemma equal_term_refl sb x : equal_term sb x x = EYes.
Proof.
  pose proof (equal_macro_refl sb x) as H. destruct x; exact H.
Qed.

(** With benign stray reads there is no stray outcome. *)
Lemma equal_macro_nostray sb : (forall c, sb c = true) -> forall x y, equal_macro sb x y <> EStray.
Proof.
  intros Hsb. induction x as [i|c|xs IH] using term_ind'; intros y; destruct y as [j|d|ys]; cbn [equal_macro];
    try discriminate; try (destruct (Z.eqb _ _); discriminate).
  - destruct (equal_cst c d); discriminate.
  - destruct d; try discriminate. rewrite Hsb. discriminate.
  - destruct (Nat.eqb _ _); [|discriminate]. revert ys.
    induction IH as [|a xs Ha _ IHl]; intros [|b ys]; cbn [equal_loop]; try discriminate.
    specialize (Ha b). destruct (equal_macro sb a b); auto; congruence.
Qed.

Lemma equal_term_nostray sb : (forall c, sb c = true) -> forall x y, equal_term sb x y <> EStray.
Proof.
  intros Hsb x y. pose proof (equal_macro_nostray sb Hsb x y) as H.
  destruct x as [i|c|xs], y as [j|d|ys]; cbn [equal_term equal_macro] in *; try discriminate; auto.
Qed.

(** ** Matching *)
(** A substitution agrees with the bindings: bound variables get exactly their value. *)
Definition agrees (s : subst) (b : Z -> option term) : Prop :=
  forall i t, b i = Some t -> s i = t.

Lemma agrees_setvar b i t s : b i = None ->
  (agrees s (fun j => if Z.eqb j i then Some t else b j) <-> agrees s b /\ s i = t).
Proof.
  intros Hi. split.
  - intros H. split.
    + intros j u E. apply H. destruct (Z.eqb_spec j i) as [->|]; congruence.
    + apply H. rewrite Z.eqb_refl. reflexivity.
  - intros [H1 H2] j u. destruct (Z.eqb_spec j i) as [->|].
    + intros E; injection E as <-; auto.
    + apply H1.
Qed.

(** State growth for matching: only variables of the general term are set. *)
Definition mspec (x y : term) (s : vst) (res : mres) : Prop :=
  match res with
  | MDone r s' =>
      (exists new, trail s' = new ++ trail s /\ NoDup new /\
         (forall i, In i new -> In i (tvars x) /\ bank s i = None /\ bank s' i <> None) /\
         (forall i, ~ In i new -> bank s' i = bank s i)) /\
      (if r then (forall t, agrees t (bank s') <-> agrees t (bank s) /\ app t x = y) /\
                 (forall i, In i (tvars x) -> bank s' i <> None)
       else forall t, agrees t (bank s) -> app t x <> y)
  | MStray => forall t, agrees t (bank s) -> app t x <> y
  end.

Lemma new_refl (P : Z -> Prop) s : exists new, trail s = new ++ trail s /\ NoDup new /\
         (forall i, In i new -> P i /\ bank s i = None /\ bank s i <> None) /\
         (forall i, ~ In i new -> bank s i = bank s i).
Proof. exists []. repeat split; auto using NoDup_nil; simpl in *; tauto. Qed.

Lemma match_spec sb x : forall y s, mspec x y s (match_aux sb x y s).
Proof.
  induction x as [i|c|xs IH] using term_ind'; intros y s; cbn [match_aux].
  - destruct (bank s i) as [v|] eqn:E.
    + pose proof (equal_macro_spec sb v y) as H.
      destruct (equal_macro sb v y); simpl.
      * split; [apply new_refl|]. split.
        -- intros t. split; [|tauto]. intros Ht; split; auto. rewrite (Ht i v E). auto.
        -- intros j [->|[]]. congruence.
      * split; [apply new_refl|]. intros t Ht. rewrite (Ht i v E). auto.
      * intros t Ht. rewrite (Ht i v E). auto.
    + simpl. split.
      * exists [i]. split; [auto|]. split; [repeat constructor; simpl; tauto|]. split.
        -- intros j [<-|[]]. rewrite Z.eqb_refl. repeat split; auto. discriminate.
        -- intros j Hj. destruct (Z.eqb_spec j i) as [->|]; auto. exfalso; apply Hj; simpl; auto.
      * split.
        -- intros t. apply agrees_setvar; auto.
        -- intros j [<-|[]]. rewrite Z.eqb_refl. discriminate.
  - pose proof (equal_macro_spec sb (TCst c) y) as H.
    destruct (equal_macro sb (TCst c) y) eqn:Ee.
    + simpl. split; [apply new_refl|]. split; [|intros i []].
      intros t; split; [|tauto]. intros Ht; split; auto.
    + destruct y as [j|d|ys].
      * simpl. split; [apply new_refl|]. intros t Ht. simpl. auto.
      * simpl. split; [apply new_refl|]. intros t Ht. simpl. auto.
      * destruct (sb c); simpl; [split; [apply new_refl|]|]; intros t Ht; simpl; auto.
    + destruct y as [j|d|ys]; simpl in Ee; try discriminate.
      destruct (equal_cst c d); discriminate.
  - destruct y as [j|d|ys]; try (simpl; split; [apply new_refl|]; intros t Ht; simpl; discriminate).
    destruct (Nat.eqb_spec (length xs) (length ys)) as [Hl|Hl].
    + assert (H : forall s, match match_loop (match_aux sb) xs ys s with
         | MDone r s' =>
            (exists new, trail s' = new ++ trail s /\ NoDup new /\
              (forall i, In i new -> In i (tvars (TRec xs)) /\ bank s i = None /\ bank s' i <> None) /\
              (forall i, ~ In i new -> bank s' i = bank s i)) /\
            (if r then (forall t, agrees t (bank s') <-> agrees t (bank s) /\ map (app t) xs = ys) /\
                       (forall i, In i (tvars (TRec xs)) -> bank s' i <> None)
             else forall t, agrees t (bank s) -> map (app t) xs <> ys)
         | MStray => forall t, agrees t (bank s) -> map (app t) xs <> ys
         end).
      { revert ys Hl. clear s. induction IH as [|a xs Ha _ IHl]; intros [|b ys] Hl s; try discriminate.
        - simpl. split; [apply new_refl|]. split; [tauto|intros i []].
        - cbn [match_loop]. pose proof (Ha b s) as Hab.
          destruct (match_aux sb a b s) as [r s1|] eqn:E1.
          + destruct Hab as [(n1&T1&D1&N1&B1) Hab]. destruct r.
            * destruct Hab as [Hab Hba].
              specialize (IHl ys ltac:(simpl in Hl; lia) s1).
              destruct (match_loop (match_aux sb) xs ys s1) as [r s2|].
              -- destruct IHl as [(n2&T2&D2&N2&B2) Hr]. split.
                 { exists (n2 ++ n1). split; [rewrite <- app_assoc, <- T1; auto|].
                   assert (Hdis : forall i, In i n2 -> ~ In i n1).
                   { intros i H2 H1. apply N2 in H2. apply N1 in H1. tauto. }
                   split.
                   - clear -D1 D2 Hdis. induction D2 as [|k l Hk Hd IHd]; simpl; auto.
                     constructor.
                     + rewrite in_app_iff. intros [|]; auto. apply (Hdis k); simpl; auto.
                     + apply IHd. intros; apply Hdis; simpl; auto.
                   - split.
                     + intros i Hi. apply in_app_or in Hi. simpl. rewrite in_app_iff.
                       destruct Hi as [Hi|Hi].
                       * destruct (N2 i Hi) as (A&B&C).
                         rewrite <- B1 by (apply Hdis; auto). auto.
                       * destruct (N1 i Hi) as (A&B&C). repeat split; auto.
                         destruct (in_dec Z.eq_dec i n2) as [Hin|Hin].
                         -- apply N2 in Hin. tauto.
                         -- rewrite B2; auto.
                     + intros i Hi. rewrite in_app_iff in Hi. rewrite B2, B1 by tauto. auto. }
                 destruct r.
                 ++ destruct Hr as [Hr Hr2]. split.
                    ** intros t. rewrite Hr, Hab. simpl. split.
                       --- intros [[H1 H2] H3]. split; [auto|congruence].
                       --- intros [H1 H2]. injection H2; auto.
                    ** intros i Hi. simpl in Hi. apply in_app_or in Hi as [Hi|Hi]; auto.
                       specialize (Hba i Hi).
                       destruct (in_dec Z.eq_dec i n2) as [Hin|Hin].
                       --- apply N2 in Hin. tauto.
                       --- rewrite B2; auto.
                 ++ intros t Ht E. simpl in E. injection E as E1' E2'. apply (Hr t); auto. apply Hab; auto.
              -- intros t Ht E. simpl in E. injection E as E1' E2'. apply (IHl t); auto. apply Hab; auto.
            * split.
              { exists n1. repeat split; auto; try apply N1; auto. simpl. rewrite in_app_iff. left. apply N1; auto. }
              intros t Ht E. simpl in E. injection E as E1' E2'. apply (Hab t); auto.
          + intros t Ht E. simpl in E. injection E as E1' E2'. apply (Hab t); auto. }
      specialize (H s). destruct (match_loop (match_aux sb) xs ys s) as [r s'|]; simpl.
      * destruct H as [Hn Hr]. split; [exact Hn|]. destruct r.
        -- destruct Hr as [Hr Hr2]. split; [|exact Hr2]. intros t. rewrite Hr.
           split; intros [H1 H2]; split; auto; congruence.
        -- intros t Ht E. apply (Hr t Ht). congruence.
      * intros t Ht E. apply (H t Ht). congruence.
    + simpl. split; [apply new_refl|]. intros t Ht E. injection E as E. apply Hl.
      rewrite <- E. rewrite map_length. auto.
Qed.

Lemma match_nostray sb : (forall c, sb c = true) -> forall x y s, match_aux sb x y s <> MStray.
Proof.
  intros Hsb. induction x as [i|c|xs IH] using term_ind'; intros y s; cbn [match_aux].
  - destruct (bank s i) as [v|]; [|discriminate].
    pose proof (equal_macro_nostray sb Hsb v y). destruct (equal_macro sb v y); simpl; congruence.
  - pose proof (equal_macro_nostray sb Hsb (TCst c) y). destruct (equal_macro sb (TCst c) y); try congruence.
    destruct y; try discriminate. rewrite Hsb. discriminate.
  - destruct y as [j|d|ys]; try discriminate. destruct (Nat.eqb _ _); [|discriminate].
    revert ys s. induction IH as [|a xs Ha _ IHl]; intros [|b ys] s; cbn [match_loop]; try discriminate.
    specialize (Ha b s). destruct (match_aux sb a b s) as [[|] s1|]; auto; congruence.
Qed.

Lemma agrees_exists b : exists t, agrees t b.
Proof. exists (fun i => match b i with Some t => t | None => TVar i end). intros i t E. rewrite E; auto. Qed.

Lemma match_never_wrong sb x y s :
  match match_term sb x y s with
  | MDone true _ => exists t, agrees t (bank s) /\ app t x = y
  | MDone false _ | MStray => forall t, agrees t (bank s) -> app t x <> y
  end.
Proof.
  pose proof (match_spec sb x y s) as H. unfold match_term.
  destruct (match_aux sb x y s) as [[|] s'|]; [|exact (proj2 H)|exact H].
  destruct H as [_ [H _]]. destruct (agrees_exists (bank s')) as [t Ht]. exists t. apply H; auto.
Qed.

Lemma match_decides x y s r s' :
  match_term (fun _ => true) x y s = MDone r s' ->
  (r = true <-> exists t, agrees t (bank s) /\ app t x = y).
Proof.
  intros H. pose proof (match_never_wrong (fun _ => true) x y s) as Hn. rewrite H in Hn.
  destruct r; split; auto; [discriminate|]. intros (t&A&B). exfalso; eapply Hn; eauto.
Qed.

Lemma match_answers x y s : match_term (fun _ => true) x y s <> MStray.
Proof. apply match_nostray; auto. Qed.

Lemma match_bindings sb x y s s' :
  match_term sb x y s = MDone true s' ->
  (forall i, In i (tvars x) -> bank s' i <> None) /\
  (forall i, ~ In i (tvars x) -> bank s' i = bank s i) /\
  (forall t, agrees t (bank s') -> agrees t (bank s) /\ app t x = y).
Proof.
  intros H. pose proof (match_spec sb x y s) as Hs. unfold match_term in H. rewrite H in Hs.
  destruct Hs as [(new&_&_&N&B) [Ha Hb]]. repeat split; auto.
  - intros i Hi. apply B. intros Hn. apply Hi, N; auto.
  - apply Ha; auto.
  - apply Ha; auto.
Qed.

Lemma match_stray sb : sb (CImm 43) = false -> exists x y, match_term sb x y empty_vst = MStray.
Proof.
  intros H. exists (TCst (CImm 43)), (TRec [TCst (CLong 1); TCst (CLong 2)]).
  unfold match_term; simpl. rewrite H. reflexivity.
Qed.

Lemma equal_macro_exact x y : equal_macro (fun _ => true) x y = EYes <-> x = y.
Proof.
  split; [|intros ->; apply equal_macro_refl].
  pose proof (equal_macro_spec (fun _ => true) x y) as H. destruct (equal_macro _ x y); auto; discriminate.
Qed.
Lemma equal_term_exact x y : equal_term (fun _ => true) x y = EYes <-> x = y.
Proof.
  split; [|intros ->; apply equal_term_refl].
  pose proof (equal_term_spec (fun _ => true) x y) as H. destruct (equal_term _ x y); auto; discriminate.
Qed.
Lemma equal_answers x y : equal_term (fun _ => true) x y <> EStray /\ equal_macro (fun _ => true) x y <> EStray.
Proof. split; [apply equal_term_nostray|apply equal_macro_nostray]; auto. Qed.
