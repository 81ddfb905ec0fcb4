(** Removing literals whose once-occurring variables make them match another literal keeps
    the meaning of the clause. *)
From Coq Require Import List ZArith Bool Lia.
From Verif Require Import Terms TermsProof UnifyModel MatchModel MatchProof MetaModel SubsumeSpec Semantics SemProof
  DeriveModel DeriveSpec DupModel.
Import ListNotations.
Open Scope Z_scope.

Definition cnt (l : list Z) (i : Z) : nat := count_occ Z.eq_dec l i.
Definition all_vars (r : list mlit) : list Z := flat_map (fun x : mlit => tvars (snd x)) r.

(** ** Marks count occurrences *)
Definition mark_of (n : nat) : umark := match n with O => Unseen | S O => Once | _ => Again end.
Definition bump (k : umark) (n : nat) : umark :=
  match n, k with O, _ => k | S O, Unseen => Once | _, _ => Again end.

Lemma bump_mark a b : bump (mark_of a) b = mark_of (a + b).
Proof. destruct a as [|[|a]], b as [|[|b]]; simpl; auto; rewrite ?Nat.add_0_r, <- ?plus_n_Sm; auto. Qed.

Lemma bump_bump k a b : bump (bump k a) b = bump k (a + b).
Proof. destruct k, a as [|[|a]], b as [|[|b]]; simpl; auto; rewrite ?Nat.add_0_r, <- ?plus_n_Sm; auto. Qed.

Lemma mark_vars_ok t : forall m i, mark_vars t m i = bump (m i) (cnt (tvars t) i).
Proof.
  induction t as [k|c|fs IH] using term_ind'; intros m i; simpl.
  - unfold mark_var, cnt. simpl. destruct (Z.eq_dec k i) as [->|Hn].
    + rewrite Z.eqb_refl. destruct (m i); auto.
    + destruct (Z.eqb_spec i k); [congruence|auto].
  - auto.
  - revert m. induction IH as [|f fs Hf Hfs IHl]; intros m; simpl; auto.
    unfold cnt in *. rewrite count_occ_app, IHl, Hf, bump_bump. auto.
Qed.

Lemma mark_all_ok r i : mark_all r i = mark_of (cnt (all_vars r) i).
Proof.
  unfold mark_all, all_vars.
  assert (H : forall r m, fold_left (fun m (x : mlit) => mark_vars (snd x) m) r m i
                = bump (m i) (cnt (flat_map (fun x : mlit => tvars (snd x)) r) i)).
  { clear r. induction r as [|x r IH]; intros m; simpl; auto.
    unfold cnt in *. rewrite count_occ_app, IH, mark_vars_ok, bump_bump. auto. }
  rewrite H. change Unseen with (mark_of 0). rewrite bump_mark. auto.
Qed.

(** ** A match through once-occurring variables is a substitution on them *)
Section Dup.
  Variable sb : stray_env.
  Variable m : Z -> umark.

  Definition once (i : Z) : bool := match m i with Once => true | _ => false end.

  Section BLoop.
    Variable f : term -> term -> list (Z * term).
    Fixpoint binds_loop (xs ys : list term) : list (Z * term) :=
      match xs, ys with
      | a :: xs', b :: ys' => f a b ++ binds_loop xs' ys'
      | _, _ => []
      end.
  End BLoop.
  Fixpoint binds (x y : term) : list (Z * term) :=
    match x with
    | TVar i => if once i then [(i, y)] else []
    | TCst _ => []
    | TRec xs => match y with TRec ys => binds_loop binds xs ys | _ => [] end
    end.

  Lemma nomatch_app x : forall y, nomatch sb m x y = N0 -> forall s,
    (forall i t, In (i, t) (binds x y) -> s i = t) -> (forall i, once i = false -> s i = TVar i) -> app s x = y.
  Proof.
    induction x as [i|c|xs IH] using term_ind'; intros y Hn s Hb Ho; cbn [nomatch binds app] in *.
    - unfold once in *. destruct (m i) eqn:Em.
      + rewrite Ho by (rewrite Em; auto). pose proof (equal_macro_spec sb (TVar i) y) as He.
        destruct (equal_macro sb (TVar i) y); simpl in Hn; try discriminate. auto.
      + apply Hb. simpl; auto.
      + rewrite Ho by (rewrite Em; auto). pose proof (equal_macro_spec sb (TVar i) y) as He.
        destruct (equal_macro sb (TVar i) y); simpl in Hn; try discriminate. auto.
    - pose proof (equal_macro_spec sb (TCst c) y) as He.
      destruct (equal_macro sb (TCst c) y); auto; try discriminate. destruct y; try discriminate. destruct (sb c); discriminate.
    - destruct y as [j|d|ys]; try discriminate.
      destruct (Nat.eqb_spec (length xs) (length ys)) as [El|]; [|discriminate].
      f_equal. revert ys Hn Hb El. induction IH as [|a xs Ha Hxs IHl]; intros [|b ys] Hn Hb El; simpl in El; try discriminate; auto.
      cbn [nomatch_loop binds_loop map] in *. destruct (nomatch sb m a b) eqn:E; try discriminate.
      f_equal.
      + apply Ha; auto. intros i t Hi. apply Hb. apply in_or_app. auto.
      + apply IHl; auto. intros i t Hi. apply Hb. apply in_or_app. auto.
  Qed.

  Lemma binds_once x : forall y i t, In (i, t) (binds x y) -> once i = true.
  Proof.
    induction x as [k|c|xs IH] using term_ind'; intros y i t; cbn [binds].
    - destruct (once k) eqn:E; [|intros []]. intros [H|[]]. injection H as <- <-. auto.
    - intros [].
    - destruct y as [j|d|ys]; try (intros []).
      revert ys. induction IH as [|a xs Ha Hxs IHl]; intros [|b ys]; simpl; try tauto.
      intros H. apply in_app_or in H as [H|H]; eauto.
  Qed.

  Lemma binds_count x : forall y i, (cnt (map fst (binds x y)) i <= cnt (tvars x) i)%nat.
  Proof.
    unfold cnt. induction x as [k|c|xs IH] using term_ind'; intros y i; cbn [binds tvars].
    - destruct (once k); simpl; [destruct (Z.eq_dec k i); lia|lia].
    - simpl. lia.
    - destruct y as [j|d|ys]; try (simpl; lia).
      revert ys. induction IH as [|a xs Ha Hxs IHl]; intros [|b ys]; simpl; try lia.
      rewrite map_app, !count_occ_app. specialize (Ha b i). specialize (IHl ys). lia.
  Qed.

  Fixpoint look (bs : list (Z * term)) (i : Z) : term :=
    match bs with [] => TVar i | (j, t) :: bs' => if Z.eqb i j then t else look bs' i end.
  Lemma look_in bs i t : NoDup (map fst bs) -> In (i, t) bs -> look bs i = t.
  Proof.
    induction bs as [|[j u] bs IH]; simpl; [tauto|]. intros Hd. inversion Hd as [|? ? H1 H2]; subst.
    intros [E|H].
    - injection E as -> ->. rewrite Z.eqb_refl. auto.
    - destruct (Z.eqb_spec i j) as [->|]; auto. exfalso. apply H1. apply (in_map fst) in H. auto.
  Qed.
  Lemma look_out bs i : ~ In i (map fst bs) -> look bs i = TVar i.
  Proof.
    induction bs as [|[j u] bs IH]; simpl; auto. intros H. destruct (Z.eqb_spec i j) as [->|]; [tauto|]. apply IH. tauto.
  Qed.

  (** [x] becomes [y] by a substitution that changes variables marked once only. *)
  Definition becomes (x y : term) : Prop :=
    exists s, app s x = y /\ forall i, once i = false -> s i = TVar i.

  Lemma nomatch_becomes x y : (forall i, once i = true -> (cnt (tvars x) i <= 1)%nat) -> nomatch sb m x y = N0 -> becomes x y.
  Proof.
    intros Hc Hn. exists (look (binds x y)).
    assert (Hd : NoDup (map fst (binds x y))).
    { apply (NoDup_count_occ Z.eq_dec). intros i. pose proof (binds_count x y i) as H. unfold cnt in H.
      destruct (in_dec Z.eq_dec i (map fst (binds x y))) as [Hin|Hout].
      - apply in_map_iff in Hin as ([j t]&E&Hin). simpl in E. subst j. apply binds_once in Hin. apply Hc in Hin.
        unfold cnt in Hin. lia.
      - apply (count_occ_not_In Z.eq_dec) in Hout. lia. }
    assert (Ho : forall i, once i = false -> look (binds x y) i = TVar i).
    { intros i Hi. apply look_out. intros H. apply in_map_iff in H as ([j t]&E&H). simpl in E. subst j.
      apply binds_once in H. congruence. }
    split; auto. apply nomatch_app; auto. intros i t H. apply look_in; auto.
  Qed.

  (** ** The clause *)
  Variable lits : list mlit.
  Hypothesis marks : forall i, m i = mark_of (cnt (all_vars lits) i).
  Hypothesis lits_foa : forall x, In x lits -> foa (snd x) = true.

  Lemma once_count i : once i = true -> cnt (all_vars lits) i = 1%nat.
  Proof. unfold once. rewrite marks. destruct (cnt (all_vars lits) i) as [|[|k]]; simpl; congruence. Qed.

  Lemma lit_count r k (x : mlit) i : nth_error r k = Some x -> (cnt (tvars (snd x)) i <= cnt (all_vars r) i)%nat.
  Proof.
    revert k. induction r as [|y r IH]; intros [|k] E; try discriminate; unfold all_vars, cnt in *; simpl in *; rewrite count_occ_app.
    - injection E as ->. lia.
    - specialize (IH _ E). lia.
  Qed.
  Lemma two_count r k1 k2 (x1 x2 : mlit) i : nth_error r k1 = Some x1 -> nth_error r k2 = Some x2 -> k1 <> k2 ->
    In i (tvars (snd x1)) -> In i (tvars (snd x2)) -> (2 <= cnt (all_vars r) i)%nat.
  Proof.
    revert k1 k2. induction r as [|y r IH]; intros [|k1] [|k2] E1 E2 Hn H1 H2; try discriminate; try congruence;
      unfold all_vars in *; simpl in *; unfold cnt; rewrite count_occ_app.
    - injection E1 as ->. apply (count_occ_In Z.eq_dec) in H1. pose proof (lit_count r k2 x2 i E2) as H.
      apply (count_occ_In Z.eq_dec) in H2. unfold cnt, all_vars in H. lia.
    - injection E2 as ->. apply (count_occ_In Z.eq_dec) in H2. pose proof (lit_count r k1 x1 i E1) as H.
      apply (count_occ_In Z.eq_dec) in H1. unfold cnt, all_vars in H. lia.
    - specialize (IH k1 k2 E1 E2 ltac:(congruence) H1 H2). unfold cnt in IH. lia.
  Qed.

  Lemma once_private k1 k2 x1 x2 i : once i = true -> nth_error lits k1 = Some x1 -> nth_error lits k2 = Some x2 ->
    In i (tvars (snd x1)) -> In i (tvars (snd x2)) -> k1 = k2.
  Proof.
    intros Ho E1 E2 H1 H2. apply once_count in Ho. destruct (Nat.eq_dec k1 k2); auto.
    pose proof (two_count lits k1 k2 x1 x2 i E1 E2 n H1 H2). lia.
  Qed.

  Lemma lit_nomatch k x y : nth_error lits k = Some x -> nomatch sb m (snd x) y = N0 -> becomes (snd x) y.
  Proof.
    intros E. apply nomatch_becomes. intros i Ho. apply once_count in Ho. pose proof (lit_count lits k x i E). lia.
  Qed.

  (** Literal [k] may be mapped onto literal [u]. *)
  Definition onto (k u : nat) : Prop := exists x y, nth_error lits k = Some x /\ nth_error lits u = Some y /\
    meta_is_neg (fst x) = meta_is_neg (fst y) /\ becomes (snd x) (snd y).

  Lemma onto_trans k u w : k <> u -> onto k u -> onto u w -> onto k w.
  Proof.
    intros Hne (x&y&Ex&Ey&Es&s&Hs&Ho) (y'&z&Ey'&Ez&Es'&t&Ht&Ho'). rewrite Ey in Ey'. injection Ey' as <-.
    exists x, z. repeat split; auto; [congruence|].
    exists (fun i => if once i then app t (s i) else TVar i). split.
    - rewrite <- Ht, <- Hs, <- app_comp. apply app_ext. intros i Hi. unfold comp. destruct (once i) eqn:E; auto.
      rewrite Ho by auto. cbn [app]. symmetry. auto.
    - intros i ->. auto.
  Qed.

  Definition lit_of (x : mlit) : literal := (meta_is_neg (fst x), snd x).

  Section M.
    Variable eqc : cst.
    Variable M : interp.
    Definition kept_at (bl : nat -> bool) (v : Z -> dom M) : Prop :=
      exists k x, nth_error lits k = Some x /\ bl k = false /\ lit_holds eqc M v (lit_of x).

    Lemma block_step bl k u : onto k u -> k <> u -> bl u = false ->
      (forall v, kept_at bl v) -> forall v, kept_at (block k bl) v.
    Proof.
      intros (x&y&Ex&Ey&Es&s&Hs&Ho) Hne Hu Hv v.
      set (v' := fun i => if once i && (if in_dec Z.eq_dec i (tvars (snd x)) then true else false) then eval M v (s i) else v i).
      destruct (Hv v') as (j&z&Ez&Hj&Hh).
      destruct (Nat.eq_dec j k) as [->|Hjk].
      - rewrite Ex in Ez. injection Ez as <-. exists u, y. split; auto. split.
        { unfold block. destruct (Nat.eqb_spec u k); [congruence|auto]. }
        assert (Hx : holds eqc M v (snd y) <-> holds eqc M v' (snd x)).
        { rewrite <- Hs. rewrite holds_app by (apply lits_foa; eapply nth_error_In; eauto).
          apply holds_ext. intros i Hi. unfold v'. destruct (in_dec Z.eq_dec i (tvars (snd x))); [|contradiction].
          destruct (once i) eqn:E; simpl; auto. rewrite Ho by auto. auto. }
        unfold lit_holds, lit_of in *. simpl in *. rewrite <- Es. destruct (meta_is_neg (fst x)); tauto.
      - exists j, z. split; auto. split.
        { unfold block. destruct (Nat.eqb_spec j k); [congruence|auto]. }
        assert (Hz : holds eqc M v (snd z) <-> holds eqc M v' (snd z)).
        { apply holds_ext. intros i Hi. unfold v'. destruct (in_dec Z.eq_dec i (tvars (snd x))) as [Hin|]; [|rewrite andb_false_r; auto].
          destruct (once i) eqn:E; auto. exfalso. apply Hjk. eapply once_private; eauto. }
        unfold lit_holds, lit_of in *. simpl in *. destruct (meta_is_neg (fst z)); tauto.
    Qed.
  End M.

  (** The change of the set of blocked literals made by one call. *)
  Inductive bsteps : (nat -> bool) -> (nat -> bool) -> Prop :=
  | bs_refl bl : bsteps bl bl
  | bs_again bl bl' k : bl k = true -> bsteps (block k bl) bl' -> bsteps bl bl'
  | bs_step bl bl' k u : onto k u -> k <> u -> bl u = false -> bsteps (block k bl) bl' -> bsteps bl bl'.

  Lemma bsteps_trans a b c : bsteps a b -> bsteps b c -> bsteps a c.
  Proof. induction 1; intros; eauto using bs_again, bs_step. Qed.

  Lemma dup_inner_ok x xl : nth_error lits x = Some xl -> forall ys bl bl',
    (forall y, In y ys -> (x < y)%nat) -> NoDup ys ->
    (bl x = true -> exists u, onto x u /\ bl u = false /\ ~ In u ys /\ u <> x) ->
    dup_inner sb m lits x xl ys bl = Some bl' -> bsteps bl bl'.
  Proof.
    intros Ex. induction ys as [|y ys IH]; intros bl bl' Hlt Hd Hb; cbn [dup_inner].
    - intros E; injection E as <-. constructor.
    - assert (Hxy : x <> y) by (specialize (Hlt y (or_introl eq_refl)); lia).
      inversion Hd as [|? ? Hy Hd']; subst.
      assert (Hlt' : forall z, In z ys -> (x < z)%nat) by (intros; apply Hlt; simpl; auto).
      assert (Hb' : bl x = true -> exists u, onto x u /\ bl u = false /\ ~ In u ys /\ u <> x).
      { intros H. destruct (Hb H) as (u&A&B&C&D). exists u. repeat split; auto. intros H'; apply C; simpl; auto. }
      destruct (bl y) eqn:Ey; [apply IH; auto|].
      destruct (nth_error lits y) as [yl|] eqn:Eyl; [|intros E; injection E as <-; constructor].
      destruct (Bool.eqb (meta_is_neg (fst xl)) (meta_is_neg (fst yl))) eqn:Es; [|apply IH; auto].
      apply eqb_prop in Es.
      destruct (nomatch sb m (snd xl) (snd yl)) eqn:En; try discriminate; [| |apply IH; auto].
      + intros E.
        assert (Ho : onto x y).
        { exists xl, yl. repeat split; auto. eapply lit_nomatch; eauto. }
        apply (bs_step _ _ x y); auto. apply (IH (block x bl)); auto.
        intros _. exists y. repeat split; auto. unfold block. destruct (Nat.eqb_spec y x); [congruence|auto].
      + destruct (nomatch sb m (snd yl) (snd xl)) eqn:En2; try discriminate; [|apply IH; auto|apply IH; auto].
        intros E.
        assert (Ho : onto y x).
        { exists yl, xl. repeat split; auto. eapply lit_nomatch; eauto. }
        assert (Hb2 : block y bl x = true -> exists u, onto x u /\ block y bl u = false /\ ~ In u ys /\ u <> x).
        { unfold block. destruct (Nat.eqb_spec x y); [congruence|]. intros H. destruct (Hb H) as (u&A&B&C&D).
          exists u. simpl in C. repeat split; auto. destruct (Nat.eqb_spec u y); [subst; tauto|auto]. }
        destruct (bl x) eqn:Ebx.
        * destruct (Hb eq_refl) as (u&A&B&C&D). simpl in C.
          assert (Hyu : y <> u) by (intros ->; tauto).
          apply (bs_step _ _ y u); [apply (onto_trans y x u); auto|auto|auto|]. apply (IH (block y bl)); auto.
        * apply (bs_step _ _ y x); [exact Ho|auto|auto|]. apply (IH (block y bl)); auto.
  Qed.

  Lemma dup_outer_ok lim : forall xs bl bl', dup_outer sb m lits lim xs bl = Some bl' -> bsteps bl bl'.
  Proof.
    induction xs as [|x xs IH]; intros bl bl'; cbn [dup_outer].
    - intros E; injection E as <-. constructor.
    - destruct (bl x) eqn:Eb; [apply IH|].
      destruct (nth_error lits x) as [xl|] eqn:Ex; [|intros E; injection E as <-; constructor].
      destruct (dup_inner sb m lits x xl (seq (S x) (lim - S x)) bl) as [b1|] eqn:E1; [|discriminate].
      intros E. eapply bsteps_trans; [|apply IH; eauto].
      apply (dup_inner_ok x xl Ex (seq (S x) (lim - S x))); auto.
      + intros y Hy. apply in_seq in Hy. lia.
      + apply seq_NoDup.
      + congruence.
  Qed.

  (** Facts kept by the changes. *)
  Lemma bsteps_valid eqc M bl bl' : bsteps bl bl' ->
    (forall v, kept_at eqc M bl v) -> forall v, kept_at eqc M bl' v.
  Proof.
    induction 1 as [|bl bl' k Hk _ IH|bl bl' k u H1 H2 H3 _ IH]; auto.
    - intros Hv. apply IH. intros v. destruct (Hv v) as (j&x&A&B&C). exists j, x. repeat split; auto.
      unfold block. destruct (Nat.eqb_spec j k); [congruence|auto].
    - intros Hv. apply IH. eapply block_step; eauto.
  Qed.
  Lemma bsteps_some bl bl' : bsteps bl bl' -> (exists k, (k < length lits)%nat /\ bl k = false) ->
    exists k, (k < length lits)%nat /\ bl' k = false.
  Proof.
    induction 1 as [|bl bl' k Hk _ IH|bl bl' k u H1 H2 H3 _ IH]; auto.
    - intros (j&A&B). apply IH. exists j. split; auto. unfold block. destruct (Nat.eqb_spec j k); [congruence|auto].
    - intros _. apply IH. exists u. destruct H1 as (?&y&_&Ey&_). split.
      + apply nth_error_Some. congruence.
      + unfold block. destruct (Nat.eqb_spec u k); [congruence|auto].
  Qed.
End Dup.

Lemma keep_in : forall r k bl x, In x (keep_unblocked k r bl) <->
  exists j, nth_error r j = Some x /\ ((k + j <? MAX_BLOCKED_LITNR)%nat && bl (k + j)%nat) = false.
Proof.
  induction r as [|y r IH]; intros k bl x; cbn [keep_unblocked].
  - split; [intros []|]. intros ([|j]&E&_); discriminate.
  - assert (Hr : In x (keep_unblocked (S k) r bl) <-> exists j, nth_error (y :: r) (S j) = Some x /\ ((k + S j <? MAX_BLOCKED_LITNR)%nat && bl (k + S j)%nat) = false).
    { rewrite IH. simpl. setoid_rewrite <- plus_n_Sm. tauto. }
    destruct ((k <? MAX_BLOCKED_LITNR)%nat && bl k) eqn:E.
    + rewrite Hr. split.
      * intros (j&A&B). exists (S j). auto.
      * intros ([|j]&A&B); [rewrite Nat.add_0_r in B; congruence|]. exists j. auto.
    + simpl. rewrite Hr. split.
      * intros [->|(j&A&B)]; [exists 0%nat; rewrite Nat.add_0_r; auto|exists (S j); auto].
      * intros ([|j]&A&B); [left; simpl in A; congruence|]. right. exists j. auto.
Qed.

Lemma find_duplicates_ok sb r r' : (forall x, In x r -> foa (snd x) = true) -> find_duplicates sb r = Some r' ->
  (forall x, In x r' -> In x r) /\ (r <> [] -> r' <> []) /\
  forall eqc M, valid_in eqc M (derived r) <-> valid_in eqc M (derived r').
Proof.
  intros Hf. unfold find_duplicates. cbv zeta.
  destruct (any_once (mark_all r) r); [|intros E; injection E as <-; repeat split; auto].
  destruct (dup_outer _ _ _ _ _ _) as [bl|] eqn:E; [|discriminate].
  intros H; injection H as <-.
  pose proof (dup_outer_ok sb (mark_all r) r (mark_all_ok r) _ _ _ _ E) as Hs.
  assert (Hin : forall x, In x (keep_unblocked 0 r bl) -> In x r).
  { intros x H. apply keep_in in H as (j&A&_). eapply nth_error_In; eauto. }
  split; auto. split.
  - intros Hne Hnil.
    destruct (bsteps_some (mark_all r) r _ _ Hs) as (k&Hk&Hb).
    { exists 0%nat. split; auto. destruct r; [congruence|simpl; lia]. }
    destruct (nth_error r k) as [x|] eqn:Ek; [|exfalso; apply (proj2 (nth_error_Some r k) Hk Ek)].
    assert (Hx : In x (keep_unblocked 0 r bl)).
    { apply keep_in. exists k. split; auto. simpl. rewrite Hb. apply andb_false_r. }
    rewrite Hnil in Hx. destruct Hx.
  - intros eqc M. split.
    + intros Hv v. destruct (bsteps_valid (mark_all r) r (mark_all_ok r) Hf eqc M _ _ Hs) with (v := v) as (k&x&A&B&C).
      { intros w. destruct (Hv w) as (l&Hl&Hh). unfold derived in Hl. apply in_map_iff in Hl as (x&<-&Hx).
        apply In_nth_error in Hx as [k Hk]. exists k, x. auto. }
      exists (lit_of x). split; auto. apply (in_map (fun x => (meta_is_neg (fst x), snd x))). apply keep_in.
      exists k. split; auto. simpl. rewrite B. apply andb_false_r.
    + intros Hv v. destruct (Hv v) as (l&Hl&Hh). exists l. split; auto.
      unfold derived in *. apply in_map_iff in Hl as (x&<-&Hx). apply (in_map (fun x => (meta_is_neg (fst x), snd x))). auto.
Qed.
