(** Proofs about unification: soundness, generality, failure, acyclicity, termination. *)
From Coq Require Import List ZArith Bool Lia Wellfounded.
From Verif Require Import Terms UnifySpec TermsProof UnifyModel.
Import ListNotations.
Open Scope Z_scope.

(** ** Constants *)
Lemma bytes_eq_iff a b : bytes_eq a b = true <-> a = b.
Proof.
  revert b; induction a as [|x a IH]; intros [|y b]; simpl; try (split; [discriminate|congruence]).
  - split; auto.
  - rewrite andb_true_iff, Z.eqb_eq, IH. split; [intros [-> ->]; auto|intros H; injection H; auto].
Qed.

Lemma cst_compare_exact c d :
  cst_same_word c d || equal_ptr_primitives c d = true <-> c = d.
Proof.
  destruct c as [w|z|[v|k]|bs|o], d as [w'|z'|[v'|k']|bs'|o']; simpl;
    rewrite ?orb_false_r, ?orb_true_iff, ?Z.eqb_eq, ?bytes_eq_iff;
    try (split; [intros [H|H]; congruence|intros H; injection H; auto]);
    split; congruence.
Qed.

(** ** Dereferencing *)
Definition resolved (b : Z -> option term) (t : term) : Prop :=
  match t with TVar i => b i = None | _ => True end.

Lemma varval_ok n b i t : varval n b i = Some t ->
  resolved b t /\ (forall s, solves s b -> s i = app s t).
Proof.
  revert i; induction n as [|n IH]; simpl; intros i; [discriminate|].
  destruct (b i) as [u|] eqn:E.
  - destruct u as [j|c|fs].
    + intros H. destruct (IH j H) as [H1 H2]. split; auto.
      intros s Hs. rewrite (Hs i _ E). simpl. auto.
    + intros H; injection H as <-. split; [exact I|intros s Hs; apply (Hs i _ E)].
    + intros H; injection H as <-. split; [exact I|intros s Hs; apply (Hs i _ E)].
  - intros H; injection H as <-. split; auto.
Qed.

Lemma deref_ok n b x t : deref n b x = Some t ->
  resolved b t /\ (forall s, solves s b -> app s x = app s t).
Proof.
  destruct x as [i|c|fs]; simpl.
  - apply varval_ok.
  - intros H; injection H as <-. split; [exact I|auto].
  - intros H; injection H as <-. split; [exact I|auto].
Qed.

Lemma varval_vars (V : Z -> Prop) n b i t :
  (forall i t, b i = Some t -> forall j, In j (tvars t) -> V j) ->
  V i -> varval n b i = Some t -> forall j, In j (tvars t) -> V j.
Proof.
  intros HV. revert i; induction n as [|n IH]; simpl; intros i Hi; [discriminate|].
  destruct (b i) as [u|] eqn:E.
  - specialize (HV i u E). destruct u as [j|c|fs].
    + apply IH. apply HV. simpl; auto.
    + intros H; injection H as <-. exact HV.
    + intros H; injection H as <-. exact HV.
  - intros H; injection H as <-. intros j [->|[]]; auto.
Qed.

Lemma deref_vars (V : Z -> Prop) n b x t :
  (forall i t, b i = Some t -> forall j, In j (tvars t) -> V j) ->
  (forall j, In j (tvars x) -> V j) ->
  deref n b x = Some t -> forall j, In j (tvars t) -> V j.
Proof.
  intros HV Hx. destruct x as [i|c|fs]; simpl.
  - apply varval_vars; auto. apply Hx. simpl; auto.
  - intros H; injection H as <-. exact Hx.
  - intros H; injection H as <-. exact Hx.
Qed.

(** ** Occurs check *)
Lemma occurs_ok b s x : solves s b -> (forall i, b i = None -> s i = TVar i) -> b x = None ->
  forall n ys r, occurs_in n b x ys = Some r ->
  (r = true <-> In x (flat_map (fun y => tvars (app s y)) ys)).
Proof.
  intros Hs Hu Hx. induction n as [|n IH]; [discriminate|].
  intros ys; induction ys as [|y ys IHl]; intros r; cbn [occurs_in occurs_loop].
  - intros H; injection H as <-. simpl. split; [discriminate|intros []].
  - destruct (deref n b y) as [t|] eqn:E; [|discriminate].
    apply deref_ok in E as [Ht Hy]. specialize (Hy s Hs).
    cbn [flat_map]. rewrite in_app_iff, Hy.
    destruct t as [j|c|zs]; cbn [app].
    + simpl in Ht. rewrite (Hu j Ht). simpl tvars.
      destruct (Z.eqb_spec x j) as [->|n0].
      * intros H; injection H as <-. split; auto. intros _; left; simpl; auto.
      * intros H. apply IHl in H. rewrite H. simpl. split; auto.
        intros [[->|[]]|]; auto. contradiction.
    + intros H. apply IHl in H. rewrite H. simpl. split; auto. intros [[]|]; auto.
    + destruct (occurs_in n b x zs) as [q|] eqn:Eq; [|discriminate].
      apply IH in Eq.
      assert (Hz : In x (tvars (TRec (map (app s) zs))) <-> In x (flat_map (fun y => tvars (app s y)) zs)).
      { simpl. rewrite flat_map_concat_map, map_map, <- flat_map_concat_map. tauto. }
      rewrite Hz, <- Eq.
      destruct q.
      * intros H; injection H as <-. split; auto.
      * intros H. apply IHl in H. rewrite H. split; auto. intros [|]; auto. discriminate.
Qed.

(** ** Growth of the state: a sequence of SETVARs on unassigned variables *)
Inductive grows (V : Z -> Prop) (s : vst) : vst -> Prop :=
| grows_refl : grows V s s
| grows_set i t s1 : grows V s s1 -> bank s1 i = None -> V i ->
    (forall j, In j (tvars t) -> V j) -> grows V s (setvar i t s1).

Lemma grows_trans V s1 s2 s3 : grows V s1 s2 -> grows V s2 s3 -> grows V s1 s3.
Proof. intros H1 H2; induction H2; auto. constructor; auto. Qed.

Lemma grows_extends V s s' : grows V s s' -> extends (bank s) (bank s').
Proof.
  intros H; induction H as [|i t s1 H IH E _ _]; intros j u Hj; auto.
  simpl. destruct (Z.eqb_spec j i) as [->|]; [|apply IH; auto].
  apply IH in Hj. congruence.
Qed.

Lemma grows_trail V s s' : grows V s s' ->
  exists new, trail s' = new ++ trail s /\ NoDup new /\
    (forall i, In i new -> V i /\ bank s i = None /\ bank s' i <> None) /\
    (forall i, ~ In i new -> bank s' i = bank s i).
Proof.
  intros H; induction H as [|i t s1 H IH E Hi Ht].
  - exists []. repeat split; auto using NoDup_nil; simpl in *; tauto.
  - destruct IH as (new&H1&H2&H3&H4). exists (i :: new).
    assert (Hn : ~ In i new). { intros Hin. apply H3 in Hin. tauto. }
    split; [simpl; rewrite H1; auto|]. split; [constructor; auto|]. split.
    + intros j [<-|Hj].
      * split; auto. split; [rewrite <- H4; auto|]. simpl. rewrite Z.eqb_refl. discriminate.
      * destruct (H3 j Hj) as (A&B&C). repeat split; auto. simpl.
        destruct (Z.eqb_spec j i); [discriminate|auto].
    + intros j Hj. simpl. destruct (Z.eqb_spec j i) as [->|]; [exfalso; apply Hj; simpl; auto|].
      apply H4. intros Hin; apply Hj; simpl; auto.
Qed.

Lemma grows_ranges V s s' : grows V s s' ->
  (forall i t, bank s i = Some t -> forall j, In j (tvars t) -> V j) ->
  (forall i t, bank s' i = Some t -> forall j, In j (tvars t) -> V j).
Proof.
  intros H HV; induction H as [|i t s1 H IH E Hi Ht]; auto.
  intros k u. simpl. destruct (Z.eqb_spec k i) as [->|]; [|apply IH].
  intros Hu; injection Hu as <-; auto.
Qed.

(** ** Acyclicity is kept by binding a variable that does not occur *)
Lemma acyclic_setvar b i t s : acyclic b -> exhaustive b s -> b i = None ->
  ~ In i (tvars (app s t)) ->
  acyclic (fun j => if Z.eqb j i then Some t else b j).
Proof.
  intros Ha He Hi Hn. destruct Ha as [r Hr]. pose proof He as [Hs Hu].
  set (M := S (list_sum (map r (tvars t)))).
  exists (fun j => (r j + if Zmem i (tvars (s j)) then M else 0)%nat).
  assert (Zm : forall k l, Zmem k l = true <-> In k l).
  { intros k l. unfold Zmem. rewrite existsb_exists. split.
    - intros (z&Hz&E). apply Z.eqb_eq in E. congruence.
    - intros H. exists k. rewrite Z.eqb_refl. auto. }
  intros j u k. destruct (Z.eqb_spec j i) as [->|Hj].
  - intros E; injection E as <-. intros Hk.
    assert (E1 : Zmem i (tvars (s i)) = true).
    { apply Zm. rewrite Hu; auto. simpl; auto. }
    assert (E2 : Zmem i (tvars (s k)) = false).
    { destruct (Zmem i (tvars (s k))) eqn:E; auto. exfalso. apply Hn.
      apply tvars_app. exists k. split; auto. apply Zm; auto. }
    rewrite E1, E2. apply (in_map r), list_sum_in in Hk. unfold M. lia.
  - intros E Hk. pose proof (Hr j u k E Hk).
    destruct (Zmem i (tvars (s k))) eqn:Ek; [|lia].
    assert (E1 : Zmem i (tvars (s j)) = true).
    { apply Zm. rewrite (Hs j u E). apply tvars_app. exists k. split; auto. apply Zm; auto. }
    rewrite E1. lia.
Qed.

Lemma solves_setvar b i t s : b i = None ->
  (solves s (fun j => if Z.eqb j i then Some t else b j) <-> solves s b /\ s i = app s t).
Proof.
  intros Hi. split.
  - intros H. split.
    + intros j u E. apply H. destruct (Z.eqb_spec j i) as [->|]; congruence.
    + apply H. rewrite Z.eqb_refl. reflexivity.
  - intros [H1 H2] j u. destruct (Z.eqb_spec j i) as [->|].
    + intros E; injection E as <-; auto.
    + apply H1.
Qed.

(** ** Partial correctness *)
Definition uspec (V : Z -> Prop) (x y : term) (s : vst) (res : ures) : Prop :=
  match res with
  | OutOfFuel => True
  | Done r s' =>
      acyclic (bank s') /\ grows V s s' /\
      (if r then forall t, solves t (bank s') <-> solves t (bank s) /\ app t x = app t y
       else forall t, solves t (bank s) -> app t x <> app t y)
  end.

Lemma bind_uspec (V : Z -> Prop) i t s x y :
  acyclic (bank s) -> bank s i = None -> V i -> (forall j, In j (tvars t) -> V j) ->
  (forall sg, exhaustive (bank s) sg -> ~ In i (tvars (app sg t))) ->
  (forall sg, solves sg (bank s) -> (app sg x = app sg y <-> sg i = app sg t)) ->
  uspec V x y s (Done true (setvar i t s)).
Proof.
  intros Ha Hi HVi HVt Hocc Heq. destruct (exhaustive_exists _ Ha) as [sg Hsg].
  simpl. split; [|split].
  - apply (acyclic_setvar _ _ _ sg); auto.
  - constructor; auto. constructor.
  - intros t0. rewrite solves_setvar by auto. split; intros [H1 H2]; split; auto; apply Heq; auto.
Qed.

Lemma unify_uspec : forall n (V : Z -> Prop) x y s,
  acyclic (bank s) ->
  (forall i t, bank s i = Some t -> forall j, In j (tvars t) -> V j) ->
  (forall j, In j (tvars x) -> V j) -> (forall j, In j (tvars y) -> V j) ->
  uspec V x y s (unify_aux n x y s).
Proof.
  induction n as [|n IH]; intros V x y s Ha HV Hx Hy; [exact I|].
  cbn [unify_aux].
  destruct (deref n (bank s) x) as [x'|] eqn:Ex; [|exact I].
  destruct (deref n (bank s) y) as [y'|] eqn:Ey; [|exact I].
  pose proof (deref_vars V _ _ _ _ HV Hx Ex) as Hx'.
  pose proof (deref_vars V _ _ _ _ HV Hy Ey) as Hy'.
  apply deref_ok in Ex as [Rx Sx]. apply deref_ok in Ey as [Ry Sy].
  destruct x' as [i|c|xs], y' as [j|d|ys]; cbn [resolved] in Rx, Ry.
  - destruct (Z.eqb_spec i j) as [->|Hij].
    + simpl. split; [auto|]. split; [constructor|]. intros t. split; [|tauto].
      intros Ht; split; auto. rewrite (Sx t), (Sy t); auto.
    + apply bind_uspec; auto.
      * apply Hx'; simpl; auto.
      * intros sg [_ Hsg]. simpl. rewrite Hsg by auto. simpl. intros [->|[]]; auto.
      * intros sg Hsg. rewrite (Sx sg), (Sy sg) by auto. simpl. tauto.
  - apply bind_uspec; auto.
    * apply Hx'; simpl; auto.
    * intros sg Hsg. rewrite (Sx sg), (Sy sg) by auto. simpl. tauto.
  - destruct (occurs_in n (bank s) i ys) as [r|] eqn:Eo; [|exact I].
    destruct (exhaustive_exists _ Ha) as [sg Hsg]. pose proof Hsg as [Hs1 Hs2].
    pose proof (occurs_ok _ sg i Hs1 Hs2 Rx _ _ _ Eo) as Ho.
    assert (Hfm : In i (tvars (app sg (TRec ys))) <-> In i (flat_map (fun y => tvars (app sg y)) ys)).
    { simpl. rewrite flat_map_concat_map, map_map, <- flat_map_concat_map. tauto. }
    destruct r.
    + simpl. split; [auto|]. split; [constructor|].
      intros t Ht E. rewrite (Sx t), (Sy t) in E by auto.
      assert (Hin : In i (tvars (app sg (TRec ys)))) by (apply Hfm, Ho; auto).
      assert (E1 : app t (TRec ys) = app t (app sg (TRec ys))).
      { rewrite <- app_comp. apply app_ext. intros k _. unfold comp.
        apply (exhaustive_general (bank s)); auto. }
      rewrite E1 in E. revert E. simpl (app t (TVar i)). change (app sg (TRec ys)) with (TRec (map (app sg) ys)).
      apply occurs_no_unifier. exact Hin.
    + apply bind_uspec; auto.
      * apply Hx'; simpl; auto.
      * intros sg' Hsg'. rewrite (app_ext sg' sg).
        -- rewrite Hfm. intros Hin. apply Ho in Hin. discriminate.
        -- intros k _. apply (exhaustive_unique (bank s)); auto.
      * intros sg' Hsg'. rewrite (Sx sg'), (Sy sg') by auto. simpl. tauto.
  - apply bind_uspec; auto.
    * apply Hy'; simpl; auto.
    * intros sg Hsg. rewrite (Sx sg), (Sy sg) by auto. simpl. split; congruence.
  - pose proof (cst_compare_exact c d) as Hc.
    assert (Hcd : forall b : bool, (b = true <-> c = d) -> uspec V x y s (Done b s)).
    { intros b Hb. simpl. split; [auto|]. split; [constructor|].
      destruct b.
      - intros t. split; [|tauto]. intros Ht; split; auto.
        rewrite (Sx t), (Sy t) by auto. simpl. f_equal. apply Hb; auto.
      - intros t Ht. rewrite (Sx t), (Sy t) by auto. simpl. intros E; injection E as E.
        apply Hb in E. discriminate. }
    destruct (cst_same_word c d) eqn:E1.
    + apply Hcd. rewrite <- Hc. simpl. tauto.
    + apply Hcd. rewrite <- Hc. simpl. tauto.
  - simpl. split; [auto|]. split; [constructor|].
    intros t Ht. rewrite (Sx t), (Sy t) by auto. simpl. discriminate.
  - destruct (occurs_in n (bank s) j xs) as [r|] eqn:Eo; [|exact I].
    destruct (exhaustive_exists _ Ha) as [sg Hsg]. pose proof Hsg as [Hs1 Hs2].
    pose proof (occurs_ok _ sg j Hs1 Hs2 Ry _ _ _ Eo) as Ho.
    assert (Hfm : In j (tvars (app sg (TRec xs))) <-> In j (flat_map (fun y => tvars (app sg y)) xs)).
    { simpl. rewrite flat_map_concat_map, map_map, <- flat_map_concat_map. tauto. }
    destruct r.
    + simpl. split; [auto|]. split; [constructor|].
      intros t Ht E. rewrite (Sx t), (Sy t) in E by auto. symmetry in E.
      assert (Hin : In j (tvars (app sg (TRec xs)))) by (apply Hfm, Ho; auto).
      assert (E1 : app t (TRec xs) = app t (app sg (TRec xs))).
      { rewrite <- app_comp. apply app_ext. intros k _. unfold comp.
        apply (exhaustive_general (bank s)); auto. }
      rewrite E1 in E. revert E. simpl (app t (TVar j)). change (app sg (TRec xs)) with (TRec (map (app sg) xs)).
      apply occurs_no_unifier. exact Hin.
    + apply bind_uspec; auto.
      * apply Hy'; simpl; auto.
      * intros sg' Hsg'. rewrite (app_ext sg' sg).
        -- rewrite Hfm. intros Hin. apply Ho in Hin. discriminate.
        -- intros k _. apply (exhaustive_unique (bank s)); auto.
      * intros sg' Hsg'. rewrite (Sx sg'), (Sy sg') by auto. simpl. split; congruence.
  - simpl. split; [auto|]. split; [constructor|].
    intros t Ht. rewrite (Sx t), (Sy t) by auto. simpl. discriminate.
  - destruct (Nat.eqb_spec (length xs) (length ys)) as [Hlen|Hlen].
    + assert (Hloop : forall xs ys s0, length xs = length ys ->
         acyclic (bank s0) -> grows V s s0 ->
         (forall j, In j (tvars (TRec xs)) -> V j) -> (forall j, In j (tvars (TRec ys)) -> V j) ->
         match unify_loop (unify_aux n) xs ys s0 with
         | OutOfFuel => True
         | Done r s' => acyclic (bank s') /\ grows V s s' /\
            (if r then forall t, solves t (bank s') <-> solves t (bank s0) /\ map (app t) xs = map (app t) ys
             else forall t, solves t (bank s0) -> map (app t) xs <> map (app t) ys)
         end).
      { clear Hlen Sx Sy Hx' Hy' xs ys Rx Ry.
        induction xs as [|a xs IHl]; intros [|b ys] s0 Hlen Ha0 Hg Hxs Hys; try discriminate.
        - simpl. repeat split; auto; tauto.
        - cbn [unify_loop]. simpl in Hxs, Hys.
          assert (HV0 := grows_ranges V s s0 Hg HV).
          assert (Hab := IH V a b s0 Ha0 HV0
             (fun j Hj => Hxs j (in_or_app _ _ _ (or_introl Hj)))
             (fun j Hj => Hys j (in_or_app _ _ _ (or_introl Hj)))).
          destruct (unify_aux n a b s0) as [r s1|]; [|exact I].
          destruct Hab as (Ha1&Hg1&Hsp). destruct r.
          + assert (Hg2 : grows V s s1) by (eapply grows_trans; eauto).
            assert (Hr := IHl ys s1 ltac:(simpl in Hlen; lia) Ha1 Hg2
                (fun j Hj => Hxs j (in_or_app _ _ _ (or_intror Hj)))
                (fun j Hj => Hys j (in_or_app _ _ _ (or_intror Hj)))).
            destruct (unify_loop (unify_aux n) xs ys s1) as [r s2|]; [|exact I].
            destruct Hr as (Ha2&Hg3&Hsp2). split; [auto|]. split; [auto|].
            destruct r.
            * intros t. rewrite Hsp2, Hsp. simpl. split.
              -- intros [[H1 H2] H3]. split; [exact H1|congruence].
              -- intros [H1 H2]. injection H2 as H2 H3. tauto.
            * intros t Ht E. simpl in E. injection E as E1 E2. apply (Hsp2 t); auto. apply Hsp; auto.
          + split; [auto|]. split; [eapply grows_trans; eauto|].
            intros t Ht E. simpl in E. injection E as E1 E2. apply (Hsp t); auto. }
      assert (Hr := Hloop xs ys s Hlen Ha (grows_refl V s) Hx' Hy').
      destruct (unify_loop (unify_aux n) xs ys s) as [r s'|]; [|exact I].
      destruct Hr as (H1&H2&H3). simpl. split; [auto|]. split; [auto|].
      destruct r.
      * intros t. rewrite H3. split; intros [Ht E]; split; auto.
        -- rewrite (Sx t), (Sy t) by auto. simpl. congruence.
        -- rewrite (Sx t), (Sy t) in E by auto. simpl in E. injection E; auto.
      * intros t Ht E. apply (H3 t Ht). rewrite (Sx t), (Sy t) in E by auto. simpl in E. injection E; auto.
    + simpl. split; [auto|]. split; [constructor|].
      intros t Ht E. rewrite (Sx t), (Sy t) in E by auto. simpl in E. injection E as E.
      apply Hlen. rewrite <- (map_length (app t) xs), <- (map_length (app t) ys). congruence.
Qed.

(** ** Fuel monotonicity *)
Lemma varval_mono n m b i t : (n <= m)%nat -> varval n b i = Some t -> varval m b i = Some t.
Proof.
  revert m i; induction n as [|n IH]; intros [|m] i Hle; simpl; try discriminate; try lia.
  destruct (b i) as [[j|c|fs]|]; auto. intros H. apply IH; auto. lia.
Qed.
Lemma deref_mono n m b x t : (n <= m)%nat -> deref n b x = Some t -> deref m b x = Some t.
Proof. destruct x; simpl; auto. apply varval_mono. Qed.

Lemma occurs_mono n m b x ys r : (n <= m)%nat -> occurs_in n b x ys = Some r -> occurs_in m b x ys = Some r.
Proof.
  revert m ys r; induction n as [|n IH]; intros [|m] ys r Hle; try discriminate; try lia.
  cbn [occurs_in]. revert r; induction ys as [|y ys IHl]; intros r; cbn [occurs_loop]; auto.
  destruct (deref n b y) as [t|] eqn:E; [|discriminate].
  rewrite (deref_mono n m b y t) by (auto; lia).
  destruct t as [j|c|zs]; auto.
  - destruct (Z.eqb x j); auto.
  - destruct (occurs_in n b x zs) as [q|] eqn:Eq; [|discriminate].
    rewrite (IH m zs q) by (auto; lia). destruct q; auto.
Qed.

Lemma unify_loop_ext u v : (forall a b s r s', u a b s = Done r s' -> v a b s = Done r s') ->
  forall xs ys s r s', unify_loop u xs ys s = Done r s' -> unify_loop v xs ys s = Done r s'.
Proof.
  intros H. induction xs as [|a xs IH]; intros [|b ys] s r s'; cbn [unify_loop]; auto.
  destruct (u a b s) as [q s1|] eqn:E; [|discriminate].
  rewrite (H _ _ _ _ _ E). destruct q; auto.
Qed.

Lemma unify_mono n m x y s r s' : (n <= m)%nat ->
  unify_aux n x y s = Done r s' -> unify_aux m x y s = Done r s'.
Proof.
  revert m x y s r s'; induction n as [|n IH]; intros [|m] x y s r s' Hle; try discriminate; try lia.
  cbn [unify_aux].
  destruct (deref n (bank s) x) as [x'|] eqn:Ex; [|discriminate].
  destruct (deref n (bank s) y) as [y'|] eqn:Ey; [|discriminate].
  rewrite (deref_mono n m _ x x'), (deref_mono n m _ y y') by (auto; lia).
  destruct x' as [i|c|xs], y' as [j|d|ys]; auto.
  - destruct (occurs_in n (bank s) i ys) as [q|] eqn:Eq; [|discriminate].
    rewrite (occurs_mono n m _ _ _ q) by (auto; lia). auto.
  - destruct (occurs_in n (bank s) j xs) as [q|] eqn:Eq; [|discriminate].
    rewrite (occurs_mono n m _ _ _ q) by (auto; lia). auto.
  - destruct (Nat.eqb (length xs) (length ys)); auto.
    apply unify_loop_ext. intros a b s0 r0 s0'. apply IH. lia.
Qed.

(** ** Termination *)
Lemma varval_total b : acyclic b -> forall i, exists n t, varval n b i = Some t.
Proof.
  intros [r Hr].
  assert (H : forall k i, (r i < k)%nat -> exists t, varval k b i = Some t).
  { induction k as [|k IH]; intros i Hk; [lia|]. simpl.
    destruct (b i) as [[j|c|fs]|] eqn:E; eauto.
    apply IH. specialize (Hr i _ j E). simpl in Hr. specialize (Hr (or_introl eq_refl)). lia. }
  intros i. destruct (H (S (r i)) i) as [t Ht]; [lia|]. eauto.
Qed.
Lemma deref_total b : acyclic b -> forall x, exists n t, deref n b x = Some t.
Proof.
  intros Ha [i|c|fs]; simpl; [apply varval_total; auto|exists O; eauto|exists O; eauto].
Qed.

Lemma occurs_total b x : acyclic b -> forall ys, exists n r, occurs_in n b x ys = Some r.
Proof.
  intros Ha. destruct (exhaustive_exists b Ha) as [sg [Hs _]].
  assert (H : forall k ys, (list_sum (map (fun y => tsize (app sg y)) ys) < k)%nat ->
                exists n r, occurs_in n b x ys = Some r).
  { induction k as [|k IHk]; intros ys Hk; [lia|].
    induction ys as [|y ys IHl]; [exists 1%nat, false; reflexivity|].
    simpl in Hk. destruct IHl as (n1&r1&E1); [lia|].
    destruct (deref_total b Ha y) as (n2&t&E2).
    pose proof (deref_ok _ _ _ _ E2) as [_ Hy]. specialize (Hy sg Hs).
    destruct n1 as [|n1]; [discriminate|].
    assert (Hok : forall m, (n1 <= m)%nat -> exists q, occurs_loop (occurs_in m b x) (deref m b) x ys = Some q).
    { intros m Hm. exists r1. change (occurs_in (S m) b x ys = Some r1).
      apply (occurs_mono (S n1)); auto. lia. }
    destruct t as [j|c|zs].
    - exists (S (n1 + n2)). cbn [occurs_in occurs_loop].
      rewrite (deref_mono n2 (n1 + n2) b y _ ltac:(lia) E2).
      destruct (Z.eqb x j); [eauto|]. apply Hok; lia.
    - exists (S (n1 + n2)). cbn [occurs_in occurs_loop].
      rewrite (deref_mono n2 (n1 + n2) b y _ ltac:(lia) E2). apply Hok; lia.
    - destruct (IHk zs) as (n3&r3&E3).
      { rewrite Hy in Hk. simpl in Hk. rewrite map_map in Hk. lia. }
      exists (S (n1 + n2 + n3)). cbn [occurs_in occurs_loop].
      rewrite (deref_mono n2 (n1 + n2 + n3) b y _ ltac:(lia) E2).
      rewrite (occurs_mono n3 (n1 + n2 + n3) b x zs r3 ltac:(lia) E3).
      destruct r3; [eauto|]. apply Hok; lia. }
  intros ys. eapply H. apply Nat.lt_succ_diag_r.
Qed.

Definition unb (s : vst) (i : Z) : bool := match bank s i with None => true | Some _ => false end.
Definition cnt (L : list Z) (s : vst) : nat := length (filter (unb s) L).

Lemma unb_setvar i t s a : unb (setvar i t s) a = if Z.eqb a i then false else unb s a.
Proof. unfold unb. simpl. destruct (Z.eqb a i); auto. Qed.

Lemma cnt_setvar L i t s : In i L -> bank s i = None -> (cnt L (setvar i t s) < cnt L s)%nat.
Proof.
  intros Hi Hb. unfold cnt.
  assert (Hui : unb s i = true) by (unfold unb; rewrite Hb; auto).
  assert (Hle : forall l, (length (filter (unb (setvar i t s)) l) <= length (filter (unb s) l))%nat).
  { induction l as [|a l IH]; simpl; auto.
    rewrite unb_setvar. destruct (Z.eqb_spec a i) as [->|].
    - rewrite Hui. simpl. lia.
    - destruct (unb s a); simpl; lia. }
  induction L as [|a L IH]; [destruct Hi|]. simpl.
  rewrite unb_setvar. destruct (Z.eqb_spec a i) as [->|Hn].
  - rewrite Hui. simpl. specialize (Hle L). lia.
  - destruct Hi as [->|Hi]; [congruence|]. specialize (IH Hi).
    destruct (unb s a); simpl; lia.
Qed.

Lemma cnt_grows (L : list Z) s s' : grows (fun i => In i L) s s' -> s' = s \/ (cnt L s' < cnt L s)%nat.
Proof.
  intros H; induction H as [|i t s1 H IH E Hi Ht]; auto.
  right. pose proof (cnt_setvar L i t s1 Hi E). destruct IH as [->|]; lia.
Qed.

Lemma unify_total_aux (L : list Z) : forall k m s sg x y,
  acyclic (bank s) -> exhaustive (bank s) sg ->
  (forall i t, bank s i = Some t -> forall j, In j (tvars t) -> In j L) ->
  (forall j, In j (tvars x) -> In j L) -> (forall j, In j (tvars y) -> In j L) ->
  (cnt L s < k)%nat -> (tsize (app sg x) < m)%nat ->
  exists n r s', unify_aux n x y s = Done r s'.
Proof.
  induction k as [|k IHk]; [intros; lia|].
  induction m as [|m IHm]; [intros; lia|].
  intros s sg x y Ha Hsg HL Hx Hy Hk Hm.
  destruct (deref_total _ Ha x) as (n1&x'&Ex). destruct (deref_total _ Ha y) as (n2&y'&Ey).
  pose proof (deref_ok _ _ _ _ Ex) as [Rx Sx]. pose proof (deref_ok _ _ _ _ Ey) as [Ry Sy].
  pose proof (deref_vars (fun j => In j L) _ _ _ _ HL Hx Ex) as Hx'.
  pose proof (deref_vars (fun j => In j L) _ _ _ _ HL Hy Ey) as Hy'.
  destruct x' as [i|c|xs] eqn:Exx, y' as [j|d|ys] eqn:Eyy.
  - exists (S (n1 + n2)). cbn [unify_aux].
    rewrite (deref_mono n1 (n1+n2) _ x _ ltac:(lia) Ex), (deref_mono n2 (n1+n2) _ y _ ltac:(lia) Ey).
    destruct (Z.eqb i j); eauto.
  - exists (S (n1 + n2)). cbn [unify_aux].
    rewrite (deref_mono n1 (n1+n2) _ x _ ltac:(lia) Ex), (deref_mono n2 (n1+n2) _ y _ ltac:(lia) Ey). eauto.
  - destruct (occurs_total (bank s) i Ha ys) as (n3&r&Eo).
    exists (S (n1 + n2 + n3)). cbn [unify_aux].
    rewrite (deref_mono n1 (n1+n2+n3) _ x _ ltac:(lia) Ex), (deref_mono n2 (n1+n2+n3) _ y _ ltac:(lia) Ey).
    rewrite (occurs_mono n3 (n1+n2+n3) _ _ _ r ltac:(lia) Eo). destruct r; eauto.
  - exists (S (n1 + n2)). cbn [unify_aux].
    rewrite (deref_mono n1 (n1+n2) _ x _ ltac:(lia) Ex), (deref_mono n2 (n1+n2) _ y _ ltac:(lia) Ey). eauto.
  - exists (S (n1 + n2)). cbn [unify_aux].
    rewrite (deref_mono n1 (n1+n2) _ x _ ltac:(lia) Ex), (deref_mono n2 (n1+n2) _ y _ ltac:(lia) Ey).
    destruct (cst_same_word c d); eauto.
  - exists (S (n1 + n2)). cbn [unify_aux].
    rewrite (deref_mono n1 (n1+n2) _ x _ ltac:(lia) Ex), (deref_mono n2 (n1+n2) _ y _ ltac:(lia) Ey). eauto.
  - destruct (occurs_total (bank s) j Ha xs) as (n3&r&Eo).
    exists (S (n1 + n2 + n3)). cbn [unify_aux].
    rewrite (deref_mono n1 (n1+n2+n3) _ x _ ltac:(lia) Ex), (deref_mono n2 (n1+n2+n3) _ y _ ltac:(lia) Ey).
    rewrite (occurs_mono n3 (n1+n2+n3) _ _ _ r ltac:(lia) Eo). destruct r; eauto.
  - exists (S (n1 + n2)). cbn [unify_aux].
    rewrite (deref_mono n1 (n1+n2) _ x _ ltac:(lia) Ex), (deref_mono n2 (n1+n2) _ y _ ltac:(lia) Ey). eauto.
  - rewrite (Sx sg) in Hm by apply Hsg.
    assert (Hloop : forall xs ys s0, grows (fun i => In i L) s s0 -> acyclic (bank s0) ->
        (forall j, In j (tvars (TRec xs)) -> In j L) -> (forall j, In j (tvars (TRec ys)) -> In j L) ->
        (list_sum (map (fun x => tsize (app sg x)) xs) < m)%nat ->
        exists n r s', unify_loop (unify_aux n) xs ys s0 = Done r s').
    { clear Exx Eyy Ex Ey Sx Sy Rx Ry Hx' Hy' Hm x' y' xs ys.
      induction xs as [|a xs IHl]; intros [|b ys] s0 Hg Ha0 Hxs Hys Hm0;
        try (exists O; cbn [unify_loop]; eauto; fail).
      simpl in Hxs, Hys.
      assert (HL0 := grows_ranges _ s s0 Hg HL).
      assert (Ha1 : forall j, In j (tvars a) -> In j L) by (intros; apply Hxs, in_or_app; auto).
      assert (Hb1 : forall j, In j (tvars b) -> In j L) by (intros; apply Hys, in_or_app; auto).
      assert (Hcall : exists n r s', unify_aux n a b s0 = Done r s').
      { destruct (cnt_grows L s s0 Hg) as [->|Hlt].
        - apply (IHm s sg); auto. simpl in Hm0. lia.
        - destruct (exhaustive_exists _ Ha0) as [sg0 Hsg0].
          apply (IHk (S (tsize (app sg0 a))) s0 sg0); auto; lia. }
      destruct Hcall as (n3&r&s1&E1).
      pose proof (unify_uspec n3 (fun i => In i L) a b s0 Ha0 HL0 Ha1 Hb1) as Hsp.
      rewrite E1 in Hsp. destruct Hsp as (Hac&Hg1&_).
      destruct r.
      - destruct (IHl ys s1) as (n4&r4&s4&E4).
        + eapply grows_trans; eauto.
        + auto.
        + intros; apply Hxs, in_or_app; auto.
        + intros; apply Hys, in_or_app; auto.
        + simpl in Hm0. lia.
        + exists (n3 + n4)%nat. cbn [unify_loop].
          rewrite (unify_mono n3 (n3+n4) a b s0 _ _ ltac:(lia) E1).
          exists r4, s4. eapply unify_loop_ext; [|exact E4].
          intros; apply (unify_mono n4); auto. lia.
      - exists n3. cbn [unify_loop]. rewrite E1. eauto. }
    destruct (Hloop xs ys s (grows_refl _ s) Ha Hx' Hy') as (n3&r&s'&E3).
    { simpl in Hm. rewrite map_map in Hm. lia. }
    exists (S (n1 + n2 + n3)). cbn [unify_aux].
    rewrite (deref_mono n1 (n1+n2+n3) _ x _ ltac:(lia) Ex), (deref_mono n2 (n1+n2+n3) _ y _ ltac:(lia) Ey).
    destruct (Nat.eqb (length xs) (length ys)); [|eauto].
    exists r, s'. eapply unify_loop_ext; [|exact E3].
    intros; apply (unify_mono n3); auto. lia.
Qed.

(** Unifying a term with itself succeeds and binds nothing: this is why the pointer
    shortcut [x==y] of the code can be elided. *)
Lemma unify_refl_aux : forall m s sg x, acyclic (bank s) -> exhaustive (bank s) sg ->
  (tsize (app sg x) < m)%nat -> exists n, unify_aux n x x s = Done true s.
Proof.
  induction m as [|m IHm]; [intros; lia|]. intros s sg x Ha Hsg Hm.
  destruct (deref_total _ Ha x) as (n1&x'&Ex). pose proof (deref_ok _ _ _ _ Ex) as [Rx Sx].
  destruct x' as [i|c|xs].
  - exists (S n1). cbn [unify_aux]. rewrite Ex, Z.eqb_refl. reflexivity.
  - exists (S n1). cbn [unify_aux]. rewrite Ex.
    destruct (cst_same_word c c) eqn:E; [reflexivity|].
    pose proof (cst_compare_exact c c) as Hc. rewrite E in Hc. simpl in Hc. rewrite (proj2 Hc eq_refl). reflexivity.
  - assert (Hl : exists n, unify_loop (unify_aux n) xs xs s = Done true s).
    { rewrite (Sx sg) in Hm by apply Hsg. simpl in Hm. rewrite map_map in Hm.
      assert (Hm' : (list_sum (map (fun x => tsize (app sg x)) xs) < m)%nat) by lia.
      clear - Hm' IHm Ha Hsg. induction xs as [|a xs IH]; [exists O; reflexivity|].
      simpl in Hm'. destruct (IHm s sg a) as [n1 E1]; auto; [lia|]. destruct IH as [n2 E2]; [lia|].
      exists (n1 + n2)%nat. cbn [unify_loop]. rewrite (unify_mono n1 (n1+n2) _ _ _ _ _ ltac:(lia) E1).
      eapply unify_loop_ext; [|exact E2]. intros; apply (unify_mono n2); auto. lia. }
    destruct Hl as [n2 E2]. exists (S (n1 + n2)). cbn [unify_aux].
    rewrite (deref_mono n1 (n1+n2) _ x _ ltac:(lia) Ex), Nat.eqb_refl.
    eapply unify_loop_ext; [|exact E2]. intros; apply (unify_mono n2); auto. lia.
Qed.

Lemma unify_refl s x : acyclic (bank s) -> exists n, unify_term n x x s = Done true s.
Proof.
  intros Ha. destruct (exhaustive_exists _ Ha) as [sg Hsg].
  apply (unify_refl_aux (S (tsize (app sg x))) s sg); auto.
Qed.

Lemma unify_total s x y : acyclic (bank s) -> (forall i, bank s i <> None -> In i (trail s)) ->
  exists n r s', forall m, (n <= m)%nat -> unify_term m x y s = Done r s'.
Proof.
  intros Ha Ht. destruct (exhaustive_exists _ Ha) as [sg Hsg].
  set (L := flat_map (fun i => match bank s i with Some t => tvars t | None => [] end) (trail s)
            ++ tvars x ++ tvars y).
  destruct (unify_total_aux L (S (cnt L s)) (S (tsize (app sg x))) s sg x y) as (n&r&s'&E); auto.
  - intros i t Hi j Hj. apply in_or_app; left. apply in_flat_map. exists i. rewrite Hi. split; auto.
    apply Ht. congruence.
  - intros; apply in_or_app; right; apply in_or_app; auto.
  - intros; apply in_or_app; right; apply in_or_app; auto.
  - exists n, r, s'. intros m Hm. apply (unify_mono n); auto.
Qed.

Lemma unify_sound n x y s s' : acyclic (bank s) -> unify_term n x y s = Done true s' ->
  exists sg, exhaustive (bank s') sg /\ app sg x = app sg y.
Proof.
  intros Ha H. pose proof (unify_uspec n (fun _ => True) x y s Ha) as Hs. unfold unify_term in H.
  rewrite H in Hs. destruct Hs as (Hac&_&Hsol); auto.
  destruct (exhaustive_exists _ Hac) as [sg Hsg]. exists sg. split; auto. apply Hsol, Hsg.
Qed.

Lemma unify_complete n x y s r s' : acyclic (bank s) -> unify_term n x y s = Done r s' ->
  (r = true <-> exists t, solves t (bank s) /\ app t x = app t y).
Proof.
  intros Ha H. pose proof (unify_uspec n (fun _ => True) x y s Ha) as Hs. unfold unify_term in H.
  rewrite H in Hs. destruct Hs as (Hac&_&Hsol); auto. destruct r; split; try congruence.
  - intros _. destruct (exhaustive_exists _ Hac) as [sg Hsg]. exists sg. apply Hsol, Hsg.
  - intros (t&A&B). exfalso. eapply Hsol; eauto.
Qed.

Lemma unify_mgu n x y s s' : acyclic (bank s) -> unify_term n x y s = Done true s' ->
  forall sg t, exhaustive (bank s') sg -> solves t (bank s) -> app t x = app t y ->
  forall u, app t (app sg u) = app t u.
Proof.
  intros Ha H sg t Hsg Ht He u. pose proof (unify_uspec n (fun _ => True) x y s Ha) as Hs.
  unfold unify_term in H. rewrite H in Hs. destruct Hs as (Hac&_&Hsol); auto.
  assert (Hst : solves t (bank s')) by (apply Hsol; auto).
  rewrite <- app_comp. apply app_ext. intros i _. unfold comp. symmetry.
  eapply exhaustive_general; eauto.
Qed.

Lemma unify_acyclic n x y s r s' : acyclic (bank s) -> unify_term n x y s = Done r s' ->
  acyclic (bank s') /\ extends (bank s) (bank s').
Proof.
  intros Ha H. pose proof (unify_uspec n (fun _ => True) x y s Ha) as Hs. unfold unify_term in H.
  rewrite H in Hs. destruct Hs as (Hac&Hg&_); auto. split; auto. eapply grows_extends; eauto.
Qed.
