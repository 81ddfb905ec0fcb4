(** The steps of the allocator as primitive changes of the tiling. *)
From Coq Require Import List ZArith Bool Lia.
From Verif Require Import Word64 AllocModel VarModel VarSpec VarProof.
Import ListNotations.
Open Scope Z_scope.

Section Steps.
Variables (baddr : Z -> Z) (k : nat).
Notation inv := (inv k).
Arguments i_seg {k X L v B F}. Arguments i_pos {k X L v B F}. Arguments i_dis {k X L v B F}. Arguments i_next {k X L v B F}.
Arguments i_head {k X L v B F}. Arguments i_flag {k X L v B F}. Arguments i_dv {k X L v B F}. Arguments i_dv1 {k X L v B F}.
Arguments i_list {k X L v B F}. Arguments i_nd {k X L v B F}. Arguments i_free {k X L v B F}. Arguments i_held {k X L v B F}.
Arguments i_lnd {k X L v B F}. Arguments i_sub {k X L v B F}. Arguments i_end {k X L v B F}. Arguments i_used {k X L v B F}. Arguments pos_bound {k X L v B F}.

Lemma inv_X (X X' : Z -> Prop) L v B F : (forall x, X x -> X' x) -> inv X L v B F -> inv X' L v B F.
Proof.
  intros HX [h1 h2 h3 h4 h5 h6 h7 h8 h9 h10 h11 h12 h13 h14 h15 h16]. constructor; try assumption.
  - intros o s n E. destruct (h6 _ _ _ E); auto.
  - intros a Ia. destruct (h14 a Ia); auto.
Qed.

(** A mark without a reason can be forgotten where no block with a mark starts. *)
Lemma inv_X_drop (X X' : Z -> Prop) L v B F w : (forall x, X x -> X' x \/ x = w) ->
  (forall s n, B w <> Some (s, KUsed n true)) -> 0 < w -> inv X L v B F -> inv X' L v B F.
Proof.
  intros HX Hw Pw [h1 h2 h3 h4 h5 h6 h7 h8 h9 h10 h11 h12 h13 h14 h15 h16]. constructor; try assumption.
  - intros o s n E. destruct (h6 _ _ _ E) as [K|K]; [|now right].
    destruct (HX _ K) as [K'| ->]; [now left|]. destruct (Hw _ _ E).
  - intros a Ia. destruct (h14 a Ia) as [K|K]; [|now right]. destruct (HX _ K) as [K'|K']; [now left|].
    destruct (sg_in _ _ h1 a Ia) as (Q1 & _). lia.
Qed.

(* ---- holes ---- *)
Lemma inv_split X L v B F o s s1 : inv X L v B F -> B o = Some (s, KHole) -> 32 <= s1 -> 32 <= s - s1 -> s1 mod 8 = 0 ->
  inv X L v (upd (upd B o (Some (s1, KHole))) (o + s1) (Some (s - s1, KHole))) F.
Proof.
  intros H E H1 H2 H3. destruct (i_pos H _ _ _ E) as (P1 & P2 & P3 & a & Ia & A1 & A2 & A3).
  assert (Fresh : B (o + s1) = None).
  { destruct (B (o + s1)) as [[s2 c2]|] eqn:E2; [|reflexivity].
    destruct (i_pos H _ _ _ E2) as (Q1 & _). destruct (i_dis H _ _ _ _ _ _ E E2 ltac:(lia)); lia. }
  set (B' := upd (upd B o (Some (s1, KHole))) (o + s1) (Some (s - s1, KHole))).
  assert (C : forall p x, B' p = Some x -> (p = o + s1 /\ x = (s - s1, KHole)) \/ (p = o /\ x = (s1, KHole)) \/
            (p <> o /\ p <> o + s1 /\ B p = Some x)).
  { intros p x Ep. apply upd_inv in Ep. destruct Ep as [[-> Ep]|[N Ep]]; [injection Ep as <-; auto|].
    apply upd_inv in Ep. destruct Ep as [[-> Ep]|[N' Ep]]; [injection Ep as <-; auto|auto]. }
  assert (K1 : forall p x, B p = Some x -> p <> o -> B' p = Some x).
  { intros p x Ep N. unfold B'. rewrite upd_neq; [rewrite upd_neq; auto|]. intros ->. congruence. }
  assert (K2 : forall p x, B' p = Some x -> snd x <> KHole -> B p = Some x /\ p <> o).
  { intros p x Ep N. apply C in Ep. destruct Ep as [[_ ->]|[[_ ->]|(N1 & _ & Ep)]]; [now destruct N|now destruct N|auto]. }
  assert (Kn : forall o1 s2 c2, B o1 = Some (s2, c2) -> c2 <> KEnd -> o1 <> o -> exists s' c', B' (o1 + s2) = Some (s', c') /\ c' <> KStart).
  { intros o1 s2 c2 E1 N1 N2. destruct (i_next H _ _ _ E1 N1) as (s3 & c3 & E3 & N3).
    destruct (Z.eq_dec (o1 + s2) o) as [Eo|No].
    - rewrite Eo. exists s1, KHole. split; [|discriminate]. unfold B'. rewrite upd_neq by lia. apply upd_eq.
    - exists s3, c3. split; [|exact N3]. now apply K1. }
  constructor.
  - exact (i_seg H).
  - intros p sp cp Ep. apply C in Ep. destruct Ep as [[-> Ep]|[[-> Ep]|(_ & _ & Ep)]].
    + injection Ep as -> ->. split; [lia|]. split.
      { rewrite Zminus_mod, P2, H3. reflexivity. } split.
      { rewrite Zplus_mod, P3, H3. reflexivity. }
      exists a. repeat split; auto; lia.
    + injection Ep as -> ->. repeat split; auto. exists a. repeat split; auto; lia.
    + exact (i_pos H _ _ _ Ep).
  - intros p sp cp q sq cq Ep Eq N. apply C in Ep. apply C in Eq.
    destruct Ep as [[-> Ep]|[[-> Ep]|(Np & Np' & Ep)]]; destruct Eq as [[-> Eq]|[[-> Eq]|(Nq & Nq' & Eq)]];
      try (injection Ep as -> ->); try (injection Eq as -> ->); try lia.
    + destruct (i_dis H _ _ _ _ _ _ E Eq ltac:(auto)); lia.
    + destruct (i_dis H _ _ _ _ _ _ E Eq ltac:(auto)); lia.
    + destruct (i_dis H _ _ _ _ _ _ E Ep ltac:(auto)); destruct (i_pos H _ _ _ Ep) as (Q & _); lia.
    + destruct (i_dis H _ _ _ _ _ _ E Ep ltac:(auto)); destruct (i_pos H _ _ _ Ep) as (Q & _); lia.
    + exact (i_dis H _ _ _ _ _ _ Ep Eq N).
  - intros p sp cp Ep N. apply C in Ep. destruct Ep as [[-> Ep]|[[-> Ep]|(Np & _ & Ep)]].
    + injection Ep as -> ->. replace (o + s1 + (s - s1)) with (o + s) by lia.
      destruct (i_next H _ _ _ E ltac:(discriminate)) as (s3 & c3 & E3 & N3). exists s3, c3. split; [|exact N3].
      apply K1; [exact E3|lia].
    + injection Ep as -> ->. exists (s - s1), KHole. split; [apply upd_eq|discriminate].
    + exact (Kn _ _ _ Ep N Np).
  - intros p sp cp Ep. destruct cp; try exact I; apply K2 in Ep; try discriminate; exact (i_head H _ _ _ (proj1 Ep)).
  - intros p sp n Ep. apply K2 in Ep; [|discriminate]. destruct (i_flag H _ _ _ (proj1 Ep)) as [K|(s' & K)]; [now left|right].
    exists s'. apply K1; [exact K|]. intro Eo. rewrite Eo in K. congruence.
  - destruct (i_dv H) as [K|K]; [now left|right]. apply K1; [exact K|]. intro Eo. rewrite Eo in K. congruence.
  - intros p sp Ep. apply K2 in Ep; [|discriminate]. exact (i_dv1 H _ _ (proj1 Ep)).
  - exact (i_list H).
  - exact (i_nd H).
  - intros i p Hi. rewrite (i_free H i p Hi). split; intros (sp & Ep & Hb); exists sp; (split; [|exact Hb]).
    + apply K1; [exact Ep|]. intros ->. congruence.
    + apply K2 in Ep; [exact (proj1 Ep)|discriminate].
  - intros p n Hp. destruct (i_held H _ _ Hp) as (sp & fl & Ep). exists sp, fl. apply K1; [exact Ep|]. intros ->. congruence.
  - exact (i_lnd H).
  - intros b Ib. destruct (i_sub H b Ib) as [K|K]; [now left|right]. apply K1; [exact K|]. intro Eo. rewrite Eo in K. congruence.
  - intros p sp Ep. apply K2 in Ep; [exact (i_end H _ _ (proj1 Ep))|discriminate].
  - intros p sp n fl Ep. apply K2 in Ep; [exact (i_used H _ _ _ _ (proj1 Ep))|discriminate].
Qed.

Lemma same_start X L v B F o s s2 a b : inv X L v B F -> B o = Some (s, a) -> B (o + s) = Some (s2, b) -> b <> KStart ->
  exists z, In z (subs (areas (base v) k)) /\ sa_aoffset z <= o /\ o + s + s2 <= sa_aoffset z + sa_asize z /\ (a <> KStart -> sa_aoffset z < o).
Proof.
  intros H E E2 N. destruct (i_pos H _ _ _ E) as (P1 & _ & _ & x & Ix & A1 & A2 & A3).
  destruct (i_pos H _ _ _ E2) as (Q1 & _ & _ & y & Iy & C1 & C2 & C3). specialize (C3 N).
  destruct (i_seg H) as [_ _ _ S4 S5 _ _]. destruct (S4 _ Ix) as (_ & _ & X1 & _). destruct (S4 _ Iy) as (_ & _ & Y1 & _).
  pose proof (ForallOrdPairs_In S5 x y Ix Iy) as D. unfold sub_apart in D.
  destruct D as [<-|[D|D]].
  - exists x. repeat split; auto; lia.
  - lia.
  - lia.
Qed.

Lemma inv_merge X L v B F o s1 s2 : inv X L v B F -> B o = Some (s1, KHole) -> B (o + s1) = Some (s2, KHole) ->
  inv X L v (upd (upd B (o + s1) None) o (Some (s1 + s2, KHole))) F.
Proof.
  intros H E E2. destruct (i_pos H _ _ _ E) as (P1 & P2 & P3 & _).
  destruct (i_pos H _ _ _ E2) as (Q1 & Q2 & Q3 & _).
  destruct (same_start _ _ _ _ _ _ _ _ _ _ H E E2 ltac:(discriminate)) as (a & Ia & A1 & A2 & A3).
  set (B' := upd (upd B (o + s1) None) o (Some (s1 + s2, KHole))).
  assert (C : forall p x, B' p = Some x -> (p = o /\ x = (s1 + s2, KHole)) \/ (p <> o /\ p <> o + s1 /\ B p = Some x)).
  { intros p x Ep. apply upd_inv in Ep. destruct Ep as [[-> Ep]|[N Ep]]; [injection Ep as <-; auto|].
    apply upd_inv in Ep. destruct Ep as [[-> Ep]|[N' Ep]]; [discriminate|auto]. }
  assert (K1 : forall p x, B p = Some x -> p <> o -> p <> o + s1 -> B' p = Some x).
  { intros p x Ep N N'. unfold B'. rewrite upd_neq by exact N. rewrite upd_neq by exact N'. exact Ep. }
  assert (K1' : forall p x, B p = Some x -> snd x <> KHole -> B' p = Some x).
  { intros p x Ep N. apply K1; [exact Ep|..]; intros ->; rewrite ?E, ?E2 in Ep; injection Ep as <-; now apply N. }
  assert (K2 : forall p x, B' p = Some x -> snd x <> KHole -> B p = Some x).
  { intros p x Ep N. apply C in Ep. destruct Ep as [[_ ->]|(_ & _ & Ep)]; [now destruct N|auto]. }
  assert (Bo : B' o = Some (s1 + s2, KHole)) by apply upd_eq.
  constructor.
  - exact (i_seg H).
  - intros p sp cp Ep. apply C in Ep. destruct Ep as [[-> Ep]|(_ & _ & Ep)].
    + injection Ep as -> ->. split; [lia|]. split; [rewrite Zplus_mod, P2, Q2; reflexivity|]. split; [exact P3|].
      exists a. repeat split; auto; lia.
    + exact (i_pos H _ _ _ Ep).
  - intros p sp cp q sq cq Ep Eq N. apply C in Ep. apply C in Eq.
    assert (D : forall q sq cq, q <> o -> q <> o + s1 -> B q = Some (sq, cq) -> o + (s1 + s2) <= q \/ q + sq <= o).
    { intros z sz cz Nz Nz' Ez. destruct (i_pos H _ _ _ Ez) as (Z1 & _).
      destruct (i_dis H _ _ _ _ _ _ E Ez ltac:(auto)); destruct (i_dis H _ _ _ _ _ _ E2 Ez ltac:(auto)); lia. }
    destruct Ep as [[-> Ep]|(Np & Np' & Ep)]; destruct Eq as [[-> Eq]|(Nq & Nq' & Eq)];
      try (injection Ep as -> ->); try (injection Eq as -> ->); try lia.
    + exact (D _ _ _ Nq Nq' Eq).
    + destruct (D _ _ _ Np Np' Ep); lia.
    + exact (i_dis H _ _ _ _ _ _ Ep Eq N).
  - intros p sp cp Ep N. apply C in Ep. destruct Ep as [[-> Ep]|(Np & Np' & Ep)].
    + injection Ep as -> ->. destruct (i_next H _ _ _ E2 ltac:(discriminate)) as (s3 & c3 & E3 & N3).
      rewrite <- Z.add_assoc in E3. exists s3, c3. split; [|exact N3]. apply K1; [exact E3|lia|lia].
    + destruct (i_next H _ _ _ Ep N) as (s3 & c3 & E3 & N3).
      destruct (Z.eq_dec (p + sp) o) as [Eo|No]; [rewrite Eo; eexists; eexists; split; [exact Bo|discriminate]|].
      exists s3, c3. split; [|exact N3]. apply K1; [exact E3|exact No|].
      intro Eq. destruct (i_pos H _ _ _ Ep) as (Z1 & _). destruct (i_dis H _ _ _ _ _ _ E Ep ltac:(auto)); lia.
  - intros p sp cp Ep. destruct cp; try exact I; apply K2 in Ep; try discriminate; exact (i_head H _ _ _ Ep).
  - intros p sp n Ep. apply K2 in Ep; [|discriminate]. destruct (i_flag H _ _ _ Ep) as [K|(s' & K)]; [now left|right].
    exists s'. apply K1'; [exact K|discriminate].
  - destruct (i_dv H) as [K|K]; [now left|right]. apply K1'; [exact K|discriminate].
  - intros p sp Ep. apply K2 in Ep; [|discriminate]. exact (i_dv1 H _ _ Ep).
  - exact (i_list H).
  - exact (i_nd H).
  - intros i p Hi. rewrite (i_free H i p Hi). split; intros (sp & Ep & Hb); exists sp; (split; [|exact Hb]).
    + apply K1'; [exact Ep|discriminate].
    + apply K2 in Ep; [exact Ep|discriminate].
  - intros p n Hp. destruct (i_held H _ _ Hp) as (sp & fl & Ep). exists sp, fl. apply K1'; [exact Ep|discriminate].
  - exact (i_lnd H).
  - intros b Ib. destruct (i_sub H b Ib) as [K|K]; [now left|right]. apply K1'; [exact K|discriminate].
  - intros p sp Ep. apply K2 in Ep; [exact (i_end H _ _ Ep)|discriminate].
  - intros p sp n fl Ep. apply K2 in Ep; [exact (i_used H _ _ _ _ Ep)|discriminate].
Qed.

(* ---- lists ---- *)
Lemma dllt_app m p c l1 o l2 : dllt m p c (l1 ++ o :: l2) ->
  dllt m (last l1 p) o (o :: l2) /\ (l1 = [] -> c = o) /\ m (o + 16) = last l1 p /\ dllt m o (m (o + 8)) l2.
Proof.
  revert p c. induction l1 as [|x l1 IH]; cbn [app]; intros p c H.
  - cbn in H. destruct H as (-> & H1 & H2). cbn. repeat split; auto.
  - cbn in H. destruct H as (-> & H1 & H2). destruct (IH _ _ H2) as (A & _ & Bq & D).
    assert (El : last (x :: l1) p = last l1 x).
    { cbn. destruct l1 as [|y l1]; [reflexivity|]. clear. revert y x p. induction l1; intros; [reflexivity|]. cbn. apply IHl1. }
    rewrite El. split; [exact A|]. split; [discriminate|]. split; assumption.
Qed.
Lemma dllt_0 m p c l : (forall y, In y l -> 0 < y) -> dllt m p c l -> (c = 0 <-> l = []).
Proof. destruct l as [|x l]; cbn; intros Hp H; [tauto|]. destruct H as (-> & _). specialize (Hp x (or_introl eq_refl)). split; [lia|discriminate]. Qed.

(** changing the tail *)
Lemma dllt_cut m m' p c l1 o l2 : NoDup (l1 ++ o :: l2) -> l1 <> [] ->
  (forall y, In y l1 -> m' (y + 16) = m (y + 16) /\ (y <> last l1 p -> m' (y + 8) = m (y + 8))) ->
  dllt m' (last l1 p) (m' (last l1 p + 8)) l2 ->
  dllt m p c (l1 ++ o :: l2) -> dllt m' p c (l1 ++ l2).
Proof.
  revert p c. induction l1 as [|x l1 IH]; intros p c Hn Hne Hy Ht H; [contradiction|].
  cbn [app] in *. cbn in H. destruct H as (-> & H1 & H2). cbn. split; [reflexivity|].
  destruct (Hy x (or_introl eq_refl)) as [Y1 Y2]. split; [rewrite Y1; exact H1|].
  destruct l1 as [|z l1].
  - cbn in Ht |- *. exact Ht.
  - assert (El : last (x :: z :: l1) p = last (z :: l1) x).
    { clear. cbn. revert z x p. induction l1; intros; [reflexivity|]. cbn. apply IHl1. }
    rewrite El in *.
    assert (Nx : x <> last (z :: l1) x).
    { apply NoDup_cons_iff in Hn. destruct Hn as [Hn _]. intro Ex. apply Hn. apply in_or_app. left. rewrite Ex at 1.
      clear. revert z x. induction l1; intros; [cbn; auto|]. change (last (z :: a :: l1) x) with (last (a :: l1) x). right. apply IHl1. }
    rewrite (Y2 Nx). apply IH; auto.
    + apply NoDup_cons_iff in Hn. exact (proj2 Hn).
    + discriminate.
    + intros y Iy. apply Hy. now right.
Qed.

Lemma segok_mem d m : segok d k -> segok (set_mem d m) k.
Proof. intros []. constructor; assumption. Qed.

(** A free block: which list it is in and where. *)
Lemma free_in X L v B F o s : inv X L v B F -> B o = Some (s, KFree) -> 0 <= bucket_index s < 288 /\ In o (F (bucket_index s)).
Proof.
  intros H E. destruct (pos_bound H _ _ _ E) as [_ Hs]. pose proof (bucket_range s ltac:(lia)) as R. split; [exact R|].
  apply (i_free H _ _ R). eauto.
Qed.
Lemma list_pos X L v B F i y : inv X L v B F -> 0 <= i < 288 -> In y (F i) -> exists s, B y = Some (s, KFree) /\ bucket_index s = i /\ 0 < y.
Proof. intros H Hi Hy. apply (i_free H) in Hy; [|exact Hi]. destruct Hy as (s & E & Hb). exists s. split; [exact E|]. split; [exact Hb|]. exact (proj1 (pos_bound H _ _ _ E)). Qed.
Lemma list_apart X L v B F i y z a b : inv X L v B F -> 0 <= i < 288 -> In y (F i) -> In z (F i) -> y <> z -> 0 <= a < 32 -> 0 <= b < 32 -> y + a <> z + b.
Proof.
  intros H Hi Hy Hz N Ha Hb. destruct (list_pos _ _ _ _ _ _ _ H Hi Hy) as (s & E & _). destruct (list_pos _ _ _ _ _ _ _ H Hi Hz) as (t & E' & _).
  destruct (i_pos H _ _ _ E) as (P & _). destruct (i_pos H _ _ _ E') as (P' & _). destruct (i_dis H _ _ _ _ _ _ E E' N); lia.
Qed.

Lemma in_remove_mid (l1 l2 : list Z) o y : NoDup (l1 ++ o :: l2) -> (In y (l1 ++ l2) <-> In y (l1 ++ o :: l2) /\ y <> o).
Proof.
  intro Hn. pose proof (NoDup_remove_2 _ _ _ Hn) as Hr. rewrite !in_app_iff in *. cbn. split.
  - intro H. split; [tauto|]. intros ->. tauto.
  - intros [H N]. destruct H as [H|[H|H]]; [tauto|congruence|tauto].
Qed.

Lemma inv_unlink (X : Z -> Prop) L v B F o s : inv X L v B F -> B o = Some (s, KFree) ->
  exists v' F', unlink v o s = Some v' /\ inv (fun x => X x \/ x = o + s) L v' (upd B o (Some (s, KHole))) F' /\
    dv v' = dv v /\ dvs v' = dvs v /\ keeps L v v'.
Proof.
  intros H E. destruct (free_in _ _ _ _ _ _ _ H E) as [Hj Hin].
  set (j := bucket_index s) in *. unfold unlink. fold j.
  replace (j <? 0) with false by (symmetry; apply Z.ltb_ge; lia).
  apply in_split in Hin. destruct Hin as (l1 & l2 & El).
  pose proof (i_list H j Hj) as Hl. pose proof (i_nd H j Hj) as Hn. rewrite El in Hl, Hn.
  set (m := mem (base v)) in *.
  assert (Hin2 : forall y, In y (l1 ++ l2) <-> exists s1, upd B o (Some (s, KHole)) y = Some (s1, KFree) /\ bucket_index s1 = j).
  { intro y. rewrite in_remove_mid by exact Hn. rewrite <- El, (i_free H j y Hj). split.
    - intros ((s1 & E1 & Hb) & N). exists s1. rewrite upd_neq by exact N. auto.
    - intros (s1 & E1 & Hb). apply upd_inv in E1. destruct E1 as [[-> E1]|[N E1]]; [discriminate|]. eauto. }
  assert (Hnd : NoDup (l1 ++ l2)) by (eapply NoDup_remove_1; exact Hn).
  assert (Hpos : forall y, In y l2 -> 0 < y).
  { intros y Hy. destruct (list_pos _ _ _ _ _ j y H Hj) as (? & _ & _ & P); [rewrite El; apply in_or_app; right; now right|exact P]. }
  assert (Ho : forall y, In y l1 \/ In y l2 -> y <> o /\ In y (F j)).
  { intros y Hy. split; [|rewrite El; apply in_or_app; cbn; tauto]. intros ->. pose proof (NoDup_remove_2 _ _ _ Hn) as Q. rewrite in_app_iff in Q. tauto. }
  assert (Io : In o (F j)) by (rewrite El; apply in_or_app; right; now left).
  destruct l1 as [|x l1].
  - cbn in Hl. destruct Hl as (Eb & Ht). rewrite Eb, Z.eqb_refl. fold m.
    unfold ld. fold m. set (nx := m (o + 8)) in *.
    eexists. exists (updF F j l2). split; [reflexivity|].
    match goal with |- inv _ _ ?u _ _ /\ _ => cut (inv (fun x => X x \/ x = o + s) L u (upd B o (Some (s, KHole))) (updF F j l2) /\ keeps L v u) end.
    { intros [Q1 Q2]. split; [exact Q1|]. split; [now destruct (nx =? 0)|]. split; [now destruct (nx =? 0)|exact Q2]. }
    eapply inv_relink with (X := X) (v := v) (c := KFree); try exact H; try exact E; try reflexivity.
    + right. split; reflexivity.
    + intros w Hw Hw2. destruct (nx =? 0) eqn:E0; [reflexivity|]. cbn. apply store_neq.
      destruct l2 as [|z l2]; [cbn in Ht; apply Z.eqb_neq in E0; contradiction|]. cbn in Ht. destruct Ht as (-> & _).
      apply Hw2. apply Ho. right. now left.
    + intros i Hi. destruct (nx =? 0); cbn; (destruct (i =? j) eqn:Eq; [apply Z.eqb_eq in Eq; contradiction|reflexivity]).
    + now destruct (nx =? 0).
    + now destruct (nx =? 0).
    + destruct (nx =? 0); [exact (i_seg H)|apply segok_mem; exact (i_seg H)].
    + now destruct (nx =? 0).
    + destruct (nx =? 0) eqn:E0; cbn [bkt base st set_bkt]; rewrite Z.eqb_refl.
      * apply Z.eqb_eq in E0. destruct l2 as [|z l2]; [exact E0|]. cbn in Ht. destruct Ht as (Ez & _).
        specialize (Hpos z (or_introl eq_refl)). lia.
      * destruct l2 as [|z l2]; [cbn in Ht; apply Z.eqb_neq in E0; contradiction|]. cbn in Ht. destruct Ht as (Ez & Hz & Ht).
        cbn. split; [exact Ez|]. fold m. rewrite Ez in *.
        assert (N8 : z + 8 <> z + 16) by lia. rewrite store_neq by exact N8.
        apply dllt_frame with (m := m); [|exact Ht]. intros y Hy.
        assert (Nyz : y <> z) by (intros ->; cbn in Hnd; apply NoDup_cons_iff in Hnd; tauto).
        split; apply store_neq; apply (list_apart _ _ _ _ _ j y z _ _ H Hj); try lia; try exact Nyz; apply Ho; right; cbn; auto.
    + exact Hnd.
    + exact Hin2.
    + intros y Hy. now left; left.
    + intros _. now right.
  - (* not the first *)
    cbn [app] in Hl. cbn in Hl. destruct Hl as (Eb & Ht).
    assert (Nxo : x <> o) by (apply (Ho x); left; now left).
    fold m in Ht |- *. rewrite Eb.
    replace (x =? o) with false by (symmetry; now apply Z.eqb_neq).
    set (q := last l1 x).
    destruct (dllt_app _ _ _ _ _ _ Ht) as (_ & _ & Eq & Ht2). fold q in Eq.
    assert (Iq : In q (x :: l1)).
    { unfold q. clear. revert x. induction l1 as [|a l1 IH]; intro x; [now left|]. change (last (a :: l1) x) with (match l1 with [] => a | _ => last l1 x end).
      destruct l1 as [|b l1]; [right; now left|]. specialize (IH a). change (last (b :: l1) x) with (match l1 with [] => b | _ => last l1 x end).
      change (last (b :: l1) a) with (match l1 with [] => b | _ => last l1 a end) in IH.
      assert (E : forall l (d d' : Z), l <> [] -> last l d = last l d').
      { clear. induction l as [|a l IH]; intros d d' H; [contradiction|]. destruct l; [reflexivity|]. cbn. apply IH. discriminate. }
      destruct l1 as [|c l1]; [right; right; now left|]. rewrite (E (c :: l1) x a) by discriminate. right. exact IH. }
    destruct (Ho q) as [Nq IqF]; [now left|].
    unfold ld. fold m. set (nx := m (o + 8)) in *. rewrite Eq.
    eexists. exists (updF F j ((x :: l1) ++ l2)). split; [reflexivity|].
    match goal with |- inv _ _ ?u _ _ /\ _ => cut (inv (fun x => X x \/ x = o + s) L u (upd B o (Some (s, KHole))) (updF F j ((x :: l1) ++ l2)) /\ keeps L v u) end.
    { intros [Q1 Q2]. split; [exact Q1|]. split; [now destruct (nx =? 0)|]. split; [now destruct (nx =? 0)|exact Q2]. }
    set (m1 := store m (q + 8) nx).
    set (v' := if nx =? 0 then st v (q + 8) nx else st (st v (q + 8) nx) (nx + 16) q).
    assert (Em : mem (base v') = if nx =? 0 then m1 else store m1 (nx + 16) q) by (unfold v'; destruct (nx =? 0); reflexivity).
    assert (Ebk : bkt v' = bkt v) by (unfold v'; destruct (nx =? 0); reflexivity).
    assert (Hnx : nx <> 0 -> exists r, l2 = nx :: r).
    { intro N. destruct l2 as [|z r]; [cbn in Ht2; contradiction|]. cbn in Ht2. destruct Ht2 as (-> & _). now exists r. }
    eapply inv_relink with (X := X) (v := v) (c := KFree); try exact H; try exact E; try reflexivity.
    + right. split; reflexivity.
    + intros w Hw Hw2. rewrite Em. fold m.
      assert (Q : m1 w = m w) by (apply store_neq; apply Hw2; exact IqF).
      destruct (nx =? 0) eqn:E0; [exact Q|]. apply Z.eqb_neq in E0. destruct (Hnx E0) as (r & Er).
      rewrite store_neq; [exact Q|]. apply Hw2. apply Ho. right. rewrite Er. now left.
    + intros i Hi. now rewrite Ebk.
    + unfold v'. now destruct (nx =? 0).
    + unfold v'. now destruct (nx =? 0).
    + unfold v'. destruct (nx =? 0); repeat apply segok_mem; exact (i_seg H).
    + unfold v'. now destruct (nx =? 0).
    + rewrite Em, Ebk. fold m. set (m' := if nx =? 0 then m1 else store m1 (nx + 16) q).
      (* values of m' *)
      assert (V : forall y a, In y (F j) -> y <> o -> (a = 8 \/ a = 16) -> (a = 8 -> y <> q) -> (a = 16 -> nx <> 0 -> y <> nx) -> m' (y + a) = m (y + a)).
      { intros y a Iy Ny Ha H8 H16.
        assert (V1 : m1 (y + a) = m (y + a)).
        { apply store_neq. destruct (Z.eq_dec y q) as [->|Nyq]; [destruct Ha as [->| ->]; [now destruct H8|lia]|].
          apply (list_apart _ _ _ _ _ j y q _ _ H Hj); auto; lia. }
        unfold m'. destruct (nx =? 0) eqn:E0; [exact V1|]. apply Z.eqb_neq in E0. destruct (Hnx E0) as (r & Er).
        rewrite store_neq; [exact V1|]. destruct (Z.eq_dec y nx) as [Ey|Nyn].
        - subst y. destruct Ha as [->| ->]; [lia|]. now destruct (H16 eq_refl E0).
        - apply (list_apart _ _ _ _ _ j y nx _ _ H Hj); auto; try lia. apply Ho. right. rewrite Er. now left. }
      assert (Vq : m' (q + 8) = nx).
      { unfold m'. destruct (nx =? 0) eqn:E0; [apply store_eq|]. apply Z.eqb_neq in E0. destruct (Hnx E0) as (r & Er).
        rewrite store_neq; [apply store_eq|]. destruct (Z.eq_dec q nx) as [Ey|Nyn]; [lia|].
        apply (list_apart _ _ _ _ _ j q nx _ _ H Hj); auto; try lia. apply Ho. right. rewrite Er. now left. }
      assert (N12 : forall y, In y (x :: l1) -> ~ In y l2).
      { intros y Hy1 Hy2. clear - Hnd Hy1 Hy2. revert Hnd Hy1. generalize (x :: l1). intro l. induction l as [|a l IH]; cbn; [tauto|].
        intros Hn [->|Hy]; apply NoDup_cons_iff in Hn; destruct Hn as [H1 H2]; [apply H1; apply in_or_app; now right|auto]. }
      assert (T2 : dllt m' q nx l2).
      { destruct l2 as [|z r]; [exact Ht2|]. cbn in Ht2. destruct Ht2 as (Ez & Hz & Hr).
        specialize (Hpos z (or_introl eq_refl)). assert (N0 : nx <> 0) by lia.
        cbn. split; [exact Ez|]. split.
        - rewrite <- Ez. unfold m'. replace (nx =? 0) with false by (symmetry; now apply Z.eqb_neq). apply store_eq.
        - assert (Iz : In z (F j) /\ z <> o) by (destruct (Ho z) as [? ?]; [right; now left|auto]).
          assert (Nr : NoDup (z :: r)) by (clear - Hnd; revert Hnd; generalize (x :: l1); intro l; induction l; cbn; [auto|intro Q; apply NoDup_cons_iff in Q; tauto]).
          apply NoDup_cons_iff in Nr.
          rewrite V; try tauto; try lia; [|intros _ ->; apply (N12 q Iq); now left].
          apply dllt_frame with (m := m); [|exact Hr]. intros y Iy.
          assert (IyF : In y (F j) /\ y <> o) by (destruct (Ho y) as [? ?]; [right; now right|auto]).
          split; apply V; try tauto; try lia.
          + intros _ ->. apply (N12 q Iq). now right.
          + intros _ _ Ey. apply (proj1 Nr). rewrite <- Ez, <- Ey. exact Iy. }
      cbn [app dll]. split; [exact Eb|].
      destruct l1 as [|y1 l1].
      * cbn. unfold q in Vq, T2. cbn in Vq, T2. rewrite Vq. exact T2.
      * assert (Lq : last (y1 :: l1) x = q) by reflexivity.
        assert (Nxq : x <> q).
        { intro Ex. cbn in Hnd. apply NoDup_cons_iff in Hnd. destruct Hnd as [Q _]. apply Q. change (In x ((y1 :: l1) ++ l2)). apply in_or_app. left. rewrite Ex at 1. unfold q.
          clear. revert y1 x. induction l1; intros; [cbn; auto|]. change (last (y1 :: a :: l1) x) with (last (a :: l1) x). right. apply IHl1. }
        assert (Ix : In x (F j)) by (apply Ho; left; now left).
        rewrite V; [|exact Ix|exact Nxo|now left|intros _; exact Nxq|lia].
        apply dllt_cut with (m := m) (o := o); try exact Ht.
        -- apply NoDup_cons_iff in Hn. exact (proj2 Hn).
        -- discriminate.
        -- rewrite Lq. intros y Iy. destruct (Ho y) as [Ny IyF]; [left; now right|]. split.
           ++ apply V; auto; [lia|]. intros _ N0 ->. destruct (Hnx N0) as (r & Er). apply (N12 nx); [now right|rewrite Er; now left].
           ++ intro Nyq. apply V; auto. lia.
        -- rewrite Lq, Vq. exact T2.
    + exact Hnd.
    + exact Hin2.
    + intros y Hy. now left; left.
    + intros _. now right.
Qed.

Lemma bucket_head X L v B F i : inv X L v B F -> 0 <= i < 288 -> bkt v i <> 0 ->
  exists s r, F i = bkt v i :: r /\ B (bkt v i) = Some (s, KFree) /\ bucket_index s = i.
Proof.
  intros H Hi N. pose proof (i_list H i Hi) as Hl. destruct (F i) as [|o r] eqn:E; [cbn in Hl; contradiction|].
  cbn in Hl. destruct Hl as (-> & _). destruct (list_pos _ _ _ _ _ i o H Hi) as (s & Es & Hb & _); [rewrite E; now left|].
  exists s, r. auto.
Qed.

(** Taking the first block of a bucket; [fix_prev]: what is stored in its successor. *)
Definition popped (v : vdb) (i : Z) (fix_prev : option Z) : vdb :=
  let nx := ld v (bkt v i + 8) in
  let v1 := set_bkt v i nx in
  match fix_prev with
  | None => v1
  | Some p => if nx =? 0 then v1 else st v1 (nx + 16) p
  end.
Lemma inv_pop (X : Z -> Prop) L v B F i fp : inv X L v B F -> 0 <= i < 288 -> bkt v i <> 0 ->
  exists s F', B (bkt v i) = Some (s, KFree) /\ bucket_index s = i /\
    inv (fun x => X x \/ x = bkt v i + s) L (popped v i fp) (upd B (bkt v i) (Some (s, KHole))) F' /\
    dv (popped v i fp) = dv v /\ dvs (popped v i fp) = dvs v /\ keeps L v (popped v i fp).
Proof.
  intros H Hi N. destruct (bucket_head _ _ _ _ _ _ H Hi N) as (s & r & El & E & Hb).
  set (o := bkt v i) in *. exists s, (updF F i r). split; [exact E|]. split; [exact Hb|].
  pose proof (i_list H i Hi) as Hl. pose proof (i_nd H i Hi) as Hn. rewrite El in Hl, Hn. cbn in Hl. destruct Hl as (_ & Ht).
  set (m := mem (base v)) in *. set (nx := m (o + 8)) in *.
  assert (Hpos : forall y, In y r -> 0 < y).
  { intros y Hy. destruct (list_pos _ _ _ _ _ i y H Hi) as (? & _ & _ & P); [rewrite El; now right|exact P]. }
  assert (Hnx : nx <> 0 -> exists r', r = nx :: r').
  { intro N0. destruct r as [|z r']; [cbn in Ht; contradiction|]. cbn in Ht. destruct Ht as (-> & _). now exists r'. }
  assert (Epm : mem (base (popped v i fp)) = match fp with None => m | Some p => if nx =? 0 then m else store m (nx + 16) p end).
  { unfold popped. change (ld v (bkt v i + 8)) with nx. destruct fp; [destruct (nx =? 0)|]; reflexivity. }
  assert (Epb : bkt (popped v i fp) = fun j => if j =? i then nx else bkt v j).
  { unfold popped. change (ld v (bkt v i + 8)) with nx. destruct fp; [destruct (nx =? 0)|]; reflexivity. }
  assert (Edv : dv (popped v i fp) = dv v /\ dvs (popped v i fp) = dvs v).
  { unfold popped. change (ld v (bkt v i + 8)) with nx. destruct fp; [destruct (nx =? 0)|]; split; reflexivity. }
  assert (Esg : segok (base (popped v i fp)) k /\ areas (base (popped v i fp)) k = areas (base v) k).
  { unfold popped. change (ld v (bkt v i + 8)) with nx. pose proof (i_seg H).
    destruct fp; [destruct (nx =? 0)|]; split; try reflexivity; try assumption. now apply segok_mem. }
  cut (inv (fun x => X x \/ x = o + s) L (popped v i fp) (upd B o (Some (s, KHole))) (updF F i r) /\ keeps L v (popped v i fp)); [tauto|].
  eapply inv_relink with (X := X) (v := v) (c := KFree); try exact H; try exact E; try exact (proj1 Edv); try exact (proj2 Edv); try tauto.
  - now symmetry.
  - intros w Hw Hw2. rewrite Epm. fold m. destruct fp as [p|]; [|reflexivity]. destruct (nx =? 0) eqn:E0; [reflexivity|].
    apply Z.eqb_neq in E0. destruct (Hnx E0) as (r' & Er). apply store_neq. apply Hw2. rewrite El, Er. right. now left.
  - exact I.
  - intros j Hj. rewrite Epb. destruct (j =? i) eqn:Ej; [apply Z.eqb_eq in Ej; contradiction|reflexivity].
  - rewrite Epb, Epm, Z.eqb_refl. destruct r as [|z r']; [exact Ht|]. cbn in Ht. destruct Ht as (Ez & Hz & Hr).
    cbn. split; [exact Ez|]. destruct fp as [p|]; [|exact Hr]. destruct (nx =? 0) eqn:E0; [exact Hr|].
    rewrite store_neq by (rewrite Ez; lia). apply dllt_frame with (m := m); [|exact Hr]. intros y Hy.
    apply NoDup_cons_iff in Hn. destruct Hn as [_ Hn]. apply NoDup_cons_iff in Hn. destruct Hn as [Hn _].
    split; apply store_neq; rewrite Ez; apply (list_apart _ _ _ _ _ i y z _ _ H Hi); try lia; try (rewrite El; cbn; auto);
      intros ->; contradiction.
  - apply NoDup_cons_iff in Hn. tauto.
  - intro y. apply NoDup_cons_iff in Hn. destruct Hn as [Hno Hn]. split.
    + intro Hy. assert (Q : In y (F i)) by (rewrite El; now right). apply (i_free H) in Q; [|exact Hi]. destruct Q as (s1 & E1 & Hb1).
      exists s1. rewrite upd_neq; [auto|]. intros ->. contradiction.
    + intros (s1 & E1 & Hb1). apply upd_inv in E1. destruct E1 as [[-> E1]|[Ny E1]]; [discriminate|].
      assert (Q : In y (F i)) by (apply (i_free H _ _ Hi); eauto). rewrite El in Q. destruct Q as [Q|Q]; [congruence|exact Q].
Qed.

Lemma inv_push (X X' : Z -> Prop) L v B F o s : inv X L v B F -> B o = Some (s, KHole) ->
  (forall x, X x -> X' x \/ x = o + s) ->
  exists F', inv X' L (push_free baddr v o s (bucket_index s)) (upd B o (Some (s, KFree))) F' /\
     dv (push_free baddr v o s (bucket_index s)) = dv v /\ dvs (push_free baddr v o s (bucket_index s)) = dvs v /\
     keeps L v (push_free baddr v o s (bucket_index s)).
Proof.
  intros H E HX. destruct (pos_bound H _ _ _ E) as [Bo Bs]. pose proof (bucket_range s ltac:(lia)) as Hj.
  set (j := bucket_index s) in *. destruct (i_pos H _ _ _ E) as (P1 & P2 & P3 & _).
  exists (updF F j (o :: F j)). unfold push_free. set (fl := bkt v j). rewrite mk_free_eq by exact P2.
  set (v1 := st (st v o (s + 1)) (o + s - 8) (s + 1)).
  assert (H1 : inv X L v1 B F).
  { unfold v1. eapply inv_hole_st; [eapply inv_hole_st; [exact H|exact E|lia]|exact E|lia]. }
  set (v2 := if fl =? 0 then v1 else st v1 (fl + 16) o).
  set (v3 := st (st v2 (o + 8) fl) (o + 16) (baddr j)).
  assert (Eb : bkt v3 = bkt v) by (unfold v3, v2; destruct (fl =? 0); reflexivity).
  assert (Ed : dv v3 = dv v /\ dvs v3 = dvs v) by (unfold v3, v2; destruct (fl =? 0); split; reflexivity).
  set (m1 := mem (base v1)).
  assert (Em : mem (base v3) = store (store (if fl =? 0 then m1 else store m1 (fl + 16) o) (o + 8) fl) (o + 16) (baddr j)).
  { unfold v3, v2. destruct (fl =? 0); reflexivity. }
  assert (Es : segok (base v3) k /\ areas (base v3) k = areas (base v) k).
  { split; [|unfold v3, v2; destruct (fl =? 0); reflexivity].
    unfold v3, v2. pose proof (i_seg H). destruct (fl =? 0); repeat apply segok_mem; assumption. }
  assert (Hfl : fl <> 0 -> In fl (F j) /\ fl <> o).
  { intro N. destruct (bucket_head _ _ _ _ _ j H Hj N) as (s' & r & El & E' & _). fold fl in El, E'. split; [rewrite El; now left|].
    intros Eq. rewrite Eq in E'. congruence. }
  assert (Hno : forall y, In y (F j) -> y <> o /\ (y + 32 <= o \/ o + s <= y)).
  { intros y Hy. destruct (list_pos _ _ _ _ _ j y H Hj Hy) as (sy & Ey & _ & _).
    assert (N : y <> o) by (intros ->; congruence). split; [exact N|]. destruct (i_pos H _ _ _ Ey) as (Py & _).
    destruct (i_dis H _ _ _ _ _ _ Ey E N); lia. }
  cut (inv X' L (set_bkt v3 j o) (upd B o (Some (s, KFree))) (updF F j (o :: F j)) /\ keeps L v1 (set_bkt v3 j o)).
  { intros [Q1 Q2]. split; [exact Q1|]. split; [exact (proj1 Ed)|]. split; [exact (proj2 Ed)|].
    apply keeps_trans with (v2 := v1); [|exact Q2]. unfold v1.
    apply keeps_trans with (v2 := st v o (s + 1)); [eapply keeps_st; [exact H|exact E|lia|now left]|].
    eapply keeps_st; [eapply inv_hole_st; [exact H|exact E|]|exact E|lia|right; discriminate]. lia. }
  eapply inv_relink with (X := X) (v := v1) (c := KHole); try exact H1; try exact E; try tauto.
  - intros w Hw Hw2. cbn [base set_bkt]. rewrite Em. fold m1. rewrite !store_neq by lia.
    destruct (fl =? 0) eqn:E0; [reflexivity|]. apply Z.eqb_neq in E0. apply store_neq. apply Hw2. apply Hfl. exact E0.
  - cbn [base set_bkt headok]. rewrite Em. rewrite !store_neq by lia.
    assert (Q1 : m1 o = s + 1) by (unfold m1, v1; cbn; rewrite store_neq by lia; apply store_eq).
    assert (Q2 : m1 (o + s - 8) = s + 1) by (unfold m1, v1; cbn; apply store_eq).
    destruct (fl =? 0) eqn:E0; [split; assumption|]. apply Z.eqb_neq in E0. destruct (Hno fl) as [N D]; [now apply Hfl|].
    rewrite !store_neq by lia. split; assumption.
  - intros i Hi. change (bkt (set_bkt v3 j o) i) with (if i =? j then o else bkt v3 i). rewrite Eb. destruct (i =? j) eqn:Eq; [apply Z.eqb_eq in Eq; contradiction|reflexivity].
  - cbn [base set_bkt bkt]. rewrite Z.eqb_refl. cbn [dll]. split; [reflexivity|].
    pose proof (i_list H1 j Hj) as Hl. change (bkt v1 j) with fl in Hl. fold m1 in Hl. rewrite Em.
    rewrite (store_neq _ (o + 16)) by lia. rewrite store_eq.
    destruct (F j) as [|z r] eqn:El; [exact Hl|]. cbn [dll] in Hl. destruct Hl as (Efl & Hr). cbn [dllt]. split; [exact Efl|].
    clearbody m1.
    destruct (Hno z (or_introl eq_refl)) as [Nz Dz].
    assert (N0 : fl <> 0).
    { destruct (list_pos _ _ _ _ _ j z H Hj) as (_ & _ & _ & P); [rewrite El; now left|]. lia. }
    replace (fl =? 0) with false by (symmetry; now apply Z.eqb_neq). rewrite Efl in *.
    split; [rewrite !store_neq by lia; apply store_eq|].
    rewrite !store_neq by lia. apply dllt_frame with (m := m1); [|exact Hr]. intros y Hy.
    destruct (Hno y (or_intror Hy)) as [Ny Dy].
    assert (Nyz : y <> z).
    { intros ->. pose proof (i_nd H j Hj) as Hn. rewrite El in Hn. apply NoDup_cons_iff in Hn. tauto. }
    assert (A : forall a b, 0 <= a < 32 -> 0 <= b < 32 -> y + a <> z + b).
    { intros a b Ha Hb. apply (list_apart _ _ _ _ _ j y z _ _ H Hj); auto; rewrite El; cbn; auto. }
    split; rewrite !store_neq; try reflexivity; try lia; apply A; lia.
  - constructor; [|now apply (i_nd H)]. intro Hy. now destruct (proj1 (Hno o Hy)).
  - intro y. split.
    + intros [<-|Hy]; [exists s; rewrite upd_eq; auto|]. destruct (Hno y Hy) as [Ny _]. apply (i_free H) in Hy; [|exact Hj].
      destruct Hy as (s1 & E1 & Hb). exists s1. rewrite upd_neq by exact Ny. auto.
    + intros (s1 & E1 & Hb). apply upd_inv in E1. destruct E1 as [[-> E1]|[Ny E1]]; [now left|right].
      apply (i_free H _ _ Hj). eauto.
  - intros x Hx. destruct (HX x Hx); auto.
  - discriminate.
Qed.

(* ---- marks ---- *)
Definition remark (B : bmap) (w : Z) (b : bool) : bmap :=
  match B w with
  | Some (s, KUsed n _) => upd B w (Some (s, KUsed n b))
  | _ => B
  end.
Lemma inv_head_st X X' L v B F w s n fl b : inv X L v B F -> B w = Some (s, KUsed n fl) ->
  (forall x, X x -> X' x \/ x = w) -> (b = true -> X' w) ->
  inv X' L (st v w (8 * n + (if b then 2 else 0))) (upd B w (Some (s, KUsed n b))) F.
Proof.
  intros H E HX HX'. destruct (shape_kind k X L v B F w s _ (KUsed n b) H E) as (S1 & S2 & S3 & S4 & S5); [split; discriminate..|].
  destruct (i_pos H _ _ _ E) as (P1 & _).
  assert (Fr : forall o' s' c', B o' = Some (s', c') -> o' <> w -> forall p, o' <= p < o' + s' -> p <> w).
  { intros o' s' c' E' N p Hp ->. destruct (i_dis H _ _ _ _ _ _ E E' ltac:(auto)); lia. }
  assert (K1 : forall p s' c', B p = Some (s', c') -> (forall n fl, c' <> KUsed n fl) -> upd B w (Some (s, KUsed n b)) p = Some (s', c')).
  { intros p s' c' E' N. rewrite upd_neq; [exact E'|]. intros ->. rewrite E in E'. injection E' as _ <-. now apply (N n fl). }
  assert (K2 : forall p s' c', upd B w (Some (s, KUsed n b)) p = Some (s', c') -> (forall n fl, c' <> KUsed n fl) -> B p = Some (s', c')).
  { intros p s' c' E' N. apply upd_inv in E'. destruct E' as [[-> E']|[_ E']]; [|exact E']. injection E' as _ <-. now destruct (N n b). }
  constructor; try assumption.
  - apply segok_mem. exact (i_seg H).
  - intros o1 s1 c1 E1. change (mem (base (st v w (8 * n + (if b then 2 else 0))))) with (store (mem (base v)) w (8 * n + (if b then 2 else 0))).
    apply upd_inv in E1. destruct E1 as [[-> E1]|[N1 E1]].
    + injection E1 as <- <-. pose proof (i_head H _ _ _ E) as Hh. unfold headok in *. rewrite store_eq. tauto.
    + destruct (i_pos H _ _ _ E1) as (Q1 & _). apply headok_frame with (m := mem (base v)); [..|exact (i_head H _ _ _ E1)]; try intros _;
        apply store_neq; apply (Fr _ _ _ E1 N1); lia.
  - intros o1 s1 n1 E1. apply upd_inv in E1. destruct E1 as [[-> E1]|[N1 E1]].
    + injection E1 as <- <- ->. left. auto.
    + destruct (i_flag H _ _ _ E1) as [K|(s' & K)]; [destruct (HX _ K); [now left|contradiction]|right]. exists s'. apply K1; [exact K|discriminate].
  - destruct (i_dv H) as [K|K]; [now left|right]. apply K1; [exact K|discriminate].
  - intros o1 s1 E1. apply K2 in E1; [|discriminate]. exact (i_dv1 H _ _ E1).
  - intros i Hi. change (mem (base (st v w (8 * n + (if b then 2 else 0))))) with (store (mem (base v)) w (8 * n + (if b then 2 else 0))).
    apply dll_frame with (m := mem (base v)); [|now apply (i_list H)].
    intros y Hy. destruct (list_pos _ _ _ _ _ i y H Hi Hy) as (sy & Ey & _ & _). destruct (i_pos H _ _ _ Ey) as (Py & _).
    assert (N : y <> w) by (intros ->; congruence). split; apply store_neq; apply (Fr _ _ _ Ey N); lia.
  - exact (i_nd H).
  - intros i p Hi. rewrite (i_free H i p Hi). split; intros (sp & Ep & Hb); exists sp; (split; [|exact Hb]).
    + apply K1; [exact Ep|discriminate].
    + apply K2 in Ep; [exact Ep|discriminate].
  - intros p n' Hp. destruct (i_held H _ _ Hp) as (sp & fl' & Ep). destruct (Z.eq_dec p w) as [->|N].
    + rewrite E in Ep. injection Ep as -> -> _. exists sp, b. apply upd_eq.
    + exists sp, fl'. rewrite upd_neq by exact N. exact Ep.
  - exact (i_lnd H).
  - intros a Ia. destruct (S4 a Ia) as [K|K]; [|now right]. destruct (HX _ K) as [K'|K']; [now left|].
    destruct (pos_bound H _ _ _ E) as [Bw _]. destruct (sg_in _ _ (i_seg H) a Ia) as (Q1 & _). lia.
  - intros p sp n1 fl1 Ep. apply upd_inv in Ep. destruct Ep as [[-> Ep]|[_ Ep]]; [|exact (i_used H _ _ _ _ Ep)].
    injection Ep as _ <- _. exact (i_used H _ _ _ _ E).
Qed.

Lemma mod8_mul n : (8 * n) mod 8 = 0. Proof. rewrite Z.mul_comm. now apply Z.mod_mul. Qed.
Lemma used_head X L v B F w s c : inv X L v B F -> B w = Some (s, c) -> c <> KHole ->
  is_used (ld v w) = match c with KUsed _ _ => true | _ => false end.
Proof.
  intros H E N. pose proof (i_head H _ _ _ E) as Hh. destruct (i_pos H _ _ _ E) as (_ & P2 & _). unfold ld.
  destruct c; cbn [headok] in Hh.
  - destruct Hh as [_ ->]. reflexivity.
  - destruct Hh as (_ & -> & _). reflexivity.
  - destruct Hh as (_ & _ & ->). destruct fl; (rewrite is_used_c; [reflexivity|apply mod8_mul|lia]).
  - destruct Hh as [-> _]. rewrite is_used_c; [reflexivity|exact P2|lia].
  - destruct Hh as [-> _]. rewrite is_used_c; [reflexivity|exact P2|lia].
  - contradiction.
Qed.
Lemma inv_clear (X X' : Z -> Prop) L v B F w s c : inv X L v B F -> B w = Some (s, c) -> c <> KHole ->
  (forall x, X x -> X' x \/ x = w) ->
  inv X' L (clear_mark v w) (remark B w false) F /\ dv (clear_mark v w) = dv v /\ dvs (clear_mark v w) = dvs v /\ keeps L v (clear_mark v w).
Proof.
  intros H E N HX. unfold clear_mark, remark. rewrite E, (used_head _ _ _ _ _ _ _ _ H E N).
  pose proof (i_head H _ _ _ E) as Hh.
  destruct c; try (split; [apply inv_X_drop with (X := X) (w := w); [exact HX|rewrite E; discriminate|exact (proj1 (pos_bound H _ _ _ E))|exact H]|split; [|split]; try reflexivity; apply keeps_refl]).
  destruct (i_pos H _ _ _ E) as (Ps & _).
  split; [|split; [reflexivity|split; [reflexivity|eapply keeps_st; [exact H|exact E|lia|now left]]]]. unfold ld. destruct Hh as (_ & _ & ->).
  rewrite mk_used_eq; [|apply mod8_mul|destruct fl; lia].
  replace (8 * n) with (8 * n + 0) by lia.
  apply (inv_head_st X X' L v B F w s n fl false); auto. discriminate.
Qed.
Lemma inv_mark (X X' : Z -> Prop) L v B F w s c : inv X L v B F -> B w = Some (s, c) -> c <> KHole ->
  (forall x, X x -> X' x) -> X' w ->
  inv X' L (set_mark v w) (remark B w true) F /\ dv (set_mark v w) = dv v /\ dvs (set_mark v w) = dvs v /\ keeps L v (set_mark v w).
Proof.
  intros H E N HX HX'. unfold set_mark, remark. rewrite E, (used_head _ _ _ _ _ _ _ _ H E N).
  pose proof (i_head H _ _ _ E) as Hh.
  destruct c; try (split; [apply inv_X with (X := X); [exact HX|exact H]|split; [|split]; try reflexivity; apply keeps_refl]).
  destruct (i_pos H _ _ _ E) as (Ps & _).
  split; [|split; [reflexivity|split; [reflexivity|eapply keeps_st; [exact H|exact E|lia|now left]]]]. unfold ld. destruct Hh as (_ & _ & ->).
  rewrite mk_prevfree_eq; [|apply mod8_mul|destruct fl; lia].
  apply (inv_head_st X X' L v B F w s n fl true); auto.
Qed.
Lemma remark_other B w b p : p <> w -> remark B w b p = B p.
Proof. intro N. unfold remark. destruct (B w) as [[s c]|]; [|reflexivity]. destruct c; try reflexivity. now apply upd_neq. Qed.
Lemma remark_hole B w b p s : B p = Some (s, KHole) -> remark B w b p = Some (s, KHole).
Proof. intro E. unfold remark. destruct (B w) as [[s1 c]|] eqn:E1; [|exact E]. destruct c; try exact E.
  rewrite upd_neq; [exact E|]. intros ->. congruence. Qed.

(* ---- other kinds ---- *)
Lemma inv_to_used X L v B F o s n : inv X L v B F -> B o = Some (s, KHole) -> 0 <= n -> s = room n ->
  mem (base v) o = 8 * n -> inv X ((o, n) :: L) v (upd B o (Some (s, KUsed n false))) F.
Proof.
  intros H E Hn Hs Hm. eapply inv_kind with (v := v) (c := KHole); try exact H; try exact E; try reflexivity; try (split; discriminate); try discriminate.
  - exact (i_seg H).
  - unfold headok. repeat split; auto. rewrite Hm. lia.
  - destruct (i_dv H) as [K|K]; [now left|right]. rewrite upd_neq; [exact K|]. intro Eq. rewrite Eq in K. congruence.
  - intros o1 s1 E1. apply upd_inv in E1. destruct E1 as [[-> E1]|[_ E1]]; [discriminate|exact (i_dv1 H _ _ E1)].
  - intros o1 n1 [Eq|Hin].
    + injection Eq as <- <-. rewrite upd_eq. eauto.
    + destruct (i_held H _ _ Hin) as (s1 & fl & E1). exists s1, fl. rewrite upd_neq; [exact E1|]. intros ->. congruence.
  - cbn. constructor; [|exact (i_lnd H)]. intro Hin. apply in_map_iff in Hin. destruct Hin as ([o1 n1] & Eo & Hin). cbn in Eo. subst o1.
    destruct (i_held H _ _ Hin) as (s1 & fl & E1). congruence.
  - intros o1 s1 n1 fl1 E1. apply upd_inv in E1. destruct E1 as [[-> E1]|[_ E1]]; [injection E1 as _ <- _; now left|].
    right. exact (i_used H _ _ _ _ E1).
Qed.
Lemma inv_from_used X L1 L2 v B F o n s fl : inv X (L1 ++ (o, n) :: L2) v B F -> B o = Some (s, KUsed n fl) ->
  inv X (L1 ++ L2) v (upd B o (Some (s, KHole))) F.
Proof.
  intros H E. pose proof (i_lnd H) as Hn. rewrite map_app in Hn. cbn in Hn.
  eapply inv_kind with (v := v) (c := KUsed n fl); try exact H; try exact E; try reflexivity; try (split; discriminate); try discriminate.
  - exact (i_seg H).
  - destruct (i_dv H) as [K|K]; [now left|right]. rewrite upd_neq; [exact K|]. intro Eq. rewrite Eq in K. congruence.
  - intros o1 s1 E1. apply upd_inv in E1. destruct E1 as [[-> E1]|[_ E1]]; [discriminate|exact (i_dv1 H _ _ E1)].
  - intros o1 n1 Hin. destruct (i_held H o1 n1) as (s1 & fl1 & E1).
    { rewrite in_app_iff in *. cbn. tauto. }
    exists s1, fl1. rewrite upd_neq; [exact E1|]. intros ->. apply NoDup_remove_2 in Hn. apply Hn. rewrite <- map_app.
    apply in_map_iff. exists (o, n1). split; [reflexivity|exact Hin].
  - rewrite map_app. eapply NoDup_remove_1. exact Hn.
  - intros o1 s1 n1 fl1 E1. apply upd_inv in E1. destruct E1 as [[_ E1]|[N1 E1]]; [discriminate|].
    pose proof (i_used H _ _ _ _ E1) as Q. rewrite in_app_iff in *. destruct Q as [Q|[Q|Q]]; [now left|congruence|now right].
Qed.
Lemma inv_from_victim X L v B F : inv X L v B F -> dv v <> 0 ->
  B (dv v) = Some (dvs v, KVictim) /\ inv X L (set_dv v 0 0) (upd B (dv v) (Some (dvs v, KHole))) F.
Proof.
  intros H N. destruct (i_dv H) as [[K _]|E]; [contradiction|]. split; [exact E|].
  eapply inv_kind with (v := v) (c := KVictim); try exact H; try exact E; try reflexivity; try (split; discriminate); try discriminate.
  - exact (i_seg H).
  - now left.
  - intros o1 s1 E1. apply upd_inv in E1. destruct E1 as [[-> E1]|[N1 E1]]; [discriminate|]. now rewrite (i_dv1 H _ _ E1) in N1.
  - intros o1 n1 Hin. destruct (i_held H o1 n1 Hin) as (s1 & fl1 & E1). exists s1, fl1. rewrite upd_neq; [exact E1|].
    intros ->. congruence.
  - exact (i_lnd H).
  - intros o1 s1 n1 fl1 E1. apply upd_inv in E1. destruct E1 as [[_ E1]|[_ E1]]; [discriminate|exact (i_used H _ _ _ _ E1)].
Qed.
Lemma inv_to_victim X L v B F o s : inv X L v B F -> B o = Some (s, KHole) -> dv v = 0 -> mem (base v) o = s + 3 -> mem (base v) (o + 8) = 1 ->
  inv X L (set_dv v o s) (upd B o (Some (s, KVictim))) F.
Proof.
  intros H E N Hm Hm1. destruct (pos_bound H _ _ _ E) as [Bo _].
  eapply inv_kind with (v := v) (c := KHole); try exact H; try exact E; try reflexivity; try (split; discriminate); try discriminate.
  - exact (i_seg H).
  - split; [exact Hm|exact Hm1].
  - right. apply upd_eq.
  - intros o1 s1 E1. apply upd_inv in E1. destruct E1 as [[-> E1]|[N1 E1]]; [reflexivity|]. exfalso.
    pose proof (i_dv1 H _ _ E1) as Q. rewrite N in Q. subst o1. destruct (pos_bound H _ _ _ E1). lia.
  - intros o1 n1 Hin. destruct (i_held H o1 n1 Hin) as (s1 & fl1 & E1). exists s1, fl1. rewrite upd_neq; [exact E1|].
    intros ->. congruence.
  - exact (i_lnd H).
  - intros o1 s1 n1 fl1 E1. apply upd_inv in E1. destruct E1 as [[_ E1]|[_ E1]]; [discriminate|exact (i_used H _ _ _ _ E1)].
Qed.
Lemma inv_victim X L v B F o s : inv X L v B F -> B o = Some (s, KHole) -> dv v = 0 ->
  inv X L (make_victim v o s) (upd B o (Some (s, KVictim))) F /\ keeps L v (make_victim v o s).
Proof.
  intros H E N. destruct (i_pos H _ _ _ E) as (P1 & P2 & _). unfold make_victim. rewrite mk_special_eq by exact P2.
  assert (H1 : inv X L (st v o (s + 3)) B F) by (eapply inv_hole_st; [exact H|exact E|lia]).
  split.
  2: { change (keeps L v (st (st v o (s + 3)) (o + 8) 1)).
       apply keeps_trans with (v2 := st v o (s + 3)); eapply keeps_st; [exact H|exact E|lia|now left|exact H1|exact E|lia|right; discriminate]. }
  change (inv X L (set_dv (st (st v o (s + 3)) (o + 8) 1) o s) (upd B o (Some (s, KVictim))) F).
  apply inv_to_victim; try exact E; try exact N.
  - eapply inv_hole_st; [eapply inv_hole_st; [exact H|exact E|lia]|exact E|lia].
  - cbn. rewrite store_neq by lia. apply store_eq.
  - cbn. apply store_eq.
Qed.
End Steps.
