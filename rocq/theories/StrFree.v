(** Freeing keeps the string heap sane. *)
From Coq Require Import List ZArith Bool Lia.
From Verif Require Import StrModel StrSpec StrBase StrProof StrEnc.
Import ListNotations.
Open Scope Z_scope.

Fixpoint lastp (prev : option Z) (l : list Z) : option Z :=
  match l with [] => prev | x :: l' => lastp (Some x) l' end.
Lemma lastp_app prev l p : lastp prev (l ++ [p]) = Some p.
Proof. revert prev. induction l; intros; simpl; auto. Qed.

Lemma list_end (l : list Z) : l = [] \/ exists l' p, l = l' ++ [p].
Proof. destruct l as [|a l]; [auto|right]. destruct (exists_last (l := a :: l)) as (l'&p&E); [discriminate|eauto]. Qed.

Definition cut (h : heap) (b : Z) (p : option Z) (next : option Z) : option heap :=
  match p with
  | None => Some (put_bucket h b next)
  | Some p => match aget (longs h) p with Some pb => Some (put_long h p (with_chain pb next)) | None => None end
  end.

Lemma unchain_spec h b o : forall n cs c prev, chain h c cs -> (length cs <= n)%nat ->
  (~ In o cs -> unchain n h b prev c o = Some h) /\
  (forall l1 l2, cs = l1 ++ o :: l2 -> ~ In o l1 -> exists ob, aget (longs h) o = Some ob /\ chain h (l_chain ob) l2 /\
      unchain n h b prev c o = cut h b (lastp prev l1) (l_chain ob)).
Proof.
  induction n as [|n IH]; intros cs c prev Hc Hl.
  - destruct cs; [|simpl in Hl; lia]. simpl in Hc. subst. split; auto. intros [|? ?] ? E; discriminate.
  - destruct cs as [|x cs].
    + simpl in Hc. subst. split; auto. intros [|? ?] ? E; discriminate.
    + destruct Hc as [-> (xb&A&B)]. cbn [unchain]. rewrite A. simpl in Hl.
      destruct (IH cs (l_chain xb) (Some x) B ltac:(lia)) as [I1 I2]. split.
      * intros Hn. destruct (Z.eqb_spec x o); [exfalso; apply Hn; left; auto|]. apply I1. intros Hi; apply Hn; right; auto.
      * intros [|y l1] l2 E Hn.
        -- injection E as -> ->. rewrite Z.eqb_refl. exists xb. split; auto.
        -- injection E as <- ->. destruct (Z.eqb_spec x o); [exfalso; apply Hn; left; auto|]. apply (I2 l1 l2 eq_refl).
           intros Hi; apply Hn; right; auto.
Qed.

Lemma relink h p pb o ob l2 : aget (longs h) p = Some pb -> aget (longs h) o = Some ob ->
  forall l1 c, chain h c (l1 ++ p :: o :: l2) -> NoDup (l1 ++ p :: o :: l2) ->
  chain (put_long h p (with_chain pb (l_chain ob))) c (l1 ++ p :: l2).
Proof.
  intros Ap Ao. induction l1 as [|a l1 IH]; intros c H N; simpl app in *.
  - destruct H as [-> (pb'&X&[E (ob'&Y&H)])]. rewrite Ao in Y. injection Y as <-.
    split; auto. eexists. split; [simpl; apply aget_aset_same|]. simpl l_chain.
    inversion N as [|? ? N1 N2]; subst. eapply chain_same; [|exact H]. intros k b Hk B. exists b. split; auto.
    simpl. rewrite aget_aset_other; auto. intros ->. apply N1. right; auto.
  - destruct H as [-> (ab&X&H)]. inversion N as [|? ? N1 N2]; subst. split; auto. exists ab. split; [|apply IH; auto].
    simpl. rewrite aget_aset_other; auto. intros ->. apply N1. apply in_or_app. right; left; auto.
Qed.

Section Free.
  Variable nb : Z.
  Notation San := (sane nb None).

  (** The same but for the chains. *)
  Definition same (h h' : heap) : Prop :=
    keeps h h' /\ keeps h' h /\ (forall ex x, users ex h' x = users ex h x) /\ shorts h' = shorts h /\
    (forall o b b', aget (longs h) o = Some b -> aget (longs h') o = Some b' -> l_ref b' = l_ref b) /\
    length (longs h') = length (longs h).

  Lemma same_refl h : same h h.
  Proof. repeat split; auto; try (intros o b H; exists b; split; auto; apply shape_refl). congruence. Qed.

  Lemma good_remove ex h i l1 o l2 : good_chain nb None ex h i (l1 ++ o :: l2) -> good_chain nb None ex h i (l1 ++ l2).
  Proof.
    intros (vs&N&F). apply Forall2_app_inv_l in F as (u1&u2&F1&F2&->). inversion F2 as [|? v ? u2' M F2']; subst.
    exists (u1 ++ u2'). split; [eapply NoDup_remove_1; eauto|apply Forall2_app; auto].
  Qed.

  Lemma chain_bucket ex h i j l l' o : good_chain nb None ex h i l -> good_chain nb None ex h j l' -> In o l -> In o l' -> i = j.
  Proof.
    intros G G' Hi Hi'. destruct (good_in _ _ _ _ _ _ G o Hi) as (v&_&V&<-&b&A&H). destruct (good_in _ _ _ _ _ _ G' o Hi') as (v'&_&V'&<-&b'&A'&H').
    rewrite A in A'. injection A' as <-. f_equal. eapply holds_fun; eauto.
  Qed.

  Lemma same_chain h p pb c : aget (longs h) p = Some pb -> NoDup (map fst (longs h)) -> same h (put_long h p (with_chain pb c)).
  Proof.
    intros A N. split; [|split; [|split; [|split; [|split]]]]; auto.
    - split; auto. intros o b B. simpl. rewrite aget_aset. destruct (Z.eqb_spec p o).
      + subst. eexists; split; eauto. rewrite A in B. injection B as <-. apply shape_chain.
      + exists b. split; auto. apply shape_refl.
    - split; auto. intros o b B. simpl in B. rewrite aget_aset in B. destruct (Z.eqb_spec p o).
      + subst. injection B as <-. exists pb. split; auto. apply shape_sym, shape_chain.
      + exists b. split; auto. apply shape_refl.
    - intros ex x. unfold users. simpl. pose proof (cnt_aset_old (refers ex x) (longs h) p (with_chain pb c) pb A) as H.
      assert (E : refers ex x p (with_chain pb c) = refers ex x p pb) by reflexivity. rewrite E in H. lia.
    - intros o b b' B B'. simpl in B'. rewrite aget_aset in B'. destruct (Z.eqb_spec p o); [|congruence].
      subst. injection B' as <-. rewrite A in B. injection B as <-. auto.
    - simpl. apply aset_length; auto. congruence.
  Qed.

  (** Sanity only looks at the chains of the new heap and at the rest of the old one. *)
  Lemma sane_rechain ex h h' : San ex h -> same h h' -> NoDup (map fst (longs h')) ->
    (forall i, exists cs, chain h' (buckets h' i) cs /\ good_chain nb None ex h i cs) -> San ex h'.
  Proof.
    intros S (K&K'&U&Sh&R&_) N C. split; auto.
    - intros o b He B. destruct (proj1 K' _ _ B) as (b0&B0&X). destruct (s_obj _ _ _ _ S o b0 He B0) as (v&V&H).
      exists v. split; auto. eapply keeps_holds; eauto. apply shape_sym; auto.
    - intros i. destruct (C i) as (cs&H&G). exists cs. split; auto. eapply good_keeps; eauto.
    - intros x xb B. rewrite U. destruct (proj1 K' _ _ B) as (b0&B0&X). rewrite (R _ _ _ B0 B). apply (s_ref _ _ _ _ S _ _ B0).
    - intros o1 o2 b1 b2 c He1 He2 B1 B2 E1 E2. destruct (proj1 K' _ _ B1) as (c1&C1&(_&_&X1&_)).
      destruct (proj1 K' _ _ B2) as (c2&C2&(_&_&X2&_)). apply (s_short _ _ _ _ S o1 o2 c1 c2 c); auto; congruence.
    - intros o1 b1 y yb B1 He E B2. destruct (proj1 K' _ _ B1) as (c1&C1&(_&_&X1&_)).
      destruct (proj1 K' _ _ B2) as (c2&C2&(_&X3&X2&_)). unfold ltype. rewrite X2, X3. apply (s_extra _ _ _ _ S o1 c1 y); auto. congruence.
  Qed.

  Lemma unlink_ok ex h o ob : San ex h -> ex <> Some o -> aget (longs h) o = Some ob ->
    exists h', remove_from_strhash nb h o = Some h' /\ San ex h' /\ same h h' /\
      (forall i, ~ in_chain h' i o) /\ (forall i k, k <> o -> in_chain h i k -> in_chain h' i k) /\
      (forall i k, in_chain h' i k -> in_chain h i k).
  Proof.
    intros S He A. unfold remove_from_strhash. rewrite A.
    destruct (s_obj _ _ _ _ S o ob He A) as (v&V&H).
    assert (L : (match l_extra ob with None => Some None | Some e => option_map Some (decode_cstr None h e) end) = Some (v_extra v)).
    { destruct H as (_&_&_&E). destruct (l_extra ob), (v_extra v); try contradiction; [rewrite E|]; auto. }
    rewrite L, (holds_size _ _ _ _ V H), Nat2Z.id.
    assert (D : l_data ob = v_data v) by apply H. rewrite D, firstn_all. fold (bucket_of nb v). set (bk := bucket_of nb v).
    destruct (s_chain _ _ _ _ S bk) as (cs&Hc&G).
    pose proof (good_nodup _ _ _ _ _ _ G) as Nd.
    destruct (unchain_spec h bk o (length (longs h)) cs (buckets h bk) None Hc (chain_length h cs _ Hc Nd)) as [U1 U2].
    assert (Only : forall i l, i <> bk -> chain h (buckets h i) l -> ~ In o l).
    { intros i l Hne Hl Hi. destruct (s_chain _ _ _ _ S i) as (l'&Hl'&G'). rewrite (chain_fun _ _ _ _ Hl Hl') in Hi.
      destruct (good_in _ _ _ _ _ _ G' o Hi) as (u&_&Vu&Eu&b&B&Hb). rewrite A in B. injection B as <-.
      assert (u = v) by (eapply holds_fun; eauto). subst. apply Hne; auto. }
    destruct (in_dec Z.eq_dec o cs) as [Hi|Hi].
    2:{ rewrite (U1 Hi). exists h. split; [auto|]. split; [auto|]. split; [apply same_refl|]. split; [|auto].
        intros i (l&Hl&Hil). destruct (Z.eq_dec i bk) as [->|Hne]; [|eapply Only; eauto]. rewrite (chain_fun _ _ _ _ Hl Hc) in Hil. auto. }
    apply in_split in Hi as (l1&l2&Ecs).
    assert (Hn1 : ~ In o l1 /\ ~ In o l2).
    { rewrite Ecs in Nd. apply NoDup_remove_2 in Nd. split; intros X; apply Nd; apply in_or_app; auto. }
    destruct (U2 l1 l2 Ecs (proj1 Hn1)) as (ob'&A'&Hc2&->). rewrite A in A'. injection A' as <-.
    (* where the heap was cut *)
    assert (X : exists h', cut h bk (lastp None l1) (l_chain ob) = Some h' /\ same h h' /\ NoDup (map fst (longs h')) /\
              chain h' (buckets h' bk) (l1 ++ l2) /\ forall i l, i <> bk -> chain h (buckets h i) l -> chain h' (buckets h' i) l).
    { destruct (list_end l1) as [->|(l1'&p&->)].
      - simpl. eexists; split; [reflexivity|]. split; [|split; [apply (s_nd _ _ _ _ S)|split]].
        + destruct (same_refl h) as (Q1&Q2&Q3&Q4&Q5&Q6). repeat split; auto; try apply Q1; try apply Q2.
        + simpl buckets. rewrite Z.eqb_refl. eapply chain_same; [|exact Hc2]. eauto.
        + intros i l Hne Hl. simpl buckets. destruct (Z.eqb_spec i bk); [congruence|]. eapply chain_same; [|exact Hl]. eauto.
      - rewrite lastp_app. simpl. subst cs. rewrite <- app_assoc in *. simpl in *.
        destruct (chain_alloc h _ _ Hc p) as (pb&Ap); [apply in_or_app; right; left; auto|].
        rewrite Ap. eexists; split; [reflexivity|]. split; [apply same_chain; auto; apply (s_nd _ _ _ _ S)|].
        split; [apply nd_aset, (s_nd _ _ _ _ S)|]. split.
        + apply (relink h p pb o ob l2 Ap A l1' (buckets h bk)); auto.
        + intros i l Hne Hl. simpl buckets. eapply chain_same; [|exact Hl]. intros k b Hk B. exists b. split; auto. simpl.
          rewrite aget_aset_other; auto. intros ->. apply Hne.
          destruct (s_chain _ _ _ _ S i) as (l'&Hl'&G'). rewrite (chain_fun _ _ _ _ Hl Hl') in Hk.
          eapply chain_bucket; [exact G'|exact G|exact Hk|apply in_or_app; right; left; auto]. }
    destruct X as (h'&->&Sm&N'&Cb&Co). exists h'. split; [auto|].
    assert (S' : San ex h').
    { apply (sane_rechain ex h h' S Sm N'). intros i. destruct (Z.eq_dec i bk) as [->|Hne].
      - exists (l1 ++ l2). split; auto. subst cs. eapply good_remove; eauto.
      - destruct (s_chain _ _ _ _ S i) as (l&Hl&G'). exists l. split; auto. }
    split; [auto|]. split; [auto|].
    assert (Inv : forall i l', chain h' (buckets h' i) l' -> (i = bk /\ l' = l1 ++ l2) \/ (i <> bk /\ chain h (buckets h i) l')).
    { intros i l' Hl'. destruct (Z.eq_dec i bk) as [->|Hne]; [left; split; auto; eapply chain_fun; eauto|right]. split; auto.
      destruct (s_chain _ _ _ _ S i) as (l&Hl&_). rewrite (chain_fun _ _ _ _ Hl' (Co i l Hne Hl)). auto. }
    split; [|split].
    - intros i (l'&Hl'&Hi). destruct (Inv i l' Hl') as [[-> ->]|[Hne Hl]]; [|eapply Only; eauto].
      apply in_app_or in Hi. destruct Hn1. tauto.
    - intros i k Hk (l&Hl&Hi). destruct (Z.eq_dec i bk) as [->|Hne]; [|exists l; split; auto].
      exists (l1 ++ l2). split; auto. rewrite (chain_fun _ _ _ _ Hl Hc) in Hi. subst cs. apply in_app_or in Hi. apply in_or_app.
      destruct Hi as [Hi|[Hi|Hi]]; auto. congruence.
    - intros i k (l'&Hl'&Hi). destruct (Inv i l' Hl') as [[-> ->]|[Hne Hl]]; [|exists l'; auto].
      exists cs. split; auto. subst cs. apply in_app_or in Hi. apply in_or_app. simpl. tauto.
  Qed.

  Lemma users_zero ex h o k b : users ex h o = 0%nat -> ex <> Some k -> aget (longs h) k = Some b -> l_extra b <> Some (WLong o).
  Proof.
    intros U He A E. unfold users in U. pose proof (cnt_zero _ _ _ _ U A) as R. unfold refers in R. rewrite E, Z.eqb_refl in R. simpl in R.
    destruct ex as [e|]; [|discriminate]. destruct (Z.eqb_spec e k); [congruence|discriminate].
  Qed.

  Lemma chain_del h o c cs : ~ In o cs -> chain h c cs -> chain (del_long h o) c cs.
  Proof.
    intros Hn H. eapply chain_same; [|exact H]. intros k b Hk A. exists b. split; auto. simpl. rewrite aget_adel.
    destruct (Z.eqb_spec o k); [subst; contradiction|auto].
  Qed.

  Lemma del_back h o k b : aget (longs (del_long h o)) k = Some b -> aget (longs h) k = Some b /\ k <> o.
  Proof. simpl. rewrite aget_adel. destruct (Z.eqb_spec o k); [discriminate|]. auto. Qed.

  Lemma holds_del h o b v : l_extra b <> Some (WLong o) -> holds None h b v -> holds None (del_long h o) b v.
  Proof.
    intros Hn (A&B&C&D). repeat split; auto. destruct (l_extra b) as [w|]; auto. destruct (v_extra v); auto.
    destruct w; simpl in *; auto. rewrite aget_adel. destruct (Z.eqb_spec o o0); [subst; congruence|auto].
  Qed.

  Lemma del_ok ex ex' h o : San ex h -> (forall i, ~ in_chain h i o) -> users ex h o = 0%nat ->
    (ex' = ex /\ ex <> Some o \/ ex = Some o /\ ex' = None) -> San ex' (del_long h o).
  Proof.
    intros S Nc U He.
    assert (Hex : forall k, k <> o -> ex' <> Some k -> ex <> Some k).
    { intros k Hk Hn. destruct He as [[-> _]|[-> ->]]; auto. congruence. }
    assert (Hex2 : forall k, ex <> Some k -> ex' <> Some k).
    { intros k Hk. destruct He as [[-> _]|[-> ->]]; auto. discriminate. }
    split.
    - apply nd_adel. apply (s_nd _ _ _ _ S).
    - intros k b Hk A. apply del_back in A as [A Hne]. destruct (s_obj _ _ _ _ S k b (Hex k Hne Hk) A) as (v&V&H).
      exists v. split; auto. apply holds_del; auto. eapply users_zero; eauto.
    - intros i. destruct (s_chain _ _ _ _ S i) as (cs&H1&(vs&N&F)). exists cs.
      assert (Hn : ~ In o cs) by (intros Hi; apply (Nc i); exists cs; auto).
      split; [apply chain_del; auto|]. exists vs. split; auto. clear N. clear H1. induction F as [|k v cs vs M F IH]; constructor.
      + destruct M as (M1&M2&M3&b&M4&M5). split; [apply Hex2; auto|]. split; [auto|]. split; [auto|]. exists b. split.
        * simpl. rewrite aget_adel. destruct (Z.eqb_spec o k); [exfalso; apply Hn; left; auto|auto].
        * apply holds_del; auto. eapply users_zero; eauto.
      + apply IH. intros Hi; apply Hn; right; auto.
    - intros x xb A. apply del_back in A as [A Hne]. pose proof (s_ref _ _ _ _ S _ _ A) as R.
      assert (Le : (users ex' (del_long h o) x <= users ex h x)%nat); [|lia].
      unfold users. simpl. destruct He as [[-> _]|[-> ->]]; [apply cnt_adel|].
      rewrite (cnt_ext (refers None x) (refers (Some o) x)); [apply cnt_adel|].
      intros k b Hk. unfold adel in Hk. apply filter_In in Hk as [_ Hk]. simpl in Hk. unfold refers.
      destruct (l_extra b) as [[y|y|y|y]|]; auto. rewrite Z.eqb_sym. rewrite (Z.eqb_sym o k). destruct (k =? o); [discriminate|].
      auto.
    - intros o1 o2 b1 b2 c H1 H2 A1 A2. apply del_back in A1 as [A1 N1]. apply del_back in A2 as [A2 N2].
      apply (s_short _ _ _ _ S o1 o2 b1 b2 c); auto.
    - intros o1 b1 x xb A1 H1 E A2. apply del_back in A1 as [A1 N1]. apply del_back in A2 as [A2 N2].
      apply (s_extra _ _ _ _ S o1 b1 x); auto.
  Qed.

  Lemma exempt_ok h o ob : San None h -> aget (longs h) o = Some ob -> (forall i, ~ in_chain h i o) ->
    San (Some o) h /\ forall x, users (Some o) h x = (users None h x - (if refers None x o ob then 1 else 0))%nat.
  Proof.
    intros S A Nc.
    assert (Us : forall x, (users (Some o) h x + (if refers None x o ob then 1 else 0) = users None h x)%nat).
    { intros x. unfold users. pose proof (s_nd _ _ _ _ S) as N. clear S Nc. revert A. induction (longs h) as [|[k b] l IH]; [discriminate|].
      simpl in N. inversion N as [|? ? N1 N2]; subst. rewrite !cnt_cons. simpl. destruct (Z.eqb_spec k o).
      - subst. intros E. injection E as ->.
        assert (R : refers (Some o) x o ob = false) by (unfold refers; destruct (l_extra ob) as [[y|y|y|y]|]; auto; rewrite Z.eqb_refl; apply andb_false_r).
        rewrite R. assert (Ec : cnt (refers (Some o) x) l = cnt (refers None x) l); [|lia].
        apply cnt_ext. intros j c Hj. unfold refers. destruct (l_extra c) as [[y|y|y|y]|]; auto.
        destruct (Z.eqb_spec o j); auto. subst. exfalso. apply N1. apply in_map_iff. exists (j, c). auto.
      - intros E. specialize (IH N2 E).
        assert (R : refers (Some o) x k b = refers None x k b).
        { unfold refers. destruct (l_extra b) as [[y|y|y|y]|]; auto. destruct (Z.eqb_spec o k); auto. congruence. }
        rewrite R. lia. }
    split; [|intros x; specialize (Us x); lia].
    split.
    - apply (s_nd _ _ _ _ S).
    - intros k b _ B. apply (s_obj _ _ _ _ S k b ltac:(discriminate) B).
    - intros i. destruct (s_chain _ _ _ _ S i) as (cs&H1&(vs&N&F)). exists cs. split; auto. exists vs. split; auto.
      assert (Hn : ~ In o cs) by (intros Hi; apply (Nc i); exists cs; auto). clear N H1.
      induction F as [|k v cs vs M F IH]; constructor.
      + destruct M as (_&M). split; auto. intros E. injection E as <-. apply Hn; left; auto.
      + apply IH. intros Hi; apply Hn; right; auto.
    - intros x xb B. pose proof (s_ref _ _ _ _ S _ _ B). specialize (Us x). lia.
    - intros o1 o2 b1 b2 c _ _. apply (s_short _ _ _ _ S o1 o2 b1 b2 c); discriminate.
    - intros o1 b1 x xb B1 _. apply (s_extra _ _ _ _ S o1 b1 x xb B1). discriminate.
  Qed.

  Lemma holds_delshort h c b v : l_extra b <> Some (WShort c) -> holds None h b v -> holds None (del_short h c) b v.
  Proof.
    intros Hn (A&B&C&D). repeat split; auto. destruct (l_extra b) as [w|]; auto. destruct (v_extra v); auto.
    destruct w; simpl in *; auto. rewrite aget_adel. destruct (Z.eqb_spec c o); [subst; congruence|auto].
  Qed.
  Lemma del_short_ok ex h c : San ex h -> (forall k b, ex <> Some k -> aget (longs h) k = Some b -> l_extra b <> Some (WShort c)) ->
    San ex (del_short h c).
  Proof.
    intros S Hn. split.
    - apply (s_nd _ _ _ _ S).
    - intros k b Hk A. destruct (s_obj _ _ _ _ S k b Hk A) as (v&V&H). exists v. split; auto. apply holds_delshort; eauto.
    - intros i. destruct (s_chain _ _ _ _ S i) as (cs&H1&(vs&N&F)). exists cs. split; [eapply chain_same; [|exact H1]; eauto|].
      exists vs. split; auto. eapply Forall2_imp; [|exact F]. intros k v (M1&M2&M3&b&M4&M5). split; auto. split; auto. split; auto.
      exists b. split; auto. apply holds_delshort; eauto.
    - apply (s_ref _ _ _ _ S).
    - apply (s_short _ _ _ _ S).
    - apply (s_extra _ _ _ _ S).
  Qed.

  (** Less than before. *)
  Definition less (h h' : heap) (o : Z) (ob : lobj) : Prop :=
    keeps h' h /\
    (forall k, k <> o -> l_extra ob <> Some (WLong k) -> aget (longs h) k <> None -> aget (longs h') k <> None) /\
    (forall c, l_extra ob <> Some (WShort c) -> aget (shorts h') c = aget (shorts h) c) /\
    (forall i k, k <> o -> l_extra ob <> Some (WLong k) -> in_chain h i k -> in_chain h' i k).

  Lemma in_chain_del h o i k : (forall j, ~ in_chain h j o) -> (in_chain h i k <-> in_chain (del_long h o) i k).
  Proof.
    intros Nc. split.
    - intros (l&Hl&Hi). exists l. split; auto. apply chain_del; auto. intros Ho. apply (Nc i). exists l; auto.
    - intros (l&Hl&Hi). exists l. split; auto. eapply chain_same; [|exact Hl]. intros j b _ A. apply del_back in A as [A _]. eauto.
  Qed.
  Lemma keeps_del h o : keeps (del_long h o) h.
  Proof. split; auto. intros k b A. apply del_back in A as [A _]. exists b. split; auto. apply shape_refl. Qed.

  Lemma chain_ref h x xb n c l : aget (longs h) x = Some xb -> (chain h c l <-> chain (put_long h x (with_ref xb n)) c l).
  Proof.
    intros A. split; intros H; (eapply chain_same; [|exact H]).
    - intros k b _ B. destruct (put_same h x xb n k b A B) as (b'&X&_&Y). eauto.
    - intros k b' _ B. simpl in B. rewrite aget_aset in B. destruct (Z.eqb_spec x k); [|eauto]. subst. injection B as <-. eauto.
  Qed.
  Lemma keeps_ref' h x xb n : aget (longs h) x = Some xb -> keeps (put_long h x (with_ref xb n)) h.
  Proof.
    intros A. split; auto. intros o b B. destruct (put_back h x xb n o b A B) as (b'&X&Y&_). exists b'. split; auto. apply shape_sym; auto.
  Qed.

  Lemma free_long h o ob : San None h -> aget (longs h) o = Some ob -> l_ref ob - 1 <= 0 -> users None h o = 0%nat ->
    exists h', free_field nb (S (length (longs h))) h (WLong o) = Some h' /\ San None h' /\ less h h' o ob.
  Proof.
    intros S A Hr U. cbn [free_field]. rewrite A. destruct (Z.ltb_spec 0 (l_ref ob - 1)); [lia|].
    destruct (unlink_ok None h o ob S ltac:(discriminate) A) as (h1&->&S1&Sm&Nc&Ck&Cb).
    destruct Sm as (K&K'&Us&Shs&Rf&Len).
    destruct (proj1 K _ _ A) as (ob1&A1&Sh1).
    destruct (exempt_ok h1 o ob1 S1 A1 Nc) as [S2 U2].
    assert (U2o : users (Some o) h1 o = 0%nat) by (rewrite U2, Us; lia).
    assert (Fin : forall h2, San (Some o) h2 -> keeps h2 h1 -> users (Some o) h2 o = 0%nat -> (forall i, ~ in_chain h2 i o) ->
       (forall k, k <> o -> l_extra ob <> Some (WLong k) -> aget (longs h1) k <> None -> aget (longs h2) k <> None) ->
       (forall c, l_extra ob <> Some (WShort c) -> aget (shorts h2) c = aget (shorts h1) c) ->
       (forall i k, k <> o -> l_extra ob <> Some (WLong k) -> in_chain h1 i k -> in_chain h2 i k) ->
       San None (del_long h2 o) /\ less h (del_long h2 o) o ob).
    { intros h2 T1 T2 T3 T4 T5 T6 T7. split; [apply (del_ok (Some o) None); auto|]. split; [|split; [|split]].
      - eapply keeps_trans; [apply keeps_del|]. eapply keeps_trans; eauto.
      - intros k Hk He Ha. simpl. rewrite aget_adel. destruct (Z.eqb_spec o k); [congruence|]. apply T5; auto.
        destruct (aget (longs h) k) eqn:E; [|congruence]. destruct (proj1 K _ _ E) as (b'&->&_). discriminate.
      - intros c Hc. simpl. rewrite T6 by auto. rewrite Shs. auto.
      - intros i k Hk He Hi. apply in_chain_del; auto. }
    destruct (l_extra ob) as [e|] eqn:Ex.
    2:{ eexists; split; [reflexivity|]. apply Fin; auto using keeps_refl. }
    assert (Ex1 : l_extra ob1 = Some e) by (destruct Sh1 as (_&_&X&_); congruence).
    destruct (s_obj _ _ _ _ S1 o ob1 ltac:(discriminate) A1) as (v&V&(_&_&_&De)). rewrite Ex1 in De.
    destruct (v_extra v) as [es|]; [|contradiction].
    destruct e as [c|x|c|c]; simpl in De; try discriminate.
    - (* a cell *)
      cbn [free_field]. destruct (length (longs h)) as [|n0] eqn:El; cbn [free_field];
        (destruct (aget (shorts h1) c) as [cell|] eqn:Ec; [|discriminate]); (eexists; split; [reflexivity|]);
        (apply Fin; auto;
         [ apply del_short_ok; auto; intros k b Hk B E; apply Hk; f_equal; apply (s_short _ _ _ _ S1 o k ob1 b c); auto; discriminate
         | split; auto; [intros k b B; exists b; split; auto; apply shape_refl|intros c' s' B; simpl in B; rewrite aget_adel in B; destruct (c =? c'); [discriminate|auto]]
         | intros i (l&Hl&Hi); apply (Nc i); exists l; split; auto; eapply chain_same; [|exact Hl]; eauto
         | intros c' Hc'; simpl; rewrite aget_adel; destruct (Z.eqb_spec c c'); [congruence|auto]
         | intros i k _ _ (l&Hl&Hi); exists l; split; auto; eapply chain_same; [|exact Hl]; eauto ]).
    - (* a long string *)
      destruct (aget (longs h1) x) as [xb|] eqn:Ax; [|discriminate].
      destruct (s_extra _ _ _ _ S1 o ob1 x xb A1 ltac:(discriminate) Ex1 Ax) as [Xn _].
      assert (Hxo : x <> o) by congruence.
      assert (Rx : refers None x o ob1 = true) by (unfold refers; rewrite Ex1, Z.eqb_refl; auto).
      assert (Ux : Z.of_nat (users (Some o) h1 x) <= l_ref xb - 1).
      { rewrite U2, Rx. pose proof (s_ref _ _ _ _ S1 _ _ Ax). pose proof (users_in _ _ _ _ _ Rx A1). lia. }
      destruct (length (longs h)) as [|n0] eqn:El.
      { destruct (longs h); [discriminate|simpl in El; lia]. }
      cbn [free_field]. rewrite Ax. destruct (Z.ltb_spec 0 (l_ref xb - 1)).
      + eexists; split; [reflexivity|]. apply Fin.
        * apply sane_ref; auto.
        * apply keeps_ref'; auto.
        * rewrite users_ref; auto.
        * intros i (l&Hl&Hi). apply (Nc i). exists l. split; auto. eapply chain_ref; eauto.
        * intros k _ _ Ha. simpl. rewrite aget_aset. destruct (x =? k); [discriminate|auto].
        * auto.
        * intros i k _ _ (l&Hl&Hi). exists l. split; auto. apply chain_ref; auto.
      + assert (Ux0 : users (Some o) h1 x = 0%nat) by lia.
        destruct (unlink_ok (Some o) h1 x xb S2 ltac:(congruence) Ax) as (h3&->&S3&Sm3&Nc3&Ck3&Cb3).
        destruct Sm3 as (K3&K3'&Us3&Shs3&Rf3&Len3). rewrite Xn. eexists; split; [reflexivity|]. apply Fin.
        * apply (del_ok (Some o) (Some o)); auto; [rewrite Us3; auto|left; split; congruence].
        * eapply keeps_trans; [apply keeps_del|auto].
        * unfold users. assert (Hle : (cnt (refers (Some o) o) (longs (del_long h3 x)) <= users (Some o) h3 o)%nat) by apply cnt_adel.
          rewrite Us3 in Hle. lia.
        * intros i Hi. apply (in_chain_del h3 x i o) in Hi; auto. apply (Nc i). apply Cb3; auto.
        * intros k Hk He Ha. simpl. rewrite aget_adel. destruct (Z.eqb_spec x k); [congruence|].
          destruct (aget (longs h1) k) eqn:E; [|congruence]. destruct (proj1 K3 _ _ E) as (b'&->&_). discriminate.
        * intros c _. simpl. rewrite Shs3. auto.
        * intros i k Hk He Hi. apply (in_chain_del h3 x i k); auto. apply Ck3; auto. congruence.
  Qed.

  Lemma says_less h h' w v : San None h' -> keeps h' h -> valid v -> says None h w v ->
    match w with WLong o => aget (longs h') o <> None | WShort c => aget (shorts h') c = aget (shorts h) c | _ => True end ->
    says None h' w v.
  Proof.
    intros S' K V Hs Hk. destruct w; simpl in *; auto.
    - rewrite Hk. auto.
    - destruct Hs as (b&A&H). destruct (aget (longs h') o) as [b'|] eqn:A'; [|congruence]. exists b'. split; auto.
      destruct (s_obj _ _ _ _ S' o b' ltac:(discriminate) A') as (u&Vu&Hu). destruct (proj1 K _ _ A') as (b0&A0&Sh).
      rewrite A in A0. injection A0 as <-. pose proof (keeps_holds None h' h b' b u K Sh Hu) as Hu'.
      assert (u = v) by (apply (holds_fun None h b); auto). subst; auto.
  Qed.

  (** ** What freeing does *)
  Lemma free_ok h w v : San None h -> valid v -> says None h w v ->
    (forall c k b, w = WShort c -> aget (longs h) k = Some b -> l_extra b <> Some (WShort c)) ->
    exists h', free_encoded nb None h w = Some h' /\ San None h' /\ keeps h' h /\
      (forall w' v', valid v' -> says None h w' v' -> w' <> w ->
         (forall c k b, w' = WShort c -> aget (longs h) k = Some b -> l_extra b <> Some (WShort c)) ->
         (forall e, v_extra v = Some e -> v' <> plain e) ->
         says None h' w' v' /\ (forall i o, w' = WLong o -> in_chain h i o -> in_chain h' i o)).
  Proof.
    intros S V Hs Hc. unfold free_encoded. destruct w as [c|o|c|c]; try contradiction.
    - destruct Hs as (s&n&A&_). cbn [free_field]. rewrite A. exists (del_short h c). split; [auto|].
      assert (S' : San None (del_short h c)) by (apply del_short_ok; auto; intros; eapply Hc; eauto).
      assert (K' : keeps (del_short h c) h).
      { split; auto; [intros k b B; exists b; split; auto; apply shape_refl|].
        intros c' s' B; simpl in B; rewrite aget_adel in B; destruct (c =? c'); [discriminate|auto]. }
      split; [auto|]. split; [auto|].
      intros w' v' V' Hs' Hne _ _. split.
      + apply (says_less h); auto. destruct w'; auto.
        * simpl. rewrite aget_adel. destruct (Z.eqb_spec c o); [congruence|auto].
        * simpl. destruct Hs' as (b&B&_). congruence.
      + intros i k _ (l&Hl&Hi). exists l. split; auto. eapply chain_same; [|exact Hl]. eauto.
    - destruct Hs as (ob&A&H). rewrite A. cbv zeta.
      set (h1 := put_long h o (with_ref ob (l_ref ob + 1))).
      assert (A1 : aget (longs h1) o = Some (with_ref ob (l_ref ob + 1))) by (simpl; apply aget_aset_same).
      pose proof (s_ref _ _ _ _ S _ _ A) as R.
      destruct (Z.leb_spec (l_ref ob) 0) as [Hr|Hr].
      + assert (S1 : San None h1) by (apply sane_ref; auto; lia).
        destruct (free_long h1 o _ S1 A1) as (h'&E&S'&(L1&L2&L3&L4)).
        * simpl. lia.
        * unfold h1. rewrite users_ref by auto. lia.
        * exists h'. split; [exact E|]. split; [auto|]. pose proof (keeps_ref' h o ob (l_ref ob + 1) A) as Kr. fold h1 in Kr.
          split; [eapply keeps_trans; eauto|]. simpl l_extra in *.
          intros w' v' V' Hs' Hne Hc' He.
          assert (Nx : forall k, w' = WLong k -> l_extra ob <> Some (WLong k)).
          { intros k -> Ek. destruct Hs' as (kb0&Ak&Hk). destruct H as (_&_&_&De). rewrite Ek in De.
            destruct (v_extra v) as [e|] eqn:Ev; [|contradiction]. simpl in De. rewrite Ak in De. injection De as De.
            apply (He e eq_refl). destruct (s_extra _ _ _ _ S o ob k kb0 A ltac:(discriminate) Ek Ak) as [Xk Tk].
            rewrite (holds_type _ _ _ _ V' Hk) in Tk. destruct Hk as (_&_&Dk&Xk'). rewrite Xk in Xk'.
            destruct V' as [[V'|(_&s&Cs&Hd)] _]; [rewrite V' in Tk; discriminate|].
            rewrite Dk, Hd, cstr_app in De by auto. subst s. destruct v' as [t d x]; simpl in *. subst. destruct x; [contradiction|auto]. }
          assert (Ns : forall c, w' = WShort c -> l_extra ob <> Some (WShort c)) by (intros c E'; apply (Hc' c o ob E' A)).
          split.
          -- apply (says_less h); auto; [eapply keeps_trans; eauto|]. destruct w' as [c|k|c|c]; auto.
             apply L2; auto; [congruence|]. destruct Hs' as (b&B&_). simpl. rewrite aget_aset. destruct (o =? k); congruence.
          -- intros i k -> Hi. apply L4; auto; [congruence|]. destruct Hi as (l&Hl&Hi). exists l. split; auto. apply chain_ref; auto.
      + exists h. split; [|split; [auto|split; [apply keeps_refl|auto]]].
        cbn [free_field]. rewrite A1. simpl l_ref. replace (l_ref ob + 1 - 1) with (l_ref ob) by lia.
        destruct (Z.ltb_spec 0 (l_ref ob)); [|lia]. f_equal. unfold h1, put_long. simpl. rewrite aset_aset, aset_id.
        * destruct h; auto.
        * rewrite A. destruct ob; auto.
    - destruct Hs as (k&b&E&_). discriminate.
  Qed.
End Free.
