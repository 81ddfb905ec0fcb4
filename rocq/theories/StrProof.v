(** The string heap stays sane under encoding and freeing. *)
From Coq Require Import List ZArith Bool Lia.
From Verif Require Import StrModel StrSpec StrBase.
Import ListNotations.
Open Scope Z_scope.

Section Sane.
  Variable nb : Z.
  Variable kb : option heap.

  Definition refers (ex : option Z) (x : Z) (k : Z) (b : lobj) : bool :=
    match l_extra b with
    | Some (WLong y) => (y =? x) && negb (match ex with Some e => e =? k | None => false end)
    | _ => false
    end.
  Definition users (ex : option Z) (h : heap) (x : Z) : nat := cnt (refers ex x) (longs h).
  Definition bucket_of (v : value) : Z := hashsum (v_data v) (v_extra v) mod nb.

  Definition member (ex : option Z) (h : heap) (i : Z) (o : Z) (v : value) : Prop :=
    ex <> Some o /\ valid v /\ bucket_of v = i /\ exists b, aget (longs h) o = Some b /\ holds kb h b v.
  Definition good_chain (ex : option Z) (h : heap) (i : Z) (cs : list Z) : Prop :=
    exists vs, NoDup vs /\ Forall2 (member ex h i) cs vs.

  (** [ex]: an object which is being freed: it is in no chain and its extra string may be gone. *)
  Record sane (ex : option Z) (h : heap) : Prop := {
    s_nd : NoDup (map fst (longs h));
    s_obj : forall o b, ex <> Some o -> aget (longs h) o = Some b -> exists v, valid v /\ holds kb h b v;
    s_chain : forall i, exists cs, chain h (buckets h i) cs /\ good_chain ex h i cs;
    s_ref : forall x xb, aget (longs h) x = Some xb -> Z.of_nat (users ex h x) <= l_ref xb;
    s_short : forall o o' b b' c, ex <> Some o -> ex <> Some o' -> aget (longs h) o = Some b -> aget (longs h) o' = Some b' ->
                l_extra b = Some (WShort c) -> l_extra b' = Some (WShort c) -> o = o';
    s_extra : forall o b x xb, aget (longs h) o = Some b -> ex <> Some o -> l_extra b = Some (WLong x) ->
                aget (longs h) x = Some xb -> l_extra xb = None /\ ltype xb = STR
  }.

  Lemma sane_empty : sane None empty_heap.
  Proof.
    split; simpl; try discriminate.
    - constructor.
    - intros i. exists []. simpl. split; auto. exists []. split; constructor.
  Qed.

  Lemma member_keeps ex h h' i o v : keeps h h' -> member ex h i o v -> member ex h' i o v.
  Proof.
    intros K (A&B&C&b&D&E). destruct (proj1 K _ _ D) as (b'&D'&S). repeat split; auto; try apply B.
    exists b'. split; auto. eapply keeps_holds; eauto.
  Qed.
  Lemma Forall2_imp {A B} (P Q : A -> B -> Prop) l l' : (forall a b, P a b -> Q a b) -> Forall2 P l l' -> Forall2 Q l l'.
  Proof. induction 2; constructor; auto. Qed.
  Lemma good_keeps ex h h' i cs : keeps h h' -> good_chain ex h i cs -> good_chain ex h' i cs.
  Proof. intros K (vs&N&F). exists vs. split; auto. eapply Forall2_imp; [|exact F]. intros; eapply member_keeps; eauto. Qed.
  Lemma good_in ex h i cs : good_chain ex h i cs -> forall o, In o cs -> exists v, member ex h i o v.
  Proof.
    intros (vs&_&F). induction F; intros z Hz; [contradiction|]. destruct Hz as [<-|Hz]; eauto.
  Qed.
  Lemma good_nodup ex h i cs : good_chain ex h i cs -> NoDup cs.
  Proof.
    intros (vs&N&F). induction F as [|o v cs vs M F IH]; [constructor|]. inversion N as [|? ? N1 N2]; subst. constructor; auto.
    intros Hi. apply N1. clear IH N N1 N2. induction F as [|o' v' cs vs M' F IH]; [contradiction|].
    destruct Hi as [<-|Hi]; [|right; auto]. left.
    destruct M as (_&V&_&b&A&H), M' as (_&V'&_&b'&A'&H'). rewrite A in A'. injection A' as <-.
    eapply holds_fun; eauto.
  Qed.
  Lemma good_uniq ex h i cs : good_chain ex h i cs -> forall o o' b b' v, In o cs -> In o' cs ->
    aget (longs h) o = Some b -> aget (longs h) o' = Some b' -> valid v -> holds kb h b v -> holds kb h b' v -> o = o'.
  Proof.
    intros (vs&N&F). induction F as [|o v cs vs M F IH]; [contradiction|]. inversion N as [|? ? N1 N2]; subst.
    assert (Key : forall z u, In z cs -> aget (longs h) z = Some u -> ~ holds kb h u v).
    { intros z u Hz Az Hu. apply N1. clear IH N N1 N2. induction F as [|o' v' cs vs M' F IH]; [contradiction|].
      destruct Hz as [<-|Hz]; [|right; auto]. left. destruct M as (_&V&_), M' as (_&V'&_&b'&A'&H').
      rewrite Az in A'. injection A' as <-. eapply holds_fun; eauto. }
    destruct M as (_&V&_&bo&Ao&Ho).
    intros z z' c c' u Hz Hz' A A' Vu H H'. destruct Hz as [<-|Hz], Hz' as [<-|Hz']; auto.
    - rewrite Ao in A. injection A as <-. assert (u = v) by (apply (holds_fun kb h bo); auto). subst. exfalso; eapply Key; eauto.
    - rewrite Ao in A'. injection A' as <-. assert (u = v) by (apply (holds_fun kb h bo); auto). subst. exfalso; eapply Key; eauto.
    - eapply (IH N2 z z'); eauto.
  Qed.

  Lemma extra_alloc ex h o b x : sane ex h -> ex <> Some o -> aget (longs h) o = Some b -> l_extra b = Some (WLong x) ->
    exists xb, aget (longs h) x = Some xb.
  Proof.
    intros S He A E. destruct (s_obj _ _ S o b He A) as (v&_&(_&_&_&D)). rewrite E in D.
    destruct (v_extra v); [|contradiction]. simpl in D. destruct (aget (longs h) x); [eauto|discriminate].
  Qed.
  Lemma extra_short ex h o b x : sane ex h -> ex <> Some o -> aget (longs h) o = Some b -> l_extra b = Some (WShort x) ->
    aget (shorts h) x <> None.
  Proof.
    intros S He A E. destruct (s_obj _ _ S o b He A) as (v&_&(_&_&_&D)). rewrite E in D.
    destruct (v_extra v); [|contradiction]. simpl in D. destruct (aget (shorts h) x); [congruence|discriminate].
  Qed.

  (** ** Looking up in a sane heap *)
  Lemma find_sane h v : sane None h -> valid v ->
    match find_bucket (length (longs h)) kb h (buckets h (bucket_of v)) (v_data v) (v_extra v) (v_type v) with
    | FWild => False
    | FFound o => (exists b, aget (longs h) o = Some b /\ holds kb h b v) /\
                  forall cs, chain h (buckets h (bucket_of v)) cs -> In o cs
    | FNone => forall cs o b, chain h (buckets h (bucket_of v)) cs -> In o cs -> aget (longs h) o = Some b -> ~ holds kb h b v
    end.
  Proof.
    intros S Hv. destruct (s_chain _ _ S (bucket_of v)) as (cs'&Hc'&G).
    pose proof (find_ok kb h v Hv (length (longs h)) cs' _ Hc') as F.
    specialize (F (chain_length h cs' _ Hc' (good_nodup _ _ _ _ G))).
    assert (Ho : forall o, In o cs' -> exists b u, aget (longs h) o = Some b /\ valid u /\ holds kb h b u).
    { intros o Hi. destruct (good_in _ _ _ _ G o Hi) as (u&_&V&_&b&A&H). eauto. }
    specialize (F Ho). destruct (find_bucket _ _ _ _ _ _ _); auto.
    - destruct F as [F1 F2]. split; auto. intros cs Hc. rewrite (chain_fun _ _ _ _ Hc Hc'). auto.
    - intros cs o b Hc. rewrite (chain_fun _ _ _ _ Hc Hc'). apply F.
  Qed.

  (** ** Adding *)
  Lemma holds_new h data type w c :
    forall v, v_data v = data -> v_type v = type ->
    match w, v_extra v with None, None => True | Some w, Some e => decode_cstr kb h w = Some e | _, _ => False end ->
    holds kb h (new_obj data type w c) v.
  Proof. intros v <- <- H. repeat split; auto. Qed.

  Lemma keeps_put h o b : aget (longs h) o = None -> keeps h (put_long h o b).
  Proof.
    intros F. split; simpl; auto. intros o' b' A. exists b'. split; [|apply shape_refl].
    rewrite aget_aset. destruct (Z.eqb_spec o o'); [congruence|auto].
  Qed.

  Lemma users_fresh ex h x : sane ex h -> (forall o b, ex = Some o -> aget (longs h) o = Some b -> False) ->
    aget (longs h) x = None -> users ex h x = 0%nat.
  Proof.
    intros S He Hf. unfold users, cnt. destruct (filter _ (longs h)) as [|[k b] l] eqn:E; auto. exfalso.
    assert (I : In (k, b) (filter (fun p => refers ex x (fst p) (snd p)) (longs h))) by (rewrite E; simpl; auto).
    apply filter_In in I as [I R]. apply (in_aget _ _ _ (s_nd _ _ S)) in I. unfold refers in R. simpl in R.
    destruct (l_extra b) as [[y|y|y|y]|] eqn:Eb; try discriminate. apply andb_true_iff in R as [R R']. apply Z.eqb_eq in R. subst y.
    assert (Hne : ex <> Some k) by (intros Hk; eapply He; eauto).
    destruct (extra_alloc _ _ _ _ _ S Hne I Eb). congruence.
  Qed.

  (** A new object, in no chain. *)
  Lemma sane_add h o v : sane None h -> aget (longs h) o = None -> valid v -> v_extra v = None ->
    sane None (put_long h o (new_obj (v_data v) (v_type v) None None)).
  Proof.
    intros S F Hv Hx. set (nw := new_obj _ _ _ _). pose proof (keeps_put h o nw F) as K.
    assert (Old : forall o' b, aget (longs h) o' = Some b -> aget (longs (put_long h o nw)) o' = Some b).
    { intros o' b A. simpl. rewrite aget_aset. destruct (Z.eqb_spec o o'); [congruence|auto]. }
    assert (Inv : forall o' b, aget (longs (put_long h o nw)) o' = Some b -> (o' = o /\ b = nw) \/ aget (longs h) o' = Some b).
    { intros o' b A. simpl in A. rewrite aget_aset in A. destruct (Z.eqb_spec o o'); [left; split; congruence|auto]. }
    assert (Cn : forall x, users None (put_long h o nw) x = users None h x).
    { intros x. unfold users. simpl. rewrite cnt_aset_new by auto. reflexivity. }
    split.
    - apply nd_aset. apply (s_nd _ _ S).
    - intros o' b _ A. apply Inv in A as [[-> ->]|A].
      + exists v. split; auto. apply holds_new; auto. rewrite Hx. auto.
      + destruct (s_obj _ _ S o' b ltac:(discriminate) A) as (u&Hu&H). exists u. split; auto.
        eapply keeps_holds; eauto using shape_refl.
    - intros i. destruct (s_chain _ _ S i) as (cs&H1&H2). exists cs. split; [|eapply good_keeps; eauto].
      eapply chain_same; [|exact H1]. intros o' b' _ A. exists b'; split; auto.
    - intros x xb A. rewrite Cn. apply Inv in A as [[-> ->]|A]; [|apply (s_ref _ _ S _ _ A)].
      rewrite (users_fresh None h o S ltac:(discriminate) F). simpl. lia.
    - intros o1 o2 b1 b2 c _ _ A1 A2 E1 E2. apply Inv in A1 as [[-> ->]|A1]; [discriminate|].
      apply Inv in A2 as [[-> ->]|A2]; [discriminate|]. eapply (s_short _ _ S o1 o2); eauto; discriminate.
    - intros o1 b1 x xb A1 _ E A2. apply Inv in A1 as [[-> ->]|A1]; [discriminate|].
      apply Inv in A2 as [[-> ->]|A2]; [|eapply (s_extra _ _ S o1); eauto; discriminate].
      destruct (extra_alloc _ _ _ _ _ S ltac:(discriminate) A1 E). congruence.
  Qed.

  (** Changing a reference count. *)
  Lemma put_same h x xb n o b : aget (longs h) x = Some xb -> aget (longs h) o = Some b ->
    exists b', aget (longs (put_long h x (with_ref xb n))) o = Some b' /\ shape b b' /\ l_chain b' = l_chain b.
  Proof.
    intros A B. simpl. rewrite aget_aset. destruct (Z.eqb_spec x o).
    - subst. rewrite A in B. injection B as <-. eexists; split; eauto. split; [apply shape_ref|auto].
    - exists b. split; auto. split; [apply shape_refl|auto].
  Qed.
  Lemma put_back h x xb n o b' : aget (longs h) x = Some xb -> aget (longs (put_long h x (with_ref xb n))) o = Some b' ->
    exists b, aget (longs h) o = Some b /\ shape b b' /\ (o = x /\ l_ref b' = n \/ o <> x /\ l_ref b' = l_ref b).
  Proof.
    intros A B. simpl in B. rewrite aget_aset in B. destruct (Z.eqb_spec x o).
    - subst. injection B as <-. exists xb. split; auto. split; [apply shape_ref|auto].
    - exists b'. split; auto. split; [apply shape_refl|auto].
  Qed.
  Lemma users_ref ex h x xb n y : aget (longs h) x = Some xb -> users ex (put_long h x (with_ref xb n)) y = users ex h y.
  Proof.
    intros A. unfold users. simpl. pose proof (cnt_aset_old (refers ex y) (longs h) x (with_ref xb n) xb A) as H.
    assert (E : refers ex y x (with_ref xb n) = refers ex y x xb) by reflexivity. rewrite E in H. lia.
  Qed.
  Lemma keeps_ref h x xb n : aget (longs h) x = Some xb -> keeps h (put_long h x (with_ref xb n)).
  Proof.
    intros A. split; auto. intros o b B. destruct (put_same h x xb n o b A B) as (b'&X&Y&_). eauto.
  Qed.
  Lemma sane_ref ex h x xb n : sane ex h -> aget (longs h) x = Some xb -> Z.of_nat (users ex h x) <= n ->
    sane ex (put_long h x (with_ref xb n)).
  Proof.
    intros S A Hn. pose proof (keeps_ref h x xb n A) as K. split.
    - apply nd_aset. apply (s_nd _ _ S).
    - intros o b He B. destruct (put_back _ _ _ _ _ _ A B) as (b0&B0&Sh&_).
      destruct (s_obj _ _ S o b0 He B0) as (v&V&H). exists v. split; auto. eapply keeps_holds; eauto.
    - intros i. destruct (s_chain _ _ S i) as (cs&H1&H2). exists cs. split; [|eapply good_keeps; eauto].
      eapply chain_same; [|exact H1]. intros o b _ B. destruct (put_same h x xb n o b A B) as (b'&X&_&Y). eauto.
    - intros y yb B. rewrite users_ref by auto. destruct (put_back _ _ _ _ _ _ A B) as (b0&B0&_&[[-> ->]|[_ ->]]); auto.
      apply (s_ref _ _ S _ _ B0).
    - intros o1 o2 b1 b2 c He1 He2 B1 B2 E1 E2. destruct (put_back _ _ _ _ _ _ A B1) as (c1&C1&(_&_&X1&_)&_).
      destruct (put_back _ _ _ _ _ _ A B2) as (c2&C2&(_&_&X2&_)&_).
      apply (s_short _ _ S o1 o2 c1 c2 c); auto; congruence.
    - intros o1 b1 y yb B1 He E B2. destruct (put_back _ _ _ _ _ _ A B1) as (c1&C1&(_&_&X1&_)&_).
      destruct (put_back _ _ _ _ _ _ A B2) as (c2&C2&(_&X3&X2&_)&_). unfold ltype. rewrite <- X2, <- X3.
      apply (s_extra _ _ S o1 c1 y); auto. congruence.
  Qed.

  (** Linking the new object. *)
  Lemma users_in ex h x k b : refers ex x k b = true -> aget (longs h) k = Some b -> (1 <= users ex h x)%nat.
  Proof.
    intros R A. unfold users. destruct (cnt (refers ex x) (longs h)) eqn:E; [|lia].
    pose proof (cnt_zero _ _ _ _ E A). congruence.
  Qed.
  Definition dmono (h h' : heap) : Prop := forall w s, decode_cstr kb h w = Some s -> decode_cstr kb h' w = Some s.
  Lemma dmono_holds h h' b b' v : dmono h h' -> shape b b' -> holds kb h b v -> holds kb h' b' v.
  Proof.
    intros K (S1&S2&S3&S4) (A&B&C&D). repeat split; try congruence. rewrite <- S3.
    destruct (l_extra b), (v_extra v); auto.
  Qed.

  Definition link h o v w head : heap :=
    put_bucket (put_long h o (new_obj (v_data v) (v_type v) w head)) (bucket_of v) (Some o).
  Lemma sane_link h o v w head cs ob : sane None h -> valid v ->
    aget (longs h) o = Some ob -> l_extra ob = None -> l_ref ob = 0 -> l_data ob = v_data v ->
    (forall i cs, chain h (buckets h i) cs -> ~ In o cs) ->
    match w, v_extra v with None, None => True | Some w, Some e => decode_cstr kb h w = Some e | _, _ => False end ->
    chain h head cs -> good_chain None h (bucket_of v) cs -> ~ In o cs ->
    (forall x b, In x cs -> aget (longs h) x = Some b -> ~ holds kb h b v) ->
    (forall c k b, w = Some (WShort c) -> aget (longs h) k = Some b -> l_extra b <> Some (WShort c)) ->
    (forall x, w = Some (WLong x) -> x <> o /\ exists xb, aget (longs h) x = Some xb /\ (l_extra xb = None /\ ltype xb = STR) /\
       Z.of_nat (users None h x) + 1 <= l_ref xb) ->
    sane None (link h o v w head) /\ chain (link h o v w head) (Some o) (o :: cs) /\
    (exists b, aget (longs (link h o v w head)) o = Some b /\ holds kb (link h o v w head) b v) /\
    (forall i cs', i <> bucket_of v -> chain h (buckets h i) cs' -> chain (link h o v w head) (buckets (link h o v w head) i) cs').
  Proof.
    intros S Hv A Ax Ar Ad NoCh Hw Hc G Hnin Hnew Hsh Hlo.
    set (nw := new_obj (v_data v) (v_type v) w head). set (h' := link h o v w head).
    assert (Ho : aget (longs h') o = Some nw) by (simpl; apply aget_aset_same).
    assert (Hk : forall k, k <> o -> aget (longs h') k = aget (longs h) k) by (intros k Hk; simpl; apply aget_aset_other; auto).
    assert (D : dmono h h').
    { intros [c|c|c|c] s; simpl; auto. rewrite aget_aset. destruct (Z.eqb_spec o c); auto. subst. rewrite A. simpl. rewrite Ad. auto. }
    assert (Uo : users None h o = 0%nat) by (pose proof (s_ref _ _ S _ _ A); lia).
    assert (Hh : holds kb h' nw v).
    { apply holds_new; auto. destruct w, (v_extra v); auto. }
    assert (Mem : forall i k u, k <> o -> member None h i k u -> member None h' i k u).
    { intros i k u Hne (_&B1&B2&b&B3&B4). repeat split; try apply B1; auto; try discriminate. exists b. rewrite Hk by auto. split; auto.
      eapply dmono_holds; eauto using shape_refl. }
    assert (GK : forall i l, ~ In o l -> good_chain None h i l -> good_chain None h' i l).
    { intros i l Hl (vs&N&F). exists vs. split; auto. clear N. induction F; constructor.
      - apply Mem; auto. intros E; apply Hl; left; auto.
      - apply IHF. intros E; apply Hl; right; auto. }
    assert (CK : forall c l, ~ In o l -> chain h c l -> chain h' c l).
    { intros c l Hl H. eapply chain_same; [|exact H]. intros k b Hi B. exists b. rewrite Hk; auto. intros ->; auto. }
    assert (Us : forall x, users None h' x = ((if refers None x o nw then 1 else 0) + users None h x)%nat).
    { intros x. unfold users. simpl. pose proof (cnt_aset_old (refers None x) (longs h) o nw ob A) as H.
      assert (E : refers None x o ob = false) by (unfold refers; rewrite Ax; auto). rewrite E in H. unfold nw in *. lia. }
    assert (Chain_o : chain h' (Some o) (o :: cs)).
    { split; auto. exists nw. split; auto. }
    split; [|split; [exact Chain_o|split; [exists nw; split; auto|]]].
    - split.
      + apply nd_aset. apply (s_nd _ _ S).
      + intros k b _ B. destruct (Z.eq_dec k o) as [->|Hne].
        * rewrite Ho in B. injection B as <-. exists v; auto.
        * rewrite Hk in B by auto. destruct (s_obj _ _ S k b ltac:(discriminate) B) as (u&V&H). exists u. split; auto.
          eapply dmono_holds; eauto using shape_refl.
      + intros i. destruct (Z.eq_dec i (bucket_of v)) as [->|Hi].
        * exists (o :: cs). split.
          -- simpl buckets. rewrite Z.eqb_refl. exact Chain_o.
          -- destruct G as (vs&N&F). exists (v :: vs). split.
             ++ constructor; auto. intros Hi. clear N.
                assert (X : exists k, In k cs /\ member None h (bucket_of v) k v).
                { clear - F Hi. induction F; [contradiction|]. destruct Hi as [<-|Hi]; [exists x; simpl; auto|].
                  destruct (IHF Hi) as (k&K1&K2). exists k; simpl; auto. }
                destruct X as (k&K1&_&_&_&b&B1&B2). eapply Hnew; eauto.
             ++ constructor.
                ** repeat split; try apply Hv; try discriminate. exists nw; auto.
                ** destruct (GK (bucket_of v) cs Hnin) as (vs'&_&F'); [exists vs; auto|].
                   clear - F Mem Hnin. induction F; constructor; [apply Mem; auto; intros E; apply Hnin; left; auto|apply IHF; intros E; apply Hnin; right; auto].
        * destruct (s_chain _ _ S i) as (l&H1&H2). exists l. pose proof (NoCh i l H1) as Hl. split; [|apply GK; auto].
          simpl buckets. destruct (Z.eqb_spec i (bucket_of v)); [congruence|]. apply CK; auto.
      + intros x xb B. rewrite Us. destruct (Z.eq_dec x o) as [->|Hne].
        * rewrite Ho in B. injection B as <-. rewrite Uo. simpl. destruct (refers None o o nw) eqn:R; simpl; [|lia].
          unfold refers in R. simpl in R. destruct w as [[y|y|y|y]|]; try discriminate.
          apply andb_true_iff in R as [R _]. apply Z.eqb_eq in R. subst. destruct (Hlo o eq_refl); congruence.
        * rewrite Hk in B by auto. destruct (refers None x o nw) eqn:R.
          -- unfold refers in R. simpl in R. destruct w as [[y|y|y|y]|]; try discriminate.
             apply andb_true_iff in R as [R _]. apply Z.eqb_eq in R. subst. destruct (Hlo x eq_refl) as (_&xb'&B'&_&Hu). rewrite B in B'. injection B' as <-. lia.
          -- apply (s_ref _ _ S _ _ B).
      + intros o1 o2 b1 b2 c _ _ B1 B2 E1 E2. destruct (Z.eq_dec o1 o) as [->|N1], (Z.eq_dec o2 o) as [->|N2]; auto.
        * rewrite Ho in B1. injection B1 as <-. rewrite Hk in B2 by auto. exfalso. eapply Hsh; eauto.
        * rewrite Ho in B2. injection B2 as <-. rewrite Hk in B1 by auto. exfalso. eapply Hsh; eauto.
        * rewrite Hk in B1, B2 by auto. eapply (s_short _ _ S o1 o2); eauto; discriminate.
      + intros o1 b1 x xb B1 _ E B2. destruct (Z.eq_dec o1 o) as [->|N1].
        * rewrite Ho in B1. injection B1 as <-. simpl in E. destruct (Hlo x E) as (Hne&xb'&B'&Hx&_).
          rewrite Hk in B2 by auto. congruence.
        * rewrite Hk in B1 by auto. destruct (Z.eq_dec x o) as [->|N2].
          -- exfalso. assert (R : refers None o o1 b1 = true) by (unfold refers; rewrite E, Z.eqb_refl; auto).
             pose proof (users_in _ _ _ _ _ R B1). lia.
          -- rewrite Hk in B2 by auto. eapply (s_extra _ _ S o1); eauto; discriminate.
    - intros i cs' Hi H. simpl buckets. destruct (Z.eqb_spec i (bucket_of v)); [congruence|]. apply CK; auto. eapply NoCh; eauto.
  Qed.
End Sane.
