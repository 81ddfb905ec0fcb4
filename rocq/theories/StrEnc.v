(** Encoding keeps the string heap sane. *)
From Coq Require Import List ZArith Bool Lia.
From Verif Require Import StrModel StrSpec StrBase StrProof.
Import ListNotations.
Open Scope Z_scope.

(** What a word says. *)
Definition says (kb : option heap) (h : heap) (w : word) (v : value) : Prop :=
  match w with
  | WLong o => exists b, aget (longs h) o = Some b /\ holds kb h b v
  | KLong o => exists k b, kb = Some k /\ aget (longs k) o = Some b /\ holds None k b v
  | WShort c => exists s n, aget (shorts h) c = Some (s ++ repeat 0 (S n)) /\ c_string s /\ v = plain s /\ Z.of_nat (length s) < SHORTSTR_SIZE
  | KShort _ => False
  end.

Lemma says_keeps kb h h' w v : keeps h h' -> says kb h w v -> says kb h' w v.
Proof.
  intros K. destruct w; simpl; auto.
  - intros (s&n&A&B). exists s, n. split; auto. apply (proj2 K _ _ A).
  - intros (b&A&B). destruct (proj1 K _ _ A) as (b'&A'&S). exists b'. split; auto. eapply keeps_holds; eauto.
Qed.

Lemma cstr_zeros s n : c_string s -> cstr (s ++ repeat 0 (S n)) = s.
Proof. intros H. simpl. apply cstr_app; auto. Qed.

Section Enc.
  Variables nb knb : Z.
  Variable kb : option heap.
  Variable al : heap -> Z -> option Z.
  Variable ash : heap -> option Z.
  Hypothesis Hfresh : fresh_alloc al ash.
  Hypothesis Hkb : match kb with Some k => sane knb None None k | None => True end.
  Notation Sane := (sane nb kb None).
  Notation bucket := (bucket_of nb).

  Lemma decode_says h w v : valid v -> says kb h w v -> decode_cstr kb h w = Some (cstr (v_data v)).
  Proof.
    intros V. destruct w; simpl.
    - intros (s&n&A&B&->&_). rewrite A. unfold option_map. f_equal. rewrite cstr_app by auto. unfold plain, v_data. symmetry. apply cstr_app; auto.
    - intros (b&A&_&_&D&_). rewrite A, D. auto.
    - contradiction.
    - intros (k&b&->&A&_&_&D&_). rewrite A, D. auto.
  Qed.

  (** Everything kept exactly, but for the chains, which may grow at their heads. *)
  Definition grows (h h' : heap) : Prop :=
    (forall o b, aget (longs h) o = Some b -> aget (longs h') o = Some b) /\
    (forall c s, aget (shorts h) c = Some s -> aget (shorts h') c = Some s) /\
    (forall o b, aget (longs h') o = Some b -> aget (longs h) o = Some b \/ l_extra b = None) /\
    (forall i cs, chain h (buckets h i) cs -> exists cs', chain h' (buckets h' i) cs' /\ incl cs cs' /\
        forall x, In x cs' -> In x cs \/ aget (longs h) x = None).
  Lemma grows_refl h : grows h h.
  Proof. repeat split; auto. intros i cs H. exists cs. repeat split; auto using incl_refl. Qed.
  Lemma grows_keeps h h' : grows h h' -> keeps h h'.
  Proof. intros (A&B&_). split; auto. intros o b H. exists b. split; auto using shape_refl. Qed.

  Definition in_chain (h : heap) (i o : Z) : Prop := exists cs, chain h (buckets h i) cs /\ In o cs.

  Lemma kb_find v : valid v ->
    match kb with
    | None => True
    | Some k => match find_bucket (length (longs k)) None k (buckets k (hashsum (v_data v) (v_extra v) mod knb)) (v_data v) (v_extra v) (v_type v) with
                | FWild => False
                | FFound o => exists b, aget (longs k) o = Some b /\ holds None k b v
                | FNone => True
                end
    end.
  Proof.
    intros V. destruct kb as [k|]; auto. pose proof (find_sane knb None k v Hkb V) as F. unfold bucket_of in F.
    destruct (find_bucket _ _ _ _ _ _ _); auto. destruct F as [F _]; auto.
  Qed.

  Lemma chain_add h o nw c cs : aget (longs h) o = None -> chain h c cs -> chain (put_long h o nw) c cs.
  Proof.
    intros F H. eapply chain_same; [|exact H]. intros o' b' _ A. exists b'; split; auto.
    simpl. rewrite aget_aset_other; auto. congruence.
  Qed.
  Lemma not_in_chain h o nw : Sane h -> aget (longs h) o = None ->
    forall i cs, chain (put_long h o nw) (buckets h i) cs -> ~ In o cs.
  Proof.
    intros S F i cs H Hi. destruct (s_chain _ _ _ _ S i) as (cs'&H1&_).
    pose proof (chain_fun _ _ _ _ H (chain_add h o nw _ _ F H1)). subst.
    destruct (chain_alloc h cs' _ H1 o Hi). congruence.
  Qed.

  Lemma valid_noextra v : valid v -> valid {| v_type := v_type v; v_data := v_data v; v_extra := None |}.
  Proof. intros [A B]. split; auto. simpl. discriminate. Qed.

  (** Without an extra string. *)
  Lemma create_plain enc h v : Sane h -> valid v -> v_extra v = None ->
    match find_create nb knb kb al enc h (v_data v) (v_extra v) (v_type v) with
    | None => False
    | Some (h', ow) => Sane h' /\ grows h h' /\ shorts h' = shorts h /\
        (forall i, i <> bucket v -> buckets h' i = buckets h i) /\
        match ow with
        | None => h' = h
        | Some w => says kb h' w v /\ (forall o, w = WLong o -> in_chain h' (bucket v) o) /\ forall c, w <> WShort c /\ w <> KShort c
        end
    end.
  Proof.
    intros S V Hx. unfold find_create.
    pose proof (kb_find v V) as Fk.
    assert (Ek : exists r, (match kb with None => FNone | Some k => find_bucket (length (longs k)) None k (buckets k (hashsum (v_data v) (v_extra v) mod knb)) (v_data v) (v_extra v) (v_type v) end) = r /\
       match r with FWild => False | FNone => True | FFound o => says kb h (KLong o) v end).
    { eexists; split; [reflexivity|]. destruct kb as [k|]; auto. destruct (find_bucket _ _ _ _ _ _ _); auto.
      destruct Fk as (b&A&B). exists k, b. auto. }
    destruct Ek as (r&->&Hr). destruct r as [o| |]; [| |contradiction].
    { split; [auto|]. split; [apply grows_refl|]. split; [auto|]. split; [auto|]. split; [auto|]. split; [discriminate|split; discriminate]. }
    pose proof (find_sane nb kb h v S V) as F. unfold bucket_of in F. cbv zeta.
    destruct (find_bucket _ _ _ _ _ _ _) as [o| |]; [| |contradiction].
    { destruct F as [(b&A&B) F]. split; [auto|]. split; [apply grows_refl|]. split; [auto|]. split; [auto|]. split; [exists b; auto|].
      split; [|split; discriminate]. intros o' E. injection E as <-. destruct (s_chain _ _ _ _ S (bucket v)) as (cs&H1&_). exists cs. split; auto. }
    destruct (al h (objsize (Z.of_nat (length (v_data v))))) as [o|] eqn:Ea.
    2:{ split; [auto|]. split; [apply grows_refl|]. auto. }
    apply (proj1 Hfresh) in Ea. set (bk := hashsum (v_data v) (v_extra v) mod nb) in *. rewrite Hx.
    set (h1 := put_long h o (new_obj (v_data v) (v_type v) None None)).
    assert (S1 : Sane h1).
    { apply (sane_add nb kb h o v); auto. }
    destruct (s_chain _ _ _ _ S (bucket v)) as (cs&Hc&G).
    set (head := buckets h bk).
    assert (A1 : aget (longs h1) o = Some (new_obj (v_data v) (v_type v) None None)) by (simpl; apply aget_aset_same).
    pose proof (keeps_put h o (new_obj (v_data v) (v_type v) None None) Ea) as K1. fold h1 in K1.
    assert (Hnin : ~ In o cs). { intros Hi. destruct (chain_alloc h cs _ Hc o Hi). congruence. }
    assert (Hc1 : chain h1 head cs) by (apply chain_add; auto).
    destruct (sane_link nb kb h1 o v None head cs _ S1 V A1) as (L1&L2&L3&L4); auto.
    - intros i l Hl. apply (not_in_chain h o _ S Ea i l Hl).
    - rewrite Hx. auto.
    - eapply good_keeps; eauto.
    - intros x b Hi B. assert (x <> o) by congruence. assert (B0 : aget (longs h) x = Some b).
      { simpl in B. rewrite aget_aset_other in B; auto. }
      intros Hh. apply (F cs x b Hc Hi B0).
      destruct (good_in _ _ _ _ _ _ G x Hi) as (u&_&Vu&_&b'&B'&Hu). rewrite B0 in B'. injection B' as <-.
      pose proof (keeps_holds kb h h1 b b u K1 (shape_refl b) Hu) as Hu1.
      assert (u = v) by (apply (holds_fun kb h1 b); auto). subst; auto.
    - intros; discriminate.
    - intros; discriminate.
    - change (put_bucket (put_long h1 o (new_obj (v_data v) (v_type v) None head)) bk (Some o))
        with (link nb h1 o v None head). set (h2 := link nb h1 o v None head) in *.
      assert (Kx : forall k, k <> o -> aget (longs h2) k = aget (longs h) k).
      { intros k Hk. simpl. rewrite !aget_aset_other; auto. }
      split; [exact L1|]. split; [|split; [auto|split]].
      + split; [|split; [auto|split]].
        * intros k b B. rewrite Kx; auto. congruence.
        * intros k b B. destruct (Z.eq_dec k o) as [->|Hk]; [right|left; rewrite <- Kx; auto].
          simpl in B. rewrite aget_aset_same in B. injection B as <-. auto.
        * intros i l Hl. destruct (Z.eq_dec i (bucket v)) as [->|Hi].
          -- exists (o :: cs). rewrite (chain_fun _ _ _ _ Hl Hc). simpl buckets. rewrite Z.eqb_refl. split; [exact L2|].
             split; [apply incl_tl, incl_refl|]. intros x [<-|Hx']; auto.
          -- exists l. split; [|split; [apply incl_refl|auto]]. apply L4; auto. apply chain_add; auto.
      + intros i Hi. simpl. destruct (Z.eqb_spec i (bucket v)); [congruence|auto].
      + split; [|split; [|split; discriminate]].
        * exact L3.
        * intros o' E. injection E as <-. exists (o :: cs). simpl buckets. rewrite Z.eqb_refl. split; [exact L2|left; auto].
  Qed.

  Lemma sane_put_short h c s : Sane h -> aget (shorts h) c = None -> Sane (put_short h c s) /\ grows h (put_short h c s).
  Proof.
    intros S F. assert (G : grows h (put_short h c s)).
    { split; [auto|split; [|split; [auto|]]].
      - intros c' s' A. simpl. rewrite aget_aset_other; auto. congruence.
      - intros i cs H. exists cs. split; [|split; [apply incl_refl|auto]]. eapply chain_same; [|exact H]. eauto. }
    split; auto. pose proof (grows_keeps _ _ G) as K. split.
    - apply (s_nd _ _ _ _ S).
    - intros o b _ A. destruct (s_obj _ _ _ _ S o b ltac:(discriminate) A) as (v&V&H). exists v. split; auto.
      eapply keeps_holds; eauto using shape_refl.
    - intros i. destruct (s_chain _ _ _ _ S i) as (cs&H1&H2). exists cs. split; [|eapply good_keeps; eauto].
      eapply chain_same; [|exact H1]. eauto.
    - apply (s_ref _ _ _ _ S).
    - apply (s_short _ _ _ _ S).
    - apply (s_extra _ _ _ _ S).
  Qed.

  Lemma encode_short_ok h s : Sane h -> c_string s -> Z.of_nat (length s) < SHORTSTR_SIZE ->
    match encode_short ash h s with
    | None => False
    | Some (h', ow) => Sane h' /\ grows h h' /\ longs h' = longs h /\ buckets h' = buckets h /\
        match ow with
        | None => h' = h
        | Some w => says kb h' w (plain s) /\ exists c, w = WShort c /\ aget (shorts h) c = None
        end
    end.
  Proof.
    intros S Hs Hl. unfold encode_short. destruct (ash h) as [c|] eqn:E.
    2:{ split; [auto|]. split; [apply grows_refl|]. auto. }
    apply (proj2 Hfresh) in E. destruct (sane_put_short h c (s ++ repeat 0 (Z.to_nat (SHORTSTR_SIZE - Z.of_nat (length s)))) S E) as [S' G].
    split; [auto|]. split; [auto|]. split; [auto|]. split; [auto|]. split; [|eauto].
    assert (Hm : exists n, Z.to_nat (SHORTSTR_SIZE - Z.of_nat (length s)) = Datatypes.S n).
    { exists (Z.to_nat (SHORTSTR_SIZE - Z.of_nat (length s)) - 1)%nat. lia. }
    destruct Hm as (n&Hm). exists s, n. split; [|auto].
    rewrite Hm. unfold put_short. cbn [shorts]. apply aget_aset_same.
  Qed.

  Lemma valid_plain s : c_string s -> valid (plain s).
  Proof. intros H. split; [right; split; simpl; eauto|simpl; discriminate]. Qed.

  Lemma encode_plain_ok h s : Sane h -> c_string s ->
    match encode_plain nb knb kb al ash h s with
    | None => False
    | Some (h', ow) => Sane h' /\ grows h h' /\
        (forall i, SHORTSTR_SIZE <= Z.of_nat (length s) -> i <> bucket (plain s) -> buckets h' i = buckets h i) /\
        (Z.of_nat (length s) < SHORTSTR_SIZE -> buckets h' = buckets h) /\
        match ow with
        | None => True
        | Some w => says kb h' w (plain s) /\ (forall o, w = WLong o -> in_chain h' (bucket (plain s)) o) /\
                    (forall c, w = WShort c -> aget (shorts h) c = None)
        end
    end.
  Proof.
    intros S Hs. unfold encode_plain. destruct (Z.ltb_spec (Z.of_nat (length s)) SHORTSTR_SIZE) as [Hl|Hl].
    - pose proof (encode_short_ok h s S Hs Hl) as E. destruct (encode_short ash h s) as [[h' ow]|]; auto.
      destruct E as (A&B&C&D&E). split; [auto|]. split; [auto|]. split; [intros; lia|]. split; [auto|]. destruct ow as [w|]; auto.
      destruct E as (E&c&->&Ec). split; [auto|split]; [discriminate|congruence].
    - pose proof (create_plain (fun _ _ => None) h (plain s) S (valid_plain s Hs) eq_refl) as E.
      change (s ++ [0]) with (v_data (plain s)). change (@None bytes) with (v_extra (plain s)). change STR with (v_type (plain s)).
      destruct (find_create _ _ _ _ _ _ _ _ _) as [[h' ow]|]; auto.
      destruct E as (A&B&_&C&E). split; [auto|]. split; [auto|]. split; [auto|]. split; [intros; lia|].
      destruct ow as [w|]; auto. destruct E as (E1&E2&E3). split; [auto|split; [auto|]]. intros c ->. destruct (E3 c); congruence.
  Qed.

  (** Every cell that is an extra string in [h'] was one in [h] or is new. *)
  Definition cells (h h' : heap) : Prop :=
    forall o b c, aget (longs h') o = Some b -> l_extra b = Some (WShort c) ->
      aget (shorts h) c = None \/ exists b0, aget (longs h) o = Some b0 /\ l_extra b0 = Some (WShort c).
  Definition chains_kept (h h' : heap) : Prop :=
    forall i o, in_chain h i o -> in_chain h' i o.

  Lemma grows_in_chain h h' : Sane h -> grows h h' -> chains_kept h h'.
  Proof.
    intros S (_&_&_&G) i o (cs&H&Hi). destruct (G i cs H) as (cs'&H'&I&_). exists cs'. split; auto.
  Qed.

  Lemma create_extra h v e : Sane h -> valid v -> v_extra v = Some e ->
    match find_create nb knb kb al (fun h s => encode_plain nb knb kb al ash h (cstr s)) h (v_data v) (v_extra v) (v_type v) with
    | None => False
    | Some (h', ow) => Sane h' /\ keeps h h' /\ cells h h' /\ chains_kept h h' /\
        match ow with
        | None => True
        | Some w => says kb h' w v /\ (forall o, w = WLong o -> in_chain h' (bucket v) o) /\ forall c, w <> WShort c
        end
    end.
  Proof.
    intros S V Hx. unfold find_create.
    assert (Ce : c_string e) by (apply (proj2 V); auto).
    pose proof (kb_find v V) as Fk.
    assert (Ek : exists r, (match kb with None => FNone | Some k => find_bucket (length (longs k)) None k (buckets k (hashsum (v_data v) (v_extra v) mod knb)) (v_data v) (v_extra v) (v_type v) end) = r /\
       match r with FWild => False | FNone => True | FFound o => says kb h (KLong o) v end).
    { eexists; split; [reflexivity|]. destruct kb as [k|]; auto. destruct (find_bucket _ _ _ _ _ _ _); auto.
      destruct Fk as (b&A&B). exists k, b. auto. }
    assert (Crefl : cells h h) by (intros o b c A B; right; eauto).
    assert (Chrefl : chains_kept h h) by (intros i o X; exact X).
    destruct Ek as (r&->&Hr). destruct r as [o| |]; [| |contradiction].
    { split; [auto|]. split; [apply keeps_refl|]. split; [auto|]. split; [auto|]. split; [auto|]. split; discriminate. }
    pose proof (find_sane nb kb h v S V) as F. unfold bucket_of in F. cbv zeta.
    destruct (find_bucket _ _ _ _ _ _ _) as [o| |]; [| |contradiction].
    { destruct F as [(b&A&B) F]. split; [auto|]. split; [apply keeps_refl|]. split; [auto|]. split; [auto|]. split; [exists b; auto|].
      split; [|discriminate]. intros o' E. injection E as <-. destruct (s_chain _ _ _ _ S (bucket v)) as (cs&H1&_). exists cs. split; auto. }
    destruct (al h (objsize (Z.of_nat (length (v_data v))))) as [o|] eqn:Ea.
    2:{ split; [auto|]. split; [apply keeps_refl|]. auto. }
    apply (proj1 Hfresh) in Ea. set (bk := hashsum (v_data v) (v_extra v) mod nb) in *. rewrite Hx. rewrite (cstr_id e Ce).
    set (ob := new_obj (v_data v) (v_type v) None None).
    set (h1 := put_long h o ob).
    assert (S1 : Sane h1).
    { apply (sane_add nb kb h o {| v_type := v_type v; v_data := v_data v; v_extra := None |}); auto. apply valid_noextra; auto. }
    destruct (s_chain _ _ _ _ S (bucket v)) as (cs&Hc&G).
    set (head := buckets h bk).
    assert (A1 : aget (longs h1) o = Some ob) by (simpl; apply aget_aset_same).
    pose proof (keeps_put h o ob Ea) as K1. fold h1 in K1.
    assert (Hnin : ~ In o cs). { intros Hi. destruct (chain_alloc h cs _ Hc o Hi). congruence. }
    assert (Hc1 : chain h1 head cs) by (apply chain_add; auto).
    assert (C1 : cells h h1).
    { intros k b c A B. simpl in A. rewrite aget_aset in A. destruct (Z.eqb_spec o k); [injection A as <-; discriminate|].
      right; eauto. }
    pose proof (encode_plain_ok h1 e S1 Ce) as E.
    destruct (encode_plain nb knb kb al ash h1 e) as [[h2 ow]|]; [|contradiction].
    destruct E as (S2&G2&B2&B2s&E2). pose proof (grows_keeps _ _ G2) as K2. pose proof (keeps_trans _ _ _ K1 K2) as K12.
    assert (Ch1 : chains_kept h h1).
    { intros i k (l&Hl&Hi). exists l. split; auto. apply chain_add; auto. }
    assert (C2 : forall k b c, aget (longs h2) k = Some b -> l_extra b = Some (WShort c) ->
       aget (shorts h) c = None \/ exists b0, aget (longs h) k = Some b0 /\ l_extra b0 = Some (WShort c)).
    { intros k b c A B. destruct (proj1 (proj2 (proj2 G2)) k b A) as [A'|A']; [|congruence]. eapply C1; eauto. }
    destruct ow as [w|].
    2:{ split; [auto|]. split; [auto|]. split; [exact C2|]. split; [|auto]. intros i k Hk. apply (grows_in_chain h1 h2 S1 G2). auto. }
    destruct E2 as (Sy&Inw&Shw).
    assert (No2 : forall i k, in_chain h2 i k -> k <> o).
    { intros i k (l&Hl&Hi) ->. destruct (s_chain _ _ _ _ S1 i) as (l1&Hl1&_). destruct (proj2 (proj2 (proj2 G2)) i l1 Hl1) as (l'&Hl'&_&Hn).
      rewrite (chain_fun _ _ _ _ Hl Hl') in Hi. destruct (Hn o Hi) as [X|X]; [|congruence].
      apply (not_in_chain h o ob S Ea i l1 Hl1 X). }
    assert (H3 : exists h3, (match w with
                           | WLong x => match aget (longs h2) x with
                                        | Some xb => Some (put_long h2 x (with_ref xb (l_ref xb + 1)))
                                        | None => None
                                        end
                           | _ => Some h2
                           end) = Some h3 /\ Sane h3 /\ keeps h2 h3 /\ shorts h3 = shorts h2 /\ aget (longs h3) o = Some ob /\
              (forall i l, chain h2 (buckets h2 i) l -> chain h3 (buckets h3 i) l) /\ chain h3 head cs /\
              (forall k b, aget (longs h3) k = Some b -> exists b2, aget (longs h2) k = Some b2 /\ shape b2 b) /\
              (forall x, w = WLong x -> x <> o /\ exists xb, aget (longs h3) x = Some xb /\ (l_extra xb = None /\ ltype xb = STR) /\
                  Z.of_nat (users None h3 x) + 1 <= l_ref xb)).
    { assert (A2 : aget (longs h2) o = Some ob) by (apply (proj1 G2); auto).
      assert (Hc2 : chain h2 head cs).
      { eapply chain_same; [|exact Hc1]. intros k b _ B. exists b. split; auto. apply (proj1 G2); auto. }
      assert (Gen : (forall x, w <> WLong x) -> Sane h2 /\ keeps h2 h2 /\ shorts h2 = shorts h2 /\ aget (longs h2) o = Some ob /\
              (forall i l, chain h2 (buckets h2 i) l -> chain h2 (buckets h2 i) l) /\ chain h2 head cs /\
              (forall k b, aget (longs h2) k = Some b -> exists b2, aget (longs h2) k = Some b2 /\ shape b2 b) /\
              (forall x, w = WLong x -> x <> o /\ exists xb, aget (longs h2) x = Some xb /\ (l_extra xb = None /\ ltype xb = STR) /\
                  Z.of_nat (users None h2 x) + 1 <= l_ref xb)).
      { intros Nw. split; [auto|]. split; [apply keeps_refl|]. split; [auto|]. split; [auto|]. split; [auto|]. split; [auto|].
        split; [|intros x ->; destruct (Nw x); auto]. intros k b B. exists b. split; [auto|apply shape_refl]. }
      destruct w as [c|x|c|c]; try (exists h2; split; [reflexivity|apply Gen; discriminate]). clear Gen.
      destruct Sy as (xb&Ax&Hxb). rewrite Ax. eexists; split; [reflexivity|].
      assert (Hxo : x <> o) by (apply (No2 (bucket (plain e))), Inw; auto).
      pose proof (keeps_ref h2 x xb (l_ref xb + 1) Ax) as K3.
      assert (Hchain : forall c l, chain h2 c l -> chain (put_long h2 x (with_ref xb (l_ref xb + 1))) c l).
      { intros c l Hl. eapply chain_same; [|exact Hl]. intros k b _ B. destruct (put_same h2 x xb (l_ref xb + 1) k b Ax B) as (b'&X&_&Y). eauto. }
      split; [apply sane_ref; auto; pose proof (s_ref _ _ _ _ S2 _ _ Ax); lia|]. split; [exact K3|]. split; [auto|].
      split; [simpl; rewrite aget_aset_other; auto|]. split; [intros i l; apply Hchain|]. split; [auto|]. split.
      - intros k b B. destruct (put_back _ _ _ _ _ _ Ax B) as (b0&B0&Sh&_). eauto.
      - intros y E. injection E as <-. split; [auto|]. exists (with_ref xb (l_ref xb + 1)). split; [simpl; apply aget_aset_same|].
        pose proof (holds_type kb h2 xb (plain e) (valid_plain e Ce) Hxb) as Ty.
        destruct Hxb as (_&_&_&He). simpl in He. split; [split; [simpl; destruct (l_extra xb); [contradiction|auto]|exact Ty]|].
        rewrite users_ref by auto. simpl. pose proof (s_ref _ _ _ _ S2 _ _ Ax). lia. }
    destruct H3 as (h3&->&S3&K3&Sh3&A3&Ch3&Hc3&Bk3&Lo3).
    pose proof (keeps_trans _ _ _ K12 K3) as K13.
    assert (Sy3 : says kb h3 w (plain e)) by (apply (says_keeps kb h2 h3); auto).
    destruct (sane_link nb kb h3 o v (Some w) head cs ob S3 V A3) as (L1&L2&L3&L4); auto.
    - intros i l Hl Hi. destruct (s_chain _ _ _ _ S2 i) as (l2&Hl2&_). rewrite (chain_fun _ _ _ _ Hl (Ch3 i l2 Hl2)) in Hi.
      apply (No2 i o); auto. exists l2. auto.
    - rewrite Hx. rewrite (decode_says h3 w (plain e)); auto using valid_plain. simpl. rewrite cstr_app; auto.
    - eapply good_keeps; eauto.
    - intros x b Hi B Hh. destruct (good_in _ _ _ _ _ _ G x Hi) as (u&_&Vu&_&b'&B'&Hu).
      destruct (proj1 K13 _ _ B') as (b2&B2'&Sb). rewrite B in B2'. injection B2' as <-.
      pose proof (keeps_holds kb h h3 b' b u K13 Sb Hu) as Hu1.
      assert (u = v) by (apply (holds_fun kb h3 b); auto). subst. apply (F cs x b' Hc Hi B' Hu).
    - intros c k b E B Eb. injection E as ->. destruct (Bk3 k b B) as (b2&B2'&(_&_&Xe&_)).
      pose proof (Shw c eq_refl) as Fc. destruct (C2 k b2 c B2' ltac:(congruence)) as [_|(b0&B0&Eb0)].
      + destruct (proj1 (proj2 (proj2 G2)) k b2 B2') as [Y|Y]; [|congruence].
        apply (extra_short nb kb None h1 k b2 c S1 ltac:(discriminate) Y ltac:(congruence)). auto.
      + apply (extra_short nb kb None h k b0 c S ltac:(discriminate) B0 Eb0). auto.
    - intros x E. injection E as ->. apply Lo3; auto.
    - change (put_bucket (put_long h3 o (new_obj (v_data v) (v_type v) (Some w) head)) bk (Some o))
        with (link nb h3 o v (Some w) head). set (h4 := link nb h3 o v (Some w) head) in *.
      assert (Kx : forall k, k <> o -> aget (longs h4) k = aget (longs h3) k).
      { intros k Hk. simpl. rewrite aget_aset_other; auto. }
      assert (C4 : cells h h4).
      { intros k b c B Eb. destruct (Z.eq_dec k o) as [->|Hk].
        - simpl in B. rewrite aget_aset_same in B. injection B as <-. simpl in Eb. injection Eb as ->. left. apply Shw; auto.
        - rewrite Kx in B by auto. destruct (Bk3 k b B) as (b2&B2'&(_&_&Xe&_)). apply (C2 k b2 c B2'). congruence. }
      split; [exact L1|]. split; [|split; [exact C4|split]].
      + split.
        * intros k b B. rewrite Kx by congruence. apply (proj1 K13 _ _ B).
        * intros c s B. simpl. apply (proj2 K13 _ _ B).
      + intros i k (l&Hl&Hi). destruct (Z.eq_dec i (bucket v)) as [->|Hib].
        * exists (o :: cs). simpl buckets. rewrite Z.eqb_refl. split; [exact L2|]. rewrite (chain_fun _ _ _ _ Hl Hc) in Hi. right; auto.
        * destruct (proj2 (proj2 (proj2 G2)) i l) as (l2&Hl2&Il&_); [apply chain_add; auto|].
          exists l2. split; [|apply Il; auto]. apply L4; auto.
      + split; [exact L3|split; [|discriminate]]. intros o' E. injection E as <-. exists (o :: cs).
        simpl buckets. rewrite Z.eqb_refl. split; [exact L2|left; auto].
  Qed.

  Lemma encode_ok h v : Sane h -> valid v ->
    match encode nb knb kb al ash h (v_type v) (v_data v) (v_extra v) with
    | None => False
    | Some (h', ow) => Sane h' /\ keeps h h' /\ cells h h' /\ chains_kept h h' /\
        match ow with
        | None => True
        | Some w => says kb h' w v /\ (forall o, w = WLong o -> in_chain h' (bucket v) o) /\
                    (forall c, w = WShort c -> aget (shorts h) c = None /\ is_short v /\ longs h' = longs h)
        end
    end.
  Proof.
    intros S V. unfold encode. destruct (v_extra v) as [e|] eqn:Hx.
    - pose proof (create_extra h v e S V Hx) as E. rewrite Hx in E.
      destruct (find_create _ _ _ _ _ _ _ _ _) as [[h' ow]|]; auto. destruct E as (A&B&C&D&E). split; [auto|]. split; [auto|].
      split; [auto|]. split; [auto|]. destruct ow as [w|]; auto. destruct E as (E1&E2&E3). split; [auto|]. split; [auto|].
      intros c Ec. destruct (E3 c Ec).
    - destruct ((v_type v =? STR) && (Z.of_nat (length (v_data v)) - 1 <? SHORTSTR_SIZE)) eqn:Es.
      + apply andb_true_iff in Es as [Et Es]. apply Z.eqb_eq in Et. apply Z.ltb_lt in Es.
        assert (Ev : exists s, c_string s /\ v = plain s).
        { destruct V as [[V|(_&s&Cs&Hd)] _]; [rewrite Et in V; discriminate|]. exists s. split; auto. destruct v; simpl in *; subst; auto. }
        destruct Ev as (s&Cs&->). cbn [v_data plain] in *. rewrite app_length in Es. simpl length in Es. rewrite cstr_app by auto.
        assert (Hl : Z.of_nat (length s) < SHORTSTR_SIZE) by lia.
        pose proof (encode_short_ok h s S Cs Hl) as E. destruct (encode_short ash h s) as [[h' ow]|]; auto.
        destruct E as (A&B&C&D&E). split; [auto|]. split; [apply grows_keeps; auto|]. split; [|split; [apply grows_in_chain; auto|]].
        * intros o b c H1 H2. rewrite C in H1. right; eauto.
        * destruct ow as [w|]; auto. destruct E as (E&c&->&Ec). split; [auto|]. split; [discriminate|]. intros c' X. injection X as <-.
          split; auto. split; [|auto]. split; [auto|split; [auto|]]. cbn [v_data plain]. rewrite app_length. simpl length. lia.
      + pose proof (create_plain (fun _ _ => None) h v S V Hx) as E. rewrite Hx in E.
        destruct (find_create _ _ _ _ _ _ _ _ _) as [[h' ow]|]; auto. destruct E as (A&B&C&D&E). split; [auto|].
        split; [apply grows_keeps; auto|]. split; [|split; [apply grows_in_chain; auto|]].
        * intros o b c H1 H2. destruct (proj1 (proj2 (proj2 B)) o b H1); [right; eauto|congruence].
        * destruct ow as [w|]; auto. destruct E as (E1&E2&E3). split; [auto|]. split; [auto|]. intros c ->. destruct (E3 c); congruence.
  Qed.
End Enc.
