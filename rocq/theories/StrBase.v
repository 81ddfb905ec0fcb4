(** Lemmas on the heap, on chains and on reading, for StrProof. *)
From Coq Require Import List ZArith Bool Lia.
From Verif Require Import StrModel StrSpec.
Import ListNotations.
Open Scope Z_scope.

Section Assoc.
  Context {A : Type}.
  Implicit Type l : list (Z * A).
  Lemma aget_aset_same l o a : aget (aset l o a) o = Some a.
  Proof.
    induction l as [|[k b] l IH]; simpl; [rewrite Z.eqb_refl; auto|].
    destruct (k =? o) eqn:E; simpl; [rewrite Z.eqb_refl; auto|rewrite E; auto].
  Qed.
  Lemma aget_aset_other l o o' a : o <> o' -> aget (aset l o a) o' = aget l o'.
  Proof.
    intros H. induction l as [|[k b] l IH]; simpl.
    - destruct (Z.eqb_spec o o'); [congruence|auto].
    - destruct (Z.eqb_spec k o); simpl.
      + subst. destruct (Z.eqb_spec o o'); [congruence|auto].
      + destruct (k =? o'); auto.
  Qed.
  Lemma aget_aset l o o' a : aget (aset l o a) o' = if o =? o' then Some a else aget l o'.
  Proof.
    destruct (Z.eqb_spec o o'); [subst; apply aget_aset_same|apply aget_aset_other; auto].
  Qed.
  Lemma aget_adel l o o' : aget (adel l o) o' = if o =? o' then None else aget l o'.
  Proof.
    induction l as [|[k b] l IH]; simpl; [destruct (o =? o'); auto|].
    destruct (Z.eqb_spec k o); simpl.
    - subst. rewrite IH. destruct (Z.eqb_spec o o'); auto.
    - rewrite IH. destruct (Z.eqb_spec k o'); auto. subst. destruct (Z.eqb_spec o o'); [congruence|auto].
  Qed.
  Lemma aget_in l o a : aget l o = Some a -> In (o, a) l.
  Proof.
    induction l as [|[k b] l IH]; simpl; [discriminate|]. destruct (Z.eqb_spec k o); [|auto].
    intros E; injection E as ->. subst. auto.
  Qed.
  Lemma aget_key l o a : aget l o = Some a -> In o (map fst l).
  Proof. intros H. apply aget_in in H. apply in_map_iff. exists (o, a); auto. Qed.
  Lemma in_aget l o a : NoDup (map fst l) -> In (o, a) l -> aget l o = Some a.
  Proof.
    induction l as [|[k b] l IH]; simpl; [contradiction|]. intros Hn H. inversion Hn as [|? ? N1 N2]; subst.
    destruct (Z.eqb_spec k o).
    - subst. destruct H as [H|H]; [congruence|]. exfalso. apply N1. apply in_map_iff. exists (o, a); auto.
    - destruct H as [H|H]; [congruence|auto].
  Qed.
  Lemma keys_aset l o a k : In k (map fst (aset l o a)) <-> k = o \/ In k (map fst l).
  Proof.
    induction l as [|[j b] l IH]; simpl; [intuition|]. destruct (Z.eqb_spec j o); simpl; [subst; intuition|].
    rewrite IH. intuition.
  Qed.
  Lemma nd_aset l o a : NoDup (map fst l) -> NoDup (map fst (aset l o a)).
  Proof.
    induction l as [|[j b] l IH]; simpl; intros Hn; [constructor; auto|]. inversion Hn as [|? ? N1 N2]; subst.
    destruct (Z.eqb_spec j o); simpl; [subst; constructor; auto|]. constructor; auto.
    rewrite keys_aset. intuition.
  Qed.
  Lemma nd_adel l o : NoDup (map fst l) -> NoDup (map fst (adel l o)).
  Proof.
    induction l as [|[j b] l IH]; simpl; intros Hn; [constructor|]. inversion Hn as [|? ? N1 N2]; subst.
    destruct (negb (j =? o)); simpl; auto. constructor; auto. intros H. apply N1.
    apply in_map_iff in H as ([k c]&E&H). apply filter_In in H as [H _]. simpl in E. subst.
    apply in_map_iff. exists (j, c); auto.
  Qed.
  Lemma aset_aset l o a b : aset (aset l o a) o b = aset l o b.
  Proof.
    induction l as [|[j c] l IH]; simpl; [rewrite Z.eqb_refl; auto|].
    destruct (j =? o) eqn:E; simpl; [rewrite Z.eqb_refl; auto|rewrite E, IH; auto].
  Qed.
  Lemma aset_id l o a : aget l o = Some a -> aset l o a = l.
  Proof.
    induction l as [|[j c] l IH]; simpl; [discriminate|]. destruct (Z.eqb_spec j o).
    - intros E; injection E as ->. subst. auto.
    - intros H. rewrite IH; auto.
  Qed.
  Lemma aset_length l o a : NoDup (map fst l) -> aget l o <> None -> length (aset l o a) = length l.
  Proof.
    induction l as [|[j c] l IH]; simpl; [congruence|]. intros Hn H. inversion Hn; subst. destruct (j =? o); simpl; auto.
  Qed.

  (** Counting the entries of a kind. *)
  Variable f : Z -> A -> bool.
  Definition cnt l : nat := length (filter (fun p => f (fst p) (snd p)) l).
  Lemma cnt_cons o a l : cnt ((o, a) :: l) = ((if f o a then 1 else 0) + cnt l)%nat.
  Proof. unfold cnt. simpl. destruct (f o a); auto. Qed.
  Lemma cnt_aset_new l o a : aget l o = None -> cnt (aset l o a) = ((if f o a then 1 else 0) + cnt l)%nat.
  Proof.
    induction l as [|[j c] l IH]; simpl; intros H; [rewrite cnt_cons; auto|].
    destruct (j =? o); [discriminate|]. rewrite !cnt_cons, IH; auto. lia.
  Qed.
  Lemma cnt_aset_old l o a b : aget l o = Some b ->
    (cnt (aset l o a) + (if f o b then 1 else 0) = (if f o a then 1 else 0) + cnt l)%nat.
  Proof.
    induction l as [|[j c] l IH]; simpl; intros H; [discriminate|].
    destruct (Z.eqb_spec j o).
    - injection H as ->. subst. rewrite !cnt_cons. lia.
    - rewrite !cnt_cons. specialize (IH H). lia.
  Qed.
  Lemma cnt_adel l o : (cnt (adel l o) <= cnt l)%nat.
  Proof.
    induction l as [|[j c] l IH]; simpl; [auto|]. destruct (negb (j =? o)); rewrite !cnt_cons; lia.
  Qed.
  Lemma cnt_zero l o a : cnt l = 0%nat -> aget l o = Some a -> f o a = false.
  Proof.
    induction l as [|[j c] l IH]; simpl; [discriminate|]. rewrite cnt_cons. intros H E.
    destruct (Z.eqb_spec j o); [|apply IH; auto; lia]. injection E as ->. subst. destruct (f o a); [simpl in H; lia|auto].
  Qed.
  Lemma cnt_le1 l o a o' a' : (cnt l <= 1)%nat -> aget l o = Some a -> aget l o' = Some a' -> f o a = true -> f o' a' = true -> o = o'.
  Proof.
    induction l as [|[j c] l IH]; simpl; [discriminate|]. rewrite cnt_cons. intros H E E' F F'.
    destruct (Z.eqb_spec j o); destruct (Z.eqb_spec j o').
    - congruence.
    - injection E as ->. subst j. rewrite F in H. exfalso.
      assert (Hz : cnt l = 0%nat) by lia. pose proof (cnt_zero l o' a' Hz E'). congruence.
    - injection E' as ->. subst j. rewrite F' in H. exfalso.
      assert (Hz : cnt l = 0%nat) by lia. pose proof (cnt_zero l o a Hz E). congruence.
    - apply IH; auto. lia.
  Qed.
End Assoc.

Lemma cnt_ext {A} (f g : Z -> A -> bool) l : (forall o a, In (o, a) l -> f o a = g o a) -> cnt f l = cnt g l.
Proof.
  induction l as [|[j c] l IH]; intros H; auto. rewrite !cnt_cons, IH by (intros; apply H; simpl; auto).
  rewrite (H j c) by (simpl; auto). auto.
Qed.

(** ** Bytes *)
Lemma beqb_spec x : forall y, beqb x y = true <-> x = y.
Proof.
  induction x as [|a x IH]; intros [|b y]; simpl; try (split; [discriminate|congruence]); [tauto|].
  rewrite andb_true_iff, Z.eqb_eq, IH. split; [intros [-> ->]; auto|intros E; injection E; auto].
Qed.
Lemma cstr_app s t : c_string s -> cstr (s ++ 0 :: t) = s.
Proof.
  unfold c_string. induction s as [|a s IH]; simpl; intros H; auto.
  destruct (Z.eqb_spec a 0); [exfalso; apply H; auto|]. rewrite IH; auto.
Qed.
Lemma cstr_id s : c_string s -> cstr s = s.
Proof.
  unfold c_string. induction s as [|a s IH]; simpl; intros H; auto.
  destruct (Z.eqb_spec a 0); [exfalso; apply H; auto|]. rewrite IH; auto.
Qed.
Lemma cstr_clean l : c_string (cstr l).
Proof.
  unfold c_string. induction l as [|a l IH]; simpl; auto. destruct (Z.eqb_spec a 0); simpl; intuition.
Qed.

(** ** The meta word *)
Lemma objsize_bounds n : 0 <= n -> 104 <= objsize n - n <= 111.
Proof.
  intros H. unfold objsize. pose proof (Z.div_mod n 8 ltac:(lia)). pose proof (Z.mod_pos_bound n 8 ltac:(lia)).
  destruct (Z.eqb_spec (n mod 8) 0); lia.
Qed.
Lemma meta_sum d t : 0 <= d -> 0 <= t < 256 -> Z.lor (Z.shiftl d 8) t = d * 256 + t.
Proof.
  intros Hd Ht. rewrite Z.shiftl_mul_pow2 by lia. change (2 ^ 8) with 256.
  rewrite <- Z.lxor_lor; [rewrite <- Z.add_nocarry_lxor; auto|];
    apply Z.bits_inj'; intros i Hi; rewrite Z.land_spec, Z.bits_0;
    change 256 with (2 ^ 8); rewrite Z.mul_pow2_bits by lia;
    (destruct (Z.ltb_spec i 8); [rewrite Z.testbit_neg_r by lia; auto|]);
    replace t with (t mod 2 ^ 8) by (apply Z.mod_small; lia); rewrite Z.mod_pow2_bits_high by lia; apply andb_false_r.
Qed.
Lemma meta_type d t : 0 <= d -> 0 <= t < 256 -> Z.land (Z.lor (Z.shiftl d 8) t) 255 = t.
Proof.
  intros. rewrite meta_sum by auto. change 255 with (Z.ones 8). rewrite Z.land_ones by lia.
  change (2 ^ 8) with 256. rewrite Z.add_comm, Z.mod_add by lia. apply Z.mod_small. lia.
Qed.
Lemma meta_dif d t : 0 <= d < 256 -> 0 <= t < 256 -> Z.shiftr (Z.land (Z.lor (Z.shiftl d 8) t) 65280) 8 = d.
Proof.
  intros. rewrite meta_sum by lia. rewrite Z.shiftr_land. change (Z.shiftr 65280 8) with (Z.ones 8).
  rewrite Z.land_ones, Z.shiftr_div_pow2 by lia. change (2 ^ 8) with 256.
  rewrite Z.div_add_l by lia. rewrite (Z.div_small t) by lia. rewrite Z.add_0_r. apply Z.mod_small. lia.
Qed.

Lemma valid_type v : valid v -> 0 <= v_type v < 256.
Proof. intros [[H|[[H|[H|H]] _]] _]; rewrite H; unfold BLOB, STR, XML, URI; lia. Qed.

(** ** What an object says *)
Definition holds (kb : option heap) (h : heap) (b : lobj) (v : value) : Prop :=
  l_size b = objsize (Z.of_nat (length (v_data v))) /\
  l_meta b = Z.lor (Z.shiftl (objsize (Z.of_nat (length (v_data v))) - Z.of_nat (length (v_data v))) 8) (v_type v) /\
  l_data b = v_data v /\
  match l_extra b, v_extra v with
  | None, None => True
  | Some w, Some e => decode_cstr kb h w = Some e
  | _, _ => False
  end.

Lemma holds_type kb h b v : valid v -> holds kb h b v -> ltype b = v_type v.
Proof.
  intros Hv (_&Hm&_). unfold ltype. rewrite Hm. apply meta_type; [|apply valid_type; auto].
  pose proof (objsize_bounds (Z.of_nat (length (v_data v))) ltac:(lia)). lia.
Qed.
Lemma holds_size kb h b v : valid v -> holds kb h b v -> strsize b = Z.of_nat (length (v_data v)).
Proof.
  intros Hv (Hs&Hm&_). unfold strsize. rewrite Hm, Hs, meta_dif; [lia| |apply valid_type; auto].
  pose proof (objsize_bounds (Z.of_nat (length (v_data v))) ltac:(lia)). lia.
Qed.
Lemma holds_fun kb h b v v' : valid v -> valid v' -> holds kb h b v -> holds kb h b v' -> v = v'.
Proof.
  intros Hv Hv' H H'. pose proof (holds_type _ _ _ _ Hv H). pose proof (holds_type _ _ _ _ Hv' H').
  destruct H as (_&_&D&E), H' as (_&_&D'&E'). destruct v as [t d x], v' as [t' d' x']; simpl in *.
  assert (t = t') by congruence. assert (d = d') by congruence. assert (x = x'); [|subst; auto].
  destruct (l_extra b), x, x'; try contradiction; auto. congruence.
Qed.

(** Same but for the reference count and the chain. *)
Definition shape (b b' : lobj) : Prop :=
  l_size b = l_size b' /\ l_meta b = l_meta b' /\ l_extra b = l_extra b' /\ l_data b = l_data b'.
Lemma shape_refl b : shape b b. Proof. repeat split. Qed.
Lemma shape_sym b c : shape b c -> shape c b. Proof. intros (A&B&C&D); repeat split; auto. Qed.
Lemma shape_trans a b c : shape a b -> shape b c -> shape a c.
Proof. intros (A&B&C&D) (A'&B'&C'&D'); repeat split; congruence. Qed.
Lemma shape_ref b n : shape b (with_ref b n). Proof. repeat split. Qed.
Lemma shape_chain b c : shape b (with_chain b c). Proof. repeat split. Qed.

(** Everything in [h] is still in [h']. *)
Definition keeps (h h' : heap) : Prop :=
  (forall o b, aget (longs h) o = Some b -> exists b', aget (longs h') o = Some b' /\ shape b b') /\
  (forall o s, aget (shorts h) o = Some s -> aget (shorts h') o = Some s).
Lemma keeps_refl h : keeps h h.
Proof. split; auto. intros o b H. exists b; split; auto; apply shape_refl. Qed.
Lemma keeps_trans a b c : keeps a b -> keeps b c -> keeps a c.
Proof.
  intros [A1 A2] [B1 B2]. split; auto. intros o x H. destruct (A1 o x H) as (y&Hy&S). destruct (B1 o y Hy) as (z&Hz&S').
  exists z; split; auto. eapply shape_trans; eauto.
Qed.
Lemma keeps_cstr kb h h' w s : keeps h h' -> decode_cstr kb h w = Some s -> decode_cstr kb h' w = Some s.
Proof.
  intros [A B]. destruct w; simpl; auto.
  - destruct (aget (shorts h) o) eqn:E; simpl; [|discriminate]. rewrite (B _ _ E). auto.
  - destruct (aget (longs h) o) as [b|] eqn:E; [|discriminate]. destruct (A _ _ E) as (b'&E'&_&_&_&D). rewrite E'.
    rewrite D. auto.
Qed.
Lemma keeps_holds kb h h' b b' v : keeps h h' -> shape b b' -> holds kb h b v -> holds kb h' b' v.
Proof.
  intros K (S1&S2&S3&S4) (A&B&C&D). repeat split; try congruence. rewrite <- S3.
  destruct (l_extra b), (v_extra v); auto. eapply keeps_cstr; eauto.
Qed.

(** ** Chains *)
Fixpoint chain (h : heap) (c : option Z) (cs : list Z) : Prop :=
  match cs with
  | [] => c = None
  | o :: cs' => c = Some o /\ exists b, aget (longs h) o = Some b /\ chain h (l_chain b) cs'
  end.
Lemma chain_fun h : forall cs c cs', chain h c cs -> chain h c cs' -> cs = cs'.
Proof.
  induction cs as [|o cs IH]; intros c [|o' cs']; simpl; auto.
  - intros -> [E _]. discriminate.
  - intros [E _] ->. discriminate.
  - intros [-> (b&A&B)] [E (b'&A'&B')]. injection E as ->. rewrite A in A'. injection A' as <-.
    f_equal. eauto.
Qed.
Lemma chain_alloc h : forall cs c, chain h c cs -> forall o, In o cs -> exists b, aget (longs h) o = Some b.
Proof.
  induction cs as [|o cs IH]; intros c H x Hx; [contradiction|]. destruct H as [-> (b&A&B)].
  destruct Hx as [<-|Hx]; [eauto|eapply IH; eauto].
Qed.
Lemma chain_length h cs c : chain h c cs -> NoDup cs -> (length cs <= length (longs h))%nat.
Proof.
  intros H Hn. rewrite <- (map_length fst (longs h)). apply NoDup_incl_length; auto.
  intros o Ho. destruct (chain_alloc h cs c H o Ho) as (b&Hb). eapply aget_key; eauto.
Qed.
(** A chain only depends on the chain fields of its members. *)
Lemma chain_same h h' : forall cs c,
  (forall o b, In o cs -> aget (longs h) o = Some b -> exists b', aget (longs h') o = Some b' /\ l_chain b' = l_chain b) ->
  chain h c cs -> chain h' c cs.
Proof.
  induction cs as [|o cs IH]; intros c H; simpl; auto. intros [-> (b&A&B)]. split; auto.
  destruct (H o b (or_introl eq_refl) A) as (b'&A'&E). exists b'. split; auto. rewrite E. apply IH; auto.
  intros; apply H; simpl; auto.
Qed.

(** ** Looking up *)
Lemma right_bucket_ok kb h o b u v : aget (longs h) o = Some b -> valid u -> valid v -> holds kb h b u ->
  exists r, right_bucket kb h o (v_data v) (v_extra v) (v_type v) = Some r /\ (r = true <-> u = v).
Proof.
  intros A Hu Hv H. unfold right_bucket, decode_type, decode_len, decode_lang, long_at. rewrite A.
  rewrite (holds_type _ _ _ _ Hu H), (holds_size _ _ _ _ Hu H).
  destruct H as (_&_&D&E).
  assert (L : exists lang, (match l_extra b with None => Some None | Some e => option_map Some (decode_cstr kb h e) end) = Some lang /\ lang = v_extra u).
  { destruct (l_extra b) as [w|], (v_extra u) as [e|]; try contradiction; [rewrite E|]; simpl; eauto. }
  destruct L as (lang&L&->). rewrite L.
  destruct u as [t d x], v as [t' d' x']; simpl in *.
  destruct (Z.eqb_spec t t'); simpl; [|eexists; split; [reflexivity|split; [discriminate|congruence]]].
  destruct (Z.eqb_spec (Z.of_nat (length d) - 1 + 1) (Z.of_nat (length d'))) as [El|El]; simpl.
  2:{ eexists; split; [reflexivity|split; [discriminate|]]. intros X; injection X as -> -> ->. lia. }
  rewrite D. assert (Hl : length d = length d') by lia. rewrite <- Hl, firstn_all.
  destruct (beqb d d') eqn:Eb; simpl.
  2:{ eexists; split; [reflexivity|split; [discriminate|]]. intros X; injection X as -> -> ->.
      assert (beqb d' d' = true) by (apply beqb_spec; auto). congruence. }
  apply beqb_spec in Eb. subst.
  destruct x as [e|], x' as [e'|]; eexists; (split; [reflexivity|]); try (split; [discriminate|congruence]); [|tauto].
  assert (Hc : cstr e' = e') by (apply cstr_id; apply (proj2 Hv); auto).
  rewrite Hc, beqb_spec. split; [intros ->; auto|congruence].
Qed.

Lemma find_ok kb h v : valid v -> forall n cs c, chain h c cs -> (length cs <= n)%nat ->
  (forall o, In o cs -> exists b u, aget (longs h) o = Some b /\ valid u /\ holds kb h b u) ->
  match find_bucket n kb h c (v_data v) (v_extra v) (v_type v) with
  | FWild => False
  | FFound o => In o cs /\ exists b, aget (longs h) o = Some b /\ holds kb h b v
  | FNone => forall o b, In o cs -> aget (longs h) o = Some b -> ~ holds kb h b v
  end.
Proof.
  intros Hv. induction n as [|n IH]; intros cs c Hc Hl Ho.
  - destruct cs; [|simpl in Hl; lia]. simpl in Hc. subst c. simpl. intros; contradiction.
  - destruct cs as [|o cs]; [simpl in Hc; subst c; simpl; intros; contradiction|].
    destruct Hc as [-> (b&A&B)]. cbn [find_bucket].
    destruct (Ho o (or_introl eq_refl)) as (b0&u&A0&Hu&H). rewrite A in A0. injection A0 as <-.
    destruct (right_bucket_ok kb h o b u v A Hu Hv H) as (r&R&Hr). rewrite R. destruct r.
    + assert (u = v) by (apply Hr; auto). subst. split; [left; auto|eauto].
    + rewrite A. specialize (IH cs (l_chain b) B ltac:(simpl in Hl; lia)).
      assert (Ho' : forall o, In o cs -> exists b u, aget (longs h) o = Some b /\ valid u /\ holds kb h b u)
        by (intros; apply Ho; simpl; auto).
      specialize (IH Ho'). destruct (find_bucket n kb h (l_chain b) (v_data v) (v_extra v) (v_type v)).
      * destruct IH; split; [right; auto|auto].
      * intros o' b' [<-|Hi] A'; [|eauto]. rewrite A in A'. injection A' as <-. intros Hh.
        assert (u = v) by (eapply holds_fun; eauto). apply Hr in H0. discriminate.
      * auto.
Qed.
