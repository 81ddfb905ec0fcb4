(** Words, ranges and association lists of the history model. *)
From Coq Require Import List ZArith Bool Lia.
From Verif Require Import Word64 EncModel EncProof BitsProof PrfModel PrfSpec.
Import ListNotations.
Open Scope Z_scope.

Lemma small_is i : - 2 ^ 60 <= i < 2 ^ 60 -> issmallint (encode_smallint i) = true.
Proof.
  intro H. unfold issmallint. rewrite land7, enc_smallint by exact H.
  replace (i * 8 + 3) with (3 + i * 8) by lia. rewrite Z_mod_plus_full. reflexivity.
Qed.
Lemma small_dec i : - 2 ^ 60 <= i < 2 ^ 60 -> decode_smallint (encode_smallint i) = i.
Proof.
  intro H. unfold decode_smallint, shr. rewrite enc_smallint by exact H.
  rewrite Z.shiftr_div_pow2 by lia. change (2 ^ 3) with 8.
  replace (i * 8 + 3) with (3 + i * 8) by lia. rewrite Z.div_add by lia. reflexivity.
Qed.
Lemma int_small fi i : - 2 ^ 60 <= i < 2 ^ 60 ->
  is_int (encode_smallint i) = true /\ int_of fi (encode_smallint i) = i.
Proof.
  intro H. unfold is_int, int_of. rewrite small_is by exact H. split; [reflexivity|].
  apply small_dec; exact H.
Qed.

Lemma cap_range p : 0 <= p -> 0 <= cap p < 256.
Proof. unfold cap. destruct (255 <? p) eqn:E; [lia|]. apply Z.ltb_ge in E. lia. Qed.
Lemma cap_low p : 0 <= p < 256 -> cap p = p.
Proof. unfold cap. intro. destruct (255 <? p) eqn:E; [apply Z.ltb_lt in E; lia|reflexivity]. Qed.

Lemma word_sum t q1 q2 : 0 <= q1 < 256 -> 0 <= q2 < 256 ->
  Z.lor (Z.lor (Z.shiftl t 20) (Z.shiftl q1 8)) q2 = t * 2 ^ 20 + q1 * 2 ^ 8 + q2.
Proof.
  intros H1 H2. rewrite !Z.shiftl_mul_pow2 by lia.
  rewrite lor_add by lia.
  replace (t * 2 ^ 20 + q1 * 2 ^ 8) with ((t * 2 ^ 12 + q1) * 2 ^ 8) by lia.
  rewrite lor_add by lia. lia.
Qed.
Lemma divsmall a b k : 0 <= b < 2 ^ k -> 0 <= k -> (a * 2 ^ k + b) / 2 ^ k = a.
Proof.
  intros. rewrite Z.add_comm, Z.div_add by lia. rewrite Z.div_small by lia. lia.
Qed.
Lemma modsmall a b k : 0 <= b < 2 ^ k -> 0 <= k -> (a * 2 ^ k + b) mod 2 ^ k = b.
Proof. intros. rewrite Z.add_comm, Z_mod_plus_full. apply Z.mod_small; lia. Qed.
Lemma land15' w : Z.land w 15 = w mod 16.
Proof. exact (Z.land_ones w 4 ltac:(lia)). Qed.

Record tagged (n t q1 q2 e : Z) : Prop := {
  tg_range : 0 <= n < 2 ^ 25;
  tg_tag : get_tag n = t;
  tg_1 : get_pos1 n = q1 mod 16;
  tg_2 : get_pos2 n = q2 mod 16;
  tg_e : get_extra n = e }.
Lemma tagged_sum t q1 q2 e : 0 <= t < 16 -> 0 <= q1 < 256 -> 0 <= q2 < 256 -> 0 <= e < 16 ->
  tagged (t * 2 ^ 20 + e * 2 ^ 16 + q1 * 2 ^ 8 + q2) t q1 q2 e.
Proof.
  intros H0 H1 H2 H3. constructor.
  - lia.
  - unfold get_tag. rewrite land15', Z.shiftr_div_pow2 by lia.
    replace (t * 2 ^ 20 + e * 2 ^ 16 + q1 * 2 ^ 8 + q2) with (t * 2 ^ 20 + (e * 2 ^ 16 + q1 * 2 ^ 8 + q2)) by lia.
    rewrite divsmall by lia. apply Z.mod_small; lia.
  - unfold get_pos1. rewrite land15', Z.shiftr_div_pow2 by lia.
    replace (t * 2 ^ 20 + e * 2 ^ 16 + q1 * 2 ^ 8 + q2) with ((t * 2 ^ 12 + e * 2 ^ 8 + q1) * 2 ^ 8 + q2) by lia.
    rewrite divsmall by lia.
    replace (t * 2 ^ 12 + e * 2 ^ 8 + q1) with (q1 + (t * 2 ^ 8 + e * 2 ^ 4) * 16) by lia.
    apply Z_mod_plus_full.
  - unfold get_pos2. rewrite land15'.
    replace (t * 2 ^ 20 + e * 2 ^ 16 + q1 * 2 ^ 8 + q2) with (q2 + (t * 2 ^ 16 + e * 2 ^ 12 + q1 * 2 ^ 4) * 16) by lia.
    apply Z_mod_plus_full.
  - unfold get_extra. rewrite land15', Z.shiftr_div_pow2 by lia.
    replace (t * 2 ^ 20 + e * 2 ^ 16 + q1 * 2 ^ 8 + q2) with ((t * 2 ^ 4 + e) * 2 ^ 16 + (q1 * 2 ^ 8 + q2)) by lia.
    rewrite divsmall by lia. replace (t * 2 ^ 4 + e) with (e + t * 16) by lia.
    rewrite Z_mod_plus_full. apply Z.mod_small; lia.
Qed.
Lemma tagged_word t p1 p2 : 0 <= t < 16 -> 0 <= p1 -> 0 <= p2 -> tagged (tag_word t p1 p2) t (cap p1) (cap p2) 0.
Proof.
  intros. unfold tag_word. rewrite word_sum by auto using cap_range.
  replace (t * 2 ^ 20 + cap p1 * 2 ^ 8 + cap p2) with (t * 2 ^ 20 + 0 * 2 ^ 16 + cap p1 * 2 ^ 8 + cap p2) by lia.
  apply tagged_sum; auto using cap_range; lia.
Qed.
Lemma tagged_plain t : 0 <= t < 16 -> tagged (tag_plain t) t 0 0 0.
Proof.
  intro. unfold tag_plain. rewrite Z.shiftl_mul_pow2 by lia.
  replace (t * 2 ^ 20) with (t * 2 ^ 20 + 0 * 2 ^ 16 + 0 * 2 ^ 8 + 0) by lia.
  apply tagged_sum; lia.
Qed.
Lemma tagged_reflexive p : 0 <= p -> tagged (tag_reflexive p) T_REFLEXIVE (cap p) 0 0.
Proof.
  intro. pose proof (cap_range p H). unfold tag_reflexive. rewrite !Z.shiftl_mul_pow2 by lia.
  rewrite lor_add by lia.
  replace (T_REFLEXIVE * 2 ^ 20 + cap p * 2 ^ 8) with (T_REFLEXIVE * 2 ^ 20 + 0 * 2 ^ 16 + cap p * 2 ^ 8 + 0) by lia.
  apply tagged_sum; unfold T_REFLEXIVE; lia.
Qed.
Lemma tagged_para p1 p2 (left : bool) : 0 <= p1 -> 0 <= p2 ->
  tagged (tag_para p1 p2 left) T_PARA (cap p1) (cap p2) (if left then 1 else 0).
Proof.
  intros H1 H2. unfold tag_para. destruct left; [|apply tagged_word; unfold T_PARA; lia].
  pose proof (cap_range p1 H1). pose proof (cap_range p2 H2).
  unfold tag_word. rewrite word_sum by assumption.
  rewrite Z.lor_comm, Z.shiftl_mul_pow2 by lia.
  assert (E : Z.lor (1 * 2 ^ 16) (T_PARA * 2 ^ 20 + cap p1 * 2 ^ 8 + cap p2)
              = T_PARA * 2 ^ 20 + 1 * 2 ^ 16 + cap p1 * 2 ^ 8 + cap p2).
  { set (q := cap p1 * 2 ^ 8 + cap p2). assert (0 <= q < 2 ^ 16) by (subst q; lia).
    replace (T_PARA * 2 ^ 20 + cap p1 * 2 ^ 8 + cap p2) with ((T_PARA * 2 ^ 4) * 2 ^ 16 + q) by (subst q; lia).
    rewrite <- (lor_add (T_PARA * 2 ^ 4) q 16) by lia. rewrite Z.lor_assoc.
    assert (E : Z.lor (1 * 2 ^ 16) (T_PARA * 2 ^ 4 * 2 ^ 16) = (T_PARA * 2 ^ 4 + 1) * 2 ^ 16) by reflexivity.
    rewrite E, lor_add by lia. subst q. lia. }
  rewrite E. apply tagged_sum; unfold T_PARA; lia.
Qed.
Lemma path_ok l p : 0 <= l < 2 ^ 15 -> 0 <= p < 2 ^ 16 ->
  0 <= encode_path l p < 2 ^ 31 /\ path_pos (encode_path l p) = p.
Proof.
  intros H1 H2. unfold path_pos, encode_path. rewrite Z.shiftl_mul_pow2 by lia.
  rewrite lor_add by lia. split; [lia|].
  change 65535 with (Z.ones 16). rewrite Z.land_ones by lia. apply modsmall; lia.
Qed.

(** ranges *)
Lemma upfrom_map {A} (f : Z -> A) n : forall i, map f (upfrom i n) = map (fun k => f (i + Z.of_nat k)) (seq 0 n).
Proof.
  induction n as [|n IH]; intro i; [reflexivity|]. cbn [upfrom map seq]. f_equal; [f_equal; lia|].
  rewrite IH, <- seq_shift, map_map. apply map_ext. intro k. f_equal. lia.
Qed.
Lemma upfrom_in n : forall i x, In x (upfrom i n) <-> i <= x < i + Z.of_nat n.
Proof.
  induction n as [|n IH]; intros i x; cbn [upfrom In]; [lia|]. rewrite IH. lia.
Qed.
Lemma range_in i n x : In x (range i n) <-> i <= x < n.
Proof. unfold range. rewrite upfrom_in. lia. Qed.
Lemma range_cons i n : i < n -> range i n = i :: range (i + 1) n.
Proof.
  intro H. unfold range. replace (Z.to_nat (n - i)) with (S (Z.to_nat (n - (i + 1)))) by lia.
  reflexivity.
Qed.
Lemma range_nil i n : n <= i -> range i n = [].
Proof. intro H. unfold range. replace (Z.to_nat (n - i)) with 0%nat by lia. reflexivity. Qed.
Lemma map_nth_seq (l : list Z) : forall s n, (s + n <= length l)%nat ->
  map (fun k => nth (s + k) l 0) (seq 0 n) = firstn n (skipn s l).
Proof.
  induction l as [|x l IH]; intros s n H.
  - cbn in H. replace n with 0%nat by lia. reflexivity.
  - destruct s as [|s].
    + cbn [Nat.add skipn]. destruct n as [|n]; [reflexivity|]. cbn [seq map firstn nth].
      f_equal. rewrite <- seq_shift, map_map. cbn [nth].
      exact (IH 0%nat n ltac:(cbn in H; lia)).
    + cbn [skipn]. rewrite <- IH by (cbn in H; lia). reflexivity.
Qed.

Section Fields.
Variables (m : mem) (stray : Z -> Z -> Z).
Lemma field_in h i : 0 <= i < rec_len m h -> field m stray h i = nth (Z.to_nat i) (rec m h) 0.
Proof. intro H. unfold field. replace (i <? rec_len m h) with true by (symmetry; apply Z.ltb_lt; lia). reflexivity. Qed.
Lemma fields_range h s e : 0 <= s -> s <= e -> e <= rec_len m h ->
  map (field m stray h) (range s e) = firstn (Z.to_nat (e - s)) (skipn (Z.to_nat s) (rec m h)).
Proof.
  intros H1 H2 H3. unfold range. rewrite upfrom_map.
  rewrite <- map_nth_seq by (unfold rec_len in H3; lia).
  apply map_ext_in. intros k Hk. apply in_seq in Hk. rewrite field_in by lia. f_equal. lia.
Qed.
Lemma fields_to_end h s : 0 <= s -> s <= rec_len m h ->
  map (field m stray h) (range s (rec_len m h)) = skipn (Z.to_nat s) (rec m h).
Proof.
  intros H1 H2. rewrite fields_range by lia. apply firstn_all2.
  rewrite skipn_length. unfold rec_len. lia.
Qed.
End Fields.

(** association lists *)
Lemma get_assoc_none c (a : alist) : get_assoc c a = None <-> ~ In c (map fst a).
Proof.
  induction a as [|[x n] a IH]; cbn; [tauto|]. destruct (x =? c) eqn:E.
  - apply Z.eqb_eq in E. split; [discriminate|]. intro H. exfalso. apply H. auto.
  - apply Z.eqb_neq in E. rewrite IH. tauto.
Qed.
Lemma get_assoc_in c n (a : alist) : NoDup (map fst a) -> In (c, n) a -> get_assoc c a = Some n.
Proof.
  induction a as [|[x k] a IH]; cbn; [tauto|]. intros H [E|E].
  - inversion E; subst. rewrite Z.eqb_refl. reflexivity.
  - inversion H; subst. destruct (x =? c) eqn:Ex; [|apply IH; assumption].
    apply Z.eqb_eq in Ex. subst x. exfalso. apply H2. apply (in_map fst) in E. exact E.
Qed.
Lemma cutn_listed v : cutn v = listed v.
Proof.
  destruct v as [l|]; [|reflexivity]. cbn. induction l as [|x l IH]; [reflexivity|]. cbn.
  destruct (Z.eq_dec x 0) as [E|E]; [subst; reflexivity|].
  rewrite (proj2 (Z.eqb_neq x 0) E), IH. reflexivity.
Qed.
