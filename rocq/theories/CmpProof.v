(** Lemmas for C37. *)
From Coq Require Import List ZArith Bool Lia Floats.SpecFloat Arith.
From Verif Require Import Word64 AllocModel EncModel EncSpec EncProof CmpModel CmpSpec.
Import ListNotations.
Open Scope Z_scope.

(** ** The order of contents *)
Lemma then_opp c c' : CompOpp (then_ c c') = then_ (CompOpp c) (CompOpp c').
Proof. destruct c; reflexivity. Qed.
Lemma then_eq c c' : then_ c c' = Eq <-> c = Eq /\ c' = Eq.
Proof. destruct c; cbn; intuition congruence. Qed.
Lemma alpha_refl : forall a, alpha a a = Eq.
Proof. induction a; cbn; auto. rewrite Z.compare_refl. auto. Qed.
Lemma alpha_eq : forall a b, alpha a b = Eq -> a = b.
Proof.
  induction a as [|x a IH]; intros [|y b] H; cbn in H; try discriminate; auto.
  destruct (x ?= y) eqn:E; try discriminate. apply Z.compare_eq in E. subst. f_equal. auto.
Qed.
Lemma alpha_opp : forall a b, alpha b a = CompOpp (alpha a b).
Proof.
  induction a as [|x a IH]; intros [|y b]; cbn; auto. rewrite (Z.compare_antisym x y). destruct (x ?= y); cbn; auto.
Qed.
Lemma alpha_trans : forall a b c, alpha a b = Lt -> alpha b c = Lt -> alpha a c = Lt.
Proof.
  induction a as [|x a IH]; intros [|y b] [|z c] H K; cbn in *; try discriminate; auto.
  destruct (x ?= y) eqn:E1; try discriminate; destruct (y ?= z) eqn:E2; try discriminate.
  - apply Z.compare_eq in E1, E2. subst. rewrite Z.compare_refl. eauto.
  - apply Z.compare_eq in E1. subst. rewrite E2. reflexivity.
  - apply Z.compare_eq in E2. subst. rewrite E1. reflexivity.
  - assert (X : (x ?= z) = Lt) by (rewrite Z.compare_lt_iff in *; lia). rewrite X. reflexivity.
Qed.

Fixpoint orders (fs gs : list content) : comparison :=
  match fs, gs with
  | f :: fs, g :: gs => then_ (order f g) (orders fs gs)
  | _, _ => Eq
  end.
Lemma order_rec fs gs : order (KRec fs) (KRec gs) = then_ (Nat.compare (length fs) (length gs)) (orders fs gs).
Proof. reflexivity. Qed.
Fixpoint csize (k : content) : nat := match k with KScalar _ _ _ => 1%nat | KRec fs => S (list_sum (map csize fs)) end.
Lemma csize_pos k : (0 < csize k)%nat.
Proof. destruct k; cbn; lia. Qed.

(** A comparison that is a total order at [a]. *)
Lemma orders_refl_of fs : (forall f, In f fs -> order f f = Eq) -> orders fs fs = Eq.
Proof. induction fs as [|f fs IH]; intros H; cbn [orders]; auto. rewrite (H f (or_introl eq_refl)). cbn. apply IH. intros g Hg. apply H. right; exact Hg. Qed.
Lemma sum_in f fs : In f fs -> (csize f <= list_sum (map csize fs))%nat.
Proof. induction fs as [|g fs IH]; intros H; [contradiction|]. cbn [map list_sum fold_right]. fold (list_sum (map csize fs)). destruct H as [->|H]; [lia|]. specialize (IH H). lia. Qed.
Lemma order_refl_n : forall n a, (csize a <= n)%nat -> order a a = Eq.
Proof.
  induction n as [|n IH]; intros a Ha; [pose proof (csize_pos a); lia|]. destruct a as [t p v|fs].
  - cbn. rewrite Z.compare_refl, alpha_refl. cbn. apply alpha_refl.
  - rewrite order_rec, Nat.compare_refl. cbn [then_]. apply orders_refl_of. intros f Hf. apply IH. pose proof (sum_in f fs Hf). cbn [csize] in Ha. lia.
Qed.
Lemma order_refl a : order a a = Eq.
Proof. apply (order_refl_n (csize a)). lia. Qed.

Lemma order_eq_n : forall n a b, (csize a <= n)%nat -> order a b = Eq -> a = b.
Proof.
  induction n as [|n IH]; intros a b Ha E; [pose proof (csize_pos a); lia|]. destruct a as [t p v|fs], b as [t' p' v'|gs].
  - cbn in E. apply then_eq in E as [E1 E]. apply then_eq in E as [E2 E3]. apply Z.compare_eq in E1. apply alpha_eq in E2, E3. congruence.
  - cbn in E. destruct (t <=? 2); discriminate.
  - cbn in E. destruct (t' <=? 2); discriminate.
  - rewrite order_rec in E. apply then_eq in E as [E1 E]. apply Nat.compare_eq_iff in E1. f_equal. cbn [csize] in Ha.
    revert gs E1 E Ha. induction fs as [|f fs IHf]; intros [|g gs] E1 E Ha; try discriminate; auto. cbn [orders] in E. apply then_eq in E as [E2 E3].
    cbn [map list_sum fold_right] in Ha. fold (list_sum (map csize fs)) in Ha. pose proof (csize_pos f). f_equal; [apply IH; [lia|exact E2]|]. apply IHf; [cbn in E1; lia|exact E3|lia].
Qed.
Lemma order_eq a b : order a b = Eq <-> a = b.
Proof. split; [apply (order_eq_n (csize a)); lia|intros ->; apply order_refl]. Qed.

Lemma order_opp_n : forall n a b, (csize a <= n)%nat -> order b a = CompOpp (order a b).
Proof.
  induction n as [|n IH]; intros a b Ha; [pose proof (csize_pos a); lia|]. destruct a as [t p v|fs], b as [t' p' v'|gs].
  - cbn. rewrite !then_opp, <- Z.compare_antisym, <- !alpha_opp. reflexivity.
  - cbn. destruct (t <=? 2); reflexivity.
  - cbn. destruct (t' <=? 2); reflexivity.
  - rewrite !order_rec, then_opp, <- Nat.compare_antisym. f_equal. cbn [csize] in Ha.
    revert gs Ha. induction fs as [|f fs IHf]; intros [|g gs] Ha; auto. cbn [orders]. rewrite then_opp.
    cbn [map list_sum fold_right] in Ha. fold (list_sum (map csize fs)) in Ha. pose proof (csize_pos f). f_equal; [apply IH; lia|apply IHf; lia].
Qed.
Lemma order_opp a b : order b a = CompOpp (order a b).
Proof. apply (order_opp_n (csize a)). lia. Qed.

Lemma then_lt c c' : then_ c c' = Lt <-> c = Lt \/ c = Eq /\ c' = Lt.
Proof. destruct c; cbn; intuition congruence. Qed.
Lemma order_trans_n : forall n a b c, (csize a <= n)%nat -> order a b = Lt -> order b c = Lt -> order a c = Lt.
Proof.
  induction n as [|n IH]; intros a b c Ha H K; [pose proof (csize_pos a); lia|]. destruct a as [t p v|fs], b as [t' p' v'|gs], c as [t'' p'' v''|hs].
  - cbn in *. rewrite !then_lt, !Z.compare_lt_iff, !Z.compare_eq_iff in *.
    assert (A : forall x y, alpha x y = Eq <-> x = y) by (intros; split; [apply alpha_eq|intros ->; apply alpha_refl]).
    rewrite A in *. destruct H as [H|[-> [H|[-> H]]]], K as [K|[-> [K|[-> K]]]]; try (left; lia); auto; right; split; auto; eauto using alpha_trans.
  - cbn in *. destruct (Z.leb_spec t' 2); [|discriminate]. destruct (Z.leb_spec t 2) as [|L]; [reflexivity|]. rewrite then_lt in H.
    destruct H as [H|[H _]]; [rewrite Z.compare_lt_iff in H; lia|apply Z.compare_eq in H; lia].
  - cbn in *. destruct (Z.leb_spec t 2); [|discriminate]. destruct (Z.leb_spec t'' 2); [discriminate|]. rewrite then_lt. left. rewrite Z.compare_lt_iff. lia.
  - cbn in *. destruct (t <=? 2); [reflexivity|discriminate].
  - cbn in *. destruct (Z.leb_spec t' 2); [discriminate|]. destruct (Z.leb_spec t'' 2); [|reflexivity]. rewrite then_lt in K.
    destruct K as [K|[K _]]; [rewrite Z.compare_lt_iff in K; lia|apply Z.compare_eq in K; lia].
  - cbn in *. destruct (t' <=? 2); discriminate.
  - cbn [order] in K |- *. exact K.
  - rewrite order_rec in *. rewrite !then_lt, !Nat.compare_lt_iff, !Nat.compare_eq_iff in *.
    destruct H as [H|[H1 H]], K as [K|[K1 K]]; try (left; lia). right. split; [lia|]. cbn [csize] in Ha.
    revert gs hs H1 K1 H K Ha. induction fs as [|f fs IHf]; intros [|g gs] [|h hs] H1 K1 H K Ha; try discriminate.
    cbn [orders] in *. cbn [map list_sum fold_right] in Ha. fold (list_sum (map csize fs)) in Ha. pose proof (csize_pos f). cbn in H1, K1.
    rewrite then_lt in *. destruct H as [H|[H2 H]], K as [K|[K2 K]].
    + left. apply (IH f g h); [lia|exact H|exact K].
    + apply order_eq in K2. subst. auto.
    + apply order_eq in H2. subst. auto.
    + apply order_eq in H2, K2. subst. right. split; [apply order_refl|]. apply (IHf gs hs); auto; lia.
Qed.
Lemma order_trans a b c : order a b = Lt -> order b c = Lt -> order a c = Lt.
Proof. apply (order_trans_n (csize a)). lia. Qed.

(** ** Doubles *)
Inductive dform (neg : bool) (m : Z) : spec_float -> Prop :=
| df_zero : m = 0 -> dform neg m (S754_zero neg)
| df_inf : m = 2047 * 2 ^ 52 -> dform neg m (S754_infinity neg)
| df_fin p e : 0 < m < 2047 * 2 ^ 52 ->
    (e = -1074 /\ Zpos p = m /\ m < 2 ^ 52 \/ exists k f, 1 <= k /\ 0 <= f < 2 ^ 52 /\ m = k * 2 ^ 52 + f /\ e = k - 1075 /\ Zpos p = f + 2 ^ 52) ->
    dform neg m (S754_finite neg p e).
Lemma sf_form b : is_nan b = false -> dform (b <? 0) (b mod 2 ^ 63) (sf_of_bits b).
Proof.
  unfold is_nan. intros H. apply Z.ltb_ge in H. change 9218868437227405312 with (2047 * 2 ^ 52) in H. unfold sf_of_bits. cbv zeta.
  assert (Ef : b mod 2 ^ 52 = (b mod 2 ^ 63) mod 2 ^ 52).
  { pose proof (Z.div_mod b (2 ^ 63)) as D. set (q := b / 2 ^ 63) in *. set (m := b mod 2 ^ 63) in *.
    replace b with (m + (q * 2 ^ 11) * 2 ^ 52) by lia. apply Z_mod_plus_full. }
  rewrite Ef. pose proof (Z.mod_pos_bound b (2 ^ 63)). set (m := b mod 2 ^ 63) in *.
  pose proof (Z.div_mod m (2 ^ 52)) as D. pose proof (Z.mod_pos_bound m (2 ^ 52)). set (e := m / 2 ^ 52) in *. set (f := m mod 2 ^ 52) in *.
  assert (He : 0 <= e) by (apply Z.div_pos; lia).
  destruct (Z.eqb_spec e 2047) as [E|E].
  - destruct (Z.eqb_spec f 0); [|lia]. apply df_inf. lia.
  - destruct (Z.eqb_spec e 0) as [E0|E0].
    + destruct (Z.eqb_spec f 0); [apply df_zero; lia|]. apply df_fin; [lia|]. left. rewrite Z2Pos.id by lia. lia.
    + apply df_fin; [nia|]. right. exists e, f. rewrite Z2Pos.id by lia. lia.
Qed.
Lemma fin_compare p e m p' e' m' :
  (e = -1074 /\ Zpos p = m /\ m < 2 ^ 52 \/ exists k f, 1 <= k /\ 0 <= f < 2 ^ 52 /\ m = k * 2 ^ 52 + f /\ e = k - 1075 /\ Zpos p = f + 2 ^ 52) ->
  (e' = -1074 /\ Zpos p' = m' /\ m' < 2 ^ 52 \/ exists k f, 1 <= k /\ 0 <= f < 2 ^ 52 /\ m' = k * 2 ^ 52 + f /\ e' = k - 1075 /\ Zpos p' = f + 2 ^ 52) ->
  (m ?= m') = match e ?= e' with Eq => Pos.compare p p' | c => c end.
Proof.
  intros H H'. assert (P : Pos.compare p p' = (Zpos p ?= Zpos p')) by reflexivity. rewrite P.
  destruct (Z.compare_spec e e') as [E|E|E].
  - destruct (Z.compare_spec (Zpos p) (Zpos p')) as [Q|Q|Q]; [apply Z.compare_eq_iff|apply Z.compare_lt_iff|apply Z.compare_gt_iff];
    destruct H as [(?&?&?)|(k&f&?&?&?&?&?)], H' as [(?&?&?)|(k'&f'&?&?&?&?&?)]; nia.
  - apply Z.compare_lt_iff. destruct H as [(?&?&?)|(k&f&?&?&?&?&?)], H' as [(?&?&?)|(k'&f'&?&?&?&?&?)]; nia.
  - apply Z.compare_gt_iff. destruct H as [(?&?&?)|(k&f&?&?&?&?&?)], H' as [(?&?&?)|(k'&f'&?&?&?&?&?)]; nia.
Qed.
Lemma dbl_compare a b : is_nan a = false -> is_nan b = false -> SFcompare (sf_of_bits a) (sf_of_bits b) = Some (dbl_rank a ?= dbl_rank b).
Proof.
  intros Ha Hb. pose proof (sf_form a Ha) as A. pose proof (sf_form b Hb) as B. unfold dbl_rank.
  pose proof (Z.mod_pos_bound a (2 ^ 63)) as Ma. pose proof (Z.mod_pos_bound b (2 ^ 63)) as Mb.
  set (m := a mod 2 ^ 63) in *. set (n := b mod 2 ^ 63) in *. set (s := a <? 0) in *. set (s' := b <? 0) in *.
  assert (Opp : (- m ?= - n) = CompOpp (m ?= n)) by (rewrite Z.compare_opp; apply Z.compare_antisym).
  destruct A as [A|A|p e A1 A2], B as [B|B|p' e' B1 B2]; destruct s, s'; cbn [SFcompare];
  try (f_equal; symmetry; first [apply Z.compare_eq_iff; lia|apply Z.compare_lt_iff; lia|apply Z.compare_gt_iff; lia]; fail).
  - rewrite Opp, (fin_compare _ _ _ _ _ _ A2 B2). destruct (e ?= e'); reflexivity.
  - rewrite (fin_compare _ _ _ _ _ _ A2 B2). destruct (e ?= e'); reflexivity.
Qed.

Lemma F2_length {A B} (R : A -> B -> Prop) l l' : Forall2 R l l' -> length l = length l'.
Proof. induction 1; cbn; congruence. Qed.
(** ** Strings *)
Lemma strcmp_alpha : forall a b, strcmp a b = code_of (alpha a b).
Proof.
  induction a as [|x a IH]; intros [|y b]; cbn; auto. destruct (Z.eqb_spec x y) as [->|N]; [rewrite Z.compare_refl; auto|].
  destruct (Z.ltb_spec y x); destruct (Z.compare_spec x y); try lia; reflexivity.
Qed.
Lemma memcmp_alpha : forall a b, (let r := memcmp (Nat.min (length a) (length b)) a b in
  sign_of (if r =? 0 then Z.of_nat (length a) - Z.of_nat (length b) else r)) = code_of (alpha a b).
Proof.
  induction a as [|x a IH]; intros [|y b]; cbn [length Nat.min memcmp alpha]; try reflexivity.
  - destruct (Z.eqb_spec x y) as [->|N].
    + rewrite Z.compare_refl, <- IH. cbv zeta. f_equal. destruct (_ =? 0); lia.
    + destruct (Z.ltb_spec y x); destruct (Z.compare_spec x y); try lia; reflexivity.
Qed.
Lemma sign_code c : sign_of (code_of c) = code_of c.
Proof. destruct c; reflexivity. Qed.
Lemma gt_lt_code x y : x <> y -> gt_lt (y <? x) = code_of (x ?= y).
Proof. intros N. unfold gt_lt. destruct (Z.ltb_spec y x), (Z.compare_spec x y); try lia; reflexivity. Qed.

(** ** The main lemma *)
Section Main.
  Variable d : db.
  Variable text : Z -> list Z.
  Variable extra : Z -> option (list Z).
  Variable blob : Z -> list Z.
  Notation content_of := (content_of d text extra blob).
  Notation wg_compare := (wg_compare d text extra blob).
  Notation compare_words := (compare_words d text extra blob).

  Lemma boxed_int o : box o -> decode_int d (encode (VBoxedInt o)) = mem d o.
  Proof.
    intros (B1&B2). cbn [encode]. unfold encode_fullint_offset. rewrite enc_off by (auto; lia).
    assert (E1 : o + 1 = (o / 8) * 8 + 1) by (pose proof (Z.div_mod o 8); lia).
    unfold decode_int, issmallint, isfullint. rewrite land7, land3. unfold decode_fullint_offset. rewrite clear3.
    rewrite !E1, !(modadd (o / 8) 8) by (lia || reflexivity). change (1 mod 8 =? 3) with false. change (1 mod 4 =? 1) with true.
    cbv iota. replace (o / 8 * 8 + 1 - 1 mod 4) with o by (change (1 mod 4) with 1; lia). auto.
  Qed.
  Lemma boxed_double o : box o -> decode_double d (encode (VDouble o)) = mem d o.
  Proof.
    intros (B1&B2). cbn [encode]. unfold encode_fulldouble_offset. rewrite enc_off by (auto; lia).
    assert (E1 : o + 2 = (o / 8) * 8 + 2) by (pose proof (Z.div_mod o 8); lia).
    unfold decode_double, isfulldouble. rewrite land7. unfold decode_fulldouble_offset. rewrite clear7.
    rewrite !E1, !(modadd (o / 8) 8) by (lia || reflexivity). change (2 mod 8 =? 2) with true.
    cbv iota. replace (o / 8 * 8 + 2 - 2 mod 8) with o by (change (2 mod 8) with 2; lia). auto.
  Qed.

  Lemma content_value n w k : content_of n w k -> exists v, in_range d v /\ w = encode v /\
    match k with KScalar t _ _ => type_code v = t | KRec _ => type_code v = 2 end.
  Proof. intros []; eexists; repeat split; eauto. Qed.
  Lemma content_det : forall n w k k', content_of n w k -> content_of n w k' -> k = k'.
  Proof.
    induction n as [|n IH]; intros w k k' H H'; inversion H as [n0 v p x R S0|o R|n0 o len tag ks R Hm Ht F]; subst;
    inversion H' as [n1 v' p' x' R' S1 Hn1 E|o' R' Hn1 E|n1 o' len' tag' ks' R' Hm' Ht' F' Hn1 E]; subst;
    try (apply encode_inj with (d := d) in E; [|assumption|assumption]; subst; cbn [scalar] in *; try discriminate; try congruence).
    - injection E as ->. f_equal. assert (len' = len) as -> by lia.
      clear -IH F F'. revert ks' F'. induction F as [|a k0 A K Fa FF IHf]; intros ks' F'; inversion F'; subst; [reflexivity|].
      f_equal; [eapply IH; eauto|auto].
  Qed.

  Ltac un := intros A B; match goal with |- CmpModel.wg_compare _ _ _ _ ?n _ _ = _ => destruct n; cbn [CmpModel.wg_compare]; rewrite A, B; reflexivity end.
  Lemma cmp_int n a b : get_type d a = 3 -> get_type d b = 3 ->
    wg_compare n a b = if decode_int d a =? decode_int d b then WG_EQUAL else gt_lt (decode_int d b <? decode_int d a).
  Proof. un. Qed.
  Lemma cmp_dbl n a b : get_type d a = 4 -> get_type d b = 4 ->
    wg_compare n a b = if dbl_eq (decode_double d a) (decode_double d b) then WG_EQUAL else gt_lt (dbl_gt (decode_double d a) (decode_double d b)).
  Proof. un. Qed.
  Lemma cmp_str n a b : get_type d a = 5 -> get_type d b = 5 -> wg_compare n a b = compare_text text a b.
  Proof. un. Qed.
  Lemma cmp_xml n a b : get_type d a = 6 -> get_type d b = 6 -> wg_compare n a b = match compare_extra extra a b with Some r => r | None => compare_text text a b end.
  Proof. un. Qed.
  Lemma cmp_uri n a b : get_type d a = 7 -> get_type d b = 7 -> wg_compare n a b = match compare_extra extra a b with Some r => r | None => compare_text text a b end.
  Proof. un. Qed.
  Lemma cmp_blob n a b : get_type d a = 8 -> get_type d b = 8 -> wg_compare n a b =
    (let r := memcmp (Nat.min (length (blob a)) (length (blob b))) (blob a) (blob b) in
     sign_of (if r =? 0 then Z.of_nat (length (blob a)) - Z.of_nat (length (blob b)) else r)).
  Proof. un. Qed.
  Lemma cmp_char n a b : get_type d a = 9 -> get_type d b = 9 -> wg_compare n a b =
    (let buf x := let c := decode_char x mod 256 in if c =? 0 then [] else [c] in sign_of (strcmp (buf a) (buf b))).
  Proof. un. Qed.
  Lemma cmp_fix n a b : get_type d a = 10 -> get_type d b = 10 -> wg_compare n a b = gt_lt (decode_fixpoint b <? decode_fixpoint a).
  Proof. un. Qed.
  Lemma cmp_date n a b : get_type d a = 11 -> get_type d b = 11 -> wg_compare n a b = gt_lt (decode_date b <? decode_date a).
  Proof. un. Qed.
  Lemma cmp_time n a b : get_type d a = 12 -> get_type d b = 12 -> wg_compare n a b = gt_lt (decode_time b <? decode_time a).
  Proof. un. Qed.
  Lemma cmp_anon n a b : get_type d a = 13 -> get_type d b = 13 -> wg_compare n a b = gt_lt (b <? a).
  Proof. un. Qed.
  Lemma cmp_var n a b : get_type d a = 14 -> get_type d b = 14 -> wg_compare n a b = gt_lt (decode_var b <? decode_var a).
  Proof. un. Qed.
  Lemma cmp_types n a b : get_type d a <> get_type d b -> wg_compare n a b = gt_lt (get_type d b <? get_type d a).
  Proof. intros N. destruct n; cbn [CmpModel.wg_compare]; (destruct (Z.eqb_spec (get_type d b) (get_type d a)); [congruence|reflexivity]). Qed.

  Lemma ext_compare a b : match compare_extra extra a b with Some r => r | None => compare_text text a b end =
    code_of (then_ (alpha (prefix_of extra a) (prefix_of extra b)) (alpha (text a) (text b))).
  Proof.
    unfold compare_extra, prefix_of, compare_text. rewrite strcmp_alpha, sign_code.
    destruct (extra a) as [[|x ea]|], (extra b) as [[|y eb]|]; try reflexivity.
    rewrite strcmp_alpha. cbv zeta. destruct (alpha (x :: ea) (y :: eb)); reflexivity.
  Qed.
  Lemma num_code p i j : code_of (then_ (alpha p p) (alpha [i] [j])) = code_of (i ?= j).
  Proof. rewrite alpha_refl. cbn. destruct (i ?= j); reflexivity. Qed.
  Lemma int_code x y : (if x =? y then WG_EQUAL else gt_lt (y <? x)) = code_of (x ?= y).
  Proof. destruct (Z.eqb_spec x y) as [->|N]; [rewrite Z.compare_refl; reflexivity|apply gt_lt_code; exact N]. Qed.

  Lemma scalar_compare n v v' p x p' x' : in_range d v -> in_range d v' -> encode v <> encode v' ->
    scalar d text extra blob v = Some (p, x) -> scalar d text extra blob v' = Some (p', x') -> type_code v = type_code v' ->
    wg_compare n (encode v) (encode v') = code_of (then_ (alpha p p') (alpha x x')).
  Proof.
    intros R R' N S0 S1 Ht.
    pose proof (type_of_encoded d v R) as T. pose proof (type_of_encoded d v' R') as T'.
    pose proof (immediate_roundtrip d v R) as I0. pose proof (immediate_roundtrip d v' R') as I1.
    assert (LongT : forall o ty, in_range d (VLong o ty) -> ty = 5 \/ ty = 6 \/ ty = 7 \/ ty = 8) by (intros o ty Q; exact (proj2 (proj2 Q))).
    destruct v, v'; cbn [type_code] in Ht; try discriminate; try (exfalso; destruct (LongT _ _ R); lia); try (exfalso; destruct (LongT _ _ R'); lia); try (cbn in N; congruence);
    cbn [type_code] in T, T'; cbn [scalar] in S0, S1.
    1-4: injection S0 as <- <-; injection S1 as <- <-; rewrite (cmp_int _ _ _ T T'), num_code, int_code; rewrite ?I0, ?I1, ?boxed_int by assumption; reflexivity.
    - (* double *)
      destruct (is_nan (mem d o)) eqn:Na; [discriminate|]. destruct (is_nan (mem d o0)) eqn:Nb; [discriminate|].
      injection S0 as <- <-. injection S1 as <- <-. rewrite (cmp_dbl _ _ _ T T'), num_code, !boxed_double by assumption.
      unfold dbl_eq, dbl_gt, SFeqb, SFltb. rewrite (dbl_compare _ _ Na Nb), (dbl_compare _ _ Nb Na), (Z.compare_antisym (dbl_rank (mem d o)) (dbl_rank (mem d o0))).
      destruct (_ ?= _); reflexivity.
    - injection S0 as <- <-. injection S1 as <- <-. rewrite (cmp_str _ _ _ T T'). unfold compare_text. rewrite strcmp_alpha, sign_code. reflexivity.
    - subst ty. injection S0 as <- <-. injection S1 as <- <-. rewrite (cmp_str _ _ _ T T'). unfold compare_text. rewrite strcmp_alpha, sign_code. reflexivity.
    - subst ty. injection S0 as <- <-. injection S1 as <- <-. rewrite (cmp_str _ _ _ T T'). unfold compare_text. rewrite strcmp_alpha, sign_code. reflexivity.
    - subst ty0. destruct (LongT _ _ R) as [->|[->|[->| ->]]]; cbn [Z.eqb Pos.eqb] in S0, S1; injection S0 as <- <-; injection S1 as <- <-.
      + rewrite (cmp_str _ _ _ T T'). unfold compare_text. rewrite strcmp_alpha, sign_code. reflexivity.
      + rewrite (cmp_xml _ _ _ T T'). apply ext_compare.
      + rewrite (cmp_uri _ _ _ T T'). apply ext_compare.
      + rewrite (cmp_blob _ _ _ T T'). apply memcmp_alpha.
    - injection S0 as <- <-. injection S1 as <- <-. rewrite (cmp_char _ _ _ T T'). cbv beta zeta. rewrite I0, I1, strcmp_alpha, sign_code. cbn [alpha then_].
      cbn [in_range] in R, R'.
      assert (Z0 : forall c, -128 <= c <= 127 -> (c mod 256 =? 0) = (c =? 0)).
      { intros e He. destruct (Z.eqb_spec e 0) as [->|E]; [reflexivity|]. apply Z.eqb_neq. intros X. apply Z.mod_divide in X; [|lia]. destruct X as [q X]. lia. }
      rewrite !Z0 by assumption. reflexivity.
    - injection S0 as <- <-. injection S1 as <- <-. rewrite (cmp_fix _ _ _ T T'), num_code, I0, I1. apply gt_lt_code. congruence.
    - injection S0 as <- <-. injection S1 as <- <-. rewrite (cmp_date _ _ _ T T'), num_code, I0, I1. apply gt_lt_code. congruence.
    - injection S0 as <- <-. injection S1 as <- <-. rewrite (cmp_time _ _ _ T T'), num_code, I0, I1. apply gt_lt_code. congruence.
    - injection S0 as <- <-. injection S1 as <- <-. rewrite (cmp_anon _ _ _ T T'), num_code. apply gt_lt_code. exact N.
    - injection S0 as <- <-. injection S1 as <- <-. rewrite (cmp_var _ _ _ T T'), num_code, I0, I1. apply gt_lt_code. congruence.
  Qed.

  Lemma head_len o len tag : mem d o = 8 * (3 + Z.of_nat len) + tag -> 0 <= tag < 4 -> record_len d o = Z.of_nat len.
  Proof.
    intros H Ht. unfold record_len. rewrite clear3, H. unfold shr. rewrite Z.shiftr_div_pow2 by lia. change (2 ^ 3) with 8.
    replace ((8 * (3 + Z.of_nat len) + tag) mod 4) with tag.
    2:{ replace (8 * (3 + Z.of_nat len) + tag) with (tag + (2 * (3 + Z.of_nat len)) * 4) by lia. rewrite Z_mod_plus_full, Z.mod_small; lia. }
    replace (8 * (3 + Z.of_nat len) + tag - tag) with ((3 + Z.of_nat len) * 8) by lia. rewrite Z.div_mul by lia. lia.
  Qed.
  Lemma fields_compare cmp (R : Z -> content -> Prop) a b : (forall x y k k', R x k -> R y k' -> (if x =? y then WG_EQUAL else cmp x y) = code_of (order k k')) ->
    forall n i ks ks', Forall2 R (map (get_field d a) (seq i n)) ks -> Forall2 R (map (get_field d b) (seq i n)) ks' ->
    compare_fields d cmp n i a b = code_of (orders ks ks').
  Proof.
    intros H. induction n as [|n IH]; intros i ks ks' F F'; cbn [seq map] in *; inversion F as [|? k ? ks1 F1 F2]; inversion F' as [|? k' ? ks1' F1' F2']; subst; [reflexivity|].
    cbn [compare_fields orders]. specialize (H _ _ _ _ F1 F1'). rewrite (IH _ _ _ F2 F2').
    destruct (Z.eqb_spec (get_field d a i) (get_field d b i)) as [E|E].
    - destruct (order k k'); try discriminate. reflexivity.
    - rewrite H. destruct (order k k'); reflexivity.
  Qed.

  Lemma scalar_ty v p x : in_range d v -> scalar d text extra blob v = Some (p, x) -> type_code v <> 2.
  Proof. destruct v; cbn [in_range type_code scalar]; try discriminate. intros (_&_&[->|[->|[->| ->]]]) _; discriminate. Qed.
  Lemma cmp_rec0 a b : get_type d a = 2 -> get_type d b = 2 -> wg_compare 0 a b = gt_lt (b <? a).
  Proof. intros A B. cbn [CmpModel.wg_compare]. rewrite A, B. reflexivity. Qed.
  Lemma cmp_rec n a b : get_type d a = 2 -> get_type d b = 2 -> wg_compare (S n) a b =
    if negb (record_len d a =? record_len d b) then gt_lt (record_len d b <? record_len d a)
    else compare_fields d (wg_compare n) (Z.to_nat (record_len d a)) 0 a b.
  Proof. intros A B. cbn [CmpModel.wg_compare]. rewrite A, B. reflexivity. Qed.

  Lemma compare_content : forall n a b k k', content_of n a k -> content_of n b k' -> compare_words n a b = code_of (order k k').
  Proof.
    induction n as [|n IH]; intros a b k k' H H'; unfold CmpModel.compare_words;
    (destruct (Z.eqb_spec a b) as [->|N]; [rewrite (content_det _ _ _ _ H H'), order_refl; reflexivity|]);
    destruct (content_value _ _ _ H) as (v&R&Ev&Tv); destruct (content_value _ _ _ H') as (v'&R'&Ev'&Tv');
    pose proof (type_of_encoded d v R) as T; pose proof (type_of_encoded d v' R') as T'; rewrite <- Ev in T; rewrite <- Ev' in T';
    (destruct (Z.eq_dec (type_code v) (type_code v')) as [Et|Et];
     [|rewrite cmp_types, T, T', gt_lt_code by congruence;
       destruct k as [t p x|fs], k' as [t' p' x'|fs']; rewrite Tv, Tv' in *; cbn [order];
       [destruct (t ?= t') eqn:C; [apply Z.compare_eq in C; congruence|reflexivity|reflexivity]
       |destruct (Z.leb_spec t 2), (Z.compare_spec t 2); try lia; reflexivity
       |destruct (Z.leb_spec t' 2), (Z.compare_spec 2 t'); try lia; reflexivity
       |congruence]]).
    - inversion H as [n0 w p x Rw S0|o Ro|]; inversion H' as [n1 w' p' x' Rw' S1|o' Ro'|]; subst.
      + assert (w = v) by (eapply encode_inj; eauto). assert (w' = v') by (eapply encode_inj; eauto). subst. cbn [order]. rewrite Et, Z.compare_refl. cbn [then_].
        apply scalar_compare; auto.
      + exfalso. apply (scalar_ty _ _ _ Rw S0). lia.
      + exfalso. apply (scalar_ty _ _ _ Rw' S1). lia.
      + assert (Vo : VRecord o = v) by (eapply encode_inj; eauto). assert (Vo' : VRecord o' = v') by (eapply encode_inj; eauto). subst v v'. rewrite cmp_rec0 by congruence. cbn [order encode]. unfold encode_datarec_offset. rewrite Z.compare_refl. cbn [then_]. rewrite num_code. apply gt_lt_code. exact N.
    - inversion H as [n0 w p x Rw S0| |n0 o len tag ks Ro Hm Hg F]; inversion H' as [n1 w' p' x' Rw' S1| |n1 o' len' tag' ks' Ro' Hm' Hg' F']; subst.
      + assert (w = v) by (eapply encode_inj; eauto). assert (w' = v') by (eapply encode_inj; eauto). subst. cbn [order]. rewrite Et, Z.compare_refl. cbn [then_].
        apply scalar_compare; auto.
      + exfalso. apply (scalar_ty _ _ _ Rw S0). lia.
      + exfalso. apply (scalar_ty _ _ _ Rw' S1). lia.
      + assert (Vo : VRecord o = v) by (eapply encode_inj; eauto). assert (Vo' : VRecord o' = v') by (eapply encode_inj; eauto). subst v v'. rewrite cmp_rec by congruence. cbn [encode]. unfold encode_datarec_offset. rewrite (head_len _ _ _ Hm Hg), (head_len _ _ _ Hm' Hg'), order_rec.
        assert (Lk : length ks = len) by (apply F2_length in F; rewrite map_length, seq_length in F; auto).
        assert (Lk' : length ks' = len') by (apply F2_length in F'; rewrite map_length, seq_length in F'; auto).
        rewrite Lk, Lk'. destruct (Z.eqb_spec (Z.of_nat len) (Z.of_nat len')) as [E|E]; cbn [negb].
        * assert (Ll : len' = len) by lia. clear Lk Lk' Hm' E. subst len'. rewrite Nat.compare_refl. cbn [then_]. rewrite Nat2Z.id.
          eapply fields_compare; [|exact F|exact F']. intros x y k k' Hx Hy. exact (IH x y k k' Hx Hy).
        * rewrite gt_lt_code by exact E. destruct (Nat.compare_spec len len'), (Z.compare_spec (Z.of_nat len) (Z.of_nat len')); try lia; reflexivity.
  Qed.

  (** ** Consequences *)
  Lemma cmp_opp n a b k k' : content_of n a k -> content_of n b k' -> compare_words n b a = - compare_words n a b.
  Proof. intros H H'. rewrite (compare_content _ _ _ _ _ H H'), (compare_content _ _ _ _ _ H' H), (order_opp k k'). destruct (order k k'); reflexivity. Qed.
  Lemma cmp_equal n a b k k' : content_of n a k -> content_of n b k' -> (compare_words n a b = WG_EQUAL <-> k = k').
  Proof. intros H H'. rewrite (compare_content _ _ _ _ _ H H'), <- order_eq. destruct (order k k'); cbn; unfold WG_EQUAL; split; congruence. Qed.
  Lemma cmp_trans n a b c k k' k'' : content_of n a k -> content_of n b k' -> content_of n c k'' ->
    compare_words n a b <= 0 -> compare_words n b c <= 0 -> compare_words n a c <= 0.
  Proof.
    intros H H' H''. rewrite (compare_content _ _ _ _ _ H H'), (compare_content _ _ _ _ _ H' H''), (compare_content _ _ _ _ _ H H'').
    destruct (order k k') eqn:E1, (order k' k'') eqn:E2; cbn [code_of]; intros; try lia.
    - apply order_eq in E1, E2. subst. rewrite order_refl. cbn. lia.
    - apply order_eq in E1. subst. rewrite E2. cbn. lia.
    - apply order_eq in E2. subst. rewrite E1. cbn. lia.
    - rewrite (order_trans _ _ _ E1 E2). cbn. lia.
  Qed.
End Main.
