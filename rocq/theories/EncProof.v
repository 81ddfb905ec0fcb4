From Coq Require Import List ZArith Bool Lia.
From Verif Require Import Word64 BitsProof AllocModel AllocSpec AllocProof EncModel EncSpec.
Import ListNotations.
Open Scope Z_scope.

Lemma lor_tag x k b : 0 <= k -> 0 <= b < 2 ^ k -> x mod 2 ^ k = 0 -> Z.lor x b = x + b.
Proof.
  intros Hk Hb Hx. pose proof (Z.div_mod x (2 ^ k) ltac:(lia)) as D. rewrite Hx, Z.add_0_r, Z.mul_comm in D.
  rewrite D at 1. rewrite lor_add by auto. lia.
Qed.
Lemma land3 w : Z.land w 3 = w mod 4.
Proof. change 3 with (Z.ones 2). apply Z.land_ones. lia. Qed.
Lemma land7 w : Z.land w 7 = w mod 8.
Proof. change 7 with (Z.ones 3). apply Z.land_ones. lia. Qed.
Lemma land15 w : Z.land w 15 = w mod 16.
Proof. change 15 with (Z.ones 4). apply Z.land_ones. lia. Qed.
Lemma land255 w : Z.land w 255 = w mod 256.
Proof. change 255 with (Z.ones 8). apply Z.land_ones. lia. Qed.
Lemma clear_low w k : 0 <= k -> Z.land w (Z.lnot (Z.ones k)) = w - w mod 2 ^ k.
Proof.
  intros Hk. rewrite <- Z.ldiff_land, Z.ldiff_ones_r, Z.shiftr_div_pow2, Z.shiftl_mul_pow2 by lia.
  pose proof (Z.div_mod w (2 ^ k) ltac:(lia)). lia.
Qed.
Lemma clear3 w : Z.land w (Z.lnot 3) = w - w mod 4.
Proof. apply (clear_low w 2). lia. Qed.
Lemma clear7 w : Z.land w (Z.lnot 7) = w - w mod 8.
Proof. apply (clear_low w 3). lia. Qed.

Lemma fits_smallint_iff i : in64 i -> fits_smallint i = true <-> - 2 ^ 60 <= i < 2 ^ 60.
Proof.
  intros Hi. unfold fits_smallint, shr. rewrite Z.shiftr_div_pow2 by lia. rewrite Z.eqb_eq.
  unfold shl64. pose proof (w64_in (i * 2 ^ 3)) as W. unfold in64, int_min, int_max in *.
  split.
  - intros H. change (2 ^ 3) with 8 in *. pose proof (Z.div_mod (w64 (i * 8)) 8 ltac:(lia)).
    pose proof (Z.mod_pos_bound (w64 (i * 8)) 8 ltac:(lia)). lia.
  - intros H. rewrite w64_id by (unfold in64, int_min, int_max; lia). apply Z.div_mul. lia.
Qed.

Lemma enc_smallint i : - 2 ^ 60 <= i < 2 ^ 60 -> encode_smallint i = i * 8 + 3.
Proof.
  intros H. unfold encode_smallint, shl64. rewrite w64_id by (unfold in64, int_min, int_max; lia).
  apply (lor_add i 3 3); lia.
Qed.
Lemma enc_var i : - 2 ^ 59 <= i < 2 ^ 59 -> encode_var i = i * 16 + 7.
Proof.
  intros H. unfold encode_var, shl64. rewrite w64_id by (unfold in64, int_min, int_max; lia).
  apply (lor_add i 7 4); lia.
Qed.
Lemma enc_char i : -128 <= i <= 127 -> encode_char i = i * 256 + 31.
Proof.
  intros H. unfold encode_char, shl64. rewrite w64_id by (unfold in64, int_min, int_max; lia).
  apply (lor_add i 31 8); lia.
Qed.
Lemma enc32 i b : - 2 ^ 23 <= i < 2 ^ 23 -> 0 <= b < 256 -> Z.lor (shl32 i 8) b = i * 256 + b.
Proof.
  intros H Hb. unfold shl32. rewrite w32_id by lia. apply (lor_add i b 8); lia.
Qed.
Lemma enc_time i : 0 <= i <= 8640000 -> encode_time i = i * 256 + 63 - (if i <? 2 ^ 23 then 0 else 2 ^ 32).
Proof.
  intros H. unfold encode_time. destruct (Z.ltb_spec i (2 ^ 23)).
  - rewrite enc32 by lia. lia.
  - unfold shl32. assert (E : w32 (i * 2 ^ 8) = (i - 2 ^ 24) * 2 ^ 8).
    { unfold w32. rewrite <- (Z.mod_add _ (-1)) by lia. rewrite Z.mod_small by lia. lia. }
    rewrite E, lor_add by lia. lia.
Qed.
Lemma enc_off o b : o mod 8 = 0 -> 0 <= b < 8 -> Z.lor o b = o + b.
Proof. intros. apply (lor_tag o 3); auto; lia. Qed.

Ltac enc_tac := repeat match goal with
  | H : box _ |- _ => destruct H
  | H : _ /\ _ |- _ => destruct H
  end;
  unfold encode_fullint_offset, encode_fulldouble_offset, encode_datarec_offset, encode_shortstr_offset, encode_longstr_offset,
         encode_date, encode_fixpoint, encode_anonconst in *;
  rewrite ?enc_smallint, ?enc_var, ?enc_char, ?enc_time, ?enc32 in * by lia;
  rewrite ?enc_off in * by (auto; lia).

Lemma encode_inj d v v' : in_range d v -> in_range d v' -> encode v = encode v' -> v = v'.
Proof.
  assert (M : forall o, o mod 8 = 0 -> exists q, o = 8 * q) by (intros o Ho; exists (o / 8); pose proof (Z.div_mod o 8); lia).
  assert (B : forall o, box o -> exists q, 0 < q /\ o = 8 * q)
    by (intros o (A1&A2); destruct (M o A2) as (q&->); exists q; lia).
  destruct v, v'; cbn [in_range encode]; intros R R' E; try reflexivity;
    enc_tac; unfold int_max in *;
    repeat match goal with H : ?o mod 8 = 0 |- _ => apply M in H; destruct H as (?q&->) end;
    repeat match goal with H : context [if ?i <? 2 ^ 23 then _ else _] |- _ => destruct (Z.ltb_spec i (2 ^ 23)) end;
    try (exfalso; lia); try (f_equal; lia).
  assert (q = q0) by lia. subst. reflexivity.
Qed.

Lemma modadd a n b m : m <> 0 -> n mod m = 0 -> (a * n + b) mod m = b mod m.
Proof.
  intros Hm Hn. rewrite Z.add_mod, Z.mul_mod, Hn, Z.mul_0_r, Z.mod_0_l, Z.add_0_l, Z.mod_mod by auto. reflexivity.
Qed.

Lemma tag8 o b : o mod 8 = 0 -> 0 <= b < 8 -> (o + b) mod 8 = b /\ (o + b) mod 4 = b mod 4.
Proof.
  intros H Hb. pose proof (Z.div_mod o 8 ltac:(lia)) as D. rewrite H in D.
  replace (o + b) with ((o / 8) * 8 + b) by lia. rewrite !(modadd (o / 8) 8) by (lia || reflexivity).
  split; auto. apply Z.mod_small. lia.
Qed.

Lemma type_of_encoded d v : in_range d v -> get_type d (encode v) = type_code v.
Proof.
  destruct v; cbn [in_range encode type_code]; intros R; [reflexivity| | | | | | | | | | | |];
    unfold get_type, isvar, issmallint; rewrite ?land3, ?land7, ?land15, ?land255.
  - rewrite enc_smallint by lia. destruct (Z.eqb_spec (i * 8 + 3) 0); [lia|].
    assert (M4 : (i * 8 + 3) mod 4 = 3) by (rewrite (modadd i 8) by (lia || reflexivity); reflexivity).
    assert (M8 : (i * 8 + 3) mod 8 = 3) by (rewrite (modadd i 8) by (lia || reflexivity); reflexivity).
    rewrite M4, M8. cbn [Z.eqb Pos.eqb].
    destruct (Z.eqb_spec ((i * 8 + 3) mod 16) 7) as [E|_]; [|reflexivity].
    pose proof (Z.div_mod (i * 8 + 3) 16). lia.
  - destruct R as (R1&R2). unfold encode_fullint_offset. rewrite enc_off by (auto; lia). destruct (tag8 o 1 R2) as (M8&M4); [lia|].
    destruct (Z.eqb_spec (o + 1) 0); [lia|]. rewrite M8, M4. reflexivity.
  - destruct R as (R1&R2). unfold encode_fulldouble_offset. rewrite enc_off by (auto; lia). destruct (tag8 o 2 R2) as (M8&M4); [lia|].
    destruct (Z.eqb_spec (o + 2) 0); [lia|]. rewrite M8, M4. reflexivity.
  - destruct R as (R1&R2). unfold encode_datarec_offset. replace o with (o + 0) by lia. destruct (tag8 o 0 R2) as (M8&M4); [lia|].
    destruct (Z.eqb_spec (o + 0) 0); [lia|]. rewrite M8, M4. reflexivity.
  - destruct R as (R1&R2). unfold encode_shortstr_offset. rewrite enc_off by (auto; lia). destruct (tag8 o 6 R2) as (M8&M4); [lia|].
    destruct (Z.eqb_spec (o + 6) 0); [lia|]. rewrite M8, M4. reflexivity.
  - destruct R as ((R1&R2)&R3&_). unfold encode_longstr_offset. rewrite enc_off by (auto; lia).
    assert (E : o + 4 = (o / 8) * 8 + 4) by (pose proof (Z.div_mod o 8); lia).
    destruct (Z.eqb_spec (o + 4) 0); [lia|].
    assert (M4 : (o + 4) mod 4 = 0) by (rewrite E, (modadd (o / 8) 8) by (lia || reflexivity); reflexivity).
    assert (M8 : (o + 4) mod 8 = 4) by (rewrite E, (modadd (o / 8) 8) by (lia || reflexivity); reflexivity).
    rewrite M4, M8. cbn [Z.eqb Pos.eqb]. unfold decode_longstr_offset. rewrite clear7, M8.
    replace (o + 4 - 4 + 8) with (o + 8) by lia. auto.
  - rewrite enc_char by lia. destruct (Z.eqb_spec (c * 256 + 31) 0); [lia|].
    rewrite !(modadd c 256) by (lia || reflexivity). reflexivity.
  - unfold encode_fixpoint. rewrite enc32 by lia. destruct (Z.eqb_spec (k * 256 + 15) 0); [lia|].
    rewrite !(modadd k 256) by (lia || reflexivity). reflexivity.
  - unfold encode_date. rewrite enc32 by lia. destruct (Z.eqb_spec (i * 256 + 47) 0); [lia|].
    rewrite !(modadd i 256) by (lia || reflexivity). reflexivity.
  - rewrite enc_time by lia.
    assert (E : exists j, i * 256 + 63 - (if i <? 2 ^ 23 then 0 else 2 ^ 32) = j * 256 + 63).
    { destruct (i <? 2 ^ 23); [exists i|exists (i - 2 ^ 24)]; lia. }
    destruct E as (j&->). destruct (Z.eqb_spec (j * 256 + 63) 0); [lia|].
    rewrite !(modadd j 256) by (lia || reflexivity). reflexivity.
  - unfold encode_anonconst. rewrite enc32 by lia. destruct (Z.eqb_spec (i * 256 + 95) 0); [lia|].
    rewrite !(modadd i 256) by (lia || reflexivity). reflexivity.
  - rewrite enc_var by lia. destruct (Z.eqb_spec (i * 16 + 7) 0); [lia|].
    rewrite !(modadd i 16) by (lia || reflexivity). reflexivity.
Qed.

Lemma not_illegal d v : in_range d v -> encode v <> WG_ILLEGAL.
Proof.
  intros R E. pose proof (type_of_encoded d v R) as T. rewrite E in T.
  change (get_type d WG_ILLEGAL) with (-1) in T.
  destruct v; cbn [type_code in_range] in *; try discriminate. lia.
Qed.

(** Immediate values decode to themselves. *)
Lemma shr8 i b : 0 <= b < 256 -> shr (i * 256 + b) 8 = i.
Proof.
  intros H. unfold shr. rewrite Z.shiftr_div_pow2 by lia. change (2 ^ 8) with 256.
  rewrite Z.div_add_l by lia. rewrite (Z.div_small b) by lia. lia.
Qed.
Lemma immediate_roundtrip d : forall v, in_range d v ->
  match v with
  | VInt i => decode_int d (encode v) = i
  | VChar c => decode_char (encode v) = c
  | VFix k => decode_fixpoint (encode v) = k
  | VDate i => decode_date (encode v) = i
  | VTime i => decode_time (encode v) = i
  | VAnon i => decode_anonconst (encode v) = i
  | VVar i => decode_var (encode v) = i
  | _ => True
  end.
Proof.
  destruct v; cbn [in_range encode]; auto; intros R.
  - rewrite enc_smallint by lia. unfold decode_int, issmallint. rewrite land7, (modadd i 8) by (lia || reflexivity).
    cbn [Z.eqb]. change (3 mod 8 =? 3) with true. cbv iota. unfold decode_smallint, shr.
    rewrite Z.shiftr_div_pow2 by lia. change (2 ^ 3) with 8. rewrite Z.div_add_l by lia. rewrite (Z.div_small 3) by lia. lia.
  - rewrite enc_char by lia. unfold decode_char. rewrite shr8 by lia. rewrite Z.mod_small by lia. lia.
  - unfold encode_fixpoint, decode_fixpoint. rewrite enc32, shr8 by lia. auto.
  - unfold encode_date, decode_date. rewrite enc32, shr8 by lia. apply w32_id. lia.
  - rewrite enc_time by lia. unfold decode_time.
    replace ((i * 256 + 63 - (if i <? 2 ^ 23 then 0 else 2 ^ 32)) mod 2 ^ 32) with (i * 256 + 63); [apply shr8; lia|].
    destruct (Z.ltb_spec i (2 ^ 23)).
    + rewrite Z.mod_small by lia. lia.
    + symmetry. rewrite <- (Z.mod_add _ 1) by lia. rewrite Z.mod_small by lia. lia.
  - unfold encode_anonconst, decode_anonconst. rewrite enc32, shr8 by lia. auto.
  - rewrite enc_var by lia. unfold decode_var, shr. rewrite Z.shiftr_div_pow2 by lia. change (2 ^ 4) with 16.
    rewrite Z.div_add_l by lia. rewrite (Z.div_small 7) by lia. lia.
Qed.

(** Boxes. *)
Lemma asteps_trans s t u : asteps s t -> asteps t u -> asteps s u.
Proof.
  intros A B. revert A. induction B as [|t u v B IH S]; intros A; [exact A|]. exact (a_step _ _ _ (IH A) S).
Qed.
Lemma quiet_steps b s t : quiet b s t -> asteps s t.
Proof. induction 1 as [|s t u Q IH S]; [constructor|]. exact (a_step _ _ _ IH S). Qed.
Lemma quiet_in b s t : quiet b s t -> In b (snd t).
Proof. induction 1; auto. Qed.

Lemma quiet_kept b s t j : areach s -> quiet b s t -> 0 <= j -> 8 * j + 8 <= ob_len b ->
  mem (fst t) (ob_off b + 8 * j) = mem (fst s) (ob_off b + 8 * j).
Proof.
  intros R Q Hj Hl. induction Q as [|s t u Q IH S Hin NW]; auto. specialize (IH R).
  assert (Rt : areach t). { destruct R as (d0&B&P). exists d0. split; auto. eapply asteps_trans; eauto. eapply quiet_steps; eauto. }
  destruct t as [d L], u as [d' L']. cbn [fst snd] in *.
  destruct (contents_kept d L d' L' b j Rt S) as [E|(v&E)]; auto.
  - apply (quiet_in _ _ _ Q).
  - congruence.
  - exfalso. apply NW. exists j, v. auto.
Qed.

Lemma areach_trans s t : areach s -> asteps s t -> areach t.
Proof. intros (d0&B&P) S. exists d0. split; auto. eapply asteps_trans; eauto. Qed.

(** Storing into a new object of area [k]. *)
Lemma box_history d L k o d' v : areach (d, L) -> alloc_fixlen d k = AOk o d' ->
  let d2 := set_mem d' (store (mem d') o v) in let b := cell d2 k o in
  box o /\ asteps (d, L) (d2, b :: L) /\ 8 <= ob_len b /\
  forall s, quiet b (d2, b :: L) s -> mem (fst s) o = v.
Proof.
  intros R E d2 b.
  destruct (alloc_fresh d L k o d' R E) as (F1&F2&F3&F4).
  assert (S1 : asteps (d, L) (d', b :: L)) by (refine (a_step _ _ _ (a_refl _) _); apply (as_alloc d L k o d'); exact E).
  assert (R1 : areach (d', b :: L)) by (eapply areach_trans; eauto).
  destruct (reach_inv _ R1) as (F&I). cbn [fst snd] in I.
  assert (Hlen : 8 <= ob_len b).
  { destruct (i_in_L _ _ _ I b) as (X1&X2&_); [simpl; auto|].
    destruct (subs (areas d' k)) eqn:Es.
    - exfalso. destruct (i_none _ _ _ I k Es) as (_&N). apply (N b); [simpl; auto|reflexivity].
    - destruct (i_olen _ _ _ I k) as (O1&_); [rewrite Es; discriminate|]. cbn. lia. }
  assert (S2 : astep (d', b :: L) (d2, b :: L)).
  { pose proof (as_write d' (b :: L) b 0 v) as W. cbn [ob_off] in W. replace (ob_off b + 8 * 0) with o in W by (cbn; lia).
    apply W; [simpl; auto|lia|lia]. }
  assert (S3 : asteps (d, L) (d2, b :: L)) by (exact (a_step _ _ _ S1 S2)).
  split; [|split; [auto|split; [auto|]]].
  - split; auto. destruct (i_seg _ _ _ I) as (X1&X2&_). unfold b in *. cbn in Hlen. split; [auto|].
    change (areas d2 k) with (areas d' k) in Hlen. lia.
  - intros s Q.
    assert (R2 : areach (d2, b :: L)) by (exact (areach_trans _ _ R S3)).
    pose proof (quiet_kept b _ _ 0 R2 Q ltac:(lia) ltac:(lia)) as K.
    replace (ob_off b + 8 * 0) with o in K by (cbn; lia). rewrite K. cbn. apply store_same.
Qed.

Lemma int_roundtrip d L i w d' : areach (d, L) -> in64 i -> encode_int d i = (w, d') -> w <> WG_ILLEGAL ->
  (forall s, decode_int s w = i) \/
  exists b, asteps (d, L) (d', b :: L) /\ forall s, quiet b (d', b :: L) s -> decode_int (fst s) w = i.
Proof.
  intros R Hi E Hw. unfold encode_int in E. destruct (fits_smallint i) eqn:Ef.
  - left. inversion E; subst. apply fits_smallint_iff in Ef; auto. intros s.
    exact (immediate_roundtrip s (VInt i) Ef).
  - destruct (alloc_fixlen d word_area) as [o d1| |] eqn:Ea; inversion E; subst; try congruence. right.
    destruct (box_history d L word_area o d1 i R Ea) as (B&S&_&Q).
    eexists. split; [exact S|]. intros s Hq. specialize (Q s Hq). destruct B as (B1&B2).
    unfold encode_fullint_offset. rewrite enc_off by (auto; lia).
    assert (E1 : o + 1 = (o / 8) * 8 + 1) by (pose proof (Z.div_mod o 8); lia).
    unfold decode_int, issmallint, isfullint. rewrite land7, land3. unfold decode_fullint_offset. rewrite clear3.
    rewrite !E1, !(modadd (o / 8) 8) by (lia || reflexivity). change (1 mod 8 =? 3) with false. change (1 mod 4 =? 1) with true.
    cbv iota. replace (o / 8 * 8 + 1 - 1 mod 4) with o by (change (1 mod 4) with 1; lia). auto.
Qed.

Lemma double_roundtrip d L i w d' : areach (d, L) -> encode_double d i = (w, d') -> w <> WG_ILLEGAL ->
  exists b, asteps (d, L) (d', b :: L) /\ forall s, quiet b (d', b :: L) s -> decode_double (fst s) w = i.
Proof.
  intros R E Hw. unfold encode_double in E.
  destruct (alloc_fixlen d doubleword_area) as [o d1| |] eqn:Ea; inversion E; subst; try congruence.
  destruct (box_history d L doubleword_area o d1 i R Ea) as (B&S&_&Q).
  eexists. split; [exact S|]. intros s Hq. specialize (Q s Hq). destruct B as (B1&B2).
  unfold encode_fulldouble_offset. rewrite enc_off by (auto; lia).
  assert (E1 : o + 2 = (o / 8) * 8 + 2) by (pose proof (Z.div_mod o 8); lia).
  unfold decode_double, isfulldouble. rewrite land7. unfold decode_fulldouble_offset. rewrite clear7.
  rewrite !E1, !(modadd (o / 8) 8) by (lia || reflexivity). change (2 mod 8 =? 2) with true.
  cbv iota. replace (o / 8 * 8 + 2 - 2 mod 8) with o by (change (2 mod 8) with 2; lia). auto.
Qed.

(** The encoders fail only when no word can be allocated. *)
Lemma int_illegal d L i d' : areach (d, L) -> in64 i -> encode_int d i = (WG_ILLEGAL, d') ->
  alloc_fixlen d word_area = AFail d'.
Proof.
  intros R Hi E. unfold encode_int in E. destruct (fits_smallint i) eqn:Ef.
  - exfalso. inversion E. apply fits_smallint_iff in Ef; auto. exact (not_illegal d' (VInt i) Ef H0).
  - destruct (alloc_fixlen d word_area) as [o d1| |] eqn:Ea; inversion E; subst; auto.
    + exfalso. destruct (box_history d L word_area o d1 i R Ea) as (B&_). exact (not_illegal d (VBoxedInt o) B H0).
    + exfalso. eapply never_fuel; eauto.
Qed.
