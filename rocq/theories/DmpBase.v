(** Lists of bytes: reading and writing numbers in them. *)
From Coq Require Import Bool Arith ZArith Lia List.
From Verif Require Import DmpModel DmpSpec DmpCrc.
Import ListNotations.
Open Scope Z_scope.

Lemma ext_nth {A} (a : list A) : forall b, (forall i, nth_error a i = nth_error b i) -> a = b.
Proof.
  induction a as [|x a IH]; intros [|y b] H; [reflexivity| | |].
  - discriminate (H 0%nat).
  - discriminate (H 0%nat).
  - f_equal; [now injection (H 0%nat)|]. apply IH. intros i. apply (H (S i)).
Qed.
Lemma nth_app {A} (a b : list A) i :
  nth_error (a ++ b) i = if Nat.ltb i (length a) then nth_error a i else nth_error b (i - length a).
Proof.
  destruct (Nat.ltb_spec i (length a)); [now apply nth_error_app1|now apply nth_error_app2].
Qed.
Lemma nth_firstn {A} (l : list A) : forall n i, nth_error (firstn n l) i = if Nat.ltb i n then nth_error l i else None.
Proof.
  induction l as [|x l IH]; intros [|n] [|i]; cbn [firstn nth_error]; try reflexivity.
  - destruct (Nat.ltb (S i) (S n)); reflexivity.
  - now rewrite IH.
Qed.
Lemma nth_skipn {A} (l : list A) : forall n i, nth_error (skipn n l) i = nth_error l (n + i).
Proof.
  induction l as [|x l IH]; intros [|n] i; cbn; try reflexivity.
  - now destruct i.
  - apply IH.
Qed.

Lemma put_length m o l : (o + length l <= length m)%nat -> length (put m o l) = length m.
Proof. intros H. unfold put. rewrite !app_length, firstn_length, skipn_length. lia. Qed.
Lemma nth_put m o l i : (o + length l <= length m)%nat ->
  nth_error (put m o l) i =
  if Nat.leb o i && Nat.ltb i (o + length l) then nth_error l (i - o) else nth_error m i.
Proof.
  intros H. unfold put. rewrite nth_app, firstn_length, Nat.min_l by lia.
  destruct (Nat.ltb_spec i o).
  - rewrite nth_firstn. destruct (Nat.ltb_spec i o); [|lia].
    destruct (Nat.leb_spec o i); [lia|]. reflexivity.
  - destruct (Nat.leb_spec o i); [|lia]. cbn [andb]. rewrite nth_app, nth_skipn.
    destruct (Nat.ltb_spec (i - o) (length l)), (Nat.ltb_spec i (o + length l)); try lia; [reflexivity|].
    f_equal. lia.
Qed.
Lemma nth_put_out m o l i : (o + length l <= length m)%nat -> ~ among i o (length l) ->
  nth_error (put m o l) i = nth_error m i.
Proof.
  intros H Hn. rewrite nth_put by exact H. unfold among in Hn.
  destruct (Nat.leb_spec o i), (Nat.ltb_spec i (o + length l)); try reflexivity. lia.
Qed.

Lemma bytes_length k : forall z, length (bytes k z) = k.
Proof. induction k as [|k IH]; intros z; [reflexivity|]. cbn. now rewrite IH. Qed.
Lemma bytes_nth k : forall z j, (j < k)%nat -> nth_error (bytes k z) j = Some ((z / 256 ^ Z.of_nat j) mod 256).
Proof.
  induction k as [|k IH]; intros z [|j] H; try lia.
  - cbn. now rewrite Z.div_1_r.
  - cbn [bytes nth_error]. rewrite IH by lia. f_equal. f_equal.
    rewrite Nat2Z.inj_succ, Z.pow_succ_r by lia. rewrite Z.div_div; [reflexivity|lia|].
    apply Z.pow_pos_nonneg; lia.
Qed.
Lemma bytes_byte k : forall z, Forall byte (bytes k z).
Proof.
  induction k as [|k IH]; intros z; cbn; constructor; [apply Z.mod_pos_bound; lia|apply IH].
Qed.
Lemma unsigned_bytes k : forall z, unsigned (bytes k z) = z mod 256 ^ Z.of_nat k.
Proof.
  induction k as [|k IH]; intros z; [cbn; now rewrite Z.mod_1_r|].
  cbn [bytes unsigned]. rewrite IH, Nat2Z.inj_succ, Z.pow_succ_r by lia.
  rewrite Z.rem_mul_r; [reflexivity|lia|apply Z.pow_pos_nonneg; lia].
Qed.
Lemma slice_bytes m o k z : holds m o k z -> firstn k (skipn o m) = bytes k z.
Proof.
  intros [_ H]. apply ext_nth. intros i. rewrite nth_firstn, nth_skipn.
  destruct (Nat.ltb_spec i k).
  - rewrite H, bytes_nth by assumption. reflexivity.
  - symmetry. apply nth_error_None. rewrite bytes_length. lia.
Qed.
Lemma holds_get32 m o z : holds m o 4 z -> get32 m o = z.
Proof.
  intros H. unfold get32. rewrite (slice_bytes _ _ _ _ H), unsigned_bytes.
  destruct H as [H _]. unfold s32.
  change (8 * Z.of_nat 4 - 1) with 31 in H. change (256 ^ Z.of_nat 4) with (2 ^ 32).
  rewrite <- Zplus_mod_idemp_l, Z.mod_mod, Zplus_mod_idemp_l by (apply Z.pow_nonzero; lia).
  rewrite Z.mod_small; [lia|]. change (2 ^ 31) with 2147483648 in *. change (2 ^ 32) with 4294967296. lia.
Qed.
Lemma holds_get64 m o z : holds m o 8 z -> get64 m o = z.
Proof.
  intros H. unfold get64. rewrite (slice_bytes _ _ _ _ H), unsigned_bytes.
  destruct H as [H _]. unfold s64.
  change (8 * Z.of_nat 8 - 1) with 63 in H. change (256 ^ Z.of_nat 8) with (2 ^ 64).
  rewrite <- Zplus_mod_idemp_l, Z.mod_mod, Zplus_mod_idemp_l by (apply Z.pow_nonzero; lia).
  rewrite Z.mod_small; [lia|]. change (2 ^ 63) with 9223372036854775808 in *.
  change (2 ^ 64) with 18446744073709551616. lia.
Qed.
Lemma holds_ext m m' o k z : holds m o k z ->
  (forall i, among i o k -> nth_error m' i = nth_error m i) -> holds m' o k z.
Proof.
  intros [H1 H2] H. split; [exact H1|]. intros j Hj. rewrite H by (unfold among; lia). apply H2, Hj.
Qed.
Lemma holds_put m o k z : (o + k <= length m)%nat ->
  - 2 ^ (8 * Z.of_nat k - 1) <= z < 2 ^ (8 * Z.of_nat k - 1) -> holds (put m o (bytes k z)) o k z.
Proof.
  intros H Hz. split; [exact Hz|]. intros j Hj. rewrite nth_put by (rewrite bytes_length; exact H).
  rewrite bytes_length. destruct (Nat.leb_spec o (o + j)); [|lia].
  destruct (Nat.ltb_spec (o + j) (o + k)); [|lia]. cbn [andb].
  replace (o + j - o)%nat with j by lia. apply bytes_nth, Hj.
Qed.
Lemma put_byte m o l : (o + length l <= length m)%nat -> Forall byte m -> Forall byte l -> Forall byte (put m o l).
Proof.
  intros H Hm Hl. unfold put. rewrite !Forall_app. repeat split.
  - apply Forall_forall. intros x Hx. rewrite Forall_forall in Hm. apply Hm. revert Hx.
    intros Hx. rewrite <- (firstn_skipn o m). apply in_or_app. now left.
  - exact Hl.
  - apply Forall_forall. intros x Hx. rewrite Forall_forall in Hm. apply Hm.
    rewrite <- (firstn_skipn (o + length l) m). apply in_or_app. now right.
Qed.
(** the numbers read tell the bytes *)
Lemma unsigned_range l : Forall byte l -> 0 <= unsigned l < 256 ^ Z.of_nat (length l).
Proof.
  induction 1 as [|b l Hb Hl IH]; [cbn; lia|]. cbn [unsigned length]. rewrite Nat2Z.inj_succ, Z.pow_succ_r by lia.
  unfold byte in Hb. nia.
Qed.
Lemma unsigned_inj l : forall l', length l = length l' -> Forall byte l -> Forall byte l' -> unsigned l = unsigned l' -> l = l'.
Proof.
  induction l as [|b l IH]; intros [|b' l'] Hn Hl Hl' H; try discriminate; [reflexivity|].
  inversion Hl as [|? ? B R]; subst. inversion Hl' as [|? ? B' R']; subst. cbn [unsigned] in H. unfold byte in B, B'.
  assert (b = b' /\ unsigned l = unsigned l') as [-> Hu] by lia.
  f_equal. apply IH; auto.
Qed.
Lemma get32_inj m m' o : (o + 4 <= length m)%nat -> (o + 4 <= length m')%nat -> Forall byte m -> Forall byte m' ->
  get32 m o = get32 m' o -> firstn 4 (skipn o m) = firstn 4 (skipn o m').
Proof.
  intros H H' Hb Hb' E.
  assert (Hf : forall x, Forall byte x -> Forall byte (firstn 4 (skipn o x))).
  { intros x Hx. rewrite Forall_forall in *. intros y Hy. apply Hx.
    rewrite <- (firstn_skipn o x). apply in_or_app. right.
    rewrite <- (firstn_skipn 4 (skipn o x)). apply in_or_app. now left. }
  assert (Hl : forall x : list Z, (o + 4 <= length x)%nat -> length (firstn 4 (skipn o x)) = 4%nat).
  { intros x Hx. rewrite firstn_length, skipn_length. lia. }
  apply unsigned_inj; auto; [now rewrite !Hl|].
  unfold get32, s32 in E.
  pose proof (unsigned_range _ (Hf m Hb)) as R. pose proof (unsigned_range _ (Hf m' Hb')) as R'.
  rewrite Hl in R by exact H. rewrite Hl in R' by exact H'. change (256 ^ Z.of_nat 4) with 4294967296 in *.
  change (2 ^ 31) with 2147483648 in E. change (2 ^ 32) with 4294967296 in E.
  set (u := unsigned (firstn 4 (skipn o m))) in *. set (v := unsigned (firstn 4 (skipn o m'))) in *.
  pose proof (Z_div_mod_eq_full (u + 2147483648) 4294967296).
  pose proof (Z.mod_pos_bound (u + 2147483648) 4294967296 ltac:(lia)).
  pose proof (Z_div_mod_eq_full (v + 2147483648) 4294967296).
  pose proof (Z.mod_pos_bound (v + 2147483648) 4294967296 ltac:(lia)). lia.
Qed.
Lemma get32_ext m m' o : (forall i, among i o 4 -> nth_error m' i = nth_error m i) -> get32 m' o = get32 m o.
Proof.
  intros H. unfold get32. do 2 f_equal. apply ext_nth. intros i. rewrite !nth_firstn, !nth_skipn.
  destruct (Nat.ltb_spec i 4); [|reflexivity]. apply H. unfold among. lia.
Qed.
Lemma get64_ext m m' o : (forall i, among i o 8 -> nth_error m' i = nth_error m i) -> get64 m' o = get64 m o.
Proof.
  intros H. unfold get64. do 2 f_equal. apply ext_nth. intros i. rewrite !nth_firstn, !nth_skipn.
  destruct (Nat.ltb_spec i 8); [|reflexivity]. apply H. unfold among. lia.
Qed.
Lemma get32_holds m o z : Forall byte m -> (o + 4 <= length m)%nat ->
  - 2 ^ (8 * Z.of_nat 4 - 1) <= z < 2 ^ (8 * Z.of_nat 4 - 1) -> get32 m o = z -> holds m o 4 z.
Proof.
  intros Hb Ho Hz E.
  pose proof (holds_put m o 4 z Ho Hz) as Hp. set (m' := put m o (bytes 4 z)) in *.
  assert (Lm : length m' = length m) by (apply put_length; rewrite bytes_length; exact Ho).
  assert (Bm : Forall byte m') by (apply put_byte; [rewrite bytes_length; exact Ho|exact Hb|apply bytes_byte]).
  assert (S : firstn 4 (skipn o m) = firstn 4 (skipn o m')).
  { apply get32_inj; [exact Ho|lia|exact Hb|exact Bm|]. rewrite (holds_get32 _ _ _ Hp). exact E. }
  eapply holds_ext; [exact Hp|]. unfold among. intros i Hi.
  apply (f_equal (fun l => nth_error l (i - o))) in S. rewrite !nth_firstn, !nth_skipn in S.
  destruct (Nat.ltb_spec (i - o) 4); [|lia]. replace (o + (i - o))%nat with i in S by lia. exact S.
Qed.
