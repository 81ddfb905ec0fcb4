(** Doubles: what the operations compute, as real numbers. *)
From Coq Require Import List ZArith Reals Bool Lia Lra Floats.SpecFloat.
From Flocq Require Import Core BinarySingleNaN Relative.
From Verif Require Import Word64 ArithModel ArithSpec ArithRealSpec ArithProof.
Open Scope Z_scope.

Notation B64 := (binary_float 53 1024).
Local Instance Hprec : FLX.Prec_gt_0 53 := eq_refl _.
Local Instance Hmax : Prec_lt_emax 53 1024 := eq_refl _.

Lemma double_B x : double x -> exists b : B64, x = B2SF b.
Proof. intro H. exists (SF2B x H). now rewrite B2SF_SF2B. Qed.
Lemma double_of_B (b : B64) : double (B2SF b).
Proof. apply valid_binary_B2SF. Qed.
Lemma is_fin_B (b : B64) : is_fin (B2SF b) = is_finite b.
Proof. now destruct b. Qed.
Lemma realv_B (b : B64) : realv (B2SF b) = B2R b.
Proof. unfold realv. apply SF2R_B2SF. Qed.

Lemma round_nearest_even_equiv s m l : round_nearest_even m l = choice_mode mode_NE s m l.
Proof. case l; [reflexivity|intro c]. case c; [|reflexivity..]. now simpl; unfold Round.cond_incr; case Z.even. Qed.
Lemma binary_round_aux_equiv sx mx ex lx :
  SpecFloat.binary_round_aux 53 1024 sx mx ex lx = binary_round_aux 53 1024 mode_NE sx mx ex lx.
Proof.
  unfold SpecFloat.binary_round_aux, binary_round_aux. set (mrse' := shr_fexp _ _ _ _ _).
  case mrse'; intros mrs' e'; simpl. now rewrite (round_nearest_even_equiv sx).
Qed.
Lemma binary_round_equiv s m e : SpecFloat.binary_round 53 1024 s m e = binary_round 53 1024 mode_NE s m e.
Proof.
  unfold SpecFloat.binary_round, binary_round, shl_align_fexp.
  set (mez := shl_align _ _ _); case mez as [mz ez]. apply binary_round_aux_equiv.
Qed.
Lemma binary_normalize_equiv m e szero :
  SpecFloat.binary_normalize 53 1024 m e szero = B2SF (binary_normalize 53 1024 Hprec Hmax mode_NE m e szero).
Proof. case m as [|p|p]; [now simpl| |]; simpl; rewrite B2SF_SF2B; apply binary_round_equiv. Qed.
Lemma fmul_B (x y : B64) : fmul (B2SF x) (B2SF y) = B2SF (Bmult mode_NE x y).
Proof.
  case x as [sx|sx| |sx mx ex Bx]; case y as [sy|sy| |sy my ey By]; [now trivial..|].
  simpl. rewrite B2SF_SF2B. apply binary_round_aux_equiv.
Qed.
Lemma fadd_B (x y : B64) : fadd (B2SF x) (B2SF y) = B2SF (Bplus mode_NE x y).
Proof.
  case x as [sx|sx| |sx mx ex Bx]; case y as [sy|sy| |sy my ey By]; [now (trivial || simpl; case Bool.eqb)..|].
  apply binary_normalize_equiv.
Qed.
Lemma fsub_B (x y : B64) : fsub (B2SF x) (B2SF y) = B2SF (Bminus mode_NE x y).
Proof.
  case x as [sx|sx| |sx mx ex Bx]; case y as [sy|sy| |sy my ey By]; [now (trivial || simpl; case Bool.eqb)..|].
  unfold fsub. simpl. unfold Zminus. rewrite <- cond_Zopp_negb. apply binary_normalize_equiv.
Qed.
Lemma fdiv_B (x y : B64) : fdiv (B2SF x) (B2SF y) = B2SF (Bdiv mode_NE x y).
Proof.
  case x as [sx|sx| |sx mx ex Bx]; case y as [sy|sy| |sy my ey By]; [now (trivial || simpl; case Bool.eqb)..|].
  unfold fdiv. simpl. rewrite B2SF_SF2B. set (melz := SFdiv_core_binary _ _ _ _ _ _).
  case melz as [[mz ez] lz]. apply binary_round_aux_equiv.
Qed.

Lemma overflow_not_fin s : is_fin (binary_overflow 53 1024 mode_NE s) = false.
Proof. reflexivity. Qed.
Lemma rounded_intro (b : B64) r P s :
  (if Rlt_bool (Rabs (rnd r)) top then B2R b = rnd r /\ is_finite b = true /\ P
   else B2SF b = binary_overflow 53 1024 mode_NE s) -> rounded r (B2SF b).
Proof.
  intro H. destruct (Rlt_bool_spec (Rabs (rnd r)) top) as [L|L].
  - left. destruct H as (H & F & _). repeat split; auto using double_of_B; [rewrite is_fin_B | rewrite realv_B]; auto.
  - right. split; auto. now rewrite H.
Qed.
Lemma fadd_rounded x y : double x -> double y -> is_fin x = true -> is_fin y = true ->
  rounded (realv x + realv y) (fadd x y).
Proof.
  intros (bx & ->)%double_B (by' & ->)%double_B Fx Fy. rewrite is_fin_B in *. rewrite fadd_B, !realv_B.
  pose proof (Bplus_correct 53 1024 Hprec Hmax mode_NE bx by' Fx Fy) as H.
  eapply (rounded_intro _ _ _ (Bsign bx)).
  destruct (Rlt_bool_spec (Rabs (rnd (B2R bx + B2R by'))) top) as [L|L].
  - change (Rabs (round radix2 (SpecFloat.fexp 53 1024) (round_mode mode_NE) (B2R bx + B2R by')) < bpow radix2 1024)%R in L.
    rewrite (Rlt_bool_true _ _ L) in H. exact H.
  - change (bpow radix2 1024 <= Rabs (round radix2 (SpecFloat.fexp 53 1024) (round_mode mode_NE) (B2R bx + B2R by')))%R in L.
    rewrite (Rlt_bool_false _ _ L) in H. exact (proj1 H).
Qed.
Lemma fsub_rounded x y : double x -> double y -> is_fin x = true -> is_fin y = true ->
  rounded (realv x - realv y) (fsub x y).
Proof.
  intros (bx & ->)%double_B (by' & ->)%double_B Fx Fy. rewrite is_fin_B in *. rewrite fsub_B, !realv_B.
  pose proof (Bminus_correct 53 1024 Hprec Hmax mode_NE bx by' Fx Fy) as H.
  eapply (rounded_intro _ _ _ (Bsign bx)).
  destruct (Rlt_bool_spec (Rabs (rnd (B2R bx - B2R by'))) top) as [L|L].
  - change (Rabs (round radix2 (SpecFloat.fexp 53 1024) (round_mode mode_NE) (B2R bx - B2R by')) < bpow radix2 1024)%R in L.
    rewrite (Rlt_bool_true _ _ L) in H. exact H.
  - change (bpow radix2 1024 <= Rabs (round radix2 (SpecFloat.fexp 53 1024) (round_mode mode_NE) (B2R bx - B2R by')))%R in L.
    rewrite (Rlt_bool_false _ _ L) in H. exact (proj1 H).
Qed.
Lemma fmul_rounded x y : double x -> double y -> is_fin x = true -> is_fin y = true ->
  rounded (realv x * realv y) (fmul x y).
Proof.
  intros (bx & ->)%double_B (by' & ->)%double_B Fx Fy. rewrite is_fin_B in *. rewrite fmul_B, !realv_B.
  pose proof (Bmult_correct 53 1024 Hprec Hmax mode_NE bx by') as H. rewrite Fx, Fy in H.
  eapply rounded_intro. exact H.
Qed.
Lemma fdiv_rounded x y : double x -> double y -> is_fin x = true -> is_fin y = true -> is_zero y = false ->
  rounded (realv x / realv y) (fdiv x y).
Proof.
  intros (bx & ->)%double_B (by' & ->)%double_B Fx Fy Z. rewrite is_fin_B in *. rewrite fdiv_B, !realv_B.
  assert (N : B2R by' <> 0%R).
  { destruct by'; cbn in *; try discriminate. apply F2R_neq_0. cbn. now destruct s. }
  pose proof (Bdiv_correct 53 1024 Hprec Hmax mode_NE bx by' N) as H. rewrite Fx in H.
  eapply rounded_intro. exact H.
Qed.

(** Integers as doubles *)
Lemma of_int_rounded z : in64 z -> is_fin (of_int z) = true /\ double (of_int z) /\ realv (of_int z) = rnd (IZR z).
Proof.
  intro Hz. unfold of_int. rewrite binary_normalize_equiv.
  pose proof (binary_normalize_correct 53 1024 Hprec Hmax mode_NE z 0 false) as H. cbv zeta in H.
  assert (E : F2R (Float radix2 z 0) = IZR z) by (unfold F2R; simpl; ring). rewrite E in H.
  assert (R : rounded (IZR z) (B2SF (binary_normalize 53 1024 Hprec Hmax mode_NE z 0 false)))
    by (eapply rounded_intro; exact H).
  destruct R as [(A & B & C & D)|(A & _)]; [auto|exfalso].
  assert (Rabs (rnd (IZR z)) <= bpow radix2 63)%R.
  { apply abs_round_le_generic; [typeclasses eauto|typeclasses eauto| |].
    - apply generic_format_bpow. unfold FLT_exp. lia.
    - rewrite <- abs_IZR. change (bpow radix2 63) with (IZR (2 ^ 63)). apply IZR_le.
      unfold in64, int_min, int_max in Hz. lia. }
  assert (bpow radix2 63 < top)%R by (apply bpow_lt; lia). lra.
Qed.
Lemma rnd_int z : Z.abs z <= 2 ^ 53 -> rnd (IZR z) = IZR z.
Proof.
  intro H. apply round_generic; [typeclasses eauto|].
  destruct (Z.eq_dec (Z.abs z) (2 ^ 53)) as [E|E].
  - assert (G : generic_format radix2 (FLT_exp (-1074) 53) (IZR (2 ^ 53))).
    { change (IZR (2 ^ 53)) with (bpow radix2 53). apply generic_format_bpow. unfold FLT_exp. lia. }
    destruct (Z.abs_spec z) as [(_ & A)|(_ & A)].
    + rewrite A in E. now rewrite E.
    + replace z with (- (2 ^ 53)) by lia. rewrite opp_IZR. apply generic_format_opp, G.
  - apply generic_format_FLT. exists (Float radix2 z 0); cbn; [unfold F2R; cbn; ring|lia|lia].
Qed.
Lemma of_int_exact z : Z.abs z <= 2 ^ 53 -> is_fin (of_int z) = true /\ double (of_int z) /\ realv (of_int z) = IZR z.
Proof.
  intro H. destruct (of_int_rounded z) as (A & B & C); [unfold in64, int_min, int_max; lia|].
  rewrite rnd_int in C by assumption. auto.
Qed.

(** Rounding doubles to integers, as real numbers *)
Lemma value_real x n d : value x n d -> realv x = (IZR n / IZR d)%R.
Proof.
  destruct x as [| | |s m e]; cbn; try tauto.
  - intros (-> & ->). field.
  - intros [(E & -> & ->)|(E & -> & ->)]; unfold F2R; cbn [Fnum Fexp].
    + rewrite mult_IZR. change (2 ^ e) with (Zpower radix2 e). rewrite IZR_Zpower by assumption.
      destruct s; unfold cond_Zopp; cbn [Z.opp]; field.
    + change (2 ^ (- e)) with (Zpower radix2 (- e)). rewrite IZR_Zpower by lia. rewrite bpow_opp.
      pose proof (bpow_gt_0 radix2 e). destruct s; unfold cond_Zopp; cbn [Z.opp]; field; lra.
Qed.
Lemma frac_lt z n d : 0 < d -> ((IZR n / IZR d < IZR z)%R <-> n < z * d).
Proof.
  intro D. assert (P : (0 < IZR d)%R) by (now apply IZR_lt).
  assert (E : IZR n = (IZR n / IZR d * IZR d)%R) by (field; lra). split; intro H.
  - apply lt_IZR. rewrite mult_IZR, E. now apply Rmult_lt_compat_r.
  - apply Rmult_lt_reg_r with (IZR d); auto. rewrite <- E, <- mult_IZR. now apply IZR_lt.
Qed.
Lemma frac_gt z n d : 0 < d -> ((IZR z < IZR n / IZR d)%R <-> z * d < n).
Proof.
  intro D. assert (P : (0 < IZR d)%R) by (now apply IZR_lt).
  assert (E : IZR n = (IZR n / IZR d * IZR d)%R) by (field; lra). split; intro H.
  - apply lt_IZR. rewrite mult_IZR, E. now apply Rmult_lt_compat_r.
  - apply Rmult_lt_reg_r with (IZR d); auto. rewrite <- E, <- mult_IZR. now apply IZR_lt.
Qed.
Lemma frac_le z n d : 0 < d -> ((IZR n / IZR d <= IZR z)%R <-> n <= z * d).
Proof.
  intro D. pose proof (frac_gt z n d D). split; intro H1.
  - apply Z.nlt_ge. intro K. apply H in K. lra.
  - apply Rnot_lt_le. intro K. apply H in K. lia.
Qed.
Lemma frac_ge z n d : 0 < d -> ((IZR z <= IZR n / IZR d)%R <-> z * d <= n).
Proof.
  intro D. pose proof (frac_lt z n d D). split; intro H1.
  - apply Z.nlt_ge. intro K. apply H in K. lra.
  - apply Rnot_lt_le. intro K. apply H in K. lia.
Qed.
Lemma floor_frac z n d : 0 < d -> is_floor n d z -> Zfloor (IZR n / IZR d) = z.
Proof. intros D (A & B). apply Zfloor_imp. split; [now apply frac_ge | now apply frac_lt]. Qed.
Lemma ceil_frac z n d : 0 < d -> is_ceiling n d z -> Zceil (IZR n / IZR d) = z.
Proof. intros D (A & B). apply Zceil_imp. split; [now apply frac_gt | now apply frac_le]. Qed.
Lemma trunc_frac z n d : 0 < d -> is_trunc n d z -> Ztrunc (IZR n / IZR d) = z.
Proof.
  intros D ((A & B) & C). rewrite Z.abs_mul, (Z.abs_eq d) in A by lia.
  destruct (Z_le_gt_dec 0 n).
  - rewrite Ztrunc_floor by (apply (frac_ge 0); lia). apply floor_frac; [assumption|].
    rewrite (Z.abs_eq n) in * by lia.
    assert (0 <= z). { destruct (Z.eq_dec n 0); [subst; nia | nia]. }
    rewrite (Z.abs_eq z) in * by lia. split; lia.
  - rewrite Ztrunc_ceil by (apply (frac_le 0); lia). apply ceil_frac; [assumption|].
    rewrite (Z.abs_neq n) in * by lia. assert (z <= 0) by nia. rewrite (Z.abs_neq z) in * by lia.
    split; lia.
Qed.
Lemma floor_real x : is_fin x = true -> floor_z x = Some (Zfloor (realv x)).
Proof.
  intro F. destruct (fin_value x F) as (n & d & V). destruct (floor_ok _ _ _ V) as (z & -> & A).
  rewrite (value_real _ _ _ V). f_equal. symmetry. apply floor_frac; [exact (value_pos _ _ _ V)|exact A].
Qed.
Lemma ceil_real x : is_fin x = true -> ceil_z x = Some (Zceil (realv x)).
Proof.
  intro F. destruct (fin_value x F) as (n & d & V). destruct (ceil_ok _ _ _ V) as (z & -> & A).
  rewrite (value_real _ _ _ V). f_equal. symmetry. apply ceil_frac; [exact (value_pos _ _ _ V)|exact A].
Qed.
Lemma trunc_real x : is_fin x = true -> trunc_z x = Some (Ztrunc (realv x)).
Proof.
  intro F. destruct (fin_value x F) as (n & d & V). destruct (trunc_ok _ _ _ V) as (z & -> & A).
  rewrite (value_real _ _ _ V). f_equal. symmetry. apply trunc_frac; [exact (value_pos _ _ _ V)|exact A].
Qed.

(** Rounding a quotient of integers below 2^53 does not cross an integer. *)
Lemma rnd_mono x y : (x <= y)%R -> (rnd x <= rnd y)%R.
Proof. apply round_le; typeclasses eauto. Qed.
Lemma quo_err a b : Z.abs a < 2 ^ 53 -> b <> 0 -> Z.abs b <= 2 ^ 53 -> a <> 0 ->
  (Rabs (rnd (IZR a / IZR b) - IZR a / IZR b) < 1 / IZR (Z.abs b))%R.
Proof.
  intros A B B' A0. set (x := (IZR a / IZR b)%R).
  assert (PB : (0 < IZR (Z.abs b))%R) by (apply IZR_lt; lia).
  assert (AX : Rabs x = (IZR (Z.abs a) / IZR (Z.abs b))%R).
  { unfold x, Rdiv. rewrite Rabs_mult, Rabs_inv, <- !abs_IZR. reflexivity. }
  assert (L : (bpow radix2 (-1074 + 53 - 1) <= Rabs x)%R).
  { rewrite AX. apply Rle_trans with (bpow radix2 (-53)); [apply bpow_le; lia|].
    change (bpow radix2 (-53)) with (/ IZR (2 ^ 53))%R.
    apply Rle_trans with (/ IZR (Z.abs b))%R.
    - apply Rinv_le; [assumption|]. now apply IZR_le.
    - unfold Rdiv. rewrite <- (Rmult_1_l (/ _)) at 1. apply Rmult_le_compat_r; [left; now apply Rinv_0_lt_compat|].
      apply IZR_le. lia. }
  pose proof (relative_error_N_FLT radix2 (-1074) 53 ltac:(lia) (fun n => negb (Z.even n)) x L) as E.
  fold (rnd x) in E. eapply Rle_lt_trans; [exact E|]. rewrite AX.
  change (bpow radix2 (- (53) + 1)) with (/ IZR (2 ^ 52))%R.
  assert (IZR (Z.abs a) <= IZR (2 ^ 53) - 1)%R.
  { rewrite <- minus_IZR. apply IZR_le. lia. }
  unfold Rdiv. rewrite Rmult_1_l, <- Rmult_assoc. rewrite <- (Rmult_1_l (/ IZR (Z.abs b))) at 2.
  apply Rmult_lt_compat_r; [now apply Rinv_0_lt_compat|].
  replace (IZR (2 ^ 53)) with 9007199254740992%R in H by reflexivity.
  replace (IZR (2 ^ 52)) with 4503599627370496%R by reflexivity. lra.
Qed.
Lemma is_quo_f_real a b q r : b <> 0 -> is_quo_f a b q r -> Zfloor (IZR a / IZR b) = q.
Proof.
  intros B (E & A & S). destruct (Z_le_gt_dec 0 b).
  - apply floor_frac; [lia|]. split; nia.
  - replace (IZR a / IZR b)%R with (IZR (- a) / IZR (- b))%R
      by (rewrite !opp_IZR; field; apply IZR_neq; lia).
    apply floor_frac; [lia|]. split; nia.
Qed.
Lemma frac_dist x b (N : Z) a : b <> 0 -> x = (IZR a / IZR b)%R -> (x < IZR N)%R -> (x + 1 / IZR (Z.abs b) <= IZR N)%R.
Proof.
  intros B -> H.
  assert (E : (IZR a / IZR b)%R = (IZR (a * Z.sgn b) / IZR (Z.abs b))%R).
  { destruct (Z.lt_trichotomy b 0) as [?|[?|?]]; [|lia|].
    - rewrite Z.sgn_neg, Z.abs_neq by lia. rewrite !opp_IZR, mult_IZR. field. apply IZR_neq; lia.
    - rewrite Z.sgn_pos, Z.abs_eq by lia. now rewrite Z.mul_1_r. }
  rewrite E in *. apply frac_lt in H; [|lia].
  replace (IZR (a * Z.sgn b) / IZR (Z.abs b) + 1 / IZR (Z.abs b))%R with (IZR (a * Z.sgn b + 1) / IZR (Z.abs b))%R
    by (rewrite plus_IZR; field; apply IZR_neq; lia).
  apply frac_le; lia.
Qed.
Lemma quo_abs_bound a b : Z.abs a < 2 ^ 53 -> b <> 0 -> (Rabs (IZR a / IZR b) < IZR (2 ^ 53))%R.
Proof.
  intros A B. unfold Rdiv. rewrite Rabs_mult, Rabs_inv, <- !abs_IZR.
  assert (PB : (1 <= IZR (Z.abs b))%R) by (apply IZR_le; lia).
  apply Rle_lt_trans with (IZR (Z.abs a)); [|now apply IZR_lt].
  rewrite <- (Rmult_1_r (IZR (Z.abs a))) at 2. apply Rmult_le_compat_l; [apply IZR_le; lia|].
  rewrite <- Rinv_1. apply Rinv_le; lra.
Qed.
Lemma floor_rnd a b : Z.abs a < 2 ^ 53 -> b <> 0 -> Z.abs b <= 2 ^ 53 ->
  Zfloor (rnd (IZR a / IZR b)) = Zfloor (IZR a / IZR b).
Proof.
  intros A B B'. destruct (Z.eq_dec a 0) as [->|A0].
  { replace (0 / IZR b)%R with (IZR 0) by (unfold Rdiv; ring). rewrite rnd_int by (cbn; lia). reflexivity. }
  pose proof (quo_err a b A B B' A0) as E. pose proof (quo_abs_bound a b A B) as Q.
  set (x := (IZR a / IZR b)%R) in *. apply Zfloor_imp. split.
  - rewrite <- (rnd_int (Zfloor x)).
    + apply rnd_mono, Zfloor_lb.
    + apply Rabs_def2 in Q. destruct Q as (Q1 & Q2). rewrite <- opp_IZR in Q2.
      pose proof (Zfloor_lb x). assert (Zfloor x < 2 ^ 53) by (apply lt_IZR; lra).
      assert (- 2 ^ 53 <= Zfloor x) by (apply Zfloor_lub; lra). lia.
  - pose proof (frac_dist x b (Zfloor x + 1) a B eq_refl) as D.
    rewrite plus_IZR in D. pose proof (Zfloor_ub x) as U. specialize (D U).
    apply Rabs_def2 in E. rewrite plus_IZR. lra.
Qed.
Lemma rnd_opp x : rnd (- x) = (- rnd x)%R.
Proof. apply round_NE_opp. Qed.
Lemma trunc_rnd a b : Z.abs a < 2 ^ 53 -> b <> 0 -> Z.abs b <= 2 ^ 53 ->
  Ztrunc (rnd (IZR a / IZR b)) = Ztrunc (IZR a / IZR b).
Proof.
  intros A B B'. set (x := (IZR a / IZR b)%R). destruct (Rle_lt_dec 0 x).
  - assert (0 <= rnd x)%R by (change 0%R with (IZR 0); rewrite <- (rnd_int 0) by (cbn; lia); now apply rnd_mono).
    rewrite !Ztrunc_floor by assumption. now apply floor_rnd.
  - rewrite <- (Ropp_involutive x), rnd_opp, (Ztrunc_opp (rnd (- x))), (Ztrunc_opp (- x)). f_equal.
    assert (0 <= rnd (- x))%R by (change 0%R with (IZR 0); rewrite <- (rnd_int 0) by (cbn; lia); apply rnd_mono; lra).
    rewrite !Ztrunc_floor by (assumption || lra).
    replace (- x)%R with (IZR (- a) / IZR b)%R by (unfold x, Rdiv; rewrite opp_IZR; ring).
    apply floor_rnd; [lia|assumption|assumption].
Qed.
Lemma is_quo_t_real a b : b <> 0 -> Ztrunc (IZR a / IZR b) = Z.quot a b.
Proof.
  intro B. destruct (quo_t_ok a b B) as (E & A & S). destruct (Z_le_gt_dec 0 b).
  - apply trunc_frac; [lia|]. assert (V : value (S754_zero false) 0 1) by (cbn; auto).
    destruct (quo_t_ok a b B) as (E' & A' & S'). clear E' A' S' V.
    set (q := a ÷ b) in *. set (r := Z.rem a b) in *. clearbody q r. subst a.
    unfold is_trunc. rewrite Z.abs_mul, (Z.abs_eq b) in * by lia.
    destruct (Z.lt_trichotomy q 0) as [?|[->|?]].
    + assert (b * q <= - b) by nia. assert (r <= 0) by (destruct (Z_le_gt_dec r 0); [lia | assert (b * q + r < 0) by lia; nia]).
      rewrite (Z.abs_neq q), (Z.abs_neq (b * q + r)) by lia. rewrite Z.abs_neq in A by lia. nia.
    + rewrite Z.mul_0_r, Z.add_0_l. cbn [Z.abs]. lia.
    + assert (b <= b * q) by nia. assert (0 <= r) by (destruct (Z_le_gt_dec 0 r); [lia | assert (0 < b * q + r) by lia; nia]).
      rewrite (Z.abs_eq q), (Z.abs_eq (b * q + r)) by lia. rewrite Z.abs_eq in A by lia. nia.
  - replace (IZR a / IZR b)%R with (IZR (- a) / IZR (- b))%R by (rewrite !opp_IZR; field; apply IZR_neq; lia).
    rewrite <- (Z.quot_opp_opp a b) by assumption.
    destruct (quo_t_ok (- a) (- b) ltac:(lia)) as (E' & A' & S'). clear E A S. rename E' into E, A' into A, S' into S.
    apply trunc_frac; [lia|].
    set (q := - a ÷ - b) in *. set (r := Z.rem (- a) (- b)) in *. set (c := - b) in *. set (n := - a) in *.
    assert (0 < c) by lia. clearbody q r c n. subst n.
    unfold is_trunc. rewrite Z.abs_mul, (Z.abs_eq c) in * by lia.
    destruct (Z.lt_trichotomy q 0) as [?|[->|?]].
    + assert (c * q <= - c) by nia. assert (r <= 0) by (destruct (Z_le_gt_dec r 0); [lia | assert (c * q + r < 0) by lia; nia]).
      rewrite (Z.abs_neq q), (Z.abs_neq (c * q + r)) by lia. rewrite Z.abs_neq in A by lia. nia.
    + rewrite Z.mul_0_r, Z.add_0_l. cbn [Z.abs]. lia.
    + assert (c <= c * q) by nia. assert (0 <= r) by (destruct (Z_le_gt_dec 0 r); [lia | assert (0 < c * q + r) by lia; nia]).
      rewrite (Z.abs_eq q), (Z.abs_eq (c * q + r)) by lia. rewrite Z.abs_eq in A by lia. nia.
Qed.
(** The quotient operations on integers below 2^53 *)
Lemma fdiv_of_int a b : Z.abs a < 2 ^ 53 -> b <> 0 -> Z.abs b <= 2 ^ 53 ->
  is_fin (fdiv (of_int a) (of_int b)) = true /\ realv (fdiv (of_int a) (of_int b)) = rnd (IZR a / IZR b).
Proof.
  intros A B B'. destruct (of_int_exact a ltac:(lia)) as (F1 & D1 & R1). destruct (of_int_exact b ltac:(lia)) as (F2 & D2 & R2).
  assert (Z : is_zero (of_int b) = false).
  { destruct (of_int b) eqn:O; try reflexivity. cbn in R2. exfalso. apply B. apply eq_IZR. now rewrite <- R2. }
  destruct (fdiv_rounded _ _ D1 D2 F1 F2 Z) as [(_ & G & _ & H)|(H & _)]; rewrite R1, R2 in H; [auto|exfalso].
  assert (Rabs (rnd (IZR a / IZR b)) <= bpow radix2 53)%R.
  { apply abs_round_le_generic; [typeclasses eauto|typeclasses eauto| |].
    - apply generic_format_bpow. unfold FLT_exp. lia.
    - left. exact (quo_abs_bound a b A B). }
  assert (bpow radix2 53 < top)%R by (apply bpow_lt; lia). lra.
Qed.
Lemma quo_t_ok53 a b : Z.abs a < 2 ^ 53 -> b <> 0 -> Z.abs b <= 2 ^ 53 ->
  exists q r, is_quo_t a b q r /\ arith2_int OQuoT a b = RInt q.
Proof.
  intros A B B'. exists (Z.quot a b), (Z.rem a b). split; [now apply quo_t_ok|].
  destruct (fdiv_of_int a b A B B') as (F & V). unfold arith2_int. destruct (Z.eqb_spec b 0); [lia|].
  rewrite (trunc_real _ F), V, trunc_rnd, is_quo_t_real by assumption.
  destruct (gint_exactly (a ÷ b)) as [(_ & H)|(H & _)]; [exact H|exfalso; apply H].
  assert (Z.abs (a ÷ b) <= Z.abs a) by (rewrite <- Z.quot_abs by assumption; apply Z.quot_le_upper_bound; [lia|]; nia).
  unfold in64, int_min, int_max. lia.
Qed.
Lemma quo_f_ok53 a b : Z.abs a < 2 ^ 53 -> b <> 0 -> Z.abs b <= 2 ^ 53 ->
  exists q r, is_quo_f a b q r /\ arith2_int OQuoF a b = RInt q.
Proof.
  intros A B B'. exists (a / b), (a mod b).
  assert (Q : is_quo_f a b (a / b) (a mod b)).
  { split; [apply Z.div_mod; assumption|]. split; [apply Z.mod_bound_abs; assumption|].
    destruct (Z_le_gt_dec 0 b); [pose proof (Z.mod_pos_bound a b ltac:(lia)) | pose proof (Z.mod_neg_bound a b ltac:(lia))]; nia. }
  split; [exact Q|].
  destruct (fdiv_of_int a b A B B') as (F & V). unfold arith2_int. destruct (Z.eqb_spec b 0); [lia|].
  rewrite (floor_real _ F), V, floor_rnd, (is_quo_f_real _ _ _ _ B Q) by assumption.
  destruct (gint_exactly (a / b)) as [(_ & H)|(H & _)]; [exact H|exfalso; apply H].
  destruct Q as (Q1 & Q2 & _).
  assert (Z.abs (a / b) <= Z.abs a + 1) by nia. unfold in64, int_min, int_max. lia.
Qed.

(** Comparisons *)
Lemma ltb_real x y : double x -> double y -> is_fin x = true -> is_fin y = true ->
  SFltb x y = true /\ (realv x < realv y)%R \/ SFltb x y = false /\ (realv y <= realv x)%R.
Proof.
  intros (bx & ->)%double_B (by' & ->)%double_B Fx Fy. rewrite is_fin_B in *. rewrite !realv_B.
  pose proof (Bltb_correct 53 1024 bx by' Fx Fy) as H. unfold Bltb in H. rewrite H.
  case Rlt_bool_spec; intro; auto.
Qed.
Lemma eqb_real x y : double x -> double y -> is_fin x = true -> is_fin y = true ->
  SFeqb x y = true /\ realv x = realv y \/ SFeqb x y = false /\ realv x <> realv y.
Proof.
  intros (bx & ->)%double_B (by' & ->)%double_B Fx Fy. rewrite is_fin_B in *. rewrite !realv_B.
  pose proof (Beqb_correct 53 1024 bx by' Fx Fy) as H. unfold Beqb in H. rewrite H.
  case Req_bool_spec; intro; auto.
Qed.
Lemma compare_dbl o w x y : double x -> double y -> is_fin x = true -> is_fin y = true -> (w = true -> x = y) ->
  compare o w (NDbl x) (NDbl y) = RTrue /\ holdsR o (realv x) (realv y) \/
  compare o w (NDbl x) (NDbl y) = RFalse /\ ~ holdsR o (realv x) (realv y).
Proof.
  intros Dx Dy Fx Fy W.
  assert (WW : w || SFeqb x y = true /\ realv x = realv y \/ w || SFeqb x y = false /\ realv x <> realv y).
  { destruct w; [left; now rewrite (W eq_refl)|]. apply eqb_real; auto. }
  destruct o; unfold compare, lesseq_core, same, as_double, holdsR; rewrite Fx, Fy; cbn [negb orb].
  all: destruct WW as [(-> & E)|(-> & E)]; [first [right; split; [reflexivity|lra] | left; split; [reflexivity|lra]]|].
  1-2: destruct (ltb_real x y Dx Dy Fx Fy) as [(-> & L)|(-> & L)].
  5-6: destruct (ltb_real y x Dy Dx Fy Fx) as [(-> & L)|(-> & L)].
  all: first [left; split; [reflexivity|lra] | right; split; [reflexivity|lra]].
Qed.
(** An integer, which is first converted, against a double: strict comparisons, up to 2^53 *)
Lemma compare_mixed o a y : Z.abs a <= 2 ^ 53 -> double y -> is_fin y = true -> o = OLess \/ o = OGreater ->
  (compare o false (NInt a) (NDbl y) = RTrue /\ holdsR o (IZR a) (realv y) \/
   compare o false (NInt a) (NDbl y) = RFalse /\ ~ holdsR o (IZR a) (realv y)) /\
  (compare o false (NDbl y) (NInt a) = RTrue /\ holdsR o (realv y) (IZR a) \/
   compare o false (NDbl y) (NInt a) = RFalse /\ ~ holdsR o (realv y) (IZR a)).
Proof.
  intros A Dy Fy O. destruct (of_int_exact a A) as (Fa & Da & Ra).
  destruct (ltb_real _ _ Da Dy Fa Fy) as [(L & L')|(L & L')], (ltb_real _ _ Dy Da Fy Fa) as [(K & K')|(K & K')];
    rewrite Ra in *; try lra;
  destruct O as [-> | ->]; unfold compare, lesseq_core, same, as_double, holdsR; rewrite Fa, Fy; cbn [negb orb];
    rewrite ?L, ?K; split;
    first [left; split; [reflexivity|lra] | right; split; [reflexivity|lra]].
Qed.

(** The operations on numbers of which one is a double *)
Lemma as_double_ok n : num_ok n -> double (as_double n).
Proof. destruct n; cbn; [intro H; apply (of_int_rounded _ H)|auto|tauto]. Qed.
Lemma as_double_real n : num_ok n -> realv (as_double n) = real_of n.
Proof. destruct n; cbn; [intro H; apply (of_int_rounded _ H)|auto|tauto]. Qed.
Lemma as_double_fin n : num_ok n -> is_fin (as_double n) = num_fin n.
Proof. destruct n; cbn; [intro H; apply (of_int_rounded _ H)|auto|tauto]. Qed.
Lemma zero_real x : is_fin x = true -> (is_zero x = true <-> realv x = 0%R).
Proof.
  destruct x as [| | |s m e]; cbn; try discriminate; [tauto|]. intros _. split; [discriminate|]. intro H.
  apply eq_0_F2R in H. now destruct s.
Qed.
Lemma arith2_dbl_ok o f a b : num_ok a -> num_ok b -> is_int a && is_int b = false -> real_op o = Some f ->
  num_fin a = true -> num_fin b = true ->
  (o = ODiv /\ real_of b = 0%R /\ arith2 o a b = RLeft) \/
  (~ (o = ODiv /\ real_of b = 0%R) /\
   ((exists x, arith2 o a b = RDbl x /\ is_fin x = true /\ double x /\ realv x = rnd (f (real_of a) (real_of b))) \/
    arith2 o a b = RLeft /\ (top <= Rabs (rnd (f (real_of a) (real_of b))))%R)).
Proof.
  intros Ha Hb I O Fa Fb.
  assert (E : arith2 o a b = arith2_dbl o (as_double a) (as_double b)).
  { destruct a, b; cbn in I |- *; try reflexivity; try discriminate; cbn in Ha, Hb; tauto. }
  rewrite E. unfold arith2_dbl. rewrite !as_double_fin, Fa, Fb by assumption. cbn [negb orb].
  pose proof (as_double_ok a Ha) as Da. pose proof (as_double_ok b Hb) as Db.
  pose proof (as_double_fin a Ha) as Fa'. pose proof (as_double_fin b Hb) as Fb'. rewrite Fa in Fa'. rewrite Fb in Fb'.
  rewrite <- (as_double_real a Ha), <- (as_double_real b Hb).
  assert (K : forall r x, rounded r x ->
    (exists y, (if is_fin x then RDbl x else RLeft) = RDbl y /\ is_fin y = true /\ double y /\ realv y = rnd r) \/
    (if is_fin x then RDbl x else RLeft) = RLeft /\ (top <= Rabs (rnd r))%R).
  { intros r x [(A & B & C & D)|(A & B)]; rewrite B; [left; exists x; auto|right; auto]. }
  destruct o; inversion O; subst f; clear O.
  - right. split; [intros (? & _); discriminate|]. apply K. now apply fadd_rounded.
  - right. split; [intros (? & _); discriminate|]. apply K. now apply fsub_rounded.
  - right. split; [intros (? & _); discriminate|]. apply K. now apply fmul_rounded.
  - pose proof (zero_real _ Fb') as Z. destruct (is_zero (as_double b)) eqn:EZ.
    + left. repeat split. now apply Z.
    + right. split; [intros (_ & H); apply Z in H; discriminate|]. apply K. now apply fdiv_rounded.
Qed.
Lemma fin_format x : double x -> is_fin x = true -> rnd (realv x) = realv x.
Proof.
  intros (b & ->)%double_B F. rewrite realv_B. apply round_generic; [typeclasses eauto|].
  exact (generic_format_B2R 53 1024 b).
Qed.
Lemma uminus_dbl x : double x -> is_fin x = true ->
  exists y, arith1 OUMinus (NDbl x) = RDbl y /\ is_fin y = true /\ double y /\ realv y = (- realv x)%R.
Proof.
  intros D F. cbn. rewrite F.
  assert (D0 : double (S754_zero false)) by reflexivity.
  pose proof (fsub_rounded (S754_zero false) x D0 D eq_refl F) as H.
  replace (realv (S754_zero false) - realv x)%R with (- realv x)%R in H by (cbn; ring).
  unfold rounded in H. rewrite rnd_opp, (fin_format x D F) in H.
  destruct H as [(A & B & C & E)|(A & _)]; [eauto 6|exfalso].
  destruct (double_B x D) as (b & ->). rewrite realv_B in A. rewrite Rabs_Ropp in A.
  pose proof (abs_B2R_lt_emax 53 1024 b). unfold top in A. lra.
Qed.
Lemma not_fin_left o a b : num_ok a -> num_ok b -> num_fin a && num_fin b = false -> arith2 o a b = RLeft.
Proof.
  intros Ha Hb H.
  assert (E : is_fin (as_double a) && is_fin (as_double b) = false) by (now rewrite !as_double_fin).
  destruct a, b; cbn [num_fin andb] in H; try discriminate; cbn [num_ok] in Ha, Hb; try tauto;
    cbn [arith2]; unfold arith2_dbl; cbn [as_double] in *; rewrite <- negb_andb, E; reflexivity.
Qed.
Lemma rem_guarded_def a b : b <> 0 -> rem_guarded a b <> RUB.
Proof.
  intro B. unfold rem_guarded, c_rem. destruct (Z.eqb_spec b 0); [lia|].
  destruct ((a =? int_min) && (b =? -1)); discriminate.
Qed.
Lemma gint_def z : gint_checked z <> RUB.
Proof. unfold gint_checked. destruct z; [|discriminate]. destruct (_ || _); discriminate. Qed.
Lemma never_ub o a b : arith2 o a b <> RUB.
Proof.
  assert (C : forall z, of_checked z <> RUB) by (intros [|]; discriminate).
  assert (D : forall x y, arith2_dbl o x y <> RUB).
  { intros x y. unfold arith2_dbl. destruct (_ || _); [discriminate|].
    destruct o; cbn zeta; try (destruct (is_fin _); discriminate); try (destruct (is_zero y); [discriminate|]);
      try (destruct (is_fin _); discriminate); try (destruct (fneg0 y)); try apply gint_def;
      unfold rem_dbl; destruct (gint_of_double x); try discriminate; destruct (gint_of_double y); try discriminate;
      destruct (Z.eqb_spec z0 0); try discriminate; now apply rem_guarded_def. }
  destruct a as [a|x|], b as [b|y|]; cbn [arith2]; try apply D; try discriminate.
  unfold arith2_int. destruct o; try apply C; destruct (Z.eqb_spec b 0); try discriminate;
    try (now apply rem_guarded_def); try (destruct (b <? 0)); try apply gint_def.
  all: destruct ((a =? int_min) && (b =? -1)) eqn:E; [discriminate|]; unfold c_div;
    destruct (Z.eqb_spec b 0); [lia|]; cbn [orb]; rewrite E; discriminate.
Qed.
Lemma never_ub1 o a : arith1 o a <> RUB.
Proof.
  destruct a, o; cbn [arith1]; try discriminate; try apply gint_def.
  - destruct (z =? int_min); discriminate.
  - destruct (is_fin x); discriminate.
Qed.
