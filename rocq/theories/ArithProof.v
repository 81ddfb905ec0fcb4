From Coq Require Import List ZArith Bool Lia Floats.SpecFloat.
From Verif Require Import Word64 ArithModel ArithSpec.
Open Scope Z_scope.

Ltac bb := repeat match goal with
  | H : _ && _ = true |- _ => apply andb_prop in H; destruct H
  | H : _ || _ = false |- _ => apply orb_false_elim in H; destruct H
  | H : (_ <? _) = true |- _ => apply Z.ltb_lt in H
  | H : (_ <? _) = false |- _ => apply Z.ltb_ge in H
  | H : (_ =? _) = true |- _ => apply Z.eqb_eq in H
  | H : (_ =? _) = false |- _ => apply Z.eqb_neq in H
  end.

Lemma exactly_some z : in64 z -> exactly z (of_checked (Some (w64 z))).
Proof. intro H. left. cbn. now rewrite w64_id. Qed.
Lemma exactly_none z : ~ in64 z -> exactly z (of_checked None).
Proof. intro H. right. auto. Qed.

Lemma add_ok a b : in64 a -> in64 b -> exactly (a + b) (of_checked (add_checked a b)).
Proof.
  intros A B. unfold add_checked.
  assert (M : 0 < b -> w64 (int_max - b) = int_max - b)
    by (intro; apply w64_id; unfold in64, int_min, int_max in *; lia).
  assert (N : b < 0 -> w64 (int_min - b) = int_min - b)
    by (intro; apply w64_id; unfold in64, int_min, int_max in *; lia).
  destruct (0 <? b) eqn:P, (b <? 0) eqn:Q; cbn [andb orb]; bb; try lia.
  - rewrite M by lia. destruct (int_max - b <? a) eqn:R; bb; cbn [orb].
    + apply exactly_none. unfold in64 in *. lia.
    + apply exactly_some. unfold in64, int_min, int_max in *. lia.
  - rewrite N by lia. destruct (a <? int_min - b) eqn:R; bb.
    + apply exactly_none. unfold in64 in *. lia.
    + apply exactly_some. unfold in64, int_min, int_max in *. lia.
  - apply exactly_some. unfold in64, int_min, int_max in *. lia.
Qed.
Lemma sub_ok a b : in64 a -> in64 b -> exactly (a - b) (of_checked (sub_checked a b)).
Proof.
  intros A B. unfold sub_checked.
  assert (M : b < 0 -> w64 (int_max + b) = int_max + b)
    by (intro; apply w64_id; unfold in64, int_min, int_max in *; lia).
  assert (N : 0 < b -> w64 (int_min + b) = int_min + b)
    by (intro; apply w64_id; unfold in64, int_min, int_max in *; lia).
  destruct (b <? 0) eqn:P, (0 <? b) eqn:Q; cbn [andb orb]; bb; try lia.
  - rewrite M by lia. destruct (int_max + b <? a) eqn:R; bb; cbn [orb].
    + apply exactly_none. unfold in64 in *. lia.
    + apply exactly_some. unfold in64, int_min, int_max in *. lia.
  - rewrite N by lia. destruct (a <? int_min + b) eqn:R; bb.
    + apply exactly_none. unfold in64 in *. lia.
    + apply exactly_some. unfold in64, int_min, int_max in *. lia.
  - apply exactly_some. unfold in64, int_min, int_max in *. lia.
Qed.

(** Division bounds *)
Lemma quot_lt_pos m a b : 0 <= m -> 0 < b -> (Z.quot m b < a <-> m < a * b).
Proof.
  intros M B. rewrite Z.quot_div_nonneg by lia. split; intro H.
  - pose proof (Z.mul_succ_div_gt m b B). nia.
  - apply Z.div_lt_upper_bound; lia.
Qed.
Lemma mul_ok a b : in64 a -> in64 b -> exactly (a * b) (of_checked (mul_checked a b)).
Proof.
  intros A B. unfold mul_checked.
  destruct (a =? 0) eqn:A0; cbn [orb]; bb.
  { subst. left. split; [unfold in64, int_min, int_max; lia | reflexivity]. }
  destruct (b =? 0) eqn:B0; bb.
  { subst. rewrite Z.mul_0_r. left. split; [unfold in64, int_min, int_max; lia | reflexivity]. }
  destruct (a =? -1) eqn:A1; bb.
  { subst. replace (-1 * b) with (0 - b) by lia. destruct (b =? int_min) eqn:BM; bb.
    - apply exactly_none. unfold in64, int_min, int_max in *. lia.
    - apply exactly_some. unfold in64, int_min, int_max in *. lia. }
  destruct (b =? -1) eqn:B1; bb.
  { subst. replace (a * -1) with (0 - a) by lia. destruct (a =? int_min) eqn:BM; bb.
    - apply exactly_none. unfold in64, int_min, int_max in *. lia.
    - apply exactly_some. unfold in64, int_min, int_max in *. lia. }
  destruct (0 <? a) eqn:PA, (0 <? b) eqn:PB, (a <? 0) eqn:NA, (b <? 0) eqn:NB; bb; try lia; cbn [andb orb];
    rewrite ?orb_false_r.
  - (* + + *)
    pose proof (quot_lt_pos int_max a b ltac:(unfold int_max; lia) PB) as Q.
    destruct (Z.quot int_max b <? a) eqn:R; bb.
    + apply Q in R. apply exactly_none. unfold in64. lia.
    + apply exactly_some. split; [unfold int_min; nia|]. destruct (Z_le_gt_dec (a * b) int_max); [lia|].
      assert (Z.quot int_max b < a) by (apply Q; lia). lia.
  - (* + - *)
    pose proof (quot_lt_pos (- int_min) (- b) a ltac:(unfold int_min; lia) PA) as Q.
    rewrite Z.quot_opp_l in Q by lia.
    destruct (b <? Z.quot int_min a) eqn:R; bb.
    + apply exactly_none. unfold in64. assert (- int_min < - b * a) by (apply Q; lia). lia.
    + apply exactly_some. split; [|unfold int_max; nia]. destruct (Z_le_gt_dec int_min (a * b)); [lia|].
      assert (- Z.quot int_min a < - b) by (apply Q; lia). lia.
  - (* - + *)
    pose proof (quot_lt_pos (- int_min) (- a) b ltac:(unfold int_min; lia) PB) as Q.
    rewrite Z.quot_opp_l in Q by lia.
    destruct (a <? Z.quot int_min b) eqn:R; bb.
    + apply exactly_none. unfold in64. assert (- int_min < - a * b) by (apply Q; lia). lia.
    + apply exactly_some. split; [|unfold int_max; nia]. destruct (Z_le_gt_dec int_min (a * b)); [lia|].
      assert (- Z.quot int_min b < - a) by (apply Q; lia). lia.
  - (* - - *)
    pose proof (quot_lt_pos int_max (- a) (- b) ltac:(unfold int_max; lia) ltac:(lia)) as Q.
    rewrite Z.quot_opp_r in Q by lia.
    destruct (a <? Z.quot int_max b) eqn:R; bb.
    + apply exactly_none. unfold in64. assert (int_max < - a * - b) by (apply Q; lia). lia.
    + apply exactly_some. split; [unfold int_min; nia|]. destruct (Z_le_gt_dec (a * b) int_max); [lia|].
      assert (- Z.quot int_max b < - a) by (apply Q; lia). lia.
Qed.
Lemma uminus_ok a : in64 a -> exactly (- a) (arith1 OUMinus (NInt a)).
Proof.
  intro A. unfold arith1. destruct (Z.eqb_spec a int_min).
  - right. unfold in64, int_min, int_max in *. split; [lia | reflexivity].
  - left. assert (in64 (0 - a)) by (unfold in64, int_min, int_max in *; lia).
    rewrite w64_id by assumption. split; [assumption | reflexivity].
Qed.

(** Quotient and remainder *)
Lemma quo_t_ok a b : b <> 0 -> is_quo_t a b (Z.quot a b) (Z.rem a b).
Proof.
  intro B. split; [apply Z.quot_rem; assumption|]. split; [apply Z.rem_bound_abs; assumption|].
  apply Z.rem_sign_mul; assumption.
Qed.
Lemma div_ok a b : in64 a -> in64 b ->
  b = 0 /\ arith2_int ODiv a b = RLeft \/
  b <> 0 /\ exists q r, is_quo_t a b q r /\ exactly q (arith2_int ODiv a b).
Proof.
  intros A B. unfold arith2_int. destruct (Z.eqb_spec b 0); [left; auto|]. right. split; auto.
  exists (Z.quot a b), (Z.rem a b). split; [apply quo_t_ok; auto|].
  unfold c_div. destruct (Z.eqb_spec b 0); [lia|]. cbn [orb].
  destruct ((a =? int_min) && (b =? -1)) eqn:E.
  - bb. subst. right. split; [|reflexivity]. unfold in64, int_min, int_max. cbn. lia.
  - left. split; [|reflexivity].
    assert (Q := quo_t_ok a b n). destruct Q as (Q1 & Q2 & Q3).
    destruct (Z.eq_dec b (-1)) as [->|].
    + replace (a ÷ -1) with (- a) in * by (change (-1) with (- (1)); rewrite Z.quot_opp_r, Z.quot_1_r; lia).
      apply andb_false_iff in E. destruct E as [E|E]; bb; unfold in64, int_min, int_max in *; lia.
    + assert (Z.abs (a ÷ b) <= Z.abs a) by (rewrite <- Z.quot_abs by assumption;
        apply Z.quot_le_upper_bound; [lia|]; nia).
      destruct (Z.eq_dec b 1) as [->|]; [rewrite Z.quot_1_r; assumption|].
      assert (Z.abs (a ÷ b) < Z.abs a \/ a = 0).
      { destruct (Z.eq_dec a 0); auto. left. rewrite <- Z.quot_abs by assumption. apply Z.quot_lt; lia. }
      unfold in64, int_min, int_max in *. lia.
Qed.
Lemma rem_ok a b o : in64 a -> in64 b -> o = ORemE \/ o = ORemT \/ o = ORemF ->
  b = 0 /\ arith2_int o a b = RLeft \/
  b <> 0 /\ exists q r, is_quo_t a b q r /\ arith2_int o a b = RInt r /\ in64 r.
Proof.
  intros A B O.
  assert (E : arith2_int o a b = if b =? 0 then RLeft else rem_guarded a b) by (destruct O as [O|[O|O]]; now subst).
  rewrite E. destruct (Z.eqb_spec b 0); [left; auto|]. right. split; auto.
  exists (Z.quot a b), (Z.rem a b). split; [apply quo_t_ok; auto|].
  pose proof (quo_t_ok a b n) as (_ & Q & _).
  split; [|unfold in64, int_min, int_max in *; lia].
  unfold rem_guarded, c_rem. destruct (Z.eqb_spec b 0); [lia|]. cbn [orb].
  destruct ((a =? int_min) && (b =? -1)) eqn:F; [|reflexivity]. bb. now subst.
Qed.
(** The three conventions agree when both arguments are nonnegative, or divide. *)
Lemma quo_agree a b q r : is_quo_t a b q r -> 0 <= a -> 0 < b -> is_quo_f a b q r /\ is_quo_e a b q r.
Proof.
  intros (Q1 & Q2 & Q3) A B. assert (0 <= r).
  { destruct (Z.eq_dec a 0); [subst; cbn in *|nia]. assert (q = 0 \/ q <> 0) as [->|] by lia; nia. }
  unfold is_quo_f, is_quo_e. repeat split; nia.
Qed.

(** Comparisons of integers *)
Lemma compare_int o w a b : (w = true -> a = b) ->
  compare o w (NInt a) (NInt b) = RTrue /\ holds o a b \/
  compare o w (NInt a) (NInt b) = RFalse /\ ~ holds o a b.
Proof.
  intro W. destruct w; [rewrite <- (W eq_refl); clear W|clear W];
  destruct o; cbn; unfold lesseq_core; cbn; try (left; split; [reflexivity|lia]); try (right; split; [reflexivity|lia]);
    destruct (Z.eqb_spec a b); [| destruct (Z.ltb_spec a b) | | destruct (Z.ltb_spec a b)
      | | destruct (Z.ltb_spec b a) | | destruct (Z.ltb_spec b a)]; (left + right; split; [reflexivity|lia]).
Qed.

(** Roundings *)
Lemma value_pos x n d : value x n d -> 0 < d.
Proof. destruct x as [| | |s m e]; cbn; try tauto; [lia|]. intros [(?&?&->)|(?&?&->)]; [lia|]. apply Z.pow_pos_nonneg; lia. Qed.
Lemma to_z_value div x n d : value x n d -> (forall a, div a 1 = a) -> to_z div x = Some (div n d).
Proof.
  destruct x as [| | |s m e]; cbn; try tauto.
  - intros (-> & ->) D. now rewrite D.
  - intros [(E & -> & ->)|(E & -> & ->)] D.
    + destruct (Z.leb_spec 0 e); [|lia]. rewrite D. destruct s; reflexivity.
    + destruct (Z.leb_spec 0 e); [lia|]. destruct s; reflexivity.
Qed.
Lemma fin_value x : is_fin x = true -> exists n d, value x n d.
Proof.
  destruct x as [| | |s m e]; cbn; try discriminate; eauto.
  intros _. destruct (Z_le_gt_dec 0 e); eexists _, _; [left|right]; repeat split; lia.
Qed.
Lemma floor_ok x n d : value x n d -> exists z, floor_z x = Some z /\ is_floor n d z.
Proof.
  intro V. exists (n / d). split; [apply to_z_value; [auto|apply Z.div_1_r]|].
  pose proof (value_pos _ _ _ V). pose proof (Z.div_mod n d ltac:(lia)). pose proof (Z.mod_pos_bound n d ltac:(lia)).
  unfold is_floor. nia.
Qed.
Lemma ceil_ok x n d : value x n d -> exists z, ceil_z x = Some z /\ is_ceiling n d z.
Proof.
  intro V. eexists. split; [apply (to_z_value _ _ _ _ V); intro; rewrite Z.div_1_r; lia|].
  pose proof (value_pos _ _ _ V). pose proof (Z.div_mod (- n) d ltac:(lia)). pose proof (Z.mod_pos_bound (- n) d ltac:(lia)).
  unfold is_ceiling. cbn beta. nia.
Qed.
Lemma trunc_ok x n d : value x n d -> exists z, trunc_z x = Some z /\ is_trunc n d z.
Proof.
  intro V. exists (Z.quot n d). split; [apply to_z_value; [auto|apply Z.quot_1_r]|].
  pose proof (value_pos _ _ _ V). destruct (quo_t_ok n d ltac:(lia)) as (A & B & C).
  unfold is_trunc. set (q := n ÷ d) in *. set (r := Z.rem n d) in *. clearbody q r. subst n. clear V.
  rewrite Z.abs_mul, (Z.abs_eq d) in * by lia.
  destruct (Z.lt_trichotomy q 0) as [?|[->|?]].
  - assert (d * q <= - d) by nia. assert (r <= 0) by (destruct (Z_le_gt_dec r 0); [lia | assert (d * q + r < 0) by lia; nia]).
    assert (d * q + r < 0) by lia.
    rewrite (Z.abs_neq q), (Z.abs_neq (d * q + r)) by lia. rewrite Z.abs_neq in B by lia. nia.
  - rewrite Z.mul_0_r, Z.add_0_l. cbn [Z.abs]. lia.
  - assert (d <= d * q) by nia. assert (0 <= r) by (destruct (Z_le_gt_dec 0 r); [lia | assert (0 < d * q + r) by lia; nia]).
    assert (0 < d * q + r) by lia.
    rewrite (Z.abs_eq q), (Z.abs_eq (d * q + r)) by lia. rewrite Z.abs_eq in B by lia. nia.
Qed.
Lemma round_ok x n d : value x n d -> exists z, round_z x = Some z /\ is_round n d z.
Proof.
  intro V. eexists. split.
  - apply (to_z_value _ _ _ _ V). intro a. destruct (Z.ltb_spec a 0).
    + replace (2 * - a + 1) with (1 + (- a) * 2) by lia. change (2 * 1) with 2. rewrite Z.div_add by lia. cbn. lia.
    + replace (2 * a + 1) with (1 + a * 2) by lia. change (2 * 1) with 2. rewrite Z.div_add by lia. reflexivity.
  - cbn beta. pose proof (value_pos _ _ _ V). clear V. unfold is_round. destruct (Z.ltb_spec n 0).
    + pose proof (Z.div_mod (2 * - n + d) (2 * d) ltac:(lia)). pose proof (Z.mod_pos_bound (2 * - n + d) (2 * d) ltac:(lia)).
      pose proof (Z.div_pos (2 * - n + d) (2 * d) ltac:(lia) ltac:(lia)).
      set (q := (2 * - n + d) / (2 * d)) in *. set (r := (2 * - n + d) mod (2 * d)) in *. clearbody q r.
      rewrite Z.abs_opp, (Z.abs_eq q), (Z.abs_neq n) by lia. nia.
    + pose proof (Z.div_mod (2 * n + d) (2 * d) ltac:(lia)). pose proof (Z.mod_pos_bound (2 * n + d) (2 * d) ltac:(lia)).
      pose proof (Z.div_pos (2 * n + d) (2 * d) ltac:(lia) ltac:(lia)).
      set (q := (2 * n + d) / (2 * d)) in *. set (r := (2 * n + d) mod (2 * d)) in *. clearbody q r.
      rewrite (Z.abs_eq q), (Z.abs_eq n) by lia. nia.
Qed.
Lemma gint_exactly z : exactly z (gint_checked (Some z)).
Proof.
  unfold gint_checked. destruct ((z <? int_min) || (int_max <? z)) eqn:E.
  - right. split; auto. unfold in64. apply orb_prop in E. destruct E; bb; lia.
  - left. split; auto. unfold in64. bb. lia.
Qed.

Definition rounding (o : op1) : option (Z -> Z -> Z -> Prop) :=
  match o with
  | OToInt => Some is_floor | OFloor => Some is_floor | OCeiling => Some is_ceiling
  | OTruncate => Some is_trunc | ORound => Some is_round | _ => None
  end.
Lemma arith1_dbl_ok o R x n d : rounding o = Some R -> value x n d ->
  exists z, R n d z /\ exactly z (arith1 o (NDbl x)).
Proof.
  intros O V. destruct o; inversion O; subst; clear O; cbn [arith1];
    [destruct (floor_ok _ _ _ V) as (z & -> & ?) | destruct (floor_ok _ _ _ V) as (z & -> & ?)
    | destruct (ceil_ok _ _ _ V) as (z & -> & ?) | destruct (trunc_ok _ _ _ V) as (z & -> & ?)
    | destruct (round_ok _ _ _ V) as (z & -> & ?)]; exists z; split; auto using gint_exactly.
Qed.
(** A rounding is unique. *)
Lemma rounding_unique o R n d z z' : rounding o = Some R -> 0 < d -> R n d z -> R n d z' -> z = z'.
Proof.
  intros O D. destruct o; inversion O; subst; clear O; unfold is_floor, is_ceiling, is_trunc, is_round.
  - intros. assert (z < z' + 1) by nia. assert (z' < z + 1) by nia. lia.
  - intros. assert (z < z' + 1) by nia. assert (z' < z + 1) by nia. lia.
  - intros. assert (z - 1 < z') by nia. assert (z' - 1 < z) by nia. lia.
  - intros ((A & B) & C) ((A' & B') & C').
    rewrite Z.abs_mul, (Z.abs_eq d) in * by lia.
    assert (Z.abs z < Z.abs z' + 1) by nia. assert (Z.abs z' < Z.abs z + 1) by nia.
    assert (Z.abs z = Z.abs z') by lia. destruct (Z.eq_dec z z'); auto. assert (z' = - z) by lia. subst.
    assert (z * n = 0) by nia. assert (n <> 0) by nia. nia.
  - intros ((A & B) & C) ((A' & B') & C').
    assert (2 * Z.abs z - 1 < 2 * Z.abs z' + 1) by nia. assert (2 * Z.abs z' - 1 < 2 * Z.abs z + 1) by nia.
    assert (Z.abs z = Z.abs z') by lia. destruct (Z.eq_dec z z'); auto. assert (z' = - z) by lia. subst.
    assert (z * n = 0) by nia. assert (n <> 0) by nia. nia.
Qed.
