(** C21. Evaluating arithmetic in terms. *)
From Coq Require Import ZArith Reals Bool Floats.SpecFloat List Lia Lra.
From Verif Require Import Word64 ArithModel ArithSpec ArithRealSpec ArithProof ArithFloat.
Open Scope Z_scope.

(** Sums, differences, products and negations of 64-bit integers are exact, or left
    unevaluated when they do not fit. *)
Theorem C21_sum_exact : forall a b, in64 a -> in64 b -> exactly (a + b) (arith2 OPlus (NInt a) (NInt b)).
Proof. exact add_ok. Qed.
Theorem C21_difference_exact : forall a b, in64 a -> in64 b -> exactly (a - b) (arith2 OMinus (NInt a) (NInt b)).
Proof. exact sub_ok. Qed.
Theorem C21_product_exact : forall a b, in64 a -> in64 b -> exactly (a * b) (arith2 OMult (NInt a) (NInt b)).
Proof. exact mul_ok. Qed.
Theorem C21_negation_exact : forall a, in64 a -> exactly (- a) (arith1 OUMinus (NInt a)).
Proof. exact uminus_ok. Qed.
(** Division truncates; division by zero and the one overflow are left unevaluated. *)
Theorem C21_division_truncates : forall a b, in64 a -> in64 b ->
  b = 0 /\ arith2 ODiv (NInt a) (NInt b) = RLeft \/
  b <> 0 /\ exists q r, is_quo_t a b q r /\ exactly q (arith2 ODiv (NInt a) (NInt b)).
Proof. exact div_ok. Qed.
Theorem C21_remainder_t_exact : forall a b, in64 a -> in64 b ->
  b = 0 /\ arith2 ORemT (NInt a) (NInt b) = RLeft \/
  b <> 0 /\ exists q r, is_quo_t a b q r /\ arith2 ORemT (NInt a) (NInt b) = RInt r /\ in64 r.
Proof. exact (fun a b A B => rem_ok a b ORemT A B (or_intror (or_introl eq_refl))). Qed.
(** Missing: negative arguments. *)
Theorem C21_remainder_ef_partial : forall o a b, o = ORemE \/ o = ORemF -> in64 a -> in64 b -> 0 <= a -> 0 < b ->
  exists q r, is_quo_f a b q r /\ is_quo_e a b q r /\ arith2 o (NInt a) (NInt b) = RInt r.
Proof.
  exact (fun o a b O A B Pa Pb =>
    match rem_ok a b o A B (match O with or_introl e => or_introl e | or_intror e => or_intror (or_intror e) end) with
    | or_introl (conj z _) => False_ind _ (Z.lt_irrefl 0 (eq_ind b (fun x => 0 < x) Pb 0 z))
    | or_intror (conj _ (ex_intro _ q (ex_intro _ r (conj Q (conj E _))))) =>
        ex_intro _ q (ex_intro _ r (conj (proj1 (quo_agree a b q r Q Pa Pb)) (conj (proj2 (quo_agree a b q r Q Pa Pb)) E)))
    end).
Qed.
(** Missing: dividends from 2^53 on. *)
Theorem C21_quotient_t_partial : forall a b, Z.abs a < 2 ^ 53 -> b <> 0 -> Z.abs b <= 2 ^ 53 ->
  exists q r, is_quo_t a b q r /\ arith2 OQuoT (NInt a) (NInt b) = RInt q.
Proof. exact quo_t_ok53. Qed.
Theorem C21_quotient_f_partial : forall a b, Z.abs a < 2 ^ 53 -> b <> 0 -> Z.abs b <= 2 ^ 53 ->
  exists q r, is_quo_f a b q r /\ arith2 OQuoF (NInt a) (NInt b) = RInt q.
Proof. exact quo_f_ok53. Qed.
(** Comparing integers *)
Theorem C21_integer_comparisons_exact : forall o w a b, (w = true -> a = b) ->
  compare o w (NInt a) (NInt b) = RTrue /\ holds o a b \/ compare o w (NInt a) (NInt b) = RFalse /\ ~ holds o a b.
Proof. exact compare_int. Qed.
(** With a double, the result is the exact real result rounded to the nearest double; it is
    left unevaluated when that is too large, and for a zero divisor. *)
Theorem C21_real_operations_rounded : forall o f a b,
  num_ok a -> num_ok b -> is_int a && is_int b = false -> real_op o = Some f -> num_fin a = true -> num_fin b = true ->
  (o = ODiv /\ real_of b = 0%R /\ arith2 o a b = RLeft) \/
  (~ (o = ODiv /\ real_of b = 0%R) /\
   ((exists x, arith2 o a b = RDbl x /\ is_fin x = true /\ double x /\ realv x = rnd (f (real_of a) (real_of b))) \/
    arith2 o a b = RLeft /\ (top <= Rabs (rnd (f (real_of a) (real_of b))))%R)).
Proof. exact arith2_dbl_ok. Qed.
Theorem C21_not_finite_left : forall o a b, num_ok a -> num_ok b -> num_fin a && num_fin b = false -> arith2 o a b = RLeft.
Proof. exact not_fin_left. Qed.
Theorem C21_real_negation_exact : forall x, double x -> is_fin x = true ->
  exists y, arith1 OUMinus (NDbl x) = RDbl y /\ is_fin y = true /\ double y /\ realv y = (- realv x)%R.
Proof. exact uminus_dbl. Qed.
(** Rounding a double to an integer gives that rounding, or is left when it does not fit. *)
Theorem C21_roundings_exact : forall o R x n d, rounding o = Some R -> value x n d ->
  exists z, R n d z /\ exactly z (arith1 o (NDbl x)).
Proof. exact arith1_dbl_ok. Qed.
Theorem C21_real_comparisons_exact : forall o w x y,
  double x -> double y -> is_fin x = true -> is_fin y = true -> (w = true -> x = y) ->
  compare o w (NDbl x) (NDbl y) = RTrue /\ holdsR o (realv x) (realv y) \/
  compare o w (NDbl x) (NDbl y) = RFalse /\ ~ holdsR o (realv x) (realv y).
Proof. exact compare_dbl. Qed.
(** Missing: integers from 2^53 on; "at most" and "at least". *)
Theorem C21_mixed_comparisons_partial : forall o a y, Z.abs a <= 2 ^ 53 -> double y -> is_fin y = true ->
  o = OLess \/ o = OGreater ->
  (compare o false (NInt a) (NDbl y) = RTrue /\ holdsR o (IZR a) (realv y) \/
   compare o false (NInt a) (NDbl y) = RFalse /\ ~ holdsR o (IZR a) (realv y)) /\
  (compare o false (NDbl y) (NInt a) = RTrue /\ holdsR o (realv y) (IZR a) \/
   compare o false (NDbl y) (NInt a) = RFalse /\ ~ holdsR o (realv y) (IZR a)).
Proof. exact compare_mixed. Qed.
(** No evaluation runs into undefined behaviour of C. *)
Theorem C21_always_defined : forall o a b, arith2 o a b <> RUB.
Proof. exact never_ub. Qed.
Theorem C21_always_defined_unary : forall o a, arith1 o a <> RUB.
Proof. exact never_ub1. Qed.

(** Wrong results. The Euclidean quotient takes the ceiling for a positive divisor. *)
Theorem C21_quotient_e_refuted : exists a b q r q',
  is_quo_e a b q r /\ arith2 OQuoE (NInt a) (NInt b) = RInt q' /\ q' <> q.
Proof. exists 7, 2, 3, 1, 4. split; [unfold is_quo_e; cbn; lia|]. split; [vm_compute; reflexivity|lia]. Qed.
(** The Euclidean and flooring remainders of a negative number. *)
Theorem C21_remainder_e_refuted : exists a b q r r',
  is_quo_e a b q r /\ arith2 ORemE (NInt a) (NInt b) = RInt r' /\ r' <> r.
Proof. exists (-7), 2, (-4), 1, (-1). split; [unfold is_quo_e; cbn; lia|]. split; [vm_compute; reflexivity|lia]. Qed.
Theorem C21_remainder_f_refuted : exists a b q r r',
  is_quo_f a b q r /\ arith2 ORemF (NInt a) (NInt b) = RInt r' /\ r' <> r.
Proof. exists (-7), 2, (-4), 1, (-1). split; [unfold is_quo_f; cbn; lia|]. split; [vm_compute; reflexivity|lia]. Qed.
(** Quotients of large integers go through doubles. *)
Theorem C21_quotient_t_refuted : exists a b q r q',
  in64 a /\ in64 b /\ is_quo_t a b q r /\ arith2 OQuoT (NInt a) (NInt b) = RInt q' /\ q' <> q.
Proof.
  exists (2 ^ 53 + 1), 1, (2 ^ 53 + 1), 0, (2 ^ 53). unfold in64, int_min, int_max, is_quo_t.
  repeat split; lia.
Qed.
(** 1 is not at most 1.0. *)
Definition one : spec_float := S754_finite false 4503599627370496 (-52).
Theorem C21_mixed_lesseq_refuted : exists a y, double y /\ is_fin y = true /\ realv y = IZR a /\
  compare OLessEq false (NInt a) (NDbl y) = RFalse /\ compare OGreaterEq false (NInt a) (NDbl y) = RFalse.
Proof.
  exists 1, one. split; [reflexivity|]. split; [reflexivity|]. split; [|split; vm_compute; reflexivity].
  unfold realv, one. cbn. unfold Defs.F2R. cbn. lra.
Qed.
(** Division of integers is not exact, as it is for reals. *)
Theorem C21_division_exact_refuted : exists a b q, arith2 ODiv (NInt a) (NInt b) = RInt q /\ b * q <> a.
Proof. exists 7, 2, 3. split; [vm_compute; reflexivity|lia]. Qed.

Print Assumptions C21_sum_exact.
Print Assumptions C21_difference_exact.
Print Assumptions C21_product_exact.
Print Assumptions C21_negation_exact.
Print Assumptions C21_division_truncates.
Print Assumptions C21_remainder_t_exact.
Print Assumptions C21_remainder_ef_partial.
Print Assumptions C21_quotient_t_partial.
Print Assumptions C21_quotient_f_partial.
Print Assumptions C21_integer_comparisons_exact.
Print Assumptions C21_real_operations_rounded.
Print Assumptions C21_not_finite_left.
Print Assumptions C21_real_negation_exact.
Print Assumptions C21_roundings_exact.
Print Assumptions C21_real_comparisons_exact.
Print Assumptions C21_mixed_comparisons_partial.
Print Assumptions C21_always_defined.
Print Assumptions C21_always_defined_unary.
Print Assumptions C21_quotient_e_refuted.
Print Assumptions C21_remainder_e_refuted.
Print Assumptions C21_remainder_f_refuted.
Print Assumptions C21_quotient_t_refuted.
Print Assumptions C21_mixed_lesseq_refuted.
Print Assumptions C21_division_exact_refuted.

(** Cases that meet the hypotheses *)
Definition half : spec_float := S754_finite false 4503599627370496 (-53).
Example product_fits : arith2 OMult (NInt 3037000499) (NInt (-3037000499)) = RInt (-9223372030926249001).
Proof. vm_compute. reflexivity. Qed.
Example product_left : arith2 OMult (NInt 3037000500) (NInt 3037000500) = RLeft.
Proof. vm_compute. reflexivity. Qed.
Example sum_edge : arith2 OPlus (NInt (2 ^ 63 - 1)) (NInt 1) = RLeft /\ arith2 OPlus (NInt (2 ^ 63 - 2)) (NInt 1) = RInt (2 ^ 63 - 1).
Proof. split; vm_compute; reflexivity. Qed.
Example floor_quotient : arith2 OQuoF (NInt (-7)) (NInt 2) = RInt (-4) /\ arith2 OQuoT (NInt (-7)) (NInt 2) = RInt (-3).
Proof. split; vm_compute; reflexivity. Qed.
Example mixed_sum : arith2 OPlus (NInt 1) (NDbl half) = RDbl (S754_finite false 6755399441055744 (-52)).
Proof. vm_compute. reflexivity. Qed.
Example half_is_a_number : num_ok (NDbl half) /\ num_fin (NDbl half) = true /\ value half 4503599627370496 (2 ^ 53).
Proof. repeat split. right. repeat split. Qed.
Example round_half : arith1 ORound (NDbl half) = RInt 1 /\ arith1 OFloor (NDbl half) = RInt 0.
Proof. split; vm_compute; reflexivity. Qed.
Example compare_half : compare OLess false (NInt 0) (NDbl half) = RTrue.
Proof. vm_compute. reflexivity. Qed.
