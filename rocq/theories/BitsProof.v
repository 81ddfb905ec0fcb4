(** Bit lemmas: masks as div/mod, disjoint or as addition. *)
From Coq Require Import ZArith Lia Bool.
Open Scope Z_scope.

Lemma land_disjoint a b k : 0 <= k -> 0 <= b < 2 ^ k -> Z.land (a * 2 ^ k) b = 0.
Proof.
  intros Hk Hb. apply Z.bits_inj'. intros n Hn. rewrite Z.land_spec, Z.bits_0.
  destruct (Z.lt_ge_cases n k).
  - rewrite Z.mul_pow2_bits_low by lia. reflexivity.
  - replace b with (b mod 2 ^ k) by (apply Z.mod_small; lia).
    rewrite (Z.mod_pow2_bits_high b k n) by lia. apply andb_false_r.
Qed.

Lemma lor_add a b k : 0 <= k -> 0 <= b < 2 ^ k -> Z.lor (a * 2 ^ k) b = a * 2 ^ k + b.
Proof.
  intros Hk Hb. pose proof (land_disjoint a b k Hk Hb) as H.
  rewrite <- Z.lxor_lor by exact H. symmetry. apply Z.add_nocarry_lxor. exact H.
Qed.

Lemma land_range w n k : 0 <= n -> 0 <= k ->
  Z.land w (Z.shiftl (Z.ones n) k) = ((w / 2 ^ k) mod 2 ^ n) * 2 ^ k.
Proof.
  intros Hn Hk. apply Z.bits_inj'. intros i Hi.
  rewrite Z.land_spec, Z.shiftl_spec by lia.
  destruct (Z.lt_ge_cases i k).
  - rewrite Z.mul_pow2_bits_low by lia. rewrite (Z.testbit_neg_r _ (i - k)) by lia. apply andb_false_r.
  - rewrite Z.mul_pow2_bits by lia.
    destruct (Z.lt_ge_cases (i - k) n).
    + rewrite Z.ones_spec_low by lia. rewrite Z.mod_pow2_bits_low by lia.
      rewrite Z.div_pow2_bits by lia. replace (i - k + k) with i by lia. apply andb_true_r.
    + rewrite Z.ones_spec_high by lia. rewrite Z.mod_pow2_bits_high by lia. apply andb_false_r.
Qed.

Lemma land_mono_subset a b c : Z.land a b = a -> Z.land a (Z.lor b c) = a.
Proof.
  intros H. apply Z.bits_inj'. intros n Hn. rewrite Z.land_spec, Z.lor_spec.
  assert (Hb : Z.testbit (Z.land a b) n = Z.testbit a n) by (rewrite H; auto).
  rewrite Z.land_spec in Hb. destruct (Z.testbit a n), (Z.testbit b n), (Z.testbit c n); simpl in *; auto.
Qed.

Lemma land_lor_subset a b c : Z.land a c = a -> Z.land b c = b -> Z.land (Z.lor a b) c = Z.lor a b.
Proof.
  intros H1 H2. rewrite Z.land_lor_distr_l, H1, H2. reflexivity.
Qed.
