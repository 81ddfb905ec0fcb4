From Coq Require Import List ZArith Bool Lia.
From Verif Require Import BitsProof HistModel HistSpec.
Open Scope Z_scope.

Lemma cap_range n : 0 <= n -> 0 <= cap n <= 255.
Proof. unfold cap. destruct (Z.ltb_spec 255 n); lia. Qed.
Lemma cap_id n : n <= 255 -> cap n = n.
Proof. unfold cap. destruct (Z.ltb_spec 255 n); lia. Qed.

Lemma pack_sum t a b : 0 <= a <= 255 -> 0 <= b <= 255 -> pack t a b = t * 2 ^ 20 + a * 2 ^ 8 + b.
Proof.
  intros Ha Hb. unfold pack. rewrite !Z.shiftl_mul_pow2 by lia.
  rewrite (lor_add t (a * 2 ^ 8) 20) by lia.
  replace (t * 2 ^ 20 + a * 2 ^ 8) with ((t * 2 ^ 12 + a) * 2 ^ 8) by lia. rewrite lor_add by lia. lia.
Qed.

Definition flag (b : bool) : Z := if b then 1 else 0.
Lemma code_sum s : (0 <= first_pos s) -> (0 <= second_pos s) ->
  code s = rule s * 2 ^ 20 + flag (is_left s) * 2 ^ 16 + cap (first_pos s) * 2 ^ 8 + cap (second_pos s).
Proof.
  destruct s; cbn [code rule first_pos second_pos is_left flag]; intros Hp Hq; try reflexivity;
    repeat match goal with H : 0 <= ?x |- _ => is_var x; pose proof (cap_range x H); revert H end; intros.
  - unfold hist_resolve. rewrite pack_sum by lia. reflexivity || (unfold TAG_RESOLVE; lia).
  - unfold hist_instgen. rewrite pack_sum by lia. unfold TAG_INSTGEN; lia.
  - unfold hist_propagate. rewrite pack_sum by lia. unfold TAG_PROPAGATE; lia.
  - unfold hist_factorial. destruct (Z.ltb_spec q 0); [lia|]. rewrite pack_sum by lia. unfold TAG_FACTORIAL; lia.
  - unfold hist_reflexive. rewrite !Z.shiftl_mul_pow2 by lia. rewrite lor_add by lia. unfold TAG_EQUALITY_REFLEXIVE.
    change (cap 0) with 0. lia.
  - unfold hist_para. rewrite pack_sum by lia. destruct left; [|unfold TAG_PARA, flag; lia].
    change (Z.shiftl 1 16) with (1 * 2 ^ 16). rewrite Z.lor_comm.
    replace (TAG_PARA * 2 ^ 20 + cap p * 2 ^ 8 + cap q) with (Z.lor (48 * 2 ^ 16) (cap p * 2 ^ 8 + cap q))
      by (rewrite lor_add by lia; unfold TAG_PARA; lia).
    rewrite Z.lor_assoc. change (Z.lor (1 * 2 ^ 16) (48 * 2 ^ 16)) with (49 * 2 ^ 16). rewrite lor_add by lia.
    unfold flag. lia.
Qed.

Lemma land15 w : Z.land w 15 = w mod 16.
Proof. change 15 with (Z.ones 4). apply Z.land_ones. lia. Qed.

Lemma tag_back s : 0 <= first_pos s -> 0 <= second_pos s ->
  get_tag (code s) = rule s /\ get_extra (code s) = (if is_left s then 1 else 0).
Proof.
  intros Hp Hq. rewrite code_sum by auto. pose proof (cap_range _ Hp). pose proof (cap_range _ Hq).
  unfold get_tag, get_extra. rewrite !land15, !Z.shiftr_div_pow2 by lia.
  assert (Hr : 1 <= rule s <= 10) by (destruct s; cbn; lia).
  assert (Hf : 0 <= flag (is_left s) <= 1) by (destruct (is_left s); cbn; lia).
  change (if is_left s then 1 else 0) with (flag (is_left s)).
  revert Hr Hf. generalize (rule s) (flag (is_left s)). intros r f Hr Hf.
  set (a := cap (first_pos s)) in *. set (b := cap (second_pos s)) in *. clearbody a b.
  replace ((r * 2 ^ 20 + f * 2 ^ 16 + a * 2 ^ 8 + b) / 2 ^ 20) with r
    by (apply Z.div_unique with (f * 2 ^ 16 + a * 2 ^ 8 + b); lia).
  replace ((r * 2 ^ 20 + f * 2 ^ 16 + a * 2 ^ 8 + b) / 2 ^ 16) with (f + r * 16)
    by (apply Z.div_unique with (a * 2 ^ 8 + b); lia).
  rewrite Z_mod_plus_full. split; apply Z.mod_small; lia.
Qed.
Lemma pos_back s : positions_up_to 15 s -> get_pos1 (code s) = first_pos s /\ get_pos2 (code s) = second_pos s.
Proof.
  intros (Hp&Hq). rewrite code_sum by lia. rewrite !cap_id by lia.
  unfold get_pos1, get_pos2. rewrite !land15, !Z.shiftr_div_pow2 by lia.
  revert Hp Hq. generalize (first_pos s) (second_pos s) (rule s) (flag (is_left s)). intros p q r f Hp Hq.
  replace ((r * 2 ^ 20 + f * 2 ^ 16 + p * 2 ^ 8 + q) / 2 ^ 8) with (p + (r * 256 + f * 16) * 16)
    by (apply Z.div_unique with q; lia).
  replace (r * 2 ^ 20 + f * 2 ^ 16 + p * 2 ^ 8 + q) with (q + (r * 2 ^ 16 + f * 2 ^ 12 + p * 16) * 16) by lia.
  rewrite !Z_mod_plus_full. split; apply Z.mod_small; lia.
Qed.
Lemma digits k a b a' b' : 0 <= b < k -> 0 <= b' < k -> a * k + b = a' * k + b' -> a = a' /\ b = b'.
Proof. intros. assert (a = a') by nia. subst. split; [reflexivity|lia]. Qed.
Lemma code_inj s s' : positions_up_to 255 s -> positions_up_to 255 s' -> code s = code s' -> s = s'.
Proof.
  intros (Hp&Hq) (Hp'&Hq') E. rewrite !code_sum, !cap_id in E by lia.
  assert (R : rule s = rule s' /\ is_left s = is_left s' /\ first_pos s = first_pos s' /\ second_pos s = second_pos s').
  { assert (Hf : 0 <= flag (is_left s) <= 1) by (destruct (is_left s); cbn; lia).
    assert (Hf' : 0 <= flag (is_left s') <= 1) by (destruct (is_left s'); cbn; lia).
    destruct (digits (2 ^ 8) (rule s * 2 ^ 12 + flag (is_left s) * 2 ^ 8 + first_pos s) (second_pos s)
      (rule s' * 2 ^ 12 + flag (is_left s') * 2 ^ 8 + first_pos s') (second_pos s') ltac:(lia) ltac:(lia) ltac:(lia)) as [E1 E2].
    destruct (digits (2 ^ 8) (rule s * 2 ^ 4 + flag (is_left s)) (first_pos s)
      (rule s' * 2 ^ 4 + flag (is_left s')) (first_pos s') ltac:(lia) ltac:(lia) ltac:(lia)) as [E3 E4].
    destruct (digits (2 ^ 4) (rule s) (flag (is_left s)) (rule s') (flag (is_left s')) ltac:(lia) ltac:(lia) ltac:(lia)) as [E5 E6].
    split; [exact E5|]. split; [|split; assumption]. destruct (is_left s), (is_left s'); cbn in E6; try discriminate; reflexivity. }
  clear E Hp Hq Hp' Hq'. destruct R as (R1&R2&R3&R4). destruct s, s'; cbn in *; try discriminate; subst; reflexivity.
Qed.
