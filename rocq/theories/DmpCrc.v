(** Facts about the checksum of Db/crc1.h: it is linear, and no two texts that differ only within four
    neighbouring bytes have the same checksum. *)
From Coq Require Import Bool Arith ZArith Lia List.
From Verif Require Import DmpModel DmpSpec.
Import ListNotations.
Open Scope Z_scope.

Definition int32 (z : Z) : Prop := - 2 ^ 31 <= z < 2 ^ 31.

Definition all_bytes : list Z := map Z.of_nat (seq 0 256).
Lemma all_bytes_in b : byte b -> In b all_bytes.
Proof.
  unfold byte, all_bytes. intros H. apply in_map_iff. exists (Z.to_nat b).
  rewrite Z2Nat.id by lia. split; [reflexivity|]. apply in_seq. lia.
Qed.
Lemma forall_bytes (p : Z -> bool) : forallb p all_bytes = true -> forall b, byte b -> p b = true.
Proof. intros H b Hb. rewrite forallb_forall in H. apply H, all_bytes_in, Hb. Qed.

Lemma lxor_byte a b : byte a -> byte b -> byte (Z.lxor a b).
Proof.
  unfold byte. intros Ha Hb.
  assert (Hn : 0 <= Z.lxor a b) by (apply Z.lxor_nonneg; lia).
  split; [exact Hn|].
  assert (Z.shiftr (Z.lxor a b) 8 = 0).
  { rewrite Z.shiftr_lxor, !Z.shiftr_div_pow2 by lia.
    rewrite !Z.div_small by (change (2 ^ 8) with 256; lia). reflexivity. }
  rewrite Z.shiftr_div_pow2 in H by lia. change (2 ^ 8) with 256 in H.
  pose proof (Z_div_mod_eq_full (Z.lxor a b) 256). pose proof (Z.mod_pos_bound (Z.lxor a b) 256 ltac:(lia)). lia.
Qed.
(** numbers of [k] bits and a sign *)
Lemma lxor_range k a b :
  0 <= k -> - 2 ^ k <= a < 2 ^ k -> - 2 ^ k <= b < 2 ^ k -> - 2 ^ k <= Z.lxor a b < 2 ^ k.
Proof.
  intros Hk Ha Hb.
  assert (Hp : 0 < 2 ^ k) by (apply Z.pow_pos_nonneg; lia).
  assert (Hs : forall z, - 2 ^ k <= z < 2 ^ k <-> Z.shiftr z k = 0 \/ Z.shiftr z k = -1).
  { intros z. rewrite Z.shiftr_div_pow2 by lia.
    pose proof (Z_div_mod_eq_full z (2 ^ k)). pose proof (Z.mod_pos_bound z (2 ^ k) Hp). split; intros; nia. }
  apply Hs. rewrite Z.shiftr_lxor.
  apply Hs in Ha. apply Hs in Hb. destruct Ha as [-> | ->]; destruct Hb as [-> | ->]; cbn; auto.
Qed.
Lemma lxor_pos k a b : 0 <= k -> 0 <= a < 2 ^ k -> 0 <= b < 2 ^ k -> 0 <= Z.lxor a b < 2 ^ k.
Proof.
  intros Hk Ha Hb. split; [apply Z.lxor_nonneg; lia|].
  apply (lxor_range k); lia.
Qed.

(** ** The table *)
Lemma table_int32 b : byte b -> int32 (crc_table b).
Proof.
  intros _. unfold crc_table, s32, int32.
  match goal with |- context [?x mod 2 ^ 32] => pose proof (Z.mod_pos_bound x (2 ^ 32) ltac:(lia)) end.
  change (2 ^ 31) with 2147483648 in *. change (2 ^ 32) with 4294967296 in *. lia.
Qed.
(** Linear: with single bits, and hence with any byte. *)
Definition bits8 (b : Z) : list Z := map (fun k => if Z.testbit b k then 2 ^ k else 0) [0; 1; 2; 3; 4; 5; 6; 7].
Lemma table_bit a x : byte a -> In x [0; 1; 2; 4; 8; 16; 32; 64; 128] ->
  crc_table (Z.lxor a x) = Z.lxor (crc_table a) (crc_table x).
Proof.
  intros Ha Hx.
  assert (H : forallb (fun a => forallb (fun x => crc_table (Z.lxor a x) =? Z.lxor (crc_table a) (crc_table x))
                [0; 1; 2; 4; 8; 16; 32; 64; 128]) all_bytes = true) by (vm_compute; reflexivity).
  pose proof (forall_bytes _ H a Ha) as H1. cbv beta in H1. rewrite forallb_forall in H1. apply Z.eqb_eq, H1, Hx.
Qed.
Lemma bits8_xor b : byte b -> fold_left Z.lxor (bits8 b) 0 = b.
Proof.
  intros Hb. assert (H : forallb (fun b => fold_left Z.lxor (bits8 b) 0 =? b) all_bytes = true) by (vm_compute; reflexivity).
  apply Z.eqb_eq. exact (forall_bytes _ H b Hb).
Qed.
Lemma bits8_in b x : In x (bits8 b) -> In x [0; 1; 2; 4; 8; 16; 32; 64; 128].
Proof.
  intros H. apply in_map_iff in H as (k & <- & Hk). destruct (Z.testbit b k); [|left; reflexivity].
  right. cbn in Hk. repeat (destruct Hk as [<-|Hk]; [cbn; tauto|]). destruct Hk.
Qed.
Lemma table_linear a b : byte a -> byte b -> crc_table (Z.lxor a b) = Z.lxor (crc_table a) (crc_table b).
Proof.
  intros Ha Hb.
  assert (A : forall l c, (forall x, In x l -> In x [0; 1; 2; 4; 8; 16; 32; 64; 128]) -> byte c ->
            forall d, byte d -> crc_table (Z.lxor d c) = Z.lxor (crc_table d) (crc_table c) ->
            crc_table (Z.lxor d (fold_left Z.lxor l c)) = Z.lxor (crc_table d) (crc_table (fold_left Z.lxor l c))).
  { induction l as [|x l IH]; intros c Hl Hc d Hd E; cbn [fold_left]; [exact E|].
    assert (Hx : In x [0; 1; 2; 4; 8; 16; 32; 64; 128]) by (apply Hl; left; reflexivity).
    assert (Bx : byte x) by (cbn in Hx; unfold byte; lia).
    apply IH; [intros y Hy; apply Hl; right; exact Hy|apply lxor_byte; assumption|exact Hd|].
    rewrite <- Z.lxor_assoc, (table_bit _ x (lxor_byte _ _ Hd Hc) Hx), E, (table_bit c x Hc Hx). apply Z.lxor_assoc. }
  specialize (A (bits8 b) 0 (bits8_in b) ltac:(unfold byte; lia) a Ha). rewrite (bits8_xor b Hb) in A. apply A.
  apply table_bit; [exact Ha|left; reflexivity].
Qed.
Lemma table_small b : byte b -> - 2 ^ 23 <= crc_table b < 2 ^ 23 -> b = 0.
Proof.
  intros Hb Hr.
  assert (H : forallb (fun b => implb ((- 2 ^ 23 <=? crc_table b) && (crc_table b <? 2 ^ 23)) (b =? 0)) all_bytes = true)
    by (vm_compute; reflexivity).
  pose proof (forall_bytes _ H b Hb) as H1. cbv beta in H1.
  replace (- 2 ^ 23 <=? crc_table b) with true in H1 by (symmetry; apply Z.leb_le; lia).
  replace (crc_table b <? 2 ^ 23) with true in H1 by (symmetry; apply Z.ltb_lt; lia).
  apply Z.eqb_eq, H1.
Qed.
Lemma table_top b : byte b -> 0 <= crc_table b < 2 ^ 24 -> b = 0.
Proof.
  intros Hb Hr.
  assert (H : forallb (fun b => implb ((0 <=? crc_table b) && (crc_table b <? 2 ^ 24)) (b =? 0)) all_bytes = true)
    by (vm_compute; reflexivity).
  pose proof (forall_bytes _ H b Hb) as H1. cbv beta in H1.
  replace (0 <=? crc_table b) with true in H1 by (symmetry; apply Z.leb_le; lia).
  replace (crc_table b <? 2 ^ 24) with true in H1 by (symmetry; apply Z.ltb_lt; lia).
  apply Z.eqb_eq, H1.
Qed.
Lemma table_zero : crc_table 0 = 0.
Proof. reflexivity. Qed.

(** ** One step is linear *)
Definition M (s : Z) : Z := Z.lxor (crc_table (Z.land 255 s)) (Z.shiftr s 8).
Lemma land_255 z : Z.land 255 z = z mod 256.
Proof. rewrite Z.land_comm. change 255 with (Z.ones 8). now rewrite Z.land_ones by lia. Qed.
Lemma land_byte z : byte (Z.land 255 z).
Proof. rewrite land_255. apply Z.mod_pos_bound; lia. Qed.
Lemma land_schar b : byte b -> Z.land 255 (schar b) = Z.land 255 b.
Proof.
  intros _. rewrite !land_255. unfold schar. destruct (b <? 128); [reflexivity|].
  replace (b - 256) with (b + (-1) * 256) by lia. apply Z.mod_add; lia.
Qed.
Lemma land_lxor a b : Z.land 255 (Z.lxor a b) = Z.lxor (Z.land 255 a) (Z.land 255 b).
Proof.
  apply Z.bits_inj'. intros n Hn. rewrite !Z.lxor_spec, !Z.land_spec, !Z.lxor_spec.
  destruct (Z.testbit 255 n), (Z.testbit a n), (Z.testbit b n); reflexivity.
Qed.
Lemma shift_byte b : byte b -> Z.shiftr b 8 = 0.
Proof. intros H. rewrite Z.shiftr_div_pow2 by lia. apply Z.div_small. exact H. Qed.
Lemma step_M s b : byte b -> crc_step s b = M (Z.lxor s b).
Proof.
  intros Hb. unfold crc_step, M. rewrite Z.shiftr_lxor, (shift_byte b Hb), Z.lxor_0_r.
  do 2 f_equal. rewrite !land_lxor, (land_schar b Hb). apply Z.lxor_comm.
Qed.
Lemma M_lxor a b : M (Z.lxor a b) = Z.lxor (M a) (M b).
Proof.
  unfold M. rewrite land_lxor, table_linear by apply land_byte. rewrite Z.shiftr_lxor.
  rewrite !Z.lxor_assoc. f_equal. rewrite <- !Z.lxor_assoc. f_equal. apply Z.lxor_comm.
Qed.
Lemma M_0 : M 0 = 0.
Proof. reflexivity. Qed.
Lemma shift_range s : int32 s -> - 2 ^ 23 <= Z.shiftr s 8 < 2 ^ 23.
Proof.
  unfold int32. intros H. rewrite Z.shiftr_div_pow2 by lia. change (2 ^ 8) with 256.
  change (2 ^ 31) with 2147483648 in H. change (2 ^ 23) with 8388608.
  pose proof (Z_div_mod_eq_full s 256). pose proof (Z.mod_pos_bound s 256 ltac:(lia)). lia.
Qed.
Lemma M_int32 s : int32 s -> int32 (M s).
Proof.
  intros H. unfold M, int32. apply (lxor_range 31); [lia|apply table_int32, land_byte|].
  pose proof (shift_range s H). change (2 ^ 31) with 2147483648. change (2 ^ 23) with 8388608 in H0. lia.
Qed.
(** a small result comes from one place only *)
Lemma M_inv x y : int32 x -> M x = y -> - 2 ^ 23 <= y < 2 ^ 23 -> x = 256 * y.
Proof.
  intros Hx Hm Hy. unfold M in Hm.
  assert (Ht : crc_table (Z.land 255 x) = Z.lxor y (Z.shiftr x 8)).
  { rewrite <- Hm, Z.lxor_assoc, Z.lxor_nilpotent, Z.lxor_0_r. reflexivity. }
  assert (Hz : Z.land 255 x = 0).
  { apply table_small; [apply land_byte|]. rewrite Ht. apply (lxor_range 23); [lia|exact Hy|apply shift_range, Hx]. }
  rewrite Hz, table_zero, Z.lxor_0_l in Hm.
  rewrite land_255 in Hz. rewrite Z.shiftr_div_pow2 in Hm by lia. change (2 ^ 8) with 256 in Hm.
  pose proof (Z_div_mod_eq_full x 256). lia.
Qed.
Lemma M_zero x : int32 x -> M x = 0 -> x = 0.
Proof. intros Hx Hm. pose proof (M_inv x 0 Hx Hm). lia. Qed.

Lemma lxor_eq a b c : Z.lxor a b = c -> a = Z.lxor c b.
Proof. intros <-. now rewrite Z.lxor_assoc, Z.lxor_nilpotent, Z.lxor_0_r. Qed.
Lemma lxor_int32 a b : int32 a -> int32 b -> int32 (Z.lxor a b).
Proof. unfold int32. intros. apply (lxor_range 31); lia. Qed.
Lemma byte_int32 b : byte b -> int32 b.
Proof. unfold byte, int32. change (2 ^ 31) with 2147483648. lia. Qed.

(** ** The difference of two computations *)
Definition diff (d : Z) (e : Z) : Z := M (Z.lxor d e).
Lemma fold_diff a : forall b s t, length a = length b -> Forall byte a -> Forall byte b ->
  Z.lxor (fold_left crc_step a s) (fold_left crc_step b t)
  = fold_left diff (map (fun p => Z.lxor (fst p) (snd p)) (combine a b)) (Z.lxor s t).
Proof.
  induction a as [|x a IH]; intros [|y b] s t Hl Ha Hb; cbn in *; try discriminate; [reflexivity|].
  inversion_clear Ha. inversion_clear Hb.
  rewrite IH by (try assumption; congruence).
  rewrite !step_M by assumption. unfold diff. f_equal.
  rewrite <- M_lxor. f_equal. rewrite !Z.lxor_assoc. f_equal. rewrite <- !Z.lxor_assoc. f_equal. apply Z.lxor_comm.
Qed.
Lemma diff_int32 l : forall d, Forall byte l -> int32 d -> int32 (fold_left diff l d).
Proof.
  induction l as [|e l IH]; intros d Hl Hd; [exact Hd|]. inversion_clear Hl. cbn. apply IH; [assumption|].
  apply M_int32, lxor_int32; [exact Hd|apply byte_int32; assumption].
Qed.
Lemma diff_zeros k d : int32 d -> fold_left diff (repeat 0 k) d = 0 -> d = 0.
Proof.
  revert d. induction k as [|k IH]; intros d Hd Hf; [exact Hf|]. cbn in Hf.
  unfold diff at 2 in Hf. rewrite Z.lxor_0_r in Hf.
  apply M_zero; [exact Hd|]. apply IH; [apply M_int32, Hd|exact Hf].
Qed.
Lemma diff_start k l : fold_left diff (repeat 0 k ++ l) 0 = fold_left diff l 0.
Proof. induction k as [|k IH]; [reflexivity|]. cbn. exact IH. Qed.

Local Opaque crc_table.
Lemma int32_0 : int32 0.
Proof. unfold int32. change (2 ^ 31) with 2147483648. lia. Qed.
Lemma four_bytes a b c d : byte a -> byte b -> byte c -> byte d ->
  fold_left diff [a; b; c; d] 0 = 0 -> a = 0 /\ b = 0 /\ c = 0 /\ d = 0.
Proof.
  intros Ha Hb Hc Hd H. cbn [fold_left] in H.
  set (d1 := diff 0 a) in *. set (d2 := diff d1 b) in *. set (d3 := diff d2 c) in *.
  assert (I1 : int32 d1) by (unfold d1, diff; apply M_int32; rewrite Z.lxor_0_l; apply byte_int32, Ha).
  assert (I2 : int32 d2) by (unfold d2, diff; apply M_int32, lxor_int32; [exact I1|apply byte_int32, Hb]).
  assert (I3 : int32 d3) by (unfold d3, diff; apply M_int32, lxor_int32; [exact I2|apply byte_int32, Hc]).
  unfold diff in H. apply M_zero in H; [|apply lxor_int32; [exact I3|apply byte_int32, Hd]].
  apply lxor_eq in H. rewrite Z.lxor_0_l in H.
  assert (E3 : M (Z.lxor d2 c) = d) by (unfold d3, diff in H; exact H). unfold byte in *.
  apply M_inv in E3; [|apply lxor_int32; [exact I2|apply byte_int32, Hc]|change (2 ^ 23) with 8388608; lia].
  apply lxor_eq in E3.
  assert (R2 : 0 <= d2 < 2 ^ 16).
  { rewrite E3. apply lxor_pos; [lia| |]; change (2 ^ 16) with 65536; lia. }
  change (2 ^ 16) with 65536 in R2.
  assert (E2 : M (Z.lxor d1 b) = d2) by (unfold d2, diff; reflexivity).
  apply M_inv in E2; [|apply lxor_int32; [exact I1|apply byte_int32, Hb]|change (2 ^ 23) with 8388608; lia].
  apply lxor_eq in E2.
  assert (R1 : 0 <= d1 < 2 ^ 24).
  { rewrite E2. apply lxor_pos; [lia| |]; change (2 ^ 24) with 16777216; lia. }
  assert (E1 : d1 = crc_table a).
  { unfold d1, diff, M. rewrite Z.lxor_0_l, (shift_byte a Ha), Z.lxor_0_r, land_255, Z.mod_small by lia. reflexivity. }
  assert (A0 : a = 0) by (apply table_top; [exact Ha|rewrite <- E1; exact R1]).
  assert (D1 : d1 = 0) by (rewrite E1, A0; apply table_zero).
  rewrite D1 in E2. symmetry in E2. apply lxor_eq in E2. rewrite Z.lxor_0_l in E2.
  assert (D2 : d2 = 0) by lia.
  rewrite D2 in E3. symmetry in E3. apply lxor_eq in E3. rewrite Z.lxor_0_l in E3.
  lia.
Qed.

(** ** Texts that differ within four neighbouring bytes *)
Lemma xor_same l : map (fun p => Z.lxor (fst p) (snd p)) (combine l l) = repeat 0 (length l).
Proof. induction l as [|x l IH]; [reflexivity|]. cbn. now rewrite Z.lxor_nilpotent, IH. Qed.
Lemma combine_app {A B} (a : list A) : forall (b : list B) c d, length a = length b ->
  combine (a ++ c) (b ++ d) = combine a b ++ combine c d.
Proof.
  induction a as [|x a IH]; intros [|y b] c d H; try discriminate; [reflexivity|]. cbn. f_equal. apply IH. now inversion H.
Qed.
Definition dxor (a b : list Z) : list Z := map (fun p => Z.lxor (fst p) (snd p)) (combine a b).
Lemma dxor_bytes a : forall b, Forall byte a -> Forall byte b -> Forall byte (dxor a b).
Proof.
  induction a as [|x a IH]; intros [|y b] Ha Hb; cbn; constructor; inversion_clear Ha; inversion_clear Hb.
  - now apply lxor_byte.
  - now apply IH.
Qed.
Lemma dxor_zero a : forall b k, length a = length b -> dxor a b = repeat 0 k -> a = b.
Proof.
  induction a as [|x a IH]; intros [|y b] k H E; try discriminate; [reflexivity|].
  destruct k as [|k]; [discriminate|]. cbn in E. injection E as E1 E2.
  apply Z.lxor_eq in E1. f_equal; [exact E1|]. apply (IH b k); [now inversion H|exact E2].
Qed.
Lemma dxor_length a b : length a = length b -> length (dxor a b) = length a.
Proof. intros H. unfold dxor. rewrite map_length, combine_length. lia. Qed.
Theorem window_detected pre w w' post :
  length w = length w' -> (length w <= 4)%nat ->
  Forall byte (pre ++ w ++ post) -> Forall byte (pre ++ w' ++ post) ->
  update_crc32 (pre ++ w ++ post) 0 = update_crc32 (pre ++ w' ++ post) 0 -> w = w'.
Proof.
  intros Hl Hle Hb Hb' H. unfold update_crc32 in H.
  assert (H1 : fold_left crc_step (pre ++ w ++ post) (Z.lnot 0) = fold_left crc_step (pre ++ w' ++ post) (Z.lnot 0)).
  { rewrite <- (Z.lnot_involutive (fold_left crc_step (pre ++ w ++ post) (Z.lnot 0))), H. apply Z.lnot_involutive. }
  clear H. apply (f_equal (fun z => Z.lxor z (fold_left crc_step (pre ++ w' ++ post) (Z.lnot 0)))) in H1.
  rewrite Z.lxor_nilpotent in H1.
  rewrite fold_diff in H1; [|rewrite !app_length; lia|assumption|assumption].
  rewrite Z.lxor_nilpotent in H1.
  rewrite combine_app, combine_app, !map_app, !xor_same in H1 by (try assumption; reflexivity).
  rewrite diff_start, fold_left_app in H1. fold (dxor w w') in H1.
  rewrite !Forall_app in Hb, Hb'. destruct Hb as (_ & Hw & _). destruct Hb' as (_ & Hw' & _).
  pose proof (dxor_bytes w w' Hw Hw') as Hd.
  apply diff_zeros in H1; [|apply diff_int32; [exact Hd|apply int32_0]].
  pose proof (dxor_length w w' Hl) as Hn.
  set (d := dxor w w') in *.
  assert (Hz : d = repeat 0 (length d)).
  { assert (B0 : byte 0) by (unfold byte; lia).
    destruct d as [|a [|b [|c [|e [|]]]]]; cbn [length] in *; try lia; try reflexivity.
    - rewrite <- (diff_start 3) in H1. inversion Hd as [|? ? B1 _]; subst.
      destruct (four_bytes 0 0 0 a B0 B0 B0 B1 H1) as (_ & _ & _ & ->). reflexivity.
    - rewrite <- (diff_start 2) in H1. inversion Hd as [|? ? B1 R1]; subst. inversion R1 as [|? ? B2 _]; subst.
      destruct (four_bytes 0 0 a b B0 B0 B1 B2 H1) as (_ & _ & -> & ->). reflexivity.
    - rewrite <- (diff_start 1) in H1. inversion Hd as [|? ? B1 R1]; subst. inversion R1 as [|? ? B2 R2]; subst.
      inversion R2 as [|? ? B3 _]; subst.
      destruct (four_bytes 0 a b c B0 B1 B2 B3 H1) as (_ & -> & -> & ->). reflexivity.
    - inversion Hd as [|? ? B1 R1]; subst. inversion R1 as [|? ? B2 R2]; subst.
      inversion R2 as [|? ? B3 R3]; subst. inversion R3 as [|? ? B4 _]; subst.
      destruct (four_bytes a b c e B1 B2 B3 B4 H1) as (-> & -> & -> & ->). reflexivity. }
  unfold d in Hz. apply (dxor_zero w w' (length (dxor w w'))); assumption.
Qed.

(** ** Texts that differ by a pattern that leaves no trace *)
Lemma pattern_same pre w w' post : length w = length w' ->
  Forall byte (pre ++ w ++ post) -> Forall byte (pre ++ w' ++ post) -> fold_left diff (dxor w w') 0 = 0 ->
  update_crc32 (pre ++ w ++ post) 0 = update_crc32 (pre ++ w' ++ post) 0.
Proof.
  intros Hl Hb Hb' H. unfold update_crc32. f_equal. apply Z.lxor_eq.
  rewrite fold_diff; [|rewrite !app_length; lia|assumption|assumption].
  rewrite Z.lxor_nilpotent, combine_app, combine_app, !map_app, !xor_same by (try assumption; reflexivity).
  rewrite diff_start, fold_left_app. fold (dxor w w'). rewrite H.
  rewrite <- (app_nil_r (repeat 0 (length post))), diff_start. reflexivity.
Qed.

(** ** In pieces *)
Lemma update_app a b crc : update_crc32 b (update_crc32 a crc) = update_crc32 (a ++ b) crc.
Proof. unfold update_crc32. now rewrite fold_left_app, Z.lnot_involutive. Qed.
