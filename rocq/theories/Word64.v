(** 64-bit two's-complement words (gint on the 64-bit build; Db/dbdata.h, config.h). *)
From Coq Require Import ZArith Lia.
Open Scope Z_scope.

Definition int_min := - 2 ^ 63.
Definition int_max := 2 ^ 63 - 1.
Definition in64 (z : Z) : Prop := int_min <= z <= int_max.
(** What a register holds after an operation whose exact result is [z]. *)
Definition w64 (z : Z) : Z := (z + 2 ^ 63) mod 2 ^ 64 - 2 ^ 63.
Definition w32 (z : Z) : Z := (z + 2 ^ 31) mod 2 ^ 32 - 2 ^ 31.
(** gcc's << and >> on signed words: shifted-out bits are lost, the sign is kept by >>. *)
Definition shl64 (z k : Z) : Z := w64 (z * 2 ^ k).
Definition shl32 (z k : Z) : Z := w32 (z * 2 ^ k).
Definition shr (z k : Z) : Z := Z.shiftr z k.

Lemma w64_id z : in64 z -> w64 z = z.
Proof. unfold in64, w64, int_min, int_max. intros. rewrite Z.mod_small by lia. lia. Qed.
Lemma w64_in z : in64 (w64 z).
Proof.
  unfold in64, w64, int_min, int_max.
  pose proof (Z.mod_pos_bound (z + 2 ^ 63) (2 ^ 64) ltac:(lia)). lia.
Qed.
Lemma w32_id z : - 2 ^ 31 <= z <= 2 ^ 31 - 1 -> w32 z = z.
Proof. unfold w32. intros. rewrite Z.mod_small by lia. lia. Qed.
Lemma w64_cong z : exists q, w64 z = z + q * 2 ^ 64.
Proof.
  unfold w64. exists (- ((z + 2 ^ 63) / 2 ^ 64)).
  pose proof (Z.div_mod (z + 2 ^ 63) (2 ^ 64) ltac:(lia)). lia.
Qed.
Lemma w32_cong z : exists q, w32 z = z + q * 2 ^ 32.
Proof.
  unfold w32. exists (- ((z + 2 ^ 31) / 2 ^ 32)).
  pose proof (Z.div_mod (z + 2 ^ 31) (2 ^ 32) ltac:(lia)). lia.
Qed.
Lemma w32_in z : - 2 ^ 31 <= w32 z <= 2 ^ 31 - 1.
Proof. unfold w32. pose proof (Z.mod_pos_bound (z + 2 ^ 31) (2 ^ 32) ltac:(lia)). lia. Qed.
