(** C29, C30: encoded values. *)
From Coq Require Import List ZArith Bool Lia.
From Verif Require Import Word64 AllocModel AllocSpec AllocProof EncModel EncSpec EncProof PropAllocEx.
Import ListNotations.
Open Scope Z_scope.

(** C29.  For every 64-bit integer and every state of the segment reached by some history:
    unless the encoder reports failure, the encoded word decodes to the same integer, in the new
    state and after every further history in which its box (if there is one) is neither freed
    nor overwritten. *)
Theorem C29_integers_roundtrip : forall d L i w d', areach (d, L) -> in64 i ->
  encode_int d i = (w, d') -> w <> WG_ILLEGAL ->
  (forall s, decode_int s w = i) \/
  exists b, asteps (d, L) (d', b :: L) /\ forall s, quiet b (d', b :: L) s -> decode_int (fst s) w = i.
Proof. exact int_roundtrip. Qed.
Print Assumptions C29_integers_roundtrip.
Example C29_nonvacuous : areach (ad4, [ab2; ab1]) /\ in64 big /\ encode_int ad4 big = (1041, ad6) /\ 1041 <> WG_ILLEGAL /\
  decode_int ad6 1041 = big /\ fst (encode_int ad4 (-5)) = -37.
Proof.
  split; [exact reach_ad4|]. split; [unfold in64, int_min, int_max, big; lia|]. split; [exact ad6_ok|].
  split; [discriminate|]. split; vm_compute; reflexivity.
Qed.

(** The encoder reports failure only if no word could be allocated. *)
Theorem C29_failure_means_no_memory : forall d L i d', areach (d, L) -> in64 i ->
  encode_int d i = (WG_ILLEGAL, d') -> alloc_fixlen d word_area = AFail d'.
Proof. exact int_illegal. Qed.
Print Assumptions C29_failure_means_no_memory.
Example C29_nonvacuous_failure : blank ad0 /\ encode_int ad0 big = (WG_ILLEGAL, ad0).
Proof. split; [exact ad0_blank|vm_compute; reflexivity]. Qed.

(** The same for doubles: the stored bit pattern is read back. *)
Theorem C29_doubles_roundtrip : forall d L x w d', areach (d, L) ->
  encode_double d x = (w, d') -> w <> WG_ILLEGAL ->
  exists b, asteps (d, L) (d', b :: L) /\ forall s, quiet b (d', b :: L) s -> decode_double (fst s) w = x.
Proof. exact double_roundtrip. Qed.
Print Assumptions C29_doubles_roundtrip.
Example C29_nonvacuous_double : areach (ad2, []) /\ fst (encode_double ad2 4614253070214989087) = 9218.
Proof. split; [exact reach_ad2|vm_compute; reflexivity]. Qed.

(** C30.  The type reported for an encoded value is the type it was encoded as. *)
Theorem C30_type_of_encoded_value : forall d v, in_range d v -> get_type d (encode v) = type_code v.
Proof. exact type_of_encoded. Qed.
Print Assumptions C30_type_of_encoded_value.
(** Values of any types have equal encodings only if they are the same value of the same type. *)
Theorem C30_encodings_do_not_collide : forall d v v', in_range d v -> in_range d v' -> encode v = encode v' -> v = v'.
Proof. exact encode_inj. Qed.
Print Assumptions C30_encodings_do_not_collide.
(** No value is encoded as the error code. *)
Theorem C30_no_value_is_the_error_code : forall d v, in_range d v -> encode v <> WG_ILLEGAL.
Proof. exact not_illegal. Qed.
Print Assumptions C30_no_value_is_the_error_code.
(** Immediate values are decoded to what was encoded. *)
Theorem C30_immediate_values_roundtrip : forall d v, in_range d v ->
  match v with
  | VInt i => decode_int d (encode v) = i
  | VChar c => decode_char (encode v) = c
  | VFix k => decode_fixpoint (encode v) = k
  | VDate i => decode_date (encode v) = i
  | VTime i => decode_time (encode v) = i
  | VAnon i => decode_anonconst (encode v) = i
  | VVar i => decode_var (encode v) = i
  | _ => True
  end.
Proof. exact immediate_roundtrip. Qed.
Print Assumptions C30_immediate_values_roundtrip.
Example C30_nonvacuous : Forall (in_range (set_mem ad4 (store (mem ad4) 3008 517)))
  [VNull; VInt (-3); VInt (2 ^ 60 - 1); VBoxedInt 1024; VDouble 1024; VRecord 4096; VShort 2048; VLong 3000 5;
   VChar (-1); VFix (-7999999); VDate 737000; VTime 8640000; VAnon 3; VVar 12].
Proof. repeat constructor; cbn; unfold int_max; auto; lia. Qed.
