(** C37: comparison of encoded values. *)
From Coq Require Import List ZArith Bool Lia.
From Verif Require Import Word64 AllocModel EncModel EncSpec EncProof CmpModel CmpSpec CmpProof.
Import ListNotations.
Open Scope Z_scope.

(** C37.  For every state of the segment, all words that stand for contents (any value but a
    NaN, records included to the depth the comparison looks) are ordered like their contents:
    type first, numbers by value, strings alphabetically, records by length and then field by
    field.  Missing from the full claim: doubles that are NaN; see the refutation. *)
Theorem C37_order_of_contents_partial : forall d text extra blob n a b k k',
  content_of d text extra blob n a k -> content_of d text extra blob n b k' ->
  compare_words d text extra blob n a b = code_of (order k k').
Proof. exact compare_content. Qed.
Print Assumptions C37_order_of_contents_partial.
(** Swapping the arguments swaps the verdict. *)
Theorem C37_antisymmetric_partial : forall d text extra blob n a b k k',
  content_of d text extra blob n a k -> content_of d text extra blob n b k' ->
  compare_words d text extra blob n b a = - compare_words d text extra blob n a b.
Proof. exact cmp_opp. Qed.
Print Assumptions C37_antisymmetric_partial.
(** Two words compare equal exactly if they have the same contents. *)
Theorem C37_equal_means_same_contents_partial : forall d text extra blob n a b k k',
  content_of d text extra blob n a k -> content_of d text extra blob n b k' ->
  (compare_words d text extra blob n a b = WG_EQUAL <-> k = k').
Proof. exact cmp_equal. Qed.
Print Assumptions C37_equal_means_same_contents_partial.
(** "Not greater" is transitive. *)
Theorem C37_transitive_partial : forall d text extra blob n a b c k k' k'',
  content_of d text extra blob n a k -> content_of d text extra blob n b k' -> content_of d text extra blob n c k'' ->
  compare_words d text extra blob n a b <= 0 -> compare_words d text extra blob n b c <= 0 ->
  compare_words d text extra blob n a c <= 0.
Proof. exact cmp_trans. Qed.
Print Assumptions C37_transitive_partial.

(** A record at 1024 with an integer and a boxed integer, one at 1088 with an integer and a
    double, two boxed integers, a double (1.5). *)
Definition cm : Z -> Z := fun a =>
  if a =? 1024 then 40 else if a =? 1048 then encode_smallint 7 else if a =? 1056 then encode_fullint_offset 2048
  else if a =? 1088 then 41 else if a =? 1112 then encode_smallint 7 else if a =? 1120 then encode_fulldouble_offset 4096
  else if a =? 2048 then 2 ^ 62 else if a =? 2056 then 2 ^ 62
  else if a =? 4096 then 4609434218613702656 else if a =? 4112 then 9221120237041090560 else 0.
Definition cd : db := {| mem := cm; dfree := 8192; dsize := 1000000; areas := fun _ => {| olen := 0; flist := 0; subs := [] |} |}.
Definition no_text : Z -> list Z := fun _ => [].
Definition no_extra : Z -> option (list Z) := fun _ => None.

Lemma cm_int o i : box o -> mem cd o = i -> content_of cd no_text no_extra no_text 6 (encode (VBoxedInt o)) (KScalar 3 [] [i]).
Proof. intros B <-. apply (co_scalar _ _ _ _ 6 (VBoxedInt o) [] [mem cd o]); [exact B|reflexivity]. Qed.
Lemma cm_small i : - 2 ^ 60 <= i < 2 ^ 60 -> content_of cd no_text no_extra no_text 6 (encode (VInt i)) (KScalar 3 [] [i]).
Proof. intros B. apply (co_scalar _ _ _ _ 6 (VInt i) [] [i]); [exact B|reflexivity]. Qed.
Lemma cm_dbl o : box o -> is_nan (mem cd o) = false -> content_of cd no_text no_extra no_text 6 (encode (VDouble o)) (KScalar 4 [] [dbl_rank (mem cd o)]).
Proof. intros B N. apply (co_scalar _ _ _ _ 6 (VDouble o) [] [dbl_rank (mem cd o)]); [exact B|]. cbn [scalar]. rewrite N. reflexivity. Qed.
Lemma bx o : (0 <? o) && (o <=? 10000) && (o mod 8 =? 0) = true -> box o.
Proof. intros H. apply andb_prop in H as [H H3]. apply andb_prop in H as [H1 H2]. apply Z.ltb_lt in H1. apply Z.leb_le in H2. apply Z.eqb_eq in H3. unfold box, int_max. lia. Qed.

(** Non-vacuity: two records that share the first field; boxed integers in different boxes. *)
Example C37_nonvacuous : content_of cd no_text no_extra no_text 7 1024 (KRec [KScalar 3 [] [7]; KScalar 3 [] [2 ^ 62]]) /\
  content_of cd no_text no_extra no_text 7 1088 (KRec [KScalar 3 [] [7]; KScalar 4 [] [4609434218613702656]]) /\
  compare_words cd no_text no_extra no_text 7 1024 1088 = WG_LESSTHAN /\
  compare_words cd no_text no_extra no_text 7 (encode_fullint_offset 2048) (encode_fullint_offset 2056) = WG_EQUAL.
Proof.
  split; [|split; [|split; vm_compute; reflexivity]].
  - apply (co_record cd no_text no_extra no_text 6 1024 2 0); [apply bx; reflexivity|reflexivity|lia|].
    constructor; [exact (cm_small 7 ltac:(lia))|]. constructor; [exact (cm_int 2048 _ (bx 2048 eq_refl) eq_refl)|constructor].
  - apply (co_record cd no_text no_extra no_text 6 1088 2 1); [apply bx; reflexivity|reflexivity|lia|].
    constructor; [exact (cm_small 7 ltac:(lia))|]. constructor; [exact (cm_dbl 4096 (bx 4096 eq_refl) eq_refl)|constructor].
Qed.

(** The full claim is false: a NaN compares less than another double from both sides. *)
Theorem C37_antisymmetric_refuted : exists d text extra blob o o', box o /\ box o' /\
  compare_words d text extra blob 7 (encode (VDouble o)) (encode (VDouble o')) = WG_LESSTHAN /\
  compare_words d text extra blob 7 (encode (VDouble o')) (encode (VDouble o)) = WG_LESSTHAN.
Proof.
  exists cd, no_text, no_extra, no_text, 4096, 4112. split; [apply bx; reflexivity|]. split; [apply bx; reflexivity|]. split; vm_compute; reflexivity.
Qed.
Print Assumptions C37_antisymmetric_refuted.
