(** One record: what flattening visits and what is printed for it. *)
From Coq Require Import List ZArith Bool Lia.
From Verif Require Import Word64 EncModel EncProof BitsProof PrfModel PrfSpec PrfBase.
Import ListNotations.
Open Scope Z_scope.

Lemma fold_left_map {A B C} (f : A -> C -> A) (g : B -> C) l : forall s,
  fold_left f (map g l) s = fold_left (fun s i => f s (g i)) l s.
Proof. induction l as [|x l IH]; intro s; [reflexivity|]. apply IH. Qed.
Lemma fold_left_ext {A B} (f g : A -> B -> A) l : forall s,
  (forall s x, In x l -> f s x = g s x) -> fold_left f l s = fold_left g l s.
Proof.
  induction l as [|x l IH]; intros s H; [reflexivity|]. cbn. rewrite H by (left; reflexivity).
  apply IH. intros s' y Hy. apply H. right. exact Hy.
Qed.

Section Rec.
Variables (m : mem) (stray : Z -> Z -> Z) (fi : Z -> Z).
Notation flat := (flatten m stray fi).
Notation fld := (field m stray).

(** Going to one clause. *)
Definition vis (f : nat) (s : option (Z * alist)) (c : Z) : option (Z * alist) :=
  match s with
  | None => None
  | Some st =>
      match get_assoc c (snd st) with
      | Some _ => Some st
      | None => match flat f (cl_hist m c) st with Some st => Some (addcl c st) | None => None end
      end
  end.

(** A record with a tag. *)
Definition form (h : Z) (pre : list Z) (n : Z) (rest : list Z) : Prop :=
  rec m h = pre ++ encode_smallint n :: rest /\ length pre = 5%nat.
Lemma form_len h pre n rest : form h pre n rest -> rec_len m h = 6 + Z.of_nat (length rest).
Proof. intros [E L]. unfold rec_len. rewrite E, app_length, L. cbn [length]. lia. Qed.
Lemma form_tag h pre n rest : form h pre n rest -> fld h TAG_POS = encode_smallint n.
Proof.
  intro F. rewrite field_in by (rewrite (form_len _ _ _ _ F); unfold TAG_POS; lia).
  destruct F as [E L]. rewrite E. change (Z.to_nat TAG_POS) with 5%nat. rewrite <- L, nth_middle. reflexivity.
Qed.
Lemma form_skip h pre n rest k : form h pre n rest -> skipn (6 + k) (rec m h) = skipn k rest.
Proof.
  intros [E L]. rewrite E, skipn_app, skipn_all2 by lia. rewrite L.
  change (6 + k - 5)%nat with (S k). reflexivity.
Qed.
Lemma form_nth h pre n rest i : form h pre n rest -> 0 <= i < Z.of_nat (length rest) ->
  fld h (6 + i) = nth (Z.to_nat i) rest 0.
Proof.
  intros F Hi. rewrite field_in by (rewrite (form_len _ _ _ _ F); lia).
  destruct F as [E L]. rewrite E, app_nth2 by lia. rewrite L.
  replace (Z.to_nat (6 + i) - 5)%nat with (S (Z.to_nat i)) by lia. reflexivity.
Qed.
Lemma form_fields h pre n rest k : form h pre n rest -> (k <= length rest)%nat ->
  map (fld h) (range (6 + Z.of_nat k) (rec_len m h)) = skipn k rest.
Proof.
  intros F Hk. rewrite fields_to_end by (rewrite ?(form_len _ _ _ _ F); lia).
  replace (Z.to_nat (6 + Z.of_nat k)) with (6 + k)%nat by lia. apply (form_skip _ _ _ _ _ F).
Qed.

Section Tagged.
Variables (h : Z) (pre rest : list Z) (n t q1 q2 e : Z).
Hypotheses (F : form h pre n rest) (T : tagged n t q1 q2 e) (Hh : h <> 0).
Lemma tag_int : is_int (fld h TAG_POS) = true.
Proof. rewrite (form_tag _ _ _ _ F). pose proof (tg_range _ _ _ _ _ T). apply (int_small fi n). lia. Qed.
Lemma tag_is : int_of fi (fld h TAG_POS) = n.
Proof. rewrite (form_tag _ _ _ _ F). pose proof (tg_range _ _ _ _ _ T). apply (int_small fi n). lia. Qed.

Lemma flatten_plain f st : parents_tag t = true -> t <> T_PARA -> t <> T_PROPINST -> t <> T_ARITHINST ->
  flat (S f) h st = fold_left (vis f) rest (Some st).
Proof.
  intros Hp N1 N2 N3. cbn [flatten]. rewrite (proj2 (Z.eqb_neq h 0) Hh), tag_int, tag_is, (tg_tag _ _ _ _ _ T).
  cbn [negb]. rewrite (proj2 (Z.eqb_neq t T_ARITHINST) N3), Hp.
  rewrite (proj2 (Z.eqb_neq t T_PARA) N1), (proj2 (Z.eqb_neq t T_PROPINST) N2). cbn [andb].
  pose proof (form_fields _ _ _ _ 0%nat F ltac:(lia)) as E.
  change (6 + Z.of_nat 0) with PARENT1_POS in E. cbn [skipn] in E.
  rewrite <- E. rewrite fold_left_map. reflexivity.
Qed.
Lemma flatten_para f st w l : t = T_PARA -> rest = w :: l ->
  flat (S f) h st = fold_left (vis f) l (Some st).
Proof.
  intros Ht Hr. cbn [flatten]. rewrite (proj2 (Z.eqb_neq h 0) Hh), tag_int, tag_is, (tg_tag _ _ _ _ _ T), Ht.
  cbn [negb]. change (T_PARA =? T_ARITHINST) with false. change (parents_tag T_PARA) with true.
  change (T_PARA =? T_PARA) with true. change (T_PARA =? T_PROPINST) with false. cbn [andb].
  pose proof (form_fields _ _ _ _ 1%nat F ltac:(rewrite Hr; cbn [length]; lia)) as E.
  change (6 + Z.of_nat 1) with PARA_PARENT1_POS in E. rewrite Hr in E. cbn [skipn] in E.
  rewrite <- E. rewrite fold_left_map. reflexivity.
Qed.
Lemma flatten_propinst f st c w l : t = T_PROPINST -> rest = c :: w :: l ->
  flat (S f) h st = fold_left (vis f) (c :: l) (Some st).
Proof.
  intros Ht Hr. cbn [flatten]. rewrite (proj2 (Z.eqb_neq h 0) Hh), tag_int, tag_is, (tg_tag _ _ _ _ _ T), Ht.
  cbn [negb]. change (T_PROPINST =? T_ARITHINST) with false. change (parents_tag T_PROPINST) with true.
  change (T_PROPINST =? T_PARA) with false. change (T_PROPINST =? T_PROPINST) with true. cbn [andb].
  assert (L : rec_len m h = 8 + Z.of_nat (length l)).
  { rewrite (form_len _ _ _ _ F), Hr. cbn [length]. lia. }
  assert (C : fld h PARENT1_POS = c).
  { pose proof (form_nth _ _ _ _ 0 F) as E. rewrite Hr in E. apply E. cbn [length]. lia. }
  rewrite range_cons by (rewrite L; unfold PARENT1_POS; lia).
  rewrite (range_cons (PARENT1_POS + 1)) by (rewrite L; unfold PARENT1_POS; lia).
  cbn [fold_left]. change (PARENT1_POS =? PARENT2_POS) with false.
  change (PARENT1_POS + 1 =? PARENT2_POS) with true. cbn [andb].
  rewrite C.
  pose proof (form_fields _ _ _ _ 2%nat F ltac:(rewrite Hr; cbn [length]; lia)) as E.
  change (6 + Z.of_nat 2) with (PARENT1_POS + 1 + 1) in E. rewrite Hr in E. cbn [skipn] in E.
  rewrite <- E. rewrite fold_left_map. cbn [vis]. apply fold_left_ext.
  intros s i Hi. apply range_in in Hi. replace (i =? PARENT2_POS) with false; [reflexivity|].
  symmetry. apply Z.eqb_neq. unfold PARENT1_POS, PARENT2_POS in *. lia.
Qed.
Lemma flatten_extprop f st : t = T_EXTPROP -> flat (S f) h st = Some st.
Proof.
  intro Ht. cbn [flatten]. rewrite (proj2 (Z.eqb_neq h 0) Hh), tag_int, tag_is, (tg_tag _ _ _ _ _ T), Ht.
  reflexivity.
Qed.

Variables (c : Z) (subst : list (Z * Z)) (cuts : list Z).
Notation pairs := (flat_map (fun vv : Z * Z => [encode_smallint (fst vv); snd vv])).
Lemma pairs_len l : length (pairs l) = (2 * length l)%nat.
Proof. induction l as [|x l IH]; [reflexivity|]. cbn. rewrite IH. lia. Qed.
Hypothesis Hr : rest = c :: encode_smallint (Z.of_nat (length subst)) :: pairs subst
                       ++ encode_smallint (Z.of_nat (length cuts)) :: cuts.
Hypothesis Hs : (1 <= length subst <= 2)%nat.
Hypothesis Hc : Z.of_nat (length cuts) < 2 ^ 31.
Notation cp := (ARITH_CUT_COUNT_POS (Z.of_nat (length subst))).
Lemma arith_parent : fld h ARITH_PARENT_POS = c.
Proof.
  pose proof (form_nth _ _ _ _ 0 F) as E. rewrite Hr in E. apply E. cbn [length]. lia.
Qed.
Lemma arith_count : int_of fi (fld h ARITH_SUBST_COUNT_POS) = Z.of_nat (length subst).
Proof.
  pose proof (form_nth _ _ _ _ 1 F) as E. rewrite Hr in E. cbn [length] in E.
  change ARITH_SUBST_COUNT_POS with (6 + 1). rewrite E by lia. cbn. apply int_small. lia.
Qed.
Lemma arith_len : rec_len m h = cp + 1 + Z.of_nat (length cuts).
Proof.
  rewrite (form_len _ _ _ _ F), Hr. cbn [length]. rewrite app_length, pairs_len. cbn [length].
  unfold ARITH_CUT_COUNT_POS. lia.
Qed.
Lemma arith_cut_count : int_of fi (fld h cp) = Z.of_nat (length cuts).
Proof.
  replace cp with (6 + (2 + 2 * Z.of_nat (length subst))) by (unfold ARITH_CUT_COUNT_POS; lia).
  rewrite (form_nth _ _ _ _ _ F).
  2: { rewrite Hr. cbn [length]. rewrite app_length, pairs_len. cbn [length]. lia. }
  rewrite Hr. replace (Z.to_nat (2 + 2 * Z.of_nat (length subst))) with (S (S (length (pairs subst)))) by (rewrite pairs_len; lia).
  cbn [nth]. rewrite nth_middle. apply int_small. lia.
Qed.
Lemma arith_cuts : map (fld h) (range (cp + 1) (rec_len m h)) = cuts.
Proof.
  replace (cp + 1) with (6 + Z.of_nat (3 + 2 * length subst)) by (unfold ARITH_CUT_COUNT_POS; lia).
  rewrite (form_fields _ _ _ _ _ F).
  2: { rewrite Hr. cbn [length]. rewrite app_length, pairs_len. cbn [length]. lia. }
  rewrite Hr.
  replace (3 + 2 * length subst)%nat with (S (S (length (pairs subst) + 1))) by (rewrite pairs_len; lia).
  cbn [skipn].
  rewrite skipn_app, skipn_all2 by lia. replace (length (pairs subst) + 1 - length (pairs subst))%nat with 1%nat by lia.
  reflexivity.
Qed.
Lemma arith_subst : Forall (fun vv => 0 <= fst vv < 2 ^ 31) subst ->
  map (fun i => ISubst (int_of fi (fld h (ARITH_VAR_POS i))) (fld h (ARITH_VALUE_POS i))) (range 0 (Z.of_nat (length subst)))
  = map (fun vv => ISubst (fst vv) (snd vv)) subst.
Proof.
  intro B. assert (L : Z.of_nat (length rest) = 3 + 2 * Z.of_nat (length subst) + Z.of_nat (length cuts)).
  { rewrite Hr. cbn [length]. rewrite app_length, pairs_len. cbn [length]. lia. }
  unfold range. rewrite Z.sub_0_r, Nat2Z.id.
  assert (N : forall k, (k < length subst)%nat ->
    fld h (ARITH_VAR_POS (Z.of_nat k)) = encode_smallint (fst (nth k subst (0, 0))) /\
    fld h (ARITH_VALUE_POS (Z.of_nat k)) = snd (nth k subst (0, 0))).
  { intros k Hk.
    assert (P : forall l, (k < length l)%nat -> forall tl, nth (2 * k) (pairs l ++ tl) 0 = encode_smallint (fst (nth k l (0, 0)))
               /\ nth (2 * k + 1) (pairs l ++ tl) 0 = snd (nth k l (0, 0))).
    { clear. revert k. intros k l. revert k. induction l as [|x l IH]; intros k Hk tl; [cbn in Hk; lia|].
      destruct k as [|k]; [split; reflexivity|]. cbn [length] in Hk.
      replace (2 * S k)%nat with (S (S (2 * k))) by lia. cbn. 
      replace (k + (k + 0) + 1)%nat with (2 * k + 1)%nat by lia. apply (IH k ltac:(lia) tl). }
    destruct (P subst Hk (encode_smallint (Z.of_nat (length cuts)) :: cuts)) as [P1 P2].
    replace (ARITH_VAR_POS (Z.of_nat k)) with (6 + (2 + 2 * Z.of_nat k)) by (unfold ARITH_VAR_POS; lia).
    replace (ARITH_VALUE_POS (Z.of_nat k)) with (6 + (2 + 2 * Z.of_nat k + 1)) by (unfold ARITH_VALUE_POS; lia).
    rewrite !(form_nth _ _ _ _ _ F) by lia. rewrite Hr.
    replace (Z.to_nat (2 + 2 * Z.of_nat k)) with (S (S (2 * k))) by lia.
    replace (Z.to_nat (2 + 2 * Z.of_nat k + 1)) with (S (S (2 * k + 1))) by lia.
    cbn [nth]. split; [exact P1 | exact P2]. }
  rewrite upfrom_map.
  transitivity (map (fun k => let vv := nth k subst (0, 0) in ISubst (fst vv) (snd vv)) (seq 0 (length subst))).
  - apply map_ext_in. intros k Hk. apply in_seq in Hk. rewrite Z.add_0_l.
    destruct (N k ltac:(lia)) as [-> ->]. cbn zeta. f_equal. apply int_small.
    assert (In (nth k subst (0, 0)) subst) by (apply nth_In; lia).
    rewrite Forall_forall in B. specialize (B _ H). lia.
  - clear. change (fun k => let vv := nth k subst (0, 0) in ISubst (fst vv) (snd vv))
      with (fun k => (fun vv : Z * Z => ISubst (fst vv) (snd vv)) (nth k subst (0, 0))).
    rewrite <- (map_map (fun k => nth k subst (0, 0)) (fun vv : Z * Z => ISubst (fst vv) (snd vv))).
    f_equal. induction subst as [|x l IH]; [reflexivity|]. cbn [length seq map nth]. f_equal.
    rewrite <- seq_shift, map_map. exact IH.
Qed.
Lemma flatten_arith f st : t = T_ARITHINST ->
  flat (S f) h st = fold_left (vis f) (c :: cuts) (Some st).
Proof.
  intros Ht. cbn [flatten]. rewrite (proj2 (Z.eqb_neq h 0) Hh), tag_int, tag_is, (tg_tag _ _ _ _ _ T), Ht.
  cbn [negb]. change (T_ARITHINST =? T_ARITHINST) with true. cbn iota.
  rewrite arith_parent, arith_count, arith_cut_count.
  replace (Z.min (cp + 1 + Z.of_nat (length cuts)) (rec_len m h)) with (rec_len m h) by (rewrite arith_len; lia).
  replace ((Z.of_nat (length subst) <? 1) || (2 <? Z.of_nat (length subst))) with false.
  2: { symmetry. apply orb_false_iff. split; apply Z.ltb_ge; lia. }
  cbn [fold_left].
  set (r := vis f (Some st) c). 
  change (match r with None => None | Some st0 => fold_left (fun s i => vis f s (fld h i)) (range (cp + 1) (rec_len m h)) (Some st0) end
          = fold_left (vis f) cuts r).
  rewrite <- arith_cuts. rewrite fold_left_map.
  destruct r as [st0|]; [reflexivity|].
  generalize (range (cp + 1) (rec_len m h)). intro l. induction l as [|x l IH]; [reflexivity|]. exact IH.
Qed.
End Tagged.
End Rec.
