(** The printed line of each kind of step. *)
From Coq Require Import List ZArith Bool Lia.
From Verif Require Import Word64 EncModel EncProof BitsProof PrfModel PrfSpec PrfBase PrfRec PrfOp.
Import ListNotations.
Open Scope Z_scope.

Ltac const_eqb :=
  repeat match goal with
  | |- context [?a =? ?b] =>
      is_const a; is_const b;
      let v := eval vm_compute in (a =? b) in
      match v with true => change (a =? b) with true | false => change (a =? b) with false end
  end; cbn iota; cbn zeta.

Section Print.
Variables (m : mem) (stray : Z -> Z -> Z) (fi : Z -> Z) (tptp : bool) (a : alist).
Notation fld := (field m stray).
Notation refs l := (map (fun c => IRef (num_of a c) [] None) l).

Definition line_ok0 (h x num : Z) (o : op) (l : line) : Prop :=
  l_num l = num /\ (o <> OExtprop -> l_clause l = x) /\ l_rule l = rule_name o /\
  cited l = map (num_of a) (parents o) /\
  (tptp = false -> low o -> details o (l_items l)) /\
  (derived o -> l_role l = decode_priority (nth 0 (rec m h) 0)).

Definition cites (items : list item) : list Z :=
  flat_map (fun i => match i with IRef n _ _ => [n] | _ => [] end) items.
Lemma cites_app l l' : cites (l ++ l') = cites l ++ cites l'.
Proof. apply flat_map_app. Qed.
Lemma cites_refs l : cites (refs l) = map (num_of a) l.
Proof. induction l as [|c l IH]; [reflexivity|]. cbn. f_equal. exact IH. Qed.
Lemma cites_subst (s : list (Z * Z)) : cites (map (fun vv => ISubst (fst vv) (snd vv)) s) = [].
Proof. induction s as [|x s IH]; [reflexivity|]. exact IH. Qed.
Lemma refs_plain l : refs l = map (fun n => IRef n [] None) (map (num_of a) l).
Proof. rewrite map_map. reflexivity. Qed.

Section Tagged.
Variables (h : Z) (pre rest : list Z) (n t q1 q2 e : Z).
Hypotheses (F : form m h pre n rest) (T : tagged n t q1 q2 e) (Hh : h <> 0).
Lemma tail_items (k : nat) (I : Z -> item) : (k <= length rest)%nat ->
  (forall i, 6 + Z.of_nat k <= i -> I i = item_ref m stray a h i) ->
  map I (range (6 + Z.of_nat k) (rec_len m h)) = refs (skipn k rest).
Proof.
  intros Hk HI. rewrite <- (form_fields _ stray _ _ _ _ k F Hk), map_map.
  apply map_ext_in. intros i Hi. apply range_in in Hi. apply HI. lia.
Qed.
Lemma first_item (k : nat) : (k < length rest)%nat ->
  range (6 + Z.of_nat k) (rec_len m h) = (6 + Z.of_nat k) :: range (6 + Z.of_nat (S k)) (rec_len m h)
  /\ fld h (6 + Z.of_nat k) = nth k rest 0.
Proof.
  intro Hk. split.
  - rewrite range_cons by (rewrite (form_len _ _ _ _ _ F); lia). do 2 f_equal. lia.
  - rewrite (form_nth _ stray _ _ _ _ _ F) by lia. rewrite Nat2Z.id. reflexivity.
Qed.
Lemma not_prefix : (rec_len m h =? PREFIX_LEN) = false.
Proof. apply Z.eqb_neq. rewrite (form_len _ _ _ _ _ F). unfold PREFIX_LEN. lia. Qed.
Lemma role_field : fld h PRIORITY_POS = nth 0 (rec m h) 0.
Proof. apply field_in. rewrite (form_len _ _ _ _ _ F). unfold PRIORITY_POS. lia. Qed.
End Tagged.

Ltac open F T Hh := unfold print_one; rewrite (proj2 (Z.eqb_neq _ 0) Hh), (not_prefix _ _ _ _ F),
  (tag_int m stray fi _ _ _ _ _ _ _ _ F T), (tag_is m stray fi _ _ _ _ _ _ _ _ F T), (tg_tag _ _ _ _ _ T);
  cbn [negb]; const_eqb.

Lemma print_two h pre c1 c2 p1 p2 cuts t x num r o :
  form m h pre (tag_word t p1 p2) (c1 :: c2 :: cuts) -> h <> 0 -> 0 <= p1 -> 0 <= p2 ->
  (t = T_RESOLVE /\ r = RMp \/ t = T_INSTGEN /\ r = RInstgen \/ t = T_PROPAGATE /\ r = RFmp) ->
  parents o = c1 :: c2 :: cuts -> rule_name o = r ->
  (low o -> p1 < 16 /\ p2 < 16) ->
  (forall items, details o items <-> exists n1 ps1 n2 ps2 rest,
     items = IRef n1 ps1 None :: IRef n2 ps2 None :: map (fun n => IRef n [] None) rest
        /\ at_pos p1 ps1 /\ at_pos p2 ps2) ->
  exists l, print_one m stray fi tptp a h x num = Some l /\ line_ok0 h x num o l.
Proof.
  unfold line_ok0. intros F Hh H1 H2 Ht HP Hr Hlow Hdet.
  assert (Ht' : 0 <= t < 16).
  { unfold T_RESOLVE, T_INSTGEN, T_PROPAGATE in Ht. intuition lia. }
  pose proof (tagged_word t p1 p2 Ht' H1 H2) as T.
  destruct (first_item _ _ _ _ F 0%nat ltac:(cbn; lia)) as [R0 F0].
  destruct (first_item _ _ _ _ F 1%nat ltac:(cbn; lia)) as [R1 F1].
  change (6 + Z.of_nat 0) with PARENT1_POS in R0, F0. change (6 + Z.of_nat 1) with PARENT2_POS in R0, R1, F1.
  cbn [nth] in F0, F1.
  assert (It : forall p1 p2, map (item_two m stray a h p1 p2) (range PARENT1_POS (rec_len m h))
    = IRef (num_of a c1) (if p1 =? 0 then [] else [p1]) None
      :: IRef (num_of a c2) (if p2 =? 0 then [] else [p2]) None :: refs cuts).
  { intros s1 s2. rewrite R0, R1. cbn [map].
    rewrite (tail_items _ _ _ _ F 2%nat); [|cbn; lia|].
    - unfold item_two at 1 2. change (PARENT1_POS =? 1 + TAG_POS) with true.
      change (PARENT2_POS =? 1 + TAG_POS) with false. change (PARENT2_POS =? 2 + TAG_POS) with true.
      rewrite F0, F1. reflexivity.
    - intros i Hi. unfold item_two. rewrite (proj2 (Z.eqb_neq i (1 + TAG_POS))), (proj2 (Z.eqb_neq i (2 + TAG_POS)));
        [reflexivity| |]; unfold TAG_POS; lia. }
  assert (Ir : map (item_ref m stray a h) (range PARENT1_POS (rec_len m h)) = refs (c1 :: c2 :: cuts)).
  { exact (tail_items _ _ _ _ F 0%nat (item_ref m stray a h) ltac:(lia) ltac:(reflexivity)). }
  assert (Pos : forall p, 0 <= p -> p < 16 -> at_pos p (if cap p mod 16 =? 0 then [] else [cap p mod 16])).
  { intros p Hp Hp'. rewrite cap_low by lia. rewrite Z.mod_small by lia. unfold at_pos.
    destruct (p =? 0) eqn:E; [apply Z.eqb_eq in E; right; auto|left; reflexivity]. }
  assert (Fin : forall items,
    items = (if tptp then refs (c1 :: c2 :: cuts)
             else IRef (num_of a c1) (if cap p1 mod 16 =? 0 then [] else [cap p1 mod 16]) None
                  :: IRef (num_of a c2) (if cap p2 mod 16 =? 0 then [] else [cap p2 mod 16]) None :: refs cuts) ->
    forall l, l = {| l_num := num; l_rule := r; l_items := items; l_name := 0;
                         l_role := decode_priority (fld h PRIORITY_POS); l_clause := x |} ->
    l_num l = num /\ (o <> OExtprop -> l_clause l = x) /\ l_rule l = rule_name o /\
    cited l = map (num_of a) (parents o) /\
    (tptp = false -> low o -> details o (l_items l)) /\
    (derived o -> l_role l = decode_priority (nth 0 (rec m h) 0))).
  { intros items -> l ->. cbn [l_num l_clause l_rule l_role l_items].
    split; [reflexivity|]. split; [intros _; reflexivity|]. split; [symmetry; exact Hr|].
    split; [|split].
    - unfold cited. cbn [l_items]. rewrite HP. destruct tptp; cbn [flat_map app map];
      rewrite <- (cites_refs cuts); reflexivity.
    - intros -> L. apply Hdet. destruct (Hlow L) as [L1 L2].
      exists (num_of a c1), (if cap p1 mod 16 =? 0 then [] else [cap p1 mod 16]),
             (num_of a c2), (if cap p2 mod 16 =? 0 then [] else [cap p2 mod 16]), (map (num_of a) cuts).
      rewrite <- refs_plain. auto.
    - intros _. rewrite (role_field _ _ _ _ F). reflexivity. }
  destruct Ht as [[-> ->]|[[-> ->]|[-> ->]]]; open F T Hh; rewrite It, Ir;
    rewrite (tg_1 _ _ _ _ _ T), (tg_2 _ _ _ _ _ T);
    (destruct tptp; eexists; (split; [reflexivity|]); eapply Fin; reflexivity).
Qed.

Lemma print_op0 h x num o : recorded m h o ->
  (tptp = true -> forall c t v, o <> OPropinst c t v) ->
  exists l, print_one m stray fi tptp a h x num = Some l /\ line_ok0 h x num o l.
Proof.
  unfold line_ok0. intros R NT. destruct R as [Hh [S B]].
  assert (R : recorded m h o) by (split; [exact Hh|split; [exact S|exact B]]).
  destruct o as [name prio|c1 c2 p1 p2 v|c1 c2 p1 p2 v|c1 c2 p1 p2|c p1 p2 v|c t v| |from e ep el i ip tp v|c v rws|c s v].
  { (* input *)
    destruct (input_form m stray _ _ _ R) as [L [N P]].
    unfold print_one. rewrite (proj2 (Z.eqb_neq _ 0) Hh), L. change (5 =? PREFIX_LEN) with true. cbn iota.
    eexists. split; [reflexivity|]. cbn.
    split; [reflexivity|]. split; [reflexivity|]. split; [reflexivity|]. split; [reflexivity|].
    split; [reflexivity|]. intros []. }
  all: match goal with R : recorded _ _ ?o |- _ =>
         destruct (rec_form m h o R ltac:(discriminate)) as [pre F] end; cbn [sizes] in S; cbn [op_tag op_rest] in F.
  - eapply print_two; [exact F|exact Hh|lia|lia|left; split; reflexivity|reflexivity|reflexivity|exact (fun H => H)|reflexivity].
  - eapply print_two; [exact F|exact Hh|lia|lia|right; left; split; reflexivity|reflexivity|reflexivity|exact (fun H => H)|reflexivity].
  - eapply print_two; [exact F|exact Hh|lia|lia|right; right; split; reflexivity|reflexivity|reflexivity|exact (fun H => H)|reflexivity].
  - (* factor, reflexivity *)
    destruct (first_item _ _ _ _ F 0%nat ltac:(cbn; lia)) as [R0 F0].
    change (6 + Z.of_nat 0) with PARENT1_POS in R0, F0. cbn [nth] in F0.
    pose proof (tail_items _ _ _ _ F 0%nat (item_ref m stray a h) ltac:(lia) ltac:(reflexivity)) as Ir.
    change (6 + Z.of_nat 0) with PARENT1_POS in Ir. cbn [skipn] in Ir.
    destruct (0 <=? p2) eqn:E.
    + apply Z.leb_le in E.
      assert (T : tagged (tag_factorial p1 p2) T_FACTORIAL (cap p1) (cap p2) 0).
      { unfold tag_factorial. replace (p2 <? 0) with false by (symmetry; apply Z.ltb_ge; lia).
        apply tagged_word; unfold T_FACTORIAL; lia. }
      assert (It : forall s1 s2, map (item_merge m stray a h s1 s2) (range PARENT1_POS (rec_len m h))
                = IRef (num_of a c) [s1; s2] None :: refs (listed v)).
      { intros s1 s2. rewrite R0. cbn [map]. rewrite (tail_items _ _ _ _ F 1%nat); [|cbn; lia|].
        - unfold item_merge at 1. change (PARENT1_POS =? 1 + TAG_POS) with true. rewrite F0. reflexivity.
        - intros k Hk. unfold item_merge. rewrite (proj2 (Z.eqb_neq k (1 + TAG_POS))); [reflexivity|unfold TAG_POS; lia]. }
      open F T Hh. rewrite It, Ir, (tg_1 _ _ _ _ _ T), (tg_2 _ _ _ _ _ T).
      assert (Hl : rule_name (OFactor c p1 p2 v) = RMerge).
      { cbn. destruct (Z_lt_dec p2 0); [lia|reflexivity]. }
      destruct tptp; (eexists; split; [reflexivity|]); unfold cited; cbn [l_num l_clause l_rule l_role l_items];
        (split; [reflexivity|]); (split; [intros _; reflexivity|]); (split; [symmetry; exact Hl|]);
        (split; [|split]).
      * cbn [parents]. rewrite <- cites_refs. reflexivity.
      * discriminate.
      * intros _. rewrite (role_field _ _ _ _ F). reflexivity.
      * cbn [parents map flat_map app]. rewrite <- (cites_refs (listed v)). reflexivity.
      * intros _ [L1 L2]. cbn [details]. exists (num_of a c), (map (num_of a) (listed v)).
        rewrite <- refs_plain. rewrite !cap_low, !Z.mod_small by lia.
        destruct (Z_lt_dec p2 0); [lia|reflexivity].
      * intros _. rewrite (role_field _ _ _ _ F). reflexivity.
    + apply Z.leb_gt in E.
      pose proof (tagged_reflexive p1 S) as T.
      assert (It : forall s1, map (item_refl m stray a h s1) (range PARENT1_POS (rec_len m h))
                = IRef (num_of a c) [s1] None :: refs (listed v)).
      { intros s1. rewrite R0. cbn [map]. rewrite (tail_items _ _ _ _ F 1%nat); [|cbn; lia|].
        - unfold item_refl at 1. change (PARENT1_POS =? 1 + TAG_POS) with true. rewrite F0. reflexivity.
        - intros k Hk. unfold item_refl. rewrite (proj2 (Z.eqb_neq k (1 + TAG_POS))); [reflexivity|unfold TAG_POS; lia]. }
      open F T Hh. rewrite It, Ir, (tg_1 _ _ _ _ _ T).
      assert (Hl : rule_name (OFactor c p1 p2 v) = RRefl).
      { cbn. destruct (Z_lt_dec p2 0); [reflexivity|lia]. }
      destruct tptp; (eexists; split; [reflexivity|]); unfold cited; cbn [l_num l_clause l_rule l_role l_items];
        (split; [reflexivity|]); (split; [intros _; reflexivity|]); (split; [symmetry; exact Hl|]);
        (split; [|split]).
      * cbn [parents]. rewrite <- cites_refs. reflexivity.
      * discriminate.
      * intros _. rewrite (role_field _ _ _ _ F). reflexivity.
      * cbn [parents map flat_map app]. rewrite <- (cites_refs (listed v)). reflexivity.
      * intros _ [L1 L2]. cbn [details]. exists (num_of a c), (map (num_of a) (listed v)).
        rewrite <- refs_plain. rewrite !cap_low, !Z.mod_small by lia.
        destruct (Z_lt_dec p2 0); [reflexivity|lia].
      * intros _. rewrite (role_field _ _ _ _ F). reflexivity.
  - (* propinst *)
    destruct tptp eqn:Etp; [exfalso; apply (NT eq_refl c t v eq_refl)|].
    pose proof (tagged_plain T_PROPINST ltac:(unfold T_PROPINST; lia)) as T.
    destruct (first_item _ _ _ _ F 0%nat ltac:(cbn; lia)) as [R0 F0].
    destruct (first_item _ _ _ _ F 1%nat ltac:(cbn; lia)) as [R1 F1].
    change (6 + Z.of_nat 0) with PARENT1_POS in R0, F0. change (6 + Z.of_nat 1) with PARENT2_POS in R0, R1, F1.
    cbn [nth] in F0, F1.
    assert (It : map (item_inst m stray a h) (range PARENT1_POS (rec_len m h))
              = IRef (num_of a c) [] None :: ITerm t :: refs (listed v)).
    { rewrite R0, R1. cbn [map]. rewrite (tail_items _ _ _ _ F 2%nat); [|cbn; lia|].
      - unfold item_inst at 1 2. change (PARENT1_POS =? PARENT2_POS) with false.
        change (PARENT2_POS =? PARENT2_POS) with true. rewrite F0, F1. reflexivity.
      - intros k Hk. unfold item_inst. rewrite (proj2 (Z.eqb_neq k PARENT2_POS)); [reflexivity|unfold PARENT2_POS; lia]. }
    open F T Hh. rewrite It. eexists. split; [reflexivity|]. unfold cited; cbn [l_num l_clause l_rule l_role l_items].
    split; [reflexivity|]. split; [intros _; reflexivity|]. split; [reflexivity|].
    split; [|split].
    + cbn [parents map flat_map app]. rewrite <- (cites_refs (listed v)). reflexivity.
    + intros _ _. cbn [details]. exists (num_of a c), (map (num_of a) (listed v)). rewrite <- refs_plain. reflexivity.
    + intros _. rewrite (role_field _ _ _ _ F). reflexivity.
  - (* extprop *)
    pose proof (tagged_plain T_EXTPROP ltac:(unfold T_EXTPROP; lia)) as T.
    pose proof (tail_items _ _ _ _ F 0%nat (item_ref m stray a h) ltac:(lia) ltac:(reflexivity)) as Ir.
    change (6 + Z.of_nat 0) with PARENT1_POS in Ir. cbn [skipn map] in Ir.
    open F T Hh. rewrite Ir. destruct tptp; (eexists; split; [reflexivity|]); unfold cited; cbn;
      (split; [reflexivity|]); (split; [intro H; exfalso; apply H; reflexivity|]); (split; [reflexivity|]);
      (split; [reflexivity|]); (split; [reflexivity|]); intros [].
  - (* para *)
    destruct S as [S1 [S2 S3]].
    set (w1 := if from then ep else ip). set (w2 := if from then ip else ep).
    assert (T : tagged (if from then tag_para ep ip el else tag_para ip ep el) T_PARA (cap w1) (cap w2) (if el then 1 else 0)).
    { subst w1 w2. destruct from; apply tagged_para; lia. }
    destruct (path_ok ip tp S2 S3) as [P1 P2].
    destruct (first_item _ _ _ _ F 0%nat ltac:(cbn; lia)) as [R0 F0].
    destruct (first_item _ _ _ _ F 1%nat ltac:(cbn; lia)) as [R1 F1].
    destruct (first_item _ _ _ _ F 2%nat ltac:(cbn; lia)) as [R2 F2].
    change (6 + Z.of_nat 0) with PATH_POS in R0, F0. change (6 + Z.of_nat 1) with PARA_PARENT1_POS in R1, F1.
    change (6 + Z.of_nat 2) with PARA_PARENT2_POS in R1, R2, F2. cbn [nth] in F0, F1, F2.
    pose proof (tail_items _ _ _ _ F 1%nat (item_ref m stray a h) ltac:(cbn; lia) ltac:(reflexivity)) as Ir.
    change (6 + Z.of_nat 1) with PARA_PARENT1_POS in Ir. cbn [skipn] in Ir.
    assert (It : forall s1 s2 lf q, map (item_para m stray a h s1 s2 lf q) (range PARA_PARENT1_POS (rec_len m h))
      = (if s1 =? 0 then if lf then IRef (num_of a e) [] None else IRef (num_of a e) [0] (Some false)
         else IRef (num_of a e) [s1] (Some lf)) :: IRef (num_of a i) [s2; q] None :: refs (listed v)).
    { intros s1 s2 lf q. rewrite R1, R2. cbn [map]. rewrite (tail_items _ _ _ _ F 3%nat); [|cbn; lia|].
      - unfold item_para at 1 2. change (PARA_PARENT1_POS =? 2 + TAG_POS) with true.
        change (PARA_PARENT2_POS =? 2 + TAG_POS) with false. change (PARA_PARENT2_POS =? 3 + TAG_POS) with true.
        rewrite F1, F2. reflexivity.
      - intros k Hk. unfold item_para. rewrite (proj2 (Z.eqb_neq k (2 + TAG_POS))), (proj2 (Z.eqb_neq k (3 + TAG_POS)));
          [reflexivity| |]; unfold TAG_POS; lia. }
    open F T Hh. rewrite It, Ir, F0, (tg_1 _ _ _ _ _ T), (tg_2 _ _ _ _ _ T), (tg_e _ _ _ _ _ T).
    rewrite (proj2 (int_small fi (encode_path ip tp) ltac:(lia))), P2.
    destruct tptp; (eexists; split; [reflexivity|]); unfold cited; cbn [l_num l_clause l_rule l_role l_items];
        (split; [reflexivity|]); (split; [intros _; reflexivity|]); (split; [reflexivity|]);
        (split; [|split]).
    + cbn [parents]. rewrite <- cites_refs. reflexivity.
    + discriminate.
    + intros _. rewrite (role_field _ _ _ _ F). reflexivity.
    + cbn [parents map]. rewrite <- (cites_refs (listed v)).
      destruct (_ =? 0); [|reflexivity]. destruct (negb _); reflexivity.
    + intros _ [L1 [L2 L3]]. cbn [details].
      assert (W : w1 = ep /\ w2 = ip) by (subst w1 w2; destruct from; [auto|destruct L3; [discriminate|auto]]).
      destruct W as [-> ->]. rewrite !cap_low, !Z.mod_small by lia.
      exists (num_of a e), (if ep =? 0 then if el then [] else [0] else [ep]),
        (if ep =? 0 then if el then None else Some false else Some el), (num_of a i), (map (num_of a) (listed v)).
      rewrite <- refs_plain. split; [|split].
      * destruct (ep =? 0), el; reflexivity.
      * unfold at_pos. destruct (ep =? 0) eqn:Ee; [apply Z.eqb_eq in Ee; subst ep|auto]. destruct el; auto.
      * destruct (ep =? 0), el; auto.
    + intros _. rewrite (role_field _ _ _ _ F). reflexivity.
  - (* simplify *)
    pose proof (tagged_plain T_SIMPLIFY ltac:(unfold T_SIMPLIFY; lia)) as T.
    pose proof (tail_items _ _ _ _ F 0%nat (item_ref m stray a h) ltac:(lia) ltac:(reflexivity)) as Ir.
    change (6 + Z.of_nat 0) with PARENT1_POS in Ir. cbn [skipn] in Ir.
    open F T Hh. rewrite Ir. destruct tptp; (eexists; split; [reflexivity|]); unfold cited; cbn [l_num l_clause l_rule l_role l_items];
        (split; [reflexivity|]); (split; [intros _; reflexivity|]); (split; [reflexivity|]);
        (split; [|split]).
    + cbn [parents]. rewrite <- cites_refs. reflexivity.
    + discriminate.
    + intros _. rewrite (role_field _ _ _ _ F). reflexivity.
    + cbn [parents]. rewrite <- cites_refs. reflexivity.
    + intros _ _. cbn [details]. eexists. apply refs_plain.
    + intros _. rewrite (role_field _ _ _ _ F). reflexivity.
  - (* arithinst *)
    pose proof (tagged_plain T_ARITHINST ltac:(unfold T_ARITHINST; lia)) as T.
    pose proof (arith_subst_len _ _ _ _ _ R) as Ls. destruct S as [S1 S2].
    pose proof (arith_parent m stray _ _ _ _ F _ _ _ eq_refl Ls) as A1.
    pose proof (arith_count m stray fi _ _ _ _ F _ _ _ eq_refl Ls) as A2.
    pose proof (arith_len m _ _ _ _ F _ _ _ eq_refl Ls) as A3.
    pose proof (arith_cut_count m stray fi _ _ _ _ F _ _ _ eq_refl Ls S2) as A4.
    pose proof (arith_cuts m stray _ _ _ _ F _ _ _ eq_refl Ls) as A5.
    pose proof (arith_subst m stray fi _ _ _ _ F _ _ _ eq_refl Ls S1) as A6.
    assert (It : forall b, items_arith m stray fi b a h = IRef (num_of a c) [] None
       :: (if b then map (fun vv => ISubst (fst vv) (snd vv)) s else []) ++ refs (listed v)).
    { intro b. unfold items_arith. rewrite A1, A2, A4, <- A3, A6. do 2 f_equal.
      rewrite <- A5. rewrite map_map. reflexivity. }
    open F T Hh. rewrite !It.
    destruct tptp; (eexists; split; [reflexivity|]); unfold cited; cbn [l_num l_clause l_rule l_role l_items];
        (split; [reflexivity|]); (split; [intros _; reflexivity|]); (split; [reflexivity|]);
        (split; [|split]).
    + cbn [parents map flat_map app]. rewrite <- (cites_refs (listed v)). reflexivity.
    + discriminate.
    + intros _. rewrite (role_field _ _ _ _ F). reflexivity.
    + cbn [parents map flat_map app]. rewrite <- (cites_refs (listed v)).
      fold (cites (map (fun vv : Z * Z => ISubst (fst vv) (snd vv)) s ++ refs (listed v))).
      rewrite cites_app, cites_subst. reflexivity.
    + intros _ _. cbn [details]. exists (num_of a c), (map (num_of a) (listed v)). rewrite <- refs_plain. reflexivity.
    + intros _. rewrite (role_field _ _ _ _ F). reflexivity.
Qed.
(** Input lines carry the name and the role given. *)
Definition line_ok (h x num : Z) (o : op) (l : line) : Prop :=
  l_num l = num /\ (o <> OExtprop -> l_clause l = x) /\ l_rule l = rule_name o /\
  cited l = map (num_of a) (parents o) /\
  (tptp = false -> low o -> details o (l_items l)) /\
  (derived o -> l_role l = decode_priority (nth 0 (rec m h) 0)) /\
  labelled o l.
Lemma role_back r : 0 <= r < 256 -> decode_priority (encode_smallint r) = r.
Proof.
  intro H. unfold decode_priority. rewrite small_dec by lia.
  change (Z.lnot (Z.shiftl 1 8)) with (Z.lnot (2 ^ 8)).
  apply Z.bits_inj'. intros n Hn. rewrite Z.land_spec, Z.lnot_spec, Z.pow2_bits_eqb by lia.
  destruct (8 =? n) eqn:E; cbn; [|apply andb_true_r]. apply Z.eqb_eq in E. subst n. rewrite andb_false_r.
  symmetry. destruct (Z.eq_dec r 0) as [->|N]; [reflexivity|].
  apply Z.bits_above_log2; [lia|]. apply Z.log2_lt_pow2; lia.
Qed.
Lemma print_op h x num o : recorded m h o ->
  (tptp = true -> forall c t v, o <> OPropinst c t v) ->
  exists l, print_one m stray fi tptp a h x num = Some l /\ line_ok h x num o l.
Proof.
  intros R NT. destruct (print_op0 h x num o R NT) as [l [P [L1 [L2 [L3 [L4 [L5 L6]]]]]]].
  exists l. split; [exact P|]. unfold line_ok. do 6 (split; [assumption|]).
  destruct o; try exact Logic.I. destruct (input_form m stray _ _ _ R) as [L [N Pr]].
  unfold print_one in P. rewrite (proj2 (Z.eqb_neq _ 0) (proj1 R)), L in P. change (5 =? PREFIX_LEN) with true in P.
  cbn iota in P. injection P as <-. cbn. split; [exact N|]. rewrite Pr. apply role_back. exact (proj1 (proj2 R)).
Qed.

End Print.
