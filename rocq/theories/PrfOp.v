(** The record of each kind of step. *)
From Coq Require Import List ZArith Bool Lia.
From Verif Require Import Word64 EncModel EncProof BitsProof PrfModel PrfSpec PrfBase PrfRec.
Import ListNotations.
Open Scope Z_scope.

Section Op.
Variables (m : mem) (stray : Z -> Z -> Z) (fi : Z -> Z).
Notation flat := (flatten m stray fi).
Notation fld := (field m stray).

Definition recorded (h : Z) (o : op) : Prop :=
  h <> 0 /\ sizes o /\ exists g m0 clid order, build g m0 clid order o = Some (rec m h).
Definition calm_at (h : Z) : Prop :=
  is_int (stray h TAG_POS) = true -> get_tag (int_of fi (stray h TAG_POS)) <> T_ARITHINST.

Lemma prefix_len clid order p n : length (prefix clid order p n) = 5%nat.
Proof. reflexivity. Qed.

(** The record: for an input only the prefix, else the tag and the rest. *)
Definition op_tag (o : op) : Z :=
  match o with
  | OInput _ _ => 0
  | OResolve _ _ p1 p2 _ => tag_resolve p1 p2
  | OInstgen _ _ p1 p2 _ => tag_instgen p1 p2
  | OPropagate _ _ p1 p2 => tag_propagate p1 p2
  | OFactor _ p1 p2 _ => if 0 <=? p2 then tag_factorial p1 p2 else tag_reflexive p1
  | OPropinst _ _ _ => tag_plain T_PROPINST
  | OExtprop => tag_plain T_EXTPROP
  | OPara from _ ep el _ ip _ _ => if from then tag_para ep ip el else tag_para ip ep el
  | OSimplify _ _ _ => tag_plain T_SIMPLIFY
  | OArith _ _ _ => tag_plain T_ARITHINST
  end.
Definition op_rest (o : op) : list Z :=
  match o with
  | OInput _ _ | OExtprop => []
  | OResolve c1 c2 _ _ v | OInstgen c1 c2 _ _ v => c1 :: c2 :: listed v
  | OPropagate c1 c2 _ _ => [c1; c2]
  | OFactor c _ _ v => c :: listed v
  | OPropinst c t v => c :: t :: listed v
  | OPara _ e _ _ i ip tp v => encode_smallint (encode_path ip tp) :: e :: i :: listed v
  | OSimplify c v rws => c :: listed v ++ rws
  | OArith c s v => c :: encode_smallint (Z.of_nat (length s))
                    :: flat_map (fun vv => [encode_smallint (fst vv); snd vv]) s
                    ++ encode_smallint (Z.of_nat (length (listed v))) :: listed v
  end.
Lemma rec_form h o : recorded h o -> (forall n p, o <> OInput n p) ->
  exists pre, form m h pre (op_tag o) (op_rest o).
Proof.
  intros [_ [_ [g [m0 [clid [order E]]]]]] N. unfold form. symmetry in E.
  destruct o; cbn [build] in E; rewrite ?cutn_listed in E; try (exfalso; eapply N; reflexivity).
  1-6: injection E as E; rewrite E; eexists; split; [|apply (prefix_len clid order)]; reflexivity.
  - injection E as E. rewrite E. unfold para_record, build_para.
    destruct from; eexists; (split; [|apply (prefix_len clid order)]); reflexivity.
  - injection E as E. rewrite E. eexists. split; [|apply (prefix_len clid order)]. reflexivity.
  - unfold build_arith in E. destruct ((_ <? 1) || (2 <? _)); [discriminate|].
    injection E as E. rewrite E. eexists. split; [|apply (prefix_len clid order)]. reflexivity.
Qed.
Lemma arith_subst_len h c s v : recorded h (OArith c s v) -> (1 <= length s <= 2)%nat.
Proof.
  intros [_ [_ [g [m0 [clid [order E]]]]]]. cbn [build] in E. unfold build_arith in E.
  destruct (Z.of_nat (length s) <? 1) eqn:E1; [discriminate|].
  destruct (2 <? Z.of_nat (length s)) eqn:E2; [discriminate|].
  apply Z.ltb_ge in E1. apply Z.ltb_ge in E2. lia.
Qed.
Lemma input_form h name prio : recorded h (OInput name prio) ->
  rec_len m h = 5 /\ fld h NAME_POS = name /\ fld h PRIORITY_POS = encode_smallint prio.
Proof.
  intros [_ [_ [g [m0 [clid [order E]]]]]]. cbn [build] in E. injection E as E.
  assert (L : rec_len m h = 5) by (unfold rec_len; rewrite <- E; reflexivity).
  split; [exact L|]. rewrite !field_in by (rewrite L; unfold NAME_POS, PRIORITY_POS; lia).
  rewrite <- E. split; reflexivity.
Qed.

(** What flattening visits: the parents in order. *)
Lemma flatten_op h o f st : recorded h o -> (forall n p, o = OInput n p -> calm_at h) ->
  flat (S f) h st = fold_left (vis m stray fi f) (parents o) (Some st).
Proof.
  intros R C. destruct R as [Hh [S B]].
  assert (R : recorded h o) by (split; [exact Hh|split; [exact S|exact B]]).
  destruct o as [name prio|c1 c2 p1 p2 v|c1 c2 p1 p2 v|c1 c2 p1 p2|c p1 p2 v|c t v| |from e ep el i ip tp v|c v rws|c s v].
  { (* input *)
    destruct (input_form _ _ _ R) as [L _]. specialize (C _ _ eq_refl). unfold calm_at in C.
    cbn [flatten parents fold_left]. rewrite (proj2 (Z.eqb_neq h 0) Hh).
    assert (E : fld h TAG_POS = stray h TAG_POS).
    { unfold field. rewrite L. reflexivity. }
    rewrite E. destruct (is_int (stray h TAG_POS)); cbn [negb]; [|reflexivity].
    specialize (C eq_refl). rewrite (proj2 (Z.eqb_neq _ _) C). rewrite L.
    destruct (parents_tag _); [|reflexivity].
    destruct (_ =? T_PARA); rewrite range_nil by (unfold PARA_PARENT1_POS, PARENT1_POS; lia); reflexivity. }
  all: match goal with |- flat _ _ _ = fold_left _ (parents ?o) _ =>
         destruct (rec_form h o R ltac:(discriminate)) as [pre F] end; cbn [sizes] in S; cbn [op_tag op_rest] in F; cbn [parents].
  - eapply flatten_plain; [exact F|apply tagged_word; unfold T_RESOLVE; lia|exact Hh|reflexivity|discriminate|discriminate|discriminate].
  - eapply flatten_plain; [exact F|apply tagged_word; unfold T_INSTGEN; lia|exact Hh|reflexivity|discriminate|discriminate|discriminate].
  - eapply flatten_plain; [exact F|apply tagged_word; unfold T_PROPAGATE; lia|exact Hh|reflexivity|discriminate|discriminate|discriminate].
  - destruct (0 <=? p2) eqn:E.
    + apply Z.leb_le in E.
      eapply flatten_plain; [exact F|apply tagged_word; [unfold T_FACTORIAL; lia|lia|]|exact Hh|reflexivity|discriminate|discriminate|discriminate].
      destruct (p2 <? 0) eqn:E2; [lia|apply Z.ltb_ge in E2; lia].
    + eapply flatten_plain; [exact F|apply tagged_reflexive; lia|exact Hh|reflexivity|discriminate|discriminate|discriminate].
  - eapply flatten_propinst; [exact F|apply tagged_plain; unfold T_PROPINST; lia|exact Hh|reflexivity|reflexivity].
  - eapply flatten_extprop; [exact F|apply tagged_plain; unfold T_EXTPROP; lia|exact Hh|reflexivity].
  - destruct from; (eapply flatten_para; [exact F|apply tagged_para; lia|exact Hh|reflexivity|reflexivity]).
  - eapply flatten_plain; [exact F|apply tagged_plain; unfold T_SIMPLIFY; lia|exact Hh|reflexivity|discriminate|discriminate|discriminate].
  - eapply flatten_arith; [exact F|apply tagged_plain; unfold T_ARITHINST; lia|exact Hh|reflexivity| | |reflexivity].
    + exact (arith_subst_len _ _ _ _ R).
    + apply S.
Qed.
End Op.
