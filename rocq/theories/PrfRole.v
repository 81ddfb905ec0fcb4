(** The role recorded for a derived clause. *)
From Coq Require Import List ZArith Bool Lia Relations.
From Verif Require Import Word64 EncModel EncProof PrfModel PrfSpec PrfBase PrfRec PrfOp PrfPrint PrfProof.
Import ListNotations.
Open Scope Z_scope.

Definition prio (m : mem) (c : Z) : Z := nth 0 (rec m (cl_hist m c)) 0.
Definition second (o : op) : option Z :=
  match main_parents o with [_; b] => Some b | _ => None end.

Lemma build_prio g m clid order o ws : build g m clid order o = Some ws -> derived o ->
  exists a, (main_parents o = [a] /\ second o = None \/ exists b, main_parents o = [a; b] /\ second o = Some b) /\
    nth 0 ws 0 = calc_priority g m (Some a) (second o).
Proof.
  destruct o; cbn [derived]; intros E T; try contradiction; cbn [build] in E;
    try (injection E as <-; eexists; split;
         [first [left; split; reflexivity|right; eexists; split; reflexivity]|reflexivity]).
  - injection E as <-. eexists. split; [right; eexists; split; reflexivity|].
    unfold para_record, build_para. destruct from; reflexivity.
  - unfold build_arith in E. destruct (_ || _) eqn:X; [discriminate|].
    injection E as <-. eexists. split; [left; split; reflexivity|reflexivity].
Qed.
Lemma main_in o p : In p (main_parents o) -> In p (parents o).
Proof. destruct o; cbn; tauto. Qed.

Lemma calc_put g m h c ws a b : (forall x, a = Some x \/ b = Some x -> x <> c /\ cl_hist m x <> h) ->
  calc_priority g (put m h c ws) a b = calc_priority g m a b.
Proof.
  intro H. unfold calc_priority.
  assert (P : forall y, a = y \/ b = y -> parent_priority (put m h c ws) y = parent_priority m y).
  { intros [x|] Hx; [|reflexivity]. cbn [parent_priority].
    destruct (H x) as [N1 N2]; [destruct Hx; auto|].
    assert (E1 : cl_hist (put m h c ws) x = cl_hist m x).
    { cbn. now rewrite (proj2 (Z.eqb_neq x c) N1). }
    rewrite E1. assert (E2 : rec (put m h c ws) (cl_hist m x) = rec m (cl_hist m x)).
    { cbn. now rewrite (proj2 (Z.eqb_neq _ h) N2). }
    rewrite E2. reflexivity. }
  rewrite !P by auto. reflexivity.
Qed.

Lemma stored_prio g d m : derivation g d m -> forall c o, made d c o -> derived o ->
  exists a, (main_parents o = [a] /\ second o = None \/ exists b, main_parents o = [a; b] /\ second o = Some b) /\
    prio m c = calc_priority g m (Some a) (second o).
Proof.
  induction 1 as [|d m h0 c0 clid order o0 m' D IH U Hh Hc Nh Nc E]; intros c o [h I] T; [destruct I|].
  destruct (derive_put _ _ _ _ _ _ _ _ E) as [ws [B ->]].
  assert (Old : forall o1, (forall p, In p (parents o1) -> exists o', made d p o') ->
    forall a, (main_parents o1 = [a] /\ second o1 = None \/ exists b, main_parents o1 = [a; b] /\ second o1 = Some b) ->
    calc_priority g (put m h0 c0 ws) (Some a) (second o1) = calc_priority g m (Some a) (second o1)).
  { intros o1 P a M. apply calc_put. intros x Hx.
    assert (Ix : In x (main_parents o1)).
    { destruct M as [[M1 M2]|[b [M1 M2]]]; rewrite M1; rewrite M2 in Hx; destruct Hx as [Hx|Hx]; try discriminate;
        injection Hx as ->; cbn; auto. }
    destruct (P x (main_in _ _ Ix)) as [o' [hx Jx]]. destruct (in_keys _ _ _ _ Jx) as [K1 K2].
    rewrite (proj1 (stored _ _ _ D _ _ _ Jx)). split; [intros ->; exact (Nc K2)|intros ->; exact (Nh K1)]. }
  destruct I as [I|I].
  - injection I as -> -> ->. destruct (build_prio _ _ _ _ _ _ B T) as [a [M P]]. exists a. split; [exact M|].
    rewrite Old; [|intros p Hp; destruct (proj2 U p Hp) as [o' [M' _]]; eauto|exact M].
    unfold prio. cbn. rewrite !Z.eqb_refl. exact P.
  - destruct (IH c o (ex_intro _ h I) T) as [a [M P]]. exists a. split; [exact M|].
    destruct (in_split _ _ I) as [d1 [d2 Eq]]. pose proof (older _ _ _ D _ _ _ _ _ Eq) as [_ Uo].
    rewrite Old; [|intros p Hp; destruct (Uo p Hp) as [o' [[hp Jp] _]]; exists o', hp; rewrite Eq; apply in_or_app; right; right; exact Jp|exact M].
    destruct (in_keys _ _ _ _ I) as [K1 K2]. unfold prio in *.
    assert (E1 : cl_hist (put m h0 c0 ws) c = cl_hist m c).
    { cbn. rewrite (proj2 (Z.eqb_neq c c0)); [reflexivity|intros ->; exact (Nc K2)]. }
    rewrite E1. cbn [rec put].
    rewrite (proj2 (Z.eqb_neq (cl_hist m c) h0)); [exact P|].
    rewrite (proj1 (stored _ _ _ D _ _ _ I)). intros ->. exact (Nh K1).
Qed.

(** Goal and assumption content of a role. *)
Definition gset (r : Z) : Prop := r = GOAL \/ r = FROMGOAL \/ r = FROMGOALASSUMPTION.
Definition aset (r : Z) : Prop := r = ASSUMPTION \/ r = FROMASSUMPTION \/ r = FROMGOALASSUMPTION.
Definition known (r : Z) : Prop :=
  r = 0 \/ r = GOAL \/ r = ASSUMPTION \/ r = AXIOM \/ r = EXTAXIOM \/
  r = FROMGOAL \/ r = FROMASSUMPTION \/ r = FROMGOALASSUMPTION \/ r = FROMAXIOM.

Ltac role_cases H := unfold known in H; repeat (destruct H as [H|H]); subst.
Ltac role_dec := unfold gset, aset, right_role, goalish, assumptionish, join_priority,
  GOAL, ASSUMPTION, AXIOM, EXTAXIOM, FROMGOAL, FROMASSUMPTION, FROMGOALASSUMPTION, FROMAXIOM in *.
Lemma join_role p1 p2 : known p1 -> known p2 ->
  right_role (join_priority p1 p2) (gset p1 \/ gset p2) (aset p1 \/ aset p2).
Proof.
  intros K1 K2. role_cases K1; role_cases K2; role_dec; cbn; intuition lia.
Qed.
Lemma right_sets r G A : right_role r G A -> known r /\ r <> 0 /\ (gset r <-> G) /\ (aset r <-> A).
Proof.
  unfold right_role, known. intros H.
  destruct H as [[-> H]|[[-> H]|[[-> H]|[-> H]]]]; role_dec; (split; [tauto|]; split; [lia|]; split; intuition lia).
Qed.
Lemma right_iff r G A G' A' : (G <-> G') -> (A <-> A') -> right_role r G A -> right_role r G' A'.
Proof. unfold right_role. tauto. Qed.
Lemma known_enc r : known r -> r <> 0 -> encode_smallint r <> 0 /\ decode_priority (encode_smallint r) = r.
Proof. intros K N. role_cases K; [contradiction|..]; (split; [discriminate|reflexivity]). Qed.

Lemma behind_input d m g r c name r' : derivation g d m -> made d c (OInput name r') ->
  (behind main_parents d r c <-> r' = r).
Proof.
  intros D M. split.
  - intros [x [nm [Mx R]]]. apply clos_rt_rtn1 in R. destruct R as [|y z S R].
    + pose proof (unique _ _ _ D _ _ _ M Mx) as E. congruence.
    + destruct S as [o [Mo I]]. pose proof (unique _ _ _ D _ _ _ M Mo) as E. subst o. destruct I.
  - intros ->. exists c, name. split; [exact M|apply rt_refl].
Qed.
Lemma behind_derived d m g r c o : derivation g d m -> made d c o -> derived o ->
  (behind main_parents d r c <-> exists p, In p (main_parents o) /\ behind main_parents d r p).
Proof.
  intros D M T. split.
  - intros [x [nm [Mx R]]]. apply clos_rt_rtn1 in R. destruct R as [|y z S R].
    + pose proof (unique _ _ _ D _ _ _ M Mx) as E. subst o. destruct T.
    + destruct S as [o' [Mo I]]. pose proof (unique _ _ _ D _ _ _ M Mo) as E. subst o'.
      exists y. split; [exact I|]. exists x, nm. split; [exact Mx|]. apply clos_rtn1_rt, R.
  - intros [p [I [x [nm [Mx R]]]]]. exists x, nm. split; [exact Mx|].
    apply rt_trans with (y := p); [exact R|]. apply rt_step. exists o. auto.
Qed.

Section Roles.
Variables (g : env) (d : dlist) (m : mem).
Hypothesis D : derivation g d m.
Hypothesis St : strategy g <> 2 /\ strategy g <> 3.
Hypothesis In0 : forall x name r, made d x (OInput name r) -> r = GOAL \/ r = ASSUMPTION \/ r = AXIOM \/ r = EXTAXIOM.

Lemma calc_join a b : calc_priority g m a b = encode_smallint (join_priority (parent_priority m a) (parent_priority m b)).
Proof.
  unfold calc_priority, adjust.
  rewrite (proj2 (Z.eqb_neq _ _) (proj1 St)), (proj2 (Z.eqb_neq _ _) (proj2 St)). reflexivity.
Qed.
Definition fine (c : Z) : Prop := let r := parent_priority m (Some c) in
  known r /\ (gset r <-> behind main_parents d GOAL c) /\ (aset r <-> behind main_parents d ASSUMPTION c).

Lemma roles : forall n d1 h c o d2, d = d1 ++ (h, c, o) :: d2 -> (length d2 < n)%nat -> o <> OExtprop ->
  fine c /\ (derived o -> right_role (decode_priority (prio m c)) (behind main_parents d GOAL c) (behind main_parents d ASSUMPTION c)).
Proof.
  induction n as [|n IH]; intros d1 h c o d2 Eq Hn Ne; [lia|].
  assert (I : In (h, c, o) d) by (rewrite Eq; apply in_or_app; right; left; reflexivity).
  assert (M : made d c o) by (exists h; exact I).
  destruct (stored _ _ _ D _ _ _ I) as [Hc R].
  assert (Pp : parent_priority m (Some c) = if prio m c =? 0 then FROMAXIOM else decode_priority (prio m c)).
  { unfold parent_priority, prio. rewrite Hc, (proj2 (Z.eqb_neq h 0) (proj1 R)). reflexivity. }
  pose proof (older _ _ _ D _ _ _ _ _ Eq) as [_ U].
  assert (Fp : forall p, In p (main_parents o) -> fine p).
  { intros p Ip. destruct (U p (main_in _ _ Ip)) as [o' [[hp J] Ne']]. apply in_split in J. destruct J as [e1 [e2 J]].
    apply (IH (d1 ++ (h, c, o) :: e1) hp p o' e2); [rewrite Eq, J, <- app_assoc; reflexivity| |exact Ne'].
    rewrite J, app_length in Hn. cbn in Hn. lia. }
  assert (Der : derived o -> right_role (decode_priority (prio m c)) (behind main_parents d GOAL c) (behind main_parents d ASSUMPTION c)
                             /\ prio m c <> 0).
  { intro T. destruct (stored_prio _ _ _ D c o M T) as [a [Ms P]]. rewrite calc_join in P.
    assert (J : right_role (join_priority (parent_priority m (Some a)) (parent_priority m (second o)))
                  (behind main_parents d GOAL c) (behind main_parents d ASSUMPTION c)).
    { destruct Ms as [[M1 M2]|[b [M1 M2]]]; rewrite M2; rewrite M1 in Fp.
      - destruct (Fp a ltac:(left; reflexivity)) as [K [G A]].
        eapply right_iff; [| |apply join_role; [exact K|left; reflexivity]].
        + rewrite (behind_derived d m g GOAL c o D M T), M1. rewrite G. split.
          * intros [X|X]; [exists a; split; [left; reflexivity|exact X]|cbn in X; role_dec; lia].
          * intros [p [[<-|[]] X]]. left. exact X.
        + rewrite (behind_derived d m g ASSUMPTION c o D M T), M1. rewrite A. split.
          * intros [X|X]; [exists a; split; [left; reflexivity|exact X]|cbn in X; role_dec; lia].
          * intros [p [[<-|[]] X]]. left. exact X.
      - destruct (Fp a ltac:(left; reflexivity)) as [K [G A]].
        destruct (Fp b ltac:(right; left; reflexivity)) as [K' [G' A']].
        eapply right_iff; [| |apply join_role; [exact K|exact K']].
        + rewrite (behind_derived d m g GOAL c o D M T), M1. rewrite G, G'. split.
          * intros [X|X]; [exists a|exists b]; cbn; auto.
          * intros [p [[<-|[<-|[]]] X]]; auto.
        + rewrite (behind_derived d m g ASSUMPTION c o D M T), M1. rewrite A, A'. split.
          * intros [X|X]; [exists a|exists b]; cbn; auto.
          * intros [p [[<-|[<-|[]]] X]]; auto. }
    destruct (right_sets _ _ _ J) as [K [N0 _]]. destruct (known_enc _ K N0) as [E1 E2].
    rewrite P, E2. split; assumption. }
  split; [|intro T; apply (Der T)].
  destruct o; try contradiction (Ne eq_refl);
    try (destruct (Der Logic.I) as [Rr N0]; unfold fine; cbv zeta; rewrite Pp, (proj2 (Z.eqb_neq _ _) N0);
         destruct (right_sets _ _ _ Rr) as [K [_ [G A]]]; split; [exact K|split; assumption]).
  (* input *)
  pose proof (In0 _ _ _ M) as Hr.
  assert (K : known prio0 /\ prio0 <> 0).
  { unfold known. split; [tauto|]. role_dec. lia. }
  assert (P0 : prio m c = encode_smallint prio0).
  { unfold prio. rewrite Hc. destruct R as [_ [_ [g0 [m0 [clid [order B]]]]]]. cbn [build] in B.
    injection B as B. rewrite <- B. reflexivity. }
  destruct (known_enc _ (proj1 K) (proj2 K)) as [E1 E2].
  unfold fine. cbv zeta. rewrite Pp, P0, (proj2 (Z.eqb_neq _ _) E1), E2. split; [apply K|].
  rewrite (behind_input d m g GOAL c name prio0 D M), (behind_input d m g ASSUMPTION c name prio0 D M).
  role_dec. split; intuition lia.
Qed.
End Roles.
