(** Reference counts of long strings, and cells of single owners. *)
From Coq Require Import List ZArith Bool Lia Permutation.
From Verif Require Import RefModel RefSpec RefProof.
Import ListNotations.
Open Scope Z_scope.

Definition value_dec (a b : value) : {a = b} + {a <> b}.
Proof. decide equality; apply Z.eq_dec. Defined.
Lemma value_eqb_spec a b : value_eqb a b = true <-> a = b.
Proof. destruct a, b; cbn; split; intros H; try discriminate; try reflexivity; try (apply Z.eqb_eq in H; congruence); injection H as ->; apply Z.eqb_refl. Qed.
Definition occ (v : value) (l : list value) : Z := Z.of_nat (count_occ value_dec l v).
Lemma occ_cons v w l : occ v (w :: l) = (if value_dec w v then 1 else 0) + occ v l.
Proof. unfold occ. cbn [count_occ]. destruct (value_dec w v); lia. Qed.
Lemma occ_perm v l l' : Permutation l l' -> occ v l = occ v l'.
Proof. intros P. unfold occ. f_equal. apply Permutation_count_occ. exact P. Qed.
Lemma occ_in v l : 0 < occ v l <-> In v l.
Proof. unfold occ. rewrite (count_occ_In value_dec). lia. Qed.
Lemma occ_nonneg v l : 0 <= occ v l.
Proof. unfold occ. lia. Qed.

Definition boxes_of (l : list value) : list Z := flat_map (fun v => match v with VBox b => [b] | _ => [] end) l.
Lemma boxes_of_in b l : In b (boxes_of l) <-> In (VBox b) l.
Proof.
  unfold boxes_of. rewrite in_flat_map. split.
  - intros (v&H&E). destruct v; cbn in E; try tauto. destruct E as [->|[]]. exact H.
  - intros H. exists (VBox b). split; [exact H|left; reflexivity].
Qed.
Lemma boxes_of_perm l l' : Permutation l l' -> Permutation (boxes_of l) (boxes_of l').
Proof. intros P. unfold boxes_of. apply Permutation_flat_map. exact P. Qed.

Definition exs (st : list (Z * lstr)) : list value := map (fun e => extra (snd e)) st.
Lemma exs_put s x c st : get s st = Some x -> exs (put s {| count := c; extra := extra x |} st) = exs st.
Proof. unfold exs. induction st as [|[j y] st IH]; cbn; [discriminate|]. destruct (j =? s); cbn; [intros [= ->]; reflexivity|]. intros H. rewrite (IH H). reflexivity. Qed.
Lemma exs_del s x st : get s st = Some x -> Permutation (exs st) (extra x :: exs (del s st)).
Proof.
  unfold exs. induction st as [|[j y] st IH]; cbn; [discriminate|]. destruct (j =? s); cbn; [intros [= ->]; reflexivity|]. intros H. rewrite (IH H). apply perm_swap.
Qed.

Definition plain_extra (st : list (Z * lstr)) (x : lstr) : Prop :=
  match extra x with VNull | VBox _ => True | VStr e => exists y, get e st = Some y /\ extra y = VNull | _ => False end.
(** [V]: the values in fields *)
Record InvV (st : list (Z * lstr)) (bx : list Z) (V : list value) : Prop := {
  v_sk : NoDup (map fst st);
  v_cnt : forall s x, get s st = Some x -> count x = occ (VStr s) (V ++ exs st);
  v_live : forall s, In (VStr s) (V ++ exs st) -> In s (map fst st);
  v_bx : NoDup bx;
  v_own : NoDup (boxes_of (V ++ exs st));
  v_in : incl (boxes_of (V ++ exs st)) bx;
  v_ex : forall s x, get s st = Some x -> plain_extra st x }.
Lemma InvV_perm st bx V V' : Permutation V V' -> InvV st bx V -> InvV st bx V'.
Proof.
  intros P [A B C D E F G]. assert (Q : Permutation (V ++ exs st) (V' ++ exs st)) by (apply Permutation_app_tail, P).
  constructor; auto.
  - intros s x H. rewrite (B s x H). apply occ_perm, Q.
  - intros s H. apply C. apply (Permutation_in _ (Permutation_sym Q)), H.
  - apply (Permutation_NoDup (boxes_of_perm _ _ Q)), E.
  - intros b H. apply F. apply (Permutation_in _ (Permutation_sym (boxes_of_perm _ _ Q))), H.
Qed.
(** Values that do not count *)
Definition counts (v : value) : bool := match v with VStr _ | VBox _ => true | _ => false end.
Lemma InvV_skip st bx V v : counts v = false -> (InvV st bx (v :: V) <-> InvV st bx V).
Proof.
  intros H. assert (O : forall s, occ (VStr s) ((v :: V) ++ exs st) = occ (VStr s) (V ++ exs st)).
  { intros s. cbn [app]. rewrite occ_cons. destruct (value_dec v (VStr s)); [subst; discriminate|lia]. }
  assert (Bx : boxes_of ((v :: V) ++ exs st) = boxes_of (V ++ exs st)) by (destruct v; try discriminate; reflexivity).
  split; intros [A B C D E F G]; constructor; auto; try (rewrite Bx in *; assumption).
  - intros s x X. rewrite (B s x X). apply O.
  - intros s X. apply C. right. exact X.
  - intros s x X. rewrite (B s x X). symmetry. apply O.
  - intros s [X|X]; [subst v; discriminate|apply C, X].
Qed.
Lemma unskip st bx V v : InvV st bx (v :: V) -> counts v = false -> InvV st bx V.
Proof. intros I H. apply (InvV_skip st bx V v H). exact I. Qed.
Lemma InvV_put st bx V s x c :
  get s st = Some x -> InvV st bx V -> forall V', (forall q, q <> s -> occ (VStr q) (V' ++ exs st) = occ (VStr q) (V ++ exs st)) ->
  c = occ (VStr s) (V' ++ exs st) -> (forall q, In (VStr q) V' -> q = s \/ In (VStr q) V) -> boxes_of V' = boxes_of V ->
  InvV (put s {| count := c; extra := extra x |} st) bx V'.
Proof.
  intros GS [A B C D E F G] V' O EC IV EB. pose proof (exs_put s x c st GS) as EX. pose proof (get_key _ _ _ GS) as KS.
  assert (BA : boxes_of (V' ++ exs st) = boxes_of (V ++ exs st)) by (unfold boxes_of in *; rewrite !flat_map_app, EB; reflexivity).
  constructor; auto; rewrite ?EX, ?put_keys, ?BA; auto.
  - intros q y GQ. destruct (Z.eq_dec q s) as [->|N].
    + rewrite get_put_same in GQ by exact KS. injection GQ as <-. cbn. exact EC.
    + rewrite get_put_other in GQ by exact N. rewrite O by exact N. apply B, GQ.
  - intros q H. apply in_app_or in H. destruct H as [H|H]; [destruct (IV q H) as [->|X]; [exact KS|apply C, in_or_app; auto]|apply C, in_or_app; auto].
  - intros q y GQ. assert (P : plain_extra st y).
    { destruct (Z.eq_dec q s) as [->|N]; [rewrite get_put_same in GQ by exact KS; injection GQ as <-; apply (G s x GS)|rewrite get_put_other in GQ by exact N; apply (G q y GQ)]. }
    unfold plain_extra in *. destruct (extra y); auto. destruct P as (z&GZ&EZ). destruct (Z.eq_dec s0 s) as [->|N].
    + rewrite get_put_same by exact KS. rewrite GS in GZ. injection GZ as <-. eexists. split; [reflexivity|exact EZ].
    + rewrite get_put_other by exact N. eauto.
Qed.

(** May be stored, given the values already stored *)
Definition storable (st : list (Z * lstr)) (bx : list Z) (V : list value) (v : value) : Prop :=
  match v with VStr s => In s (map fst st) | VBox b => In b bx /\ ~ In (VBox b) (V ++ exs st) | _ => True end.
Lemma incr_ok d v V : InvV (strs d) (boxes d) V -> storable (strs d) (boxes d) V v ->
  exists d', incr d v = Some d' /\ InvV (strs d') (boxes d') (v :: V) /\ recs d' = recs d /\ cells d' = cells d /\
    boxes d' = boxes d /\ (forall s, In s (map fst (strs d')) <-> In s (map fst (strs d))).
Proof.
  intros I S. destruct v; cbn [incr]; try (exists d; split; [reflexivity|]; split; [apply InvV_skip; [reflexivity|exact I]|]; repeat split; auto; fail).
  - destruct (key_get _ _ S) as (x&G). rewrite G. eexists. split; [reflexivity|]. cbn [set_strs strs boxes recs cells].
    split; [|repeat split; auto; rewrite put_keys; auto].
    apply (InvV_put _ _ V s x _ G I (VStr s :: V)); [| | |reflexivity].
    + intros q N. cbn [app]. rewrite occ_cons. destruct (value_dec (VStr s) (VStr q)); [congruence|lia].
    + cbn [app]. rewrite occ_cons. destruct (value_dec (VStr s) (VStr s)); [|congruence]. rewrite (v_cnt _ _ _ I s x G). lia.
    + intros q [E|H]; [left; congruence|right; exact H].
  - exists d. split; [reflexivity|]. split; [|repeat split; auto]. destruct S as [S1 S2]. destruct I as [A B C D E F G]. constructor; [exact A| | |exact D| | |exact G].
    + intros s x H. cbn [app]. rewrite occ_cons. destruct (value_dec (VBox b) (VStr s)); [discriminate|]. rewrite (B s x H). lia.
    + intros s [H|H]; [discriminate|apply C, H].
    + cbn. constructor; [rewrite boxes_of_in; exact S2|exact E].
    + cbn. intros y [<-|H]; [exact S1|apply F, H].
Qed.

Lemma remove_nodup b l : NoDup l -> NoDup (remove Z.eq_dec b l).
Proof. induction l as [|x l IH]; cbn; [auto|]. intros N; inversion N; subst. destruct (Z.eq_dec b x); [auto|]. constructor; [|auto]. intros X. apply in_remove in X. tauto. Qed.
Lemma free_box d b V : InvV (strs d) (boxes d) (VBox b :: V) ->
  existsb (Z.eqb b) (boxes d) = true /\ InvV (strs d) (remove Z.eq_dec b (boxes d)) V.
Proof.
  intros [A B C D E F G]. cbn [app boxes_of flat_map] in E, F. inversion E; subst. split.
  - apply existsb_exists. exists b. split; [apply F; left; reflexivity|apply Z.eqb_refl].
  - constructor; [exact A| | | |exact H2| |exact G].
    + intros s x H. rewrite (B s x H). cbn [app]. rewrite occ_cons. destruct (value_dec (VBox b) (VStr s)); [discriminate|lia].
    + intros s H. apply C. right. exact H.
    + apply remove_nodup, D.
    + intros y Hy. apply in_in_remove; [intros ->; auto|]. apply F. right. exact Hy.
Qed.
Lemma drop_str st bx V s x : get s st = Some x -> InvV st bx (VStr s :: V) -> count x = 1 ->
  InvV (del s st) bx (extra x :: V) /\ ~ In (VStr s) (V ++ exs st).
Proof.
  intros GS [A B C D E F G] C1. pose proof (exs_del s x st GS) as EX.
  assert (P : Permutation (V ++ exs st) ((extra x :: V) ++ exs (del s st))).
  { cbn [app]. rewrite EX. symmetry. apply Permutation_middle. }
  assert (N : ~ In (VStr s) (V ++ exs st)).
  { intros X. apply occ_in in X. rewrite (B s x GS) in C1. cbn [app] in C1. rewrite occ_cons in C1. destruct (value_dec (VStr s) (VStr s)); [lia|congruence]. }
  split; [|exact N]. constructor.
  - apply del_nodup, A.
  - intros q y GQ. assert (Q : q <> s) by (intros ->; rewrite del_none in GQ by exact A; discriminate).
    rewrite get_del_other in GQ by exact Q. rewrite (B q y GQ). cbn [app]. rewrite occ_cons. destruct (value_dec (VStr s) (VStr q)); [congruence|].
    rewrite (occ_perm _ _ _ P). cbn [app]. lia.
  - intros q H. apply (Permutation_in _ (Permutation_sym P)) in H. assert (Q : q <> s) by (intros ->; auto).
    assert (K : In q (map fst st)) by (apply C; right; exact H). apply (Permutation_in _ (del_keys s st (get_key _ _ _ GS))) in K. destruct K as [K|K]; [congruence|exact K].
  - exact D.
  - apply (Permutation_NoDup (boxes_of_perm _ _ P)). exact E.
  - intros b Hb. apply F. apply (Permutation_in _ (Permutation_sym (boxes_of_perm _ _ P))) in Hb. exact Hb.
  - intros q y GQ. assert (Q : q <> s) by (intros ->; rewrite del_none in GQ by exact A; discriminate).
    rewrite get_del_other in GQ by exact Q. pose proof (G q y GQ) as H. unfold plain_extra in *. destruct (extra y) eqn:EY; auto. destruct H as (z&GZ&EZ).
    assert (Q' : s0 <> s).
    { intros ->. apply N. apply in_or_app. right. unfold exs. apply in_map_iff. exists (q, y). split; [exact EY|apply get_in, GQ]. }
    rewrite get_del_other by exact Q'. eauto.
Qed.
Lemma lower_str st bx V s x : get s st = Some x -> InvV st bx (VStr s :: V) -> count x <> 1 ->
  1 < count x /\ InvV (put s {| count := count x - 1; extra := extra x |} st) bx V.
Proof.
  intros GS I C1. pose proof (v_cnt _ _ _ I s x GS) as H. cbn [app] in H. rewrite occ_cons in H. destruct (value_dec (VStr s) (VStr s)) as [_|X]; [|congruence].
  pose proof (occ_nonneg (VStr s) (V ++ exs st)). split; [lia|].
  apply (InvV_put st bx (VStr s :: V) s x _ GS I V); [| | |reflexivity].
  - intros q N. cbn [app]. rewrite occ_cons. destruct (value_dec (VStr s) (VStr q)); [congruence|lia].
  - lia.
  - intros q Hq. right. right. exact Hq.
Qed.

(** The effect of freeing on strings: one reference to [v] less *)
Definition kept (d d' : db) : Prop := recs d' = recs d /\ cells d' = cells d.
Lemma free_plain n d v V : InvV (strs d) (boxes d) (v :: V) -> (forall s x, v = VStr s -> get s (strs d) = Some x -> extra x = VNull) ->
  exists d', free_value (S (S n)) d v = Some d' /\ InvV (strs d') (boxes d') V /\ kept d d'.
Proof.
  intros I PE. destruct v.
  - exists d. split; [reflexivity|]. split; [exact (unskip _ _ _ _ I eq_refl)|split; reflexivity].
  - exists d. split; [reflexivity|]. split; [exact (unskip _ _ _ _ I eq_refl)|split; reflexivity].
  - exists d. split; [reflexivity|]. split; [exact (unskip _ _ _ _ I eq_refl)|split; reflexivity].
  - destruct (key_get s (strs d)) as (x&G); [apply (v_live _ _ _ I); left; reflexivity|].
    cbn [free_value]. rewrite G. rewrite (PE s x eq_refl G) in *. destruct (Z.eq_dec (count x) 1) as [E|N].
    + rewrite E. cbn [Z.ltb Z.sub Z.compare Z.opp Z.add Z.pos_sub]. eexists. split; [reflexivity|]. cbn [set_strs strs boxes]. split; [|split; reflexivity].
      destruct (drop_str _ _ _ _ _ G I E) as [J _]. rewrite (PE s x eq_refl G) in J. exact (unskip _ _ _ _ J eq_refl).
    + destruct (lower_str _ _ _ _ _ G I N) as [L J]. replace (0 <? count x - 1) with true by (symmetry; apply Z.ltb_lt; lia).
      eexists. split; [reflexivity|]. cbn [set_strs strs boxes]. rewrite (PE s x eq_refl G) in J. split; [exact J|split; reflexivity].
  - cbn [free_value]. destruct (free_box _ _ _ I) as [E J]. rewrite E. eexists. split; [reflexivity|]. split; [exact J|split; reflexivity].
Qed.
Lemma free_ok d v V : InvV (strs d) (boxes d) (v :: V) ->
  exists d', free_value depth d v = Some d' /\ InvV (strs d') (boxes d') V /\ kept d d'.
Proof.
  intros I. destruct v; try (apply free_plain; [exact I|discriminate]).
  destruct (key_get s (strs d)) as (x&G); [apply (v_live _ _ _ I); left; reflexivity|].
  unfold depth. cbn [free_value]. rewrite G. destruct (Z.eq_dec (count x) 1) as [E|N].
  2:{ destruct (lower_str _ _ _ _ _ G I N) as [L J]. replace (0 <? count x - 1) with true by (symmetry; apply Z.ltb_lt; lia).
      eexists. split; [reflexivity|]. cbn [set_strs strs boxes]. split; [exact J|split; reflexivity]. }
  rewrite E. cbn [Z.ltb Z.sub Z.compare Z.opp Z.add Z.pos_sub]. destruct (drop_str _ _ _ _ _ G I E) as [J NI].
  pose proof (v_ex _ _ _ I s x G) as PX. unfold plain_extra in PX.
  destruct (extra x) as [|z|o|e|b] eqn:EX; try contradiction.
  - eexists. split; [reflexivity|]. cbn [set_strs strs boxes]. split; [exact (unskip _ _ _ _ J eq_refl)|split; reflexivity].
  - destruct PX as (y&GY&EY). rewrite GY, EY.
    assert (NE : e <> s).
    { intros ->. apply NI. apply in_or_app. right. unfold exs. apply in_map_iff. exists (s, x). split; [exact EX|apply get_in, G]. }
    assert (GE : get e (del s (strs d)) = Some y) by (rewrite get_del_other by exact NE; exact GY).
    destruct (Z.eq_dec (count y) 1) as [E1|N1].
    + rewrite E1. cbn [Z.ltb Z.sub Z.compare Z.opp Z.add Z.pos_sub]. eexists. split; [reflexivity|]. cbn [set_strs strs boxes].
      destruct (drop_str _ _ _ _ _ GE J E1) as [J1 _]. rewrite EY in J1. pose proof (unskip _ _ _ _ J1 eq_refl) as J2; clear J1; rename J2 into J1. rewrite del_del_comm. split; [exact J1|split; reflexivity].
    + destruct (lower_str _ _ _ _ _ GE J N1) as [L1 J1]. replace (0 <? count y - 1) with true by (symmetry; apply Z.ltb_lt; lia).
      eexists. split; [reflexivity|]. cbn [set_strs strs boxes]. rewrite del_put_comm by congruence. rewrite EY in J1. split; [exact J1|split; reflexivity].
  - destruct (free_box (set_strs d (del s (strs d))) b V J) as [EB J1]. cbn [set_strs boxes strs] in EB, J1. rewrite EB. eexists. split; [reflexivity|].
    cbn [set_strs set_boxes strs boxes]. split; [exact J1|split; reflexivity].
Qed.
