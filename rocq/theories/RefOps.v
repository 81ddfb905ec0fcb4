(** Every operation keeps the invariant; what it changes. *)
From Coq Require Import List ZArith Bool Lia Permutation.
From Verif Require Import RefModel RefSpec RefProof RefLink RefVals RefInv.
Import ListNotations.
Open Scope Z_scope.

Lemma set_new_ok d r i v c fs : WF d -> get r (bodies d) = Some fs -> nth_error fs i = Some VNull -> usable d v -> fresh_cell d c ->
  exists d', set_new_field false d r i v c = Some (0, d') /\ WF d' /\ bodies d' = put r (set_nth i v fs) (bodies d).
Proof.
  intros W G E U F. destruct (refs_put _ _ _ i v _ G E) as (R&R1&R2).
  pose proof (get_bodies d r) as GB. rewrite G in GB. unfold set_new_field. destruct (get r (recs d)) as [x|] eqn:GR; [|discriminate]. injection GB as GB. rewrite <- GB, E.
  destruct (store_ok d r i v fs G) as (d4&U4&B4&H4&C4&T4&X4). rewrite U4.
  assert (I4 : InvL (heads d4) (cells d4) (lks R)).
  { rewrite H4, C4. apply (InvL_perm _ _ (lks (refs d))); [|apply (w_L _ W)]. rewrite (lks_perm _ _ R1). reflexivity. }
  assert (V4 : InvV (strs d4) (boxes d4) (map snd (refs d))) by (rewrite T4, X4; apply (w_V _ W)).
  assert (ST : storable (strs d4) (boxes d4) (map snd (refs d)) v) by (rewrite T4, X4; apply usable_storable; assumption).
  destruct (incr_ok d4 v _ V4 ST) as (d2&U2&I2&K2&C2&_). rewrite U2.
  assert (KK : map fst (bodies d2) = map fst (bodies d)) by (rewrite (bodies_recs _ _ K2), B4, put_keys; reflexivity).
  assert (I2L : InvL (heads d2) (cells d2) (lks R)) by (rewrite (heads_recs _ _ K2), C2; exact I4).
  assert (EV : match v with VRec o => is_rec d2 o | _ => True end).
  { destruct v; auto. destruct U as [U _]. apply is_rec_bodies. rewrite KK. apply is_rec_bodies. exact U. }
  assert (F2 : fresh_cell d2 c) by (unfold fresh_cell; rewrite C2, C4; exact F).
  assert (A : exists d', match v with VRec o => match link d2 o c r with Some d => Some (0, d) | None => None end | _ => Some (0, d2) end = Some (0, d') /\
    InvL (heads d') (cells d') (field_link r v ++ lks R) /\ same d2 d').
  { assert (S : same d2 d2) by (split; [reflexivity|split; reflexivity]). destruct v; try (exists d2; split; [reflexivity|]; split; [exact I2L|exact S]).
    destruct (link_ok d2 o r c _ I2L EV F2) as (d'&L&I'&S'). exists d'. rewrite L. auto. }
  destruct A as (d5&U5&I5&B5&T5&X5). exists d5. split; [exact U5|].
  assert (BB : bodies d5 = put r (set_nth i v fs) (bodies d)) by (rewrite B5, (bodies_recs _ _ K2); exact B4). split; [|exact BB].
  constructor.
  - rewrite <- bodies_keys, BB, put_keys, bodies_keys. apply (w_0 _ W).
  - unfold refs. rewrite BB. apply (InvL_perm _ _ (field_link r v ++ lks R)); [|exact I5]. rewrite (lks_perm _ _ R2). destruct v; reflexivity.
  - unfold refs. rewrite BB, T5, X5. apply (InvV_perm _ _ (v :: map snd R)); [rewrite (Permutation_map snd R2); reflexivity|].
    apply (unskip _ _ _ VNull); [|reflexivity]. apply (InvV_perm _ _ (v :: map snd (refs d))); [|exact I2].
    unfold refs. rewrite (Permutation_map snd R1). cbn. apply perm_swap.
Qed.

Lemma delete_fields_ok r : forall fs d L V, InvL (heads d) (cells d) (lks (map (pair r) fs) ++ L) -> InvV (strs d) (boxes d) (fs ++ V) ->
  exists d', delete_fields d r fs = Some (0, d') /\ InvL (heads d') (cells d') L /\ InvV (strs d') (boxes d') V /\ bodies d' = bodies d.
Proof.
  induction fs as [|v fs IH]; intros d L V IL IV; [exists d; split; [reflexivity|split; [exact IL|split; [exact IV|reflexivity]]]|]. cbn [delete_fields].
  destruct (drop_link d r v (lks (map (pair r) fs) ++ L)) as (d1&U1&I1&(B1&T1&X1)&_); [cbn [map lks flat_map fst snd] in IL; destruct v; exact IL|]. rewrite U1.
  destruct (free_ok d1 v (fs ++ V)) as (d2&U2&I2&K2&C2); [rewrite T1, X1; exact IV|]. rewrite U2.
  destruct (IH d2 L V) as (d3&U3&I3&V3&B3); [rewrite (heads_recs _ _ K2), C2; exact I1|exact I2|].
  exists d3. split; [exact U3|]. split; [exact I3|]. split; [exact V3|]. rewrite B3, (bodies_recs _ _ K2). exact B1.
Qed.

Lemma no_parents d r x : WF d -> get r (recs d) = Some x -> (back x = 0 <-> (forall p, ~ refers d p (VRec r))).
Proof.
  intros W G. pose proof (w_L _ W) as [RK CK C0 (ch&CH&FL) LL]. destruct (CH r (back x)) as [P PP]; [rewrite get_heads, G; reflexivity|]. split.
  - intros B p H. apply refers_refs in H; [|apply w_rk, W]. apply lks_in, parents_in in H. apply (Permutation_in _ (Permutation_sym PP)) in H.
    destruct (ch r) as [|[c q] l]; [destruct H|]. cbn in P. destruct P as (E&n&G'&_). apply C0. rewrite <- B, E. eapply get_key; eauto.
  - intros H. destruct (ch r) as [|[c q] l]; [exact P|]. exfalso. cbn [map snd] in PP.
    assert (X : In q (parents r (lks (refs d)))) by (apply (Permutation_in _ PP); left; reflexivity).
    apply parents_in, lks_in in X. apply (H q). apply refers_refs; [apply w_rk, W|exact X].
Qed.

Lemma InvL_del hs cl L r h : InvL hs cl L -> get r hs = Some h -> (forall p, ~ In (p, r) L) -> InvL (del r hs) cl L.
Proof.
  intros [RK CK C0 (ch&CH&FL) LL] G N. pose proof (get_key _ _ _ G) as K. constructor; auto.
  - apply del_nodup, RK.
  - exists ch. split.
    + intros o h' H. assert (Q : o <> r) by (intros ->; rewrite del_none in H by exact RK; discriminate). rewrite get_del_other in H by exact Q. auto.
    + rewrite FL. rewrite (Permutation_flat_map (fun o => map fst (ch o)) (del_keys r hs K)). cbn [flat_map].
      destruct (CH r h G) as [P PP]. destruct (ch r) as [|[c q] l] eqn:E; [reflexivity|]. exfalso. cbn [map snd] in PP.
      assert (X : In q (parents r L)) by (apply (Permutation_in _ PP); left; reflexivity). apply parents_in in X. exact (N q X).
  - intros p o H. pose proof (LL p o H) as X. apply (Permutation_in _ (del_keys r hs K)) in X. destruct X as [->|X]; [exfalso; exact (N p H)|exact X].
Qed.
Lemma map_del {A B} (f : A -> B) k (l : list (Z * A)) : map (fun e => (fst e, f (snd e))) (del k l) = del k (map (fun e => (fst e, f (snd e))) l).
Proof. induction l as [|[j y] l IH]; cbn; [reflexivity|]. destruct (j =? k); cbn; congruence. Qed.

Lemma delete_ok d r fs : WF d -> get r (bodies d) = Some fs -> (forall p, ~ refers d p (VRec r)) ->
  exists d', delete_record d r = Some (0, d') /\ WF d' /\ bodies d' = del r (bodies d).
Proof.
  intros W G N. pose proof (get_bodies d r) as GB. rewrite G in GB. unfold delete_record. destruct (get r (recs d)) as [x|] eqn:GR; [|discriminate]. injection GB as GB.
  pose proof (proj2 (no_parents d r x W GR) N) as B0. rewrite B0, <- GB. cbn [negb Z.eqb].
  destruct (get_split _ _ _ G) as (l1&l2&EB&NI). set (R := refsb (l1 ++ l2)).
  assert (PR : Permutation (refs d) (map (pair r) fs ++ R)).
  { unfold refs, R. rewrite EB. unfold refsb. rewrite !flat_map_app. cbn [flat_map fst snd]. apply Permutation_app_swap_app. }
  assert (NR : forall p, ~ In (p, r) (lks R)).
  { intros p H. apply lks_in in H. apply (N p). apply refers_refs; [apply w_rk, W|]. apply (Permutation_in _ (Permutation_sym PR)). apply in_or_app. right. exact H. }
  destruct (delete_fields_ok r fs d (lks R) (map snd R)) as (d1&U1&I1&V1&B1).
  { apply (InvL_perm _ _ (lks (refs d))); [|apply (w_L _ W)]. rewrite (lks_perm _ _ PR), lks_app. reflexivity. }
  { apply (InvV_perm _ _ (map snd (refs d))); [|apply (w_V _ W)]. rewrite (Permutation_map snd PR), map_app, map_map. cbn. rewrite map_id. reflexivity. }
  rewrite U1. cbn [Z.eqb]. eexists. split; [reflexivity|].
  assert (BD : bodies (set_recs d1 (del r (recs d1))) = del r (bodies d)) by (rewrite <- B1; unfold bodies; cbn [set_recs recs]; apply map_del).
  assert (HD : heads (set_recs d1 (del r (recs d1))) = del r (heads d1)) by (unfold heads; cbn [set_recs recs]; apply map_del).
  split; [|exact BD]. assert (RD : refs (set_recs d1 (del r (recs d1))) = R) by (unfold refs, R; rewrite BD, EB; f_equal; apply del_split; exact NI).
  constructor.
  - cbn [set_recs recs]. intros X. apply del_in in X. rewrite <- bodies_keys, B1, bodies_keys in X. exact (w_0 _ W X).
  - rewrite RD, HD. cbn [set_recs cells]. destruct (key_get r (heads d1)) as (h&GH).
    { rewrite heads_keys, <- bodies_keys, B1. eapply get_key; eauto. }
    apply (InvL_del _ _ _ _ h); assumption.
  - rewrite RD. exact V1.
Qed.

Lemma create_ok d n o : WF d -> o <> 0 -> ~ is_rec d o -> exists d', create_record d n o = Some (0, d') /\ WF d' /\ bodies d' = (o, repeat VNull n) :: bodies d.
Proof.
  intros W NZ NR. eexists. split; [reflexivity|]. split; [|reflexivity].
  assert (NK : ~ In o (map fst (heads d))) by (rewrite heads_keys, <- bodies_keys; intros X; apply NR, is_rec_bodies, X).
  assert (RR : refs (set_recs d ((o, {| fields := repeat VNull n; back := 0 |}) :: recs d)) = map (pair o) (repeat VNull n) ++ refs d) by reflexivity.
  constructor.
  - cbn. intros [X|X]; [auto|exact (w_0 _ W X)].
  - rewrite RR, lks_app. assert (E : lks (map (pair o) (repeat VNull n)) = []) by (clear; induction n; cbn; auto). rewrite E. cbn [app set_recs cells].
    change (heads _) with ((o, 0) :: heads d). pose proof (w_L _ W) as [RK CK C0 (ch&CH&FL) LL].
    assert (PO : parents o (lks (refs d)) = []).
    { destruct (parents o (lks (refs d))) as [|p l] eqn:EP; [reflexivity|]. exfalso. apply NK. apply (LL p o). apply parents_in. rewrite EP. left. reflexivity. }
    constructor; auto.
    + cbn. constructor; assumption.
    + exists (upd ch o []). split.
      * intros q h. cbn [get]. unfold upd. destruct (Z.eqb_spec o q) as [<-|N].
        -- intros [= <-]. rewrite Z.eqb_refl, PO. split; constructor.
        -- destruct (Z.eqb_spec q o); [congruence|]. apply CH.
      * rewrite FL. cbn [map fst flat_map]. unfold upd at 1. rewrite Z.eqb_refl. cbn [map app]. rewrite !flat_map_concat_map. apply Permutation_refl'. f_equal. apply map_ext_in.
        intros q Hq. unfold upd. destruct (Z.eqb_spec q o); [subst; exfalso; auto|reflexivity].
    + intros p q H. right. apply (LL p q H).
  - rewrite RR. cbn [set_recs strs boxes]. rewrite map_app, map_map. cbn [snd]. rewrite map_id. clear -W. induction n as [|n IH]; cbn [repeat app]; [apply (w_V _ W)|]. apply InvV_skip; [reflexivity|exact IH].
Qed.
Lemma WF_vals d d' : WF d -> recs d' = recs d -> cells d' = cells d -> InvV (strs d') (boxes d') (map snd (refs d)) -> WF d'.
Proof.
  intros W K C V. assert (B : bodies d' = bodies d) by (apply bodies_recs, K). constructor.
  - rewrite K. apply (w_0 _ W).
  - unfold refs. rewrite B, (heads_recs _ _ K), C. apply (w_L _ W).
  - unfold refs. rewrite B. exact V.
Qed.
Lemma box_ok d b : WF d -> ~ In b (boxes d) -> WF (set_boxes d (b :: boxes d)).
Proof.
  intros W N. apply (WF_vals d); [exact W|reflexivity|reflexivity|]. pose proof (w_V _ W) as [A B C D E F G]. cbn [set_boxes strs boxes]. constructor; auto.
  - constructor; assumption.
  - intros y Hy. right. apply F, Hy.
Qed.
Lemma str_ok d s ex : WF d -> allowed d (Str s ex) -> exists d', encode_str d s ex = Some (0, d') /\ WF d' /\ bodies d' = bodies d.
Proof.
  intros W (NS&U&NE&SH). destruct (incr_ok d ex _ (w_V _ W) (usable_storable _ _ W U)) as (d1&U1&I1&K1&C1&X1&KS). unfold encode_str. rewrite U1.
  eexists. split; [reflexivity|]. split; [|apply bodies_recs, K1]. apply (WF_vals d); [exact W|exact K1|exact C1|]. cbn [set_strs strs boxes].
  assert (NK : ~ In s (map fst (strs d1))) by (intros X; apply NS; apply KS in X; apply key_get in X; exact X).
  destruct I1 as [A B C D E F G]. set (V := map snd (refs d)) in *.
  assert (P : Permutation ((ex :: V) ++ exs (strs d1)) (V ++ exs ((s, {| count := 0; extra := ex |}) :: strs d1))) by (cbn; apply Permutation_middle).
  constructor.
  - cbn. constructor; assumption.
  - intros q x. cbn [get]. destruct (Z.eqb_spec s q) as [<-|N].
    + intros [= <-]. cbn [count]. rewrite <- (occ_perm _ _ _ P). pose proof (occ_nonneg (VStr s) ((ex :: V) ++ exs (strs d1))) as H.
      destruct (Z.eq_dec (occ (VStr s) ((ex :: V) ++ exs (strs d1))) 0) as [Q|Q]; [lia|]. exfalso. apply NK, C, occ_in. lia.
    + intros H. rewrite (B q x H). apply occ_perm, P.
  - intros q H. right. apply C. apply (Permutation_in _ (Permutation_sym P)), H.
  - exact D.
  - apply (Permutation_NoDup (boxes_of_perm _ _ P)), E.
  - intros y Hy. apply F. apply (Permutation_in _ (Permutation_sym (boxes_of_perm _ _ P))), Hy.
  - intros q x. cbn [get]. destruct (Z.eqb_spec s q) as [<-|N].
    + intros [= <-]. unfold plain_extra. cbn [extra]. destruct ex; auto. destruct SH as (y&GY&EY). cbn [incr] in U1. rewrite GY in U1. injection U1 as <-.
      cbn [get]. destruct (Z.eqb_spec s s0); [congruence|]. cbn [set_strs strs]. rewrite get_put_same by (eapply get_key; eauto). eexists. split; [reflexivity|exact EY].
    + intros H. pose proof (G q x H) as PX. unfold plain_extra in *. destruct (extra x); auto. destruct PX as (y&GY&EY). cbn [get].
      destruct (Z.eqb_spec s s0) as [->|]; [exfalso; apply NK; eapply get_key; eauto|eauto].
Qed.
Lemma free_enc_ok d v : WF d -> usable d v -> exists d', free_encoded d v = Some (0, d') /\ WF d' /\ bodies d' = bodies d.
Proof.
  intros W U. destruct (incr_ok d v _ (w_V _ W) (usable_storable _ _ W U)) as (d1&U1&I1&K1&C1&_). unfold free_encoded. rewrite U1.
  destruct (free_ok d1 v _ I1) as (d2&U2&I2&K2&C2). rewrite U2. eexists. split; [reflexivity|]. split.
  - apply (WF_vals d); [exact W|rewrite K2; exact K1|rewrite C2; exact C1|exact I2].
  - rewrite (bodies_recs _ _ K2). apply bodies_recs, K1.
Qed.

(** All operations: the code returned, the invariant, and what is in the records afterwards *)
Definition bodies_after (d : db) (o : op) (z : Z) : list (Z * list value) :=
  match o with
  | Create n a => (a, repeat VNull n) :: bodies d
  | Set_ r i v _ | SetNew r i v _ => match get r (bodies d) with Some fs => put r (set_nth i v fs) (bodies d) | None => bodies d end
  | Delete r => if z =? 0 then del r (bodies d) else bodies d
  | _ => bodies d
  end.
Lemma set_nth_id : forall i v fs, nth_error fs i = Some v -> set_nth i v fs = fs.
Proof. induction i as [|i IH]; intros v [|f fs]; cbn; try discriminate; [intros [= ->]; reflexivity|intros H; rewrite IH by exact H; reflexivity]. Qed.
Lemma put_id {A} k (x : A) l : get k l = Some x -> put k x l = l.
Proof. induction l as [|[j y] l IH]; cbn; [discriminate|]. destruct (Z.eqb_spec j k); [intros [= ->]; reflexivity|]. intros H. rewrite (IH H). reflexivity. Qed.
Lemma apply_ok d o : WF d -> allowed d o -> exists z d', apply false d o = Some (z, d') /\ WF d' /\ bodies d' = bodies_after d o z /\
  (match o with Delete r => z = 0 \/ z = -1 /\ d' = d | _ => z = 0 end).
Proof.
  intros W A. destruct o as [n a|b|s ex|r i v c|r i v c|r|v]; cbn [apply bodies_after].
  - destruct A as [NZ NR]. destruct (create_ok d n a W NZ NR) as (d'&U&W'&B). exists 0, d'. auto.
  - eexists 0, _. split; [reflexivity|]. split; [apply box_ok; [exact W|exact A]|]. split; reflexivity.
  - destruct (str_ok d s ex W A) as (d'&U&W'&B). exists 0, d'. auto.
  - destruct A as (NN&UV&F). rewrite get_field_bodies in NN, UV. destruct (get r (bodies d)) as [fs|] eqn:G; [|congruence]. destruct (nth_error fs i) as [old|] eqn:E; [|congruence].
    destruct (value_dec old v) as [->|NE].
    + exists 0, d. split.
      * unfold set_field. pose proof (get_bodies d r) as GB. rewrite G in GB. destruct (get r (recs d)) as [x|]; [|discriminate]. injection GB as GB. rewrite <- GB, E.
        replace (value_eqb v v) with true by (symmetry; apply value_eqb_spec; reflexivity). reflexivity.
      * split; [exact W|]. split; [|reflexivity]. rewrite set_nth_id by exact E. rewrite put_id by exact G. reflexivity.
    + destruct UV as [UV|UV]; [congruence|]. destruct (set_field_ok d r i v c old fs W G E NE UV F) as (d'&U&W'&B). exists 0, d'. auto.
  - destruct A as (NN&UV&F). rewrite get_field_bodies in NN. destruct (get r (bodies d)) as [fs|] eqn:G; [|congruence].
    destruct (set_new_ok d r i v c fs W G NN UV F) as (d'&U&W'&B). exists 0, d'. auto.
  - destruct A as (x&G). destruct (Z.eq_dec (back x) 0) as [E|E].
    + pose proof (proj1 (no_parents d r x W G) E) as N. destruct (delete_ok d r (fields x) W) as (d'&U&W'&B); [rewrite get_bodies, G; reflexivity|exact N|]. exists 0, d'. cbn [Z.eqb]. auto.
    + exists (-1), d. split; [|cbn [Z.eqb]; auto]. unfold delete_record. rewrite G, (proj2 (Z.eqb_neq _ _) E). reflexivity.
  - destruct (free_enc_ok d v W A) as (d'&U&W'&B). exists 0, d'. auto.
Qed.
Lemma WF_empty : WF empty.
Proof.
  constructor.
  - cbn. tauto.
  - cbn. constructor; cbn; try constructor; try tauto. exists (fun _ => []). split; [discriminate|constructor].
  - cbn. constructor; cbn; try constructor; try tauto; try discriminate. intros x [].
Qed.
Theorem reach_WF d : reach false d -> WF d.
Proof.
  induction 1 as [|d o z d' R IH A E]; [apply WF_empty|]. destruct (apply_ok d o IH A) as (z1&d1&U&W&_). congruence.
Qed.
