From Coq Require Import List ZArith Bool Lia Permutation.
From Verif Require Import QueueModel QueueSpec.
Import ListNotations.
Open Scope Z_scope.

Definition slice (b : bucket) : list Z :=
  firstn (Z.to_nat (next_free b - next_pick b)) (skipn (Z.to_nat (next_pick b)) (arr b)).
Definition binv (b : bucket) : Prop :=
  0 <= next_pick b <= next_free b /\ next_free b <= arr_len b /\ arr_len b = Z.of_nat (length (arr b)).
Definition at_weight (p : Z) (P : list entry) : list Z := map snd (filter (fun e => fst e =? p) P).

Record qinv (maxprior keep : Z) (P : list entry) (q : queue) : Prop := {
  qi_max : max_prior q = maxprior; qi_keep : max_keep q = keep; qi_pos : 0 <= maxprior; qi_used : 0 <= max_used q;
  qi_b : forall p, binv (buckets q p);
  qi_slice : forall p, slice (buckets q p) = at_weight p P;
  qi_above : forall p, max_used q < p -> arr_len (buckets q p) = 0;
  qi_range : forall e, In e P -> 0 <= fst e;
  qi_nonnull : forall e, In e P -> snd e <> 0 }.

Lemma put_length l : forall i e, length (put l i e) = length l.
Proof. induction l; destruct i; cbn; auto. Qed.
Lemma put_nth l : forall i e, (i < length l)%nat -> nth i (put l i e) 0 = e.
Proof. induction l; destruct i; cbn; intros; try lia; auto. apply IHl. lia. Qed.
Lemma put_firstn l : forall i e, firstn i (put l i e) = firstn i l.
Proof. induction l; destruct i; cbn; intros; auto. f_equal. auto. Qed.
Lemma firstn_S_nth (l : list Z) : forall i, (i < length l)%nat -> firstn (S i) l = firstn i l ++ [nth i l 0].
Proof. induction l; destruct i; cbn; intros; try lia; auto. f_equal. rewrite <- IHl by lia. reflexivity. Qed.

Lemma firstn_app1 (l m : list Z) k : (k <= length l)%nat -> firstn k (l ++ m) = firstn k l.
Proof. intros. rewrite firstn_app. replace (k - length l)%nat with 0%nat by lia. cbn. apply app_nil_r. Qed.

Definition window (lo hi : nat) (l : list Z) : list Z := skipn lo (firstn hi l).
Lemma slice_window b : binv b -> slice b = window (Z.to_nat (next_pick b)) (Z.to_nat (next_free b)) (arr b).
Proof.
  intros (A&B&C). unfold slice, window. rewrite firstn_skipn_comm.
  f_equal. f_equal. lia.
Qed.
Lemma window_snoc lo hi l c : (lo <= hi)%nat -> (hi < length l)%nat -> window lo (S hi) (put l hi c) = window lo hi l ++ [c].
Proof.
  intros H1 H2. unfold window. rewrite firstn_S_nth by (rewrite put_length; lia). rewrite put_nth by lia. rewrite put_firstn.
  rewrite skipn_app. f_equal. rewrite firstn_length.
  replace (lo - Nat.min hi (length l))%nat with 0%nat by lia. reflexivity.
Qed.

Lemma at_weight_snoc p P w c : at_weight p (P ++ [(w, c)]) = at_weight p P ++ (if w =? p then [c] else []).
Proof.
  unfold at_weight. rewrite filter_app, map_app. cbn. destruct (w =? p); reflexivity.
Qed.

(** One push into a bucket. *)
Lemma push_ok maxprior keep P q ok junk c w q' : qinv maxprior keep P q -> c <> 0 -> push ok junk q c w = Some q' ->
  qinv maxprior keep (match filed maxprior keep w with Some p => P ++ [(p, c)] | None => P end) q'.
Proof.
  intros I Hc E. unfold push in E. unfold filed. rewrite (qi_keep _ _ _ _ I) in E.
  destruct (Z.ltb_spec w 0); [inversion E; subst; auto|].
  destruct (negb (keep =? 0) && (keep <? w)); [inversion E; subst; auto|].
  rewrite (qi_max _ _ _ _ I) in E.
  assert (W : (if maxprior <? w then maxprior else w) = Z.min w maxprior) by (destruct (Z.ltb_spec maxprior w); lia).
  rewrite W in E. set (p := Z.min w maxprior) in *. pose proof (qi_pos _ _ _ _ I). assert (Hp : 0 <= p) by lia.
  set (b := buckets q p) in *. pose proof (qi_b _ _ _ _ I p) as B. fold b in B. pose proof (qi_slice _ _ _ _ I p) as SLI. fold b in SLI.
  assert (GEN : forall nb used, binv nb -> slice nb = slice b ++ [c] -> max_used q <= used ->
            (forall k, used < k -> k <> p -> arr_len (buckets q k) = 0) -> p <= used ->
            qinv maxprior keep (P ++ [(p, c)]) (set_bucket q p nb used)).
  { intros nb used NB NS U1 U2 U3. split; cbn [max_prior max_keep max_used buckets set_bucket]; [apply I|apply I|lia| | | | | |].
    - pose proof (qi_used _ _ _ _ I). lia.
    - intros k. destruct (Z.eqb_spec k p); [auto|]. apply I.
    - intros k. rewrite at_weight_snoc. destruct (Z.eqb_spec k p) as [->|N].
      + rewrite Z.eqb_refl, NS, SLI. reflexivity.
      + destruct (Z.eqb_spec p k); [congruence|]. rewrite app_nil_r. apply I.
    - intros k Hk. destruct (Z.eqb_spec k p) as [->|N]; [lia|]. apply U2; auto.
    - intros e He. apply in_app_or in He. destruct He as [He|[<-|[]]]; [apply (qi_range _ _ _ _ I); auto|cbn; lia].
    - intros e He. apply in_app_or in He. destruct He as [He|[<-|[]]]; [apply (qi_nonnull _ _ _ _ I); auto|auto]. }
  rewrite (slice_window b B) in GEN. destruct B as (B1&B2&B3).
  destruct (Z.eqb_spec (arr_len b) 0) as [Z0|NZ].
  - destruct ok; [|discriminate]. cbn [negb] in E. inversion E; subst q'. clear E. apply GEN.
    + unfold binv. cbn. lia.
    + replace (Z.to_nat (next_pick b)) with 0%nat by lia. replace (Z.to_nat (next_free b)) with 0%nat by lia. reflexivity.
    + destruct (Z.ltb_spec (max_used q) p); lia.
    + intros k Hk Hn. apply I. destruct (Z.ltb_spec (max_used q) p); lia.
    + destruct (Z.ltb_spec (max_used q) p); lia.
  - assert (Hu : p <= max_used q).
    { destruct (Z.le_gt_cases p (max_used q)); auto. exfalso. apply NZ. apply (qi_above _ _ _ _ I). lia. }
    destruct (Z.leb_spec (arr_len b) (next_free b)) as [L|L].
    + destruct ok; [|discriminate]. cbn [negb] in E. inversion E; subst q'. clear E.
      assert (LJ : length (junk_list junk (arr_len b * 2 - arr_len b)) = length (arr b))
        by (unfold junk_list; rewrite map_length, seq_length; lia).
      assert (NB : binv {| arr_len := arr_len b * 2; next_free := next_free b + 1; next_pick := next_pick b;
         arr := put (arr b ++ junk_list junk (arr_len b * 2 - arr_len b)) (Z.to_nat (next_free b)) c |}).
      { unfold binv. cbn [next_pick next_free arr_len arr]. rewrite put_length, app_length, LJ. lia. }
      apply GEN; auto; try lia.
      * rewrite slice_window by auto. cbn [next_pick next_free arr]. replace (Z.to_nat (next_free b + 1)) with (S (Z.to_nat (next_free b))) by lia.
        rewrite window_snoc by (try rewrite app_length, LJ; lia). unfold window. rewrite firstn_app1 by lia. reflexivity.
      * intros k Hk _. apply I. auto.
    + inversion E; subst q'. clear E.
      assert (NB : binv {| arr_len := arr_len b; next_free := next_free b + 1; next_pick := next_pick b;
         arr := put (arr b) (Z.to_nat (next_free b)) c |}).
      { unfold binv. cbn [next_pick next_free arr_len arr]. rewrite put_length. lia. }
      apply GEN; auto; try lia.
      * rewrite slice_window by auto. cbn [next_pick next_free arr]. replace (Z.to_nat (next_free b + 1)) with (S (Z.to_nat (next_free b))) by lia.
        apply window_snoc; lia.
      * intros k Hk _. apply I. auto.
Qed.

(** Picking from one bucket. *)
Lemma slice_cons b : binv b -> next_pick b < next_free b ->
  slice b = nth (Z.to_nat (next_pick b)) (arr b) 0 ::
            slice {| arr_len := arr_len b; next_free := next_free b; next_pick := next_pick b + 1; arr := arr b |}.
Proof.
  intros (A&B&C) L. unfold slice. cbn [next_pick next_free arr].
  replace (Z.to_nat (next_free b - next_pick b)) with (S (Z.to_nat (next_free b - (next_pick b + 1)))) by lia.
  replace (Z.to_nat (next_pick b + 1)) with (S (Z.to_nat (next_pick b))) by lia.
  assert (X : forall (l : list Z) k m, (k < length l)%nat -> firstn (S m) (skipn k l) = nth k l 0 :: firstn m (skipn (S k) l)).
  { induction l; destruct k; intros m H; cbn in H; try lia; [reflexivity|]. cbn [skipn nth]. rewrite IHl by lia. reflexivity. }
  apply X. lia.
Qed.
Lemma pick_bucket_ok given : forall n b, binv b -> (Z.to_nat (next_free b - next_pick b) < n)%nat -> (forall c, In c (slice b) -> c <> 0) ->
  exists r b' D, pick_bucket n given b = Some (r, b') /\ binv b' /\ arr_len b' = arr_len b /\
    (forall c, In c D -> given c = true) /\
    match r with
    | Some c => given c = false /\ slice b = D ++ c :: slice b'
    | None => slice b = D /\ slice b' = []
    end.
Proof.
  induction n as [|n IH]; intros b B Hn NZ; [lia|]. cbn [pick_bucket]. pose proof B as (B1&B2&B3).
  destruct (Z.ltb_spec (next_pick b) (next_free b)) as [L|L].
  - destruct (Z.ltb_spec (next_pick b) (arr_len b)); [|lia]. destruct (Z.eqb_spec (arr_len b) 0); [lia|]. cbn [andb negb].
    pose proof (slice_cons b B L) as SC. set (c := nth _ _ _) in *. set (b1 := Build_bucket _ _ _ _) in *.
    assert (C0 : c <> 0) by (apply NZ; rewrite SC; simpl; auto). destruct (Z.eqb_spec c 0); [contradiction|]. cbn [negb andb].
    assert (B1' : binv b1) by (unfold binv, b1; cbn; lia).
    destruct (given c) eqn:G; cbn [negb].
    + destruct (IH b1 B1') as (r&b'&D&E1&E2&E3&E4&E5).
      * unfold b1. cbn. lia.
      * intros x Hx. apply NZ. rewrite SC. simpl. auto.
      * exists r, b', (c :: D). rewrite E3. split; [exact E1|]. split; [exact E2|]. split; [reflexivity|]. split.
        -- intros x [<-|Hx]; auto.
        -- rewrite SC. destruct r; [destruct E5 as (E5&->)|destruct E5 as (->&E6)]; auto.
    + exists (Some c), b1, []. split; [reflexivity|]. split; [exact B1'|]. split; [reflexivity|]. split; [intros x []|auto].
  - cbn [andb]. exists None, b, []. split; [reflexivity|]. split; [exact B|]. split; [reflexivity|]. split; [intros x []|].
    split; unfold slice; replace (Z.to_nat (next_free b - next_pick b)) with 0%nat by lia; reflexivity.
Qed.

Lemma filter_split {A} (f : A -> bool) x : forall l l1 l2, filter f l = l1 ++ x :: l2 ->
  exists u v, l = u ++ x :: v /\ filter f u = l1 /\ filter f v = l2.
Proof.
  induction l as [|y l IH]; cbn; intros l1 l2 E; [destruct l1; discriminate|].
  destruct (f y) eqn:F.
  - destruct l1 as [|z l1]; cbn in E; inversion E; subst.
    + exists [], l. auto.
    + destruct (IH l1 l2 ltac:(assumption)) as (u&v&->&E1&E2). exists (z :: u), v. cbn. rewrite F, E1. auto.
  - destruct (IH _ _ E) as (u&v&->&E1&E2). exists (y :: u), v. cbn. rewrite F. auto.
Qed.
Lemma map_snd_split (P : list entry) p : forall D c R, at_weight p P = D ++ c :: R ->
  exists A B, P = A ++ (p, c) :: B /\ at_weight p A = D /\ at_weight p B = R.
Proof.
  unfold at_weight. intros D c R E. apply map_eq_app in E. destruct E as (l1&l2&E1&E2&E3).
  apply map_eq_cons in E3. destruct E3 as ([w' c']&t&E3&E4&E5). subst l2. cbn in E4. subst c'.
  assert (Hin : In (w', c) (filter (fun e => fst e =? p) P)) by (rewrite E1; apply in_or_app; simpl; auto).
  apply filter_In in Hin. destruct Hin as (_&Hw). cbn in Hw. apply Z.eqb_eq in Hw. subst w'.
  destruct (filter_split _ _ _ _ _ E1) as (u&v&->&F1&F2). exists u, v. rewrite F1, F2. auto.
Qed.

Lemma at_weight_In p P c : In c (at_weight p P) <-> In (p, c) P.
Proof.
  unfold at_weight. rewrite in_map_iff. split.
  - intros ([w c']&E&H). apply filter_In in H. cbn in *. destruct H as (H&W). apply Z.eqb_eq in W. subst. auto.
  - intros H. exists (p, c). split; auto. apply filter_In. cbn. rewrite Z.eqb_refl. auto.
Qed.
Lemma at_weight_filter p f P : at_weight p (filter (fun e => f (fst e)) P) = if f p then at_weight p P else [].
Proof.
  unfold at_weight. induction P as [|[w c] P IH]; cbn; [destruct (f p); reflexivity|].
  destruct (f w) eqn:F; cbn; destruct (Z.eqb_spec w p) as [->|N]; cbn; rewrite ?IH, ?F; auto.
Qed.
Lemma at_weight_app p A B : at_weight p (A ++ B) = at_weight p A ++ at_weight p B.
Proof. unfold at_weight. rewrite filter_app, map_app. auto. Qed.

Lemma pick_from_ok maxprior keep given P q0 : qinv maxprior keep P q0 -> forall n p q,
  max_prior q = maxprior -> max_keep q = keep -> max_used q = max_used q0 -> (forall k, binv (buckets q k)) ->
  (forall k, arr_len (buckets q k) = arr_len (buckets q0 k)) ->
  (forall k, p <= k -> slice (buckets q k) = at_weight k P) ->
  (forall k, k < p -> slice (buckets q k) = []) ->
  (forall e, In e P -> fst e < p -> given (snd e) = true) ->
  0 <= p -> max_used q0 < p + Z.of_nat n ->
  exists r q' P' D, pick_from n given p q = Some (r, q') /\ picks given P r P' D /\ qinv maxprior keep P' q'.
Proof.
  intros I. induction n as [|n IH]; intros p q M K U B AL SP SL G Hp Hn.
  - cbn [pick_from]. exists None, q, [], P. split; auto.
    assert (Z0 : forall k, max_used q0 < k -> at_weight k P = []).
    { intros k Hk. rewrite <- (qi_slice _ _ _ _ I). pose proof (qi_b _ _ _ _ I k) as (X1&X2&X3). pose proof (qi_above _ _ _ _ I k Hk).
      unfold slice. replace (Z.to_nat _) with 0%nat by lia. reflexivity. }
    split.
    + constructor. intros [w c] He. apply G; auto. cbn. destruct (Z.lt_ge_cases w p); auto. exfalso.
      apply at_weight_In in He. rewrite Z0 in He by lia. destruct He.
    + split; [exact M|exact K|apply I|rewrite U; apply I|exact B| | |intros e []|intros e []].
      * intros k. unfold at_weight. cbn. destruct (Z.lt_ge_cases k p); [auto|]. rewrite SP by auto. apply Z0. lia.
      * intros k Hk. rewrite AL. apply I. lia.
  - cbn [pick_from].
    destruct (pick_bucket_ok given (S (Z.to_nat (next_free (buckets q p) - next_pick (buckets q p)))) (buckets q p) (B p) ltac:(lia))
      as (r&b'&D&E1&E2&E3&E4&E5).
    { intros c Hc. rewrite SP in Hc by lia. apply at_weight_In in Hc. apply (qi_nonnull _ _ _ _ I _ Hc). }
    rewrite E1. rewrite SP in E5 by lia. destruct r as [c|].
    + destruct E5 as (G1&E5). destruct (map_snd_split _ _ _ _ _ E5) as (A&R&EP&F1&F2).
      exists (Some c), (set_bucket q p b' (max_used q)), (behind A p R), (ahead A p R). split; auto.
      assert (Sub : forall e, In e (behind A p R) -> In e P).
      { intros e He. rewrite EP. apply in_or_app. unfold behind in He. apply in_app_or in He.
        destruct He as [He|He]; apply filter_In in He; simpl; tauto. }
      split.
      * eapply picks_some; eauto. intros [w x] He. unfold ahead in He. apply in_app_or in He.
        destruct He as [He|He]; apply filter_In in He; destruct He as (He&W); cbn in W.
        -- apply Z.leb_le in W. destruct (Z.eq_dec w p) as [->|N].
           ++ cbn. apply E4. rewrite <- F1. apply at_weight_In. auto.
           ++ apply G; cbn; [|lia]. rewrite EP. apply in_or_app. auto.
        -- apply Z.ltb_lt in W. apply G; cbn; [|lia]. rewrite EP. apply in_or_app. simpl. auto.
      * split; cbn [max_prior max_keep max_used buckets set_bucket]; [exact M|exact K|apply I|rewrite U; apply I| | | | |].
        -- intros k. destruct (Z.eqb_spec k p); auto.
        -- intros k. unfold behind. rewrite at_weight_app.
           rewrite (at_weight_filter k (fun x => p <? x)), (at_weight_filter k (fun x => p <=? x)).
           destruct (Z.eqb_spec k p) as [->|N].
           ++ rewrite Z.ltb_irrefl, Z.leb_refl. rewrite F2. reflexivity.
           ++ destruct (Z.ltb_spec p k), (Z.leb_spec p k); try lia.
              ** rewrite SP by lia. rewrite EP. rewrite at_weight_app. f_equal. unfold at_weight. cbn.
                 destruct (Z.eqb_spec p k); [lia|]. auto.
              ** rewrite SL by lia. reflexivity.
        -- intros k Hk. rewrite U in Hk. destruct (Z.eqb_spec k p) as [->|N]; [rewrite E3|]; rewrite AL; apply I; lia.
        -- intros e He. apply (qi_range _ _ _ _ I). auto.
        -- intros e He. apply (qi_nonnull _ _ _ _ I). auto.
    + destruct E5 as (E5&E6). apply (IH (p + 1) (set_bucket q p b' (max_used q))); cbn [max_prior max_keep max_used buckets set_bucket]; auto; try lia.
      * intros k. destruct (Z.eqb_spec k p); auto.
      * intros k. destruct (Z.eqb_spec k p) as [->|N]; auto. congruence.
      * intros k Hk. destruct (Z.eqb_spec k p); [lia|]. apply SP. lia.
      * intros k Hk. destruct (Z.eqb_spec k p); auto. apply SL. lia.
      * intros [w c] He Hw. cbn in Hw. destruct (Z.eq_dec w p) as [->|N].
        -- cbn. apply E4. rewrite <- E5. apply at_weight_In. auto.
        -- apply G; auto. cbn. lia.
Qed.

Lemma picks_fun given P r P' D r2 P2 D2 : picks given P r P' D -> picks given P r2 P2 D2 -> r = r2 /\ P' = P2 /\ D = D2.
Proof.
  assert (X : forall A w c B, P = A ++ (w, c) :: B -> In (w, c) P) by (intros; subst; apply in_or_app; simpl; auto).
  intros H1 H2. destruct H1 as [H1|A w c B E G H1]; destruct H2 as [H2|A2 w2 c2 B2 E2 G2 H2]; auto.
  - specialize (H1 _ (X _ _ _ _ E2)). cbn in H1. congruence.
  - specialize (H2 _ (X _ _ _ _ E)). cbn in H2. congruence.
  - assert (Y : forall (A : list entry) (w c : Z) (B A2 : list entry) (w2 c2 : Z) (B2 : list entry), A ++ (w, c) :: B = A2 ++ (w2, c2) :: B2 ->
       (exists m, A2 = A ++ (w, c) :: m /\ B = m ++ (w2, c2) :: B2) \/ (A = A2 /\ (w, c) = (w2, c2) /\ B = B2) \/
       (exists m, A = A2 ++ (w2, c2) :: m /\ B2 = m ++ (w, c) :: B)).
    { clear. intros A w c B. induction A as [|x A IH]; intros A2 w2 c2 B2 E; destruct A2 as [|y A2]; cbn in E; inversion E; subst.
      - right. left. auto.
      - left. exists A2. auto.
      - right. right. exists A. auto.
      - destruct (IH _ _ _ _ H1) as [(m&->&->)|[(->&E3&->)|(m&->&->)]].
        + left. exists m. auto.
        + right. left. auto.
        + right. right. exists m. auto. }
    rewrite E in E2. destruct (Y _ _ _ _ _ _ _ _ E2) as [(m&->&->)|[(->&E3&->)|(m&->&->)]].
    + exfalso. destruct (Z.lt_ge_cases w2 w).
      * assert (G3 : given (snd (w2, c2)) = true); [|cbn in G3; congruence]. apply H1. unfold ahead. apply in_or_app. right. apply filter_In. split; [apply in_or_app; simpl; auto|].
        cbn. apply Z.ltb_lt. auto.
      * assert (G3 : given (snd (w, c)) = true); [|cbn in G3; congruence]. apply H2. unfold ahead. apply in_or_app. left. apply filter_In. split; [apply in_or_app; simpl; auto|].
        cbn. apply Z.leb_le. auto.
    + inversion E3; subst. auto.
    + exfalso. destruct (Z.lt_ge_cases w w2).
      * assert (G3 : given (snd (w, c)) = true); [|cbn in G3; congruence]. apply H2. unfold ahead. apply in_or_app. right. apply filter_In. split; [apply in_or_app; simpl; auto|].
        cbn. apply Z.ltb_lt. auto.
      * assert (G3 : given (snd (w2, c2)) = true); [|cbn in G3; congruence]. apply H1. unfold ahead. apply in_or_app. left. apply filter_In. split; [apply in_or_app; simpl; auto|].
        cbn. apply Z.leb_le. auto.
Qed.

Lemma new_inv maxprior keep : 0 <= maxprior -> qinv maxprior keep [] (make_queue maxprior keep).
Proof.
  intros H. split; cbn; [auto|auto|auto|lia| |reflexivity|reflexivity|intros e []|intros e []].
  intros p. unfold binv. cbn. lia.
Qed.
Lemma pick_ok maxprior keep given P q : qinv maxprior keep P q ->
  exists r q' P' D, pick given q = Some (r, q') /\ picks given P r P' D /\ qinv maxprior keep P' q'.
Proof.
  intros I. unfold pick. pose proof (qi_used _ _ _ _ I). apply (pick_from_ok maxprior keep given P q I); [apply I|apply I|reflexivity|apply I|reflexivity|intros k _; apply I| | |lia|lia].
  - intros k Hk. rewrite (qi_slice _ _ _ _ I). unfold at_weight.
    destruct (filter (fun e => fst e =? k) P) as [|e l] eqn:F; auto. exfalso.
    assert (Hin : In e (filter (fun e => fst e =? k) P)) by (rewrite F; simpl; auto). apply filter_In in Hin. destruct Hin as (Hin&W).
    apply Z.eqb_eq in W. pose proof (qi_range _ _ _ _ I e Hin). lia.
  - intros e He Hw. pose proof (qi_range _ _ _ _ I e He). lia.
Qed.

Lemma qrun_inv maxprior keep Ins Out D P q : qrun maxprior keep Ins Out D P q -> qinv maxprior keep P q.
Proof.
  induction 1 as [H|Ins Out D P q ok junk c w q' R IH Hc E|Ins Out D P q given r q' P' D' R IH E K].
  - apply new_inv. auto.
  - eapply push_ok; eauto.
  - destruct (pick_ok _ _ given _ _ IH) as (r2&q2&P2&D2&E2&K2&I2). rewrite E in E2. inversion E2; subst.
    destruct (picks_fun _ _ _ _ _ _ _ _ K K2) as (_&->&_). auto.
Qed.

Lemma pick_lightest maxprior keep Ins Out D P q given : qrun maxprior keep Ins Out D P q ->
  exists r q' P' D', pick given q = Some (r, q') /\ picks given P r P' D' /\
    qrun maxprior keep Ins (match r with Some c => c :: Out | None => Out end) (D' ++ D) P' q'.
Proof.
  intros R. destruct (pick_ok _ _ given _ _ (qrun_inv _ _ _ _ _ _ _ R)) as (r&q'&P'&D'&E&K&_).
  exists r, q', P', D'. repeat split; auto. eapply q_pick; eauto.
Qed.

Lemma perm_parts A w c B : Permutation (A ++ (w, c) :: B) ((w, c) :: ahead A w B ++ behind A w B).
Proof.
  rewrite <- Permutation_middle. constructor. unfold ahead, behind.
  assert (X : forall (f g : entry -> bool) l, (forall x, f x = negb (g x)) -> Permutation l (filter f l ++ filter g l)).
  { intros f g l H. induction l as [|x l IH]; cbn; auto. rewrite H. destruct (g x); cbn.
    - rewrite <- Permutation_middle. constructor. auto.
    - constructor. auto. }
  rewrite (X (fun e => fst e <=? w) (fun e => w <? fst e) A) at 1 by (intros x; rewrite Z.leb_antisym; reflexivity).
  rewrite (X (fun e => fst e <? w) (fun e => w <=? fst e) B) at 1 by (intros x; rewrite Z.ltb_antisym; reflexivity).
  rewrite <- !app_assoc. apply Permutation_app_head. rewrite !app_assoc. apply Permutation_app_tail. apply Permutation_app_comm.
Qed.
Lemma nothing_lost maxprior keep Ins Out D P q : qrun maxprior keep Ins Out D P q ->
  Permutation (map snd Ins) (Out ++ map snd D ++ map snd P).
Proof.
  induction 1 as [H|Ins Out D P q ok junk c w q' R IH Hc E|Ins Out D P q given r q' P' D' R IH E K].
  - auto.
  - destruct (filed maxprior keep w); auto. rewrite !map_app, IH. rewrite !app_assoc. apply Permutation_refl.
  - rewrite IH. destruct K as [K|A w c B EP G K].
    + cbn. rewrite map_app, app_nil_r. apply Permutation_app_head. apply Permutation_app_comm.
    + rewrite EP. rewrite (Permutation_map snd (perm_parts A w c B)). cbn [map snd]. rewrite !map_app.
      rewrite !app_assoc. rewrite <- (Permutation_middle _ _ c).
      rewrite <- !app_assoc. cbn [app]. constructor. apply Permutation_app_head.
      rewrite !app_assoc. apply Permutation_app_tail. apply Permutation_app_comm.
Qed.
Lemma picked_order maxprior keep Ins Out D P q given c q' : qrun maxprior keep Ins Out D P q ->
  pick given q = Some (Some c, q') ->
  exists A w B, P = A ++ (w, c) :: B /\ given c = false /\
    (forall w' c', In (w', c') P -> given c' = false -> w <= w') /\
    (forall c', In (w, c') A -> given c' = true).
Proof.
  intros R E. destruct (pick_lightest _ _ _ _ _ _ _ given R) as (r&q2&P'&D'&E2&K&_). rewrite E in E2. inversion E2; subst.
  inversion K as [|A w c0 B EP G H]; subst. exists A, w, B. repeat split; auto.
  - intros w' c' Hin G'. destruct (Z.le_gt_cases w w'); auto. exfalso.
    assert (given (snd (w', c')) = true); [|cbn in *; congruence]. apply H. unfold ahead. apply in_app_or in Hin. apply in_or_app.
    destruct Hin as [Hin|[Hin|Hin]].
    + left. apply filter_In. split; auto. apply Z.leb_le. cbn. lia.
    + inversion Hin; subst. lia.
    + right. apply filter_In. split; auto. apply Z.ltb_lt. cbn. lia.
  - intros c' Hin. apply (H (w, c')). unfold ahead. apply in_or_app. left. apply filter_In. split; auto. apply Z.leb_refl.
Qed.
Lemma empty_pick maxprior keep Ins Out D P q given q' : qrun maxprior keep Ins Out D P q ->
  pick given q = Some (None, q') -> forall e, In e P -> given (snd e) = true.
Proof.
  intros R E. destruct (pick_lightest _ _ _ _ _ _ _ given R) as (r&q2&P'&D'&E2&K&_). rewrite E in E2. inversion E2; subst.
  inversion K; subst. auto.
Qed.
