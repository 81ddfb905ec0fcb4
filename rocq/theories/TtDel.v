(** The T-tree index: removing a row, searching. *)
From Coq Require Import List ZArith Bool Lia Sorted.
From Verif Require Import TtModel TtSpec TtProof TtShape TtChain TtSeek TtAdd.
Import ListNotations.
Open Scope Z_scope.

Section D.
Context {K : Type}.
Variable cmp : K -> K -> comparison.
Variable key : Z -> K.
Hypothesis TO : total_order cmp.
Notation le := (fun a b => cmp (key a) (key b) <> Gt).
Notation srt := (sorted cmp key).
Notation wfc := (wfc key). Notation below := (below cmp). Notation above := (above cmp).
Notation field := (field K key). Notation inv := (inv cmp key).

(* ---- the parent's link ---- *)
Lemma at_parent_notin j b (t : tree K) : ~ In j (ids t) -> at_parent K j b t = t.
Proof.
  induction t as [|c lh rh l IHl r IHr]; [reflexivity|]. rewrite ids_N, in_app_iff. cbn [In at_parent]. intro H.
  rewrite !is_root_no by tauto. now rewrite IHl, IHr by tauto.
Qed.
Lemma upd_notin j f (t : tree K) : ~ In j (ids t) -> upd K j f t = t.
Proof.
  induction t as [|c lh rh l IHl r IHr]; [reflexivity|]. rewrite ids_N, in_app_iff. cbn [In upd]. intro H.
  destruct (Z.eqb_spec (cid c) j); [tauto|]. now rewrite IHl, IHr by tauto.
Qed.
Lemma drop_notin b j (t : tree K) : ~ In j (ids t) -> drop_child K b j t = t.
Proof.
  induction t as [|c lh rh l IHl r IHr]; [reflexivity|]. rewrite ids_N, in_app_iff. cbn [In drop_child]. intro H.
  destruct (Z.eqb_spec (cid c) j); [tauto|]. now rewrite IHl, IHr by tauto.
Qed.
Lemma at_parent_cut j (t : tree K) : at_parent K j true t = put j E t.
Proof. induction t as [|c lh rh l IHl r IHr]; [reflexivity|]. cbn [at_parent put levels]. now rewrite IHl, IHr. Qed.
Definition dropped (left : bool) (f : cell K -> cell K) (u : tree K) : tree K :=
  match u with
  | E => E
  | N c lh rh l r => if left then N (f c) 0 rh E r else N (f c) lh 0 l E
  end.
Lemma drop_root left f c lh rh (l r : tree K) : keeps f -> NoDup (ids (N c lh rh l r)) ->
  drop_child K left (cid c) (upd K (cid c) f (N c lh rh l r)) = dropped left f (N c lh rh l r).
Proof.
  intros Kf Hn. destruct (nd_N _ _ _ _ _ Hn) as (_ & _ & H1 & H2 & _). cbn [upd drop_child]. rewrite Z.eqb_refl, Kf, Z.eqb_refl.
  rewrite !upd_notin by assumption. reflexivity.
Qed.
Lemma root_drop left f j (t : tree K) : keeps f -> is_root K j (drop_child K left j (upd K j f t)) = is_root K j t.
Proof.
  intro Kf. destruct t as [|c lh rh l r]; [reflexivity|]. cbn [upd drop_child is_root]. destruct (Z.eqb_spec (cid c) j) as [Ec|Ec].
  - rewrite Kf. destruct (Z.eqb_spec (cid c) j); [|contradiction]. destruct left; cbn [is_root]; rewrite Kf; now apply Z.eqb_eq.
  - destruct (Z.eqb_spec (cid c) j); [contradiction|]. cbn [is_root]. now apply Z.eqb_neq.
Qed.
Lemma at_parent_drop left f j (t old : tree K) : keeps f -> NoDup (ids t) -> find K j t = Some old -> is_root K j t = false -> levels (dropped left f old) = 1 ->
  at_parent K j false (drop_child K left j (upd K j f t)) = put j (dropped left f old) t.
Proof.
  intro Kf. induction t as [|c lh rh l IHl r IHr]; intros Hn Hf Hr Hlv; [discriminate|].
  pose proof (nd_N _ _ _ _ _ Hn) as (Hnl & Hnr & H1 & H2 & H3). pose proof (find_in _ _ _ Hf) as Hi. rewrite ids_N, in_app_iff in Hi. cbn [In] in Hi.
  cbn [is_root] in Hr. cbn [upd]. rewrite Hr. cbn [drop_child]. rewrite Hr. cbn [at_parent put]. rewrite !root_drop by exact Kf. apply Z.eqb_neq in Hr.
  assert (ROOT : forall v, is_root K j v = true -> NoDup (ids v) -> find K j v = Some old -> drop_child K left j (upd K j f v) = dropped left f old).
  { intros v Rv Nv Fv. pose proof (root_find _ _ _ Rv Fv) as ->. destruct v as [|d a b v1 v2]; [discriminate|]. cbn [is_root] in Rv. apply Z.eqb_eq in Rv. subst j. now apply drop_root. }
  destruct (is_root K j l) eqn:Rl.
  - pose proof (is_root_in _ _ Rl) as Hjl. rewrite find_l in Hf by assumption. rewrite (ROOT l) by assumption. rewrite (upd_notin j f r), drop_notin by auto. now rewrite Hlv.
  - destruct (is_root K j r) eqn:Rr.
    + pose proof (is_root_in _ _ Rr) as Hjr. rewrite find_r in Hf by assumption. rewrite (ROOT r) by assumption. rewrite (upd_notin j f l), drop_notin by (intro Q; exact (H3 j Q Hjr)). now rewrite Hlv.
    + destruct Hi as [Hi|[Hi|Hi]]; [|contradiction|].
      * rewrite find_l in Hf by assumption. rewrite (upd_notin j f r), (drop_notin left j r), (at_parent_notin j false r), (put_notin key j _ r) by auto. now rewrite IHl.
      * assert (Hil : ~ In j (ids l)) by (intro Q; exact (H3 j Q Hi)). rewrite find_r in Hf by assumption.
        rewrite (upd_notin j f l), (drop_notin left j l), (at_parent_notin j false l), (put_notin key j _ l) by auto. now rewrite IHr.
Qed.
Lemma levels_find j (t old : tree K) : find K j t = Some old -> levels old <= levels t /\ (is_root K j t = false -> levels old + 1 <= levels t).
Proof.
  induction t as [|c lh rh l IHl r IHr]; [discriminate|]. cbn [find is_root levels]. destruct (Z.eqb_spec (cid c) j).
  - intro H. injection H as <-. cbn [levels]. split; [lia|discriminate].
  - destruct (find K j l) as [v|] eqn:E1; intro H; [injection H as ->; destruct (IHl eq_refl)|destruct (IHr H)]; lia.
Qed.

Definition kept (x y : ix K) : Prop := inv y /\ rows (tr y) = rows (tr x) /\ incl (ids (tr y)) (ids (tr x)).
Lemma drop_ok x j c lh rh l r u X d Y : let old := N c lh rh l r in
  avl (tr x) -> NoDup (ids (tr x)) -> ~ In 0 (ids (tr x)) -> srt (flat (cells (tr x))) -> chain (ids (tr x)) x ->
  find K j (tr x) = Some old -> is_root K j (tr x) = false -> (forall e, In e (cells (tr x)) -> cid e <> j -> wfc e) ->
  avl u -> levels u = levels old - 1 -> cells old = X ++ d :: Y -> map cid (cells u) = map cid (X ++ Y) -> flat (cells u) = flat (X ++ d :: Y) -> Forall wfc (cells u) ->
  exists y, rebalance K key (parent_of K j (tr x)) (unlink K (cid d) (with_tree K (put j u (tr x)) x)) = Some (y, 0) /\ kept x y.
Proof.
  intros old Ha Hn H0 Hs Hc Hf Hr Hw Au Hlv HX HI HF HW.
  destruct (put_ok key j u old (tr x) Ha Hn Hf Hr Au Hlv) as (p & t' & P1 & P2 & P3 & (P4 & P5 & P6) & P7).
  destruct (cells_put key j u old (tr x) Hn Hf Hr) as (A & B & C1 & C2).
  rewrite P1. unfold rebalance. cbn [tr unlink with_tree]. rewrite P2. eexists. split; [reflexivity|].
  assert (IDX : ids (tr x) = (map cid A ++ map cid X) ++ cid d :: (map cid Y ++ map cid B)).
  { unfold ids. rewrite C1, HX, !map_app. cbn [map]. rewrite map_app || idtac. rewrite <- !app_assoc. reflexivity. }
  assert (IDY : ids t' = (map cid A ++ map cid X) ++ (map cid Y ++ map cid B)).
  { unfold ids. rewrite <- P4, C2, !map_app, HI, map_app, <- !app_assoc. reflexivity. }
  assert (FL : flat (cells t') = flat (cells (tr x))). { rewrite <- P5, C1, C2, !flat_app, HF, HX. reflexivity. }
  assert (Hj : In j (map cid (cells old))). { destruct (find_node _ _ _ Hf) as (c0 & a & b & l0 & r0 & Q & Hcid). fold (ids old). unfold old in *. injection Q as <- <- <- <- <-. rewrite ids_N, <- Hcid. apply in_elt. }
  rewrite IDX in Hn, H0, Hc.
  split; [constructor; cbn [tr with_tree]|split].
  - exact P3.
  - rewrite IDY. now apply nd_mid in Hn.
  - rewrite IDY. rewrite !in_app_iff in *. cbn [In] in H0. rewrite in_app_iff in H0. tauto.
  - right. split.
    + intros ->. cbn [levels] in P7. pose proof (levels_find _ _ _ Hf) as [_ Q]. specialize (Q Hr). unfold old in Q. cbn [levels] in Q. pose proof (levels_nonneg l). pose proof (levels_nonneg r). lia.
    + apply P6. rewrite C2. apply Forall_app. split; [|apply Forall_app; split; [exact HW|]]; apply Forall_forall; intros e He; apply Hw.
      * rewrite C1. apply in_app_iff. auto.
      * intro Q. rewrite <- IDX in Hn. unfold ids in Hn. rewrite C1, map_app in Hn. apply in_split in Hj. destruct Hj as (U & V & EU).
        rewrite map_app, EU, <- app_assoc, app_assoc in Hn. cbn [List.app] in Hn. apply nd_mid in Hn. destruct Hn as (N1 & _). apply N1. apply in_app_iff. left. rewrite <- Q. now apply in_map.
      * rewrite C1. rewrite !in_app_iff. auto.
      * intro Q. rewrite <- IDX in Hn. unfold ids in Hn. rewrite C1, map_app in Hn. apply in_split in Hj. destruct Hj as (U & V & EU).
        rewrite map_app, EU, <- app_assoc, app_assoc in Hn. cbn [List.app] in Hn. apply nd_mid in Hn. destruct Hn as (_ & N1 & _). apply N1. apply in_app_iff. right. rewrite <- Q. now apply in_map.
  - rewrite FL. exact Hs.
  - rewrite IDY. apply chain_tree. apply unlink_ok; assumption.
  - rewrite !rows_flat. cbn [tr with_tree]. exact FL.
  - cbn [tr with_tree]. rewrite IDX, IDY. intros i Hi. rewrite in_app_iff in *. cbn [In]. tauto.
Qed.

Lemma merge_left_ok d c : wfc d -> wfc c \/ els c = [] -> (length (els c) + length (els d) <= node_size)%nat -> wfc (merge_left K d c).
Proof.
  intros [D1 D2 D3 D4] Wc Hl. constructor; cbn [merge_left els mn mx].
  - destruct (els d); [contradiction|discriminate].
  - rewrite app_length. lia.
  - rewrite D3. destruct (els d); [contradiction|reflexivity].
  - destruct Wc as [[C1 C2 C3 C4]|Ec]; [|rewrite Ec, app_nil_r; exact D4].
    destruct (Nat.eqb_spec (length (els c)) 0) as [E0|]; [apply length_zero_iff_nil in E0; contradiction|]. now rewrite last_error_app.
Qed.
Lemma merge_right_ok d c : wfc d -> wfc c \/ els c = [] -> (length (els c) + length (els d) <= node_size)%nat -> wfc (merge_right K d c).
Proof.
  intros [D1 D2 D3 D4] Wc Hl. constructor; cbn [merge_right els mn mx].
  - intro Q. apply app_eq_nil in Q. tauto.
  - rewrite app_length. lia.
  - destruct Wc as [[C1 C2 C3 C4]|Ec]; [|rewrite Ec; exact D3].
    destruct (Nat.eqb_spec (length (els c)) 0) as [E0|]; [apply length_zero_iff_nil in E0; contradiction|]. rewrite C3. destruct (els c); [contradiction|reflexivity].
  - rewrite last_error_app by exact D1. exact D4.
Qed.

Lemma shrink_ok x j c lh rh l r :
  avl (tr x) -> NoDup (ids (tr x)) -> ~ In 0 (ids (tr x)) -> srt (flat (cells (tr x))) -> chain (ids (tr x)) x ->
  find K j (tr x) = Some (N c lh rh l r) -> (forall e, In e (cells (tr x)) -> cid e <> j -> wfc e) -> wfc c \/ els c = [] -> (l <> E -> r <> E -> wfc c) ->
  exists y, shrink K key j x = Some (y, 0) /\ kept x y.
Proof.
  intros Ha Hn H0 Hs Hc Hf Hw Hwc Hlr.
  destruct (find_node _ _ _ Hf) as (c0 & a0 & b0 & l0 & r0 & Q & Hcid). injection Q as <- <- <- <- <-.
  destruct (find_split _ _ _ Hf) as (X & Y & HX). cbn [cells] in HX.
  assert (SAME : wfc c -> kept x x).
  { intro Wc. split; [|split; [reflexivity|apply incl_refl]]. constructor; auto. right. split; [intro Q; rewrite Q in Hf; discriminate|].
    apply Forall_forall. intros e He. destruct (Z.eq_dec (cid e) j) as [Ee|Ne]; [|auto].
    destruct (find_cell e (tr x) Hn He) as (a & b & l2 & r2 & Fe). rewrite Ee, Hf in Fe. injection Fe as <- _ _ _ _. exact Wc. }
  pose proof (find_avl _ _ _ Ha Hf) as Av. cbn [avl] in Av. destruct Av as (-> & -> & Bal & Al & Ar).
  unfold shrink. rewrite Hf. destruct l as [|d dl dr l1 l2]; destruct r as [|e el er r1 r2].
  - destruct (Nat.eqb_spec (length (els c)) 0) as [E0|N0].
    + apply length_zero_iff_nil in E0. destruct (Z.eqb_spec (root_id K (tr x)) j) as [Er|Nr].
      * assert (Et : tr x = N c 0 0 E E).
        { destruct (tr x) as [|c2 a b l2 r2] eqn:Et; [discriminate|]. cbn [root_id] in Er. cbn [find] in Hf. rewrite Er, Z.eqb_refl in Hf. injection Hf as -> -> -> -> ->. reflexivity. }
        eexists. split; [reflexivity|]. cbn [unlink tr]. rewrite Et in *. cbn [upd cells List.app] in *. rewrite Hcid, Z.eqb_refl.
        destruct Hc as (Hc & Hm1 & Hm2). cbn in Hc, Hm1, Hm2. rewrite Hcid in *. destruct Hc as (Hp & Hsu & _).
        split; [constructor; cbn [tr with_tree]|split].
        -- cbn. repeat split; lia.
        -- cbn. constructor; [tauto|constructor].
        -- unfold ids in *. cbn in *. rewrite Hcid in *. exact H0.
        -- left. eexists. split; [reflexivity|]. cbn. auto.
        -- cbn. rewrite E0. constructor.
        -- unfold chain. cbn. rewrite ?Hcid, Hp, Hsu. cbn. rewrite ?Hp, ?Hsu. auto.
        -- cbn. rewrite Et. reflexivity.
        -- cbn [tr]. rewrite Et. unfold ids. cbn. rewrite Hcid. apply incl_refl.
      * assert (Hr : is_root K j (tr x) = false). { destruct (tr x) as [|c2 a b l2 r2]; [reflexivity|]. cbn in *. now apply Z.eqb_neq. }
        rewrite at_parent_cut. replace (unlink K j) with (unlink K (cid c)) by now rewrite Hcid. apply (drop_ok x j c 0 0 E E E [] c []); auto; try reflexivity.
        -- cbn. rewrite E0. reflexivity.
        -- constructor.
    + eexists. split; [reflexivity|]. apply SAME. destruct Hwc as [|Q]; [assumption|]. rewrite Q in N0. contradiction.
  - cbn [avl] in Ar. destruct Ar as (-> & -> & Bal2 & A1 & A2). cbn [levels] in Bal. pose proof (levels_nonneg r1). pose proof (levels_nonneg r2).
    assert (Z1 : levels r1 = 0) by lia. assert (Z2 : levels r2 = 0) by lia. rewrite Z1, Z2. cbn [Z.eqb andb negb].
    apply levels_0 in Z1, Z2. subst r1 r2. destruct (Nat.leb_spec (length (els c) + length (els e)) node_size) as [Hle|Hgt].
    + assert (Ie : In e (cells (tr x))) by (rewrite HX; apply in_app_iff; right; cbn; auto).
      assert (Ne : cid e <> j). { intro Q. unfold ids in Hn. rewrite HX, map_app in Hn. cbn in Hn. apply NoDup_app_r in Hn. inversion Hn as [|? ? Hx _]; subst. apply Hx. left. auto. }
      assert (We : wfc e) by auto. assert (Wm : wfc (merge_right K e c)) by now apply merge_right_ok.
      assert (Km : keeps (merge_right K e)) by (intro; reflexivity).
      destruct (is_root K j (tr x)) eqn:Hr.
      * pose proof (root_find _ _ _ Hr Hf) as Et. symmetry in Et.
        assert (Nj : NoDup (ids (tr x))) by exact Hn. rewrite Et in Nj |- *. rewrite <- Hcid. rewrite (drop_root false _ c) by assumption. cbn [dropped].
        cbn [at_parent is_root parent_of]. destruct (Z.eqb_spec (cid e) (cid c)); [congruence|]. cbn [orb]. unfold rebalance. eexists. split; [reflexivity|].
        rewrite Et in HX, H0, Hs, Hc, Hn. cbn [cells List.app] in *.
        assert (FF : flat [merge_right K e c] = flat [c; e]) by (cbn; now rewrite !app_nil_r).
        split; [constructor; cbn [tr unlink with_tree]|split].
        -- cbn. repeat split; lia.
        -- cbn. constructor; [tauto|constructor].
        -- unfold ids in *. cbn in *. tauto.
        -- right. split; [discriminate|]. cbn. auto.
        -- cbn [cells List.app levels]. rewrite FF. exact Hs.
        -- change (ids (N (merge_right K e c) (levels (@E K)) 0 E E)) with ([cid c] ++ []). apply (unlink_ok [cid c] (cid e) []); assumption.
        -- rewrite !rows_flat. cbn [tr unlink with_tree]. rewrite Et. exact FF.
        -- cbn [tr unlink with_tree]. rewrite Et. unfold ids. cbn. intros i Hi. cbn in *. tauto.
      * rewrite (at_parent_drop false _ j (tr x) _ Km Hn Hf Hr) by reflexivity.
        apply (drop_ok x j c (levels (@E K)) (levels (N e (levels (@E K)) (levels (@E K)) E E)) E (N e (levels (@E K)) (levels (@E K)) E E) _ [c] e []); auto; try reflexivity.
        -- cbn. repeat split; lia.
        -- cbn. now rewrite !app_nil_r.
        -- cbn. auto.
    + eexists. split; [reflexivity|]. apply SAME. destruct Hwc as [|Q]; [assumption|]. rewrite Q in Hgt. cbn in Hgt.
      assert (Ie : In e (cells (tr x))) by (rewrite HX; apply in_app_iff; right; cbn; auto).
      assert (Ne : cid e <> j). { intro Q2. unfold ids in Hn. rewrite HX, map_app in Hn. cbn in Hn. apply NoDup_app_r in Hn. inversion Hn as [|? ? Hx _]; subst. apply Hx. left. auto. }
      pose proof (w_sz _ _ (Hw e Ie Ne)). lia.
  - cbn [avl] in Al. destruct Al as (-> & -> & Bal2 & A1 & A2). cbn [levels] in Bal. pose proof (levels_nonneg l1). pose proof (levels_nonneg l2).
    assert (Z1 : levels l1 = 0) by lia. assert (Z2 : levels l2 = 0) by lia. rewrite Z1, Z2. cbn [Z.eqb andb negb].
    apply levels_0 in Z1, Z2. subst l1 l2. destruct (Nat.leb_spec (length (els c) + length (els d)) node_size) as [Hle|Hgt].
    + assert (Ie : In d (cells (tr x))) by (rewrite HX; apply in_app_iff; right; cbn; auto).
      assert (Ne : cid d <> j). { intro Q. unfold ids in Hn. rewrite HX, map_app in Hn. cbn in Hn. apply NoDup_app_r in Hn. inversion Hn as [|? ? Hx _]; subst. apply Hx. left. congruence. }
      assert (We : wfc d) by auto. assert (Wm : wfc (merge_left K d c)) by now apply merge_left_ok.
      assert (Km : keeps (merge_left K d)) by (intro; reflexivity).
      destruct (is_root K j (tr x)) eqn:Hr.
      * pose proof (root_find _ _ _ Hr Hf) as Et. symmetry in Et.
        assert (Nj : NoDup (ids (tr x))) by exact Hn. rewrite Et in Nj |- *. rewrite <- Hcid. rewrite (drop_root true _ c) by assumption. cbn [dropped].
        cbn [at_parent is_root parent_of]. destruct (Z.eqb_spec (cid d) (cid c)); [congruence|]. cbn [orb]. unfold rebalance. eexists. split; [reflexivity|].
        rewrite Et in HX, H0, Hs, Hc, Hn. cbn [cells List.app] in *.
        assert (FF : flat [merge_left K d c] = flat [d; c]) by (cbn; now rewrite !app_nil_r).
        split; [constructor; cbn [tr unlink with_tree]|split].
        -- cbn. repeat split; lia.
        -- cbn. constructor; [tauto|constructor].
        -- unfold ids in *. cbn in *. tauto.
        -- right. split; [discriminate|]. cbn. auto.
        -- cbn [cells List.app levels]. rewrite FF. exact Hs.
        -- change (ids (N (merge_left K d c) 0 (levels (@E K)) E E)) with ([] ++ [cid c]). apply (unlink_ok [] (cid d) [cid c]); assumption.
        -- rewrite !rows_flat. cbn [tr unlink with_tree]. rewrite Et. exact FF.
        -- cbn [tr unlink with_tree]. rewrite Et. unfold ids. cbn. intros i Hi. cbn in *. tauto.
      * rewrite (at_parent_drop true _ j (tr x) _ Km Hn Hf Hr) by reflexivity.
        apply (drop_ok x j c (levels (N d (levels (@E K)) (levels (@E K)) E E)) (levels (@E K)) (N d (levels (@E K)) (levels (@E K)) E E) E _ [] d [c]); auto; try reflexivity.
        -- cbn. repeat split; lia.
        -- cbn. now rewrite !app_nil_r.
        -- cbn. auto.
    + eexists. split; [reflexivity|]. apply SAME. destruct Hwc as [|Q]; [assumption|]. rewrite Q in Hgt. cbn in Hgt.
      assert (Ie : In d (cells (tr x))) by (rewrite HX; apply in_app_iff; right; cbn; auto).
      assert (Ne : cid d <> j). { intro Q2. unfold ids in Hn. rewrite HX, map_app in Hn. cbn in Hn. apply NoDup_app_r in Hn. inversion Hn as [|? ? Hx _]; subst. apply Hx. left. congruence. }
      pose proof (w_sz _ _ (Hw d Ie Ne)). lia.
  - eexists. split; [reflexivity|]. apply SAME. apply Hlr; discriminate.
Qed.

(* ---- finding the node ---- *)
Lemma locate x k here : inv x -> (forall c, here c = true -> exists e, In e (els c) /\ cmp (key e) k = Eq) ->
  (exists bd b, leftmost K cmp k (tr x) None = Some (bd, b) /\ bd <> Bounding /\ forall c, In c (cells (tr x)) -> here c = false) \/
  (exists b res, leftmost K cmp k (tr x) None = Some (Bounding, b) /\ scan K cmp (count K (tr x)) here x k b = Some res /\
     match res with Some c => In c (cells (tr x)) /\ here c = true | None => forall c, In c (cells (tr x)) -> here c = false end).
Proof.
  intros [I1 I2 I3 I4 I5 I6] Hh. destruct (shape_sorted _ _ _ I4 I5) as (Hne & Smn & Smx).
  assert (MID : forall c, In c (cells (tr x)) -> here c = true -> below k c = false /\ above k c = false).
  { intros c Hc H. destruct (Hh c H) as (e & He & Ek). assert (W : wfc c).
    { destruct I4 as [(c0 & Et & Ee & _)|[_ W]]; [|rewrite Forall_forall in W; auto]. rewrite Et in Hc. cbn in Hc. destruct Hc as [<-|[]]. rewrite Ee in He. destruct He. }
    assert (Sc : srt (els c)). { apply in_split in Hc. destruct Hc as (X & Y & EX). rewrite EX, flat_app, flat_cons in I5. apply srt_app in I5. destruct I5 as (_ & I5 & _). apply srt_app in I5. tauto. }
    split.
    - destruct (below k c) eqn:Eb; [|reflexivity]. pose proof (below_els cmp key TO k c e W Sc Eb He) as Q. rewrite (c_flip cmp TO), Ek in Q. discriminate.
    - destruct (above k c) eqn:Eb; [|reflexivity]. pose proof (above_els cmp key TO k c e W Sc Eb He) as Q. rewrite Ek in Q. discriminate. }
  destruct (leftmost_ok cmp TO k (tr x) [] [] None Hne I2 Smx ltac:(auto) ltac:(discriminate) ltac:(constructor)) as (bd & A & c & B & R1 & R2 & R3 & R4).
  cbn [List.app] in R2. rewrite app_nil_r in R2. rewrite Forall_forall in R3.
  assert (NA : forall d, In d A -> here d = false).
  { intros d Hd. destruct (here d) eqn:Ed; [|reflexivity]. destruct (MID d) as [_ Q]; [rewrite R2; apply in_app_iff; auto|exact Ed|]. rewrite (R3 d Hd) in Q. discriminate. }
  rewrite R2 in Smn. apply ss_app in Smn. destruct Smn as (_ & Smn & _). apply StronglySorted_inv in Smn. destruct Smn as [SB Scb]. rewrite Forall_forall in Scb.
  assert (NB : forall d, In d (cells (tr x)) -> below k d = true \/ above k d = true -> here d = false).
  { intros d Hd Q. destruct (here d) eqn:Ed; [|reflexivity]. destruct (MID d Hd Ed) as [Q1 Q2]. rewrite Q1, Q2 in Q. destruct Q; discriminate. }
  destruct bd.
  - right. destruct R4 as [R4 R5].
    assert (Smn' : StronglySorted (mn_le cmp) (cells (tr x))) by (destruct (shape_sorted _ _ _ I4 I5) as (_ & Q & _); exact Q).
    destruct (scan_ok cmp key TO here x k I2 I3 I6 Smn' B A c (count K (tr x)) R2) as (res & Q1 & Q2).
    { rewrite count_cells, R2, app_length. cbn. lia. }
    exists (cid c), res. split; [exact R1|]. split; [exact Q1|]. destruct res as [d|].
    + destruct Q2 as [Q2 Q3]. split; [rewrite R2; apply in_app_iff; auto|exact Q3].
    + intros d Hd. rewrite R2 in Hd. apply in_app_iff in Hd. destruct Hd as [Hd|Hd]; [auto|]. destruct (here d) eqn:Ed; [|reflexivity].
      specialize (Q2 d Hd Ed). destruct (MID d) as [Q4 _]; [rewrite R2; apply in_app_iff; auto|exact Ed|]. exfalso.
      unfold TtSeek.below in Q4. apply gt_true in Q2. destruct (mn d) as [a|]; cbn in Q2, Q4; [|discriminate]. apply (gt_lt cmp TO) in Q2. rewrite Q2 in Q4. discriminate.
  - left. exists DeadLeft, (cid c). split; [exact R1|]. split; [discriminate|]. destruct R4 as [_ R4]. intros d Hd. pose proof Hd as Hd'. rewrite R2 in Hd. apply in_app_iff in Hd.
    destruct Hd as [Hd|[<-|Hd]]; [auto|apply NB; auto|]. apply NB; [exact Hd'|]. left. eapply (below_up cmp TO); [apply Scb; exact Hd|exact R4].
  - left. exists DeadRight, (cid c). split; [exact R1|]. split; [discriminate|]. destruct R4 as [R4 R5]. intros d Hd. pose proof Hd as Hd'. rewrite R2 in Hd. apply in_app_iff in Hd.
    destruct Hd as [Hd|[<-|Hd]]; [auto|apply NB; auto|]. apply NB; [exact Hd'|]. left. destruct R5 as [->|(e & B2 & -> & Eb)]; [destruct Hd|].
    destruct Hd as [<-|Hd]; [exact Eb|]. apply StronglySorted_inv in SB. destruct SB as [_ SB]. rewrite Forall_forall in SB. eapply (below_up cmp TO); [apply SB; exact Hd|exact Eb].
Qed.

(* ---- ttree_remove_row ---- *)
Lemma index_of_ok r l : In r l -> exists X Y, l = X ++ r :: Y /\ index_of r l = length X.
Proof.
  induction l as [|e l IH]; intro H; [destruct H|]. cbn [index_of]. destruct (Z.eqb_spec e r) as [->|Ne]; [exists [], l; auto|].
  destruct H as [H|H]; [contradiction|]. destruct (IH H) as (X & Y & -> & ->). exists (e :: X), Y. auto.
Qed.
Lemma del_at_ok r c : In r (els c) -> exists X Y, els c = X ++ r :: Y /\ els (del_at K key r c) = X ++ Y /\ (wfc c -> X ++ Y <> [] -> wfc (del_at K key r c)).
Proof.
  intro H. destruct (index_of_ok r (els c) H) as (X & Y & E1 & E2). exists X, Y. split; [exact E1|]. unfold del_at. rewrite E2.
  assert (EF : firstn (length X) (els c) ++ skipn (S (length X)) (els c) = X ++ Y).
  { rewrite E1. rewrite firstn_app, firstn_all, Nat.sub_diag. cbn [firstn]. rewrite app_nil_r. f_equal.
    change (X ++ r :: Y) with (X ++ [r] ++ Y). rewrite app_assoc, skipn_app, skipn_all2 by (rewrite app_length; cbn; lia). rewrite app_length. cbn [length].
    replace (S (length X) - (length X + 1))%nat with O by lia. reflexivity. }
  cbv zeta. rewrite EF. cbn [els]. split; [reflexivity|]. intros [W1 W2 W3 W4] Hne. constructor; cbn [els mn mx].
  - exact Hne.
  - rewrite E1 in W2. rewrite app_length in *. cbn [length] in W2. lia.
  - rewrite W3, E1. destruct X as [|x0 X]; [|cbn [List.app hd_error length]; rewrite app_length; destruct (_ && _); reflexivity].
    cbn [List.app length Nat.eqb] in *. destruct Y as [|y Y]; [contradiction|]. cbn [length Nat.eqb negb andb]. reflexivity.
  - destruct (Nat.eqb_spec (length X) (length (X ++ Y))) as [El|Nl].
    + assert (Y = []) as -> by (rewrite app_length in El; destruct Y; [reflexivity|cbn in El; lia]). rewrite app_nil_r in *.
      destruct (Nat.eqb_spec (length X) 0) as [Q|_]; [apply length_zero_iff_nil in Q; contradiction|]. reflexivity.
    + cbn [andb]. rewrite W4, E1. assert (Y <> []) by (intros ->; rewrite app_nil_r in Nl; contradiction).
      change (X ++ r :: Y) with (X ++ [r] ++ Y). rewrite app_assoc, !last_error_app by assumption. reflexivity.
Qed.
Lemma has_row_in r c : has_row K r c = true <-> In r (els c).
Proof. unfold has_row. rewrite existsb_exists. split; [intros (e & H1 & H2); apply Z.eqb_eq in H2; now subst|intro H; exists r; split; [exact H|apply Z.eqb_refl]]. Qed.
Definition removed (x y : ix K) (r : Z) : Prop :=
  (exists L R, rows (tr x) = L ++ r :: R /\ rows (tr y) = L ++ R) /\ incl (ids (tr y)) (ids (tr x)).
Theorem remove_absent x r : inv x -> ~ In r (rows (tr x)) -> exists e, remove_row K cmp key x r = Some (x, e) /\ (e = -2 \/ e = -3).
Proof.
  intros Hinv Hr. unfold remove_row. destruct (locate x (key r) (has_row K r) Hinv) as [(bd & b & L1 & L2 & _)|(b & res & L1 & L2 & L3)].
  - intros c Hc. exists r. rewrite has_row_in in Hc. split; [exact Hc|apply (c_refl cmp TO)].
  - rewrite L1. destruct bd; [contradiction| |]; eauto.
  - rewrite L1, L2. destruct res as [c|]; [|eauto]. destruct L3 as [L3 L4]. apply has_row_in in L4. exfalso. apply Hr. rewrite rows_flat. apply in_flat. eauto.
Qed.
Theorem remove_ok x r : inv x -> In r (rows (tr x)) -> exists y, remove_row K cmp key x r = Some (y, 0) /\ inv y /\ removed x y r.
Proof.
  intros Hinv Hr. pose proof Hinv as [I1 I2 I3 I4 I5 I6]. rewrite rows_flat in Hr. apply in_flat in Hr. destruct Hr as (c0 & Hc0 & Hr0).
  unfold remove_row. destruct (locate x (key r) (has_row K r) Hinv) as [(bd & b & _ & _ & L3)|(b & res & L1 & L2 & L3)].
  { intros c Hc. exists r. rewrite has_row_in in Hc. split; [exact Hc|apply (c_refl cmp TO)]. }
  { specialize (L3 c0 Hc0). apply has_row_in in Hr0. congruence. }
  rewrite L1, L2. destruct res as [c|]; [|specialize (L3 c0 Hc0); apply has_row_in in Hr0; congruence]. destruct L3 as [Hc Hh]. apply has_row_in in Hh. clear c0 Hc0 Hr0 L1 L2 b.
  assert (HW : Forall wfc (cells (tr x))). { destruct I4 as [(c0 & Et & Ee & _)|[_ W]]; [|exact W]. rewrite Et in Hc. cbn in Hc. destruct Hc as [<-|[]]. rewrite Ee in Hh. destruct Hh. }
  rewrite Forall_forall in HW. pose proof (HW c Hc) as Wc.
  destruct (del_at_ok r c Hh) as (X & Y & E1 & E2 & E3). specialize (E3 Wc). set (c1 := del_at K key r c) in *.
  assert (Id1 : cid c1 = cid c) by reflexivity.
  assert (Kd : keeps (del_at K key r)) by (intro; reflexivity).
  set (t1 := upd K (cid c) (del_at K key r) (tr x)). cbv zeta.
  destruct (find_cell c (tr x) I2 Hc) as (lh & rh & l & rr & Fc).
  assert (Nn : NoDup (ids (N c lh rh l rr))).
  { destruct (find_split _ _ _ Fc) as (U & V & EU). unfold ids in I2. rewrite EU, !map_app in I2. apply NoDup_app_r in I2. apply NoDup_app_l in I2. exact I2. }
  destruct (nd_N _ _ _ _ _ Nn) as (_ & _ & Q1 & Q2 & _).
  assert (F1 : find K (cid c) t1 = Some (N c1 lh rh l rr)).
  { unfold t1. rewrite find_upd, Fc by exact Kd. cbn [option_map upd]. rewrite Z.eqb_refl, !upd_notin by assumption. reflexivity. }
  rewrite F1. destruct (in_split _ _ Hc) as (A & B & EC).
  assert (C1 : cells t1 = A ++ c1 :: B) by (unfold t1; now apply cells_at).
  assert (ID1 : ids t1 = ids (tr x)) by now apply ids_upd.
  assert (A1 : avl t1) by now apply avl_upd.
  assert (FX : rows (tr x) = (flat A ++ X) ++ r :: Y ++ flat B) by (rewrite rows_flat, EC, flat_app, flat_cons, E1, <- !app_assoc; reflexivity).
  assert (FY : flat (cells t1) = (flat A ++ X) ++ Y ++ flat B) by (rewrite C1, flat_app, flat_cons, E2, <- !app_assoc; reflexivity).
  assert (SY : srt ((flat A ++ X) ++ Y ++ flat B)) by (eapply srt_delete; rewrite <- FX, rows_flat; exact I5).
  assert (W1 : wfc c1 \/ els c1 = []). { rewrite E2. destruct (X ++ Y); [now right|left; apply E3; discriminate]. }
  assert (OTH : forall e, In e (A ++ B) -> wfc e) by (intros e He; apply HW; rewrite EC; rewrite in_app_iff in *; cbn; tauto).
  assert (HN : NoDup (map cid (A ++ c :: B))) by (unfold ids in I2; now rewrite EC in I2).
  assert (OUT : forall y0 y, rows (tr y0) = (flat A ++ X) ++ Y ++ flat B -> ids (tr y0) = ids (tr x) -> kept y0 y -> inv y /\ removed x y r).
  { intros y0 y R1 R2 (K1 & K2 & K3). split; [exact K1|]. split; [|rewrite <- R2; exact K3]. exists (flat A ++ X), (Y ++ flat B). split; [exact FX|]. congruence. }
  destruct (Nat.ltb (length (els c1)) 5 && negb (is_E K l) && negb (is_E K rr)) eqn:Hcond.
  - apply andb_prop in Hcond. destruct Hcond as [Hcond Hrr]. apply andb_prop in Hcond. destruct Hcond as [Hlen Hl]. apply Nat.ltb_lt in Hlen.
    assert (Hl' : l <> E) by (intros ->; discriminate). clear Hrr Hl.
    destruct (glb key (tr x) A c B lh rh l rr I2 EC Fc Hl') as (A' & d & lhd & rhd & ld & EA & Fd).
    assert (Hp : pred x (cid c) = cid d).
    { unfold ids in I6. rewrite EC, map_app in I6. cbn [map] in I6. apply chain_pred in I6. destruct I6 as [I6 _]. rewrite EA, map_app in I6. cbn [map] in I6. rewrite last_snoc in I6. exact I6. }
    assert (Hdc : cid d <> cid c).
    { intro Q. rewrite EA, <- app_assoc, map_app in HN. cbn [map List.app] in HN. apply nd_mid in HN. destruct HN as (_ & HN & _). apply HN. left. congruence. }
    rewrite Hp. assert (F2 : find K (cid d) t1 = Some (N d lhd rhd (upd K (cid c) (del_at K key r) ld) E)).
    { unfold t1. rewrite find_upd, Fd by exact Kd. cbn [option_map upd]. destruct (Z.eqb_spec (cid d) (cid c)); [contradiction|reflexivity]. }
    rewrite F2. assert (Wd : wfc d) by (apply OTH; rewrite EA, !in_app_iff; cbn; auto).
    destruct (wf_mx key d Wd) as (es & v & Ed & Em). assert (EN : nth_error (els d) (length (els d) - 1) = Some v) by (rewrite Ed; apply (last_app es v)). rewrite EN.
    set (t2 := upd K (cid c) (take_over K v (mx d)) t1). set (t3 := upd K (cid d) (give_last K key) t2).
    assert (Kt : keeps (take_over K v (mx d))) by (intro; reflexivity). assert (Kg : keeps (give_last K key)) by (intro; reflexivity).
    assert (ID2 : ids t2 = ids (tr x)) by (unfold t2; rewrite ids_upd by exact Kt; exact ID1).
    assert (ID3 : ids t3 = ids (tr x)) by (unfold t3; rewrite ids_upd by exact Kg; exact ID2).
    set (c2 := take_over K v (mx d) c1). set (d2 := give_last K key d).
    assert (C2 : cells t2 = A ++ c2 :: B) by (unfold t2; rewrite <- Id1; apply cells_at; [rewrite ID1; exact I2|exact C1]).
    assert (C3 : cells t3 = A' ++ d2 :: c2 :: B) by (unfold t3; apply cells_at; [rewrite ID2; exact I2|rewrite C2, EA, <- app_assoc; reflexivity]).
    assert (Ed2 : els d2 = es) by (unfold d2; cbn; rewrite Ed; apply removelast_last).
    assert (Wd2 : wfc d2 \/ els d2 = []).
    { rewrite Ed2. destruct es as [|e0 es']; [now right|left]. set (es := e0 :: es') in *. destruct Wd as [D1 D2 D3 D4]. constructor; rewrite ?Ed2.
      - discriminate.
      - rewrite Ed, app_length in D2. cbn [length] in D2. lia.
      - unfold d2. cbn [give_last mn]. rewrite D3, Ed. reflexivity.
      - unfold d2. cbn [give_last mx]. rewrite Ed, removelast_last. reflexivity. }
    assert (Wc2 : wfc c2).
    { unfold c2. constructor; cbn [take_over els mn mx].
      - discriminate.
      - cbn [length]. unfold node_size. lia.
      - exact Em.
      - destruct W1 as [[D1 D2 D3 D4]|Ec1]; [|rewrite Ec1; exact Em].
        destruct (Nat.eqb_spec (length (els c1)) 0) as [E0|]; [apply length_zero_iff_nil in E0; contradiction|]. rewrite D4. f_equal. change (v :: els c1) with ([v] ++ els c1). now rewrite last_error_app. }
    assert (F3 : find K (cid d) t3 = Some (N d2 lhd rhd (upd K (cid d) (give_last K key) (upd K (cid c) (take_over K v (mx d)) (upd K (cid c) (del_at K key r) ld))) E)).
    { unfold t3. rewrite find_upd by exact Kg. unfold t2. rewrite find_upd, F2 by exact Kt. cbn [option_map upd].
      destruct (Z.eqb_spec (cid d) (cid c)); [contradiction|]. rewrite Z.eqb_refl. reflexivity. }
    assert (FL3 : flat (cells t3) = (flat A ++ X) ++ Y ++ flat B).
    { rewrite C3, EA, !flat_app, !flat_cons, Ed2. cbn [c2 take_over els flat flat_map]. unfold c2. cbn [take_over els]. rewrite E2, app_nil_r, Ed, <- !app_assoc. cbn [List.app]. rewrite <- ?app_assoc. reflexivity. }
    destruct (shrink_ok (with_tree K t3 x) (cid d) d2 lhd rhd (upd K (cid d) (give_last K key) (upd K (cid c) (take_over K v (mx d)) (upd K (cid c) (del_at K key r) ld))) E) as (y & Y1 & Y2); cbn [tr with_tree].
    + unfold t3, t2. now do 2 apply avl_upd.
    + rewrite ID3. exact I2.
    + rewrite ID3. exact I3.
    + rewrite FL3. exact SY.
    + rewrite ID3. exact I6.
    + exact F3.
    + intros e He Ne. rewrite C3 in He. apply in_app_iff in He. destruct He as [He|[<-|[<-|He]]]; [|exfalso; apply Ne; reflexivity|exact Wc2|].
      * apply OTH. rewrite EA, !in_app_iff. auto.
      * apply OTH. rewrite in_app_iff. auto.
    + exact Wd2.
    + intros _ Q. contradiction.
    + exists y. split; [exact Y1|]. apply (OUT (with_tree K t3 x)); cbn [tr with_tree]; auto. rewrite rows_flat. exact FL3.
  - destruct (shrink_ok (with_tree K t1 x) (cid c) c1 lh rh l rr) as (y & Y1 & Y2); cbn [tr with_tree]; auto.
    + rewrite ID1. exact I2.
    + rewrite ID1. exact I3.
    + rewrite FY. exact SY.
    + rewrite ID1. exact I6.
    + intros e He Ne. rewrite C1 in He. apply in_app_iff in He. destruct He as [He|[<-|He]]; [|contradiction|]; apply OTH; rewrite in_app_iff; auto.
    + intros Hl Hrr. destruct W1 as [W1|W1]; [exact W1|]. rewrite W1 in Hcond. destruct l; [contradiction|]. destruct rr; [contradiction|]. discriminate.
    + exists y. split; [exact Y1|]. apply (OUT (with_tree K t1 x)); cbn [tr with_tree]; auto. rewrite rows_flat. exact FY.
Qed.

(* ---- wg_search_ttree_index ---- *)
Theorem search_ok x k : inv x ->
  (exists v, search_index K cmp key x k = Some v /\ In v (rows (tr x)) /\ cmp (key v) k = Eq) \/
  (search_index K cmp key x k = Some 0 /\ forall v, In v (rows (tr x)) -> cmp (key v) k <> Eq).
Proof.
  intro Hinv. unfold search_index. set (hit := fun e => is_eq (cmp (key e) k)).
  assert (HH : forall e, hit e = true <-> cmp (key e) k = Eq) by (intro e; unfold hit; destruct (cmp (key e) k); cbn; split; congruence).
  assert (NO : (forall c, In c (cells (tr x)) -> existsb hit (els c) = false) -> forall v, In v (rows (tr x)) -> cmp (key v) k <> Eq).
  { intros H v Hv Q. rewrite rows_flat in Hv. apply in_flat in Hv. destruct Hv as (c & Hc & Hv). specialize (H c Hc).
    assert (existsb hit (els c) = true) by (apply existsb_exists; exists v; split; [exact Hv|now apply HH]). congruence. }
  destruct (locate x k (fun c => existsb hit (els c)) Hinv) as [(bd & b & L1 & L2 & L3)|(b & res & L1 & L2 & L3)].
  - intros c Hc. apply existsb_exists in Hc. destruct Hc as (e & He & Q). exists e. split; [exact He|now apply HH].
  - right. rewrite L1. split; [destruct bd; [contradiction|reflexivity|reflexivity]|auto].
  - rewrite L1, L2. destruct res as [c|]; [left|right; split; [reflexivity|auto]].
    destruct L3 as [L3 L4]. apply existsb_exists in L4. destruct L4 as (e & He & Hh).
    destruct (List.find hit (els c)) as [v|] eqn:Ef; [|apply (List.find_none hit) with (x := e) in Ef; auto; congruence].
    exists v. apply find_some in Ef. destruct Ef as [Ef1 Ef2]. split; [reflexivity|]. split; [rewrite rows_flat; apply in_flat; eauto|now apply HH].
Qed.
End D.
