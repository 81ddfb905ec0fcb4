(** Removing a cell from a list and adding one. *)
From Coq Require Import List ZArith Bool Lia Permutation.
From Verif Require Import RefModel RefSpec RefProof.
Import ListNotations.
Open Scope Z_scope.

Lemma InvL_change hs hs' cl cl' L L' ch o h' l' :
  NoDup (map fst hs) -> NoDup (map fst cl) ->
  (forall q h, get q hs = Some h -> path cl h (ch q) /\ Permutation (map snd (ch q)) (parents q L)) ->
  Permutation (map fst cl) (flat_map (fun q => map fst (ch q)) (map fst hs)) ->
  In o (map fst hs) -> map fst hs' = map fst hs -> get o hs' = Some h' -> (forall q, q <> o -> get q hs' = get q hs) ->
  NoDup (map fst cl') -> ~ In 0 (map fst cl') ->
  (forall x, In x (map fst cl) -> ~ In x (map fst (ch o)) -> get x cl' = get x cl) ->
  path cl' h' l' -> Permutation (map snd l') (parents o L') -> (forall q, q <> o -> parents q L' = parents q L) ->
  Permutation (map fst cl ++ map fst l') (map fst cl' ++ map fst (ch o)) ->
  (forall p q, In (p, q) L' -> In q (map fst hs)) ->
  InvL hs' cl' L'.
Proof.
  intros RK CK CH FL HO KS HG HQ CK' C0' FR P' PP PQ KP LL. constructor; [rewrite KS; exact RK|exact CK'|exact C0'| |intros p q H; rewrite KS; eauto].
  exists (upd ch o l'). split.
  - intros q h E. unfold upd. destruct (Z.eqb_spec q o) as [->|N].
    + rewrite HG in E. injection E as <-. split; assumption.
    + rewrite HQ in E by exact N. destruct (CH q h E) as [X Y]. split; [|rewrite PQ by exact N; exact Y].
      apply (path_frame cl); [|exact X]. intros x Hx. apply FR; [apply (path_keys _ _ _ X); exact Hx|].
      intros HI. apply N. eapply (flat_disj (fun q => map fst (ch q)) q o x (map fst hs)).
      * apply (Permutation_NoDup FL CK). * apply (get_key _ _ _ E). * exact HO. * exact Hx. * exact HI.
  - rewrite KS. destruct (flat_upd (fun q => map fst (ch q)) (fun q => map fst (upd ch o l' q)) o (map fst hs) RK HO) as (rest&R1&R2).
    { intros q N. unfold upd. rewrite (proj2 (Z.eqb_neq _ _) N). reflexivity. }
    rewrite R2. unfold upd. rewrite Z.eqb_refl. rewrite FL, R1 in KP.
    apply (Permutation_app_inv_r (map fst (ch o))). rewrite <- KP.
    transitivity (map fst l' ++ map fst (ch o) ++ rest); [apply Permutation_app_comm|].
    rewrite <- app_assoc. apply Permutation_app_head, Permutation_app_comm.
Qed.

(** What no operation on the lists changes *)
Definition bodies (d : db) : list (Z * list value) := map (fun e => (fst e, fields (snd e))) (recs d).
Definition same (d d' : db) : Prop := bodies d' = bodies d /\ strs d' = strs d /\ boxes d' = boxes d.
Lemma put_bodies o x z l : get o l = Some x ->
  map (fun e : Z * rec => (fst e, fields (snd e))) (put o {| fields := fields x; back := z |} l) = map (fun e => (fst e, fields (snd e))) l.
Proof.
  induction l as [|[j y] l IH]; cbn; [discriminate|]. destruct (j =? o); cbn; [intros [= ->]; reflexivity|]. intros H. rewrite (IH H). reflexivity.
Qed.

Lemma path_snoc cl cl' h l c p z rest rest' : path cl h (l ++ (c, p) :: rest) -> get c cl' = Some (p, z) ->
  (forall x, In x (map fst l) -> get x cl' = get x cl) -> path cl' z rest' -> path cl' h (l ++ (c, p) :: rest').
Proof.
  revert h. induction l as [|[a b] l IH]; intros h; cbn.
  - intros (->&n&_&_) G _ P. split; [reflexivity|]. exists z. auto.
  - intros (->&n&E&P) G F P'. split; [reflexivity|]. exists n. split; [rewrite F by (left; reflexivity); exact E|]. apply IH; auto.
Qed.

Lemma unlink_run p : forall l n d a h, (length l < n)%nat -> read d a = Some h -> path (cells d) h l -> ~ In 0 (map fst l) -> In p (map snd l) ->
  exists l1 c l2 nx, l = l1 ++ (c, p) :: l2 /\ get c (cells d) = Some (p, nx) /\ path (cells d) nx l2 /\
    unlink n d a p = match write d (end_loc a l1) nx with Some d1 => Some (true, set_cells d1 (del c (cells d1))) | None => None end.
Proof.
  induction l as [|[c q] l IH]; intros n d a h Hn R P Z0 HI; [destruct HI|].
  destruct n as [|n]; [cbn in Hn; lia|]. cbn [path] in P. destruct P as (->&nx&G&P). cbn [unlink]. rewrite R.
  destruct (Z.eqb_spec c 0) as [->|NC]; [exfalso; apply Z0; left; reflexivity|]. rewrite G. destruct (Z.eqb_spec q p) as [->|NQ].
  - exists [], c, l, nx. repeat split; try assumption.
  - destruct HI as [E|HI]; [cbn in E; congruence|].
    assert (RC : read d (Cdr c) = Some nx) by (cbn; rewrite G; reflexivity).
    destruct (IH n d (Cdr c) nx) as (l1&c1&l2&n1&->&G1&P1&U); [cbn in Hn; lia|exact RC|exact P|intros X; apply Z0; right; exact X|exact HI|].
    exists ((c, q) :: l1), c1, l2, n1. split; [reflexivity|]. split; [exact G1|]. split; [exact P1|]. exact U.
Qed.

Lemma in_parents_perm o p (l : list (Z * Z)) L : Permutation (map snd l) (parents o ((p, o) :: L)) -> In p (map snd l).
Proof. intros P. apply (Permutation_in _ (Permutation_sym P)). apply parents_in. left. reflexivity. Qed.
Lemma path_length cl h l : path cl h l -> NoDup (map fst l) -> (length l <= length cl)%nat.
Proof. intros P N. pose proof (NoDup_incl_length N (path_keys _ _ _ P)) as X. rewrite !map_length in X. exact X. Qed.
Lemma perm_middle_inv {B} (x : B) a b l : Permutation (a ++ x :: b) (x :: l) -> Permutation (a ++ b) l.
Proof. intros P. apply (Permutation_cons_inv (a:=x)). rewrite <- P. apply Permutation_middle. Qed.

Lemma unlink_ok d o p L : InvL (heads d) (cells d) ((p, o) :: L) ->
  exists d', unlink (fuel d) d (Head o) p = Some (true, d') /\ InvL (heads d') (cells d') L /\ same d d'.
Proof.
  intros [RK CK C0 (ch&CH&FL) LL]. pose proof (LL p o (or_introl eq_refl)) as KO. destruct (key_get _ _ KO) as (h&GH).
  destruct (CH o h GH) as [P PP].
  assert (ND : NoDup (map fst (ch o))) by (apply (flat_nodup (fun q => map fst (ch q)) o (map fst (heads d))); [apply (Permutation_NoDup FL CK)|exact KO]).
  assert (R : read d (Head o) = Some h) by (cbn [read]; rewrite <- get_heads; exact GH).
  destruct (unlink_run p (ch o) (fuel d) d (Head o) h) as (l1&c&l2&nx&EC&G&P2&U);
    [pose proof (path_length _ _ _ P ND); unfold fuel; lia|exact R|exact P|intros X; apply C0; apply (path_keys _ _ _ P); exact X|exact (in_parents_perm _ _ _ _ PP)|].
  rewrite get_heads in GH. destruct (get o (recs d)) as [x|] eqn:GO; [|discriminate].
  assert (PL : Permutation (map snd (l1 ++ l2)) (parents o L)).
  { rewrite EC in PP. rewrite parents_cons, Z.eqb_refl in PP. rewrite map_app in PP |- *. cbn [map snd app] in PP. apply (perm_middle_inv p). exact PP. }
  assert (PQ : forall q, q <> o -> parents q L = parents q ((p, o) :: L)).
  { intros q N. rewrite parents_cons. destruct (Z.eqb_spec o q); [congruence|reflexivity]. }
  assert (LL' : forall a q, In (a, q) L -> In q (map fst (heads d))) by (intros a q H; apply (LL a q); right; exact H).
  assert (HC : In c (map fst (ch o))) by (rewrite EC, map_app; apply in_or_app; right; left; reflexivity).
  pose proof (get_key _ _ _ G) as KC.
  assert (NC : NoDup (map fst (l1 ++ (c, p) :: l2))) by (rewrite <- EC; exact ND).
  assert (KP : forall cl' : list (Z * (Z * Z)), map fst cl' = map fst (del c (cells d)) -> Permutation (map fst (cells d) ++ map fst (l1 ++ l2)) (map fst cl' ++ map fst (ch o))).
  { intros cl' ->. rewrite EC, (del_keys c (cells d) KC), !map_app. cbn [map fst app].
    set (K := map fst (del c (cells d))). set (A := map fst l1). set (B := map fst l2).
    cbn [app]. rewrite (app_assoc K A (c :: B)). rewrite <- Permutation_middle. constructor. rewrite app_assoc. reflexivity. }
  destruct l1 as [|e l1] using rev_ind; [|clear IHl1].
  - cbn [end_loc write] in U. rewrite GO in U. eexists. split; [exact U|]. cbn [app] in *. 
    assert (HH : heads (set_recs d (put o {| fields := fields x; back := nx |} (recs d))) = put o nx (heads d)) by (unfold heads; cbn [set_recs recs]; apply put_heads; exact GO).
    split.
    + cbn [set_cells cells recs heads]. change (heads (set_cells _ _)) with (heads (set_recs d (put o {| fields := fields x; back := nx |} (recs d)))).
      rewrite HH. cbn [set_recs cells].
      apply (InvL_change (heads d) _ (cells d) _ ((p, o) :: L) L ch o nx l2 RK CK CH FL KO).
      * apply put_keys. * apply get_put_same, KO. * intros q N. apply get_put_other, N. * apply del_nodup, CK. * intros X. apply C0. apply del_in in X. exact X.
      * intros y _ HN. apply get_del_other. intros ->. auto.
      * apply (path_frame (cells d)); [|exact P2]. intros y Hy. apply get_del_other. intros ->. cbn [map fst] in NC. inversion NC; auto.
      * exact PL. * exact PQ. * apply KP. reflexivity. * exact LL'.
    + split; [|split; reflexivity]. unfold bodies. cbn [set_cells set_recs recs]. apply put_bodies. exact GO.
  - destruct e as [c' p']. rewrite end_loc_snoc in U. cbn [write] in U. rewrite <- app_assoc in EC, NC. cbn [app] in EC, NC.
    rewrite EC in P. assert (G' : exists n', get c' (cells d) = Some (p', n')).
    { clear -P. revert h P. induction l1 as [|[a b] l1 IH]; cbn; intros h; [intros (_&n&E&_); eauto|intros (_&n&_&P); eauto]. }
    destruct G' as (n'&G'). rewrite G' in U. eexists. split; [exact U|]. cbn [set_cells cells].
    assert (N2 : c' <> c /\ ~ In c (map fst l2) /\ ~ In c (map fst l1) /\ ~ In c' (map fst l2) /\ ~ In c' (map fst l1)).
    { rewrite map_app in NC. cbn [map fst] in NC. destruct (nodup_app_inv _ _ NC) as (_&N3&N4). inversion N3; subst. inversion H2; subst. 
      split; [intros ->; apply H1; left; reflexivity|]. split; [exact H3|]. split; [intros X; apply (N4 c X); right; left; reflexivity|].
      split; [intros X; apply H1; right; exact X|]. intros X. apply (N4 c' X). left. reflexivity. }
    destruct N2 as (N2&N3&N4&N5&N6).
    split; [|split; [reflexivity|split; reflexivity]].
    change (heads (set_cells _ _)) with (heads d).
    apply (InvL_change (heads d) _ (cells d) _ ((p, o) :: L) L ch o h ((l1 ++ [(c', p')]) ++ l2) RK CK CH FL KO).
    + reflexivity. + rewrite get_heads, GO. exact GH. + reflexivity.
    + apply del_nodup. rewrite put_keys. exact CK.
    + intros X. apply del_in in X. rewrite put_keys in X. auto.
    + intros y _ HN. rewrite get_del_other by (intros ->; auto). apply get_put_other. intros ->. apply HN. rewrite EC, map_app. apply in_or_app. right. left. reflexivity.
    + rewrite <- app_assoc. cbn [app]. eapply path_snoc; [exact P| | |].
      * rewrite get_del_other by exact N2. apply get_put_same. apply (get_key _ _ _ G').
      * intros y Hy. rewrite get_del_other by (intros ->; auto). apply get_put_other. intros ->. auto.
      * apply (path_frame (cells d)); [|exact P2]. intros y Hy. rewrite get_del_other by (intros ->; auto). apply get_put_other. intros ->. auto.
    + exact PL. + exact PQ. + apply KP. rewrite del_put_comm by congruence. apply put_keys. + exact LL'.
Qed.

Lemma list_end_run : forall l n d a h, (length l < n)%nat -> read d a = Some h -> path (cells d) h l -> ~ In 0 (map fst l) ->
  list_end n d a = Some (end_loc a l).
Proof.
  induction l as [|[c q] l IH]; intros n d a h Hn R P Z0; (destruct n as [|n]; [cbn in Hn; lia|]); cbn [list_end]; rewrite R; cbn [path] in P.
  - subst h. reflexivity.
  - destruct P as (->&nx&G&P). destruct (Z.eqb_spec c 0) as [->|NC]; [exfalso; apply Z0; left; reflexivity|]. cbn [end_loc].
    apply (IH n d (Cdr c) nx); [cbn in Hn; lia|cbn; rewrite G; reflexivity|exact P|intros X; apply Z0; right; exact X].
Qed.

Lemma link_ok d o p c L : InvL (heads d) (cells d) L -> is_rec d o -> fresh_cell d c ->
  exists d', link d o c p = Some d' /\ InvL (heads d') (cells d') ((p, o) :: L) /\ same d d'.
Proof.
  intros [RK CK C0 (ch&CH&FL) LL] (x&GO) (NZ&FC).
  assert (GH : get o (heads d) = Some (back x)) by (rewrite get_heads, GO; reflexivity).
  pose proof (get_key _ _ _ GH) as KO. destruct (CH o (back x) GH) as [P PP].
  assert (ND : NoDup (map fst (ch o))) by (apply (flat_nodup (fun q => map fst (ch q)) o (map fst (heads d))); [apply (Permutation_NoDup FL CK)|exact KO]).
  assert (R : read d (Head o) = Some (back x)) by (cbn [read]; rewrite GO; reflexivity).
  assert (LE : list_end (fuel d) d (Head o) = Some (end_loc (Head o) (ch o))).
  { apply (list_end_run _ _ _ _ (back x)); [pose proof (path_length _ _ _ P ND); unfold fuel; lia|exact R|exact P|intros X; apply C0; apply (path_keys _ _ _ P); exact X]. }
  unfold link. rewrite (proj2 (Z.eqb_neq _ _) NZ), LE.
  assert (FC' : ~ In c (map fst (cells d))) by (apply get_none; exact FC).
  assert (FX : forall y, In y (map fst (cells d)) -> get y ((c, (p, 0)) :: cells d) = get y (cells d)).
  { intros y Hy. cbn [get]. destruct (Z.eqb_spec c y); [subst; exfalso; auto|reflexivity]. }
  assert (PL : Permutation (map snd (ch o ++ [(c, p)])) (parents o ((p, o) :: L))).
  { rewrite parents_cons, Z.eqb_refl, map_app. cbn. rewrite PP. symmetry. apply Permutation_cons_append. }
  assert (PQ : forall q, q <> o -> parents q ((p, o) :: L) = parents q L).
  { intros q N. rewrite parents_cons. destruct (Z.eqb_spec o q); [congruence|reflexivity]. }
  assert (LL' : forall a q, In (a, q) ((p, o) :: L) -> In q (map fst (heads d))) by (intros a q [E|H]; [injection E as <- <-; exact KO|apply (LL a q H)]).
  assert (KP : forall cl' : list (Z * (Z * Z)), map fst cl' = c :: map fst (cells d) -> Permutation (map fst (cells d) ++ map fst (ch o ++ [(c, p)])) (map fst cl' ++ map fst (ch o))).
  { intros cl' ->. rewrite map_app. cbn [map fst]. rewrite app_assoc. rewrite <- Permutation_cons_append. reflexivity. }
  assert (EC : ch o = [] \/ exists l e, ch o = l ++ [e]) by (destruct (ch o) as [|e l] using rev_ind; [left; reflexivity|right; eauto]).
  destruct EC as [EC|(l&e&EC)]; rewrite EC in *.
  - cbn [end_loc write set_cells recs]. rewrite GO. eexists. split; [reflexivity|]. cbn [set_recs set_cells cells recs heads].
    assert (HH : heads (set_recs d (put o {| fields := fields x; back := c |} (recs d))) = put o c (heads d)) by (unfold heads; cbn [set_recs recs]; apply put_heads; exact GO).
    split.
    + change (heads _) with (heads (set_recs d (put o {| fields := fields x; back := c |} (recs d)))). rewrite HH.
      apply (InvL_change (heads d) _ (cells d) _ L ((p, o) :: L) ch o c [(c, p)] RK CK CH FL KO).
      * apply put_keys. * apply get_put_same, KO. * intros q N. apply get_put_other, N.
      * cbn. constructor; assumption. * cbn. intros [E|X]; auto.
      * intros y Hy _. apply FX, Hy.
      * cbn. split; [reflexivity|]. exists 0. rewrite Z.eqb_refl. split; reflexivity.
      * exact PL. * exact PQ. * rewrite EC. apply (KP ((c, (p, 0)) :: cells d)). reflexivity. * exact LL'.
    + split; [|split; reflexivity]. unfold bodies. cbn [recs]. apply put_bodies. exact GO.
  - destruct e as [c' p']. rewrite end_loc_snoc. cbn [write set_cells cells].
    assert (G' : exists n', get c' (cells d) = Some (p', n')).
    { clear -P. revert P. generalize (back x) as h. induction l as [|[a b] l1 IH]; cbn; intros h; [intros (_&n&E&_); eauto|intros (_&n&_&P); eauto]. }
    destruct G' as (n'&G'). pose proof (get_key _ _ _ G') as K'. rewrite (FX c' K'), G'. eexists. split; [reflexivity|]. cbn [set_cells cells].
    split; [|split; [reflexivity|split; reflexivity]]. change (heads _) with (heads d).
    assert (N6 : ~ In c' (map fst l)).
    { rewrite map_app in ND. destruct (nodup_app_inv _ _ ND) as (_&_&N4). intros X. apply (N4 c' X). left. reflexivity. }
    assert (NC : c' <> c) by (intros ->; auto).
    apply (InvL_change (heads d) _ (cells d) _ L ((p, o) :: L) ch o (back x) ((l ++ [(c', p')]) ++ [(c, p)]) RK CK CH FL KO).
    + reflexivity. + exact GH. + reflexivity.
    + rewrite put_keys. cbn. constructor; assumption. + rewrite put_keys. cbn. intros [E|X]; auto.
    + intros y Hy HN. rewrite get_put_other; [apply FX, Hy|]. intros ->. apply HN. rewrite EC, map_app. apply in_or_app. right. left. reflexivity.
    + rewrite <- app_assoc. cbn [app]. apply (path_snoc (cells d) _ (back x) l c' p' c []); [exact P| | |].
      * apply get_put_same. right. exact K'.
      * intros y Hy. rewrite get_put_other by (intros ->; auto). apply FX. apply (path_keys _ _ _ P). rewrite map_app. apply in_or_app. left. exact Hy.
      * cbn [path]. split; [reflexivity|]. exists 0. split; [|reflexivity]. rewrite get_put_other by congruence. cbn. rewrite Z.eqb_refl. reflexivity.
    + exact PL. + exact PQ. + rewrite EC. apply KP. rewrite put_keys. reflexivity. + exact LL'.
Qed.
