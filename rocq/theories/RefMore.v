(** Listing parents, strings let go, cells counted; the code as compiled. *)
From Coq Require Import List ZArith Bool Lia Permutation.
From Verif Require Import RefModel RefSpec RefProof RefLink RefVals RefInv RefOps.
Import ListNotations.
Open Scope Z_scope.

(** Computed histories *)
Definition has {A} (k : Z) (l : list (Z * A)) : bool := match get k l with Some _ => true | None => false end.
Definition in_useb (d : db) (v : value) : bool := existsb (value_eqb v) (map snd (refs d) ++ exs (strs d)).
Definition usableb (d : db) (v : value) : bool :=
  match v with VRec o => has o (recs d) | VStr s => has s (strs d) | VBox b => existsb (Z.eqb b) (boxes d) && negb (in_useb d v) | _ => true end.
Definition freshb (d : db) (c : Z) : bool := negb (c =? 0) && negb (has c (cells d)).
Definition allowedb (d : db) (o : op) : bool :=
  match o with
  | Create _ a => negb (a =? 0) && negb (has a (recs d))
  | Box b => negb (existsb (Z.eqb b) (boxes d))
  | Str s ex => negb (has s (strs d)) && usableb d ex && negb (value_eqb ex (VStr s)) &&
      match ex with VNull => true | VBox _ => true | VStr e => match get e (strs d) with Some x => value_eqb (extra x) VNull | None => false end | _ => false end
  | Set_ r i v c => match get_field d r i with Some _ => usableb d v && freshb d c | None => false end
  | SetNew r i v c => match get_field d r i with Some VNull => usableb d v && freshb d c | _ => false end
  | Delete r => has r (recs d)
  | Free v => usableb d v
  end.
Lemma in_use_b d v : in_use d v -> in_useb d v = true.
Proof.
  intros H. apply existsb_exists. exists v. split; [|apply value_eqb_spec; reflexivity]. apply in_or_app. destruct H as [(p&i&H)|(s&x&G&E)].
  - left. apply in_map_iff. exists (p, v). split; [reflexivity|]. unfold refs, refsb. apply in_flat_map. rewrite get_field_bodies in H. destruct (get p (bodies d)) as [fs|] eqn:E; [|discriminate].
    exists (p, fs). split; [apply get_in, E|]. cbn. apply in_map. eapply nth_error_In; eauto.
  - right. unfold exs. apply in_map_iff. exists (s, x). split; [exact E|apply get_in, G].
Qed.
Lemma usable_b d v : usableb d v = true -> usable d v.
Proof.
  unfold usableb, usable, has. destruct v; cbn [exists_in]; intros H; try (split; exact Logic.I).
  - split; [|exact Logic.I]. unfold is_rec. destruct (get o (recs d)); [eauto|discriminate].
  - split; [|exact Logic.I]. unfold is_str. destruct (get s (strs d)); [eauto|discriminate].
  - apply andb_true_iff in H. destruct H as [H1 H2]. apply existsb_exists in H1. destruct H1 as (y&H1&E). apply Z.eqb_eq in E. subst y. split; [exact H1|].
    intros X. apply in_use_b in X. rewrite X in H2. discriminate.
Qed.
Lemma fresh_b d c : freshb d c = true -> fresh_cell d c.
Proof. unfold freshb, has, fresh_cell. intros H. apply andb_true_iff in H. destruct H as [H1 H2]. split; [intros ->; discriminate|]. destruct (get c (cells d)); [discriminate|reflexivity]. Qed.
Lemma allowed_b d o : allowedb d o = true -> allowed d o.
Proof.
  destruct o as [n a|b|s ex|r i v c|r i v c|r|v]; cbn [allowedb allowed]; intros H.
  - apply andb_true_iff in H. destruct H as [H1 H2]. split; [intros ->; discriminate|]. intros (x&G). unfold has in H2. rewrite G in H2. discriminate.
  - intros X. assert (E : existsb (Z.eqb b) (boxes d) = true) by (apply existsb_exists; exists b; split; [exact X|apply Z.eqb_refl]). rewrite E in H. discriminate.
  - apply andb_true_iff in H. destruct H as [H H4]. apply andb_true_iff in H. destruct H as [H H3]. apply andb_true_iff in H. destruct H as [H1 H2].
    split; [intros (x&G); unfold has in H1; rewrite G in H1; discriminate|]. split; [apply usable_b, H2|]. split.
    + intros E. apply value_eqb_spec in E. rewrite E in H3. discriminate.
    + destruct ex; auto; try discriminate. destruct (get s0 (strs d)) as [x|] eqn:G; [|discriminate]. apply value_eqb_spec in H4. exists x. auto.
  - destruct (get_field d r i) eqn:G; [|discriminate]. apply andb_true_iff in H. destruct H as [H1 H2]. split; [discriminate|]. split; [right; apply usable_b, H1|apply fresh_b, H2].
  - destruct (get_field d r i) as [w|] eqn:G; [|discriminate]. destruct w; try discriminate. apply andb_true_iff in H. destruct H as [H1 H2]. split; [reflexivity|]. split; [apply usable_b, H1|apply fresh_b, H2].
  - unfold has in H. unfold is_rec. destruct (get r (recs d)); [eauto|discriminate].
  - apply usable_b, H.
Qed.
Fixpoint run (quick : bool) (d : db) (ops : list op) : option db :=
  match ops with
  | [] => Some d
  | o :: ops => if allowedb d o then match apply quick d o with Some (_, d) => run quick d ops | None => None end else None
  end.
Lemma run_reach quick : forall ops d d', reach quick d -> run quick d ops = Some d' -> reach quick d'.
Proof.
  induction ops as [|o ops IH]; intros d d' R; cbn; [intros [= <-]; exact R|]. destruct (allowedb d o) eqn:A; [|discriminate]. destruct (apply quick d o) as [[z d1]|] eqn:E; [|discriminate].
  apply IH. apply (re_step quick d o z d1 R (allowed_b _ _ A) E).
Qed.

(** No value in a field or string is gone *)
Lemma safe d v : WF d -> in_use d v -> exists_in d v.
Proof.
  intros W H. apply in_use_vals in H; [|exact W]. destruct v; cbn [exists_in]; auto.
  - apply in_app_or in H. destruct H as [H|H].
    + apply in_map_iff in H. destruct H as ([p w]&E&I). cbn in E. subst w. apply is_rec_bodies. rewrite bodies_keys, <- heads_keys. apply (l_L _ _ _ (w_L _ W) p). apply lks_in, I.
    + apply exs_extends in H; [|apply (v_sk _ _ _ (w_V _ W))]. destruct H as (s&x&G&E). pose proof (v_ex _ _ _ (w_V _ W) s x G) as X. unfold plain_extra in X. rewrite E in X. contradiction.
  - apply key_get. apply (v_live _ _ _ (w_V _ W)), H.
  - apply (v_in _ _ _ (w_V _ W)). apply boxes_of_in, H.
Qed.

(** What is in the fields after an operation *)
Lemma set_fields d d' r i v fs : get r (bodies d) = Some fs -> (exists old, nth_error fs i = Some old) -> bodies d' = put r (set_nth i v fs) (bodies d) ->
  get_field d' r i = Some v /\ (forall q j, q <> r \/ j <> i -> get_field d' q j = get_field d q j) /\ (forall q, is_rec d' q <-> is_rec d q).
Proof.
  intros G (old&E) B. split; [|split].
  - rewrite get_field_bodies, B, get_put_same by (eapply get_key; eauto). eapply nth_set_same; eauto.
  - intros q j N. rewrite !get_field_bodies, B. destruct (Z.eq_dec q r) as [->|NQ].
    + rewrite get_put_same, G by (eapply get_key; eauto). apply nth_set_other. destruct N; congruence.
    + rewrite get_put_other by exact NQ. reflexivity.
  - intros q. rewrite !is_rec_bodies, B, put_keys. reflexivity.
Qed.
Lemma del_fields d d' r : NoDup (map fst (bodies d)) -> bodies d' = del r (bodies d) -> ~ is_rec d' r /\ (forall q j, q <> r -> get_field d' q j = get_field d q j) /\
  (forall q, q <> r -> (is_rec d' q <-> is_rec d q)).
Proof.
  intros N B. split; [|split].
  - rewrite is_rec_bodies, B. intros X. destruct (key_get _ _ X) as (y&Y). rewrite del_none in Y by exact N. discriminate.
  - intros q j NQ. rewrite !get_field_bodies, B, get_del_other by exact NQ. reflexivity.
  - intros q NQ. rewrite !is_rec_bodies, B. split; intros X; destruct (key_get _ _ X) as (y&Y); [rewrite get_del_other in Y by exact NQ|rewrite <- (get_del_other q r) in Y by exact NQ]; eapply get_key; eauto.
Qed.

(** Listing *)
Fixpoint succ (q : Z) (ps : list Z) : Z := match ps with p :: ((p' :: _) as t) => if p =? q then p' else succ q t | _ => 0 end.
Lemma next_run d parent : forall l n p nx, (length l < n)%nat -> path (cells d) nx l -> ~ In 0 (map fst l) -> ~ In 0 (map snd l) ->
  next_loop n d p nx parent = Some (succ parent (p :: map snd l)).
Proof.
  induction l as [|[c q] l IH]; intros n p nx Hn P Z0 Z1; (destruct n as [|n]; [cbn in Hn; lia|]); cbn [next_loop]; cbn [path] in P.
  - subst nx. reflexivity.
  - destruct P as (->&n1&G&P). destruct (Z.eqb_spec c 0) as [->|NC]; [exfalso; apply Z0; left; reflexivity|]. rewrite G. cbn [map snd succ].
    destruct (Z.eqb_spec q 0) as [->|NQ]; [exfalso; apply Z1; left; reflexivity|]. cbn [negb]. rewrite andb_true_r. destruct (p =? parent); [reflexivity|].
    apply IH; [cbn in Hn; lia|exact P|intros X; apply Z0; right; exact X|intros X; apply Z1; right; exact X].
Qed.
Lemma succ_at q : forall a b, NoDup (a ++ q :: b) -> succ q (a ++ q :: b) = hd 0 b.
Proof.
  induction a as [|x a IH]; intros b N; cbn [app succ].
  - destruct b; [reflexivity|]. rewrite Z.eqb_refl. reflexivity.
  - cbn [app] in N. inversion N; subst. assert (NX : x <> q) by (intros ->; apply H1, in_or_app; right; left; reflexivity).
    rewrite <- (IH b H2). destruct (a ++ q :: b) as [|y t] eqn:E; [destruct a; discriminate|]. rewrite (proj2 (Z.eqb_neq _ _) NX). reflexivity.
Qed.
(** The chain of a record *)
Lemma chain d r : WF d -> is_rec d r -> exists h l, read d (Head r) = Some h /\ path (cells d) h l /\ NoDup (map fst l) /\ ~ In 0 (map fst l) /\ ~ In 0 (map snd l) /\
  Permutation (map snd l) (parents r (lks (refs d))) /\ (length l < fuel d)%nat.
Proof.
  intros W (x&G). pose proof (w_L _ W) as [RK CK C0 (ch&CH&FL) LL]. assert (GH : get r (heads d) = Some (back x)) by (rewrite get_heads, G; reflexivity).
  destruct (CH r _ GH) as [P PP]. exists (back x), (ch r). cbn [read]. rewrite G. split; [reflexivity|]. split; [exact P|].
  assert (ND : NoDup (map fst (ch r))) by (apply (flat_nodup (fun q => map fst (ch q)) r (map fst (heads d))); [apply (Permutation_NoDup FL CK)|apply (get_key _ _ _ GH)]).
  split; [exact ND|]. split; [intros X; apply C0; apply (path_keys _ _ _ P), X|]. split; [|split; [exact PP|pose proof (path_length _ _ _ P ND); unfold fuel; lia]].
  intros X. apply (Permutation_in _ PP) in X. apply parents_in, lks_in in X. apply (w_0 _ W). apply refers_refs in X; [|apply w_rk, W].
  destruct X as (i&X). unfold get_field in X. destruct (get 0 (recs d)) eqn:E; [|discriminate]. eapply get_key; eauto.
Qed.
Lemma next_parent_run d r h l q : read d (Head r) = Some h -> path (cells d) h l -> ~ In 0 (map fst l) -> ~ In 0 (map snd l) -> (length l < fuel d)%nat ->
  next_parent d r q = Some (succ q (map snd l)).
Proof.
  intros R P Z0 Z1 F. unfold next_parent. rewrite R. destruct l as [|[c p] l]; cbn [path] in P.
  - subst h. reflexivity.
  - destruct P as (->&n1&G&P). destruct (Z.eqb_spec c 0) as [->|NC]; [exfalso; apply Z0; left; reflexivity|]. rewrite G. cbn [map snd].
    apply next_run; [cbn in F; lia|exact P|intros X; apply Z0; right; exact X|intros X; apply Z1; right; exact X].
Qed.
Lemma listed d r h l : read d (Head r) = Some h -> path (cells d) h l -> ~ In 0 (map fst l) -> ~ In 0 (map snd l) -> (length l < fuel d)%nat ->
  NoDup (map snd l) -> parents_listed (S (length l)) d r = Some (map snd l).
Proof.
  intros R P Z0 Z1 F ND. assert (A : forall b a n, map snd l = a ++ b -> (length b < n)%nat -> list_parents n d r (hd 0 b) = Some b).
  { induction b as [|q b IH]; intros a n E Hn; (destruct n as [|n]; [cbn in Hn; lia|]); cbn [list_parents hd]; [reflexivity|].
    assert (NQ : q <> 0) by (intros ->; apply Z1; rewrite E; apply in_or_app; right; left; reflexivity). rewrite (proj2 (Z.eqb_neq _ _) NQ).
    rewrite (next_parent_run d r h l q R P Z0 Z1 F). rewrite E. rewrite succ_at by (rewrite <- E; exact ND).
    rewrite (IH (a ++ [q]) n); [reflexivity|rewrite <- app_assoc; exact E|cbn in Hn; lia]. }
  unfold parents_listed. assert (E : first_parent d r = Some (hd 0 (map snd l))).
  { unfold first_parent. rewrite R. destruct l as [|[c p] l]; cbn [path] in P; [subst h; reflexivity|]. destruct P as (->&n1&G&_).
    destruct (Z.eqb_spec c 0) as [->|NC]; [exfalso; apply Z0; left; reflexivity|]. rewrite G. reflexivity. }
  rewrite E. apply (A (map snd l) []); [reflexivity|rewrite map_length; lia].
Qed.
(** One reference from each record: the list has no repetitions *)
Lemma once_nodup b r : NoDup (map fst b) ->
  (forall p fs i j, get p b = Some fs -> nth_error fs i = Some (VRec r) -> nth_error fs j = Some (VRec r) -> i = j) -> NoDup (parents r (lks (refsb b))).
Proof.
  induction b as [|[p fs] b IH]; intros N H; [constructor|]. inversion N; subst. unfold refsb. cbn [flat_map fst snd]. fold (refsb b). rewrite lks_app.
  assert (PA : forall x y, parents r (x ++ y) = parents r x ++ parents r y) by (intros; unfold parents; rewrite filter_app, map_app; reflexivity). rewrite PA.
  assert (ND : NoDup (parents r (lks (refsb b)))).
  { apply IH; [assumption|]. intros q gs i j G. apply (H q gs i j). cbn [get]. destruct (Z.eqb_spec p q) as [->|]; [exfalso; apply H2; eapply get_key; eauto|exact G]. }
  assert (NP : ~ In p (parents r (lks (refsb b)))).
  { intros X. apply parents_in, lks_in in X. apply refsb_in in X; [|assumption]. destruct X as (gs&G&_). apply H2. eapply get_key; eauto. }
  assert (HH : forall i j, nth_error fs i = Some (VRec r) -> nth_error fs j = Some (VRec r) -> i = j) by (intros i j; apply (H p fs i j); cbn; rewrite Z.eqb_refl; reflexivity).
  assert (ONE : parents r (lks (map (pair p) fs)) = [] \/ parents r (lks (map (pair p) fs)) = [p]).
  { clear -HH. induction fs as [|v fs IH]; [left; reflexivity|].
    assert (IH' : parents r (lks (map (pair p) fs)) = [] \/ parents r (lks (map (pair p) fs)) = [p]) by (apply IH; intros i j A B; assert (S i = S j) by (apply HH; assumption); lia).
    cbn [map lks flat_map fst snd]. fold (lks (map (pair p) fs)). destruct v; try exact IH'. cbn [app]. rewrite parents_cons. destruct (Z.eqb_spec o r) as [->|]; [|exact IH'].
    right. cbn [app]. f_equal. destruct (parents r (lks (map (pair p) fs))) as [|q t] eqn:E; [reflexivity|]. exfalso.
    assert (X : In q (parents r (lks (map (pair p) fs)))) by (rewrite E; left; reflexivity). apply parents_in, lks_in, in_map_iff in X. destruct X as (w&X&I). injection X as -> ->.
    apply In_nth_error in I. destruct I as (j&I). assert (0 = S j)%nat by (apply HH; [reflexivity|exact I]). discriminate. }
  destruct ONE as [->| ->]; cbn [app]; [exact ND|constructor; assumption].
Qed.

(** Strings without references after an operation had none before *)
Definition zeros (d : db) (s : Z) : Prop := exists x, get s (strs d) = Some x /\ count x <= 0.
Definition sk (d : db) : Prop := NoDup (map fst (strs d)).
Lemma zeros_put d s x c : sk d -> get s (strs d) = Some x -> (c <= 0 -> count x <= 0) ->
  sk (set_strs d (put s {| count := c; extra := extra x |} (strs d))) /\
  (forall q, zeros (set_strs d (put s {| count := c; extra := extra x |} (strs d))) q -> zeros d q).
Proof.
  intros N G C. split; [unfold sk; cbn [set_strs strs]; rewrite put_keys; exact N|]. intros q (y&E&L). cbn [set_strs strs] in E. destruct (Z.eq_dec q s) as [->|NQ].
  - rewrite get_put_same in E by (eapply get_key; eauto). injection E as <-. cbn in L. exists x. auto.
  - rewrite get_put_other in E by exact NQ. exists y. auto.
Qed.
Lemma zeros_incr d v d' : sk d -> incr d v = Some d' -> sk d' /\ (forall q, zeros d' q -> zeros d q).
Proof.
  intros N. destruct v; cbn [incr]; try (intros [= <-]; split; auto; fail). destruct (get s (strs d)) as [x|] eqn:G; [|discriminate]. intros [= <-]. apply zeros_put; [exact N|exact G|lia].
Qed.
Lemma zeros_free : forall n d v d', sk d -> free_value n d v = Some d' -> sk d' /\ (forall q, zeros d' q -> zeros d q).
Proof.
  induction n as [|n IH]; intros d v d' N; cbn; [discriminate|]. destruct v; try (intros [= <-]; split; auto; fail).
  - destruct (get s (strs d)) as [x|] eqn:G; [|discriminate]. destruct (Z.ltb_spec 0 (count x - 1)).
    + intros [= <-]. apply zeros_put; [exact N|exact G|lia].
    + destruct (free_value n d (extra x)) as [d1|] eqn:F; [|discriminate]. intros [= <-]. destruct (IH _ _ _ N F) as [N1 H1]. split; [unfold sk; cbn [set_strs strs]; apply del_nodup, N1|].
      intros q (y&E&L). cbn [set_strs strs] in E. destruct (Z.eq_dec q s) as [->|NQ]; [rewrite del_none in E by exact N1; discriminate|].
      rewrite get_del_other in E by exact NQ. apply H1. exists y. auto.
  - destruct (existsb (Z.eqb b) (boxes d)); [|discriminate]. intros [= <-]. split; auto.
Qed.
Lemma write_strs d a z d' : write d a z = Some d' -> strs d' = strs d.
Proof. unfold write. destruct a; [destruct (get o (recs d)); intros [= <-]; reflexivity|]. destruct (get c (cells d)) as [[p n]|]; [|discriminate]. intros [= <-]. reflexivity. Qed.
Lemma unlink_strs p : forall n d a b d', unlink n d a p = Some (b, d') -> strs d' = strs d.
Proof.
  induction n as [|n IH]; intros d a b d'; cbn; [discriminate|]. destruct (read d a) as [c|]; [|discriminate]. destruct (c =? 0); [intros [= <- <-]; reflexivity|].
  destruct (get c (cells d)) as [[car cdr]|]; [|discriminate]. destruct (car =? p); [|apply IH].
  destruct (write d a cdr) as [d1|] eqn:W; [|discriminate]. intros [= <- <-]. cbn. apply (write_strs _ _ _ _ W).
Qed.
Lemma link_strs d o c p d' : link d o c p = Some d' -> strs d' = strs d.
Proof. unfold link. destruct (c =? 0); [discriminate|]. destruct (list_end _ _ _); [|discriminate]. intros H. apply write_strs in H. exact H. Qed.
Lemma store_strs d r i v d' : store d r i v = Some d' -> strs d' = strs d.
Proof. unfold store. destruct (get r (recs d)); [|discriminate]. intros [= <-]. reflexivity. Qed.
Lemma zeros_eq d d' : strs d' = strs d -> sk d -> sk d' /\ (forall q, zeros d' q -> zeros d q).
Proof. unfold sk, zeros. intros ->. auto. Qed.
Lemma zeros_unlink d d' old r b : match old with VRec o => unlink (fuel d) d (Head o) r | _ => Some (true, d) end = Some (b, d') -> strs d' = strs d.
Proof. destruct old; try (intros [= <- <-]; reflexivity). apply unlink_strs. Qed.
Lemma zeros_link d d' v c r z : match v with VRec o => match link d o c r with Some d => Some (0, d) | None => None end | _ => Some (0, d) end = Some (z, d') -> strs d' = strs d.
Proof. destruct v; try (intros [= <- <-]; reflexivity). destruct (link d o c r) eqn:E; [|discriminate]. intros [= <- <-]. apply (link_strs _ _ _ _ _ E). Qed.
Lemma zeros_delete r : forall fs d z d', sk d -> delete_fields d r fs = Some (z, d') -> sk d' /\ (forall q, zeros d' q -> zeros d q).
Proof.
  induction fs as [|v fs IH]; intros d z d' N; cbn [delete_fields]; [intros [= <- <-]; auto|].
  destruct (match v with VRec o => unlink (fuel d) d (Head o) r | _ => Some (true, d) end) as [[b d1]|] eqn:U; [|discriminate]. apply zeros_unlink in U. destruct (zeros_eq _ _ U N) as [N1 H1].
  destruct b; [|intros [= <- <-]; auto]. destruct (free_value depth d1 v) as [d2|] eqn:F; [|discriminate]. destruct (zeros_free _ _ _ _ N1 F) as [N2 H2].
  intros D. destruct (IH _ _ _ N2 D) as [N3 H3]. split; [exact N3|]. auto.
Qed.
Lemma zeros_apply d o z d' : sk d -> apply false d o = Some (z, d') -> forall q, zeros d' q -> zeros d q \/ exists ex, o = Str q ex.
Proof.
  intros N. destruct o as [n a|b|s ex|r i v c|r i v c|r|v]; cbn [apply].
  - intros [= <- <-]. auto.
  - intros [= <- <-]. auto.
  - unfold encode_str. destruct (incr d ex) as [d1|] eqn:E; [|discriminate]. destruct (zeros_incr _ _ _ N E) as [N1 H1]. intros [= <- <-] q (y&G&L). cbn [set_strs strs get] in G.
    destruct (Z.eqb_spec s q) as [->|]; [eauto|]. left. apply H1. exists y. auto.
  - unfold set_field. destruct (get r (recs d)) as [x|]; [|discriminate]. destruct (nth_error (fields x) i) as [old|]; [|discriminate]. destruct (value_eqb old v); [intros [= <- <-]; auto|].
    destruct (match old with VRec o => unlink (fuel d) d (Head o) r | _ => Some (true, d) end) as [[b d1]|] eqn:U; [|discriminate]. apply zeros_unlink in U. destruct (zeros_eq _ _ U N) as [N1 H1].
    destruct b; [|intros [= <- <-]; auto]. destruct (incr d1 v) as [d2|] eqn:E; [|discriminate]. destruct (zeros_incr _ _ _ N1 E) as [N2 H2].
    destruct (free_value depth d2 old) as [d3|] eqn:F; [|discriminate]. destruct (zeros_free _ _ _ _ N2 F) as [N3 H3]. destruct (store d3 r i v) as [d4|] eqn:T; [|discriminate].
    destruct (zeros_eq _ _ (store_strs _ _ _ _ _ T) N3) as [N4 H4]. intros L. apply zeros_link in L. destruct (zeros_eq _ _ L N4) as [N5 H5]. intros q Z. left. apply H1, H2, H3, H4, H5, Z.
  - unfold set_new_field. destruct (get r (recs d)) as [x|]; [|discriminate]. destruct (nth_error (fields x) i) as [old|]; [|discriminate]. destruct (store d r i v) as [d4|] eqn:T; [|discriminate].
    destruct (zeros_eq _ _ (store_strs _ _ _ _ _ T) N) as [N4 H4]. destruct (incr d4 v) as [d2|] eqn:E; [|discriminate]. destruct (zeros_incr _ _ _ N4 E) as [N2 H2].
    intros L. apply zeros_link in L. destruct (zeros_eq _ _ L N2) as [N5 H5]. intros q Z. left. apply H4, H2, H5, Z.
  - unfold delete_record. destruct (get r (recs d)) as [x|]; [|discriminate]. destruct (negb (back x =? 0)); [intros [= <- <-]; auto|].
    destruct (delete_fields d r (fields x)) as [[z1 d1]|] eqn:D; [|discriminate]. destruct (zeros_delete _ _ _ _ _ N D) as [N1 H1]. destruct (z1 =? 0); intros [= <- <-]; auto.
  - unfold free_encoded. destruct (incr d v) as [d1|] eqn:E; [|discriminate]. destruct (zeros_incr _ _ _ N E) as [N1 H1]. destruct (free_value depth d1 v) as [d2|] eqn:F; [|discriminate].
    destruct (zeros_free _ _ _ _ N1 F) as [N2 H2]. intros [= <- <-]. auto.
Qed.
Lemma zeros_use d s : WF d -> is_str d s -> (zeros d s <-> ~ in_use d (VStr s)).
Proof.
  intros W (x&G). rewrite in_use_vals by exact W. pose proof (v_cnt _ _ _ (w_V _ W) s x G) as C. rewrite <- occ_in. split.
  - intros (y&G'&L). assert (y = x) by congruence. subst y. lia.
  - intros H. exists x. split; [exact G|]. lia.
Qed.
Lemma string_kept d o z d' s : WF d -> allowed d o -> apply false d o = Some (z, d') -> in_use d (VStr s) -> (is_str d' s <-> in_use d' (VStr s)).
Proof.
  intros W A E U. destruct (apply_ok d o W A) as (z1&d1&E1&W'&_). rewrite E in E1. injection E1 as <- <-. split; [|intros X; exact (safe d' (VStr s) W' X)].
  intros L. assert (D : {in_useb d' (VStr s) = true} + {in_useb d' (VStr s) <> true}) by (destruct (in_useb d' (VStr s)); auto). 
  destruct D as [D|D].
  - apply in_use_vals; [exact W'|]. unfold in_useb in D. apply existsb_exists in D. destruct D as (y&I&Y). apply value_eqb_spec in Y. subst y. exact I.
  - exfalso. assert (NU : ~ in_use d' (VStr s)) by (intros X; apply D, in_use_b, X). apply zeros_use in NU; [|exact W'|exact L].
    destruct (zeros_apply d o z d' (v_sk _ _ _ (w_V _ W)) E s NU) as [Z|(ex&->)].
    + apply zeros_use in Z; [auto|exact W|exact (safe d (VStr s) W U)].
    + destruct A as [NS _]. apply NS. exact (safe d (VStr s) W U).
Qed.
Lemma free_exact d s z d' : WF d -> is_str d s -> apply false d (Free (VStr s)) = Some (z, d') -> (is_str d' s <-> in_use d (VStr s)).
Proof.
  intros W L E. assert (U : usable d (VStr s)) by (split; [exact L|exact Logic.I]). destruct L as (x&G). cbn [apply] in E. unfold free_encoded in E. cbn [incr] in E. rewrite G in E.
  unfold depth in E. cbn [free_value set_strs strs] in E. pose proof (get_key _ _ _ G) as K. rewrite get_put_same in E by exact K. cbn [count extra] in E.
  assert (NU : zeros d s <-> ~ in_use d (VStr s)) by (apply zeros_use; [exact W|exists x; exact G]).
  replace (count x + 1 - 1) with (count x) in E by lia. destruct (Z.ltb_spec 0 (count x)) as [P|P].
  - injection E as <- <-. split; intros _.
    + assert (D : {in_useb d (VStr s) = true} + {in_useb d (VStr s) <> true}) by (destruct (in_useb d (VStr s)); auto). destruct D as [D|D].
      * apply in_use_vals; [exact W|]. unfold in_useb in D. apply existsb_exists in D. destruct D as (y&I&Y). apply value_eqb_spec in Y. subst y. exact I.
      * exfalso. assert (X : zeros d s) by (apply NU; intros X; apply D, in_use_b, X). destruct X as (y&G'&Q). assert (y = x) by congruence. subst. lia.
    + exists {| count := count x; extra := extra x |}. cbn [set_strs strs]. apply get_put_same. rewrite put_keys. exact K.
  - match type of E with match match ?t with _ => _ end with _ => _ end = _ => destruct t as [d1|] eqn:F; [|discriminate] end.
    injection E as <- <-. split.
    + intros (y&Y). cbn [set_strs strs] in Y. exfalso.
      set (d0 := {| recs := recs d; cells := cells d; strs := put s {| count := count x + 1; extra := extra x |} (strs d); boxes := boxes d |}) in F.
      assert (N0 : sk d0) by (unfold sk, d0; cbn [strs]; rewrite put_keys; apply (v_sk _ _ _ (w_V _ W))).
      destruct (zeros_free 2 d0 (extra x) d1 N0 F) as [N1 _]. rewrite del_none in Y by exact N1. discriminate.
    + intros X. exfalso. apply (proj1 NU); [exists x; auto|exact X].
Qed.

(** As many list cells as references between records *)
Lemma parents_total : forall ks L, NoDup ks -> (forall p o, In (p, o) L -> In o ks) -> length L = list_sum (map (fun o => length (parents o L)) ks).
Proof.
  intros ks L N. induction L as [|[p o] L IH]; intros H.
  - clear. induction ks; cbn; auto.
  - cbn [length]. rewrite IH by (intros a b I; apply (H a b); right; exact I). pose proof (H p o (or_introl eq_refl)) as K. clear IH H. revert N K. induction ks as [|k ks IH]; intros N K; [destruct K|].
    inversion N; subst. cbn [map list_sum fold_right]. rewrite parents_cons. destruct (Z.eqb_spec o k) as [->|NE].
    + cbn [app length]. change (fold_right plus 0%nat) with list_sum.
      assert (E : map (fun q => length (parents q ((p, k) :: L))) ks = map (fun q => length (parents q L)) ks).
      { apply map_ext_in. intros q Hq. rewrite parents_cons. destruct (Z.eqb_spec k q); [subst; contradiction|reflexivity]. }
      rewrite E. reflexivity.
    + destruct K as [K|K]; [congruence|]. cbn [app]. change (fold_right plus 0%nat) with list_sum. rewrite <- (IH H2 K). lia.
Qed.
Lemma flat_len {A B} (f : A -> list B) l : length (flat_map f l) = list_sum (map (fun x => length (f x)) l).
Proof. induction l; cbn; [reflexivity|]. rewrite app_length, IHl. reflexivity. Qed.
Lemma cells_total d : WF d -> length (cells d) = length (lks (refs d)).
Proof.
  intros W. pose proof (w_L _ W) as [RK CK C0 (ch&CH&FL) LL]. rewrite (parents_total _ _ RK LL). rewrite <- (map_length fst (cells d)), (Permutation_length FL), flat_len.
  f_equal. apply map_ext_in. intros o Ho. destruct (key_get _ _ Ho) as (h&G). destruct (CH o h G) as [_ P]. rewrite map_length, <- (map_length snd). apply Permutation_length, P.
Qed.

(** As compiled: no record has a list of parents *)
Definition bare (d : db) : Prop := forall o x, get o (recs d) = Some x -> back x = 0.
Lemma free_recs : forall n d v d', free_value n d v = Some d' -> recs d' = recs d.
Proof.
  induction n as [|n IH]; intros d v d'; cbn; [discriminate|]. destruct v; try (intros [= <-]; reflexivity).
  - destruct (get s (strs d)) as [x|]; [|discriminate]. destruct (0 <? count x - 1); [intros [= <-]; reflexivity|]. destruct (free_value n d (extra x)) as [d1|] eqn:F; [|discriminate]. intros [= <-]. cbn. apply (IH _ _ _ F).
  - destruct (existsb (Z.eqb b) (boxes d)); [|discriminate]. intros [= <-]. reflexivity.
Qed.
Lemma incr_recs d v d' : incr d v = Some d' -> recs d' = recs d.
Proof. destruct v; cbn; try (intros [= <-]; reflexivity). destruct (get s (strs d)); [|discriminate]. intros [= <-]. reflexivity. Qed.
Lemma bare_eq d d' : recs d' = recs d -> bare d -> bare d'.
Proof. unfold bare. intros ->. auto. Qed.
Lemma bare_delete r : forall fs d z d', bare d -> delete_fields d r fs = Some (z, d') -> recs d' = recs d /\ (z = 0 -> forall o, ~ In (VRec o) fs).
Proof.
  induction fs as [|v fs IH]; intros d z d' B; cbn [delete_fields]; [intros [= <- <-]; split; [reflexivity|intros _ o []]|].
  assert (A : forall b d1, match v with VRec o => unlink (fuel d) d (Head o) r | _ => Some (true, d) end = Some (b, d1) -> d1 = d /\ (b = true -> forall o, v <> VRec o)).
  { intros b d1. destruct v; try (intros [= <- <-]; split; [reflexivity|discriminate]). unfold fuel. cbn [unlink read]. destruct (get o (recs d)) as [x|] eqn:G; [|discriminate].
    rewrite (B o x G). cbn [Z.eqb]. intros [= <- <-]. split; [reflexivity|discriminate]. }
  destruct (match v with VRec o => unlink (fuel d) d (Head o) r | _ => Some (true, d) end) as [[b d1]|] eqn:U; [|discriminate]. destruct (A b d1 eq_refl) as [-> NV].
  destruct b; [|intros [= <- <-]; split; [reflexivity|discriminate]]. destruct (free_value depth d v) as [d2|] eqn:F; [|discriminate]. pose proof (free_recs _ _ _ _ F) as R2.
  intros D. destruct (IH _ _ _ (bare_eq _ _ R2 B) D) as [R3 H]. split; [rewrite R3; exact R2|]. intros Z o [E|I]; [apply (NV eq_refl o E)|apply (H Z o I)].
Qed.
Lemma bare_store d r i v d' : bare d -> store d r i v = Some d' -> bare d'.
Proof.
  intros B. unfold store. destruct (get r (recs d)) as [x|] eqn:G; [|discriminate]. intros [= <-] o y. cbn [set_recs recs]. destruct (Z.eq_dec o r) as [->|N].
  - rewrite get_put_same by (eapply get_key; eauto). intros [= <-]. cbn. apply (B r x G).
  - rewrite get_put_other by exact N. apply B.
Qed.
Lemma get_del_some {A} o r (l : list (Z * A)) y : NoDup (map fst l) -> get o (del r l) = Some y -> get o l = Some y.
Proof. intros N H. destruct (Z.eq_dec o r) as [->|Q]; [rewrite del_none in H by exact N; discriminate|rewrite get_del_other in H by exact Q; exact H]. Qed.
Lemma bare_reach d : reach true d -> bare d /\ NoDup (map fst (recs d)).
Proof.
  induction 1 as [|d o z d' R [B N] A E]; [split; [intros o x; discriminate|constructor]|]. destruct o as [n a|b|s ex|r i v c|r i v c|r|v]; cbn [apply] in E.
  - injection E as <- <-. split; [intros q x; cbn [set_recs recs get]; destruct (a =? q); [intros [= <-]; reflexivity|apply B]|]. cbn. constructor; [|exact N]. intros X. apply (proj2 A). apply key_get in X. exact X.
  - injection E as <- <-. auto.
  - unfold encode_str in E. destruct (incr d ex) as [d1|] eqn:F; [|discriminate]. injection E as <- <-. pose proof (incr_recs _ _ _ F) as Q. split; [apply (bare_eq d); [exact Q|exact B]|cbn; rewrite Q; exact N].
  - unfold set_field in E. destruct (get r (recs d)) as [x|]; [|discriminate]. destruct (nth_error (fields x) i); [|discriminate]. injection E as <- <-. auto.
  - unfold set_new_field in E. destruct (get r (recs d)) as [x|]; [|discriminate]. destruct (nth_error (fields x) i); [|discriminate]. destruct (store d r i v) as [d1|] eqn:F; [|discriminate]. injection E as <- <-.
    split; [eapply bare_store; eauto|]. unfold store in F. destruct (get r (recs d)); [|discriminate]. injection F as <-. cbn [set_recs recs]. rewrite put_keys. exact N.
  - unfold delete_record in E. destruct (get r (recs d)) as [x|]; [|discriminate]. destruct (negb (back x =? 0)); [injection E as <- <-; auto|].
    destruct (delete_fields d r (fields x)) as [[z1 d1]|] eqn:D; [|discriminate]. destruct (bare_delete _ _ _ _ _ B D) as [Q _]. destruct (z1 =? 0); injection E as <- <-.
    + cbn [set_recs recs]. rewrite Q. split; [intros q y H; apply (B q y); cbn [set_recs recs] in H; try rewrite Q in H; apply (get_del_some _ r); assumption|apply del_nodup, N].
    + split; [apply (bare_eq d); [exact Q|exact B]|rewrite Q; exact N].
  - unfold free_encoded in E. destruct (incr d v) as [d1|] eqn:F; [|discriminate]. destruct (free_value depth d1 v) as [d2|] eqn:F2; [|discriminate]. injection E as <- <-.
    assert (Q : recs d2 = recs d) by (rewrite (free_recs _ _ _ _ F2); apply (incr_recs _ _ _ F)). split; [apply (bare_eq d); [exact Q|exact B]|rewrite Q; exact N].
Qed.
