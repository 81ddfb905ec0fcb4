From Coq Require Import List ZArith Bool Lia.
From Verif Require Import Word64 PoolModel PoolSpec.
Import ListNotations.
Open Scope Z_scope.

Lemma align4_ok p : p <= align4 p < p + 4 /\ align4 p mod 4 = 0.
Proof.
  unfold align4. destruct (Z.eqb_spec (p mod 4) 0) as [E|E]; [lia|]. pose proof (Z.mod_pos_bound p 4). split; [lia|].
  Z.to_euclidean_division_equations; lia.
Qed.

Lemma double_ge n : forall b min r, 0 < b -> double_until n b min = Some r -> b <= r /\ (n <> O -> 2 * b <= r).
Proof.
  induction n as [|n IH]; cbn [double_until]; intros b min r Hb E; [inversion E; split; [lia|congruence]|].
  destruct ((b * 2 <? int_min) || (int_max <? b * 2)); [discriminate|].
  destruct (Z.leb_spec min (b * 2)); [inversion E; subst; split; [lia|intros _; lia]|]. destruct (IH (b * 2) min r ltac:(lia) E) as (A&_). split; [lia|intros _; lia].
Qed.
(** From a positive size the loop stops because the size is enough. *)
Lemma double_reach n : forall b min r, 0 < b -> min < 2 ^ Z.of_nat n * b -> double_until n b min = Some r -> n <> O -> min <= r.
Proof.
  induction n as [|n IH]; cbn [double_until]; intros b min r Hb Hm E Hn; [congruence|].
  destruct ((b * 2 <? int_min) || (int_max <? b * 2)); [discriminate|].
  destruct (Z.leb_spec min (b * 2)); [inversion E; subst; lia|].
  destruct n as [|n]; [change (2 ^ Z.of_nat 1) with 2 in Hm; lia|].
  apply (IH (b * 2) min r); auto; try lia. rewrite Nat2Z.inj_succ, Z.pow_succ_r in Hm by lia. lia.
Qed.
Lemma double_def n : forall b min, 0 < b < 2 ^ 31 -> min <= 2 ^ 31 -> exists r, double_until n b min = Some r /\ r <= 2 ^ 32.
Proof.
  induction n as [|n IH]; cbn [double_until]; intros b min Hb Hm; [exists b; split; [reflexivity|lia]|].
  destruct (Z.ltb_spec (b * 2) int_min); [unfold int_min in *; lia|].
  destruct (Z.ltb_spec int_max (b * 2)); [unfold int_max in *; lia|]. cbn [orb].
  destruct (Z.leb_spec min (b * 2)); [exists (b * 2); split; [reflexivity|lia]|]. apply IH; lia.
Qed.

(** The subareas are disjoint; blocks lie inside them, those of the current one below freeptr. *)
Record pinv (bs : list (Z * Z)) (m : pool) : Prop := {
  pv_pos : forall s, In s (areas m) -> 0 < s_start s <= s_end s;
  pv_sep : ForallOrdPairs (fun s t => separate (s_start s, s_end s - s_start s) (s_start t, s_end t - s_start t)) (areas m);
  pv_free : s_start (cur m) <= freeptr m /\ freeptr m mod 4 = 0;
  pv_in : forall b, In b bs -> 0 < snd b /\ fst b mod 4 = 0 /\
     ((within b (s_start (cur m)) (s_end (cur m)) /\ fst b + snd b <= freeptr m) \/
      exists s, In s (older m) /\ within b (s_start s) (s_end s));
  pv_bs : ForallOrdPairs separate bs;
  pv_size : s_size (cur m) = w32 (s_end (cur m) - s_start (cur m)) /\
            2 ^ Z.of_nat (length (older m)) <= s_end (cur m) - s_start (cur m) <= max_pool;
  pv_old : forall s, In s (older m) -> s_end s - s_start s < 2 ^ 31 }.

Lemma new_inv n a m : 0 < n < 2 ^ 31 -> 0 <= a -> create_pool n a = Some m -> pinv [] m.
Proof.
  unfold create_pool. intros Hn Ha E. destruct (Z.eqb_spec a 0); [discriminate|]. inversion E; subst m.
  pose proof (align4_ok a). split; cbn.
  - intros s [<-|[]]. cbn. lia.
  - repeat constructor.
  - lia.
  - intros b [].
  - constructor.
  - replace (a + n - a) with n by lia. unfold max_pool. rewrite w32_id by lia. lia.
  - intros s [].
Qed.

Lemma extend_inv bs m n a m' : pinv bs m -> 0 < n < 2 ^ 31 -> 0 < s_size (cur m) ->
  (forall size, extend_size m n = Some size -> malloc_ok m size a) ->
  extend_pool m n a = Some (Some m') ->
  pinv bs m' /\ freeptr m' + n <= s_end (cur m') /\ forall b, In b bs -> within b (s_start (cur m')) (s_end (cur m')) -> False.
Proof.
  intros I Hn Hs Ha E. unfold extend_pool in E. destruct (Z.leb_spec (2 ^ 31) (n + 4)); [discriminate|].
  unfold extend_size in Ha. destruct (double_until 100 (s_size (cur m)) (n + 4)) as [bytes|] eqn:D; [|discriminate].
  destruct (Z.ltb_spec max_pool bytes); [discriminate|]. destruct (Z.eqb_spec a 0); [discriminate|].
  destruct (Z.leb_spec 100 (Z.of_nat (S (length (older m))))); [discriminate|]. inversion E; subst m'. clear E.
  destruct (Ha bytes eq_refl) as [->|(A1&A2)]; [congruence|].
  pose proof (double_ge _ _ _ _ Hs D) as (G1&G2). specialize (G2 ltac:(discriminate)).
  assert (G3 : n + 4 <= bytes).
  { apply (double_reach 100 (s_size (cur m)) _ _ Hs); auto; try discriminate. change (2 ^ Z.of_nat 100) with (2 ^ 100). nia. }
  destruct (pv_size _ _ I) as (Z1&Z2).
  assert (Z3 : s_end (cur m) - s_start (cur m) < 2 ^ 31 /\ s_size (cur m) = s_end (cur m) - s_start (cur m)).
  { rewrite Z1 in Hs. destruct (Z.lt_ge_cases (s_end (cur m) - s_start (cur m)) (2 ^ 31)) as [L|L].
    - split; auto. rewrite Z1. apply w32_id. assert (0 < 2 ^ Z.of_nat (length (older m))) by (apply Z.pow_pos_nonneg; lia). lia.
    - exfalso. revert Hs. unfold max_pool in Z2. unfold w32. rewrite <- (Z.mod_add _ (-1)) by lia. rewrite Z.mod_small by lia. lia. }
  pose proof (align4_ok a).
  split; [|split].
  - split; cbn [areas cur older freeptr s_size s_start s_end].
    + intros s [<-|Hin]; cbn; [lia|]. apply (pv_pos _ _ I). exact Hin.
    + constructor; [|apply (pv_sep _ _ I)]. apply Forall_forall. intros s Hin. cbn. replace (a + bytes - a) with bytes by lia. apply A2. exact Hin.
    + lia.
    + intros b Hb. destruct (pv_in _ _ I b Hb) as (B1&B2&[(B3&B4)|(s&B3&B4)]); split; auto; split; auto; right.
      * exists (cur m). simpl. auto.
      * exists s. simpl. auto.
    + apply I.
    + replace (a + bytes - a) with bytes by lia. split; auto. cbn [length]. rewrite Nat2Z.inj_succ, Z.pow_succ_r by lia. lia.
    + intros s [<-|Hin]; [lia|]. apply (pv_old _ _ I). auto.
  - cbn. lia.
  - intros b Hb W. cbn in W. unfold within in W. destruct (pv_in _ _ I b Hb) as (B1&B2&B3).
    assert (S : exists s, In s (areas m) /\ within b (s_start s) (s_end s)).
    { destruct B3 as [(B3&_)|(s&B3&B4)]; [exists (cur m)|exists s]; simpl; auto. }
    destruct S as (s&S1&S2). specialize (A2 s S1). unfold separate, within in *. cbn in A2. lia.
Qed.

Lemma place_inv bs m n : pinv bs m -> 0 < n -> freeptr m + n <= s_end (cur m) ->
  pinv ((freeptr m, n) :: bs) {| freeptr := align4 (freeptr m + n); cur := cur m; older := older m |}.
Proof.
  intros I Hn Hf. pose proof (align4_ok (freeptr m + n)) as (A1&A2). destruct (pv_free _ _ I) as (F1&F2).
  split; cbn [areas cur older freeptr]; try apply I.
  - lia.
  - intros b [<-|Hb]; cbn [fst snd].
    + split; auto. split; auto. left. unfold within. cbn. lia.
    + destruct (pv_in _ _ I b Hb) as (B1&B2&B3). split; auto. split; auto. destruct B3 as [(B3&B4)|B3]; [left; split; [auto|lia]|right; auto].
  - constructor; [|apply (pv_bs _ _ I)]. apply Forall_forall. intros b Hb. unfold separate. cbn.
    destruct (pv_in _ _ I b Hb) as (B1&B2&[(B3&B4)|(s&B3&B4)]); [lia|].
    pose proof (pv_sep _ _ I) as SEP. inversion SEP as [|x l SF SR]; subst. rewrite Forall_forall in SF. specialize (SF s B3).
    unfold separate, within in *. cbn in SF. lia.
Qed.

Lemma w32_pos z : 0 <= z <= max_pool -> 0 < w32 z -> z < 2 ^ 31 /\ w32 z = z.
Proof.
  intros H P. unfold max_pool in H. destruct (Z.lt_ge_cases z (2 ^ 31)).
  - split; auto. apply w32_id. lia.
  - exfalso. unfold w32 in P. rewrite <- (Z.mod_add _ (-1)) in P by lia. rewrite Z.mod_small in P by lia. lia.
Qed.
Lemma double_neg n : forall b min r, b < 0 -> 0 < min -> double_until n b min = Some r ->
  r = b * 2 ^ Z.of_nat n /\ (n <> O -> int_min <= r).
Proof.
  induction n as [|n IH]; cbn [double_until]; intros b min r Hb Hm E.
  - inversion E; subst. change (2 ^ Z.of_nat 0) with 1. split; [lia|congruence].
  - destruct (Z.ltb_spec (b * 2) int_min); [discriminate|]. destruct (Z.ltb_spec int_max (b * 2)); [discriminate|]. cbn [orb] in E.
    destruct (Z.leb_spec min (b * 2)); [lia|]. destruct (IH (b * 2) min r ltac:(lia) Hm E) as (E1&E2).
    rewrite Nat2Z.inj_succ, Z.pow_succ_r by lia. split; [lia|]. intros _. destruct n; [|apply E2; discriminate].
    change (2 ^ Z.of_nat 0) with 1 in E1. lia.
Qed.
Lemma size_pos m n a r : extend_pool m n a = Some r -> 0 < n -> s_size (cur m) <> 0 -> 0 < s_size (cur m).
Proof.
  unfold extend_pool. intros E Hn Hz. destruct (Z.lt_ge_cases 0 (s_size (cur m))); auto. exfalso.
  destruct (Z.leb_spec (2 ^ 31) (n + 4)); [discriminate|].
  destruct (double_until 100 (s_size (cur m)) (n + 4)) as [b|] eqn:D; [|discriminate].
  destruct (double_neg 100 (s_size (cur m)) (n + 4) b ltac:(lia) ltac:(lia) D) as (D1&D2). specialize (D2 ltac:(discriminate)).
  change (2 ^ Z.of_nat 100) with (2 ^ 100) in D1. unfold int_min in D2. lia.
Qed.
Lemma size_nz bs m : pinv bs m -> s_size (cur m) <> 0.
Proof.
  intros I E. destruct (pv_size _ _ I) as (Z1&Z2). rewrite Z1 in E.
  assert (0 < 2 ^ Z.of_nat (length (older m))) by (apply Z.pow_pos_nonneg; lia). unfold max_pool in Z2.
  destruct (Z.lt_ge_cases (s_end (cur m) - s_start (cur m)) (2 ^ 31)).
  - rewrite w32_id in E; lia.
  - unfold w32 in E. rewrite <- (Z.mod_add _ (-1)) in E by lia. rewrite Z.mod_small in E by lia. lia.
Qed.

Lemma alloc_inv bs m n a p m' : pinv bs m -> n < 2 ^ 31 ->
  (forall size, extend_size m n = Some size -> malloc_ok m size a) ->
  alloc_pool m n a = MOk p m' -> pinv ((p, n) :: bs) m'.
Proof.
  intros I Hn Ha E. unfold alloc_pool in E. destruct (Z.leb_spec n 0); [discriminate|].
  destruct (Z.ltb_spec (s_end (cur m)) (freeptr m + n)) as [L|L].
  - destruct (extend_pool m n a) as [[m1|]|] eqn:X; inversion E; subst p m'.
    pose proof (size_pos _ _ _ _ X ltac:(lia) (size_nz _ _ I)) as P.
    destruct (extend_inv bs m n a m1 I ltac:(lia) P Ha X) as (I1&F&_). apply place_inv; auto; lia.
  - inversion E; subst p m'. apply place_inv; auto; lia.
Qed.
Lemma prun_inv bs m : prun bs m -> pinv bs m.
Proof. induction 1; [eapply new_inv; eauto|eapply alloc_inv; eauto]. Qed.

Lemma pool_disjoint bs m : prun bs m -> ForallOrdPairs separate bs.
Proof. intros R. apply (prun_inv _ _ R). Qed.
Lemma pool_inside bs m b : prun bs m -> In b bs ->
  0 < snd b /\ fst b mod 4 = 0 /\ exists s, In s (areas m) /\ within b (s_start s) (s_end s).
Proof.
  intros R Hb. destruct (pv_in _ _ (prun_inv _ _ R) b Hb) as (B1&B2&[(B3&B4)|(s&B3&B4)]); split; auto; split; auto;
    [exists (cur m)|exists s]; simpl; auto.
Qed.
(** As long as the current subarea is below 2^31 bytes, nothing undefined happens. *)
Lemma pool_defined bs m n a : prun bs m -> n < 2 ^ 31 - 4 -> s_end (cur m) - s_start (cur m) < 2 ^ 31 -> alloc_pool m n a <> MUB.
Proof.
  intros R Hn Hs. pose proof (prun_inv _ _ R) as I. unfold alloc_pool. destruct (Z.leb_spec n 0); [discriminate|].
  destruct (Z.ltb_spec (s_end (cur m)) (freeptr m + n)); [|discriminate].
  destruct (pv_size _ _ I) as (Z1&Z2). assert (P : 0 < 2 ^ Z.of_nat (length (older m))) by (apply Z.pow_pos_nonneg; lia).
  rewrite w32_id in Z1 by lia. unfold extend_pool. destruct (Z.leb_spec (2 ^ 31) (n + 4)); [lia|].
  destruct (double_def 100 (s_size (cur m)) (n + 4)) as (r&E&B); try lia. rewrite E.
  destruct (Z.ltb_spec max_pool r); [discriminate|]. destruct (a =? 0); [discriminate|].
  destruct (Z.leb_spec 100 (Z.of_nat (S (length (older m))))) as [L|L]; [|discriminate].
  exfalso. assert (2 ^ 40 <= 2 ^ Z.of_nat (length (older m))) by (apply Z.pow_le_mono_r; lia). unfold max_pool in Z2. lia.
Qed.
