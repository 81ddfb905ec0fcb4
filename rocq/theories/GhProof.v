(** Invariant of the extendible hash table *)
From Coq Require Import ZArith Lia List Bool Permutation Arith.
From Verif Require Import GhModel.
Import ListNotations.
Open Scope Z_scope.

Section GhP.
Variable h : Z -> Z.

Definition inclass (l i : Z) (p : Z * Z) : bool := h (fst p) mod 2 ^ l =? i mod 2 ^ l.
Definition rng (L i : Z) := 0 <= i < 2 ^ L.

Record Inv (t : table) (hist : list (Z * Z)) : Prop := mkI {
  IL : 1 <= tlevel t <= 22;
  ID : forall i b, rng (tlevel t) i -> dir t i = Some b ->
       (b < next t)%nat /\ 1 <= blevel (heap t b) <= tlevel t /\
       forall i', rng (tlevel t) i' -> (dir t i' = Some b <-> i' mod 2 ^ blevel (heap t b) = i mod 2 ^ blevel (heap t b));
  IP : forall i, rng (tlevel t) i ->
       match dir t i with
       | Some b => Permutation (items (heap t b)) (filter (inclass (blevel (heap t b)) i) hist)
       | None => filter (inclass (tlevel t) i) hist = []
       end }.
(** All buckets but [b] are within the capacity *)
Definition Small (t : table) (b : nat) : Prop :=
  forall i b', rng (tlevel t) i -> dir t i = Some b' -> b' <> b -> (length (items (heap t b')) <= 7)%nat.
Definition Reach (t : table) (b : nat) : Prop := exists i, rng (tlevel t) i /\ dir t i = Some b.
Definition crowd (hist : list (Z * Z)) : Prop := exists r, (8 <= length (filter (fun p => Z.eqb (h (fst p) mod 2 ^ 22) r) hist))%nat.

(** ** Arithmetic *)
Lemma pow_pos l : 0 <= l -> 0 < 2 ^ l.
Proof. intros. apply Z.pow_pos_nonneg; lia. Qed.
Lemma mod_rng x L : 0 <= L -> rng L (x mod 2 ^ L).
Proof. intros H. apply Z.mod_pos_bound, pow_pos, H. Qed.
Lemma mod_small i L : rng L i -> i mod 2 ^ L = i.
Proof. intros H. apply Z.mod_small, H. Qed.
Lemma mod_mod x l L : 0 <= l <= L -> (x mod 2 ^ L) mod 2 ^ l = x mod 2 ^ l.
Proof.
  intros H. symmetry. apply Znumtheory.Zmod_div_mod; [apply pow_pos; lia|apply pow_pos; lia|].
  exists (2 ^ (L - l)). rewrite <- Z.pow_add_r by lia. f_equal. lia.
Qed.
Lemma mod_coarse x y l L : 0 <= l <= L -> x mod 2 ^ L = y mod 2 ^ L -> x mod 2 ^ l = y mod 2 ^ l.
Proof. intros H E. rewrite <- (mod_mod x l L), <- (mod_mod y l L), E by lia. reflexivity. Qed.
Lemma mod_bit x e : 0 <= e -> x mod 2 ^ (e + 1) = x mod 2 ^ e + (if Z.testbit x e then 2 ^ e else 0).
Proof.
  intros H. rewrite Z.pow_add_r by lia. change (2 ^ 1) with 2. rewrite Z.rem_mul_r; [|pose proof (pow_pos e H); lia|lia].
  rewrite <- Z.testbit_spec' by lia. destruct (Z.testbit x e); cbn [Z.b2z]; lia.
Qed.
Lemma pow_S e : 0 <= e -> 2 ^ (e + 1) = 2 * 2 ^ e.
Proof. intros. rewrite Z.pow_add_r by lia. change (2 ^ 1) with 2. lia. Qed.

Lemma filter_all {A} (f : A -> bool) l : (forall x, In x l -> f x = true) -> filter f l = l.
Proof. induction l as [|a l IH]; intros H; [reflexivity|]. cbn. rewrite (H a) by (left; reflexivity). rewrite IH; [reflexivity|]. intros x I. apply H. right. exact I. Qed.
Lemma filter_none {A} (f : A -> bool) l : (forall x, In x l -> f x = false) -> filter f l = [].
Proof. induction l as [|a l IH]; intros H; [reflexivity|]. cbn. rewrite (H a) by (left; reflexivity). apply IH. intros x I. apply H. right. exact I. Qed.
Lemma filter_and {A} (f g : A -> bool) l : filter f (filter g l) = filter (fun x => g x && f x) l.
Proof. induction l as [|a l IH]; [reflexivity|]. cbn. destruct (g a); cbn; [destruct (f a); rewrite IH; reflexivity|exact IH]. Qed.
Lemma filter_perm {A} (f : A -> bool) l m : Permutation l m -> Permutation (filter f l) (filter f m).
Proof.
  induction 1 as [|x l m P IH|x y l|l m k P1 IH1 P2 IH2]; cbn.
  - constructor.
  - destruct (f x); [constructor|]; exact IH.
  - destruct (f x), (f y); try apply Permutation_refl. apply perm_swap.
  - eapply Permutation_trans; eassumption.
Qed.
Lemma filter_len {A} (f : A -> bool) l : (length (filter f l) + length (filter (fun x => negb (f x)) l) = length l)%nat.
Proof. induction l as [|a l IH]; [reflexivity|]. cbn. destruct (f a); cbn; lia. Qed.

(** ** The loop that splits *)
Definition bitf (e : Z) (p : Z * Z) : bool := Z.testbit (h (fst p)) e.
Lemma split_loop_ok e : forall n old new, (n <= length old)%nat ->
  (length new + length (filter (bitf e) (firstn n old)) <= 8)%nat ->
  split_loop h n e old new =
  Ok (filter (fun p => negb (bitf e p)) (firstn n old) ++ skipn n old, new ++ rev (filter (bitf e) (firstn n old))).
Proof.
  induction n as [|n IH]; intros old new Hn Hl.
  - cbn. rewrite app_nil_r. reflexivity.
  - cbn [split_loop]. destruct (nth_error old n) as [[k v]|] eqn:E; [|apply nth_error_None in E; lia].
    apply nth_error_split in E as (l1 & l2 & -> & <-).
    assert (F : firstn (length l1) (l1 ++ (k, v) :: l2) = l1) by (rewrite firstn_app, Nat.sub_diag, firstn_all; cbn; apply app_nil_r).
    assert (F1 : firstn (S (length l1)) (l1 ++ (k, v) :: l2) = l1 ++ [(k, v)]).
    { rewrite firstn_app, firstn_all2 by lia. replace (S (length l1) - length l1)%nat with 1%nat by lia. reflexivity. }
    assert (G1 : skipn (S (length l1)) (l1 ++ (k, v) :: l2) = l2).
    { rewrite skipn_app, skipn_all2 by lia. replace (S (length l1) - length l1)%nat with 1%nat by lia. reflexivity. }
    assert (G : skipn (length l1) (l1 ++ (k, v) :: l2) = (k, v) :: l2).
    { rewrite skipn_app, skipn_all, Nat.sub_diag. reflexivity. }
    rewrite F1, filter_app, app_length in Hl. rewrite F1, G1, !filter_app. cbn [filter] in *. change (bitf e (k, v)) with (Z.testbit (h k) e) in *.
    destruct (Z.testbit (h k) e) eqn:B; cbn [negb length] in *.
    + unfold add_to_bucket, BUCKETCAP. replace (length new <=? 7)%nat with true by (symmetry; apply Nat.leb_le; lia). cbn [bind].
      unfold remove_from_bucket. rewrite F, G1. rewrite IH.
      * rewrite firstn_app, Nat.sub_diag, firstn_all, skipn_app, skipn_all, Nat.sub_diag. cbn. rewrite !app_nil_r, rev_app_distr, <- app_assoc. reflexivity.
      * rewrite app_length. lia.
      * rewrite firstn_app, Nat.sub_diag, firstn_all, app_length. cbn. rewrite app_nil_r. lia.
    + rewrite IH; [|rewrite app_length; lia|rewrite F; lia]. rewrite F, G. rewrite app_nil_r, <- app_assoc. reflexivity.
Qed.

(** ** The loop over the directory *)
Lemma dir_loop_ok level tl c b nb : 0 <= level -> 0 <= c -> forall n j d, 0 <= j ->
  (forall j', j <= j' < j + Z.of_nat n -> j' * 2 ^ level + c < 2 ^ tl /\ d (j' * 2 ^ level + c) = Some b) ->
  exists d', dir_loop n j level tl c b nb d = Ok d' /\
    (forall j', j <= j' < j + Z.of_nat n -> d' (j' * 2 ^ level + c) = Some nb) /\
    (forall i, (forall j', j <= j' < j + Z.of_nat n -> i <> j' * 2 ^ level + c) -> d' i = d i).
Proof.
  intros Hl Hc. induction n as [|n IH]; intros j d Hj H.
  - exists d. split; [reflexivity|]. split; [intros j' ?; lia|reflexivity].
  - cbn [dir_loop]. destruct (H j ltac:(lia)) as [R E]. pose proof (pow_pos level Hl) as P.
    assert (0 <= j * 2 ^ level) by (apply Z.mul_nonneg_nonneg; lia).
    replace (0 <=? j * 2 ^ level + c) with true by (symmetry; apply Z.leb_le; lia).
    replace (j * 2 ^ level + c <? 2 ^ tl) with true by (symmetry; apply Z.ltb_lt; lia). cbn [andb]. rewrite E, Nat.eqb_refl.
    assert (Inj : forall j1 j2, j1 * 2 ^ level + c = j2 * 2 ^ level + c -> j1 = j2) by (intros; nia).
    destruct (IH (j + 1) (updd d (j * 2 ^ level + c) nb)) as (d' & D1 & D2 & D3); [lia| |].
    { intros j' R'. destruct (H j' ltac:(lia)) as [A B]. split; [exact A|]. unfold updd.
      destruct (Z.eqb_spec (j' * 2 ^ level + c) (j * 2 ^ level + c)) as [Q|Q]; [apply Inj in Q; lia|exact B]. }
    exists d'. split; [exact D1|]. split.
    + intros j' R'. destruct (Z.eq_dec j' j) as [->|N].
      * rewrite D3; [unfold updd; rewrite Z.eqb_refl; reflexivity|]. intros j'' R'' Q. apply Inj in Q. lia.
      * apply D2. lia.
    + intros i Q. rewrite D3 by (intros j' R'; apply Q; lia). unfold updd.
      destruct (Z.eqb_spec i (j * 2 ^ level + c)) as [->|N]; [destruct (Q j ltac:(lia) eq_refl)|reflexivity].
Qed.

(** ** Growing *)
Definition half (L i : Z) : Z := if i <? 2 ^ L then i else i - 2 ^ L.
Lemma half_rng L i : 0 <= L -> rng (L + 1) i -> rng L (half L i).
Proof. intros H. unfold rng, half. rewrite pow_S by lia. destruct (Z.ltb_spec i (2 ^ L)); lia. Qed.
Lemma half_mod L l i : 0 <= l <= L -> half L i mod 2 ^ l = i mod 2 ^ l.
Proof.
  intros H. unfold half. destruct (Z.ltb_spec i (2 ^ L)); [reflexivity|].
  assert (E : 2 ^ L = 2 ^ (L - l) * 2 ^ l) by (rewrite <- Z.pow_add_r by lia; f_equal; lia).
  rewrite E. replace (i - 2 ^ (L - l) * 2 ^ l) with (i + (- 2 ^ (L - l)) * 2 ^ l) by lia. apply Z.mod_add.
  pose proof (pow_pos l ltac:(lia)). lia.
Qed.
Lemma grow_ok t hist : Inv t hist -> tlevel t < 22 -> exists t', grow t = Ok t' /\ tlevel t' = tlevel t + 1 /\
  heap t' = heap t /\ next t' = next t /\ Inv t' hist /\ (forall b, Small t b -> Small t' b) /\ (forall b, Reach t b -> Reach t' b).
Proof.
  intros [L D P] H. unfold grow, MAXLEVEL. replace (tlevel t + 1 >=? 23) with false by (symmetry; rewrite Z.geb_leb; apply Z.leb_gt; lia).
  eexists. split; [reflexivity|]. cbn [tlevel heap next dir].
  assert (HR : forall i, rng (tlevel t + 1) i -> rng (tlevel t) (half (tlevel t) i)) by (intros i; apply half_rng; lia).
  assert (Q : forall i, (if i <? 2 ^ tlevel t then dir t i else dir t (i - 2 ^ tlevel t)) = dir t (half (tlevel t) i)).
  { intros i. unfold half. destruct (i <? 2 ^ tlevel t); reflexivity. }
  split; [reflexivity|]. split; [reflexivity|]. split; [reflexivity|]. split; [|split].
  - constructor; cbn [tlevel heap next dir]; [lia| |].
    + intros i b R E. rewrite Q in E. destruct (D _ _ (HR _ R) E) as (A & B & C).
      split; [exact A|]. split; [lia|]. intros i' R'. rewrite Q, C by (apply HR; exact R').
      rewrite !half_mod by lia. reflexivity.
    + intros i R. rewrite Q. pose proof (P _ (HR _ R)) as X. destruct (dir t (half (tlevel t) i)) as [b|] eqn:E.
      * destruct (D _ _ (HR _ R) E) as (A & B & C). unfold inclass in *. rewrite half_mod in X by lia. exact X.
      * apply filter_none. intros p I. destruct (inclass (tlevel t + 1) i p) eqn:F; [|reflexivity]. exfalso.
        assert (Y : In p (filter (inclass (tlevel t) (half (tlevel t) i)) hist)).
        { apply filter_In. split; [exact I|]. unfold inclass in *. rewrite half_mod by lia. apply Z.eqb_eq in F. apply Z.eqb_eq.
          apply (mod_coarse _ _ _ (tlevel t + 1)); [lia|exact F]. }
        rewrite X in Y. destruct Y.
  - intros b S i b' R E N. cbn [tlevel heap next dir] in *. rewrite Q in E. exact (S _ _ (HR _ R) E N).
  - intros b (i & R & E). exists i. cbn [tlevel dir]. split.
    + unfold rng in *. rewrite pow_S by lia. lia.
    + rewrite Q. unfold half. replace (i <? 2 ^ tlevel t) with true; [exact E|]. symmetry. apply Z.ltb_lt. apply R.
Qed.

(** ** Splitting a bucket below the level of the table *)
Lemma split_core t hist b : Inv t hist -> Small t b -> Reach t b -> (length (items (heap t b)) = 8)%nat ->
  blevel (heap t b) < tlevel t -> exists t' nb, splitbucket h t b = Ok (t', nb) /\ Inv t' hist /\
  let b' := if (length (items (heap t' nb)) <=? 7)%nat then b else nb in
  Small t' b' /\ Reach t' b' /\ (length (items (heap t' b')) <= 8)%nat /\ blevel (heap t' b') = blevel (heap t b) + 1.
Proof.
  intros I Sm (i0 & R0 & E0) Len Lt. destruct I as [L D P]. destruct (D _ _ R0 E0) as (Nb & Lb & Cl).
  pose proof (P _ R0) as Pb. rewrite E0 in Pb. set (e := blevel (heap t b)) in *. set (its := items (heap t b)) in *.
  assert (In1 : forall p, In p its -> h (fst p) mod 2 ^ e = i0 mod 2 ^ e).
  { intros p Ip. apply (Permutation_in _ Pb), filter_In in Ip as [_ Ip]. apply Z.eqb_eq, Ip. }
  set (low := i0 mod 2 ^ e) in *. pose proof (mod_rng i0 e ltac:(lia)) as Rl. fold low in Rl. unfold rng in Rl.
  unfold splitbucket. fold e. replace (e =? tlevel t) with false by (symmetry; apply Z.eqb_neq; lia). cbn [bind]. fold e its.
  destruct its as [|[k0 v0] its0] eqn:Eits; [discriminate|]. rewrite <- Eits in *.
  assert (K0 : h k0 mod 2 ^ e = low) by (apply (In1 (k0, v0)); rewrite Eits; left; reflexivity). rewrite K0.
  rewrite split_loop_ok; [|lia|rewrite firstn_all; cbn [length]; pose proof (filter_len (bitf e) its); lia].
  rewrite firstn_all, skipn_all, app_nil_r. cbn [bind app].
  set (old := filter (fun p => negb (bitf e p)) its). set (new := rev (filter (bitf e) its)).
  set (c := 2 ^ e + low). pose proof (pow_pos e ltac:(lia)) as Pe. pose proof (pow_S e ltac:(lia)) as PS.
  assert (HD : exists d, (if e + 1 =? tlevel t then (if c <? 2 ^ tlevel t then Ok (updd (dir t) c (next t)) else Ub)
            else dir_loop (Z.to_nat (2 ^ (tlevel t - (e + 1)))) 0 (e + 1) (tlevel t) c b (next t) (dir t)) = Ok d /\
     forall i, rng (tlevel t) i -> d i = if i mod 2 ^ (e + 1) =? c then Some (next t) else dir t i).
  { destruct (Z.eqb_spec (e + 1) (tlevel t)) as [Q|Q].
    - replace (c <? 2 ^ tlevel t) with true by (symmetry; apply Z.ltb_lt; rewrite <- Q; unfold c; lia).
      eexists. split; [reflexivity|]. intros i R. rewrite Q, mod_small by exact R. reflexivity.
    - pose proof (pow_pos (tlevel t - (e + 1)) ltac:(lia)) as P1.
      assert (PL : 2 ^ tlevel t = 2 ^ (tlevel t - (e + 1)) * 2 ^ (e + 1)) by (rewrite <- Z.pow_add_r by lia; f_equal; lia).
      destruct (dir_loop_ok (e + 1) (tlevel t) c b (next t) ltac:(lia) ltac:(unfold c; lia) (Z.to_nat (2 ^ (tlevel t - (e + 1)))) 0 (dir t) ltac:(lia)) as (d & D1 & D2 & D3).
      { intros j' R'. rewrite Z2Nat.id in R' by lia. assert (B : rng (tlevel t) (j' * 2 ^ (e + 1) + c)) by (unfold rng, c; nia).
        split; [apply B|]. apply (Cl _ B). unfold c. rewrite PS. replace (j' * (2 * 2 ^ e) + (2 ^ e + low)) with (low + (2 * j' + 1) * 2 ^ e) by lia.
        rewrite Z.mod_add by lia. unfold low. apply Z.mod_mod. lia. }
      exists d. split; [exact D1|]. intros i R. rewrite Z2Nat.id in D2, D3 by lia. destruct (Z.eqb_spec (i mod 2 ^ (e + 1)) c) as [X|X].
      + pose proof (Z.div_mod i (2 ^ (e + 1)) ltac:(lia)) as DM. rewrite X in DM. rewrite DM, Z.mul_comm. apply D2.
        unfold rng in R. split; [apply Z.div_pos; lia|]. apply Z.div_lt_upper_bound; [lia|]. lia.
      + apply D3. intros j' R' ->. apply X. rewrite Z.add_comm, Z.mod_add by lia. apply Z.mod_small. unfold c. lia. }
  destruct HD as (d & -> & Hd). cbn [bind]. eexists. eexists. split; [reflexivity|].
  set (hp := updh (updh (heap t) b (mkB (e + 1) old)) (next t) (mkB (e + 1) new)).
  assert (Hb : hp b = mkB (e + 1) old) by (unfold hp, updh; destruct (Nat.eqb_spec b (next t)); [lia|rewrite Nat.eqb_refl; reflexivity]).
  assert (Hn : hp (next t) = mkB (e + 1) new) by (unfold hp, updh; rewrite Nat.eqb_refl; reflexivity).
  assert (Ho : forall b', b' <> b -> (b' < next t)%nat -> hp b' = heap t b').
  { intros b' N1 N2. unfold hp, updh. destruct (Nat.eqb_spec b' (next t)); [lia|]. destruct (Nat.eqb_spec b' b); [contradiction|reflexivity]. }
  assert (Cls : forall i, i mod 2 ^ e = low -> i mod 2 ^ (e + 1) <> c -> i mod 2 ^ (e + 1) = low).
  { intros i X Y. rewrite mod_bit in * by lia. rewrite X in *. unfold c in Y. destruct (Z.testbit i e); lia. }
  assert (Cl1 : forall i, i mod 2 ^ (e + 1) = c -> i mod 2 ^ e = low).
  { intros i X. rewrite <- (mod_mod i e (e + 1)), X by lia. unfold c. replace (2 ^ e + low) with (low + 1 * 2 ^ e) by lia. rewrite Z.mod_add by lia. apply Z.mod_small. lia. }
  assert (Cl0 : forall i, i mod 2 ^ (e + 1) = low -> i mod 2 ^ e = low).
  { intros i X. rewrite <- (mod_mod i e (e + 1)), X by lia. apply Z.mod_small. lia. }
  assert (Cneq : low <> c) by (unfold c; lia).
  assert (INV : Inv (mkT (tlevel t) d hp (S (next t))) hist).
  { constructor; cbn [tlevel dir heap next]; [exact L| |].
    - intros i b' R E. rewrite (Hd i R) in E. destruct (Z.eqb_spec (i mod 2 ^ (e + 1)) c) as [X|X].
      + injection E as <-. rewrite Hn. cbn [blevel]. split; [lia|]. split; [lia|]. intros i' R'. rewrite (Hd i' R').
        destruct (Z.eqb_spec (i' mod 2 ^ (e + 1)) c) as [X'|X'].
        * split; intros _; [congruence|reflexivity].
        * split; intros Y; [destruct (D _ _ R' Y); lia|congruence].
      + destruct (D _ _ R E) as (A & B & C). destruct (Nat.eq_dec b' b) as [->|N].
        * rewrite Hb. cbn [blevel]. split; [lia|]. split; [lia|]. apply Cl in E; [|exact R]. apply Cls in X; [|exact E].
          intros i' R'. rewrite (Hd i' R'), X. destruct (Z.eqb_spec (i' mod 2 ^ (e + 1)) c) as [X'|X'].
          -- split; intros Y; [injection Y; lia|congruence].
          -- rewrite (Cl i' R'). split; [intros Y; apply Cls; assumption|apply Cl0].
        * rewrite (Ho b' N A). split; [lia|]. split; [exact B|]. intros i' R'. rewrite (Hd i' R'), <- (C i' R').
          destruct (Z.eqb_spec (i' mod 2 ^ (e + 1)) c) as [X'|X']; [|reflexivity].
          split; intros Y; [injection Y; lia|]. apply Cl1, (Cl i' R') in X'. congruence.
    - intros i R. rewrite (Hd i R). destruct (Z.eqb_spec (i mod 2 ^ (e + 1)) c) as [X|X].
      + rewrite Hn. cbn [blevel items]. unfold new. eapply Permutation_trans; [apply Permutation_sym, Permutation_rev|].
        eapply Permutation_trans; [apply filter_perm, Pb|]. rewrite filter_and. apply Permutation_refl'. apply filter_ext. intros p.
        unfold inclass, bitf. rewrite X, mod_bit by lia. fold low.
        unfold c. destruct (Z.eqb_spec (h (fst p) mod 2 ^ e) low) as [Y|Y]; cbn [andb].
        * rewrite Y. destruct (Z.testbit (h (fst p)) e); symmetry; [apply Z.eqb_eq|apply Z.eqb_neq]; lia.
        * symmetry. apply Z.eqb_neq. pose proof (mod_rng (h (fst p)) e ltac:(lia)) as Z1. unfold rng in Z1. destruct (Z.testbit (h (fst p)) e); lia.
      + pose proof (P i R) as Pi. destruct (dir t i) as [b'|] eqn:E; [|exact Pi]. destruct (D _ _ R E) as (A & B & C).
        destruct (Nat.eq_dec b' b) as [->|N]; [|rewrite (Ho b' N A); exact Pi].
        rewrite Hb. cbn [blevel items]. apply Cl in E; [|exact R]. apply Cls in X; [|exact E].
        unfold old. eapply Permutation_trans; [apply filter_perm, Pb|]. rewrite filter_and. apply Permutation_refl'. apply filter_ext. intros p.
        unfold inclass, bitf. rewrite X, mod_bit by lia. fold low.
        destruct (Z.eqb_spec (h (fst p) mod 2 ^ e) low) as [Y|Y]; cbn [andb].
        * rewrite Y. destruct (Z.testbit (h (fst p)) e); symmetry; cbn [negb]; [apply Z.eqb_neq|apply Z.eqb_eq]; lia.
        * symmetry. apply Z.eqb_neq. pose proof (mod_rng (h (fst p)) e ltac:(lia)) as Z1. unfold rng in Z1. destruct (Z.testbit (h (fst p)) e); lia. }
  split; [exact INV|]. cbn [heap]. rewrite Hn. cbn [items].
  assert (Ln : (length old + length new = 8)%nat).
  { unfold old, new. rewrite rev_length. pose proof (filter_len (bitf e) its). lia. }
  assert (P2 : 2 ^ (e + 1) <= 2 ^ tlevel t) by (apply Z.pow_le_mono_r; lia).
  destruct (Nat.leb_spec (length new) 7) as [Y|Y]; cbn zeta.
  - split; [|split; [|split]].
    + intros i b' R E N. cbn [tlevel dir heap] in *. rewrite (Hd i R) in E. destruct (i mod 2 ^ (e + 1) =? c).
      * injection E as <-. rewrite Hn. exact Y.
      * destruct (D _ _ R E) as (A & _). rewrite (Ho b' N A). exact (Sm _ _ R E N).
    + exists low. cbn [tlevel dir]. assert (R : rng (tlevel t) low) by (unfold rng; lia). split; [exact R|]. rewrite (Hd low R).
      rewrite (Z.mod_small low (2 ^ (e + 1))) by lia. destruct (Z.eqb_spec low c); [contradiction|]. apply (Cl low R). apply Z.mod_small. lia.
    + rewrite Hb. cbn [items]. lia.
    + rewrite Hb. reflexivity.
  - split; [|split; [|split]].
    + intros i b' R E N. cbn [tlevel dir heap] in *. rewrite (Hd i R) in E. destruct (i mod 2 ^ (e + 1) =? c).
      * injection E as <-. contradiction.
      * destruct (D _ _ R E) as (A & _). destruct (Nat.eq_dec b' b) as [->|N']; [rewrite Hb; cbn [items]; lia|].
        rewrite (Ho b' N' A). exact (Sm _ _ R E N').
    + exists c. cbn [tlevel dir]. assert (R : rng (tlevel t) c) by (unfold rng, c in *; lia). split; [exact R|]. rewrite (Hd c R).
      rewrite (Z.mod_small c (2 ^ (e + 1))) by (unfold c; lia). rewrite Z.eqb_refl. reflexivity.
    + rewrite Hn. cbn [items]. lia.
    + rewrite Hn. reflexivity.
Qed.

Lemma small_all t b : Small t b -> (length (items (heap t b)) <= 7)%nat ->
  forall i b', rng (tlevel t) i -> dir t i = Some b' -> (length (items (heap t b')) <= 7)%nat.
Proof. intros S H i b' R E. destruct (Nat.eq_dec b' b) as [->|N]; [exact H|exact (S i b' R E N)]. Qed.

(** What a table is between the operations *)
Definition Good (t : table) (hist : list (Z * Z)) : Prop :=
  Inv t hist /\ forall i b, rng (tlevel t) i -> dir t i = Some b -> (length (items (heap t b)) <= 7)%nat.

Lemma loop_ok hist : forall n t b, Inv t hist -> Small t b -> Reach t b -> (length (items (heap t b)) <= 8)%nat ->
  (23 <= Z.of_nat n + blevel (heap t b)) ->
  (exists t', add_loop h n t b = Ok t' /\ Good t' hist) \/ (add_loop h n t b = Fail /\ crowd hist).
Proof.
  induction n as [|n IH]; intros t b I S R Len F.
  - destruct R as (i & R & E). destruct (ID _ _ I _ _ R E) as (_ & B & _). pose proof (IL _ _ I). lia.
  - cbn [add_loop]. unfold BUCKETCAP. destruct (Nat.leb_spec (length (items (heap t b))) 7) as [Y|Y].
    + left. exists t. split; [reflexivity|]. split; [exact I|]. apply (small_all t b S Y).
    + assert (L8 : (length (items (heap t b)) = 8)%nat) by lia.
      assert (X : (exists t' nb, splitbucket h t b = Ok (t', nb) /\ Inv t' hist /\
          let b' := if (length (items (heap t' nb)) <=? 7)%nat then b else nb in
          Small t' b' /\ Reach t' b' /\ (length (items (heap t' b')) <= 8)%nat /\ blevel (heap t' b') = blevel (heap t b) + 1) \/
          (splitbucket h t b = Fail /\ crowd hist)).
      { pose proof R as (i & Ri & E). destruct (ID _ _ I _ _ Ri E) as (_ & B & _). pose proof (IL _ _ I) as L.
        destruct (Z.eq_dec (blevel (heap t b)) (tlevel t)) as [Q|Q].
        - destruct (Z.eq_dec (tlevel t) 22) as [Q2|Q2].
          + right. split; [unfold splitbucket, grow; rewrite Q, Z.eqb_refl, Q2; reflexivity|].
            exists (i mod 2 ^ 22). pose proof (IP _ _ I i Ri) as P. rewrite E in P. apply Permutation_length in P.
            rewrite Q, Q2 in P. unfold inclass in P. lia.
          + left. destruct (grow_ok t hist I ltac:(lia)) as (t1 & G & G1 & G2 & G3 & G4 & G5 & G6).
            assert (T : splitbucket h t b = splitbucket h t1 b).
            { unfold splitbucket. rewrite G2, Q, Z.eqb_refl, G, G1. replace (tlevel t =? tlevel t + 1) with false by (symmetry; apply Z.eqb_neq; lia).
              cbn [bind]. rewrite G1, G2, G3. rewrite Q. reflexivity. }
            rewrite T, <- G2. rewrite <- G2 in L8. apply split_core; [exact G4|apply G5, S|apply G6, R|exact L8|]. rewrite G1, G2. lia.
        - left. apply split_core; try assumption. lia. }
      destruct X as [(t' & nb & E & I' & S' & R' & L' & B')|[E C]].
      * rewrite E. cbn [bind]. apply IH; [exact I'|exact S'|exact R'|exact L'|]. rewrite B'. lia.
      * right. rewrite E. split; [reflexivity|exact C].
Qed.

Lemma filter_snoc {A} (f : A -> bool) l x : filter f (l ++ [x]) = filter f l ++ (if f x then [x] else []).
Proof. rewrite filter_app. cbn. destruct (f x); reflexivity. Qed.

Lemma addkey_ok t hist k v : Good t hist ->
  (exists t', addkey h t k v = Ok t' /\ Good t' (hist ++ [(k, v)])) \/ (addkey h t k v = Fail /\ crowd (hist ++ [(k, v)])).
Proof.
  intros [I S]. pose proof (IL _ _ I) as L. unfold addkey. pose proof (mod_rng (h k) (tlevel t) ltac:(lia)) as R.
  set (j := h k mod 2 ^ tlevel t) in *. destruct (dir t j) as [b|] eqn:E.
  - pose proof (S _ _ R E) as Lb. unfold add_to_bucket, BUCKETCAP. replace (length (items (heap t b)) <=? 7)%nat with true by (symmetry; apply Nat.leb_le; lia).
    cbn [bind]. destruct (ID _ _ I _ _ R E) as (Nb & Bb & Cl).
    set (l' := items (heap t b) ++ [(k, v)]). set (t1 := mkT _ _ _ _).
    assert (Hl : forall b', blevel (heap t1 b') = blevel (heap t b')).
    { intros b'. unfold t1, updh. cbn [heap]. destruct (Nat.eqb_spec b' b) as [->|]; reflexivity. }
    assert (Hb : items (heap t1 b) = l') by (unfold t1, updh; cbn [heap]; rewrite Nat.eqb_refl; reflexivity).
    assert (Ho : forall b', b' <> b -> items (heap t1 b') = items (heap t b')).
    { intros b' N. unfold t1, updh; cbn [heap]. destruct (Nat.eqb_spec b' b); [contradiction|reflexivity]. }
    apply loop_ok.
    + constructor; [exact L| |].
      * intros i b' Ri Ei. destruct (ID _ _ I i b' Ri Ei) as (A & B & C). rewrite Hl. split; [exact A|]. split; [exact B|exact C].
      * intros i Ri. pose proof (IP _ _ I i Ri) as P. change (dir t1 i) with (dir t i). change (tlevel t1) with (tlevel t).
        destruct (dir t i) as [b'|] eqn:Ei.
        -- destruct (ID _ _ I i b' Ri Ei) as (A & B & C). rewrite Hl, filter_snoc. unfold inclass at 2. cbn [fst].
           destruct (Z.eqb_spec (h k mod 2 ^ blevel (heap t b')) (i mod 2 ^ blevel (heap t b'))) as [X|X].
           ++ assert (b' = b). { assert (Z1 : dir t j = Some b') by (apply (C j R); unfold j; rewrite mod_mod by lia; exact X). congruence. }
              subst b'. rewrite Hb. apply Permutation_app_tail, P.
           ++ rewrite app_nil_r. rewrite Ho; [exact P|]. intros ->. apply X. rewrite <- (mod_mod (h k) _ (tlevel t)) by lia. fold j.
              symmetry. apply (Cl i Ri), Ei.
        -- rewrite filter_snoc, P. unfold inclass. cbn [fst app]. fold j. rewrite (mod_small i) by exact Ri.
           destruct (Z.eqb_spec j i); [congruence|reflexivity].
    + intros i b' Ri Ei N. rewrite (Ho b' N). exact (S i b' Ri Ei).
    + exists j. split; [exact R|exact E].
    + rewrite Hb. unfold l'. rewrite app_length. cbn. lia.
    + rewrite Hl. unfold MAXLEVEL. rewrite Z2Nat.id by lia. lia.
  - left. eexists. split; [reflexivity|]. set (t1 := mkT _ _ _ _).
    assert (Hd : forall i, dir t1 i = if i =? j then Some (next t) else dir t i) by reflexivity.
    assert (Hn : heap t1 (next t) = mkB (tlevel t) [(k, v)]) by (unfold t1, updh; cbn [heap]; rewrite Nat.eqb_refl; reflexivity).
    assert (Ho : forall b, (b < next t)%nat -> heap t1 b = heap t b).
    { intros b N. unfold t1, updh; cbn [heap]. destruct (Nat.eqb_spec b (next t)); [lia|reflexivity]. }
    split; [constructor; [exact L| |]|].
    + intros i b Ri Ei. change (tlevel t1) with (tlevel t) in *. change (next t1) with (Datatypes.S (next t)). rewrite Hd in Ei. destruct (Z.eqb_spec i j) as [->|N].
      * injection Ei as <-. rewrite Hn. cbn [blevel]. split; [lia|]. split; [lia|]. intros i' R'. rewrite Hd, (mod_small i'), (mod_small j) by assumption.
        destruct (Z.eqb_spec i' j) as [->|N']; [split; reflexivity|]. split; intros Y; [destruct (ID _ _ I _ _ R' Y); lia|contradiction].
      * destruct (ID _ _ I i b Ri Ei) as (A & B & C). rewrite (Ho b A). split; [lia|]. split; [exact B|]. intros i' R'. rewrite <- (C i' R'), Hd.
        destruct (Z.eqb_spec i' j) as [->|N']; [|reflexivity]. rewrite E. split; intros Y; [injection Y; lia|discriminate].
    + intros i Ri. change (tlevel t1) with (tlevel t) in *. rewrite Hd. pose proof (IP _ _ I i Ri) as P. destruct (Z.eqb_spec i j) as [->|N].
      * rewrite E in P. rewrite Hn. cbn [blevel items]. rewrite filter_snoc, P. unfold inclass. cbn [fst app]. fold j. rewrite (mod_small j) by exact R.
        rewrite Z.eqb_refl. apply Permutation_refl.
      * destruct (dir t i) as [b|] eqn:Ei.
        -- destruct (ID _ _ I i b Ri Ei) as (A & B & C). rewrite (Ho b A), filter_snoc. unfold inclass at 2. cbn [fst].
           destruct (Z.eqb_spec (h k mod 2 ^ blevel (heap t b)) (i mod 2 ^ blevel (heap t b))) as [X|X]; [|rewrite app_nil_r; exact P].
           assert (Z1 : dir t j = Some b) by (apply (C j R); unfold j; rewrite mod_mod by lia; exact X). congruence.
        -- rewrite filter_snoc, P. unfold inclass. cbn [fst app]. fold j. rewrite (mod_small i) by exact Ri.
           destruct (Z.eqb_spec j i); [congruence|reflexivity].
    + intros i b Ri Ei. change (tlevel t1) with (tlevel t) in *. rewrite Hd in Ei. destruct (Z.eqb_spec i j) as [->|N].
      * injection Ei as <-. rewrite Hn. cbn. lia.
      * destruct (ID _ _ I i b Ri Ei) as (A & _). rewrite (Ho b A). exact (S i b Ri Ei).
Qed.

Lemma init_good : Good init [].
Proof. split; [constructor|]; cbn; [lia| |reflexivity|]; intros i b _ E; discriminate. Qed.
Lemma crowd_app l m : crowd l -> crowd (l ++ m).
Proof. intros (r & H). exists r. rewrite filter_app, app_length. lia. Qed.
Lemma adds_ok : forall l t hist, Good t hist ->
  (exists t', adds h l t = Ok t' /\ Good t' (hist ++ l)) \/ (adds h l t = Fail /\ crowd (hist ++ l)).
Proof.
  induction l as [|[k v] l IH]; intros t hist G; cbn [adds].
  - left. exists t. rewrite app_nil_r. split; [reflexivity|exact G].
  - destruct (addkey_ok t hist k v G) as [(t' & -> & G')|[-> C]]; cbn [bind].
    + specialize (IH t' _ G'). rewrite <- app_assoc in IH. exact IH.
    + right. split; [reflexivity|]. change ((k, v) :: l) with ([(k, v)] ++ l). rewrite app_assoc. apply crowd_app, C.
Qed.
Lemma good_not_crowd t hist : Good t hist -> ~ crowd hist.
Proof.
  intros [I S] (r & C). pose proof (IL _ _ I) as L.
  destruct (filter (fun p => h (fst p) mod 2 ^ 22 =? r) hist) as [|p0 rest] eqn:EF; [cbn in C; lia|].
  assert (Hr : h (fst p0) mod 2 ^ 22 = r).
  { assert (X : In p0 (p0 :: rest)) by (left; reflexivity). rewrite <- EF in X. apply filter_In in X as [_ X]. apply Z.eqb_eq, X. }
  rewrite <- EF in C. pose proof (mod_rng (h (fst p0)) (tlevel t) ltac:(lia)) as R. set (i := h (fst p0) mod 2 ^ tlevel t) in *.
  assert (Sub : forall lv, 1 <= lv <= tlevel t -> (length (filter (fun p => Z.eqb ((h (fst p) mod 2 ^ 22)%Z) r) hist) <= length (filter (inclass lv i) hist))%nat).
  { intros lv Hlv. generalize hist. induction hist0 as [|p q IHq]; [cbn; lia|]. cbn [filter].
    destruct (Z.eqb_spec (h (fst p) mod 2 ^ 22) r) as [X|X].
    - assert (Y : inclass lv i p = true).
      { unfold inclass. apply Z.eqb_eq. unfold i. rewrite mod_mod by lia. apply (mod_coarse _ _ _ 22); [lia|congruence]. }
      rewrite Y. cbn [length]. lia.
    - destruct (inclass lv i p); cbn [length]; lia. }
  pose proof (IP _ _ I i R) as P. destruct (dir t i) as [b|] eqn:E.
  - destruct (ID _ _ I i b R E) as (_ & B & _). specialize (Sub _ B). apply Permutation_length in P. pose proof (S i b R E). lia.
  - specialize (Sub (tlevel t) ltac:(lia)). rewrite P in Sub. cbn [length] in Sub. lia.
Qed.
Lemma getkey_ok t hist k : Good t hist ->
  match getkey h t k with Some v => In (k, v) hist | None => forall v, ~ In (k, v) hist end.
Proof.
  intros [I S]. pose proof (IL _ _ I) as L. unfold getkey. pose proof (mod_rng (h k) (tlevel t) ltac:(lia)) as R.
  set (i := h k mod 2 ^ tlevel t) in *. pose proof (IP _ _ I i R) as P. destruct (dir t i) as [b|] eqn:E.
  - destruct (ID _ _ I i b R E) as (_ & B & _). destruct (find _ _) as [[k' v]|] eqn:F; cbn [option_map snd].
    + apply find_some in F as [F K]. cbn [fst] in K. apply Z.eqb_eq in K. subst k'. apply (Permutation_in _ P), filter_In in F. apply F.
    + intros v X. assert (Y : In (k, v) (items (heap t b))).
      { apply (Permutation_in _ (Permutation_sym P)), filter_In. split; [exact X|]. unfold inclass. cbn [fst]. apply Z.eqb_eq. unfold i. rewrite mod_mod by lia. reflexivity. }
      apply (find_none _ _ F) in Y. cbn [fst] in Y. rewrite Z.eqb_refl in Y. discriminate.
  - intros v X. assert (Y : In (k, v) (filter (inclass (tlevel t) i) hist)).
    { apply filter_In. split; [exact X|]. unfold inclass. cbn [fst]. apply Z.eqb_eq. unfold i. rewrite mod_mod by lia. reflexivity. }
    rewrite P in Y. destruct Y.
Qed.
End GhP.
