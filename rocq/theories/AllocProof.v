From Coq Require Import List ZArith Bool Lia Permutation.
From Verif Require Import Word64 AllocModel AllocSpec.
Import ListNotations.
Open Scope Z_scope.

Lemma store_same m o v : store m o v o = v.
Proof. unfold store. rewrite Z.eqb_refl. reflexivity. Qed.
Lemma store_other m o v p : p <> o -> store m o v p = m p.
Proof. unfold store. intros H. destruct (Z.eqb_spec p o); congruence. Qed.

Fixpoint chain (m : memory) (p : Z) (l : list Z) : Prop :=
  match l with
  | [] => p = 0
  | c :: l' => p = c /\ c <> 0 /\ chain m (m c) l'
  end.
Lemma chain_ext m m' l : forall p, (forall c, In c l -> m' c = m c) -> chain m p l -> chain m' p l.
Proof.
  induction l as [|c l IH]; simpl; auto. intros p H [E [Z0 C]]. split; auto. split; auto.
  rewrite H by auto. apply IH; auto.
Qed.
Lemma chain_fun m l : forall p l', chain m p l -> chain m p l' -> l = l'.
Proof.
  induction l as [|c l IH]; intros p [|c' l']; simpl; auto.
  - intros -> (E&N&_). congruence.
  - intros (E&N&_) ->. congruence.
  - intros (E&N&C) (E'&N'&C'). subst. f_equal. eapply IH; eauto. 
Qed.

(** Cells of a fresh subarea. *)
Lemma link_cells_ok len max : 8 <= len -> forall n i m, max + len - i < Z.of_nat n -> 0 < i -> i <= max + len ->
  exists m' cs, link_cells n len i max m = Some m' /\ chain m' i cs /\ NoDup cs /\
    (forall c, In c cs -> i <= c /\ c + len <= max + 2 * len /\ exists j, c = i + j * len) /\
    (forall p, ~ In p cs -> m' p = m p) /\ In i cs.
Proof.
  intros Hl. induction n; intros i m Hn Hi Hm; [lia|]. cbn [link_cells].
  destruct (Z.leb_spec i max).
  - destruct (IHn (i + len) (store m i (i + len))) as (m'&cs&E&C&ND&B&U&_); try lia.
    exists m', (i :: cs).
    assert (NI : ~ In i cs) by (intros H0; apply B in H0; lia).
    split; auto. split.
    { simpl. split; auto. split; [lia|]. rewrite U by auto. rewrite store_same. auto. }
    split; [constructor; auto|]. split; [|split; [|simpl; auto]].
    + intros c [<-|Hc]; [split; [lia|split; [lia|exists 0; lia]]|].
      destruct (B c Hc) as (B1&B2&j&B3). split; [lia|]. split; [lia|]. exists (j + 1). lia.
    + intros p Hp. rewrite U by (intros ?; apply Hp; simpl; auto). apply store_other. intros ->. apply Hp. simpl. auto.
  - exists (store m i 0), [i]. split; auto. split; [simpl; rewrite store_same; repeat split; auto; lia|].
    split; [constructor; [intros []|constructor]|]. split; [|split; [|simpl; auto]].
    + intros c [<-|[]]. split; [lia|]. split; [lia|]. exists 0. lia.
    + intros p Hp. apply store_other. intros ->. apply Hp. simpl. auto.
Qed.

Definition blk (d : db) (k : nat) (c : Z) := cell d k c.
Definition inside (d : db) (b : obj) : Prop :=
  0 < ob_off b /\ 0 < ob_len b /\ ob_off b + ob_len b <= dfree d /\ ob_off b mod 8 = 0.

Record inv (d : db) (L : list obj) (F : nat -> list Z) : Prop := {
  i_chain : forall k, chain (mem d) (flist (areas d k)) (F k);
  i_nodup : forall k, NoDup (F k);
  i_in_F : forall k c, In c (F k) -> inside d (cell d k c);
  i_in_L : forall b, In b L -> inside d b;
  i_LL : ForallOrdPairs apart L;
  i_FL : forall k c b, In c (F k) -> In b L -> apart (cell d k c) b;
  i_FF : forall k k' c c', In c (F k) -> In c' (F k') -> (k <> k' \/ c <> c') -> apart (cell d k c) (cell d k' c');
  i_none : forall k, subs (areas d k) = [] -> F k = [] /\ forall b, In b L -> ob_area b <> Some k;
  i_olen : forall k, subs (areas d k) <> [] -> 8 <= olen (areas d k) <= 4096 /\ olen (areas d k) mod 8 = 0;
  i_live : forall b k, In b L -> ob_area b = Some k -> ob_len b = olen (areas d k);
  i_subs : forall k s, In s (subs (areas d k)) -> 0 < sa_size s <= dsize d;
  i_seg : 0 < dfree d <= dsize d /\ dsize d <= int_max /\ dfree d mod 8 = 0 }.

Lemma pad8_ok z : 0 <= pad8 z < 8 /\ (z + pad8 z) mod 8 = 0.
Proof.
  unfold pad8. pose proof (Z.mod_pos_bound z 8 ltac:(lia)).
  destruct (Z.eqb_spec (8 - z mod 8) 8).
  - split; [lia|]. rewrite Z.add_0_r. lia.
  - split; [lia|]. rewrite (Z.div_mod z 8) at 1 by lia.
    replace (8 * (z / 8) + z mod 8 + (8 - z mod 8)) with ((z / 8 + 1) * 8) by lia. apply Z.mod_mul. lia.
Qed.
Lemma pad8_0 z : z mod 8 = 0 -> pad8 z = 0.
Proof. intros H. unfold pad8. rewrite H. reflexivity. Qed.

Lemma alloc_chunk_ok d size o d' : 0 < size -> 0 < dfree d <= dsize d -> dsize d <= int_max -> dfree d mod 8 = 0 ->
  size <= int_max -> alloc_chunk d size = Some (o, d') ->
  o = dfree d /\ mem d' = mem d /\ areas d' = areas d /\ dsize d' = dsize d /\
  dfree d + size <= dfree d' < dsize d /\ dfree d' mod 8 = 0.
Proof.
  intros Hs Hf Hz Ha Hm. unfold alloc_chunk.
  destruct (Z.ltb_spec (w64 (dfree d + size)) 0); [discriminate|].
  destruct (Z.leb_spec (dsize d) (w64 (dfree d + size) + pad8 (w64 (dfree d + size)))); [discriminate|].
  intros E. inversion E; subst; clear E. cbn [mem areas dsize dfree].
  assert (W : w64 (dfree d + size) = dfree d + size).
  { destruct (Z.le_gt_cases (dfree d + size) int_max).
    - apply w64_id. unfold in64, int_min. lia.
    - exfalso. unfold w64 in H. unfold int_max in *.
      assert ((dfree d + size + 2 ^ 63) mod 2 ^ 64 = dfree d + size + 2 ^ 63 - 2 ^ 64).
      { rewrite <- (Z.mod_small (dfree d + size + 2 ^ 63 - 2 ^ 64) (2 ^ 64)) by lia.
        replace (dfree d + size + 2 ^ 63 - 2 ^ 64) with (dfree d + size + 2 ^ 63 + (-1) * 2 ^ 64) by lia.
        rewrite Z.mod_add by lia. reflexivity. }
      lia. }
  rewrite W in *. pose proof (pad8_ok (dfree d + size)). repeat split; auto; lia.
Qed.

Lemma apart_sym a b : apart a b -> apart b a.
Proof. unfold apart. tauto. Qed.
Lemma FOP_app_inv (A : Type) (R : A -> A -> Prop) (x : A) l1 l2 : ForallOrdPairs R (l1 ++ x :: l2) ->
  ForallOrdPairs R (l1 ++ l2) /\ (forall b, In b l1 -> R b x) /\ (forall b, In b l2 -> R x b).
Proof.
  induction l1 as [|y l1 IH]; simpl; intros H; inversion H; subst.
  - repeat split; auto; [tauto|]. rewrite Forall_forall in H2. auto.
  - destruct (IH H3) as (A1&A2&A3). rewrite Forall_forall in H2. split.
    + constructor; auto. apply Forall_forall. intros z Hz. apply H2. apply in_app_or in Hz. apply in_or_app. simpl. tauto.
    + split; auto. intros b [<-|Hb]; auto. apply H2. apply in_or_app. simpl. auto.
Qed.

(** Turning a fresh chunk into free cells of area k. *)
Lemma areas_set d k a j : areas (set_area d k a) j = if Nat.eqb j k then a else areas d j.
Proof. reflexivity. Qed.
Lemma areas_set_same d k a : areas (set_area d k a) k = a.
Proof. cbn. rewrite Nat.eqb_refl. reflexivity. Qed.
Lemma areas_set_other d k a j : j <> k -> areas (set_area d k a) j = areas d j.
Proof. intros H. cbn. destruct (Nat.eqb_spec j k); congruence. Qed.

Definition updF (F : nat -> list Z) k l : nat -> list Z := fun j => if Nat.eqb j k then l else F j.

(** Common part of creating and extending: [d1] is [d] after init_subarea and after setting the
    object length to [len]. *)
Lemma fresh_cells d L F k len size chunk d0 s d1 :
  inv d L F -> F k = [] -> 8 <= len <= 4096 -> len mod 8 = 0 -> 8192 <= size <= int_max ->
  (subs (areas d k) = [] \/ len = olen (areas d k)) ->
  alloc_chunk d size = Some (chunk, d0) ->
  s = {| sa_size := size; sa_offset := chunk; sa_aoffset := chunk + pad8 chunk;
         sa_asize := size - pad8 chunk - (size - pad8 chunk) mod 32 |} ->
  mem d1 = mem d0 -> dfree d1 = dfree d0 -> dsize d1 = dsize d0 ->
  (forall j, areas d1 j = if Nat.eqb j k then {| olen := len; flist := 0; subs := s :: subs (areas d k) |} else areas d j) ->
  exists d2 cs, make_freelist (cells_fuel s) d1 k = Some d2 /\
    inv d2 L (updF F k cs) /\ cs <> [] /\ (forall b j, In b L -> 0 <= j -> 8 * j + 8 <= ob_len b -> mem d2 (ob_off b + 8 * j) = mem d (ob_off b + 8 * j)) /\
    (forall j, j <> k -> areas d2 j = areas d j) /\ olen (areas d2 k) = len /\ dfree d <= dfree d2 /\ subs (areas d2 k) <> [] /\
    (forall c, In c cs -> dfree d <= c).
Proof.
  intros I Fk Hl Hl8 Hs Hsub Ec Es D1m D1f D1s D1a.
  destruct (i_seg _ _ _ I) as (S1&S2&S3).
  destruct (alloc_chunk_ok d size chunk d0) as (C1&C2&C3&C4&C5&C6); auto; [lia|lia|].
  assert (P0 : pad8 chunk = 0) by (apply pad8_0; subst; auto).
  rewrite P0 in Es. replace (chunk + 0) with chunk in Es by lia. replace (size - 0) with size in Es by lia.
  pose proof (Z.mod_pos_bound size 32 ltac:(lia)) as Hm32.
  unfold make_freelist. rewrite !D1a, Nat.eqb_refl. cbn [subs olen].
  assert (Fu : sa_aoffset s + sa_asize s - 2 * len + len - sa_aoffset s < Z.of_nat (cells_fuel s))
    by (unfold cells_fuel; subst s; cbn [sa_aoffset sa_asize]; lia).
  destruct (link_cells_ok len (sa_aoffset s + sa_asize s - 2 * len) ltac:(lia) (cells_fuel s) (sa_aoffset s) (mem d1) Fu)
    as (m'&cs&E&C&ND&B&U&Hin); [subst s; cbn [sa_aoffset sa_asize]; lia|subst s; cbn [sa_aoffset sa_asize]; lia|].
  rewrite E.
  eexists. exists cs. split; [reflexivity|].
  set (d2 := set_area _ _ _).
  assert (A2 : forall j, areas d2 j = if Nat.eqb j k then {| olen := len; flist := sa_aoffset s; subs := s :: subs (areas d k) |} else areas d j).
  { intros j. unfold d2. rewrite areas_set. destruct (Nat.eqb j k) eqn:Ej.
    - unfold set_flist. cbn [olen subs]. reflexivity.
    - cbn. rewrite D1a, Ej. reflexivity. }
  assert (M2 : mem d2 = m') by reflexivity.
  assert (F2 : dfree d2 = dfree d0) by exact D1f.
  assert (Z2 : dsize d2 = dsize d0) by exact D1s.
  assert (Bc : forall c, In c cs -> dfree d <= c /\ c + len <= dfree d0 /\ c mod 8 = 0 /\ exists j, c = dfree d + j * len).
  { intros c Hc. destruct (B c Hc) as (B1&B2&j&B3). subst s. cbn [sa_aoffset sa_asize] in *.
    split; [lia|]. split; [lia|]. split; [|exists j; lia].
    rewrite B3, Z.add_mod, C1, S3 by lia. rewrite Z.mul_mod, Hl8 by lia. rewrite Z.mul_0_r. reflexivity. }
  assert (CE : forall j c, j <> k -> cell d2 j c = cell d j c).
  { intros j c Hj. unfold cell. rewrite A2. destruct (Nat.eqb_spec j k); congruence. }
  assert (CK : forall c, ob_off (cell d2 k c) = c /\ ob_len (cell d2 k c) = len).
  { intros c. unfold cell. rewrite A2, Nat.eqb_refl. auto. }
  assert (NC : forall c, In c cs -> forall p, p + 8 <= dfree d -> p <> c) by (intros c Hc p; destruct (Bc c Hc); lia).
  split; [|split; [|split; [|split; [|split; [|split; [|split]]]]]].
  - constructor.
    + intros j. rewrite A2. unfold updF. destruct (Nat.eqb_spec j k) as [->|Hj]; cbn [flist]; [rewrite M2; auto|].
      rewrite M2. eapply chain_ext; [|apply (i_chain _ _ _ I j)].
      intros c Hc. rewrite U, D1m, C2; auto. intros Hc'. destruct (Bc c Hc').
      destruct (i_in_F _ _ _ I j c Hc) as (I1&I2&I3&I4). cbn in I1, I2, I3. lia.
    + intros j. unfold updF. destruct (Nat.eqb_spec j k); auto. apply (i_nodup _ _ _ I).
    + intros j c. unfold updF. destruct (Nat.eqb_spec j k) as [->|Hj]; intros Hc.
      * destruct (CK c) as (K1&K2). destruct (Bc c Hc) as (B1&B2&B3&_). unfold inside. rewrite K1, K2, F2. lia.
      * rewrite CE by auto. destruct (i_in_F _ _ _ I j c Hc) as (I1&I2&I3&I4). unfold inside. rewrite F2. lia.
    + intros b Hb. destruct (i_in_L _ _ _ I b Hb) as (I1&I2&I3&I4). unfold inside. rewrite F2. lia.
    + apply (i_LL _ _ _ I).
    + intros j c b. unfold updF. destruct (Nat.eqb_spec j k) as [->|Hj]; intros Hc Hb.
      * destruct (CK c) as (K1&K2). destruct (Bc c Hc) as (B1&B2&B3&_).
        destruct (i_in_L _ _ _ I b Hb) as (I1&I2&I3&I4). right. rewrite K1. lia.
      * rewrite CE by auto. apply (i_FL _ _ _ I); auto.
    + intros j j' c c'. unfold updF.
      destruct (Nat.eqb_spec j k) as [->|Hj]; destruct (Nat.eqb_spec j' k) as [->|Hj']; intros Hc Hc' Hd.
      * destruct Hd as [Hd|Hd]; [congruence|]. destruct (Bc c Hc) as (_&_&_&x&Ex), (Bc c' Hc') as (_&_&_&y&Ey).
        unfold apart. destruct (CK c) as (->&->), (CK c') as (->&->).
        destruct (Z.lt_total x y) as [H|[H|H]]; [left|rewrite H in Ex; congruence|right]; nia.
      * rewrite (CE j') by auto. unfold apart. destruct (CK c) as (->&->). destruct (Bc c Hc) as (B1&_).
        destruct (i_in_F _ _ _ I j' c' Hc') as (I1&I2&I3&I4). lia.
      * rewrite (CE j) by auto. unfold apart. destruct (CK c') as (->&->). destruct (Bc c' Hc') as (B1&_).
        destruct (i_in_F _ _ _ I j c Hc) as (I1&I2&I3&I4). lia.
      * rewrite !CE by auto. apply (i_FF _ _ _ I); auto.
    + intros j. rewrite A2. unfold updF. destruct (Nat.eqb_spec j k); cbn [subs]; [discriminate|]. apply (i_none _ _ _ I).
    + intros j. rewrite A2. destruct (Nat.eqb_spec j k); cbn [subs olen]; auto. apply (i_olen _ _ _ I).
    + intros b j Hb Hj. rewrite A2. destruct (Nat.eqb_spec j k) as [->|]; cbn [olen].
      * destruct Hsub as [Hn|Hn]; [|rewrite Hn; apply (i_live _ _ _ I); auto].
        exfalso. eapply (i_none _ _ _ I k); eauto.
      * apply (i_live _ _ _ I); auto.
    + intros j s'. rewrite A2, Z2, C4. destruct (Nat.eqb_spec j k) as [->|]; cbn [subs].
      * intros [<-|Hin']; [subst s; cbn [sa_size]; lia|]. apply (i_subs _ _ _ I k); auto.
      * apply (i_subs _ _ _ I).
    + rewrite F2, Z2, C4. lia.
  - intros ->. destruct Hin.
  - intros b j Hb Hj1 Hj2. rewrite M2, U, D1m, C2; auto. intros Hc.
    destruct (i_in_L _ _ _ I b Hb) as (I1&I2&I3&I4). destruct (Bc _ Hc). lia.
  - intros j Hj. rewrite A2. destruct (Nat.eqb_spec j k); congruence.
  - rewrite A2, Nat.eqb_refl. reflexivity.
  - rewrite F2. lia.
  - rewrite A2, Nat.eqb_refl. discriminate.
  - intros c Hc. destruct (Bc c Hc). lia.
Qed.

Lemma inv_blank d : blank d -> inv d [] (fun _ => []).
Proof.
  intros (A&B&C&D). constructor; try (intros; contradiction); auto.
  - intros k. destruct (D k). auto.
  - intros k. constructor.
  - constructor.
  - intros k Hk. destruct (D k). congruence.
  - intros k s. destruct (D k) as [_ ->]. intros [].
Qed.

Lemma init_subarea_ok d k size d' : 8192 <= size -> init_subarea d k size = Some d' ->
  exists chunk d0, alloc_chunk d size = Some (chunk, d0) /\ areas d0 = areas d /\
  d' = set_area d0 k {| olen := olen (areas d k); flist := 0;
                   subs := {| sa_size := size; sa_offset := chunk; sa_aoffset := chunk + pad8 chunk;
                              sa_asize := size - pad8 chunk - (size - pad8 chunk) mod 32 |} :: subs (areas d k) |}.
Proof.
  intros Hs. unfold init_subarea. destruct (Z.ltb_spec size 8192); [lia|].
  destruct (alloc_chunk d size) as [[chunk d0]|] eqn:E; [|discriminate].
  intros H1. inversion H1; subst; clear H1. exists chunk, d0.
  assert (A : areas d0 = areas d).
  { unfold alloc_chunk in E. destruct (_ <? 0); [discriminate|]. destruct (_ <=? _); [discriminate|]. inversion E; subst. reflexivity. }
  rewrite A. auto.
Qed.

Lemma try_sizes_ok d k : forall n size r, try_sizes n d k size = Some (Some r) -> size <= int_max ->
  exists size', 8192 <= size' <= int_max /\ init_subarea d k size' = Some r.
Proof.
  induction n; intros size r; [discriminate|]. cbn [try_sizes].
  destruct (Z.ltb_spec size 8192); [discriminate|].
  destruct (init_subarea d k size) eqn:E.
  - intros H1 Hm. inversion H1; subst. exists size. auto.
  - intros H1 Hm. apply IHn in H1; auto. unfold shr. rewrite Z.shiftr_div_pow2 by lia.
    transitivity size; auto. apply Z.div_le_upper_bound; lia.
Qed.
Lemma try_sizes_fuel d k : forall n size, size < 2 ^ Z.of_nat n * 4096 -> try_sizes (S n) d k size <> None.
Proof.
  induction n; intros size Hs.
  - cbn [try_sizes]. destruct (Z.ltb_spec size 8192); [discriminate|lia].
  - remember (S n) as n'. cbn [try_sizes]. destruct (Z.ltb_spec size 8192); [discriminate|].
    destruct (init_subarea d k size); [discriminate|]. subst n'. apply IHn.
    unfold shr. rewrite Z.shiftr_div_pow2 by lia. apply Z.div_lt_upper_bound; [lia|].
    rewrite Nat2Z.inj_succ, Z.pow_succ_r in Hs by lia. lia.
Qed.

(** Extending an area whose free list is empty. *)
Lemma extend_ok d L F k : inv d L F -> F k = [] ->
  extend_fixlen d k <> None /\
  forall d2, extend_fixlen d k = Some (Some d2) -> exists cs,
    inv d2 L (updF F k cs) /\ cs <> [] /\
    (forall b j, In b L -> 0 <= j -> 8 * j + 8 <= ob_len b -> mem d2 (ob_off b + 8 * j) = mem d (ob_off b + 8 * j)) /\
    (forall j, olen (areas d2 j) = olen (areas d j)) /\ dfree d <= dfree d2 /\ (forall c, In c cs -> dfree d <= c) /\
    (forall j, subs (areas d j) <> [] -> subs (areas d2 j) <> []).
Proof.
  intros I Fk. unfold extend_fixlen.
  destruct (subs (areas d k)) as [|s ss] eqn:Es; [split; [discriminate|intros; discriminate]|].
  destruct (64 <=? _) eqn:E64; [split; [discriminate|intros; discriminate]|].
  assert (Hs : 0 < sa_size s <= dsize d) by (apply (i_subs _ _ _ I k); rewrite Es; simpl; auto).
  pose proof (w64_in (sa_size s * 2 ^ 1)) as W. fold (shl64 (sa_size s) 1) in W.
  destruct (try_sizes 64 d k (shl64 (sa_size s) 1)) as [[r|]|] eqn:Et.
  2: { split; [discriminate|intros; discriminate]. }
  2: { exfalso. eapply (try_sizes_fuel d k 63); [|exact Et]. unfold in64, int_max in W. change (2 ^ Z.of_nat 63) with (2 ^ 63). lia. }
  destruct (try_sizes_ok _ _ _ _ _ Et) as (size'&Hz&Ei); [unfold in64 in W; lia|].
  destruct (init_subarea_ok _ _ _ _ (proj1 Hz) Ei) as (chunk&d0&Ec&Ea&Er).
  destruct (i_olen _ _ _ I k) as (O1&O2); [rewrite Es; discriminate|].
  destruct (fresh_cells d L F k (olen (areas d k)) size' chunk d0 _ r I Fk O1 O2 Hz (or_intror eq_refl) Ec eq_refl)
    as (d2&cs&E2&I2&N2&M2&A2&L2&D2&Sn&Cc); try (subst r; reflexivity).
  { intros j. subst r. rewrite areas_set, Ea. reflexivity. }
  match goal with |- context [subs (areas r k)] => idtac end.
  assert (Sr : subs (areas r k) = {| sa_size := size'; sa_offset := chunk; sa_aoffset := chunk + pad8 chunk;
             sa_asize := size' - pad8 chunk - (size' - pad8 chunk) mod 32 |} :: subs (areas d k))
    by (rewrite Er, areas_set_same; reflexivity).
  rewrite Sr, E2. split; [discriminate|]. intros d3 H3. inversion H3; subst; clear H3.
  exists cs. split; [auto|]. split; [auto|]. split; [auto|]. split; [|split; [auto|split; [auto|]]].
  - intros j. destruct (Nat.eq_dec j k) as [->|Hj]; [rewrite L2; auto|rewrite A2; auto].
  - intros j Hj. destruct (Nat.eq_dec j k) as [->|Hn]; auto. rewrite A2; auto.
Qed.

Lemma create_ok d L F k len d2 : inv d L F -> subs (areas d k) = [] -> 8 <= len <= 4096 -> len mod 8 = 0 ->
  create_area d k len = Some d2 -> exists cs,
    inv d2 L (updF F k cs) /\
    (forall b j, In b L -> 0 <= j -> 8 * j + 8 <= ob_len b -> mem d2 (ob_off b + 8 * j) = mem d (ob_off b + 8 * j)) /\
    (forall j, j <> k -> areas d2 j = areas d j) /\ dfree d <= dfree d2.
Proof.
  intros I Hn Hl Hl8. unfold create_area.
  destruct (init_subarea d k 8192) as [r|] eqn:Ei; [|discriminate].
  destruct (init_subarea_ok _ _ _ _ (Z.le_refl 8192) Ei) as (chunk&d0&Ec&Ea&Er).
  destruct (i_none _ _ _ I k Hn) as [Fk _].
  assert (Hz : 8192 <= 8192 <= int_max) by (unfold int_max; lia).
  destruct (fresh_cells d L F k len 8192 chunk d0 _ (set_area r k {| olen := len; flist := flist (areas r k); subs := subs (areas r k) |})
              I Fk Hl Hl8 Hz (or_introl Hn) Ec eq_refl)
    as (d3&cs&E2&I2&N2&M2&A2&L2&D2&_); try (subst r; reflexivity).
  { intros j. subst r. rewrite areas_set, areas_set_same. cbn [flist subs]. destruct (Nat.eqb j k) eqn:Ej; auto.
    rewrite areas_set, Ej, Ea. reflexivity. }
  subst r. rewrite areas_set_same in *. cbn [subs flist] in *. rewrite E2.
  intros E. inversion E; subst. exists cs. auto.
Qed.

(** Popping the head of a free list. *)
Lemma pop_inv d L F k c l : inv d L F -> F k = c :: l -> flist (areas d k) = c /\ c <> 0 /\
  inv (pop d k c) (cell (pop d k c) k c :: L) (updF F k l) /\ cell (pop d k c) k c = cell d k c.
Proof.
  intros I Fk. pose proof (i_chain _ _ _ I k) as C. rewrite Fk in C. destruct C as (C1&C2&C3).
  split; auto. split; auto.
  assert (O : forall j, olen (areas (pop d k c) j) = olen (areas d j)).
  { intros j. unfold pop. rewrite areas_set. destruct (Nat.eqb_spec j k); subst; auto. }
  assert (SB : forall j, subs (areas (pop d k c) j) = subs (areas d j)).
  { intros j. unfold pop. rewrite areas_set. destruct (Nat.eqb_spec j k); subst; auto. }
  assert (CE : forall j x, cell (pop d k c) j x = cell d j x) by (intros; unfold cell; rewrite O; auto).
  split; [|apply CE]. rewrite CE.
  pose proof (i_nodup _ _ _ I k) as ND. rewrite Fk in ND. inversion ND; subst.
  assert (IF : forall j x, In x (updF F k l j) -> In x (F j)).
  { intros j x. unfold updF. destruct (Nat.eqb_spec j k); subst; auto. rewrite Fk. simpl. auto. }
  assert (Hc : In (flist (areas d k)) (F k)) by (rewrite Fk; simpl; auto).
  set (c := flist (areas d k)) in *.
  constructor.
  - intros j. unfold pop, updF. rewrite areas_set. destruct (Nat.eqb_spec j k); subst; cbn; auto.
    apply (i_chain _ _ _ I j).
  - intros j. unfold updF. destruct (Nat.eqb_spec j k); auto. apply (i_nodup _ _ _ I).
  - intros j x Hx. rewrite CE. apply (i_in_F _ _ _ I); auto.
  - intros b [<-|Hb]; [apply (i_in_F _ _ _ I); auto|apply (i_in_L _ _ _ I); auto].
  - constructor; [|apply (i_LL _ _ _ I)]. apply Forall_forall. intros b Hb. apply (i_FL _ _ _ I); auto.
  - intros j x b Hx [<-|Hb]; rewrite CE; [|apply (i_FL _ _ _ I); auto].
    apply (i_FF _ _ _ I); auto. destruct (Nat.eq_dec j k) as [->|]; auto. right. intros ->.
    unfold updF in Hx. rewrite Nat.eqb_refl in Hx. auto.
  - intros. rewrite !CE. apply (i_FF _ _ _ I); auto.
  - intros j. rewrite SB. intros Hs. destruct (i_none _ _ _ I j Hs) as (N1&N2).
    assert (j <> k) by (intros ->; rewrite Fk in N1; discriminate).
    split; [unfold updF; destruct (Nat.eqb_spec j k); congruence|].
    intros b [<-|Hb]; [cbn; congruence|auto].
  - intros j. rewrite SB, O. apply (i_olen _ _ _ I).
  - intros b j [<-|Hb] Hj; [cbn in *; rewrite O; congruence|]. rewrite O. apply (i_live _ _ _ I); auto.
  - intros j s. rewrite SB. apply (i_subs _ _ _ I).
  - apply (i_seg _ _ _ I).
Qed.

Definition same_live (d d' : db) (L : list obj) : Prop :=
  forall b j, In b L -> 0 <= j -> 8 * j + 8 <= ob_len b -> mem d' (ob_off b + 8 * j) = mem d (ob_off b + 8 * j).

(** The result of one allocation. *)
Lemma alloc_ok d L F k : inv d L F ->
  match alloc_fixlen d k with
  | AFuel => False
  | AFail d' => d' = d /\ F k = []
  | AOk o d' => exists F', inv d' (cell d' k o :: L) F' /\ same_live d d' L /\
      (forall j, olen (areas d' j) = olen (areas d j)) /\
      (forall j, j <> k -> F' j = F j) /\
      (forall j, subs (areas d j) <> [] -> subs (areas d' j) <> []) /\
      match F k with
      | c :: l => o = c /\ F' k = l /\ d' = pop d k c
      | [] => dfree d <= o
      end
  end.
Proof.
  intros I. unfold alloc_fixlen. pose proof (i_chain _ _ _ I k) as C.
  destruct (F k) as [|c l] eqn:Fk.
  - simpl in C. rewrite C, Z.eqb_refl. destruct (extend_ok d L F k I Fk) as (X1&X2).
    destruct (extend_fixlen d k) as [[d2|]|] eqn:E; [|auto|congruence].
    destruct (X2 d2 eq_refl) as (cs&I2&N2&M2&O2&D2&G2&Sn).
    destruct cs as [|c cs]; [congruence|].
    destruct (pop_inv d2 L (updF F k (c :: cs)) k c cs I2) as (P1&P2&P3&P4); [unfold updF; rewrite Nat.eqb_refl; auto|].
    rewrite P1. destruct (Z.eqb_spec c 0); [congruence|].
    exists (updF (updF F k (c :: cs)) k cs). split; auto. split; [auto|]. split; [|split; [|split]].
    + intros j. unfold pop. rewrite areas_set. destruct (Nat.eqb_spec j k); subst; cbn; auto.
    + intros j Hj. unfold updF. destruct (Nat.eqb_spec j k); congruence.
    + intros j Hj. unfold pop. rewrite areas_set. destruct (Nat.eqb_spec j k); subst; cbn; auto.
    + apply G2. simpl. auto.
  - destruct C as (C1&C2&C3). rewrite C1. destruct (Z.eqb_spec c 0); [congruence|].
    destruct (pop_inv d L F k c l I Fk) as (P1&P2&P3&P4).
    exists (updF F k l). split; auto. split; [intros ? ? ? ? ?; auto|]. split; [|split; [|split]].
    + intros j. unfold pop. rewrite areas_set. destruct (Nat.eqb_spec j k); subst; cbn; auto.
    + intros j Hj. unfold updF. destruct (Nat.eqb_spec j k); congruence.
    + intros j Hj. unfold pop. rewrite areas_set. destruct (Nat.eqb_spec j k); subst; cbn; auto.
    + unfold updF. rewrite Nat.eqb_refl. auto.
Qed.

(** Freeing. *)
Lemma free_inv d L1 L2 F k o : inv d (L1 ++ cell d k o :: L2) F ->
  inv (free_fixlen d k o) (L1 ++ L2) (updF F k (o :: F k)).
Proof.
  intros I. set (d' := free_fixlen d k o).
  assert (O : forall j, olen (areas d' j) = olen (areas d j)).
  { intros j. unfold d', free_fixlen. rewrite areas_set. destruct (Nat.eqb_spec j k); subst; auto. }
  assert (SB : forall j, subs (areas d' j) = subs (areas d j)).
  { intros j. unfold d', free_fixlen. rewrite areas_set. destruct (Nat.eqb_spec j k); subst; auto. }
  assert (CE : forall j x, cell d' j x = cell d j x) by (intros; unfold cell; rewrite O; auto).
  assert (Hin : In (cell d k o) (L1 ++ cell d k o :: L2)) by (apply in_or_app; simpl; auto).
  assert (Sub : forall b, In b (L1 ++ L2) -> In b (L1 ++ cell d k o :: L2)).
  { intros b Hb. apply in_app_or in Hb. apply in_or_app. simpl. tauto. }
  destruct (i_in_L _ _ _ I _ Hin) as (B1&B2&B3&B4). cbn in B1, B2, B3, B4.
  destruct (FOP_app_inv _ _ _ _ _ (i_LL _ _ _ I)) as (P1&P2&P3).
  assert (NF : forall j x, In x (F j) -> x <> o /\ apart (cell d j x) (cell d k o)).
  { intros j x Hx. pose proof (i_FL _ _ _ I j x _ Hx Hin) as A. split; auto.
    destruct (i_in_F _ _ _ I j x Hx) as (X1&X2&X3&X4). cbn in *. unfold apart in A. cbn in A. lia. }
  assert (Ofun : forall j, In o (updF F k (o :: F k) j) -> forall x, x = o -> True) by auto.
  assert (UF : forall j x, In x (updF F k (o :: F k) j) -> In x (F j) \/ (j = k /\ x = o)).
  { intros j x. unfold updF. destruct (Nat.eqb_spec j k); subst; auto. intros [<-|H]; auto. }
  assert (OL : forall b, In b (L1 ++ L2) -> apart (cell d k o) b).
  { intros b Hb. apply in_app_or in Hb. destruct Hb; auto. apply apart_sym. auto. }
  constructor.
  - intros j. unfold d', free_fixlen, updF. rewrite areas_set. destruct (Nat.eqb_spec j k); subst.
    + cbn. split; auto. split; [lia|]. rewrite store_same. eapply chain_ext; [|apply (i_chain _ _ _ I k)].
      intros c Hc. apply store_other. destruct (NF k c Hc). auto.
    + cbn. eapply chain_ext; [|apply (i_chain _ _ _ I j)]. intros c Hc. apply store_other. destruct (NF j c Hc). auto.
  - intros j. unfold updF. destruct (Nat.eqb_spec j k); subst; [|apply (i_nodup _ _ _ I)].
    constructor; [|apply (i_nodup _ _ _ I)]. intros H. destruct (NF _ _ H). congruence.
  - intros j x Hx. rewrite CE. destruct (UF _ _ Hx) as [H|[-> ->]]; [apply (i_in_F _ _ _ I); auto|apply (i_in_L _ _ _ I _ Hin)].
  - intros b Hb. apply (i_in_L _ _ _ I); auto.
  - auto.
  - intros j x b Hx Hb. rewrite CE. destruct (UF _ _ Hx) as [H|[-> ->]]; [apply (i_FL _ _ _ I); auto|auto].
  - intros j j' x x' Hx Hx' Hd. rewrite !CE. destruct (UF _ _ Hx) as [H|[-> ->]], (UF _ _ Hx') as [H'|[-> ->]].
    + apply (i_FF _ _ _ I); auto.
    + apply NF; auto.
    + apply apart_sym, NF; auto.
    + destruct Hd; congruence.
  - intros j. rewrite SB. intros Hs. destruct (i_none _ _ _ I j Hs) as (N1&N2).
    assert (j <> k) by (intros ->; apply (N2 _ Hin); reflexivity).
    split; [unfold updF; destruct (Nat.eqb_spec j k); congruence|]. intros b Hb. apply N2; auto.
  - intros j. rewrite SB, O. apply (i_olen _ _ _ I).
  - intros b j Hb Hj. rewrite O. apply (i_live _ _ _ I); auto.
  - intros j s. rewrite SB. apply (i_subs _ _ _ I).
  - apply (i_seg _ _ _ I).
Qed.

Lemma write_inv d L F b j v : inv d L F -> In b L -> 0 <= j -> 8 * j + 8 <= ob_len b ->
  inv (set_mem d (store (mem d) (ob_off b + 8 * j) v)) L F.
Proof.
  intros I Hb Hj Hl. set (d' := set_mem _ _). constructor; try apply I.
  intros k. eapply chain_ext; [|apply (i_chain _ _ _ I k)].
  intros c Hc. cbn [mem set_mem]. apply store_other. intros ->.
  pose proof (i_FL _ _ _ I k _ b Hc Hb) as A. destruct (i_in_F _ _ _ I k _ Hc) as (X1&X2&X3&X4).
  unfold apart in A. unfold inside in *. cbn [ob_off ob_len cell] in *. lia.
Qed.

Lemma chunk_inv d L F size o d' : inv d L F -> 0 < size <= int_max -> alloc_chunk d size = Some (o, d') ->
  inv d' ({| ob_area := None; ob_off := o; ob_len := size |} :: L) F /\ mem d' = mem d /\ areas d' = areas d /\ o = dfree d.
Proof.
  intros I Hs E. destruct (i_seg _ _ _ I) as (S1&S2&S3).
  destruct (alloc_chunk_ok d size o d') as (C1&C2&C3&C4&C5&C6); auto; try lia.
  split; [|auto].
  assert (CE : forall j x, cell d' j x = cell d j x) by (intros; unfold cell; rewrite C3; auto).
  constructor; try rewrite C2; try rewrite C3; try rewrite C4; try apply I.
  - intros k c Hc. rewrite CE. destruct (i_in_F _ _ _ I k c Hc) as (X1&X2&X3&X4). unfold inside. lia.
  - intros b [<-|Hb]; [unfold inside; cbn; subst; lia|]. destruct (i_in_L _ _ _ I b Hb) as (X1&X2&X3&X4). unfold inside. lia.
  - constructor; [|apply I]. apply Forall_forall. intros b Hb. right. destruct (i_in_L _ _ _ I b Hb) as (X1&X2&X3&X4). cbn. lia.
  - intros k c b Hc [<-|Hb]; rewrite CE; [|apply (i_FL _ _ _ I); auto].
    left. destruct (i_in_F _ _ _ I k c Hc) as (X1&X2&X3&X4). cbn in *. lia.
  - intros. rewrite !CE. apply (i_FF _ _ _ I); auto.
  - intros k Hk. try rewrite C3 in Hk. destruct (i_none _ _ _ I k Hk) as (N1&N2). split; auto.
    intros b [<-|Hb]; [cbn; discriminate|auto].
  - intros b k [<-|Hb] Hk; [discriminate|]. try rewrite C3. apply (i_live _ _ _ I); auto.
  - lia.
Qed.

(** Where a once-held cell is: still held, or in the free list. *)
Definition somewhere (d : db) (L : list obj) (k : nat) (o : Z) : Prop :=
  In (cell d k o) L \/ exists l, chain (mem d) (flist (areas d k)) l /\ In o l.

Lemma step_inv s t : astep s t -> (exists F, inv (fst s) (snd s) F) ->
  (exists F, inv (fst t) (snd t) F) /\
  (forall k, subs (areas (fst s) k) <> [] -> olen (areas (fst t) k) = olen (areas (fst s) k)).
Proof.
  intros H (F&I). inversion H; subst; cbn [fst snd] in *.
  - destruct (create_ok _ _ _ _ _ _ I H0 H1 H2 H3) as (cs&I2&_&A2&_). split; eauto.
    intros j Hj. rewrite A2; auto. congruence.
  - pose proof (alloc_ok d L F k I) as A. rewrite H0 in A. destruct A as (F'&I'&_&O&_). split; eauto.
  - pose proof (alloc_ok d L F k I) as A. rewrite H0 in A. destruct A as (->&_). split; eauto.
  - split; [eexists; apply free_inv; eauto|]. intros j _. unfold free_fixlen. rewrite areas_set.
    destruct (Nat.eqb_spec j k); subst; auto.
  - destruct (chunk_inv _ _ _ _ _ _ I H0 H1) as (I2&_&A&_). split; eauto. rewrite A. auto.
  - split; [|auto]. eexists. apply write_inv; eauto.
Qed.
Lemma steps_inv s t : asteps s t -> (exists F, inv (fst s) (snd s) F) -> exists F, inv (fst t) (snd t) F.
Proof. induction 1; auto. intros H1. eapply step_inv; eauto. Qed.
Lemma reach_inv s : areach s -> exists F, inv (fst s) (snd s) F.
Proof. intros (d0&B&H). eapply steps_inv; eauto. exists (fun _ => []). apply inv_blank. auto. Qed.

(** C33: a fresh object is aligned, inside the segment, clear of all others. *)
Lemma alloc_fresh d L k o d' : areach (d, L) -> alloc_fixlen d k = AOk o d' ->
  0 < o /\ o mod 8 = 0 /\ o + olen (areas d' k) <= dfree d' <= dsize d' /\
  forall b, In b L -> apart (cell d' k o) b.
Proof.
  intros R E. destruct (reach_inv _ R) as (F&I). cbn in I.
  pose proof (alloc_ok d L F k I) as A. rewrite E in A. destruct A as (F'&I'&_).
  destruct (i_in_L _ _ _ I' (cell d' k o)) as (X1&X2&X3&X4); [simpl; auto|]. cbn in *.
  destruct (i_seg _ _ _ I') as (S1&_). split; auto. split; auto. split; [lia|].
  intros b Hb. pose proof (i_LL _ _ _ I') as P. inversion P; subst. rewrite Forall_forall in H1. auto.
Qed.
Lemma all_apart d L : areach (d, L) -> ForallOrdPairs apart L.
Proof. intros R. destruct (reach_inv _ R) as (F&I). apply I. Qed.
Lemma never_fuel d L k : areach (d, L) -> alloc_fixlen d k <> AFuel.
Proof. intros R E. destruct (reach_inv _ R) as (F&I). cbn in I. pose proof (alloc_ok d L F k I) as A. rewrite E in A. auto. Qed.

(** Contents of held objects change only by writing to them. *)
Lemma contents_kept d L d' L' b j : areach (d, L) -> astep (d, L) (d', L') -> In b L -> In b L' ->
  0 <= j -> 8 * j + 8 <= ob_len b ->
  mem d' (ob_off b + 8 * j) = mem d (ob_off b + 8 * j) \/
  exists v, d' = set_mem d (store (mem d) (ob_off b + 8 * j) v).
Proof.
  intros R S Hb Hb' Hj Hl. destruct (reach_inv _ R) as (F&I). cbn in I. inversion S; subst.
  - left. destruct (create_ok _ _ _ _ _ _ I ltac:(eassumption) ltac:(eassumption) ltac:(eassumption) ltac:(eassumption)) as (cs&I2&M&_). apply M; auto.
  - left. pose proof (alloc_ok d L F k I) as A. match goal with H : alloc_fixlen _ _ = _ |- _ => rewrite H in A end. destruct A as (F'&I'&M&_). apply M; auto.
  - left. pose proof (alloc_ok d L' F k I) as A. match goal with H : alloc_fixlen _ _ = _ |- _ => rewrite H in A end. destruct A as (->&_). auto.
  - left. unfold free_fixlen. cbn [mem set_area set_mem]. apply store_other. intros E.
    destruct (FOP_app_inv _ _ _ _ _ (i_LL _ _ _ I)) as (P1&P2&P3).
    assert (A : apart (cell d k o) b) by (apply in_app_or in Hb'; destruct Hb'; auto; apply apart_sym; auto).
    assert (Hin : In (cell d k o) (L1 ++ cell d k o :: L2)) by (apply in_or_app; simpl; auto).
    destruct (i_in_L _ _ _ I _ Hin) as (B1&B2&B3&B4). unfold apart in A. cbn [ob_off ob_len cell] in *. lia.
  - left. destruct (chunk_inv _ _ _ _ _ _ I ltac:(eassumption) ltac:(eassumption)) as (_&M&_). rewrite M. auto.
  - cbn [mem set_mem]. destruct (Z.eq_dec (ob_off b + 8 * j) (ob_off b0 + 8 * j0)) as [E|N].
    + right. exists v. rewrite E. auto.
    + left. apply store_other. auto.
Qed.

(** A freed cell is handed out again before the area grows. *)
Lemma somewhere_step k o s t : astep s t -> (exists F, inv (fst s) (snd s) F) ->
  subs (areas (fst s) k) <> [] -> somewhere (fst s) (snd s) k o ->
  subs (areas (fst t) k) <> [] /\ somewhere (fst t) (snd t) k o.
Proof.
  intros H (F&I) Hk W. destruct (step_inv s t H (ex_intro _ F I)) as (_&O). specialize (O k Hk).
  assert (CE : forall x, cell (fst t) k x = cell (fst s) k x) by (intros; unfold cell; rewrite O; auto).
  unfold somewhere in *. rewrite CE.
  inversion H; subst; cbn [fst snd] in *.
  - destruct (create_ok _ _ _ _ _ _ I H0 H1 H2 H3) as (cs&I2&_&A2&_).
    assert (k <> k0) by (intros ->; congruence). rewrite A2 by auto. split; auto.
    destruct W as [W|(l&C&Hl)]; auto. right. exists l. split; auto.
    assert (l = F k) by (eapply chain_fun; eauto; apply I). subst.
    pose proof (i_chain _ _ _ I2 k) as C2. rewrite A2 in C2 by auto. unfold updF in C2. destruct (Nat.eqb_spec k k0); [congruence|auto].
  - pose proof (alloc_ok d L F k0 I) as A. rewrite H0 in A. destruct A as (F'&I'&_&O'&FO&SN&FK).
    split; [auto|].
    destruct W as [W|(l&C&Hl)]; [simpl; auto|].
    assert (l = F k) by (eapply chain_fun; eauto; apply I). subst.
    destruct (Nat.eq_dec k k0) as [->|N].
    + destruct (F k0) as [|c l] eqn:Fk; [destruct Hl|]. destruct FK as (->&FK&->). destruct Hl as [<-|Hl].
      * left. simpl. left. rewrite <- CE. auto.
      * right. exists l. split; auto. pose proof (i_chain _ _ _ I' k0). rewrite FK in *. auto.
    + right. exists (F k). split; auto. pose proof (i_chain _ _ _ I' k). rewrite FO in * by auto. auto.
  - pose proof (alloc_ok d L F k0 I) as A. rewrite H0 in A. destruct A as (->&_). auto.
  - assert (SB : subs (areas (free_fixlen d k0 o0) k) = subs (areas d k)).
    { unfold free_fixlen. rewrite areas_set. destruct (Nat.eqb_spec k k0); subst; auto. }
    rewrite SB. split; auto. pose proof (free_inv _ _ _ _ _ _ I) as I'.
    destruct W as [W|(l&C&Hl)].
    + apply in_app_or in W. simpl in W. destruct W as [W|[W|W]]; [left; apply in_or_app; auto| |left; apply in_or_app; auto].
      right. exists (updF F k0 (o0 :: F k0) k). split; [apply I'|]. inversion W; subst. unfold updF. rewrite Nat.eqb_refl. simpl. auto.
    + right. exists (updF F k0 (o0 :: F k0) k). split; [apply I'|].
      assert (l = F k) by (eapply chain_fun; eauto; apply I). subst.
      unfold updF. destruct (Nat.eqb_spec k k0); subst; simpl; auto.
  - destruct (chunk_inv _ _ _ _ _ _ I H0 H1) as (I2&M&A&_). rewrite A, M. split; auto. simpl. tauto.
  - split; auto. destruct W as [W|(l&C&Hl)]; auto. right.
    assert (l = F k) by (eapply chain_fun; eauto; apply I). subst.
    exists (F k). split; auto. pose proof (write_inv _ _ _ _ _ v I H0 H1 H2) as I'. apply (i_chain _ _ _ I' k).
Qed.
Lemma somewhere_steps k o s t : asteps s t -> (exists F, inv (fst s) (snd s) F) ->
  subs (areas (fst s) k) <> [] -> somewhere (fst s) (snd s) k o ->
  subs (areas (fst t) k) <> [] /\ somewhere (fst t) (snd t) k o.
Proof.
  induction 1; auto. intros I Hk W. destruct (IHasteps I Hk W). eapply somewhere_step; eauto.
  eapply steps_inv; eauto.
Qed.

Lemma alloc_many_chain k o : forall l d, chain (mem d) (flist (areas d k)) l -> In o l ->
  exists n os d'', alloc_many n d k = Some (os, d'') /\ In o os /\ dfree d'' = dfree d.
Proof.
  induction l as [|c l IH]; intros d C Hin; [destruct Hin|].
  destruct C as (C1&C2&C3).
  assert (E : alloc_fixlen d k = AOk c (pop d k c)).
  { unfold alloc_fixlen. rewrite C1. destruct (Z.eqb_spec c 0); [congruence|reflexivity]. }
  destruct Hin as [<-|Hin].
  - exists 1%nat, [c], (pop d k c). cbn [alloc_many]. rewrite E. simpl. auto.
  - destruct (IH (pop d k c)) as (n&os&d''&A&B&D).
    + unfold pop at 2. rewrite areas_set_same. cbn [flist set_flist]. auto.
    + auto.
    + exists (S n), (c :: os), d''. cbn [alloc_many]. rewrite E, A. simpl. auto.
Qed.

Lemma freed_returns d L k o d' L' : areach (d, L) -> In (cell d k o) L -> asteps (d, L) (d', L') ->
  ~ In (cell d' k o) L' ->
  exists n os d'', alloc_many n d' k = Some (os, d'') /\ In o os /\ dfree d'' = dfree d'.
Proof.
  intros R Hin S Hout. pose proof (reach_inv _ R) as I.
  assert (Hk : subs (areas d k) <> []).
  { destruct I as (F&I). cbn in I. intros E. destruct (i_none _ _ _ I k E) as (_&N). apply (N _ Hin). reflexivity. }
  destruct (somewhere_steps k o _ _ S I Hk (or_introl Hin)) as (_&[W|(l&C&Hl)]); [contradiction|].
  eapply alloc_many_chain; eauto.
Qed.

Lemma free_alloc d L k o : areach (d, L) -> In (cell d k o) L ->
  exists d', alloc_fixlen (free_fixlen d k o) k = AOk o d'.
Proof.
  intros R Hin. destruct (reach_inv _ R) as (F&I). cbn in I.
  destruct (i_in_L _ _ _ I _ Hin) as (B1&_). cbn in B1.
  unfold alloc_fixlen, free_fixlen. rewrite areas_set_same. cbn [flist set_flist].
  destruct (Z.eqb_spec o 0); [lia|]. eauto.
Qed.
