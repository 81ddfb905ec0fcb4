(** The fingerprint word and the two filters on it. *)
From Coq Require Import List ZArith Bool Lia.
From Coq Require Import ZifyBool.
From Verif Require Import Terms TermsProof BitsProof MetaModel MetaProof.
Import ListNotations.
Open Scope Z_scope.
Ltac Zify.zify_post_hook ::= Z.div_mod_to_equations.

Definition mkw (n g sz dp pl h : Z) : Z :=
  8 * (n * 4194304 + g * 2097152 + sz * 65536 + dp * 2048 + pl * 256 + h) + 3.
Definition hmod (v : Z) : Z := if 255 <? v then v mod 255 else v.
Definition b2z (b : bool) : Z := if b then 1 else 0.

Lemma hmod_range v : 0 <= v -> 0 <= hmod v < 256.
Proof. unfold hmod. destruct (Z.ltb_spec 255 v); lia. Qed.

Lemma litmeta_mkw m : 0 <= size m -> 0 <= depth m -> 0 <= preflen m -> 0 <= prefhash m ->
  litmeta_to_gint m = mkw 0 (b2z (negb (hasvars m))) (Z.min 31 (size m)) (Z.min 31 (depth m))
                          (Z.min 7 (preflen m)) (hmod (prefhash m)).
Proof.
  intros Hs Hd Hp Hh. unfold litmeta_to_gint, encode_smallint, smallint_shft.
  assert (E1 : (if 31 <? size m then 31 else size m) = Z.min 31 (size m))
    by (destruct (Z.ltb_spec 31 (size m)); lia).
  assert (E2 : (if 31 <? depth m then 31 else depth m) = Z.min 31 (depth m))
    by (destruct (Z.ltb_spec 31 (depth m)); lia).
  assert (E3 : (if 7 <? preflen m then 7 else preflen m) = Z.min 7 (preflen m))
    by (destruct (Z.ltb_spec 7 (preflen m)); lia).
  assert (E4 : (if 255 <? prefhash m then Z.land (Z.rem (prefhash m) 255) 255 else prefhash m) = hmod (prefhash m)).
  { unfold hmod. destruct (Z.ltb_spec 255 (prefhash m)); auto.
    rewrite Z.rem_mod_nonneg by lia. change 255 with (Z.ones 8) at 2.
    rewrite Z.land_ones by lia. apply Z.mod_small. lia. }
  rewrite E1, E2, E3, E4. pose proof (hmod_range _ Hh).
  assert (Eg : (if hasvars m then 0 else 1) = b2z (negb (hasvars m))) by (destruct (hasvars m); reflexivity).
  rewrite Eg. assert (0 <= b2z (negb (hasvars m)) <= 1) by (destruct (hasvars m); simpl; lia).
  set (gr := b2z (negb (hasvars m))) in *. set (sz := Z.min 31 (size m)) in *.
  set (dp := Z.min 31 (depth m)) in *. set (pl := Z.min 7 (preflen m)) in *. set (h := hmod (prefhash m)) in *.
  assert (0 <= sz <= 31) by lia. assert (0 <= dp <= 31) by lia. assert (0 <= pl <= 7) by lia.
  clearbody gr sz dp pl h. rewrite !Z.shiftl_mul_pow2 by lia.
  rewrite (lor_add gr (sz * 2 ^ 16) 21) by lia.
  replace (gr * 2 ^ 21 + sz * 2 ^ 16) with ((gr * 32 + sz) * 2 ^ 16) by lia.
  rewrite (lor_add (gr * 32 + sz) (dp * 2 ^ 11) 16) by lia.
  replace ((gr * 32 + sz) * 2 ^ 16 + dp * 2 ^ 11) with (((gr * 32 + sz) * 32 + dp) * 2 ^ 11) by lia.
  rewrite (lor_add ((gr * 32 + sz) * 32 + dp) (pl * 2 ^ 8) 11) by lia.
  replace (((gr * 32 + sz) * 32 + dp) * 2 ^ 11 + pl * 2 ^ 8) with ((((gr * 32 + sz) * 32 + dp) * 8 + pl) * 2 ^ 8) by lia.
  rewrite (lor_add (((gr * 32 + sz) * 32 + dp) * 8 + pl) (h * 2 ^ 0) 8) by lia.
  rewrite (lor_add _ 3 3) by lia. unfold mkw. lia.
Qed.

Section W.
  Variables (n g sz dp pl h : Z).
  Hypothesis Hn : 0 <= n <= 1.
  Hypothesis Hg : 0 <= g <= 1.
  Hypothesis Hsz : 0 <= sz <= 31.
  Hypothesis Hdp : 0 <= dp <= 31.
  Hypothesis Hpl : 0 <= pl <= 7.
  Hypothesis Hh : 0 <= h < 256.

  Lemma mkw_neg : Z.land (mkw n g sz dp pl h) neg_raw = n * 33554432.
  Proof.
    change neg_raw with (Z.shiftl (Z.ones 1) 25). rewrite land_range by lia.
    change (2 ^ 25) with 33554432. change (2 ^ 1) with 2. unfold mkw. lia.
  Qed.
  Lemma mkw_ground : Z.land (mkw n g sz dp pl h) ground_raw = g * 16777216.
  Proof.
    change ground_raw with (Z.shiftl (Z.ones 1) 24). rewrite land_range by lia.
    change (2 ^ 24) with 16777216. change (2 ^ 1) with 2. unfold mkw. lia.
  Qed.
  Lemma mkw_cansubs : Z.land (mkw n g sz dp pl h) cansubs_raw = (g * 8192 + sz * 256 + dp * 8 + pl) * 2048.
  Proof.
    change cansubs_raw with (Z.shiftl (Z.ones 14) 11). rewrite land_range by lia.
    change (2 ^ 11) with 2048. change (2 ^ 14) with 16384. unfold mkw. lia.
  Qed.
  Lemma mkw_groundcmp : Z.land (mkw n g sz dp pl h) groundcmp_raw =
    (g * 2097152 + sz * 65536 + dp * 2048 + pl * 256 + h) * 8.
  Proof.
    change groundcmp_raw with (Z.shiftl (Z.ones 22) 3). rewrite land_range by lia.
    change (2 ^ 22) with 4194304. change (2 ^ 3) with 8. unfold mkw. lia.
  Qed.
  Lemma mkw_depthcansubs : Z.land (mkw n g sz dp pl h) depthcansubs_raw = (dp * 8 + pl) * 2048.
  Proof.
    change depthcansubs_raw with (Z.shiftl (Z.ones 8) 11). rewrite land_range by lia.
    change (2 ^ 11) with 2048. change (2 ^ 8) with 256. unfold mkw. lia.
  Qed.
  Lemma mkw_preflencansubs : Z.land (mkw n g sz dp pl h) preflencansubs_raw = pl * 2048.
  Proof.
    change preflencansubs_raw with (Z.shiftl (Z.ones 3) 11). rewrite land_range by lia.
    change (2 ^ 11) with 2048. change (2 ^ 3) with 8. unfold mkw. lia.
  Qed.
  Lemma mkw_prefhash : Z.land (mkw n g sz dp pl h) prefhash_raw = h * 8.
  Proof.
    change prefhash_raw with (Z.shiftl (Z.ones 8) 3). rewrite land_range by lia.
    change (2 ^ 8) with 256. change (2 ^ 3) with 8. unfold mkw. lia.
  Qed.
  Lemma mkw_isneg : meta_is_neg (mkw n g sz dp pl h) = (n =? 1).
  Proof. unfold meta_is_neg. rewrite mkw_neg. lia. Qed.
  Lemma mkw_isground : meta_is_ground (mkw n g sz dp pl h) = (g =? 1).
  Proof. unfold meta_is_ground. rewrite mkw_ground. lia. Qed.
End W.

Section L.
  Variable bh : cst -> Z.

  (** Fingerprint of a literal in closed form. *)
  Definition gnd (t : term) : bool := negb (existsb isvar (leaves t)).
  Definition lw (neg : bool) (t : term) : Z :=
    mkw (b2z neg) (b2z (gnd t)) (Z.min 31 (Z.of_nat (length (leaves t)))) (Z.min 31 (tdepth t))
        (Z.min 7 (Z.of_nat (length (gp (leaves t))))) (hmod (csum bh (gp (leaves t)))).

  Lemma calc_meta_fields t m : hasvars m = false -> preflen m = 0 -> prefhash m = 0 -> depth m = 0 -> size m = 0 ->
    hash_fits bh t ->
    let m' := calc_term_meta bh t 0 m in
    hasvars m' = negb (gnd t) /\ size m' = Z.of_nat (length (leaves t)) /\ depth m' = tdepth t /\
    preflen m' = Z.of_nat (length (gp (leaves t))) /\ prefhash m' = csum bh (gp (leaves t)) /\
    pref1hash m' = (if 1 <=? Z.of_nat (length (gp (leaves t))) then csum bh (firstn 1 (gp (leaves t))) else pref1hash m) /\
    pref2hash m' = (if 2 <=? Z.of_nat (length (gp (leaves t))) then csum bh (firstn 2 (gp (leaves t))) else pref2hash m) /\
    pref3hash m' = (if 3 <=? Z.of_nat (length (gp (leaves t))) then csum bh (firstn 3 (gp (leaves t))) else pref3hash m).
  Proof.
    intros Hhv Hpl Hph Hd Hs Hf. cbn zeta.
    destruct (calc_leaves bh t 0 m) as (A&B&C&D&E&F&G).
    rewrite (calc_depth bh t 0 m) by lia. rewrite A, B, C, D, E, F, G.
    pose proof (leaves_leaf t) as Hl.
    destruct (fold_size bh (leaves t) m Hl) as [H1 H2].
    destruct (fold_pref bh (leaves t) m Hhv Hl) as (P1&P2&P3&P4&P5).
    rewrite H1, H2, P1, P2, P3, P4, P5. rewrite Hhv, Hpl, Hph, Hd, Hs.
    pose proof (tdepth_nonneg t). destruct (hash_fits_gp bh t Hf) as [Hlt Hge]. destruct Hf as [Hb _].
    unfold gnd. rewrite negb_involutive. simpl orb.
    assert (Hk : forall k : nat, hsum bh 0 (firstn k (gp (leaves t))) = csum bh (firstn k (gp (leaves t)))).
    { intros k. rewrite hsum_exact; [lia|exact Hb|lia|].
      rewrite <- (firstn_skipn k (gp (leaves t))) in Hlt. rewrite csum_app in Hlt.
      pose proof (csum_nonneg bh (skipn k (gp (leaves t))) Hb). lia. }
    repeat split; try lia.
    - rewrite hsum_exact; [lia|exact Hb|lia|lia].
    - unfold prefk. rewrite Hpl, Hph. change (Z.to_nat (1 - 0)) with 1%nat. change (0 <? 1) with true.
      rewrite andb_true_l, Z.add_0_l, (Hk 1%nat). reflexivity.
    - unfold prefk. rewrite Hpl, Hph. change (Z.to_nat (2 - 0)) with 2%nat. change (0 <? 2) with true.
      rewrite andb_true_l, Z.add_0_l, (Hk 2%nat). reflexivity.
    - unfold prefk. rewrite Hpl, Hph. change (Z.to_nat (3 - 0)) with 3%nat. change (0 <? 3) with true.
      rewrite andb_true_l, Z.add_0_l, (Hk 3%nat). reflexivity.
  Qed.

  Lemma lw_ranges t : hash_fits bh t ->
    0 <= b2z (gnd t) <= 1 /\ 0 <= Z.min 31 (Z.of_nat (length (leaves t))) <= 31 /\
    0 <= Z.min 31 (tdepth t) <= 31 /\ 0 <= Z.min 7 (Z.of_nat (length (gp (leaves t)))) <= 7 /\
    0 <= hmod (csum bh (gp (leaves t))) < 256.
  Proof.
    intros Hf. pose proof (tdepth_nonneg t). destruct (hash_fits_gp bh t Hf).
    pose proof (hmod_range (csum bh (gp (leaves t)))). assert (0 <= b2z (gnd t) <= 1) by (destruct (gnd t); simpl; lia). lia.
  Qed.

  Lemma neg_or m (neg : bool) : 0 <= m < 33554432 -> (if neg then Z.lor m neg_raw else m) = m + b2z neg * 33554432.
  Proof.
    intros Hm. destruct neg; simpl b2z; [|lia]. change neg_raw with (1 * 2 ^ 25).
    rewrite Z.lor_comm, lor_add by lia. lia.
  Qed.

  Lemma litmeta_lw t m (neg : bool) : hasvars m = false -> preflen m = 0 -> prefhash m = 0 -> depth m = 0 -> size m = 0 ->
    hash_fits bh t ->
    (let w := litmeta_to_gint (calc_term_meta bh t 0 m) in if neg then Z.lor w neg_raw else w) = lw neg t.
  Proof.
    intros Hhv Hpl Hph Hd Hs Hf. destruct (calc_meta_fields t m Hhv Hpl Hph Hd Hs Hf) as (A&B&C&D&E&_).
    destruct (lw_ranges t Hf) as (R1&R2&R3&R4&R5). pose proof (tdepth_nonneg t).
    destruct (hash_fits_gp bh t Hf). cbn zeta. rewrite litmeta_mkw by lia.
    rewrite A, B, C, D, E, negb_involutive. rewrite neg_or by (unfold mkw; lia).
    unfold lw, mkw. lia.
  Qed.

  Lemma litword_lw neg t : hash_fits bh t -> litword bh neg t = lw neg t.
  Proof. intros; apply litmeta_lw; auto. Qed.

  (** ** Monotonicity *)
  Lemma lw_neg neg t : hash_fits bh t -> Z.land (lw neg t) neg_raw = b2z neg * 33554432.
  Proof.
    intros Hf. destruct (lw_ranges t Hf) as (R1&R2&R3&R4&R5).
    apply mkw_neg; auto; destruct neg; simpl; lia.
  Qed.
  Lemma lw_isneg neg t : hash_fits bh t -> meta_is_neg (lw neg t) = neg.
  Proof. intros Hf. unfold meta_is_neg. rewrite lw_neg by auto. destruct neg; reflexivity. Qed.
  Lemma lw_isground neg t : hash_fits bh t -> meta_is_ground (lw neg t) = gnd t.
  Proof.
    intros Hf. destruct (lw_ranges t Hf) as (R1&R2&R3&R4&R5). unfold lw.
    rewrite mkw_isground by (auto; destruct neg; simpl; lia). destruct (gnd t); reflexivity.
  Qed.
  Lemma lw_samepol n1 n2 t u : hash_fits bh t -> hash_fits bh u ->
    negpolarities (lw n1 t) (lw n2 u) = xorb n1 n2.
  Proof. intros. unfold negpolarities. rewrite !lw_neg by auto. destruct n1, n2; reflexivity. Qed.

  Lemma instance_facts s x y : app s x = y -> nonempty y = true ->
    (length (leaves x) <= length (leaves y))%nat /\ tdepth x <= tdepth y /\
    (length (gp (leaves x)) <= length (gp (leaves y)))%nat /\
    (length (gp (leaves x)) = length (gp (leaves y)) -> gp (leaves x) = gp (leaves y)) /\
    (gnd x = true -> x = y).
  Proof.
    intros <- Hne. split; [apply leaves_len_mono; auto|]. split; [apply tdepth_mono|].
    destruct (gp_prefix s x) as [r Hr]. rewrite Hr, app_length. split; [lia|]. split.
    - intros H. destruct r; [rewrite app_nil_r; auto|simpl in H; lia].
    - unfold gnd. intros H. symmetry. apply novars_app. destruct (existsb isvar (leaves x)); auto; discriminate.
  Qed.

  Lemma hash_fits_instance s x : hash_fits bh (app s x) -> hash_fits bh x.
  Proof.
    intros [Hb Hs]. split; auto. enough (csum bh (consts (leaves x)) <= csum bh (consts (leaves (app s x)))) by lia.
    rewrite leaves_app. clear Hs. pose proof (leaves_leaf x) as Hl. revert Hl. generalize (leaves x) as ls.
    induction ls as [|l ls IH]; intros Hl; [simpl; lia|].
    unfold consts in *. cbn [flat_map]. rewrite flat_map_app, !csum_app.
    specialize (IH (fun l h => Hl l (or_intror h))).
    enough (csum bh (match l with TCst c => [c] | _ => [] end) <=
            csum bh (flat_map (fun t => match t with TCst c => [c] | _ => [] end) (leaves (app s l)))) by lia.
    specialize (Hl l (or_introl eq_refl)).
    destruct l as [i|c|]; [|simpl; lia|contradiction]. simpl. apply csum_nonneg; auto.
  Qed.

  Lemma filter_sound s x y neg : app s x = y -> nonempty y = true -> hash_fits bh y ->
    matchable_lit_meta (lw neg x) (lw neg y) = true /\ sort_meta_bigger (lw neg x) (lw neg y) = false.
  Proof.
    intros He Hne Hfy. assert (Hfx : hash_fits bh x) by (subst y; eapply hash_fits_instance; eauto).
    destruct (instance_facts s x y He Hne) as (L1&L2&L3&L4&L5).
    destruct (lw_ranges x Hfx) as (R1&R2&R3&R4&R5). destruct (lw_ranges y Hfy) as (S1&S2&S3&S4&S5).
    assert (Hn : 0 <= b2z neg <= 1) by (destruct neg; simpl; lia).
    unfold matchable_lit_meta, sort_meta_bigger. rewrite !lw_isground by auto.
    destruct (gnd x) eqn:Gx.
    - rewrite <- (L5 eq_refl), Gx. rewrite Z.eqb_refl.
      rewrite !Z.ltb_irrefl. auto.
    - unfold lw. rewrite !mkw_cansubs, !mkw_depthcansubs, !mkw_preflencansubs by auto.
      change preflen_raw with preflencansubs_raw. rewrite ?mkw_preflencansubs, !mkw_prefhash by auto.
      assert (G1 : b2z (gnd x) <= b2z (gnd y)) by (rewrite Gx; destruct (gnd y); simpl; lia).
      rewrite Gx in *. simpl b2z.
      assert (E5 : Z.min 7 (Z.of_nat (length (gp (leaves x)))) = Z.min 7 (Z.of_nat (length (gp (leaves y)))) ->
                   Z.min 7 (Z.of_nat (length (gp (leaves x)))) <> 7 ->
                   hmod (csum bh (gp (leaves x))) = hmod (csum bh (gp (leaves y)))).
      { intros E1 E2. rewrite L4; auto. lia. }
      set (hx := hmod (csum bh (gp (leaves x)))) in *. set (hy := hmod (csum bh (gp (leaves y)))) in *.
      clearbody hx hy. simpl b2z in *.
      split.
      + rewrite !Z.shiftr_div_pow2 by (unfold smallint_shft; lia).
        unfold smallint_shft. change (2 ^ 3) with 8. change (2 ^ 8) with 256.
        assert (0 <= b2z (gnd y) <= 1) by (destruct (gnd y); simpl; lia).
        rewrite (mkw_cansubs (b2z neg) 0) by (auto; lia). generalize dependent (b2z (gnd y)). intros gy ? ? ?.
        repeat match goal with |- (if ?b then _ else _) = _ => destruct b eqn:? end; auto; exfalso; lia.
      + destruct (gnd y); auto. apply Z.ltb_ge. simpl b2z in *.
        rewrite ?(mkw_cansubs (b2z neg) 0) by (auto; lia). lia.
  Qed.
End L.
