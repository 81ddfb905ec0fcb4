(** The clause fingerprint filter: when it lets real subsumers through. *)
From Coq Require Import List ZArith Bool Lia Permutation Sorting.Sorted ZifyBool.
From Verif Require Import Terms UnifySpec TermsProof UnifyModel MatchModel BitsProof MetaModel MetaProof
  MetaWordProof SortProof SubsumeModel SubsumeSpec SubsumeProof SubsumeTop.
Import ListNotations.
Open Scope Z_scope.

(** Counters of a clause, in plain terms. *)
Definition n_lits (D : list literal) : Z := Z.of_nat (length D).
Definition n_where (p : literal -> bool) (D : list literal) : Z := Z.of_nat (length (filter p D)).
Definition n_neg := n_where fst.
Definition n_ground := n_where (fun l => gnd (snd l)).
Definition max_of (f : literal -> Z) (D : list literal) : Z := fold_right Z.max 0 (map f D).
Definition sum_of (f : literal -> Z) (D : list literal) : Z := fold_right Z.add 0 (map f D).
(** nesting depth; symbol and variable occurrences; constants before the first variable *)
Definition max_depth := max_of (fun l => tdepth (snd l)).
Definition total_size := sum_of (fun l => Z.of_nat (length (leaves (snd l)))).
Definition max_prefix := max_of (fun l => Z.of_nat (length (gp (leaves (snd l))))).
Definition clause_ground (D : list literal) : bool := forallb (fun l => gnd (snd l)) D.
Definition counters (D : list literal) : list Z :=
  [n_lits D; n_neg D; n_ground D; max_depth D; total_size D; max_prefix D].

Definition orall (f : literal -> Z) (D : list literal) : Z := fold_right (fun l acc => Z.lor (f l) acc) 0 D.

Section S.
  Variable bh : cst -> Z.
  Definition own (k : nat) (a : term) : Z :=
    if Z.of_nat k <=? Z.of_nat (length (gp (leaves a))) then csum bh (firstn k (gp (leaves a))) else 0.
  Definition m1 (l : literal) : Z := let h := own 1 (snd l) in if h =? 0 then 0 else signed_lithash_to_bitmask h (fst l).
  Definition mk (h : Z) : Z := if h =? 0 then 0 else lithash_to_bitmask h.
  Definition m2 (l : literal) : Z := mk (own 2 (snd l)).
  Definition m3 (l : literal) : Z := mk (own 3 (snd l)).

  Definition usable (x : literal) : Prop :=
    hash_fits bh (snd x) /\ nonempty (snd x) = true /\ gp (leaves (snd x)) <> [].

  Definition fresh_meta (m : tmeta) : Prop :=
    hasvars m = false /\ preflen m = 0 /\ prefhash m = 0 /\ depth m = 0 /\ size m = 0.

  Definition sub (a b : Z) : Prop := Z.land a b = a.
  Lemma sub_lor a b : sub a b -> Z.lor b a = b.
  Proof.
    intros H. unfold sub in H. apply Z.bits_inj'. intros n Hn. rewrite Z.lor_spec.
    assert (E : Z.testbit (Z.land a b) n = Z.testbit a n) by (rewrite H; auto).
    rewrite Z.land_spec in E. destruct (Z.testbit a n), (Z.testbit b n); simpl in *; auto; discriminate.
  Qed.
  Lemma sub_refl a : sub a a. Proof. apply Z.land_diag. Qed.
  Lemma sub_0 a : sub 0 a. Proof. apply Z.land_0_l. Qed.
  Lemma sub_lor_r a b c : sub a b -> sub a (Z.lor b c).
  Proof. apply land_mono_subset. Qed.
  Lemma sub_lor_r2 a b c : sub a b -> sub a (Z.lor c b).
  Proof. rewrite Z.lor_comm. apply land_mono_subset. Qed.
  Lemma sub_lor_l a b c : sub a c -> sub b c -> sub (Z.lor a b) c.
  Proof. apply land_lor_subset. Qed.
  Lemma sub_lor_self a b : sub a (Z.lor b a).
  Proof. apply sub_lor_r2, sub_refl. Qed.

  Lemma clause_lits_ok (l : list mlit) : forall m c, fresh_meta m ->
    (forall x, In x l -> hash_fits bh (snd x) /\ gp (leaves (snd x)) <> []) ->
    sub (mk (pref2hash m)) (c_p2 c) -> sub (mk (pref3hash m)) (c_p3 c) -> 0 <= c_depth c -> 0 <= c_preflen c ->
    let D := map lit_of l in
    let (r, c') := clause_lits bh l m c in
    r = map (fun x => (lw bh (meta_is_neg (fst x)) (snd x), snd x)) l /\
    c_len c' = c_len c /\ c_neglen c' = c_neglen c + n_neg D /\ c_groundlen c' = c_groundlen c + n_ground D /\
    c_hasvars c' = c_hasvars c || negb (clause_ground D) /\
    c_depth c' = Z.max (c_depth c) (max_depth D) /\ c_size c' = c_size c + total_size D /\
    c_preflen c' = Z.max (c_preflen c) (max_prefix D) /\
    c_p1 c' = Z.lor (c_p1 c) (orall m1 D) /\ c_p2 c' = Z.lor (c_p2 c) (orall m2 D) /\
    c_p3 c' = Z.lor (c_p3 c) (orall m3 D).
  Proof.
    induction l as [|[xm a] l IH]; intros m c (Hh&Hpl&Hph&Hd&Hs) Hg H2 H3 Hcd Hcp; cbn zeta.
    - cbn [clause_lits map]. unfold n_neg, n_ground, n_where, max_depth, max_prefix, max_of, total_size, sum_of, clause_ground.
      cbn. rewrite !Z.lor_0_r, orb_false_r. repeat split; lia.
    - cbn [clause_lits].
      destruct (Hg (xm, a) (or_introl eq_refl)) as [Hfit Hhead]. cbn [snd] in Hfit, Hhead.
      pose proof (litmeta_lw bh a m (meta_is_neg xm) Hh Hpl Hph Hd Hs Hfit) as Hw. cbn zeta in Hw. rewrite Hw.
      pose proof (calc_meta_fields bh a m Hh Hpl Hph Hd Hs Hfit) as Hf. cbn zeta in Hf.
      set (m' := calc_term_meta bh a 0 m) in *. clearbody m'.
      destruct Hf as (F1&F2&F3&F4&F5&F6&F7&F8).
      pose proof (tdepth_nonneg a) as Hdn.
      assert (Hl1 : 1 <= Z.of_nat (length (gp (leaves a)))) by (destruct (gp (leaves a)); [congruence|simpl length; lia]).
      assert (G1 : (if pref1hash m' =? 0 then c_p1 c else Z.lor (c_p1 c) (signed_lithash_to_bitmask (pref1hash m') (meta_is_neg xm)))
                   = Z.lor (c_p1 c) (m1 (meta_is_neg xm, a))).
      { unfold m1, own. cbn [fst snd]. change (Z.of_nat 1) with 1. rewrite F6. destruct (Z.leb_spec 1 (Z.of_nat (length (gp (leaves a))))); [|lia].
        match goal with |- (if ?b then _ else _) = _ => destruct b end; auto. rewrite Z.lor_0_r; auto. }
      assert (G2 : (if pref2hash m' =? 0 then c_p2 c else Z.lor (c_p2 c) (lithash_to_bitmask (pref2hash m')))
                   = Z.lor (c_p2 c) (m2 (meta_is_neg xm, a))).
      { unfold m2, own. cbn [fst snd]. change (Z.of_nat 2) with 2. rewrite F7.
        destruct (Z.leb_spec 2 (Z.of_nat (length (gp (leaves a))))).
        - unfold mk. match goal with |- (if ?b then _ else _) = _ => destruct b end; auto. rewrite Z.lor_0_r; auto.
        - unfold mk at 1. change (0 =? 0) with true. cbv iota. rewrite Z.lor_0_r. unfold mk in H2.
          destruct (pref2hash m =? 0); auto. apply sub_lor; auto. }
      assert (G3 : (if pref3hash m' =? 0 then c_p3 c else Z.lor (c_p3 c) (lithash_to_bitmask (pref3hash m')))
                   = Z.lor (c_p3 c) (m3 (meta_is_neg xm, a))).
      { unfold m3, own. cbn [fst snd]. change (Z.of_nat 3) with 3. rewrite F8.
        destruct (Z.leb_spec 3 (Z.of_nat (length (gp (leaves a))))).
        - unfold mk. match goal with |- (if ?b then _ else _) = _ => destruct b end; auto. rewrite Z.lor_0_r; auto.
        - unfold mk at 1. change (0 =? 0) with true. cbv iota. rewrite Z.lor_0_r. unfold mk in H3.
          destruct (pref3hash m =? 0); auto. apply sub_lor; auto. }
      specialize (IH (reset_lit m') (add_lit m' (meta_is_neg xm) c)).
      assert (I1 : fresh_meta (reset_lit m')) by (repeat split).
      assert (I2 : forall x, In x l -> hash_fits bh (snd x) /\ gp (leaves (snd x)) <> []) by (intros; apply Hg; simpl; auto).
      assert (I3 : sub (mk (pref2hash (reset_lit m'))) (c_p2 (add_lit m' (meta_is_neg xm) c))).
      { cbn [reset_lit add_lit pref2hash c_p2]. unfold mk. destruct (pref2hash m' =? 0); [apply sub_0|apply sub_lor_self]. }
      assert (I4 : sub (mk (pref3hash (reset_lit m'))) (c_p3 (add_lit m' (meta_is_neg xm) c))).
      { cbn [reset_lit add_lit pref3hash c_p3]. unfold mk. destruct (pref3hash m' =? 0); [apply sub_0|apply sub_lor_self]. }
      assert (I5 : 0 <= c_depth (add_lit m' (meta_is_neg xm) c)).
      { cbn [add_lit c_depth]. destruct (c_depth c <? depth m'); lia. }
      assert (I6 : 0 <= c_preflen (add_lit m' (meta_is_neg xm) c)).
      { cbn [add_lit c_preflen]. destruct (c_preflen c <? preflen m'); lia. }
      specialize (IH I1 I2 I3 I4 I5 I6). cbn zeta in IH.
      destruct (clause_lits bh l (reset_lit m') (add_lit m' (meta_is_neg xm) c)) as [r c'].
      destruct IH as (J0&J1&J2&J3&J4&J5&J6&J7&J8&J9&J10).
      cbn [add_lit c_len c_neglen c_groundlen c_hasvars c_depth c_size c_preflen c_p1 c_p2 c_p3] in *.
      rewrite J0. cbn [map]. change (lit_of (xm, a)) with (meta_is_neg xm, a).
      rewrite J1, J2, J3, J4, J5, J6, J7, J8, J9, J10, G1, G2, G3, F1, F2, F3, F4.
      unfold n_neg, n_ground, n_where, max_depth, max_prefix, max_of, total_size, sum_of, clause_ground, orall.
      cbn [map filter forallb fold_right fst snd].
      rewrite !Z.lor_assoc. rewrite negb_andb.
      repeat split; auto.
      + destruct (meta_is_neg xm); cbn [length]; lia.
      + destruct (gnd a); cbn [length negb]; lia.
      + destruct (gnd a), (c_hasvars c); reflexivity.
      + destruct (Z.ltb_spec (c_depth c) (tdepth a)); lia.
      + lia.
      + destruct (Z.ltb_spec (c_preflen c) (Z.of_nat (length (gp (leaves a))))); lia.
  Qed.

  (** ** Preparing a clause establishes [stored] *)
  Lemma clause_meta_good (l : list mlit) : (forall x, In x l -> hash_fits bh (snd x) /\ nonempty (snd x) = true /\ gp (leaves (snd x)) <> []) ->
    let l' := fst (calc_clause_meta bh l) in
    (forall x, In x l' -> good_lit bh x) /\ map lit_of l' = map lit_of l.
  Proof.
    intros H. unfold calc_clause_meta. cbn zeta.
    pose proof (clause_lits_ok l tmeta0 (cmeta0 (Z.of_nat (length l)))) as HC.
    destruct (clause_lits bh l tmeta0 (cmeta0 (Z.of_nat (length l)))) as [r c'].
    cbn zeta in HC. destruct HC as (HC&_).
    { repeat split. } { intros x Hx. destruct (H x Hx) as (A&B&C); auto. } { apply sub_0. } { apply sub_0. }
    { cbn; lia. } { cbn; lia. }
    cbn [fst]. subst r. split.
    - intros x Hx. apply in_map_iff in Hx as ([ym ya]&<-&Hy). destruct (H _ Hy) as (A&B&C). cbn [fst snd] in *.
      unfold good_lit. cbn [fst snd]. rewrite lw_isneg by auto. repeat split; auto; try apply A.
      + rewrite litword_lw by auto. reflexivity.
      + destruct ya as [|c0|[|[|c0|] ts]]; simpl in *; auto.
    - rewrite map_map. apply map_ext_in. intros [ym ya] Hy. destruct (H _ Hy) as (A&B&C). unfold lit_of. cbn [fst snd] in *.
      rewrite lw_isneg by auto. reflexivity.
  Qed.

  Lemma prepared_stored lex (l : list mlit) : l <> [] ->
    (forall x, In x l -> hash_fits bh (snd x) /\ nonempty (snd x) = true /\ gp (leaves (snd x)) <> []) ->
    let l' := sort_cl lex (fst (calc_clause_meta bh l)) in
    stored bh (Rule l') /\ Permutation (map lit_of l') (map lit_of l).
  Proof.
    intros Hne H. destruct (clause_meta_good l H) as [A B]. cbn zeta in *.
    destruct (sort_cl_ok lex (fst (calc_clause_meta bh l))) as [P S].
    split.
    - split; [|split; auto].
      + intros E. rewrite E in P. apply Permutation_sym, Permutation_nil in P. rewrite P in B. destruct l; [congruence|discriminate].
      + intros x Hx. apply A. eapply Permutation_in; [apply Permutation_sym; exact P|auto].
    - rewrite <- B. apply Permutation_map, Permutation_sym. exact P.
  Qed.

  (** ** Monotonicity of the counters *)
  Lemma usable_inst t x : usable (inst t x) -> gp (leaves (snd x)) <> [] -> usable (inst t x) /\ hash_fits bh (snd x).
  Proof. intros H _. split; auto. destruct H as (A&_). eapply hash_fits_instance. exact A. Qed.

  Lemma firstn_gp t a k : (k <= length (gp (leaves a)))%nat ->
    firstn k (gp (leaves (app t a))) = firstn k (gp (leaves a)) /\ (k <= length (gp (leaves (app t a))))%nat.
  Proof.
    intros H. destruct (gp_prefix t a) as [r Hr]. rewrite Hr, firstn_app, app_length.
    replace (k - length (gp (leaves a)))%nat with O by lia. simpl. rewrite app_nil_r. split; auto. lia.
  Qed.

  Lemma own_inst t a k : own k a = 0 \/ own k (app t a) = own k a.
  Proof.
    unfold own. destruct (Z.leb_spec (Z.of_nat k) (Z.of_nat (length (gp (leaves a))))); auto.
    right. destruct (firstn_gp t a k) as [A B]; [lia|].
    destruct (Z.leb_spec (Z.of_nat k) (Z.of_nat (length (gp (leaves (app t a)))))); [|lia]. rewrite A; auto.
  Qed.

  Lemma m1_inst t x : sub (m1 x) (m1 (inst t x)).
  Proof.
    unfold m1, inst. cbn [fst snd]. destruct (own_inst t (snd x) 1) as [->| ->]; [apply sub_0|apply sub_refl].
  Qed.
  Lemma m2_inst t x : sub (m2 x) (m2 (inst t x)).
  Proof.
    unfold m2, mk, inst. cbn [fst snd]. destruct (own_inst t (snd x) 2) as [->| ->]; [apply sub_0|apply sub_refl].
  Qed.
  Lemma m3_inst t x : sub (m3 x) (m3 (inst t x)).
  Proof.
    unfold m3, mk, inst. cbn [fst snd]. destruct (own_inst t (snd x) 3) as [->| ->]; [apply sub_0|apply sub_refl].
  Qed.

  Lemma orall_in f x D : In x D -> sub (f x) (orall f D).
  Proof.
    induction D as [|y D IH]; [intros []|]. cbn. intros [->|H]; [apply sub_lor_r, sub_refl|apply sub_lor_r2; auto].
  Qed.
  Lemma sub_trans a b c : sub a b -> sub b c -> sub a c.
  Proof. unfold sub. intros H1 H2. rewrite <- H1 at 1. rewrite <- Z.land_assoc, H2. exact H1. Qed.
  Lemma orall_sub f C D : (forall x, In x C -> exists y, In y D /\ sub (f x) (f y)) -> sub (orall f C) (orall f D).
  Proof.
    induction C as [|x C IH]; intros H; cbn; [apply sub_0|]. apply sub_lor_l; [|apply IH; intros; apply H; simpl; auto].
    destruct (H x (or_introl eq_refl)) as (y&Hy&Hs). eapply sub_trans; [exact Hs|apply orall_in; auto].
  Qed.

  Lemma n_where_mono p q (C D : list literal) t rest : Permutation (map (inst t) C ++ rest) D ->
    (forall x, In x C -> p x = true -> q (inst t x) = true) -> n_where p C <= n_where q D.
  Proof.
    intros HP H. unfold n_where.
    assert (E : forall l l' : list literal, Permutation l l' -> length (filter q l) = length (filter q l')).
    { induction 1; simpl; auto; try congruence.
      - destruct (q x); simpl; auto.
      - destruct (q x), (q y); simpl; auto. }
    rewrite <- (E _ _ HP), filter_app, app_length. clear HP E.
    enough (length (filter p C) <= length (filter q (map (inst t) C)))%nat by lia.
    induction C as [|x C IH]; simpl; [lia|]. specialize (IH (fun x h => H x (or_intror h))).
    specialize (H x (or_introl eq_refl)). destruct (p x), (q (inst t x)); simpl; try lia; discriminate H; auto.
  Qed.

  Lemma max_of_ge f D x : In x D -> f x <= max_of f D.
  Proof. unfold max_of. induction D as [|y D IH]; simpl; [intros []|]. intros [->|H]; [lia|]. specialize (IH H). lia. Qed.
  Lemma max_of_nonneg f D : 0 <= max_of f D.
  Proof. unfold max_of. induction D; simpl; lia. Qed.
  Lemma max_of_le f C M : 0 <= M -> (forall x, In x C -> f x <= M) -> max_of f C <= M.
  Proof.
    intros HM. unfold max_of. induction C as [|x C IH]; simpl; intros Hin; [lia|].
    pose proof (Hin x (or_introl eq_refl)). specialize (IH (fun x h => Hin x (or_intror h))). lia.
  Qed.
  Lemma max_of_mono f (C D : list literal) t rest : Permutation (map (inst t) C ++ rest) D ->
    (forall x, In x C -> f x <= f (inst t x)) -> max_of f C <= max_of f D.
  Proof.
    intros HP H. apply max_of_le; [apply max_of_nonneg|].
    intros x Hx. transitivity (f (inst t x)); [auto|]. apply max_of_ge. eapply Permutation_in; [exact HP|].
    apply in_or_app. left. apply in_map; auto.
  Qed.
  Lemma sum_of_mono f (C D : list literal) t rest : Permutation (map (inst t) C ++ rest) D ->
    (forall x, 0 <= f x) -> (forall x, In x C -> f x <= f (inst t x)) -> sum_of f C <= sum_of f D.
  Proof.
    intros HP Hn H. unfold sum_of.
    assert (E : forall l l' : list literal, Permutation l l' -> fold_right Z.add 0 (map f l) = fold_right Z.add 0 (map f l')).
    { induction 1; simpl; lia. }
    rewrite <- (E _ _ HP), map_app, fold_right_app. clear HP E.
    assert (0 <= fold_right Z.add 0 (map f rest)).
    { clear -Hn. induction rest as [|y rest IH]; simpl; [lia|]. specialize (Hn y). lia. }
    set (R := fold_right Z.add 0 (map f rest)) in *. clearbody R.
    induction C as [|x C IH]; simpl; [lia|]. specialize (IH (fun x h => H x (or_intror h))).
    specialize (H x (or_introl eq_refl)). lia.
  Qed.

  (** ** Packed words *)
  Lemma limit_range x : 0 <= x -> 0 <= limit_byte x <= 255.
  Proof. unfold limit_byte. intros. destruct (x <? 255) eqn:A, (0 <=? x) eqn:B, (255 <? x) eqn:C; simpl; lia. Qed.
  Lemma limit_mono x y : 0 <= x <= y -> y <> 255 -> limit_byte x <= limit_byte y.
  Proof.
    unfold limit_byte. intros.
    destruct (x <? 255) eqn:A, (0 <=? x) eqn:B, (255 <? x) eqn:C, (y <? 255) eqn:D, (0 <=? y) eqn:E, (255 <? y) eqn:F; simpl; lia.
  Qed.

  Lemma pack4 g a b c : 0 <= g <= 1 -> 0 <= a <= 255 -> 0 <= b <= 255 -> 0 <= c <= 255 ->
    Z.lor (Z.lor (Z.lor (Z.shiftl g 24) (Z.shiftl a 16)) (Z.shiftl b 8)) (Z.shiftl c 0) =
    g * 16777216 + a * 65536 + b * 256 + c.
  Proof.
    intros. rewrite !Z.shiftl_mul_pow2 by lia.
    replace (c * 2 ^ 0) with c by lia.
    rewrite (lor_add g (a * 2 ^ 16) 24) by lia.
    replace (g * 2 ^ 24 + a * 2 ^ 16) with ((g * 256 + a) * 2 ^ 16) by lia.
    rewrite (lor_add _ (b * 2 ^ 8) 16) by lia.
    replace ((g * 256 + a) * 2 ^ 16 + b * 2 ^ 8) with (((g * 256 + a) * 256 + b) * 2 ^ 8) by lia.
    rewrite (lor_add _ c 8) by lia. lia.
  Qed.
  Lemma pack3 a b c : 0 <= a <= 255 -> 0 <= b <= 255 -> 0 <= c <= 255 ->
    Z.lor (Z.lor (Z.shiftl a 16) (Z.shiftl b 8)) (Z.shiftl c 0) = a * 65536 + b * 256 + c.
  Proof.
    intros. assert (E := pack4 0 a b c). rewrite Z.shiftl_0_l, Z.lor_0_l in E. rewrite E by lia. lia.
  Qed.
  Lemma byte16 g a b c : 0 <= g <= 1 -> 0 <= a <= 255 -> 0 <= b <= 255 -> 0 <= c <= 255 ->
    byte_at (g * 16777216 + a * 65536 + b * 256 + c) 16 = a * 65536.
  Proof.
    intros. unfold byte_at. change (Z.shiftl 255) with (Z.shiftl (Z.ones 8)). rewrite land_range by lia.
    change (2 ^ 16) with 65536. change (2 ^ 8) with 256. f_equal.
    replace ((g * 16777216 + a * 65536 + b * 256 + c) / 65536) with (g * 256 + a)
      by (apply Z.div_unique with (b * 256 + c); lia).
    rewrite Z.add_comm, Z.mod_add, Z.mod_small; lia.
  Qed.
  Lemma byte8 g a b c : 0 <= g <= 1 -> 0 <= a <= 255 -> 0 <= b <= 255 -> 0 <= c <= 255 ->
    byte_at (g * 16777216 + a * 65536 + b * 256 + c) 8 = b * 256.
  Proof.
    intros. unfold byte_at. change (Z.shiftl 255) with (Z.shiftl (Z.ones 8)). rewrite land_range by lia.
    change (2 ^ 8) with 256. f_equal.
    replace ((g * 16777216 + a * 65536 + b * 256 + c) / 256) with (g * 65536 + a * 256 + b)
      by (apply Z.div_unique with c; lia).
    replace (g * 65536 + a * 256 + b) with (b + (g * 256 + a) * 256) by lia.
    rewrite Z.mod_add, Z.mod_small; lia.
  Qed.
  Lemma byte0 g a b c : 0 <= g <= 1 -> 0 <= a <= 255 -> 0 <= b <= 255 -> 0 <= c <= 255 ->
    byte_at (g * 16777216 + a * 65536 + b * 256 + c) 0 = c.
  Proof.
    intros. unfold byte_at. change (Z.shiftl 255) with (Z.shiftl (Z.ones 8)). rewrite land_range by lia.
    change (2 ^ 8) with 256. change (2 ^ 0) with 1. rewrite Z.div_1_r, Z.mul_1_r.
    replace (g * 16777216 + a * 65536 + b * 256 + c) with (c + (g * 65536 + a * 256 + b) * 256) by lia.
    rewrite Z.mod_add, Z.mod_small; lia.
  Qed.

  Lemma n_where_nonneg p D : 0 <= n_where p D. Proof. unfold n_where; lia. Qed.
  Lemma total_size_nonneg D : 0 <= total_size D.
  Proof. unfold total_size, sum_of. induction D; simpl; lia. Qed.

  (** The block of a clause in closed form. *)
  Lemma block_ok (l : list mlit) : (forall x, In x l -> hash_fits bh (snd x) /\ gp (leaves (snd x)) <> []) ->
    let D := map lit_of l in let b := snd (calc_clause_meta bh l) in
    b_lengths b = b2z (clause_ground D) * 16777216 + limit_byte (n_lits D) * 65536 + limit_byte (n_neg D) * 256 + limit_byte (n_ground D) /\
    b_sizes b = limit_byte (max_depth D) * 65536 + limit_byte (total_size D) * 256 + limit_byte (max_prefix D) /\
    b_p1 b = orall m1 D /\ b_p2 b = orall m2 D /\ b_p3 b = orall m3 D.
  Proof.
    intros H. unfold calc_clause_meta. cbn zeta.
    pose proof (clause_lits_ok l tmeta0 (cmeta0 (Z.of_nat (length l)))) as HC.
    destruct (clause_lits bh l tmeta0 (cmeta0 (Z.of_nat (length l)))) as [r c'].
    cbn zeta in HC. destruct HC as (_&C1&C2&C3&C4&C5&C6&C7&C8&C9&C10); auto using sub_0; try (cbn; lia); [repeat split|].
    cbn [cmeta0 c_len c_neglen c_groundlen c_hasvars c_depth c_size c_preflen c_p1 c_p2 c_p3] in *.
    rewrite Z.lor_0_l in C8, C9, C10. cbn [snd pack b_lengths b_sizes b_p1 b_p2 b_p3].
    assert (0 <= n_neg (map lit_of l)) by apply n_where_nonneg.
    assert (0 <= n_ground (map lit_of l)) by apply n_where_nonneg.
    pose proof (total_size_nonneg (map lit_of l)).
    assert (0 <= max_depth (map lit_of l)) by apply max_of_nonneg.
    assert (0 <= max_prefix (map lit_of l)) by apply max_of_nonneg.
    rewrite Z.max_r in C5, C7 by assumption.
    rewrite Z.add_0_l in C2, C3, C6. simpl orb in C4.
    assert (HL : c_len c' = n_lits (map lit_of l)) by (unfold n_lits; rewrite map_length; auto).
    assert (0 <= n_lits (map lit_of l)) by (unfold n_lits; lia).
    rewrite HL, C2, C3, C4, C5, C6, C7, C8, C9, C10. clear HL.
    repeat split.
    - rewrite pack4; [destruct (clause_ground (map lit_of l)); reflexivity| |apply limit_range; assumption..].
      destruct (clause_ground (map lit_of l)); simpl; lia.
    - rewrite pack3; [reflexivity|apply limit_range; assumption..].
  Qed.

  Lemma can_subsume_numbers gb sb g1 g2 a1 b1 c1 d1 e1 f1 a2 b2 c2 d2 e2 f2 :
    b_lengths gb = g1 * 16777216 + a1 * 65536 + b1 * 256 + c1 ->
    b_lengths sb = g2 * 16777216 + a2 * 65536 + b2 * 256 + c2 ->
    b_sizes gb = d1 * 65536 + e1 * 256 + f1 -> b_sizes sb = d2 * 65536 + e2 * 256 + f2 ->
    sub (b_p1 gb) (b_p1 sb) -> sub (b_p2 gb) (b_p2 sb) -> sub (b_p3 gb) (b_p3 sb) ->
    0 <= g1 <= g2 -> g2 <= 1 -> 0 <= a1 <= a2 -> a2 <= 255 -> 0 <= b1 <= b2 -> b2 <= 255 -> 0 <= c1 <= c2 -> c2 <= 255 ->
    0 <= d1 <= d2 -> d2 <= 255 -> 0 <= e1 <= e2 -> e2 <= 255 -> 0 <= f1 <= f2 -> f2 <= 255 ->
    (a2 = 0 -> b1 = b2) -> clmetablock_can_subsume gb sb = true.
  Proof.
    intros L1 L2 S1 S2 B1 B2 B3 **. unfold clmetablock_can_subsume. cbn zeta. rewrite L1, L2, S1, S2.
    rewrite !byte16, !byte8, !byte0 by lia.
    assert (Sz1 : d1 * 65536 + e1 * 256 + f1 = 0 * 16777216 + d1 * 65536 + e1 * 256 + f1) by lia.
    assert (Sz2 : d2 * 65536 + e2 * 256 + f2 = 0 * 16777216 + d2 * 65536 + e2 * 256 + f2) by lia.
    rewrite Sz1, Sz2, !byte8, !byte0 by lia. clear L1 L2 S1 S2 Sz1 Sz2.
    unfold sub in B1, B2, B3. rewrite B1, B2, B3, !Z.eqb_refl. cbn [negb].
    assert (E : (a1 * 65536 =? a2 * 65536) && (a2 * 65536 <? 255) && negb (b1 * 256 =? b2 * 256) = false).
    { destruct (Z.ltb_spec (a2 * 65536) 255); [|rewrite andb_false_r; auto].
      replace b1 with b2 by (symmetry; auto with zarith; apply H14; lia). rewrite Z.eqb_refl. simpl. apply andb_false_r. }
    rewrite E. clear E.
    repeat match goal with |- context [?a <? ?b] => 
      replace (a <? b) with false by (symmetry; apply Z.ltb_ge; lia) end.
    reflexivity.
  Qed.

  Lemma n_neg_le D : n_neg D <= n_lits D.
  Proof.
    unfold n_neg, n_where, n_lits. apply inj_le. induction D as [|z D IH]; simpl; [lia|].
    destruct (fst z); simpl; lia.
  Qed.

  Theorem block_filter_sound (C D : list mlit) :
    (forall x, In x D -> usable (lit_of x)) -> (forall x, In x C -> gp (leaves (snd x)) <> []) ->
    (clause_ground (map lit_of C) = true -> clause_ground (map lit_of D) = true) ->
    ~ In 255 (counters (map lit_of D)) ->
    subsumes (map lit_of C) (map lit_of D) ->
    clmetablock_can_subsume (snd (calc_clause_meta bh C)) (snd (calc_clause_meta bh D)) = true.
  Proof.
    intros HD HCh Hgr H255 (t&rest&HP).
    set (C' := map lit_of C) in *. set (D' := map lit_of D) in *.
    assert (HinD : forall x, In x C' -> usable (inst t x)).
    { intros x Hx. assert (Hi : In (inst t x) D') by (eapply Permutation_in; [exact HP|]; apply in_or_app; left; apply in_map; auto).
      apply in_map_iff in Hi as (y&<-&Hy). apply HD; auto. }
    assert (HC : forall x, In x C -> hash_fits bh (snd x) /\ gp (leaves (snd x)) <> []).
    { intros x Hx. split; [|auto]. assert (Hu : usable (inst t (lit_of x))) by (apply HinD, in_map; auto).
      destruct Hu as (Hf&_). eapply hash_fits_instance; exact Hf. }
    assert (HD2 : forall x, In x D -> hash_fits bh (snd x) /\ gp (leaves (snd x)) <> []).
    { intros x Hx. destruct (HD x Hx) as (A&B&E). auto. }
    destruct (block_ok C HC) as (L1&S1&P11&P12&P13). destruct (block_ok D HD2) as (L2&S2&P21&P22&P23).
    fold C' in L1, S1, P11, P12, P13. fold D' in L2, S2, P21, P22, P23.
    cbn zeta in *.
    assert (IF : forall x, In x C' -> (length (leaves (snd x)) <= length (leaves (snd (inst t x))))%nat /\
       tdepth (snd x) <= tdepth (snd (inst t x)) /\
       (length (gp (leaves (snd x))) <= length (gp (leaves (snd (inst t x)))))%nat /\
       (gnd (snd x) = true -> gnd (snd (inst t x)) = true)).
    { intros x Hx. destruct (HinD x Hx) as (Hf&Hne&_).
      destruct (instance_facts bh t (snd x) (snd (inst t x)) eq_refl Hne) as (Q1&Q2&Q3&Q4&Q5).
      repeat split; auto. intros G. rewrite <- (Q5 G). auto. }
    assert (M1 : n_lits C' <= n_lits D').
    { unfold n_lits. apply Permutation_length in HP. rewrite app_length, map_length in HP. lia. }
    assert (M2 : n_neg C' <= n_neg D') by (eapply n_where_mono; [exact HP|auto]).
    assert (M3 : n_ground C' <= n_ground D') by (eapply n_where_mono; [exact HP|intros x Hx; apply IF; auto]).
    assert (M4 : max_depth C' <= max_depth D') by (eapply max_of_mono; [exact HP|intros x Hx; apply IF; auto]).
    assert (M5 : max_prefix C' <= max_prefix D').
    { eapply max_of_mono; [exact HP|intros x Hx]. destruct (IF x Hx) as (_&_&Q&_). lia. }
    assert (M6 : total_size C' <= total_size D').
    { eapply sum_of_mono; [exact HP|intros; lia|intros x Hx]. destruct (IF x Hx) as (Q&_). lia. }
    assert (Hemb : forall x, In x C' -> In (inst t x) D').
    { intros x Hx. eapply Permutation_in; [exact HP|]; apply in_or_app; left; apply in_map; auto. }
    assert (B1 : sub (orall m1 C') (orall m1 D')) by (apply orall_sub; intros x Hx; exists (inst t x); split; auto using m1_inst).
    assert (B2 : sub (orall m2 C') (orall m2 D')) by (apply orall_sub; intros x Hx; exists (inst t x); split; auto using m2_inst).
    assert (B3 : sub (orall m3 C') (orall m3 D')) by (apply orall_sub; intros x Hx; exists (inst t x); split; auto using m3_inst).
    assert (A1 : 0 <= n_neg C') by apply n_where_nonneg.
    assert (A2 : 0 <= n_ground C') by apply n_where_nonneg.
    pose proof (total_size_nonneg C') as A3.
    assert (A4 : 0 <= max_depth C') by apply max_of_nonneg.
    assert (A5 : 0 <= max_prefix C') by apply max_of_nonneg.
    assert (A6 : 0 <= n_lits C') by (unfold n_lits; lia).
    assert (N : n_lits D' <> 255 /\ n_neg D' <> 255 /\ n_ground D' <> 255 /\ max_depth D' <> 255 /\ total_size D' <> 255 /\ max_prefix D' <> 255).
    { unfold counters in H255. simpl in H255. repeat split; intros E; apply H255; rewrite E; tauto. }
    destruct N as (N1&N2&N3&N4&N5&N6).
    assert (NegLen : n_neg D' <= n_lits D').
    { apply n_neg_le. }
    assert (Z0 : limit_byte (n_lits D') = 0 -> limit_byte (n_neg D') = 0 /\ limit_byte (n_neg C') = 0).
    { intros E. assert (n_lits D' = 0).
      { unfold limit_byte in E. destruct (n_lits D' <? 255) eqn:A, (0 <=? n_lits D') eqn:B, (255 <? n_lits D') eqn:F; simpl in E; lia. }
      replace (n_neg D') with 0 by lia. replace (n_neg C') with 0 by lia. auto. }
    set (g1 := b2z (clause_ground C')) in *. set (g2 := b2z (clause_ground D')) in *.
    assert (G : 0 <= g1 <= g2 /\ g2 <= 1).
    { unfold g1, g2. destruct (clause_ground C'), (clause_ground D'); simpl; try lia; discriminate Hgr; auto. }
    assert (R1 := limit_range _ A1). assert (R2 := limit_range _ A2). assert (R3 := limit_range _ A3).
    assert (R4 := limit_range _ A4). assert (R5 := limit_range _ A5). assert (R6 := limit_range _ A6).
    assert (T1 : 0 <= limit_byte (n_neg D') <= 255) by (apply limit_range; lia).
    assert (T2 : 0 <= limit_byte (n_ground D') <= 255) by (apply limit_range; lia).
    assert (T3 : 0 <= limit_byte (total_size D') <= 255) by (apply limit_range; lia).
    assert (T4 : 0 <= limit_byte (max_depth D') <= 255) by (apply limit_range; lia).
    assert (T5 : 0 <= limit_byte (max_prefix D') <= 255) by (apply limit_range; lia).
    assert (T6 : 0 <= limit_byte (n_lits D') <= 255) by (apply limit_range; lia).
    pose proof (limit_mono _ _ (conj A6 M1) N1) as Q1.
    pose proof (limit_mono _ _ (conj A1 M2) N2) as Q2.
    pose proof (limit_mono _ _ (conj A2 M3) N3) as Q3.
    pose proof (limit_mono _ _ (conj A4 M4) N4) as Q4.
    pose proof (limit_mono _ _ (conj A3 M6) N5) as Q5.
    pose proof (limit_mono _ _ (conj A5 M5) N6) as Q6.
    eapply (can_subsume_numbers _ _ _ _ _ _ _ _ _ _ _ _ _ _ _ _ L1 L2 S1 S2); try lia.
    - rewrite P11, P21. exact B1.
    - rewrite P12, P22. exact B2.
    - rewrite P13, P23. exact B3.
  Qed.
End S.
