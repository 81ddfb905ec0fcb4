(** Fingerprints are monotone under instantiation. *)
From Coq Require Import List ZArith Bool Lia.
From Coq Require Import ZifyBool.
From Verif Require Import Terms TermsProof BitsProof MetaModel.
Import ListNotations.
Open Scope Z_scope.
Ltac Zify.zify_post_hook ::= Z.div_mod_to_equations.

(** ** Leaves of a term, left to right *)
Fixpoint leaves (t : term) : list term :=
  match t with TRec fs => flat_map leaves fs | _ => [t] end.
Definition isvar (t : term) : bool := match t with TVar _ => true | _ => false end.
(** Constants before the first variable. *)
Fixpoint gp (l : list term) : list cst :=
  match l with
  | TCst c :: l' => c :: gp l'
  | _ => []
  end.
Fixpoint tdepth (t : term) : Z :=
  match t with TRec fs => 1 + fold_right Z.max 0 (map tdepth fs) | _ => 0 end.
(** No record without fields. *)
Fixpoint nonempty (t : term) : bool :=
  match t with TRec fs => negb (Nat.eqb (length fs) 0) && forallb nonempty fs | _ => true end.

Lemma leaves_leaf t l : In l (leaves t) -> match l with TRec _ => False | _ => True end.
Proof.
  induction t as [i|c|fs IH] using term_ind'; simpl; try (intros [<-|[]]; exact I).
  rewrite in_flat_map. intros (f&Hf&Hl). rewrite Forall_forall in IH. exact (IH f Hf Hl).
Qed.

Lemma flat_map_flat_map {A B C} (f : A -> list B) (g : B -> list C) l :
  flat_map g (flat_map f l) = flat_map (fun a => flat_map g (f a)) l.
Proof. induction l as [|a l IH]; simpl; auto. rewrite flat_map_app, IH. reflexivity. Qed.

Lemma leaves_app s t : leaves (app s t) = flat_map (fun l => leaves (app s l)) (leaves t).
Proof.
  induction t as [i|c|fs IH] using term_ind'; simpl; rewrite ?app_nil_r; auto.
  rewrite flat_map_flat_map, flat_map_concat_map, map_map, flat_map_concat_map.
  f_equal. apply map_ext_in. rewrite Forall_forall in IH. auto.
Qed.

Lemma leaves_nonempty t : nonempty t = true -> (1 <= length (leaves t))%nat.
Proof.
  induction t as [i|c|fs IH] using term_ind'; simpl; try lia.
  destruct fs as [|f fs]; simpl; [discriminate|]. rewrite app_length.
  inversion IH as [|f' fs' Hf Hfs]; subst. intros H. apply andb_prop in H as [H _]. apply Hf in H. lia.
Qed.

Lemma nonempty_sub s t i : nonempty (app s t) = true -> In i (tvars t) -> nonempty (s i) = true.
Proof.
  induction t as [j|c|fs IH] using term_ind'; simpl; [intros H [<-|[]]; auto|intros _ []|].
  intros H Hi. apply andb_prop in H as [_ H]. rewrite forallb_forall in H.
  apply in_flat_map in Hi as (f&Hf&Hi). rewrite Forall_forall in IH. apply (IH f); auto.
  apply H. apply in_map; auto.
Qed.

Lemma leaves_vars t i : In (TVar i) (leaves t) <-> In i (tvars t).
Proof.
  induction t as [j|c|fs IH] using term_ind'; simpl.
  - split; intros [H|[]]; left; congruence.
  - split; [intros [H|[]]; discriminate|intros []].
  - rewrite !in_flat_map. rewrite Forall_forall in IH.
    split; intros (f&Hf&Hi); exists f; split; auto; apply IH; auto.
Qed.

Lemma leaves_len_mono s t : nonempty (app s t) = true -> (length (leaves t) <= length (leaves (app s t)))%nat.
Proof.
  intros H. rewrite leaves_app.
  assert (Hl : forall l, In l (leaves t) -> (1 <= length (leaves (app s l)))%nat).
  { intros l Hl. pose proof (leaves_leaf _ _ Hl). destruct l as [i|c|]; simpl; [|lia|contradiction].
    apply leaves_nonempty. apply (nonempty_sub s t); auto. apply leaves_vars; auto. }
  revert Hl. generalize (leaves t) as ls. induction ls as [|a ls IH]; intros Hl; cbn [flat_map length]; [lia|].
  rewrite app_length. specialize (IH (fun l h => Hl l (or_intror h))). specialize (Hl a (or_introl eq_refl)). lia.
Qed.

Lemma gp_prefix s t : exists r, gp (leaves (app s t)) = gp (leaves t) ++ r.
Proof.
  rewrite leaves_app. pose proof (leaves_leaf t) as Hl. revert Hl. generalize (leaves t) as ls.
  induction ls as [|[i|c|fs] ls IH]; intros Hl; simpl.
  - exists []; auto.
  - eexists; reflexivity.
  - destruct IH as [r Hr]; [intros; apply Hl; simpl; auto|]. exists r. rewrite Hr. reflexivity.
  - exfalso. apply (Hl (TRec fs)). simpl; auto.
Qed.

Lemma fold_max_nonneg l : 0 <= fold_right Z.max 0 l.
Proof. induction l; simpl; lia. Qed.
Lemma tdepth_nonneg t : 0 <= tdepth t.
Proof. destruct t as [i|c|fs]; cbn [tdepth]; try lia. pose proof (fold_max_nonneg (map tdepth fs)). lia. Qed.

Lemma tdepth_mono s t : tdepth t <= tdepth (app s t).
Proof.
  induction t as [i|c|fs IH] using term_ind'; cbn [tdepth app]; try lia; [apply tdepth_nonneg|].
  induction IH as [|f fs Hf _ IHl]; cbn [map fold_right] in *; lia.
Qed.

Lemma novars_app s t : existsb isvar (leaves t) = false -> app s t = t.
Proof.
  intros H. apply app_ground. destruct (tvars t) as [|i l] eqn:E; auto. exfalso.
  assert (Hi : In i (tvars t)) by (rewrite E; simpl; auto). apply leaves_vars in Hi.
  assert (existsb isvar (leaves t) = true) by (apply existsb_exists; exists (TVar i); auto). congruence.
Qed.

Section Hash.
  Variable bh : cst -> Z.

  (** ** calc_term_meta as a fold over leaves *)
  Definition lstep (m : tmeta) (l : term) : tmeta :=
    match l with TVar _ => leaf_var m | TCst c => leaf_cst bh c m | TRec _ => m end.

  Definition same_but_depth (m1 m2 : tmeta) : Prop :=
    hasvars m1 = hasvars m2 /\ size m1 = size m2 /\ preflen m1 = preflen m2 /\
    prefhash m1 = prefhash m2 /\ pref1hash m1 = pref1hash m2 /\ pref2hash m1 = pref2hash m2 /\
    pref3hash m1 = pref3hash m2.

  Lemma sbd_refl m : same_but_depth m m.
  Proof. repeat split. Qed.
  Lemma sbd_trans m1 m2 m3 : same_but_depth m1 m2 -> same_but_depth m2 m3 -> same_but_depth m1 m3.
  Proof. unfold same_but_depth. intuition congruence. Qed.
  Lemma sbd_step m1 m2 l : same_but_depth m1 m2 -> same_but_depth (lstep m1 l) (lstep m2 l).
  Proof.
    destruct m1 as [hv1 d1 s1 pl1 ph1 a1 b1 c1], m2 as [hv2 d2 s2 pl2 ph2 a2 b2 c2].
    unfold same_but_depth; simpl. intros (-> & -> & -> & -> & -> & -> & ->).
    destruct l as [i|c|fs]; simpl; auto 10.
    unfold leaf_cst; simpl. destruct hv2; simpl; auto 10.
  Qed.
  Lemma sbd_fold ls : forall m1 m2, same_but_depth m1 m2 -> same_but_depth (fold_left lstep ls m1) (fold_left lstep ls m2).
  Proof. induction ls as [|l ls IH]; simpl; intros; auto using sbd_step. Qed.

  Lemma calc_leaves t : forall d m, same_but_depth (calc_term_meta bh t d m) (fold_left lstep (leaves t) m).
  Proof.
    induction t as [i|c|fs IH] using term_ind'; intros d m; try apply sbd_refl.
    cbn [calc_term_meta leaves].
    assert (H0 : same_but_depth (set_depth (d + 1) m) m) by (repeat split).
    revert H0. generalize (set_depth (d + 1) m) as m1. intros m1 H0. revert m m1 H0.
    induction IH as [|f fs Hf _ IHl]; intros m m1 H0; cbn [fold_left flat_map]; auto.
    rewrite fold_left_app. apply IHl. eapply sbd_trans; [apply Hf|]. apply sbd_fold; auto.
  Qed.

  Lemma calc_depth t : forall d m, 0 <= d <= depth m ->
    depth (calc_term_meta bh t d m) = Z.max (depth m) (d + tdepth t).
  Proof.
    induction t as [i|c|fs IH] using term_ind'; intros d m Hd; cbn [calc_term_meta tdepth].
    - simpl. lia.
    - unfold leaf_cst. destruct (hasvars m); simpl; lia.
    - assert (H1 : d + 1 <= depth (set_depth (d + 1) m) /\ depth (set_depth (d+1) m) = Z.max (depth m) (d+1)).
      { simpl. destruct (Z.ltb_spec (depth m) (d + 1)); lia. }
      destruct H1 as [H1 H2].
      rewrite Z.add_assoc, Z.add_comm with (n := d) (m := 1) in *.
      replace (Z.max (depth m) (1 + d + fold_right Z.max 0 (map tdepth fs)))
        with (Z.max (depth (set_depth (1 + d) m)) (1 + d + fold_right Z.max 0 (map tdepth fs))).
      2:{ pose proof (fold_max_nonneg (map tdepth fs)). lia. }
      clear H2. revert H1. generalize (set_depth (1 + d) m) as m1. intros m1 H1. revert m1 H1.
      induction IH as [|f fs Hf _ IHl]; intros m1 H1; cbn [fold_left map fold_right]; [lia|].
      pose proof (Hf (1 + d) m1 ltac:(lia)) as Hfe. pose proof (tdepth_nonneg f).
      rewrite IHl by lia. rewrite Hfe. lia.
  Qed.

  (** ** The fold over leaves *)
  Definition hstep (h : Z) (c : cst) : Z :=
    wrap32 (if h + bh c <? 0 then 0 - (h + bh c) else h + bh c).
  Definition hsum (h : Z) (l : list cst) : Z := fold_left hstep l h.

  Definition prefk (k : Z) (m0 : tmeta) (g : list cst) (stale : Z) : Z :=
    if (preflen m0 <? k) && (k <=? preflen m0 + Z.of_nat (length g))
    then hsum (prefhash m0) (firstn (Z.to_nat (k - preflen m0)) g) else stale.

  Lemma fold_leaves_novar : forall ls m, hasvars m = true ->
    let m' := fold_left lstep ls m in
    hasvars m' = true /\ (forall l, In l ls -> match l with TRec _ => False | _ => True end -> True) /\
    preflen m' = preflen m /\ prefhash m' = prefhash m /\ pref1hash m' = pref1hash m /\
    pref2hash m' = pref2hash m /\ pref3hash m' = pref3hash m.
  Proof.
    induction ls as [|l ls IH]; intros m Hm; cbn [fold_left]; [repeat split; auto|].
    assert (Hs : hasvars (lstep m l) = true).
    { destruct l; simpl; auto. unfold leaf_cst. rewrite Hm. reflexivity. }
    destruct (IH _ Hs) as (A&_&B&C&D&E&F). repeat split; auto;
    (etransitivity; [eassumption|]; destruct l; simpl; auto; unfold leaf_cst; rewrite Hm; reflexivity).
  Qed.

  Lemma fold_size : forall ls m, (forall l, In l ls -> match l with TRec _ => False | _ => True end) ->
    size (fold_left lstep ls m) = size m + Z.of_nat (length ls) /\
    hasvars (fold_left lstep ls m) = hasvars m || existsb isvar ls.
  Proof.
    induction ls as [|l ls IH]; intros m Hl; cbn [fold_left length existsb].
    - rewrite orb_false_r. split; auto. lia.
    - destruct (IH (lstep m l)) as [A B]; [intros; apply Hl; simpl; auto|].
      rewrite A, B. specialize (Hl l (or_introl eq_refl)).
      destruct l as [i|c|]; [| |contradiction]; simpl.
      + split; [lia|]. rewrite orb_true_r. reflexivity.
      + unfold leaf_cst. destruct (hasvars m); simpl; split; auto; lia.
  Qed.

  Lemma fold_pref : forall ls m, hasvars m = false ->
    (forall l, In l ls -> match l with TRec _ => False | _ => True end) ->
    let m' := fold_left lstep ls m in
    preflen m' = preflen m + Z.of_nat (length (gp ls)) /\
    prefhash m' = hsum (prefhash m) (gp ls) /\
    pref1hash m' = prefk 1 m (gp ls) (pref1hash m) /\
    pref2hash m' = prefk 2 m (gp ls) (pref2hash m) /\
    pref3hash m' = prefk 3 m (gp ls) (pref3hash m).
  Proof.
    induction ls as [|l ls IH]; intros m Hm Hl; cbn zeta.
    - simpl. unfold prefk; simpl. repeat split; auto; try lia;
      (match goal with |- context [if ?b then _ else _] => destruct b eqn:E end; [exfalso; lia|auto]).
    - cbn [fold_left]. destruct l as [i|c|fs].
      + destruct (fold_leaves_novar ls (lstep m (TVar i)) eq_refl) as (_&_&A&B&C&D&E).
        rewrite A, B, C, D, E. simpl. unfold prefk; simpl. repeat split; auto; try lia;
        (match goal with |- context [if ?b then _ else _] => destruct b eqn:E0 end; [exfalso; lia|auto]).
      + assert (Hm1 : hasvars (lstep m (TCst c)) = false).
        { simpl. unfold leaf_cst. rewrite Hm. reflexivity. }
        destruct (IH _ Hm1) as (A&B&C&D&E); [intros; apply Hl; simpl; auto|].
        rewrite A, B, C, D, E. cbn [gp length].
        assert (Hpl : preflen (lstep m (TCst c)) = preflen m + 1)
          by (simpl; unfold leaf_cst; rewrite Hm; reflexivity).
        assert (Hph : prefhash (lstep m (TCst c)) = hstep (prefhash m) c)
          by (simpl; unfold leaf_cst; rewrite Hm; reflexivity).
        split; [rewrite Hpl; lia|]. split; [rewrite Hph; reflexivity|].
        assert (Hk : forall k st st', (st' = if preflen m + 1 =? k then hstep (prefhash m) c else st) ->
                     prefk k (lstep m (TCst c)) (gp ls) st' = prefk k m (c :: gp ls) st).
        { intros k st st' ->. unfold prefk. rewrite Hpl, Hph. cbn [length].
          destruct ((preflen m <? k) && (k <=? preflen m + Z.of_nat (S (length (gp ls))))) eqn:E1.
          - destruct (Z.eqb_spec (preflen m + 1) k) as [Ek|Ek].
            + replace ((preflen m + 1 <? k) && (k <=? preflen m + 1 + Z.of_nat (length (gp ls)))) with false by lia.
              replace (Z.to_nat (k - preflen m)) with 1%nat by lia. reflexivity.
            + replace ((preflen m + 1 <? k) && (k <=? preflen m + 1 + Z.of_nat (length (gp ls)))) with true by lia.
              replace (Z.to_nat (k - preflen m)) with (S (Z.to_nat (k - (preflen m + 1)))) by lia. reflexivity.
          - replace ((preflen m + 1 <? k) && (k <=? preflen m + 1 + Z.of_nat (length (gp ls)))) with false by lia.
            destruct (Z.eqb_spec (preflen m + 1) k) as [Ek|Ek]; auto. exfalso; lia. }
        repeat split; apply Hk; simpl; unfold leaf_cst; rewrite Hm; simpl; unfold hstep; reflexivity.
      + exfalso. apply (Hl (TRec fs)); simpl; auto.
  Qed.

  (** ** No overflow of the prefix hash *)
  Definition csum (l : list cst) : Z := fold_right (fun c a => bh c + a) 0 l.
  Definition consts (l : list term) : list cst := flat_map (fun t => match t with TCst c => [c] | _ => [] end) l.
  (** Hashes are non-negative and the sum over the symbols of [t] fits an int. *)
  Definition hash_fits (t : term) : Prop :=
    (forall c, 0 <= bh c) /\ csum (consts (leaves t)) < 2147483648.

  Lemma csum_app l1 l2 : csum (l1 ++ l2) = csum l1 + csum l2.
  Proof. unfold csum. induction l1; simpl; lia. Qed.
  Lemma csum_nonneg l : (forall c, 0 <= bh c) -> 0 <= csum l.
  Proof. intros H. induction l as [|c l IH]; simpl; [lia|]. specialize (H c). lia. Qed.

  Lemma gp_consts ls : exists r, consts ls = gp ls ++ r.
  Proof.
    induction ls as [|[i|c|fs] ls IH]; simpl.
    - exists []; auto.
    - eexists; reflexivity.
    - destruct IH as [r ->]. exists r; auto.
    - eexists; reflexivity.
  Qed.

  Lemma hsum_exact l : forall h, (forall c, 0 <= bh c) -> 0 <= h -> h + csum l < 2147483648 -> hsum h l = h + csum l.
  Proof.
    induction l as [|c l IH]; intros h Hb Hh Hs; simpl in *; [lia|].
    pose proof (Hb c). pose proof (csum_nonneg l Hb).
    unfold hsum in *. cbn [fold_left].
    assert (E : hstep h c = h + bh c).
    { unfold hstep. destruct (Z.ltb_spec (h + bh c) 0); [lia|]. unfold wrap32.
      rewrite Z.mod_small; lia. }
    rewrite E, IH; try lia; auto.
  Qed.

  Lemma hash_fits_gp t : hash_fits t -> csum (gp (leaves t)) < 2147483648 /\ 0 <= csum (gp (leaves t)).
  Proof.
    intros [Hb Hs]. destruct (gp_consts (leaves t)) as [r Hr]. rewrite Hr, csum_app in Hs.
    pose proof (csum_nonneg r Hb). pose proof (csum_nonneg (gp (leaves t)) Hb). lia.
  Qed.
End Hash.
