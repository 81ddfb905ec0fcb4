(** Proofs about hash indexes, part 2: histories. *)
From Coq Require Import List ZArith Bool Lia Permutation.
From Verif Require Import HixModel HixSpec HixProof.
Import ListNotations.
Open Scope Z_scope.

Section Hash.
Variable h : key -> Z.
Notation entry := (entry h). Notation tidy := (tidy h). Notation turned := (turned h).

(** ** The loops over indexes *)
Definition added (e : Z) (r : Z) (fs : list val) (ix ix' : index) : Prop :=
  turned ix ix' r (fun k => rowkey (cols ix) fs = Some k) \/ (e = -2 /\ ix' = ix).
Lemma added_all e r fs (test : index -> bool) (l : list index) : e = -2 ->
  Forall2 (fun ix ix' => (test ix = false /\ ix' = ix) \/ (test ix = true /\ added e r fs ix ix')) l l.
Proof.
  intros ->. induction l as [|ix l IH]; constructor; [|exact IH].
  destruct (test ix); [right; split; [reflexivity|right; split; reflexivity]|left; split; reflexivity].
Qed.
Lemma add_where_ok test r fs l :
  (forall ix, In ix l -> tidy ix /\ (test ix = true -> (forall k, ~ entry ix r k) /\ last_col ix < Z.of_nat (length fs))) ->
  exists l' e, add_where h test r fs l = Some (l', e) /\ (e = 0 \/ e = -2) /\
    Forall2 (fun ix ix' => (test ix = false /\ ix' = ix) \/ (test ix = true /\ added e r fs ix ix')) l l'.
Proof.
  induction l as [|ix l IH]; intros H; cbn [add_where].
  - exists [], 0. split; [reflexivity|]. split; [left; reflexivity|constructor].
  - destruct (IH (fun i X => H i (or_intror X))) as (l' & e & E & He & F).
    destruct (H ix (or_introl eq_refl)) as [T Ht]. destruct (test ix) eqn:Et.
    + destruct (Ht eq_refl) as [Hr Hl]. destruct (add_row h ix r fs T Hr Hl) as (ix' & e1 & E1 & He1 & Tu). rewrite E1.
      destruct He1 as [[-> _]|[-> _]]; cbn [Z.eqb].
      * rewrite E. exists (ix' :: l'), e. split; [reflexivity|]. split; [exact He|]. constructor; [right; split; [exact Et|left; exact Tu]|exact F].
      * exists (ix' :: l), (-2). split; [reflexivity|]. split; [right; reflexivity|]. constructor; [right; split; [exact Et|left; exact Tu]|].
        apply added_all. reflexivity.
    + rewrite E. exists (ix :: l'), e. split; [reflexivity|]. split; [exact He|]. constructor; [left; split; [exact Et|reflexivity]|exact F].
Qed.
Lemma remove_where_ok test r fs l :
  (forall ix, In ix l -> tidy ix /\ (test ix = true -> (forall k, entry ix r k -> rowkey (cols ix) fs = Some k) /\ last_col ix < Z.of_nat (length fs))) ->
  exists l', remove_where h test r fs l = Some (l', 0) /\
    Forall2 (fun ix ix' => (test ix = false /\ ix' = ix) \/ (test ix = true /\ turned ix ix' r (fun _ => False))) l l'.
Proof.
  induction l as [|ix l IH]; intros H; cbn [remove_where].
  - exists []. split; [reflexivity|constructor].
  - destruct (IH (fun i X => H i (or_intror X))) as (l' & E & F).
    destruct (H ix (or_introl eq_refl)) as [T Ht]. destruct (test ix) eqn:Et.
    + destruct (Ht eq_refl) as [Hr Hl]. destruct (remove_row h ix r fs T Hr Hl) as (ix' & e1 & E1 & He1 & Tu). rewrite E1.
      assert (X : e1 <? -2 = false) by (apply Z.ltb_ge; lia). rewrite X.
      rewrite E. exists (ix' :: l'). split; [reflexivity|]. constructor; [right; split; [exact Et|exact Tu]|exact F].
    + rewrite E. exists (ix :: l'). split; [reflexivity|]. constructor; [left; split; [exact Et|reflexivity]|exact F].
Qed.
Lemma ends_at_iff c ix : tidy ix -> (ends_at c ix = true <-> last_col ix = c).
Proof.
  intros ((C1 & C2 & C3) & _). unfold ends_at. rewrite andb_true_iff, Z.eqb_eq. split; [tauto|]. intros <-. split; [|reflexivity].
  apply existsb_exists. exists (last_col ix). split; [exact (last_in _ C1)|apply Z.eqb_refl].
Qed.
Lemma turned_last ix ix' r K : turned ix ix' r K -> last_col ix' = last_col ix.
Proof. intros (_ & E & _). unfold last_col. now rewrite E. Qed.
Lemma Forall2_same (l : list index) (P : index -> index -> Prop) : (forall ix, In ix l -> P ix ix) -> Forall2 P l l.
Proof. induction l as [|x l IH]; intros H; constructor; [apply H; left; reflexivity|apply IH; intros y Y; apply H; right; exact Y]. Qed.
Lemma Forall2_trans_in (P Q R : index -> index -> Prop) l1 l2 l3 : Forall2 P l1 l2 -> Forall2 Q l2 l3 ->
  (forall a b c, In a l1 -> P a b -> Q b c -> R a c) -> Forall2 R l1 l3.
Proof.
  intros H. revert l3. induction H as [|a b l1 l2 H1 H2 IH]; intros l3 G X; inversion G; subst; constructor.
  - eapply X; [left; reflexivity|eassumption|eassumption].
  - apply IH; [assumption|]. intros u v w Hu. apply X. right. exact Hu.
Qed.
Lemma Forall2_in_r (P : index -> index -> Prop) l1 l2 b : Forall2 P l1 l2 -> In b l2 -> exists a, In a l1 /\ P a b.
Proof.
  induction 1 as [|x y l1 l2 H1 H2 IH]; [intros []|]. intros [<-|X]; [exists x; split; [left; reflexivity|exact H1]|].
  destruct (IH X) as (a & A & B). exists a. split; [right; exact A|exact B].
Qed.
Lemma add_rec_ok cs : forall l r fs, NoDup cs -> (forall c, In c cs -> c < Z.of_nat (length fs)) ->
  (forall ix, In ix l -> tidy ix /\ (In (last_col ix) cs -> forall k, ~ entry ix r k)) ->
  exists l' e, index_add_rec h cs l r fs = Some (l', e) /\ (e = 0 \/ e = -2) /\
    Forall2 (fun ix ix' => (~ In (last_col ix) cs /\ ix' = ix) \/ (In (last_col ix) cs /\ added e r fs ix ix')) l l'.
Proof.
  induction cs as [|c cs IH]; intros l r fs ND Hc H; cbn [index_add_rec].
  - exists l, 0. split; [reflexivity|]. split; [left; reflexivity|]. apply Forall2_same. intros ix _. left. split; [intros []|reflexivity].
  - inversion ND as [|? ? N1 N2]; subst.
    destruct (add_where_ok (ends_at c) r fs l) as (l1 & e1 & E1 & He1 & F1).
    { intros ix Hi. destruct (H ix Hi) as [T Hr]. split; [exact T|]. intros X. apply (ends_at_iff _ _ T) in X. rewrite X in *.
      split; [exact (Hr (or_introl eq_refl))|]. apply Hc. left. reflexivity. }
    rewrite E1. destruct He1 as [-> | ->]; cbn [Z.eqb].
    + destruct (IH l1 r fs N2 (fun x X => Hc x (or_intror X))) as (l2 & e2 & E2 & He2 & F2).
      { intros ix Hi. destruct (Forall2_in_r _ _ _ _ F1 Hi) as (ix0 & Hi0 & [[_ ->]|[X [Y|[Y _]]]]).
        - destruct (H _ Hi0) as [T Hr]. split; [exact T|]. intros X. apply Hr. right. exact X.
        - split; [exact (proj1 Y)|]. rewrite (turned_last _ _ _ _ Y). apply (ends_at_iff _ _ (proj1 (H _ Hi0))) in X. rewrite X. tauto.
        - discriminate. }
      exists l2, e2. split; [exact E2|]. split; [exact He2|].
      apply (Forall2_trans_in _ _ _ _ _ _ F1 F2). intros a b d Ha P Q.
      pose proof (ends_at_iff c a (proj1 (H a Ha))) as Ea.
      destruct P as [[Pt ->]|[Pt [Pa|[Y _]]]]; [| |discriminate].
      * destruct Q as [[Q1 ->]|[Q1 Q2]].
        -- left. split; [|reflexivity]. intros [X|X]; [|exact (Q1 X)]. symmetry in X. apply Ea in X. congruence.
        -- right. split; [right; exact Q1|exact Q2].
      * apply Ea in Pt. pose proof (turned_last _ _ _ _ Pa) as L. destruct Q as [[Q1 ->]|[Q1 Q2]].
        -- right. split; [left; symmetry; exact Pt|left; exact Pa].
        -- exfalso. rewrite L, Pt in Q1. exact (N1 Q1).
    + exists l1, (-2). split; [reflexivity|]. split; [right; reflexivity|].
      eapply (Forall2_trans_in _ eq _ l l1 l1 F1); [clear; induction l1; constructor; auto|].
      intros a b d Ha P <-. pose proof (ends_at_iff c a (proj1 (H a Ha))) as Ea.
      destruct P as [[Pt ->]|[Pt Pa]].
      * destruct (in_dec Z.eq_dec (last_col a) (c :: cs)) as [X|X]; [right; split; [exact X|right; split; reflexivity]|left; split; [exact X|reflexivity]].
      * right. split; [left; symmetry; apply Ea; exact Pt|exact Pa].
Qed.
Lemma del_rec_ok cs : forall l r fs, NoDup cs -> (forall c, In c cs -> c < Z.of_nat (length fs)) ->
  (forall ix, In ix l -> tidy ix /\ (In (last_col ix) cs -> forall k, entry ix r k -> rowkey (cols ix) fs = Some k)) ->
  exists l', index_del_rec h cs l r fs = Some (l', 0) /\
    Forall2 (fun ix ix' => (~ In (last_col ix) cs /\ ix' = ix) \/ (In (last_col ix) cs /\ turned ix ix' r (fun _ => False))) l l'.
Proof.
  induction cs as [|c cs IH]; intros l r fs ND Hc H; cbn [index_del_rec].
  - exists l. split; [reflexivity|]. apply Forall2_same. intros ix _. left. split; [intros []|reflexivity].
  - inversion ND as [|? ? N1 N2]; subst.
    destruct (remove_where_ok (ends_at c) r fs l) as (l1 & E1 & F1).
    { intros ix Hi. destruct (H ix Hi) as [T Hr]. split; [exact T|]. intros X. apply (ends_at_iff _ _ T) in X. rewrite X in *.
      split; [exact (Hr (or_introl eq_refl))|]. apply Hc. left. reflexivity. }
    rewrite E1. cbn [Z.eqb].
    destruct (IH l1 r fs N2 (fun x X => Hc x (or_intror X))) as (l2 & E2 & F2).
    { intros ix Hi. destruct (Forall2_in_r _ _ _ _ F1 Hi) as (ix0 & Hi0 & [[_ ->]|[X Y]]).
      - destruct (H _ Hi0) as [T Hr]. split; [exact T|]. intros X. apply Hr. right. exact X.
      - split; [exact (proj1 Y)|]. rewrite (turned_last _ _ _ _ Y). apply (ends_at_iff _ _ (proj1 (H _ Hi0))) in X. rewrite X. tauto. }
    exists l2. split; [exact E2|].
    apply (Forall2_trans_in _ _ _ _ _ _ F1 F2). intros a b d Ha P Q.
    pose proof (ends_at_iff c a (proj1 (H a Ha))) as Ea.
    destruct P as [[Pt ->]|[Pt Pa]].
    + destruct Q as [[Q1 ->]|[Q1 Q2]].
      * left. split; [|reflexivity]. intros [X|X]; [|exact (Q1 X)]. symmetry in X. apply Ea in X. congruence.
      * right. split; [right; exact Q1|exact Q2].
    + apply Ea in Pt. pose proof (turned_last _ _ _ _ Pa) as L. destruct Q as [[Q1 ->]|[Q1 Q2]].
      * right. split; [left; symmetry; exact Pt|exact Pa].
      * exfalso. rewrite L, Pt in Q1. exact (N1 Q1).
Qed.
Lemma columns_nodup fs : NoDup (columns_of fs).
Proof. unfold columns_of. apply FinFun.Injective_map_NoDup; [intros a b; lia|apply seq_NoDup]. Qed.
Lemma columns_iff fs c : In c (columns_of fs) <-> 0 <= c < Z.of_nat (length fs) /\ c <= 127.
Proof.
  unfold columns_of. rewrite in_map_iff. split.
  - intros (n & <- & X). apply in_seq in X. lia.
  - intros X. exists (Z.to_nat c). split; [lia|]. apply in_seq. lia.
Qed.
Lemma last_col_ok ix : tidy ix -> 0 <= last_col ix <= 127.
Proof. intros ((C1 & _ & C3) & _). pose proof (last_in _ C1) as X. fold (last_col ix) in X. specialize (C3 _ X). lia. Qed.

(** ** An index agrees with the records *)
Definition recmap := Z -> option (list val).
Definition mput (m : recmap) (r : Z) (x : option (list val)) : recmap := fun r' => if r' =? r then x else m r'.
Definition wants (m : recmap) (cs : list Z) (r : Z) (k : key) : Prop := exists fs, m r = Some fs /\ rowkey cs fs = Some k.
Definition agree (ok : bool) (m : recmap) (ix : index) : Prop :=
  tidy ix /\ (forall r k, entry ix r k -> wants m (cols ix) r k) /\ (ok = true -> forall r k, wants m (cols ix) r k -> entry ix r k).
Lemma wants_other m cs r x r' k : r' <> r -> (wants (mput m r x) cs r' k <-> wants m cs r' k).
Proof. intros H. unfold wants, mput. apply Z.eqb_neq in H. rewrite H. tauto. Qed.
Lemma wants_self m cs r x k : wants (mput m r x) cs r k <-> exists fs, x = Some fs /\ rowkey cs fs = Some k.
Proof. unfold wants, mput. rewrite Z.eqb_refl. tauto. Qed.
Lemma agree_turn ok m ix ix' r K x : agree ok m ix -> turned ix ix' r K ->
  (forall k, K k <-> exists fs, x = Some fs /\ rowkey (cols ix) fs = Some k) -> agree ok (mput m r x) ix'.
Proof.
  intros (T & A & B) (T' & E & O & S1) HK. split; [exact T'|]. rewrite E. split.
  - intros r' k X. destruct (Z.eq_dec r' r) as [->|N]; [apply wants_self; apply HK; apply S1; exact X|]. apply wants_other; [exact N|]. apply A. apply O; assumption.
  - intros Hok r' k X. destruct (Z.eq_dec r' r) as [->|N]; [apply S1, HK; exact (proj1 (wants_self m _ _ _ _) X)|]. apply wants_other in X; [|exact N]. apply O; [exact N|]. apply B; assumption.
Qed.
Lemma agree_same ok m ix r x : agree ok m ix -> (forall k, wants m (cols ix) r k <-> exists fs, x = Some fs /\ rowkey (cols ix) fs = Some k) ->
  agree ok (mput m r x) ix.
Proof.
  intros (T & A & B) H. split; [exact T|]. split.
  - intros r' k X. destruct (Z.eq_dec r' r) as [->|N]; [apply wants_self, H, A; exact X|]. apply wants_other; [exact N|]. apply A; exact X.
  - intros Hok r' k X. destruct (Z.eq_dec r' r) as [->|N]; [apply (B Hok), H; exact (proj1 (wants_self m _ _ _ _) X)|]. apply wants_other in X; [|exact N]. apply B; assumption.
Qed.
Lemma agree_lost m ix r x ok : agree ok m ix -> (forall k, ~ entry ix r k) -> agree false (mput m r x) ix.
Proof.
  intros (T & A & B) H. split; [exact T|]. split; [|discriminate].
  intros r' k X. destruct (Z.eq_dec r' r) as [->|N]; [destruct (H k X)|]. apply wants_other; [exact N|]. apply A; exact X.
Qed.
Lemma agree_ext ok m m' ix : (forall r, m r = m' r) -> agree ok m ix -> agree ok m' ix.
Proof.
  intros E (T & A & B). assert (W : forall r k, wants m (cols ix) r k <-> wants m' (cols ix) r k) by (intros; unfold wants; rewrite E; tauto).
  split; [exact T|]. split; [intros r k X; apply W, A; exact X|intros Hok r k X; apply (B Hok), W; exact X].
Qed.
Lemma agree_weak ok m ix : agree ok m ix -> agree false m ix.
Proof. intros (T & A & B). split; [exact T|]. split; [exact A|discriminate]. Qed.
Lemma rowkey_short ix fs : tidy ix -> Z.of_nat (length fs) <= last_col ix -> rowkey (cols ix) fs = None.
Proof.
  intros ((C1 & C2 & C3) & _) H. unfold rowkey. destruct (get_fields fs (cols ix)) as [vs|] eqn:E; [|reflexivity].
  apply get_fields_have in E. pose proof (has_last _ _ _ C1 E (fun c X => proj1 (proj1 (C3 c X)))) as Y. fold (last_col ix) in Y. lia.
Qed.

(** a record comes *)
Lemma come ok m ix ix' e r fs : agree ok m ix -> m r = None -> (ok = true -> e = 0) ->
  (~ In (last_col ix) (columns_of fs) /\ ix' = ix) \/ (In (last_col ix) (columns_of fs) /\ added e r fs ix ix') ->
  agree ok (mput m r (Some fs)) ix'.
Proof.
  intros A Hm He H. pose proof A as (T & A1 & A2).
  assert (NE : forall k, ~ entry ix r k) by (intros k X; destruct (A1 _ _ X) as (f & F & _); congruence).
  destruct H as [[H ->]|[H [H1|[-> ->]]]].
  - apply agree_same; [exact A|]. intros k. split; [intros (f & F & _); congruence|]. intros (f & [= <-] & F).
    rewrite rowkey_short in F; [discriminate|exact T|]. rewrite columns_iff in H. pose proof (last_col_ok _ T). lia.
  - apply (agree_turn _ _ _ _ _ _ _ A H1). intros k. split; [eauto|]. intros (f & [= <-] & F). exact F.
  - destruct ok; [specialize (He eq_refl); discriminate|]. exact (agree_lost _ _ _ _ _ A NE).
Qed.
(** a record goes *)
Lemma go ok m ix ix' r fs : agree ok m ix -> m r = Some fs ->
  (~ In (last_col ix) (columns_of fs) /\ ix' = ix) \/ (In (last_col ix) (columns_of fs) /\ turned ix ix' r (fun _ => False)) ->
  agree ok (mput m r None) ix'.
Proof.
  intros A Hm H. pose proof A as (T & A1 & A2).
  destruct H as [[H ->]|[H H1]].
  - apply agree_same; [exact A|]. intros k. split; [|intros (f & X & _); discriminate]. intros (f & F1 & F). assert (f = fs) by congruence. subst f.
    rewrite rowkey_short in F; [discriminate|exact T|]. rewrite columns_iff in H. pose proof (last_col_ok _ T). lia.
  - apply (agree_turn _ _ _ _ _ _ _ A H1). intros k. split; [tauto|]. intros (f & X & _). discriminate.
Qed.
(** a field changes *)
Lemma put_val_length fs c v : (Z.to_nat c < length fs)%nat -> length (put_val fs c v) = length fs.
Proof. intros H. unfold put_val. rewrite app_length. cbn [length]. rewrite firstn_length, skipn_length. lia. Qed.
Lemma put_val_other fs c v i : 0 <= c -> 0 <= i -> i <> c -> (Z.to_nat c < length fs)%nat -> get_field (put_val fs c v) i = get_field fs i.
Proof.
  intros Hc Hi Hn Hl. unfold get_field, put_val. set (n := Z.to_nat c) in *. set (j := Z.to_nat i).
  assert (L : length (firstn n fs) = n) by (rewrite firstn_length; lia).
  assert (D : (j < n \/ n < j)%nat) by (unfold n, j; lia).
  destruct D as [D|D].
  - rewrite nth_error_app1 by lia. rewrite <- (firstn_skipn n fs) at 2. rewrite nth_error_app1 by lia. reflexivity.
  - rewrite nth_error_app2 by lia. rewrite L. rewrite <- (firstn_skipn (S n) fs) at 2.
    assert (L2 : length (firstn (S n) fs) = S n) by (rewrite firstn_length; lia).
    rewrite nth_error_app2 by lia. rewrite L2. replace (j - n)%nat with (S (j - S n)) by lia. reflexivity.
Qed.
Lemma put_val_self fs c v : (Z.to_nat c < length fs)%nat -> get_field (put_val fs c v) c = Some v.
Proof.
  intros H. unfold get_field, put_val. rewrite nth_error_app2; rewrite firstn_length; [|lia].
  replace (Z.to_nat c - Nat.min (Z.to_nat c) (length fs))%nat with O by lia. reflexivity.
Qed.
Lemma rowkey_other cs fs c v : 0 <= c -> (forall i, In i cs -> 0 <= i) -> ~ In c cs -> (Z.to_nat c < length fs)%nat -> rowkey cs (put_val fs c v) = rowkey cs fs.
Proof.
  intros Hc Hp Hn Hl. unfold rowkey. assert (E : get_fields (put_val fs c v) cs = get_fields fs cs).
  { induction cs as [|i cs IH]; [reflexivity|]. cbn. rewrite put_val_other; [|exact Hc|apply Hp; left; reflexivity|intros ->; apply Hn; left; reflexivity|exact Hl].
    rewrite IH; [reflexivity|intros j X; apply Hp; right; exact X|intros X; apply Hn; right; exact X]. }
  now rewrite E.
Qed.
Lemma on_column_iff c fs ix : on_column c fs ix = true <-> In c (cols ix) /\ last_col ix < Z.of_nat (length fs).
Proof.
  unfold on_column. rewrite andb_true_iff, Z.ltb_lt, existsb_exists. split; intros [H1 H2]; split; try exact H2.
  - destruct H1 as (x & X & E). apply Z.eqb_eq in E. congruence.
  - exists c. split; [exact H1|apply Z.eqb_refl].
Qed.
Lemma untouched ok m ix r fs c v : agree ok m ix -> m r = Some fs -> 0 <= c -> (Z.to_nat c < length fs)%nat -> on_column c fs ix = false ->
  agree ok (mput m r (Some (put_val fs c v))) ix.
Proof.
  intros A Hm Hc Hl H. pose proof A as (T & _). apply agree_same; [exact A|].
  assert (E : rowkey (cols ix) (put_val fs c v) = rowkey (cols ix) fs).
  { destruct (in_dec Z.eq_dec c (cols ix)) as [X|X].
    - assert (Y : Z.of_nat (length fs) <= last_col ix).
      { destruct (Z_lt_le_dec (last_col ix) (Z.of_nat (length fs))) as [Y|Y]; [|exact Y]. rewrite (proj2 (on_column_iff c fs ix) (conj X Y)) in H. discriminate. }
      rewrite !rowkey_short; [reflexivity|exact T|exact Y|exact T|rewrite put_val_length by exact Hl; exact Y].
    - apply rowkey_other; [exact Hc| |exact X|exact Hl]. intros i Hi. destruct T as ((_ & _ & C3) & _). apply C3 in Hi. lia. }
  intros k. split.
  - intros (f & F1 & F). assert (f = fs) by congruence. subst f. exists (put_val fs c v). split; [reflexivity|congruence].
  - intros (f & [= <-] & F). exists fs. split; [exact Hm|congruence].
Qed.
Lemma change ok m r fs c v l : Forall (agree ok m) l -> m r = Some fs -> 0 <= c -> (Z.to_nat c < length fs)%nat ->
  exists l1 l2 e, index_del_field h l r fs c = Some (l1, 0) /\ index_add_field h l1 r (put_val fs c v) c = Some (l2, e) /\
    (e = 0 \/ e = -2) /\ ((ok = true -> e = 0) -> Forall (agree ok (mput m r (Some (put_val fs c v)))) l2).
Proof.
  intros A Hm Hc Hl. rewrite Forall_forall in A.
  destruct (remove_where_ok (on_column c fs) r fs l) as (l1 & E1 & F1).
  { intros ix Hi. destruct (A ix Hi) as (T & A1 & A2). split; [exact T|]. intros X. apply on_column_iff in X. split; [|exact (proj2 X)].
    intros k Y. destruct (A1 _ _ Y) as (f & F & G). congruence. }
  assert (Q : forall a b, In a l -> (on_column c fs a = false /\ b = a) \/ (on_column c fs a = true /\ turned a b r (fun _ => False)) ->
    tidy b /\ on_column c (put_val fs c v) b = on_column c fs a /\ (on_column c fs a = true -> (forall k, ~ entry b r k) /\ last_col b < Z.of_nat (length (put_val fs c v)))).
  { intros a b Ha P.
    assert (C : cols b = cols a) by (destruct P as [[_ ->]|[_ (_ & C & _)]]; [reflexivity|exact C]).
    assert (O : on_column c (put_val fs c v) b = on_column c fs a) by (unfold on_column, last_col; rewrite put_val_length by exact Hl; now rewrite C).
    destruct (A a Ha) as (T & A1 & A2). split; [|split; [exact O|]].
    - destruct P as [[_ ->]|[_ P]]; [exact T|exact (proj1 P)].
    - intros X. rewrite put_val_length by exact Hl. unfold last_col. rewrite C. apply on_column_iff in X. split; [|exact (proj2 X)].
      destruct P as [[Y _]|[_ (_ & _ & _ & P)]]; [apply on_column_iff in X; congruence|]. intros k Y. apply P in Y. exact Y. }
  destruct (add_where_ok (on_column c (put_val fs c v)) r (put_val fs c v) l1) as (l2 & e & E2 & He & F2).
  { intros ix Hi. destruct (Forall2_in_r _ _ _ _ F1 Hi) as (a & Ha & P). destruct (Q _ _ Ha P) as (Q1 & Q2 & Q3).
    split; [exact Q1|]. intros X. apply Q3. congruence. }
  exists l1, l2, e. split; [exact E1|]. split; [exact E2|]. split; [exact He|]. intros Hok.
  assert (F : Forall2 (fun a d => agree ok (mput m r (Some (put_val fs c v))) d) l l2).
  { apply (Forall2_trans_in _ _ _ _ _ _ F1 F2). intros a b d Ha P P2. destruct (Q _ _ Ha P) as (Q1 & Q2 & Q3). rewrite Q2 in P2.
    destruct P as [[P ->]|[P Pt]].
    - destruct P2 as [[_ ->]|[X _]]; [|congruence]. exact (untouched _ _ _ _ _ _ _ (A a Ha) Hm Hc Hl P).
    - destruct P2 as [[X _]|[_ P2]]; [congruence|].
      assert (G : agree ok (mput m r None) b).
      { apply (agree_turn _ _ _ _ _ _ _ (A a Ha) Pt). intros k. split; [tauto|]. intros (f & X & _). discriminate. }
      apply (agree_ext _ (mput (mput m r None) r (Some (put_val fs c v)))); [intros r'; unfold mput; destruct (r' =? r); reflexivity|].
      destruct P2 as [P2|[-> ->]].
      + apply (agree_turn _ _ _ _ _ _ _ G P2). intros k. split; [eauto|]. intros (f & [= <-] & X). exact X.
      + destruct ok; [specialize (Hok eq_refl); discriminate|]. apply (agree_lost _ _ _ _ _ G). exact (proj1 (Q3 P)). }
  clear - F. induction F; constructor; assumption.
Qed.
End Hash.
