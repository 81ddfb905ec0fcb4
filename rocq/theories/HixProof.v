(** Proofs about hash indexes, part 1: the hash table is a map from keys to rows. *)
From Coq Require Import List ZArith Bool Lia Permutation.
From Verif Require Import HixModel HixSpec.
Import ListNotations.
Open Scope Z_scope.

Lemma key_eqb_refl k : key_eqb k k = true.
Proof. unfold key_eqb. destruct (list_eq_dec Z.eq_dec k k); congruence. Qed.
Lemma key_eqb_eq a b : key_eqb a b = true -> a = b.
Proof. unfold key_eqb. destruct (list_eq_dec Z.eq_dec a b); congruence. Qed.
Lemma key_eqb_neq a b : a <> b -> key_eqb a b = false.
Proof. unfold key_eqb. destruct (list_eq_dec Z.eq_dec a b); congruence. Qed.

Definition rows_in (c : list bucket) (k : key) : list Z := match find_bucket c k with Some l => l | None => [] end.
Lemma find_none_in c k : ~ In k (map fst c) -> find_bucket c k = None.
Proof.
  induction c as [|[k' l] c IH]; cbn; intros H; [reflexivity|].
  rewrite key_eqb_neq by (intros ->; apply H; auto). apply IH. intros X; apply H; auto.
Qed.
Lemma find_in c k l : find_bucket c k = Some l -> In k (map fst c).
Proof.
  induction c as [|[k' l'] c IH]; cbn; intros H; [discriminate|].
  destruct (key_eqb k' k) eqn:E; [left; exact (key_eqb_eq _ _ E)|right; exact (IH H)].
Qed.
Lemma set_keys c k l : map fst (set_bucket c k l) = map fst c.
Proof. induction c as [|[k' l'] c IH]; cbn; [reflexivity|]. destruct (key_eqb k' k); cbn; [reflexivity|now rewrite IH]. Qed.
Lemma set_find c k l k' : In k (map fst c) ->
  find_bucket (set_bucket c k l) k' = if key_eqb k k' then Some l else find_bucket c k'.
Proof.
  induction c as [|[k1 l1] c IH]; cbn; intros H; [destruct H|].
  destruct (key_eqb k1 k) eqn:E; cbn.
  - apply key_eqb_eq in E. subst k1. destruct (key_eqb k k'); reflexivity.
  - destruct H as [<-|H]; [rewrite key_eqb_refl in E; discriminate|].
    destruct (key_eqb k1 k') eqn:E1; [|exact (IH H)].
    destruct (key_eqb k k') eqn:E2; [|reflexivity].
    apply key_eqb_eq in E1, E2. subst. rewrite key_eqb_refl in E. discriminate.
Qed.
Lemma unlink_sub c k x : In x (map fst (unlink_bucket c k)) -> In x (map fst c).
Proof.
  induction c as [|[k1 l1] c IH]; cbn; [auto|]. destruct (key_eqb k1 k); cbn; [auto|]. intros [H|H]; auto.
Qed.
Lemma unlink_nodup c k : NoDup (map fst c) -> NoDup (map fst (unlink_bucket c k)).
Proof.
  induction c as [|[k1 l1] c IH]; cbn; intros H; [exact H|]. inversion H as [|? ? H1 H2]; subst.
  destruct (key_eqb k1 k); cbn; [exact H2|]. constructor; [|exact (IH H2)].
  intros X. apply H1. exact (unlink_sub _ _ _ X).
Qed.
Lemma unlink_find c k k' : NoDup (map fst c) ->
  find_bucket (unlink_bucket c k) k' = if key_eqb k k' then None else find_bucket c k'.
Proof.
  induction c as [|[k1 l1] c IH]; cbn; intros H; [destruct (key_eqb k k'); reflexivity|].
  inversion H as [|? ? H1 H2]; subst.
  destruct (key_eqb k1 k) eqn:E; cbn.
  - apply key_eqb_eq in E. subst k1. destruct (key_eqb k k') eqn:E; [|reflexivity].
    apply key_eqb_eq in E. subst k'. exact (find_none_in _ _ H1).
  - rewrite (IH H2). destruct (key_eqb k1 k') eqn:E1; [|reflexivity].
    destruct (key_eqb k k') eqn:E2; [|reflexivity].
    apply key_eqb_eq in E1, E2. subst. rewrite key_eqb_refl in E. discriminate.
Qed.

Lemma take_out_spec off l : match take_out off l with
  | None => ~ In off l
  | Some l' => Permutation l (off :: l') end.
Proof.
  induction l as [|r l IH]; cbn; [auto|]. destruct (r =? off) eqn:E.
  - apply Z.eqb_eq in E. subst. apply Permutation_refl.
  - apply Z.eqb_neq in E. destruct (take_out off l) as [l'|].
    + apply perm_trans with (r :: off :: l'); [constructor; exact IH|constructor].
    + intros [X|X]; [congruence|exact (IH X)].
Qed.

Section Hash.
Variable h : key -> Z.
Definition distinct (ch : chains) : Prop := forall i, NoDup (map fst (ch i)).
Lemma find_upd ch i c k : idxhash_find h (upd ch i c) k = if h k =? i then rows_in c k else idxhash_find h ch k.
Proof. unfold idxhash_find, upd, rows_in. destruct (h k =? i); reflexivity. Qed.
Lemma store_distinct ch k o : distinct ch -> distinct (idxhash_store h ch k o).
Proof.
  intros D i. unfold idxhash_store. destruct (find_bucket (ch (h k)) k) as [l|] eqn:E; unfold upd; destruct (i =? h k); try apply D.
  - rewrite set_keys. apply D.
  - cbn. constructor; [|apply D]. intros X.
    clear - E X. induction (ch (h k)) as [|[k1 l1] c IH]; cbn in *; [exact X|].
    destruct (key_eqb k1 k) eqn:E1; [discriminate|]. destruct X as [X|X]; [|exact (IH E X)].
    subst. rewrite key_eqb_refl in E1. discriminate.
Qed.
Lemma store_find ch k o k' : idxhash_find h (idxhash_store h ch k o) k' =
  if key_eqb k k' then o :: idxhash_find h ch k' else idxhash_find h ch k'.
Proof.
  unfold idxhash_store. destruct (find_bucket (ch (h k)) k) as [l|] eqn:E; rewrite find_upd.
  - destruct (h k' =? h k) eqn:Eh.
    + apply Z.eqb_eq in Eh. unfold rows_in. rewrite set_find by exact (find_in _ _ _ E). unfold idxhash_find. rewrite Eh.
      destruct (key_eqb k k') eqn:E1; [|reflexivity]. apply key_eqb_eq in E1. subst. now rewrite E.
    + destruct (key_eqb k k') eqn:E1; [|reflexivity]. apply key_eqb_eq in E1. subst. rewrite Z.eqb_refl in Eh. discriminate.
  - destruct (h k' =? h k) eqn:Eh.
    + apply Z.eqb_eq in Eh. unfold rows_in. cbn. unfold idxhash_find. rewrite Eh.
      destruct (key_eqb k k') eqn:E1; [|reflexivity]. apply key_eqb_eq in E1. subst. now rewrite E.
    + destruct (key_eqb k k') eqn:E1; [|reflexivity]. apply key_eqb_eq in E1. subst. rewrite Z.eqb_refl in Eh. discriminate.
Qed.
Lemma remove_ok ch k o : distinct ch -> let (ch', e) := idxhash_remove h ch k o in
  distinct ch' /\ -2 <= e /\ (forall k', k' <> k -> idxhash_find h ch' k' = idxhash_find h ch k') /\
  ((e = 0 /\ Permutation (idxhash_find h ch k) (o :: idxhash_find h ch' k)) \/
   (~ In o (idxhash_find h ch k) /\ ch' = ch)).
Proof.
  intros D. unfold idxhash_remove. destruct (find_bucket (ch (h k)) k) as [l|] eqn:E.
  - pose proof (take_out_spec o l) as T. destruct (take_out o l) as [[|r l']|].
    + split; [|split; [lia|split]].
      * intros i. unfold upd. destruct (i =? h k); [apply unlink_nodup|]; apply D.
      * intros k' Hk. rewrite find_upd. destruct (h k' =? h k) eqn:Eh; [|reflexivity].
        apply Z.eqb_eq in Eh. unfold rows_in, idxhash_find. rewrite unlink_find by apply D. rewrite key_eqb_neq by congruence. now rewrite Eh.
      * left. split; [reflexivity|]. rewrite find_upd, Z.eqb_refl. unfold rows_in. rewrite unlink_find by apply D. rewrite key_eqb_refl.
        unfold idxhash_find. now rewrite E.
    + split; [|split; [lia|split]].
      * intros i. unfold upd. destruct (i =? h k); [rewrite set_keys|]; apply D.
      * intros k' Hk. rewrite find_upd. destruct (h k' =? h k) eqn:Eh; [|reflexivity].
        apply Z.eqb_eq in Eh. unfold rows_in, idxhash_find. rewrite set_find by exact (find_in _ _ _ E). rewrite key_eqb_neq by congruence. now rewrite Eh.
      * left. split; [reflexivity|]. rewrite find_upd, Z.eqb_refl. unfold rows_in. rewrite set_find by exact (find_in _ _ _ E). rewrite key_eqb_refl.
        unfold idxhash_find. now rewrite E.
    + split; [exact D|split; [lia|split; [reflexivity|right]]]. unfold idxhash_find. rewrite E. auto.
  - split; [exact D|split; [lia|split; [reflexivity|right]]]. unfold idxhash_find. rewrite E. auto.
Qed.

(** ** Rows and indexes *)
Definition rowkey (cs : list Z) (fs : list val) : option key :=
  match get_fields fs cs with Some vs => key_of vs | None => None end.
Definition colsok (ix : index) : Prop :=
  cols ix <> [] /\ NoDup (cols ix) /\ forall c, In c (cols ix) -> 0 <= c <= last_col ix /\ c <= 127.
(** entries of the index for the row [r] *)
Definition entry (ix : index) (r : Z) (k : key) : Prop := In r (idxhash_find h (table ix) k).
Definition tidy (ix : index) : Prop := colsok ix /\ distinct (table ix) /\ forall k, NoDup (idxhash_find h (table ix) k).
(** [ix'] has the entries of [ix] except those of [r], and for [r] the keys in [K]. *)
Definition turned (ix ix' : index) (r : Z) (K : key -> Prop) : Prop :=
  tidy ix' /\ cols ix' = cols ix /\ (forall r' k, r' <> r -> (entry ix' r' k <-> entry ix r' k)) /\ (forall k, entry ix' r k <-> K k).

Lemma get_fields_some fs cs : (forall c, In c cs -> 0 <= c < Z.of_nat (length fs)) -> exists vs, get_fields fs cs = Some vs.
Proof.
  induction cs as [|c cs IH]; cbn; intros H; [eauto|].
  destruct (IH (fun x X => H x (or_intror X))) as [vs ->].
  unfold get_field. destruct (nth_error fs (Z.to_nat c)) eqn:E; [eauto|].
  apply nth_error_None in E. specialize (H c (or_introl eq_refl)). lia.
Qed.
Lemma get_fields_have fs cs vs : get_fields fs cs = Some vs <-> has cs vs fs.
Proof.
  unfold has. revert vs. induction cs as [|c cs IH]; intros vs; cbn.
  - split; [intros [= <-]; constructor|intros H; inversion H; reflexivity].
  - unfold get_field. split.
    + destruct (nth_error fs (Z.to_nat c)) eqn:E; [|discriminate]. destruct (get_fields fs cs) as [ws|]; [|discriminate].
      intros [= <-]. constructor; [exact E|]. apply IH. reflexivity.
    + intros H. inversion H as [|? ? ? ws H1 H2]; subst. rewrite H1. apply IH in H2. now rewrite H2.
Qed.
Lemma last_in (l : list Z) : l <> [] -> In (last l 0) l.
Proof. intros H. destruct (exists_last H) as [l' [a ->]]. rewrite last_last. apply in_or_app. right. left. reflexivity. Qed.
Lemma has_last cs vs fs : cs <> [] -> has cs vs fs -> (forall c, In c cs -> 0 <= c) -> last cs 0 < Z.of_nat (length fs).
Proof.
  intros Hn H Hp. pose proof (last_in cs Hn) as Hl. unfold has in H.
  assert (G : forall c, In c cs -> c < Z.of_nat (length fs)).
  { clear Hn Hl. induction H as [|c v cs vs E F IH]; [intros ? []|]. intros x [<-|X]; [|apply IH; [|exact X]; intros y Y; apply Hp; right; exact Y].
    assert (Z.to_nat c < length fs)%nat by (apply nth_error_Some; congruence). specialize (Hp c (or_introl eq_refl)). lia. }
  exact (G _ Hl).
Qed.

(** adding a row that has no entries *)
Lemma add_row ix r fs : tidy ix -> (forall k, ~ entry ix r k) -> last_col ix < Z.of_nat (length fs) ->
  exists ix' e, hash_add_row h ix r fs = Some (ix', e) /\
    ((e = 0 /\ rowkey (cols ix) fs <> None) \/ (e = -1 /\ rowkey (cols ix) fs = None)) /\
    turned ix ix' r (fun k => rowkey (cols ix) fs = Some k).
Proof.
  intros (C & D & N) Hr Hl. destruct C as (C1 & C2 & C3).
  destruct (get_fields_some fs (cols ix)) as [vs Ev]; [intros c Hc; specialize (C3 c Hc); lia|].
  unfold hash_add_row, rowkey. rewrite Ev. destruct (key_of vs) as [k|].
  - eexists _, 0. split; [reflexivity|]. split; [left; split; congruence|].
    split; [|split; [reflexivity|split]].
    + split; [split; [exact C1|split; [exact C2|exact C3]]|]. split; [apply store_distinct, D|]. intros k'. cbn. rewrite store_find.
      destruct (key_eqb k k') eqn:E; [|apply N]. constructor; [|apply N]. exact (Hr k').
    + intros r' k' Hn. unfold entry. cbn. rewrite store_find. destruct (key_eqb k k'); [|tauto]. cbn. split; [intros [X|X]; [congruence|exact X]|auto].
    + intros k'. unfold entry. cbn. rewrite store_find. destruct (key_eqb k k') eqn:E.
      * apply key_eqb_eq in E. subst. cbn. split; auto.
      * split; [intros X; destruct (Hr k' X)|]. intros [= <-]. rewrite key_eqb_refl in E. discriminate.
  - eexists _, (-1). split; [reflexivity|]. split; [right; split; reflexivity|].
    split; [|split; [reflexivity|split]]; [split; [split; [exact C1|split; [exact C2|exact C3]]|split; assumption]|tauto|].
    intros k. split; [intros X; destruct (Hr k X)|discriminate].
Qed.
(** removing a row whose only entry is under its key *)
Lemma remove_row ix r fs : tidy ix -> (forall k, entry ix r k -> rowkey (cols ix) fs = Some k) -> last_col ix < Z.of_nat (length fs) ->
  exists ix' e, hash_remove_row h ix r fs = Some (ix', e) /\ -2 <= e /\ turned ix ix' r (fun _ => False).
Proof.
  intros (C & D & N) Hr Hl. destruct C as (C1 & C2 & C3).
  destruct (get_fields_some fs (cols ix)) as [vs Ev]; [intros c Hc; specialize (C3 c Hc); lia|].
  unfold hash_remove_row. unfold rowkey in Hr. rewrite Ev in *. destruct (key_of vs) as [k|].
  - pose proof (remove_ok (table ix) k r D) as R. destruct (idxhash_remove h (table ix) k r) as [t e].
    destruct R as (R1 & R2 & R3 & R4). eexists _, e. split; [reflexivity|]. split; [exact R2|].
    assert (Q : NoDup (idxhash_find h t k) /\ (forall x, In x (idxhash_find h t k) <-> In x (idxhash_find h (table ix) k) /\ x <> r)).
    { destruct R4 as [[_ P]|[Hn ->]].
      - assert (ND : NoDup (r :: idxhash_find h t k)) by exact (Permutation_NoDup P (N k)). inversion ND as [|? ? N1 N2]; subst.
        split; [exact N2|]. intros x. split.
        + intros X. split; [apply (Permutation_in _ (Permutation_sym P)); right; exact X|intros ->; exact (N1 X)].
        + intros [X Y]. apply (Permutation_in _ P) in X. destruct X as [X|X]; [congruence|exact X].
      - split; [apply N|]. intros x. split; [intros X; split; [exact X|intros ->; exact (Hn X)]|tauto]. }
    destruct Q as [Q1 Q2].
    split; [|split; [reflexivity|split]].
    + split; [split; [exact C1|split; [exact C2|exact C3]]|]. split; [exact R1|]. intros k'. cbn.
      destruct (list_eq_dec Z.eq_dec k' k) as [->|Hk]; [exact Q1|]. rewrite (R3 _ Hk). apply N.
    + intros r' k' Hn. unfold entry. cbn. destruct (list_eq_dec Z.eq_dec k' k) as [->|Hk]; [rewrite Q2; tauto|]. rewrite (R3 _ Hk). tauto.
    + intros k'. unfold entry. cbn. split; [|tauto]. destruct (list_eq_dec Z.eq_dec k' k) as [->|Hk].
      * intros X. apply Q2 in X. tauto.
      * rewrite (R3 _ Hk). intros X. specialize (Hr _ X). congruence.
  - eexists _, (-1). split; [reflexivity|]. split; [lia|]. split; [|split; [reflexivity|split]].
    + split; [split; [exact C1|split; [exact C2|exact C3]]|split; assumption].
    + tauto.
    + intros k. split; [|tauto]. intros X. specialize (Hr _ X). discriminate.
Qed.
End Hash.
