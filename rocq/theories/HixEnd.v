(** Proofs about hash indexes, part 3: reachable databases; keys that can be told apart. *)
From Coq Require Import List ZArith Bool Lia Permutation.
From Verif Require Import HixModel HixSpec HixProof HixLoop.
Import ListNotations.
Open Scope Z_scope.

(** ** Lists of records *)
Lemma fields_in l r fs : fields_of l r = Some fs -> In (r, fs) l.
Proof.
  induction l as [|[r1 f1] l IH]; cbn; [discriminate|]. destruct (r1 =? r) eqn:E; [|intros H; right; exact (IH H)].
  apply Z.eqb_eq in E. subst. intros [= <-]. left. reflexivity.
Qed.
Lemma in_fields l r fs : NoDup (map fst l) -> In (r, fs) l -> fields_of l r = Some fs.
Proof.
  induction l as [|[r1 f1] l IH]; cbn; intros N; [intros []|]. inversion N as [|? ? N1 N2]; subst. intros [[= -> ->]|H].
  - now rewrite Z.eqb_refl.
  - destruct (r1 =? r) eqn:E; [|exact (IH N2 H)]. apply Z.eqb_eq in E. subst. destruct N1. apply in_map_iff. exists (r, fs). split; [reflexivity|exact H].
Qed.
Lemma fields_none l r : fields_of l r = None <-> ~ In r (map fst l).
Proof.
  induction l as [|[r1 f1] l IH]; cbn; [tauto|]. destruct (r1 =? r) eqn:E.
  - apply Z.eqb_eq in E. subst. split; [discriminate|tauto].
  - apply Z.eqb_neq in E. rewrite IH. tauto.
Qed.
Lemma fields_insert a b r fs : ~ In r (map fst (a ++ b)) -> forall r', fields_of (a ++ (r, fs) :: b) r' = mput (fields_of (a ++ b)) r (Some fs) r'.
Proof.
  intros H r'. unfold mput. induction a as [|[r1 f1] a IH]; cbn in *.
  - rewrite (Z.eqb_sym r r'). reflexivity.
  - rewrite IH by tauto. destruct (r1 =? r') eqn:E; [|reflexivity]. apply Z.eqb_eq in E. subst. destruct (r' =? r) eqn:E; [|reflexivity].
    apply Z.eqb_eq in E. tauto.
Qed.
Lemma insert_nodup (a b : list record) r fs : NoDup (map fst (a ++ b)) -> ~ In r (map fst (a ++ b)) -> NoDup (map fst (a ++ (r, fs) :: b)).
Proof. rewrite !map_app. cbn [map fst]. intros H1 H2. apply (Permutation_NoDup (Permutation_middle _ _ _)). constructor; assumption. Qed.
Lemma fields_put l r fs : In r (map fst l) -> forall r', fields_of (put_fields l r fs) r' = mput (fields_of l) r (Some fs) r'.
Proof.
  unfold mput. induction l as [|[r1 f1] l IH]; cbn; [intros []|]. intros H r'. destruct (r1 =? r) eqn:E; cbn.
  - apply Z.eqb_eq in E. subst. rewrite (Z.eqb_sym r r'). destruct (r' =? r); reflexivity.
  - destruct H as [H|H]; [apply Z.eqb_neq in E; congruence|]. rewrite (IH H). destruct (r1 =? r') eqn:E1; [|reflexivity].
    apply Z.eqb_eq in E1. subst. now rewrite E.
Qed.
Lemma put_keys l r fs : map fst (put_fields l r fs) = map fst l.
Proof. induction l as [|[r1 f1] l IH]; cbn; [reflexivity|]. destruct (r1 =? r); cbn; [reflexivity|now rewrite IH]. Qed.
Lemma fields_filter l r r' : fields_of (filter (fun x => negb (fst x =? r)) l) r' = mput (fields_of l) r None r'.
Proof.
  unfold mput. induction l as [|[r1 f1] l IH]; cbn; [destruct (r' =? r); reflexivity|]. destruct (r1 =? r) eqn:E; cbn.
  - rewrite IH. apply Z.eqb_eq in E. subst. rewrite (Z.eqb_sym r r'). destruct (r' =? r); reflexivity.
  - rewrite IH. destruct (r1 =? r') eqn:E1; [|reflexivity]. apply Z.eqb_eq in E1. subst. now rewrite E.
Qed.
Lemma filter_nodup (l : list record) f : NoDup (map fst l) -> NoDup (map fst (filter f l)).
Proof.
  induction l as [|[r1 f1] l IH]; cbn; intros H; [exact H|]. inversion H as [|? ? N1 N2]; subst. destruct (f (r1, f1)); [|exact (IH N2)].
  cbn. constructor; [|exact (IH N2)]. intros X. apply N1. apply in_map_iff in X. destruct X as (y & E & Y). apply filter_In in Y. apply in_map_iff. exists y. tauto.
Qed.

(** ** Columns *)
Lemma lowest_ok prev l : forall m0, let m := fold_left (fun m c => if (c <? m) && (prev <? c) then c else m) l m0 in m <= m0 /\ (m = m0 \/ prev < m).
Proof.
  induction l as [|c l IH]; intros m0; cbn; [lia|]. destruct ((c <? m0) && (prev <? c)) eqn:E; [|apply IH].
  apply andb_true_iff in E. rewrite !Z.ltb_lt in E. specialize (IH c). cbn in IH. lia.
Qed.
Lemma last_cons_ge (a : Z) l d : l <> [] -> last (a :: l) d = last l d.
Proof. destruct l; [congruence|reflexivity]. Qed.
Lemma sort_ok columns n : forall prev, NoDup (sort_columns n prev columns) /\
  (forall c, In c (sort_columns n prev columns) -> prev < c <= 127 /\ c <= last (sort_columns n prev columns) 0).
Proof.
  induction n as [|n IH]; intros prev; cbn [sort_columns]; [split; [constructor|intros c []]|].
  pose proof (lowest_ok prev columns 128) as L. cbv zeta in L. set (m := fold_left _ columns 128) in *.
  destruct (m =? 128) eqn:E; [split; [constructor|intros c []]|]. apply Z.eqb_neq in E. destruct (IH m) as [I1 I2]. split.
  - constructor; [|exact I1]. intros X. apply I2 in X. lia.
  - intros c [<-|X].
    + split; [lia|]. destruct (sort_columns n m columns) as [|a l] eqn:Es; [cbn; lia|]. rewrite last_cons_ge by discriminate.
      assert (Q : In (last (a :: l) 0) (a :: l)) by (apply last_in; discriminate). apply I2 in Q. lia.
    + specialize (I2 c X). split; [lia|]. rewrite last_cons_ge; [lia|]. intros E0. rewrite E0 in X. destruct X.
Qed.

Section Hash.
Variable h : key -> Z.

Lemma fill_ok l : forall ix ix' m, agree h true m ix -> NoDup (map fst l) -> (forall r, In r (map fst l) -> m r = None) ->
  fill_index h ix l = Some ix' ->
  agree h true (fun r => match fields_of l r with Some fs => Some fs | None => m r end) ix' /\ cols ix' = cols ix.
Proof.
  induction l as [|[r fs] l IH]; intros ix ix' m A N Hm; cbn [fill_index fields_of].
  - intros [= <-]. split; [|reflexivity]. exact A.
  - cbn in N, Hm. inversion N as [|? ? N1 N2]; subst. pose proof A as (T & A1 & A2).
    assert (NE : forall k, ~ entry h ix r k) by (intros k X; destruct (A1 _ _ X) as (f & F & _); rewrite Hm in F; [discriminate|left; reflexivity]).
    assert (Hm' : forall x r', In r' (map fst l) -> mput m r x r' = None).
    { intros x r' X. unfold mput. destruct (r' =? r) eqn:E; [apply Z.eqb_eq in E; subst; destruct (N1 X)|]. apply Hm. right. exact X. }
    assert (Ex : forall ix1, agree h true (fun r0 => match fields_of l r0 with Some f => Some f | None => mput m r (Some fs) r0 end) ix1 ->
      agree h true (fun r0 => match (if r =? r0 then Some fs else fields_of l r0) with Some f => Some f | None => m r0 end) ix1).
    { intros ix1. apply agree_ext. intros r0. unfold mput. rewrite (Z.eqb_sym r r0). destruct (r0 =? r) eqn:E; [|reflexivity].
      apply Z.eqb_eq in E. subst. apply fields_none in N1. now rewrite N1. }
    destruct (Z.of_nat (length fs) <=? hd 0 (cols ix)) eqn:Ec.
    + intros H. apply Z.leb_le in Ec. destruct (IH ix ix' (mput m r (Some fs))) as [I1 I2]; [|exact N2|exact (Hm' _)|exact H|].
      * apply agree_same; [exact A|]. intros k. split; [intros (f & F & _); rewrite Hm in F; [discriminate|left; reflexivity]|]. intros (f & [= <-] & F).
        rewrite (rowkey_short h) in F; [discriminate|exact T|]. destruct T as ((C1 & _ & C3) & _).
        destruct (cols ix) as [|c0 cs] eqn:E0; [congruence|]. cbn in Ec. specialize (C3 c0 (or_introl eq_refl)). lia.
      * split; [apply Ex; exact I1|exact I2].
    + destruct (hash_add_row h ix r fs) as [[ix1 e1]|] eqn:E1; [|discriminate]. intros H.
      assert (Hl : last_col ix < Z.of_nat (length fs)).
      { unfold hash_add_row in E1. destruct (get_fields fs (cols ix)) as [vs|] eqn:E2; [|discriminate]. apply get_fields_have in E2.
        destruct T as ((C1 & _ & C3) & _). apply (has_last (cols ix) vs fs C1 E2). intros c X. apply C3 in X. lia. }
      destruct (add_row h ix r fs T NE Hl) as (ix2 & e2 & E2 & _ & Tu). rewrite E1 in E2. injection E2 as <- <-.
      destruct (IH ix1 ix' (mput m r (Some fs))) as [I1 I2]; [|exact N2|exact (Hm' _)|exact H|].
      * apply (agree_turn _ _ _ _ _ _ _ _ A Tu). intros k. split; [eauto|]. intros (f & [= <-] & F). exact F.
      * split; [apply Ex; exact I1|]. rewrite I2. exact (proj1 (proj2 Tu)).
Qed.

(** ** Histories *)
Definition inv (ok : bool) (d : db) : Prop := NoDup (map fst (recs d)) /\ Forall (agree h ok (fields_of (recs d))) (ixs d).
Lemma agree_all_ext ok m m' l : (forall r, m r = m' r) -> Forall (agree h ok m) l -> Forall (agree h ok m') l.
Proof. intros E. apply Forall_impl. intros ix. apply agree_ext. exact E. Qed.
Lemma nth_in {A} (l : list A) n x : nth_error l n = Some x -> (n < length l)%nat.
Proof. intros H. apply nth_error_Some. congruence. Qed.
Lemma step_inv quick ok d d' : inv ok d -> step h quick ok d d' -> inv ok d'.
Proof.
  intros [N A] S0. destruct S0 as [d p r len d' x Hr Hf H Hq G|d p r len Hr Hf Hi|d r c v d' x Hc H G|d r c v d' x Hc Hi H|d r d' x H G|d columns d' x H G].
  - (* create *)
    assert (Hn : ~ In r (map fst (firstn p (recs d) ++ skipn p (recs d)))) by (rewrite firstn_skipn; apply fields_none; exact Hf).
    assert (N' : NoDup (map fst (recs (create_raw d p r len)))) by (cbn; apply insert_nodup; [now rewrite firstn_skipn|exact Hn]).
    assert (M' : forall r', mput (fields_of (recs d)) r (Some (repeat VNull len)) r' = fields_of (recs (create_raw d p r len)) r').
    { intros r'. cbn. rewrite (fields_insert _ _ _ _ Hn). now rewrite firstn_skipn. }
    unfold create_record in H. destruct quick.
    + injection H as <- <-. split; [exact N'|]. cbn [ixs create_raw]. rewrite (Hq eq_refl). constructor.
    + cbv zeta in H. cbn [ixs recs create_raw] in H. rewrite Forall_forall in A.
      destruct (add_rec_ok h (columns_of (repeat VNull len)) (ixs d) r (repeat VNull len)) as (l' & e & E & He & F).
      * apply columns_nodup.
      * intros c X. apply columns_iff in X. lia.
      * intros ix Hix. destruct (A ix Hix) as (T & A1 & _). split; [exact T|]. intros _ k X. destruct (A1 _ _ X) as (f & F & _). congruence.
      * rewrite E in H. injection H as <- <-. split; [exact N'|]. cbn [recs ixs].
        apply (agree_all_ext _ _ _ _ M'). apply Forall_forall. intros ix' Hix'. destruct (Forall2_in_r _ _ _ _ F Hix') as (ix & Hix & P).
        apply (come h ok _ ix ix' e r (repeat VNull len) (A ix Hix) Hf); [|exact P].
        intros ->. cbn in G. destruct He as [-> | ->]; [reflexivity|]. change ((0 =? r) = true) in G. apply Z.eqb_eq in G. lia.
  - (* raw *)
    assert (Hn : ~ In r (map fst (firstn p (recs d) ++ skipn p (recs d)))) by (rewrite firstn_skipn; apply fields_none; exact Hf).
    split; [cbn; apply insert_nodup; [now rewrite firstn_skipn|exact Hn]|]. cbn. rewrite Hi. constructor.
  - (* set *)
    unfold set_field in H. destruct (fields_of (recs d) r) as [fs|] eqn:Ef; [|discriminate].
    destruct (get_field fs c) as [old|] eqn:Eo; [|discriminate]. pose proof (nth_in _ _ _ Eo) as Hl.
    destruct quick; [injection H as <- <-; split; assumption|]. destruct (val_eq_dec old v); [injection H as <- <-; split; assumption|].
    assert (Hin : In r (map fst (recs d))) by (apply in_map_iff; exists (r, fs); split; [reflexivity|exact (fields_in _ _ _ Ef)]).
    cbv zeta in H. destruct (c <=? 127) eqn:E127.
    + destruct (change h ok _ r fs c v (ixs d) A Ef Hc Hl) as (l1 & l2 & e & E1 & E2 & He & Q). rewrite E1 in H. cbn [Z.ltb Z.compare] in H. rewrite E2 in H.
      injection H as <- <-. split; [cbn; now rewrite put_keys|]. cbn [recs ixs]. apply (agree_all_ext _ (mput (fields_of (recs d)) r (Some (put_val fs c v)))).
      * intros r'. symmetry. apply fields_put. exact Hin.
      * apply Q. intros ->. cbn in G. destruct He as [-> | ->]; [reflexivity|discriminate].
    + injection H as <- <-. split; [cbn; now rewrite put_keys|]. cbn [recs ixs]. apply (agree_all_ext _ (mput (fields_of (recs d)) r (Some (put_val fs c v)))).
      * intros r'. symmetry. apply fields_put. exact Hin.
      * rewrite Forall_forall in *. intros ix Hix. apply untouched; [apply A; exact Hix|exact Ef|exact Hc|exact Hl|].
        destruct (on_column c fs ix) eqn:Eoc; [|reflexivity]. apply on_column_iff in Eoc. destruct (A ix Hix) as (((_ & _ & C3) & _) & _). apply Z.leb_gt in E127.
        destruct (C3 c (proj1 Eoc)). lia.
  - (* set new *)
    unfold set_new_field in H. rewrite Hi in H. cbn [index_add_field add_where] in H. destruct (fields_of (recs d) r) as [fs|]; [|discriminate].
    destruct (get_field fs c); [|discriminate]. cbv zeta in H.
    assert (E : d' = {| recs := put_fields (recs d) r (put_val fs c v); ixs := [] |}).
    { destruct quick; [injection H as <- <-; reflexivity|]. destruct (c <=? 127).
      - unfold index_add_field in H. cbn in H. injection H as <- <-. reflexivity.
      - injection H as <- <-. reflexivity. }
    rewrite E. split; [cbn; now rewrite put_keys|constructor].
  - (* delete *)
    unfold delete_record in H. destruct (fields_of (recs d) r) as [fs|] eqn:Ef; [|discriminate]. rewrite Forall_forall in A.
    destruct (del_rec_ok h (columns_of fs) (ixs d) r fs) as (l' & E & F).
    + apply columns_nodup.
    + intros c X. apply columns_iff in X. lia.
    + intros ix Hix. destruct (A ix Hix) as (T & A1 & _). split; [exact T|]. intros _ k X. destruct (A1 _ _ X) as (f & F & K). congruence.
    + rewrite E in H. cbn [Z.ltb Z.compare] in H. injection H as <- <-. split; [cbn; apply filter_nodup; exact N|]. cbn [recs ixs].
      apply (agree_all_ext _ (mput (fields_of (recs d)) r None)); [intros r'; symmetry; apply fields_filter|].
      apply Forall_forall. intros ix' Hix'. destruct (Forall2_in_r _ _ _ _ F Hix') as (ix & Hix & P).
      exact (go h ok _ ix ix' r fs (A ix Hix) Ef P).
  - (* index *)
    unfold create_index in H. cbv zeta in H. destruct ((length columns <? 1)%nat || (10 <? length columns)%nat) eqn:E1; [injection H as <- <-; split; assumption|].
    apply orb_false_iff in E1. destruct E1 as [E1 _]. apply Nat.ltb_ge in E1.
    pose proof (sort_ok columns (length columns) (-1)) as So.
    destruct (length (sort_columns (length columns) (-1) columns) <? length columns)%nat eqn:E2; [injection H as <- <-; split; assumption|].
    apply Nat.ltb_ge in E2. destruct (existsb _ (ixs d)); [injection H as <- <-; split; assumption|].
    set (cs := sort_columns (length columns) (-1) columns) in *.
    destruct (fill_index h _ (recs d)) as [ix|] eqn:E3; [|discriminate]. injection H as <- <-.
    destruct (fill_ok (recs d) {| cols := cs; table := fun _ => [] |} ix (fun _ => None)) as [I1 I2]; [|exact N|reflexivity|exact E3|].
    + split; [|split].
      * split; [|split].
        -- split; [intros X; cbn in X; rewrite X in E2; cbn in E2; lia|]. split; [exact (proj1 So)|].
           intros c X. destruct (proj2 So c X) as [S1 S2]. unfold last_col. cbn [cols]. lia.
        -- intros i. constructor.
        -- intros k. constructor.
      * intros r k [].
      * intros _ r k (f & F & _). discriminate.
    + split; [exact N|]. cbn [recs ixs]. apply Forall_app. split; [exact A|]. constructor; [|constructor].
      assert (I3 : agree h true (fields_of (recs d)) ix).
      { eapply agree_ext; [|exact I1]. intros r. cbn. destruct (fields_of (recs d) r); reflexivity. }
      destruct ok; [exact I3|exact (agree_weak h _ _ _ I3)].
Qed.
Lemma reach_inv quick ok d : reach h quick ok d -> inv ok d.
Proof. induction 1 as [|d d' R IH S0]; [split; constructor|exact (step_inv _ _ _ _ IH S0)]. Qed.

(** ** Keys *)
Fixpoint enc (vs : list val) : option key :=
  match vs with [] => Some [] | v :: vs => match decode_for_hashing v, enc vs with Some f, Some t => Some (0 :: f ++ t) | _, _ => None end end.
Lemma decode_nonempty v : decode_for_hashing v <> Some [].
Proof. destruct v; discriminate. Qed.
Lemma key_rec_enc vs : forall p, p <> [] -> key_rec p vs = match enc vs with Some t => Some (p ++ t) | None => None end.
Proof.
  induction vs as [|v vs IH]; intros p Hp; cbn; [now rewrite app_nil_r|]. destruct (decode_for_hashing v) as [f|]; [|reflexivity].
  destruct p as [|a p]; [congruence|]. rewrite IH by discriminate. destruct (enc vs) as [t|]; [|reflexivity]. now rewrite <- app_assoc.
Qed.
Lemma key_enc vs k : vs <> [] -> key_of vs = Some k -> enc vs = Some (0 :: k).
Proof.
  destruct vs as [|v vs]; [congruence|]. intros _. unfold key_of. cbn. pose proof (decode_nonempty v) as D. destruct (decode_for_hashing v) as [f|] eqn:Ed; [|discriminate].
  rewrite key_rec_enc by (intros ->; apply D; reflexivity). destruct (enc vs); [|discriminate]. intros [= <-]. reflexivity.
Qed.
Lemma bytes_len n z : length (bytes n z) = n.
Proof. revert z. induction n as [|n IH]; intros z; cbn; [reflexivity|now rewrite IH]. Qed.
Lemma bytes_inj n : forall a b, bytes n a = bytes n b -> a mod 256 ^ Z.of_nat n = b mod 256 ^ Z.of_nat n.
Proof.
  induction n as [|n IH]; intros a b; cbn [bytes]; [intros _; cbn; now rewrite !Z.mod_1_r|]. intros E.
  assert (E1 : a mod 256 = b mod 256) by congruence. assert (E2 : bytes n (a / 256) = bytes n (b / 256)) by congruence. apply IH in E2.
  rewrite Nat2Z.inj_succ, Z.pow_succ_r by lia. assert (0 < 256 ^ Z.of_nat n) by lia. rewrite !Z.rem_mul_r by lia. rewrite E1, E2. reflexivity.
Qed.
Lemma app_eq_len {A} (a b c d : list A) : length a = length b -> a ++ c = b ++ d -> a = b /\ c = d.
Proof.
  revert b. induction a as [|x a IH]; intros [|y b] L; try discriminate; cbn; [auto|]. intros [= -> E]. destruct (IH b) as [-> ->]; [cbn in L; lia|exact E|auto].
Qed.
Lemma bytes_app_inj n a b t t' : bytes n a ++ t = bytes n b ++ t' -> a mod 256 ^ Z.of_nat n = b mod 256 ^ Z.of_nat n /\ t = t'.
Proof. intros E. apply app_eq_len in E; [|now rewrite !bytes_len]. destruct E as [E ->]. split; [exact (bytes_inj _ _ _ E)|reflexivity]. Qed.
Lemma int32_inj a b : int32 a -> int32 b -> a mod 256 ^ Z.of_nat 4 = b mod 256 ^ Z.of_nat 4 -> a = b.
Proof.
  unfold int32. intros H1 H2. change (256 ^ Z.of_nat 4) with 4294967296. change (2 ^ 31) with 2147483648 in *. intros H.
  pose proof (Z.div_mod a 4294967296 ltac:(lia)). pose proof (Z.div_mod b 4294967296 ltac:(lia)). lia.
Qed.
Lemma word_inj a b : word a -> word b -> a mod 256 ^ Z.of_nat 8 = b mod 256 ^ Z.of_nat 8 -> a = b.
Proof. unfold word. change (256 ^ Z.of_nat 8) with (2 ^ 64). intros H1 H2. rewrite !Z.mod_small by assumption. auto. Qed.
(** what may follow a value in a key *)
Definition ending (t : key) : Prop := t = [] \/ exists u, t = 0 :: u.
Lemma text_app_inj s : forall s' t t', text s -> text s' -> ending t -> ending t' -> s ++ t = s' ++ t' -> s = s' /\ t = t'.
Proof.
  induction s as [|a s IH]; intros [|b s'] t t' H H' T T'; cbn.
  - auto.
  - intros ->. exfalso. inversion H'; subst. destruct T as [T|[u T]]; [discriminate|]. injection T as ? ?. lia.
  - intros <-. exfalso. inversion H; subst. destruct T' as [T'|[u T']]; [discriminate|]. injection T' as ? ?. lia.
  - intros [= -> E]. inversion H; inversion H'; subst. destruct (IH s' t t') as [-> ->]; auto.
Qed.
Opaque bytes.
Lemma field_inj v v' f f' t t' : ordinary v -> ordinary v' -> no_prefix v -> no_prefix v' -> ending t -> ending t' ->
  decode_for_hashing v = Some f -> decode_for_hashing v' = Some f' -> f ++ t = f' ++ t' -> v = v' /\ t = t'.
Proof.
  intros O O' P P' T T' D D' E.
  destruct v as [| | | | | | [?|] ? | [?|] ? | | | | | | ]; try discriminate D; try (destruct P; fail); injection D as <-;
  destruct v' as [| | | | | | [?|] ? | [?|] ? | | | | | | ]; try discriminate D'; try (destruct P'; fail); injection D' as <-;
  cbn [app] in E; try discriminate E; apply (f_equal (@tl Z)) in E; cbn [tl] in E; cbn [ordinary no_prefix concat_for_hashing opt_text] in *.
  all: try (match type of E with ?s ++ _ = ?s' ++ _ => change (bytes 8 0 ++ t = bytes 8 0 ++ t') in E end; apply bytes_app_inj in E; split; [reflexivity|exact (proj2 E)]).
  all: try (apply bytes_app_inj in E; destruct E as [E ->]; split; [f_equal; first [exact (int32_inj _ _ O O' E)|exact (word_inj _ _ O O' E)]|reflexivity]).
  all: try (destruct (text_app_inj _ _ _ _ O O' T T' E) as [-> ->]; split; reflexivity).
  all: try (destruct (text_app_inj _ _ _ _ (proj2 O) (proj2 O') T T' E) as [-> ->]; split; reflexivity).
Qed.
Transparent bytes.
Lemma concat_inj p s p' s' : opt_text p -> text s -> opt_text p' -> text s' -> concat_for_hashing p s = concat_for_hashing p' s' -> p = p' /\ s = s'.
Proof.
  assert (Q : forall e u w, text w -> concat_for_hashing (Some e) u <> w).
  { intros e u w W X. cbn in X. assert (Y : In 0 w) by (rewrite <- X; apply in_or_app; right; left; reflexivity).
    unfold text in W. rewrite Forall_forall in W. specialize (W 0 Y). lia. }
  destruct p as [e|], p' as [e'|]; intros O S1 O' S2 E.
  - cbn in *. destruct (text_app_inj e e' (0 :: s) (0 :: s') O O') as [-> X]; [right; eauto|right; eauto|exact E|]. injection X as ->. split; reflexivity.
  - exfalso. exact (Q _ _ _ S2 E).
  - exfalso. symmetry in E. exact (Q _ _ _ S1 E).
  - cbn in E. split; [reflexivity|exact E].
Qed.
Lemma last_inj v v' f : ordinary v -> ordinary v' -> decode_for_hashing v = Some f -> decode_for_hashing v' = Some f -> v = v'.
Proof.
  intros O O' D D'.
  assert (G : no_prefix v -> no_prefix v' -> v = v').
  { intros P P'. apply (field_inj v v' f f [] [] O O' P P' (or_introl eq_refl) (or_introl eq_refl) D D' eq_refl). }
  assert (NP : forall w, no_prefix w \/ (exists x s, w = VXml x s) \/ (exists p s, w = VUri p s)).
  { intros w. destruct w; try (left; exact I); right; [left|right]; eauto. }
  assert (X : forall w w' x s, ordinary w -> ordinary w' -> w' = VXml x s -> decode_for_hashing w = Some f -> decode_for_hashing w' = Some f -> w = w').
  { intros w w' x s Ow Ow' -> Dw Dw'. destruct w; cbn in Dw, Dw'; try congruence. rewrite <- Dw in Dw'. injection Dw' as E. symmetry in E. cbn in Ow, Ow'.
    destruct (concat_inj _ _ _ _ (proj1 Ow) (proj2 Ow) (proj1 Ow') (proj2 Ow') E) as [-> ->]. reflexivity. }
  assert (U : forall w w' x s, ordinary w -> ordinary w' -> w' = VUri x s -> decode_for_hashing w = Some f -> decode_for_hashing w' = Some f -> w = w').
  { intros w w' x s Ow Ow' -> Dw Dw'. destruct w; cbn in Dw, Dw'; try congruence. rewrite <- Dw in Dw'. injection Dw' as E. symmetry in E. cbn in Ow, Ow'.
    destruct (concat_inj _ _ _ _ (proj1 Ow) (proj2 Ow) (proj1 Ow') (proj2 Ow') E) as [-> ->]. reflexivity. }
  destruct (NP v') as [P'|[(x & s & E)|(x & s & E)]]; [|exact (X v v' x s O O' E D D')|exact (U v v' x s O O' E D D')].
  destruct (NP v) as [P|[(x & s & E)|(x & s & E)]]; [exact (G P P')|symmetry; exact (X v' v x s O' O E D' D)|symmetry; exact (U v' v x s O' O E D' D)].
Qed.
Lemma enc_ending vs t : enc vs = Some t -> ending t.
Proof. destruct vs as [|v vs]; cbn; [intros [= <-]; left; reflexivity|]. destruct (decode_for_hashing v), (enc vs); try discriminate. intros [= <-]. right. eauto. Qed.
Lemma enc_inj vs : forall vs' t, length vs = length vs' -> plain_row vs -> plain_row vs' -> enc vs = Some t -> enc vs' = Some t -> vs = vs'.
Proof.
  induction vs as [|v vs IH]; intros [|v' vs'] t L [O P] [O' P'] E E'; try discriminate; [reflexivity|].
  cbn in E, E'. destruct (decode_for_hashing v) as [f|] eqn:D; [|discriminate]. destruct (decode_for_hashing v') as [f'|] eqn:D'; [|discriminate].
  destruct (enc vs) as [u|] eqn:U; [|discriminate]. destruct (enc vs') as [u'|] eqn:U'; [|discriminate].
  injection E as <-. injection E' as E'. inversion O; inversion O'; subst.
  destruct vs as [|w vs], vs' as [|w' vs']; try discriminate L.
  - cbn in U, U'. injection U as <-. injection U' as <-. rewrite !app_nil_r in E'. subst f'. f_equal. eapply last_inj; eassumption.
  - change (removelast (v :: w :: vs)) with (v :: removelast (w :: vs)) in P. change (removelast (v' :: w' :: vs')) with (v' :: removelast (w' :: vs')) in P'.
    inversion P; inversion P'; subst.
    destruct (field_inj v v' f f' u u') as [-> ->]; auto; [exact (enc_ending _ _ U)|exact (enc_ending _ _ U')|].
    f_equal. apply (IH (w' :: vs') u'); [cbn in *; congruence|split; assumption|split; assumption|reflexivity|exact U'].
Qed.
Lemma key_inj vs vs' : vs <> [] -> length vs = length vs' -> plain_row vs -> plain_row vs' -> key_of vs <> None -> key_of vs = key_of vs' -> vs = vs'.
Proof.
  intros Hn L P P' K E. destruct (key_of vs) as [k|] eqn:E1; [|congruence]. symmetry in E.
  assert (Hn' : vs' <> []) by (intros ->; destruct vs; [congruence|discriminate]).
  apply (key_enc _ _ Hn) in E1. apply (key_enc _ _ Hn') in E. exact (enc_inj _ _ _ L P P' E1 E).
Qed.
Lemma hashable_key vs : Forall hashable vs <-> key_of vs <> None.
Proof.
  unfold key_of. generalize (@nil Z). induction vs as [|v vs IH]; intros p; cbn [key_rec].
  - split; [discriminate|constructor].
  - destruct (decode_for_hashing v) as [f|] eqn:D.
    + rewrite <- IH. split; [intros H; inversion H; assumption|]. intros H. constructor; [|exact H]. destruct v; try exact I; discriminate D.
    + split; [intros H; inversion H as [|? ? X Y]; subst; destruct v; try discriminate D; destruct X|congruence].
Qed.

Lemma search_ok quick ok d ix vals : reach h quick ok d -> In ix (ixs d) -> length vals = length (cols ix) ->
  Forall hashable vals -> plain_row vals -> clear_rows d ix ->
  exists rows, search_hash h ix vals = Some rows /\ NoDup rows /\
    (forall r, In r rows -> exists fs, In (r, fs) (recs d) /\ has (cols ix) vals fs) /\
    (ok = true -> forall r fs, In (r, fs) (recs d) -> has (cols ix) vals fs -> In r rows).
Proof.
  intros R Hix L Hh Hp Hc. destruct (reach_inv _ _ _ R) as [N A]. rewrite Forall_forall in A. destruct (A ix Hix) as ((C & D & ND) & A1 & A2).
  pose proof (proj1 (hashable_key vals) Hh) as K. unfold search_hash. destruct (key_of vals) as [k|] eqn:Ek; [|congruence].
  exists (idxhash_find h (table ix) k). split; [reflexivity|]. split; [apply ND|]. split.
  - intros r X. destruct (A1 r k X) as (fs & F & G). exists fs. pose proof (fields_in _ _ _ F) as Fi. split; [exact Fi|].
    unfold rowkey in G. destruct (get_fields fs (cols ix)) as [vs|] eqn:E; [|discriminate]. apply get_fields_have in E.
    assert (Q : vals = vs); [|subst; exact E].
    assert (L2 : length (cols ix) = length vs) by (clear - E; unfold has in E; induction E; cbn; congruence).
    apply key_inj; [|congruence|exact Hp| |congruence|congruence].
    + intros ->. destruct C as (C1 & _). destruct (cols ix); [congruence|discriminate].
    + apply (Hc r fs vs Fi E). apply hashable_key. congruence.
  - intros Hok r fs X Y. apply (A2 Hok r k). exists fs. split; [exact (in_fields _ _ _ N X)|]. unfold rowkey. apply get_fields_have in Y. now rewrite Y.
Qed.

(** ** What is defined *)
Lemma create_defined quick ok d p r len : reach h quick ok d -> fields_of (recs d) r = None -> create_record h quick d p r len <> None.
Proof.
  intros R Hf. destruct (reach_inv _ _ _ R) as [N A]. unfold create_record. destruct quick; [discriminate|]. cbv zeta. cbn [ixs recs create_raw]. rewrite Forall_forall in A.
  destruct (add_rec_ok h (columns_of (repeat VNull len)) (ixs d) r (repeat VNull len)) as (l' & e & E & He & F).
  - apply columns_nodup.
  - intros c X. apply columns_iff in X. lia.
  - intros ix Hix. destruct (A ix Hix) as (T & A1 & _). split; [exact T|]. intros _ k X. destruct (A1 _ _ X) as (f & F & _). congruence.
  - rewrite E. discriminate.
Qed.
Lemma set_defined quick ok d r c v fs : reach h quick ok d -> In (r, fs) (recs d) -> 0 <= c < Z.of_nat (length fs) -> set_field h quick d r c v <> None.
Proof.
  intros R Hf Hc. destruct (reach_inv _ _ _ R) as [N A]. unfold set_field. rewrite (in_fields _ _ _ N Hf). unfold get_field.
  destruct (nth_error fs (Z.to_nat c)) as [old|] eqn:Eo; [|apply nth_error_None in Eo; lia]. pose proof (nth_in _ _ _ Eo) as Hl.
  destruct quick; [discriminate|]. destruct (val_eq_dec old v); [discriminate|]. cbv zeta. destruct (c <=? 127); [|discriminate].
  destruct (change h ok _ r fs c v (ixs d) A (in_fields _ _ _ N Hf) (proj1 Hc) Hl) as (l1 & l2 & e & E1 & E2 & He & Q).
  rewrite E1. cbn [Z.ltb Z.compare]. rewrite E2. discriminate.
Qed.
Lemma delete_defined quick ok d r fs : reach h quick ok d -> In (r, fs) (recs d) -> exists d', delete_record h d r = Some (d', 0).
Proof.
  intros R Hf. destruct (reach_inv _ _ _ R) as [N A]. unfold delete_record. rewrite (in_fields _ _ _ N Hf). rewrite Forall_forall in A.
  destruct (del_rec_ok h (columns_of fs) (ixs d) r fs) as (l' & E & F).
  - apply columns_nodup.
  - intros c X. apply columns_iff in X. lia.
  - intros ix Hix. destruct (A ix Hix) as (T & A1 & _). split; [exact T|]. intros _ k X. destruct (A1 _ _ X) as (f & F & K). pose proof (in_fields _ _ _ N Hf). congruence.
  - rewrite E. cbn [Z.ltb Z.compare]. eauto.
Qed.
Lemma fill_defined l : forall ix, (forall r fs c, In (r, fs) l -> hd 0 (cols ix) < Z.of_nat (length fs) -> In c (cols ix) -> 0 <= c < Z.of_nat (length fs)) -> fill_index h ix l <> None.
Proof.
  induction l as [|[r fs] l IH]; intros ix H; cbn; [discriminate|]. destruct (Z.of_nat (length fs) <=? hd 0 (cols ix)) eqn:E.
  - apply IH. intros r' fs' c X. apply (H r' fs' c). right. exact X.
  - apply Z.leb_gt in E. unfold hash_add_row. destruct (get_fields_some fs (cols ix)) as [vs ->].
    + intros c. apply (H r fs c); [left; reflexivity|exact E].
    + destruct (key_of vs); apply IH; cbn [cols]; intros r' fs' c X; apply (H r' fs' c); right; exact X.
Qed.
Lemma sort_sub columns n prev c : In c (sort_columns n prev columns) -> In c columns /\ prev < c.
Proof.
  assert (Q : forall l m0 p, let m := fold_left (fun m c => if (c <? m) && (p <? c) then c else m) l m0 in m = m0 \/ (In m l /\ p < m)).
  { induction l as [|x l IH]; intros m0 p; cbn; [left; reflexivity|]. destruct ((x <? m0) && (p <? x)) eqn:E; specialize (IH (if (x <? m0) && (p <? x) then x else m0) p); rewrite E in IH; cbn in IH.
    - apply andb_true_iff in E. rewrite !Z.ltb_lt in E. destruct IH as [->|IH]; [right; split; [left; reflexivity|lia]|right; tauto].
    - tauto. }
  revert prev. induction n as [|n IH]; intros prev; cbn [sort_columns]; [intros []|]. specialize (Q columns 128 prev). cbv zeta in Q.
  destruct (_ =? 128) eqn:E; [intros []|]. apply Z.eqb_neq in E. destruct Q as [Q|Q]; [congruence|]. intros [<-|X]; [exact Q|].
  apply IH in X. split; [tauto|lia].
Qed.
Lemma index_defined d columns : (forall r fs, In (r, fs) (recs d) -> forall c c', In c columns -> In c' columns -> 0 <= c < Z.of_nat (length fs) -> c' < Z.of_nat (length fs)) ->
  create_index h d columns <> None.
Proof.
  intros H. unfold create_index. cbv zeta. destruct (_ || _); [discriminate|]. destruct (_ <? _)%nat eqn:E; [discriminate|]. destruct (existsb _ _); [discriminate|].
  match goal with |- context [fill_index h ?ix ?l] => pose proof (fill_defined l ix) as F; destruct (fill_index h ix l) end; [discriminate|]. exfalso. apply F; [|reflexivity].
  cbn [cols]. intros r fs c X Hh Hc. pose proof (sort_sub _ _ _ _ Hc) as Q. split; [lia|].
  destruct (sort_columns (length columns) (-1) columns) as [|a l] eqn:Es; [destruct Hc|]. cbn in Hh.
  assert (Qa : In a columns /\ -1 < a) by (apply (sort_sub columns (length columns) (-1)); rewrite Es; left; reflexivity).
  apply (H r fs X a c (proj1 Qa) (proj1 Q)). lia.
Qed.
End Hash.
