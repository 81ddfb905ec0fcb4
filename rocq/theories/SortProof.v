(** Clause sorting permutes the literals and orders them by fingerprint. *)
From Coq Require Import List ZArith Bool Lia Permutation Sorting.Sorted.
From Coq Require Import ZifyBool.
From Verif Require Import Terms MetaModel.
Import ListNotations.
Open Scope Z_scope.

(** [b] may come after [a]: its fingerprint is not bigger. *)
Definition ord_ok (a b : mlit) : Prop := sort_meta_bigger (fst b) (fst a) = false.

Lemma bigger_negtrans a b c :
  sort_meta_bigger b a = false -> sort_meta_bigger c b = false -> sort_meta_bigger c a = false.
Proof.
  unfold sort_meta_bigger. destruct (meta_is_ground a), (meta_is_ground b), (meta_is_ground c); try congruence; lia.
Qed.

Lemma ord_trans a b c : ord_ok a b -> ord_ok b c -> ord_ok a c.
Proof. unfold ord_ok. intros. eapply bigger_negtrans; eauto. Qed.

Lemma sort2_yes lex y x : sort_2_meta_bigger lex y x = true -> ord_ok y x.
Proof.
  destruct y as [jm ja], x as [im ia]. unfold sort_2_meta_bigger, ord_ok, sort_meta_bigger; simpl.
  destruct (meta_is_ground jm), (meta_is_ground im); auto; try congruence.
  - destruct (im <? jm) eqn:E1; [lia|]. destruct (jm <? im) eqn:E2; [discriminate|auto].
  - destruct (Z.land im cansubs_raw <? Z.land jm cansubs_raw) eqn:E1; [lia|].
    destruct (Z.land jm cansubs_raw <? Z.land im cansubs_raw) eqn:E2; [discriminate|auto].
Qed.
Lemma sort2_no lex y x : sort_2_meta_bigger lex y x = false -> ord_ok x y.
Proof.
  destruct y as [jm ja], x as [im ia]. unfold sort_2_meta_bigger, ord_ok, sort_meta_bigger; simpl.
  destruct (meta_is_ground jm), (meta_is_ground im); auto; try congruence.
  - destruct (im <? jm) eqn:E1; [discriminate|auto].
  - destruct (Z.land im cansubs_raw <? Z.land jm cansubs_raw) eqn:E1; [discriminate|auto].
Qed.

Lemma nth_error_mid {A} (l1 : list A) x l2 : nth_error (l1 ++ x :: l2) (length l1) = Some x.
Proof. rewrite nth_error_app2, Nat.sub_diag by lia. reflexivity. Qed.
Lemma upd_mid l1 (x y : mlit) l2 : upd (length l1) x (l1 ++ y :: l2) = l1 ++ x :: l2.
Proof. induction l1; simpl; congruence. Qed.

Lemma ss_app_inv (R : mlit -> mlit -> Prop) l1 l2 : StronglySorted R (l1 ++ l2) ->
  StronglySorted R l1 /\ StronglySorted R l2 /\ forall a b, In a l1 -> In b l2 -> R a b.
Proof.
  induction l1 as [|a l1 IH]; simpl; intros H; [repeat split; auto; [constructor|contradiction]|].
  inversion H as [|a' l' H1 H2]; subst. destruct (IH H1) as (A&B&C). rewrite Forall_forall in H2.
  repeat split; auto.
  - constructor; auto. apply Forall_forall. intros; apply H2, in_or_app; auto.
  - intros a0 b [<-|Ha] Hb; auto. apply H2, in_or_app; auto.
Qed.
Lemma ss_app_intro (R : mlit -> mlit -> Prop) l1 l2 : StronglySorted R l1 -> StronglySorted R l2 ->
  (forall a b, In a l1 -> In b l2 -> R a b) -> StronglySorted R (l1 ++ l2).
Proof.
  induction l1 as [|a l1 IH]; simpl; intros H1 H2 H; auto.
  inversion H1 as [|a' l' A B]; subst. constructor; [apply IH; auto|].
  apply Forall_app. split; auto. apply Forall_forall. auto.
Qed.

Section S.
  Variable lex : term -> term -> Z.

  Lemma ins_down_ok x : forall pre z post,
    exists res, ins_down lex (length pre) x (pre ++ z :: post) = res ++ post /\
      Permutation (x :: pre) res /\
      (StronglySorted ord_ok pre -> StronglySorted ord_ok res).
  Proof.
    induction pre as [|y pre IH] using rev_ind; intros z post.
    - exists [x]. simpl. repeat split; auto. intros _. repeat constructor.
    - rewrite app_length, Nat.add_comm. cbn [ins_down length Nat.add].
      rewrite <- app_assoc. cbn [List.app]. rewrite nth_error_mid.
      destruct (sort_2_meta_bigger lex y x) eqn:E.
      + exists (pre ++ [y; x]). split; [|split].
        * rewrite <- app_assoc. cbn [List.app]. change (S (length pre)) with (1 + length pre)%nat.
          rewrite Nat.add_comm. replace (length pre + 1)%nat with (length (pre ++ [y])) by (rewrite app_length; reflexivity).
          replace (pre ++ y :: z :: post) with ((pre ++ [y]) ++ z :: post) by (rewrite <- app_assoc; reflexivity).
          rewrite upd_mid, <- app_assoc. reflexivity.
        * apply Permutation_trans with (x :: y :: pre).
          -- constructor. apply Permutation_sym, Permutation_cons_append.
          -- apply Permutation_sym. apply Permutation_trans with ([y; x] ++ pre); [apply Permutation_app_comm|constructor].
        * intros Hs. replace (pre ++ [y; x]) with ((pre ++ [y]) ++ [x]) by (rewrite <- app_assoc; reflexivity).
          apply ss_app_intro; auto; [repeat constructor|].
          intros a b Ha [<-|[]]. apply sort2_yes in E.
          apply in_app_or in Ha as [Ha|[<-|[]]]; auto.
          apply ord_trans with y; auto. apply ss_app_inv in Hs as (_&_&H). apply H; simpl; auto.
      + change (S (length pre)) with (1 + length pre)%nat. rewrite Nat.add_comm.
        replace (length pre + 1)%nat with (length (pre ++ [y])) by (rewrite app_length; reflexivity).
        replace (pre ++ y :: z :: post) with ((pre ++ [y]) ++ z :: post) by (rewrite <- app_assoc; reflexivity).
        rewrite upd_mid, <- app_assoc. cbn [List.app].
        destruct (IH y (y :: post)) as (res&E1&E2&E3). exists (res ++ [y]). split; [|split].
        * rewrite E1, <- app_assoc. reflexivity.
        * apply Permutation_trans with ((x :: pre) ++ [y]); [reflexivity|]. apply Permutation_app_tail; auto.
        * intros Hs. apply ss_app_inv in Hs as (H1&_&H3). apply ss_app_intro; auto; [repeat constructor|].
          intros a b Ha [<-|[]]. apply (Permutation_in _ (Permutation_sym E2)) in Ha.
          destruct Ha as [<-|Ha]; [eapply sort2_no; eauto|apply H3; simpl; auto].
  Qed.

  Lemma inssort_ok : forall n pre rest, n = length rest -> StronglySorted ord_ok pre ->
    Permutation (pre ++ rest) (inssort lex n (length pre) (pre ++ rest)) /\
    StronglySorted ord_ok (inssort lex n (length pre) (pre ++ rest)).
  Proof.
    induction n as [|n IH]; intros pre [|x rest] Hn Hs; try discriminate; cbn [inssort].
    - rewrite app_nil_r. auto.
    - rewrite nth_error_mid. destruct (ins_down_ok x pre x rest) as (res&E1&E2&E3). rewrite E1.
      assert (Hl : S (length pre) = length res) by (apply Permutation_length in E2; auto).
      rewrite Hl. destruct (IH res rest) as [A B]; [injection Hn; auto|auto|]. split; auto.
      eapply Permutation_trans; [|exact A]. eapply Permutation_trans; [|apply Permutation_app_tail; exact E2].
      simpl. apply Permutation_sym, Permutation_middle.
  Qed.

  Lemma sort_cl_ok l : Permutation l (sort_cl lex l) /\ StronglySorted ord_ok (sort_cl lex l).
  Proof.
    unfold sort_cl. destruct (Nat.ltb_spec (length l) 2) as [H|H].
    - split; auto. destruct l as [|a [|b l]]; [constructor|repeat constructor|simpl in H; lia].
    - destruct l as [|a l]; [simpl in H; lia|]. apply (inssort_ok (length (a :: l) - 1) [a] l); [simpl; lia|repeat constructor].
  Qed.
End S.
