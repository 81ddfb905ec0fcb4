(** The T-tree index: the chain of nodes. *)
From Coq Require Import List ZArith Bool Lia.
From Verif Require Import TtModel TtSpec TtProof.
Import ListNotations.
Open Scope Z_scope.

Fixpoint chn (pr su : Z -> Z) (p : Z) (l : list Z) (nx : Z) : Prop :=
  match l with
  | [] => True
  | i :: l => pr i = p /\ su i = hd nx l /\ chn pr su i l nx
  end.
Lemma last_hd (B : list Z) : forall i d, last (i :: B) d = last B i.
Proof. induction B as [|b B IH]; intros i d; [reflexivity|]. change (last (i :: b :: B) d) with (last (b :: B) d). now rewrite (IH b d), (IH b i). Qed.
Lemma chn_app pr su A B : forall p nx, chn pr su p (A ++ B) nx <-> chn pr su p A (hd nx B) /\ chn pr su (last A p) B nx.
Proof.
  induction A as [|a A IH]; intros p nx; [cbn; tauto|]. cbn [chn List.app]. rewrite IH.
  assert (hd nx (A ++ B) = hd (hd nx B) A) as -> by (destruct A; reflexivity).
  rewrite last_hd.
  tauto.
Qed.
Lemma chn_ext pr su pr' su' l : forall p nx, (forall i, In i l -> pr' i = pr i) -> (forall i, In i l -> su' i = su i) -> chn pr su p l nx -> chn pr' su' p l nx.
Proof.
  induction l as [|a l IH]; intros p nx H1 H2 H; [exact I|]. cbn [chn] in *. rewrite H1, H2 by (now left). destruct H as (A & B & C).
  split; [exact A|]. split; [exact B|]. apply IH; auto; intros; [apply H1|apply H2]; now right.
Qed.
Lemma upd1_eq f a v : upd1 f a v a = v.
Proof. unfold upd1. now rewrite Z.eqb_refl. Qed.
Lemma upd1_ne f a v x : x <> a -> upd1 f a v x = f x.
Proof. intro H. unfold upd1. destruct (Z.eqb_spec x a); [contradiction|reflexivity]. Qed.
Lemma last_cons_d (A : list Z) : A <> [] -> forall p q, last A p = last A q.
Proof. induction A as [|a A IH]; intros H p q; [contradiction|]. destruct A; [reflexivity|]. cbn [last]. apply IH. discriminate. Qed.

Section C.
Context {K : Type}.
Implicit Type x : ix K.
Definition chain (l : list Z) (x : ix K) : Prop :=
  chn (pred x) (succ x) 0 l 0 /\ minp x = hd 0 l /\ maxp x = last l 0.
Lemma chain_tree t l x : chain l (with_tree K t x) <-> chain l x.
Proof. reflexivity. Qed.
Lemma chain_pred A i B x : chain (A ++ i :: B) x -> pred x i = last A 0 /\ succ x i = hd 0 B.
Proof. intros [H _]. apply chn_app in H. cbn in H. tauto. Qed.
Lemma last_mid (A : list Z) i B d : last (A ++ i :: B) d = last B i.
Proof.
  induction A as [|a A IH]; cbn [List.app]; [apply last_hd|]. rewrite last_hd. destruct A as [|a2 A]; [cbn [List.app]; apply last_hd|]. cbn [List.app] in *. rewrite last_hd in *. exact IH.
Qed.
Lemma last_snoc (A : list Z) z d : last (A ++ [z]) d = z.
Proof. rewrite last_mid. reflexivity. Qed.
Lemma hd_mid (A : list Z) i B d : hd d (A ++ i :: B) = hd i A.
Proof. destruct A; reflexivity. Qed.
Lemma nd_mid (A : list Z) i B : NoDup (A ++ i :: B) -> ~ In i A /\ ~ In i B /\ NoDup (A ++ B) /\ (forall j, In j A -> ~ In j B).
Proof.
  intro H. pose proof (NoDup_remove_2 _ _ _ H) as H2. apply NoDup_remove_1 in H. rewrite in_app_iff in H2. split; [tauto|]. split; [tauto|]. split; [exact H|].
  clear H2. induction A as [|a A IH]; intros j Hj; [destruct Hj|]. cbn in H. inversion H as [|? ? Ha Hl]; subst. rewrite in_app_iff in Ha. destruct Hj as [->|Hj]; [tauto|]. now apply IH.
Qed.

Lemma link_before_ok A b B f x : NoDup (A ++ b :: B) -> ~ In 0 (A ++ b :: B) -> f <> 0 -> ~ In f (A ++ b :: B) ->
  chain (A ++ b :: B) x -> chain (A ++ f :: b :: B) (link_before K b f x).
Proof.
  intros Hn H0 Hf0 Hf Hc. destruct (chain_pred _ _ _ _ Hc) as [Hp Hs]. destruct (nd_mid _ _ _ Hn) as (NA & NB & Hn2 & Hd).
  rewrite in_app_iff in Hf, H0. cbn [In] in Hf, H0. destruct Hc as (Hc & Hmin & Hmax). apply chn_app in Hc. destruct Hc as [Hc1 Hc2].
  cbn [chn hd] in Hc1, Hc2. destruct Hc2 as (C1 & C2 & C3).
  assert (Hbf : b <> f) by tauto.
  destruct A as [|a0 A0] using rev_ind; [|clear IHA0].
  - cbn [last] in Hp. unfold link_before, chain. rewrite Hp. cbn [Z.eqb pred succ minp maxp List.app chn hd].
    split; [|split; [reflexivity|]].
    + rewrite upd1_ne by congruence. rewrite !upd1_eq. split; [reflexivity|]. split; [reflexivity|]. split; [reflexivity|].
      rewrite upd1_ne by congruence. split; [exact C2|]. apply (chn_ext (pred x) (succ x)); [| |exact C3].
      * intros i Hi. rewrite !upd1_ne; [reflexivity| |]; intros ->; tauto.
      * intros i Hi. rewrite !upd1_ne; [reflexivity|]; intros ->; tauto.
    + rewrite Hmax. rewrite (last_mid [] b B), (last_mid [f] b B). reflexivity.
  - rewrite last_snoc in Hp. assert (Ha0 : a0 <> 0) by (intros ->; apply H0; left; apply in_elt).
    unfold link_before, chain. rewrite Hp. destruct (Z.eqb_spec a0 0); [contradiction|]. cbn [pred succ minp maxp].
    assert (Haf : a0 <> f) by (intros ->; apply Hf; left; apply in_elt). assert (Hab : a0 <> b) by (intros ->; apply NA; apply in_elt).
    split; [|split].
    + apply chn_app. cbn [hd chn]. rewrite last_snoc. split.
      * apply chn_app in Hc1. cbn [hd chn] in Hc1. destruct Hc1 as (D1 & D2 & D3 & _). apply chn_app. cbn [hd chn]. split; [|split; [|split; [|exact I]]].
        -- apply (chn_ext (pred x) (succ x)); [| |exact D1].
           ++ intros i Hi. rewrite !upd1_ne; [reflexivity| |]; intros ->; [apply Hf|apply NA]; rewrite ?in_app_iff; auto.
           ++ intros i Hi. rewrite !upd1_ne; [reflexivity| |]; intros ->.
              ** apply Hf. rewrite ?in_app_iff; auto.
              ** rewrite <- app_assoc in Hn. cbn in Hn. apply nd_mid in Hn. tauto.
        -- rewrite !upd1_ne by assumption. exact D2.
        -- rewrite upd1_eq. reflexivity.
      * rewrite upd1_ne by congruence. rewrite !upd1_eq. split; [reflexivity|]. split; [rewrite upd1_ne by congruence; apply upd1_eq|]. split; [reflexivity|].
        rewrite !upd1_ne by congruence. split; [exact C2|]. apply (chn_ext (pred x) (succ x)); [| |exact C3].
        -- intros i Hi. rewrite !upd1_ne; [reflexivity| |]; intros ->; tauto.
        -- intros i Hi. rewrite !upd1_ne; [reflexivity| |]; intros ->; [tauto|]. apply (Hd a0); [apply in_elt|exact Hi].
    + rewrite Hmin, !hd_mid. destruct A0; reflexivity.
    + rewrite Hmax, !last_mid, last_hd. reflexivity.
Qed.
Lemma link_after_ok A b B f x : NoDup (A ++ b :: B) -> ~ In 0 (A ++ b :: B) -> f <> 0 -> ~ In f (A ++ b :: B) ->
  chain (A ++ b :: B) x -> chain (A ++ b :: f :: B) (link_after K b f x).
Proof.
  intros Hn H0 Hf0 Hf Hc. destruct (chain_pred _ _ _ _ Hc) as [Hp Hs]. destruct (nd_mid _ _ _ Hn) as (NA & NB & Hn2 & Hd).
  rewrite in_app_iff in Hf, H0. cbn [In] in Hf, H0. destruct Hc as (Hc & Hmin & Hmax). apply chn_app in Hc. destruct Hc as [Hc1 Hc2].
  cbn [chn hd] in Hc1, Hc2. destruct Hc2 as (C1 & C2 & C3).
  assert (Hbf : b <> f) by tauto.
  destruct B as [|b0 B0].
  - cbn [hd] in Hs. unfold link_after, chain. rewrite Hs. cbn [Z.eqb pred succ minp maxp].
    split; [|split].
    + apply chn_app. cbn [hd chn]. split; [|split; [|split; [|split; [|split; [|exact I]]]]].
      * apply (chn_ext (pred x) (succ x)); [| |exact Hc1].
        -- intros i Hi. rewrite !upd1_ne; [reflexivity|]; intros ->; tauto.
        -- intros i Hi. rewrite !upd1_ne; [reflexivity| |]; intros ->; tauto.
      * rewrite upd1_ne by congruence. exact C1.
      * apply upd1_eq.
      * apply upd1_eq.
      * rewrite upd1_ne by congruence. apply upd1_eq.
    + rewrite Hmin, !hd_mid. reflexivity.
    + rewrite !last_mid. reflexivity.
  - cbn [hd] in Hs. cbn [In] in *. assert (Hb0 : b0 <> 0) by tauto. unfold link_after, chain. rewrite Hs. destruct (Z.eqb_spec b0 0); [contradiction|]. cbn [pred succ minp maxp].
    assert (b0 <> f) by tauto. assert (b0 <> b) by tauto. cbn [chn] in C3. destruct C3 as (D1 & D2 & D3).
    assert (NB0 : ~ In b0 B0). { change (A ++ b :: b0 :: B0) with (A ++ [b] ++ b0 :: B0) in Hn. rewrite app_assoc in Hn. apply nd_mid in Hn. tauto. }
    assert (NA0 : ~ In b0 A) by (intro Q; apply (Hd b0 Q); now left).
    split; [|split].
    + apply chn_app. cbn [hd chn]. split; [|split; [|split; [|split; [|split; [|split; [|split]]]]]].
      * apply (chn_ext (pred x) (succ x)); [| |exact Hc1].
        -- intros i Hi. rewrite !upd1_ne; [reflexivity| |]; intros ->; tauto.
        -- intros i Hi. rewrite !upd1_ne; [reflexivity| |]; intros ->; tauto.
      * rewrite !upd1_ne by congruence. exact C1.
      * apply upd1_eq.
      * rewrite upd1_ne by congruence. apply upd1_eq.
      * rewrite upd1_ne by congruence. apply upd1_eq.
      * apply upd1_eq.
      * rewrite !upd1_ne by congruence. exact D2.
      * apply (chn_ext (pred x) (succ x)); [| |exact D3].
        -- intros i Hi. rewrite !upd1_ne; [reflexivity| |]; intros ->; tauto.
        -- intros i Hi. rewrite !upd1_ne; [reflexivity| |]; intros ->; tauto.
    + rewrite Hmin, !hd_mid. reflexivity.
    + rewrite Hmax, !last_mid. rewrite (last_mid [] b0 B0), (last_mid [f] b0 B0). reflexivity.
Qed.
Lemma unlink_ok A b B x : NoDup (A ++ b :: B) -> ~ In 0 (A ++ b :: B) -> chain (A ++ b :: B) x -> chain (A ++ B) (unlink K b x).
Proof.
  intros Hn H0 Hc. destruct (chain_pred _ _ _ _ Hc) as [Hp Hs]. destruct (nd_mid _ _ _ Hn) as (NA & NB & Hn2 & Hd).
  rewrite in_app_iff in H0. cbn [In] in H0. destruct Hc as (Hc & Hmin & Hmax). apply chn_app in Hc. destruct Hc as [Hc1 Hc2].
  cbn [chn hd] in Hc1, Hc2. destruct Hc2 as (C1 & C2 & C3). rewrite hd_mid in Hmin. rewrite last_mid in Hmax.
  unfold unlink, chain. cbn [pred succ minp maxp]. rewrite Hs, Hp.
  assert (EB : hd 0 B = 0 -> B = []). { destruct B; [reflexivity|]. cbn. intros ->. cbn in H0. tauto. }
  assert (EA : last A 0 = 0 -> A = []). { destruct A as [|a A _] using rev_ind; [reflexivity|]. rewrite last_snoc. intros ->. exfalso. apply H0. left. apply in_elt. }
  split; [|split].
  - apply chn_app. split.
    + destruct A as [|a A] using rev_ind; [exact I|clear IHA]. rewrite last_snoc in *. 
      assert (a <> 0) by (intros ->; apply H0; left; apply in_elt). destruct (Z.eqb_spec a 0); [contradiction|].
      rewrite <- app_assoc in Hn. cbn [List.app] in Hn. destruct (nd_mid _ _ _ Hn) as (Na & Na2 & _).
      assert (Hpr : forall i, In i (A ++ [a]) -> (if hd 0 B =? 0 then pred x else upd1 (pred x) (hd 0 B) a) i = pred x i).
      { intros i Hi. destruct (Z.eqb_spec (hd 0 B) 0); [reflexivity|]. apply upd1_ne. intros ->. apply (Hd (hd 0 B) Hi). destruct B; [contradiction|now left]. }
      apply chn_app in Hc1. cbn [chn hd] in Hc1. destruct Hc1 as (D1 & D2 & D3 & _). apply chn_app. cbn [chn hd]. split; [|split; [|split; [|exact I]]].
      * apply (chn_ext (pred x) (succ x)); [| |exact D1].
        -- intros i Hi. apply Hpr. apply in_app_iff. auto.
        -- intros i Hi. apply upd1_ne. intros ->. tauto.
      * rewrite Hpr by apply in_elt. exact D2.
      * apply upd1_eq.
    + destruct B as [|b0 B0]; [exact I|]. cbn [hd chn] in *. cbn [In] in H0. destruct (Z.eqb_spec b0 0); [tauto|]. destruct C3 as (D1 & D2 & D3).
      assert (NB0 : ~ In b0 B0). { change (A ++ b :: b0 :: B0) with (A ++ [b] ++ b0 :: B0) in Hn. rewrite app_assoc in Hn. apply nd_mid in Hn. tauto. }
      assert (Hsu : forall i, In i (b0 :: B0) -> (if last A 0 =? 0 then succ x else upd1 (succ x) (last A 0) b0) i = succ x i).
      { intros i Hi. destruct (Z.eqb_spec (last A 0) 0); [reflexivity|]. apply upd1_ne. intros ->. apply (Hd (last A 0)); [|exact Hi].
        destruct A as [|a A _] using rev_ind; [contradiction|]. rewrite last_snoc. apply in_elt. }
      rewrite upd1_eq, Hsu by (now left). split; [reflexivity|]. split; [exact D2|].
      apply (chn_ext (pred x) (succ x)); [| |exact D3].
      * intros i Hi. apply upd1_ne. intros ->. tauto.
      * intros i Hi. apply Hsu. now right.
  - destruct (Z.eqb_spec (last A 0) 0) as [e|]; [rewrite (EA e); reflexivity|]. destruct A; [contradiction|]. exact Hmin.
  - destruct (Z.eqb_spec (hd 0 B) 0) as [e|]; [rewrite (EB e), app_nil_r; reflexivity|]. destruct B as [|b0 B]; [contradiction|]. rewrite Hmax, last_mid.
    apply (last_mid [] b0 B).
Qed.

(* ---- the chain in the words of the specification ---- *)
Lemma chn_succ pr su l : forall p, chn pr su p l 0 -> follows su (hd 0 l) l.
Proof. induction l as [|a l IH]; intros p H; [reflexivity|]. cbn in *. destruct H as (_ & H2 & H3). split; [reflexivity|]. rewrite H2. eapply IH. exact H3. Qed.
Lemma chn_pred pr su l : forall nx, chn pr su 0 l nx -> follows pr (last l 0) (rev l).
Proof.
  induction l as [|a l IH] using rev_ind; intros nx H; [reflexivity|]. rewrite rev_app_distr, last_snoc. cbn. split; [reflexivity|].
  apply chn_app in H. cbn in H. destruct H as (H1 & H2 & _). rewrite H2. eapply IH. exact H1.
Qed.
Lemma chain_linked x : chain (ids (tr x)) x -> linked x.
Proof.
  intros (H & H1 & H2). unfold linked. rewrite nodes_ids, H1, H2. split; [eapply chn_succ; exact H|eapply chn_pred; exact H].
Qed.
End C.
