(** The range of a query in a T-tree index. *)
From Coq Require Import List ZArith Bool Lia Sorted Permutation.
From Verif Require Import TtModel TtSpec TtProof TtShape TtChain TtSeek TtAdd QyModel.
Import ListNotations.
Open Scope Z_scope.

Lemma mid_cases {A} (a a2 : list A) c c2 b b2 : a ++ c :: b = a2 ++ c2 :: b2 ->
  (a = a2 /\ c = c2 /\ b = b2) \/ (exists z, a2 = a ++ c :: z /\ b = z ++ c2 :: b2) \/ (exists z, a = a2 ++ c2 :: z /\ b2 = z ++ c :: b).
Proof.
  revert a2. induction a as [|x a IH]; intros [|y a2]; cbn [List.app]; intro H; injection H as <- H.
  - auto.
  - right; left. exists a2. auto.
  - right; right. exists a. auto.
  - destruct (IH a2 H) as [(-> & -> & ->)|[(z & -> & ->)|(z & -> & ->)]]; [auto|right; left; eauto|right; right; eauto].
Qed.
Lemma prefix_cases {A} (a b c d : list A) : a ++ b = c ++ d -> (exists m, c = a ++ m /\ b = m ++ d) \/ (exists e m, a = c ++ e :: m /\ d = e :: m ++ b).
Proof.
  revert c. induction a as [|e a IH]; intros [|f c]; cbn [List.app]; intro H.
  - left. exists []. auto.
  - left. exists (f :: c). auto.
  - right. exists e, a. auto.
  - injection H as <- H. destruct (IH c H) as [(m & -> & ->)|(g & m & -> & ->)]; [left; eauto|right; eauto].
Qed.
Lemma hd_or {A} (l : list A) : l = [] \/ exists a m, l = a :: m.
Proof. destruct l; eauto. Qed.
Lemma last_or {A} (l : list A) : l = [] \/ exists m a, l = m ++ [a].
Proof. induction l using rev_ind; eauto. Qed.

Section T.
Context {K : Type}.
Variable cmp : K -> K -> comparison.
Variable key : Z -> K.
Hypothesis TO : total_order cmp.
Notation srt := (sorted cmp key).
Notation wfc := (wfc key). Notation below := (below cmp). Notation above := (above cmp).
Implicit Types (c d : cell K) (A B C : list (cell K)).

Definition in_start (b : option K) (incl : bool) (e : Z) : Prop :=
  match b with None => True | Some k => if incl then cmp (key e) k <> Lt else cmp (key e) k = Gt end.
Definition in_end (b : option K) (incl : bool) (e : Z) : Prop :=
  match b with None => True | Some k => if incl then cmp (key e) k <> Gt else cmp (key e) k = Lt end.
Lemma in_start_up b incl a e : cmp (key a) (key e) <> Gt -> in_start b incl a -> in_start b incl e.
Proof.
  unfold in_start. destruct b as [k|]; [|auto]. intros H Ha. destruct incl.
  - intro Q. apply Ha. eapply le_lt_trans; eauto.
  - apply (gt_lt cmp TO). apply (gt_lt cmp TO) in Ha. eapply lt_le_trans; eauto.
Qed.
Lemma in_end_down b incl a e : cmp (key e) (key a) <> Gt -> in_end b incl a -> in_end b incl e.
Proof.
  unfold in_end. destruct b as [k|]; [|auto]. intros H Ha. destruct incl.
  - eapply c_trans; eauto.
  - eapply le_lt_trans; eauto.
Qed.
(* all rows after a row in range are in range *)
Lemma up_all b incl a l : srt (a :: l) -> in_start b incl a -> Forall (in_start b incl) (a :: l).
Proof.
  intros S1 Ha. constructor; [exact Ha|]. apply StronglySorted_inv in S1. destruct S1 as [_ S1]. eapply Forall_impl; [|exact S1].
  intros e He. eapply in_start_up; eauto.
Qed.
Lemma out_start b incl l a : srt (l ++ [a]) -> ~ in_start b incl a -> Forall (fun e => ~ in_start b incl e) (l ++ [a]).
Proof.
  intros S1 Ha. apply Forall_app. split; [|constructor; auto]. apply srt_app in S1. destruct S1 as (_ & _ & S1). apply Forall_forall. intros e He Q. apply Ha.
  eapply in_start_up; [|exact Q]. apply S1; [exact He|now left].
Qed.
Lemma down_all b incl l a : srt (l ++ [a]) -> in_end b incl a -> Forall (in_end b incl) (l ++ [a]).
Proof.
  intros S1 Ha. apply Forall_app. split; [|constructor; auto]. apply srt_app in S1. destruct S1 as (_ & _ & S1). apply Forall_forall. intros e He.
  eapply in_end_down; [|exact Ha]. apply S1; [exact He|now left].
Qed.
Lemma out_end b incl a l : srt (a :: l) -> ~ in_end b incl a -> Forall (fun e => ~ in_end b incl e) (a :: l).
Proof.
  intros S1 Ha. constructor; [exact Ha|]. apply StronglySorted_inv in S1. destruct S1 as [_ S1]. eapply Forall_impl; [|exact S1].
  cbn. intros e He Q. apply Ha. eapply in_end_down; eauto.
Qed.

(* ---- slots ---- *)
Lemma slot_first_ok k l : forall i, 0 <= i -> exists P Q, l = P ++ Q /\ Forall (fun e => cmp (key e) k = Lt) P /\
  ((Q = [] /\ slot_first K cmp key k l i = -1) \/
   (exists q Q', Q = q :: Q' /\ cmp (key q) k <> Lt /\ slot_first K cmp key k l i = i + Z.of_nat (length P))).
Proof.
  induction l as [|e l IH]; intros i Hi; cbn [slot_first].
  - exists [], []. split; [reflexivity|]. split; [constructor|]. auto.
  - destruct (is_lt (cmp (key e) k)) eqn:El.
    + apply lt_true in El. destruct (IH (i + 1) ltac:(lia)) as (P & Q & -> & HP & H). exists (e :: P), Q. split; [reflexivity|]. split; [now constructor|].
      destruct H as [H|(q & Q' & H1 & H2 & H3)]; [auto|right]. exists q, Q'. split; [exact H1|]. split; [exact H2|]. rewrite H3. cbn [length]. lia.
    + exists [], (e :: l). split; [reflexivity|]. split; [constructor|]. right. exists e, l. split; [reflexivity|]. split; [intro Q; rewrite Q in El; discriminate|]. cbn. lia.
Qed.
Lemma slot_last_gt k l : forall i res, Forall (fun e => cmp (key e) k = Gt) l -> slot_last K cmp key k l i res = res.
Proof. induction l as [|e l IH]; intros i res H; [reflexivity|]. inversion_clear H as [|? ? H1 H2]. cbn [slot_last]. rewrite H1. cbn. now apply IH. Qed.
Lemma slot_last_ok k l : srt l -> forall i res, exists P Q, l = P ++ Q /\ Forall (fun e => cmp (key e) k <> Gt) P /\ Forall (fun e => cmp (key e) k = Gt) Q /\
  slot_last K cmp key k l i res = (if Nat.eqb (length P) 0 then res else i + Z.of_nat (length P) - 1).
Proof.
  induction l as [|e l IH]; intros S1 i res; cbn [slot_last].
  - exists [], []. repeat split; constructor.
  - pose proof S1 as S0. apply StronglySorted_inv in S1. destruct S1 as [S1 S2]. destruct (is_gt (cmp (key e) k)) eqn:Eg.
    + apply gt_true in Eg. assert (HG : Forall (fun e => cmp (key e) k = Gt) l).
      { eapply Forall_impl; [|exact S2]. cbn. intros a Ha. apply (gt_lt cmp TO). eapply lt_le_trans; [exact TO|apply (gt_lt cmp TO); exact Eg|exact Ha]. }
      exists [], (e :: l). split; [reflexivity|]. split; [constructor|]. split; [now constructor|]. cbn. now apply slot_last_gt.
    + destruct (IH S1 (i + 1) i) as (P & Q & -> & HP & HQ & H). exists (e :: P), Q. split; [reflexivity|].
      split; [constructor; [intro Q1; rewrite Q1 in Eg; discriminate|exact HP]|]. split; [exact HQ|]. rewrite H. cbn [length Nat.eqb].
      destruct P as [|p P]; cbn [length Nat.eqb]; lia.
Qed.

(* ---- positions ---- *)
Definition at_start C (L R : list Z) (co cs : Z) : Prop :=
  (R = [] /\ co = 0) \/
  exists A c B P Q, C = A ++ c :: B /\ els c = P ++ Q /\ Q <> [] /\ L = flat A ++ P /\ R = Q ++ flat B /\ co = cid c /\ cs = Z.of_nat (length P).
Definition at_end C (L R : list Z) (eo es : Z) : Prop :=
  (L = [] /\ eo = 0) \/
  exists A c B P Q, C = A ++ c :: B /\ els c = P ++ Q /\ P <> [] /\ L = flat A ++ P /\ R = Q ++ flat B /\ eo = cid c /\ es = Z.of_nat (length P) - 1.

Variable x : ix K.
Hypothesis Hinv : inv cmp key x.
Notation C := (cells (tr x)).
Hypothesis Hwf : Forall wfc C.
Lemma srtC : srt (flat C). Proof. apply Hinv. Qed.
Lemma neC : tr x <> E. Proof. destruct (i_shape _ _ _ Hinv) as [(c & -> & _)|[H _]]; [discriminate|exact H]. Qed.
Lemma wf_of c : In c C -> wfc c. Proof. rewrite Forall_forall in Hwf. apply Hwf. Qed.
Lemma node_ok A c B : C = A ++ c :: B -> node_at K x (cid c) = Some c.
Proof.
  intro H. unfold node_at. destruct (find_cell c (tr x)) as (lh & rh & l & r & ->); [apply Hinv|rewrite H; apply in_elt|reflexivity].
Qed.
Lemma neigh A c B : C = A ++ c :: B -> pred x (cid c) = last (map cid A) 0 /\ succ x (cid c) = hd 0 (map cid B).
Proof. intro H. pose proof (i_chain _ _ _ Hinv) as Hc. unfold ids in Hc. rewrite H, map_app in Hc. cbn in Hc. now apply chain_pred in Hc. Qed.
Lemma cid_ne0 c : In c C -> cid c <> 0.
Proof. intros H Q. apply (i_0 _ _ _ Hinv). unfold ids. rewrite <- Q. now apply in_map. Qed.
Lemma in_mid A c B : C = A ++ c :: B -> In c C. Proof. intros ->. apply in_elt. Qed.
Lemma seg A c B : C = A ++ c :: B -> srt (els c) /\ srt (flat A ++ els c) /\ srt (els c ++ flat B).
Proof.
  intro H. pose proof srtC as S0. rewrite H, flat_app, flat_cons in S0. pose proof S0 as S1. apply srt_app in S1. destruct S1 as (S1 & S2 & S3).
  pose proof S2 as S4. apply srt_app in S4. destruct S4 as (S4 & S5 & S6). split; [exact S4|]. split; [|exact S2].
  apply srt_app. split; [exact S1|]. split; [exact S4|]. intros a b Ha Hb. apply S3; [exact Ha|]. apply in_app_iff. now left.
Qed.
(* moving to the next or the last node *)
Lemma next_start A c B L R : C = A ++ c :: B -> L = flat A ++ els c -> R = flat B -> at_start C L R (succ x (cid c)) 0.
Proof.
  intros H -> ->. destruct (neigh _ _ _ H) as [_ ->]. destruct B as [|d B]; [left; auto|right].
  exists (A ++ [c]), d, B, [], (els d). assert (H2 : C = (A ++ [c]) ++ d :: B) by (rewrite H, <- app_assoc; reflexivity).
  split; [exact H2|]. split; [reflexivity|]. split; [apply (w_ne key d); eapply wf_of; eapply in_mid; exact H2|]. rewrite flat_app, flat_cons, app_nil_r. cbn. rewrite !app_nil_r. auto.
Qed.
Lemma here_start A c B : C = A ++ c :: B -> at_start C (flat A) (flat (c :: B)) (cid c) 0.
Proof.
  intro H. right. exists A, c, B, [], (els c). split; [exact H|]. split; [reflexivity|]. split; [apply (w_ne key c); eapply wf_of; eapply in_mid; exact H|].
  rewrite app_nil_r. auto.
Qed.
Lemma here_end A c B : C = A ++ c :: B -> exists es, last_slot K x (cid c) = Some (Some (cid c, es)) /\ at_end C (flat A ++ els c) (flat B) (cid c) es.
Proof.
  intro H. unfold last_slot. pose proof (cid_ne0 c (in_mid _ _ _ H)) as H0. destruct (Z.eqb_spec (cid c) 0); [contradiction|]. rewrite (node_ok _ _ _ H).
  eexists. split; [reflexivity|]. right. exists A, c, B, (els c), []. rewrite app_nil_r. split; [exact H|]. split; [reflexivity|].
  split; [apply (w_ne key c); eapply wf_of; eapply in_mid; exact H|]. unfold size. auto.
Qed.
Lemma prev_end A c B : C = A ++ c :: B -> exists eo es, last_slot K x (pred x (cid c)) = Some (Some (eo, es)) /\ at_end C (flat A) (flat (c :: B)) eo es.
Proof.
  intro H. destruct (neigh _ _ _ H) as [-> _]. destruct (last_or A) as [->|(A' & d & ->)].
  - cbn. exists 0, (-1). split; [reflexivity|left; auto].
  - rewrite map_app. cbn [map]. rewrite last_snoc. assert (H2 : C = A' ++ d :: c :: B) by (rewrite H, <- app_assoc; reflexivity).
    destruct (here_end _ _ _ H2) as (es & E1 & E2). exists (cid d), es. split; [exact E1|]. rewrite flat_app. cbn [flat flat_map]. rewrite app_nil_r. exact E2.
Qed.
Lemma above_out A k : incl A C -> Forall (fun b => above k b = true) A -> Forall (fun e => cmp (key e) k = Lt) (flat A).
Proof.
  intros Hi H. apply Forall_forall. intros e He. apply in_flat in He. destruct He as (c & Hc & He). rewrite Forall_forall in H.
  eapply (above_els cmp key TO); [apply wf_of; apply Hi; exact Hc| |apply H; exact Hc|exact He]. destruct (in_split _ _ (Hi c Hc)) as (a & b & Hs). apply (seg _ _ _ Hs).
Qed.
Lemma below_out B k : incl B C -> Forall (fun b => below k b = true) B -> Forall (fun e => cmp (key e) k = Gt) (flat B).
Proof.
  intros Hi H. apply Forall_forall. intros e He. apply in_flat in He. destruct He as (c & Hc & He). rewrite Forall_forall in H.
  apply (gt_lt cmp TO). eapply (below_els cmp key TO); [apply wf_of; apply Hi; exact Hc| |apply H; exact Hc|exact He]. destruct (in_split _ _ (Hi c Hc)) as (a & b & Hs). apply (seg _ _ _ Hs).
Qed.
Lemma one_above c k : In c C -> above k c = true -> Forall (fun e => cmp (key e) k = Lt) (els c).
Proof. intros Hc H. rewrite <- (app_nil_r (els c)). change (els c ++ []) with (flat [c]). apply above_out; [intros d [<-|[]]; exact Hc|constructor; auto]. Qed.
Lemma one_below c k : In c C -> below k c = true -> Forall (fun e => cmp (key e) k = Gt) (els c).
Proof. intros Hc H. rewrite <- (app_nil_r (els c)). change (els c ++ []) with (flat [c]). apply below_out; [intros d [<-|[]]; exact Hc|constructor; auto]. Qed.
Lemma after_below c B k : srt (els c ++ flat B) -> In c C -> below k c = true -> Forall (fun e => cmp (key e) k = Gt) (els c ++ flat B).
Proof.
  intros S1 Hc H. apply Forall_app. pose proof (one_below c k Hc H) as H1. split; [exact H1|]. destruct (wf_of c Hc) as [W _ _ _]. destruct (els c) as [|m es]; [contradiction|].
  inversion_clear H1 as [|? ? Hm _]. apply srt_app in S1. destruct S1 as (_ & _ & S1). apply Forall_forall. intros e He. apply (gt_lt cmp TO). apply (gt_lt cmp TO) in Hm.
  eapply lt_le_trans; [exact TO|exact Hm|]. apply S1; [now left|exact He].
Qed.
Lemma before_above A c k : srt (flat A ++ els c) -> In c C -> above k c = true -> Forall (fun e => cmp (key e) k = Lt) (flat A ++ els c).
Proof.
  intros S1 Hc H. apply Forall_app. pose proof (one_above c k Hc H) as H1. split; [|exact H1]. destruct (wf_of c Hc) as [W _ _ _]. destruct (exists_last W) as (es & m & Em). rewrite Em in *.
  apply Forall_app in H1. destruct H1 as [_ H1]. inversion_clear H1 as [|? ? Hm _]. apply srt_app in S1. destruct S1 as (_ & _ & S1). apply Forall_forall. intros e He.
  eapply le_lt_trans; [exact TO| |exact Hm]. apply S1; [exact He|]. apply in_elt.
Qed.
Lemma lt_out incl k e : cmp (key e) k = Lt -> ~ in_start (Some k) incl e.
Proof. cbn. intro H. destruct incl; congruence. Qed.
Lemma gt_in incl k e : cmp (key e) k = Gt -> in_start (Some k) incl e.
Proof. cbn. intro H. destruct incl; congruence. Qed.
Lemma lt_in incl k e : cmp (key e) k = Lt -> in_end (Some k) incl e.
Proof. cbn. intro H. destruct incl; congruence. Qed.
Lemma gt_out incl k e : cmp (key e) k = Gt -> ~ in_end (Some k) incl e.
Proof. cbn. intro H. destruct incl; congruence. Qed.

Definition splits (p : Z -> Prop) (first : bool) (L R : list Z) : Prop :=
  flat C = L ++ R /\ (if first then Forall p L else Forall (fun e => ~ p e) L) /\ (if first then Forall (fun e => ~ p e) R else Forall p R).

Lemma left_search k : exists bd A c B, leftmost K cmp k (tr x) None = Some (bd, cid c) /\ C = A ++ c :: B /\ Forall (fun e => cmp (key e) k = Lt) (flat A) /\
    match bd with
    | Bounding => below k c = false /\ above k c = false
    | DeadRight => above k c = true /\ Forall (fun e => cmp (key e) k = Gt) (flat B)
    | DeadLeft => below k c = true
    end.
Proof.
  destruct (shape_sorted cmp key (tr x) (i_shape _ _ _ Hinv) srtC) as (Hne & Smn & Smx).
  destruct (leftmost_ok cmp TO k (tr x) [] [] None Hne (i_nd _ _ _ Hinv) Smx ltac:(auto) ltac:(discriminate) ltac:(constructor)) as (bd & A & c & B & R1 & R2 & R3 & R4).
  cbn [List.app] in R2. rewrite app_nil_r in R2. exists bd, A, c, B. split; [exact R1|]. split; [exact R2|].
  split; [apply above_out; [rewrite R2; apply incl_appl, incl_refl|exact R3]|]. destruct bd; [exact R4|tauto|].
  destruct R4 as [R4 R5]. split; [exact R4|]. destruct R5 as [->|(d & B' & -> & Hd)]; [constructor|].
  assert (H2 : C = (A ++ [c]) ++ d :: B') by (rewrite R2, <- app_assoc; reflexivity). rewrite flat_cons. apply after_below; [apply (seg _ _ _ H2)|eapply in_mid; exact H2|exact Hd].
Qed.
Lemma right_search k : exists bd A c B, rightmost K cmp k (tr x) None = Some (bd, cid c) /\ C = A ++ c :: B /\ Forall (fun e => cmp (key e) k = Gt) (flat B) /\
    match bd with
    | Bounding => below k c = false /\ above k c = false
    | DeadLeft => below k c = true /\ Forall (fun e => cmp (key e) k = Lt) (flat A)
    | DeadRight => above k c = true
    end.
Proof.
  destruct (shape_sorted cmp key (tr x) (i_shape _ _ _ Hinv) srtC) as (Hne & Smn & Smx).
  destruct (rightmost_ok cmp key TO k (tr x) [] [] None Hne (i_nd _ _ _ Hinv) Smn ltac:(auto) ltac:(discriminate) ltac:(constructor)) as (bd & A & c & B & R1 & R2 & R3 & R4).
  cbn [List.app] in R2. rewrite app_nil_r in R2. exists bd, A, c, B. split; [exact R1|]. split; [exact R2|].
  split; [apply below_out; [rewrite R2; apply incl_appr, incl_tl, incl_refl|exact R3]|]. destruct bd; [exact R4| |tauto].
  destruct R4 as (R4 & R5 & _). split; [exact R4|]. destruct R5 as [->|(A' & d & -> & Hd)]; [constructor|].
  assert (H2 : C = A' ++ d :: c :: B) by (rewrite R2, <- app_assoc; reflexivity). rewrite flat_app. cbn [flat flat_map]. rewrite app_nil_r.
  apply before_above; [apply (seg _ _ _ H2)|eapply in_mid; exact H2|exact Hd].
Qed.
Ltac fimp H := eapply Forall_impl; [|exact H]; cbn beta; intros.
(* a node within which the value lies *)
Lemma split_first A c B k : C = A ++ c :: B -> above k c = false ->
  exists P q Q, els c = P ++ q :: Q /\ slot_first K cmp key k (els c) 0 = Z.of_nat (length P) /\ Forall (fun e => cmp (key e) k = Lt) P /\ Forall (fun e => cmp (key e) k <> Lt) (q :: Q ++ flat B).
Proof.
  intros HC Ha. pose proof (wf_of c (in_mid _ _ _ HC)) as W. destruct (nabove_mx cmp key _ _ W Ha) as (es & m & E1 & E2).
  destruct (slot_first_ok k (els c) 0 ltac:(lia)) as (P & Q & EP & HP & [[-> _]|(q & Q' & -> & Hq & Hs)]).
  - exfalso. rewrite app_nil_r in EP. rewrite <- EP, E1 in HP. apply Forall_app in HP. destruct HP as [_ HP]. inversion_clear HP as [|? ? Hm _].
    apply E2. apply (gt_lt cmp TO). exact Hm.
  - exists P, q, Q'. split; [exact EP|]. split; [rewrite Hs; lia|]. split; [exact HP|]. pose proof (seg _ _ _ HC) as (_ & _ & S1). rewrite EP, <- app_assoc in S1. apply srt_app in S1. destruct S1 as (_ & S1 & _).
    exact (up_all (Some k) true q (Q' ++ flat B) S1 Hq).
Qed.
Lemma split_last A c B k : C = A ++ c :: B -> below k c = false ->
  exists P p Q, els c = (P ++ [p]) ++ Q /\ slot_last K cmp key k (els c) 0 (-1) = Z.of_nat (length P) /\ Forall (fun e => cmp (key e) k <> Gt) (flat A ++ P ++ [p]) /\ Forall (fun e => cmp (key e) k = Gt) Q.
Proof.
  intros HC Ha. pose proof (wf_of c (in_mid _ _ _ HC)) as W. destruct (nbelow_mn cmp key TO _ _ W Ha) as (m & es & E1 & E2).
  destruct (seg _ _ _ HC) as (S1 & S2 & _). destruct (slot_last_ok k (els c) S1 0 (-1)) as (P & Q & EP & HP & HQ & Hs).
  destruct (last_or P) as [->|(P' & p & ->)].
  - exfalso. cbn in EP. rewrite <- EP, E1 in HQ. inversion_clear HQ. contradiction.
  - exists P', p, Q. split; [exact EP|]. rewrite app_length in Hs. cbn [length] in Hs. replace (length P' + 1)%nat with (Datatypes.S (length P')) in Hs by lia. cbn [Nat.eqb] in Hs. split; [rewrite Hs; lia|].
    split; [|exact HQ]. apply Forall_app in HP. destruct HP as [_ HP]. inversion_clear HP as [|? ? Hp _]. rewrite EP, app_assoc in S2. apply srt_app in S2. destruct S2 as (S2 & _ & _).
    rewrite app_assoc in S2. rewrite app_assoc. exact (down_all (Some k) true (flat A ++ P') p S2 Hp).
Qed.
Lemma flatC A c B : C = A ++ c :: B -> flat C = flat A ++ els c ++ flat B.
Proof. intros ->. now rewrite flat_app, flat_cons. Qed.
Lemma min_node : exists c B, C = c :: B /\ minp x = cid c.
Proof.
  pose proof (i_chain _ _ _ Hinv) as (_ & H & _). unfold ids in H. pose proof neC as Hn. destruct C as [|c B] eqn:E1; [|exists c, B; auto].
  exfalso. apply Hn. destruct (tr x) as [|c lh rh l r]; [reflexivity|]. cbn in E1. destruct (cells l); discriminate.
Qed.
Lemma max_node : exists A c, C = A ++ [c] /\ maxp x = cid c.
Proof.
  pose proof (i_chain _ _ _ Hinv) as (_ & _ & H). unfold ids in H. destruct min_node as (c & B & E1 & _). destruct (exists_last (l := C)) as (A & d & E2); [rewrite E1; discriminate|].
  exists A, d. split; [exact E2|]. rewrite E2, map_app in H. cbn [map] in H. rewrite last_snoc in H. exact H.
Qed.

Lemma start_ok b incl : exists co cs L R, start_of K cmp x key b incl = Some (Some (co, cs)) /\ splits (in_start b incl) false L R /\ at_start C L R co cs.
Proof.
  destruct b as [k|]; cbn [start_of].
  2: { destruct min_node as (c & B & E1 & ->). exists (cid c), 0, [], (flat C). split; [reflexivity|]. split; [split; [reflexivity|split; [constructor|]]|].
       - apply Forall_forall. intros; exact I.
       - rewrite E1 at 2. exact (here_start [] c B E1). }
  destruct incl.
  - destruct (left_search k) as (bd & A & c & B & -> & HC & HA & Hbd). destruct bd.
    + destruct Hbd as [_ Ha]. rewrite (node_ok _ _ _ HC). destruct (split_first _ _ _ _ HC Ha) as (P & q & Q & EP & -> & HP & HQ).
      destruct (Z.eqb_spec (Z.of_nat (length P)) (-1)); [lia|]. exists (cid c), (Z.of_nat (length P)), (flat A ++ P), (q :: Q ++ flat B). split; [reflexivity|].
      split; [split; [|split]|].
      * rewrite (flatC _ _ _ HC), EP, <- !app_assoc. reflexivity.
      * apply Forall_app. split; [fimp HA|fimp HP]; now apply lt_out.
      * exact HQ.
      * right. exists A, c, B, P, (q :: Q). repeat split; auto. discriminate.
    + exists (cid c), 0, (flat A), (flat (c :: B)). split; [reflexivity|]. split; [split; [|split]|].
      * now rewrite (flatC _ _ _ HC).
      * fimp HA. now apply lt_out.
      * pose proof (after_below c B k (proj2 (proj2 (seg _ _ _ HC))) (in_mid _ _ _ HC) Hbd) as H. rewrite flat_cons. fimp H. now apply gt_in.
      * now apply here_start.
    + destruct Hbd as [Ha HB]. exists (succ x (cid c)), 0, (flat A ++ els c), (flat B). split; [reflexivity|]. split; [split; [|split]|].
      * rewrite (flatC _ _ _ HC). now rewrite <- app_assoc.
      * pose proof (before_above A c k (proj1 (proj2 (seg _ _ _ HC))) (in_mid _ _ _ HC) Ha) as H. fimp H. now apply lt_out.
      * fimp HB. now apply gt_in.
      * now apply (next_start A c B).
  - destruct (right_search k) as (bd & A & c & B & -> & HC & HB & Hbd). destruct bd.
    + destruct Hbd as [Hb _]. rewrite (node_ok _ _ _ HC). destruct (split_last _ _ _ _ HC Hb) as (P & p & Q & EP & -> & HP & HQ).
      destruct (Z.eqb_spec (Z.of_nat (length P)) (-1)); [lia|]. assert (Hsz : size K c = Z.of_nat (length P) + 1 + Z.of_nat (length Q)) by (unfold size; rewrite EP, !app_length; cbn [length]; lia).
      assert (Hspl : splits (in_start (Some k) false) false (flat A ++ P ++ [p]) (Q ++ flat B)).
      { split; [|split].
        - rewrite (flatC _ _ _ HC), EP, <- !app_assoc. reflexivity.
        - fimp HP. exact H.
        - apply Forall_app. split; [exact HQ|exact HB]. }
      rewrite Hsz. destruct (Z.leb_spec (Z.of_nat (length P) + 1 + Z.of_nat (length Q)) (Z.of_nat (length P) + 1)) as [Hle|Hle].
      * assert (Q = []) as -> by (destruct Q; [reflexivity|cbn [length] in Hle; lia]). eexists _, _, _, _. split; [reflexivity|]. split; [exact Hspl|].
        apply (next_start A c B); [exact HC| |reflexivity]. rewrite EP, app_nil_r. reflexivity.
      * eexists _, _, _, _. split; [reflexivity|]. split; [exact Hspl|]. right. exists A, c, B, (P ++ [p]), Q. repeat split; auto.
        -- destruct Q; [cbn [length] in Hle; lia|discriminate].
        -- rewrite app_length. cbn [length]. lia.
    + destruct Hbd as [Hb HA]. exists (cid c), 0, (flat A), (flat (c :: B)). split; [reflexivity|]. split; [split; [|split]|].
      * now rewrite (flatC _ _ _ HC).
      * fimp HA. now apply lt_out.
      * pose proof (after_below c B k (proj2 (proj2 (seg _ _ _ HC))) (in_mid _ _ _ HC) Hb) as H. rewrite flat_cons. fimp H. now apply gt_in.
      * now apply here_start.
    + exists (succ x (cid c)), 0, (flat A ++ els c), (flat B). split; [reflexivity|]. split; [split; [|split]|].
      * rewrite (flatC _ _ _ HC). now rewrite <- app_assoc.
      * pose proof (before_above A c k (proj1 (proj2 (seg _ _ _ HC))) (in_mid _ _ _ HC) Hbd) as H. fimp H. now apply lt_out.
      * fimp HB. now apply gt_in.
      * now apply (next_start A c B).
Qed.
Lemma end_ok b incl : exists eo es L R, end_of K cmp x key b incl = Some (Some (eo, es)) /\ splits (in_end b incl) true L R /\ at_end C L R eo es.
Proof.
  destruct b as [k|]; cbn [end_of].
  2: { destruct max_node as (A & c & E1 & ->). destruct (here_end A c [] E1) as (es & -> & E2). exists (cid c), es, (flat A ++ els c), []. split; [reflexivity|]. split; [split; [|split]|exact E2].
       - rewrite E1, flat_app. cbn. now rewrite !app_nil_r.
       - apply Forall_forall. intros; exact I.
       - constructor. }
  destruct incl.
  - destruct (right_search k) as (bd & A & c & B & -> & HC & HB & Hbd). destruct bd.
    + destruct Hbd as [Hb _]. rewrite (node_ok _ _ _ HC). destruct (split_last _ _ _ _ HC Hb) as (P & p & Q & EP & -> & HP & HQ).
      destruct (Z.eqb_spec (Z.of_nat (length P)) (-1)); [lia|]. exists (cid c), (Z.of_nat (length P)), (flat A ++ P ++ [p]), (Q ++ flat B). split; [reflexivity|].
      split; [split; [|split]|].
      * rewrite (flatC _ _ _ HC), EP, <- !app_assoc. reflexivity.
      * exact HP.
      * apply Forall_app. split; [fimp HQ|fimp HB]; now apply gt_out.
      * right. exists A, c, B, (P ++ [p]), Q. repeat split; auto; [destruct P; discriminate|]. rewrite app_length. cbn [length]. lia.
    + destruct Hbd as [Hb HA]. destruct (prev_end A c B HC) as (eo & es & -> & HE). exists eo, es, (flat A), (flat (c :: B)). split; [reflexivity|]. split; [split; [|split]|exact HE].
      * now rewrite (flatC _ _ _ HC).
      * fimp HA. now apply lt_in.
      * pose proof (after_below c B k (proj2 (proj2 (seg _ _ _ HC))) (in_mid _ _ _ HC) Hb) as H. rewrite flat_cons. fimp H. now apply gt_out.
    + destruct (here_end A c B HC) as (es & -> & HE). exists (cid c), es, (flat A ++ els c), (flat B). split; [reflexivity|]. split; [split; [|split]|exact HE].
      * rewrite (flatC _ _ _ HC). now rewrite <- app_assoc.
      * pose proof (before_above A c k (proj1 (proj2 (seg _ _ _ HC))) (in_mid _ _ _ HC) Hbd) as H. fimp H. now apply lt_in.
      * fimp HB. now apply gt_out.
  - destruct (left_search k) as (bd & A & c & B & -> & HC & HA & Hbd). destruct bd.
    + destruct Hbd as [_ Ha]. rewrite (node_ok _ _ _ HC). destruct (split_first _ _ _ _ HC Ha) as (P & q & Q & EP & -> & HP & HQ).
      destruct (Z.eqb_spec (Z.of_nat (length P)) (-1)); [lia|].
      assert (Hspl : splits (in_end (Some k) false) true (flat A ++ P) (q :: Q ++ flat B)).
      { split; [|split].
        - rewrite (flatC _ _ _ HC), EP, <- !app_assoc. reflexivity.
        - apply Forall_app. split; [exact HA|exact HP].
        - exact HQ. }
      destruct (Z.ltb_spec (Z.of_nat (length P) - 1) 0) as [Hlt|Hlt].
      * assert (P = []) as -> by (destruct P; [reflexivity|cbn [length] in Hlt; lia]). destruct (prev_end A c B HC) as (eo & es & -> & HE).
        exists eo, es, (flat A), (flat (c :: B)). split; [reflexivity|]. split; [|exact HE]. rewrite app_nil_r in Hspl. rewrite flat_cons, EP. exact Hspl.
      * eexists _, _, _, _. split; [reflexivity|]. split; [exact Hspl|]. right. exists A, c, B, P, (q :: Q). repeat split; auto. destruct P; [cbn [length] in Hlt; lia|discriminate].
    + destruct (prev_end A c B HC) as (eo & es & -> & HE). exists eo, es, (flat A), (flat (c :: B)). split; [reflexivity|]. split; [split; [|split]|exact HE].
      * now rewrite (flatC _ _ _ HC).
      * fimp HA. now apply lt_in.
      * pose proof (after_below c B k (proj2 (proj2 (seg _ _ _ HC))) (in_mid _ _ _ HC) Hbd) as H. rewrite flat_cons. fimp H. now apply gt_out.
    + destruct Hbd as [Ha HB]. destruct (here_end A c B HC) as (es & -> & HE). exists (cid c), es, (flat A ++ els c), (flat B). split; [reflexivity|]. split; [split; [|split]|exact HE].
      * rewrite (flatC _ _ _ HC). now rewrite <- app_assoc.
      * pose proof (before_above A c k (proj1 (proj2 (seg _ _ _ HC))) (in_mid _ _ _ HC) Ha) as H. fimp H. now apply lt_in.
      * fimp HB. now apply gt_out.
Qed.

(* ---- empty ranges ---- *)
Lemma flat_nil A : incl A C -> flat A = [] -> A = [].
Proof.
  intros Hi H. destruct A as [|c A]; [reflexivity|]. exfalso. rewrite flat_cons in H. apply app_eq_nil in H. destruct H as [H _]. apply (w_ne key c); [|exact H]. apply wf_of. apply Hi. now left.
Qed.
Lemma settle_ok L1 R1 L2 R2 M co cs eo es : at_start C L1 R1 co cs -> at_end C L2 R2 eo es -> flat C = L1 ++ R1 -> L2 = L1 ++ M -> R1 = M ++ R2 ->
  exists co' cs' eo' es', settle K x co cs eo es = (co', cs', eo', es') /\
    ((M = [] /\ co' = 0) \/ (M <> [] /\ co' = co /\ cs' = cs /\ eo' = eo /\ es' = es /\ co <> 0)).
Proof.
  intros HS HE Hf EL ER. unfold settle. destruct (Z.eqb_spec co 0) as [->|Hco].
  - exists 0, cs, 0, es. split; [reflexivity|]. left. split; [|reflexivity]. destruct HS as [[HR _]|(A & c & B & P & Q & E1 & _ & _ & _ & _ & E2 & _)].
    + rewrite HR in ER. destruct M; [reflexivity|discriminate].
    + exfalso. apply (cid_ne0 c); [eapply in_mid; exact E1|]. congruence.
  - destruct HS as [[_ HS]|(A & c & B & P & Q & E1 & E2 & E3 & E4 & E5 & E6 & E7)]; [contradiction|].
    destruct HE as [[HL Heo]|(A2 & c2 & B2 & P2 & Q2 & F1 & F2 & F3 & F4 & F5 & F6 & F7)].
    + rewrite EL in HL. apply app_eq_nil in HL. destruct HL as [_ ->]. rewrite Heo. assert ((0 =? co) = false) as -> by (apply Z.eqb_neq; congruence). cbn [andb]. rewrite Z.eqb_refl.
      exists 0, cs, 0, es. auto.
    + assert (Heo : eo <> 0) by (rewrite F6; apply cid_ne0; eapply in_mid; exact F1).
      pose proof (i_nd _ _ _ Hinv) as Hn. pose proof Hn as Hn2. unfold ids in Hn, Hn2. rewrite E1, map_app in Hn. rewrite F1, map_app in Hn2. cbn [map] in Hn, Hn2.
      assert (EM : flat A2 ++ P2 = flat A ++ P ++ M) by (rewrite <- F4, EL, E4, <- app_assoc; reflexivity).
      assert (LM := f_equal (@length Z) EM). rewrite !app_length in LM.
      destruct (Z.eqb_spec eo 0) as [|_]; [contradiction|].
      pose proof E1 as EQ. rewrite F1 in EQ. destruct (mid_cases _ _ _ _ _ _ EQ) as [(-> & -> & ->)|[(z & -> & ->)|(z & -> & ->)]].
      * apply app_inv_head in EM. rewrite F6, E6, Z.eqb_refl. cbn [andb]. assert (L2' := f_equal (@length Z) EM). rewrite app_length in L2'.
        destruct (Z.ltb_spec es cs) as [Hlt|Hge].
        -- exists 0, cs, 0, es. split; [reflexivity|]. left. split; [|reflexivity]. destruct M; [reflexivity|cbn [length] in L2'; lia].
        -- assert (HM : M <> []) by (intros ->; cbn [length] in L2'; lia).
           destruct (neigh _ _ _ E1) as [-> _].
           assert (Hne : (cid c =? last (map cid A) 0) = false).
           { apply Z.eqb_neq. intro Q1. destruct (last_or A) as [->|(A' & d & ->)]; [cbn in Q1; congruence|].
             rewrite map_app in Q1. cbn [map] in Q1. rewrite last_snoc in Q1. apply NoDup_remove_2 in Hn. apply Hn. rewrite in_app_iff. left. rewrite Q1, map_app. apply in_elt. }
           rewrite Hne. exists (cid c), cs, (cid c), es. split; [reflexivity|]. right. rewrite <- E6. auto 10.
      * (* the end node is left of the start node *)
        rewrite flat_app, flat_cons, !app_length, F2, app_length in LM.
        assert (length (flat z) = 0%nat /\ length Q2 = 0%nat /\ length P = 0%nat /\ length M = 0%nat) as (X1 & X2 & X3 & X4) by lia.
        assert (z = []) as -> by (apply flat_nil; [rewrite F1; apply incl_appr, incl_tl, incl_appl, incl_refl|destruct (flat z); [reflexivity|discriminate]]).
        assert (M = []) as -> by (destruct M; [reflexivity|discriminate]).
        destruct (neigh _ _ _ E1) as [Hp _]. rewrite E6, Hp, map_app. cbn [map]. rewrite last_snoc, F6, Z.eqb_refl.
        destruct (_ && _); [|]; exists 0, cs, 0, es; auto.
      * (* the end node is right of the start node *)
        rewrite flat_app, flat_cons, !app_length, E2, app_length in LM. destruct Q; [contradiction|]. destruct P2; [contradiction|]. cbn [length] in LM.
        assert (M <> []) by (intros ->; cbn [length] in LM; lia).
        rewrite map_app in Hn2. cbn [map] in Hn2. pose proof Hn2 as Hn3. apply NoDup_remove_2 in Hn2.
        assert (cid c2 <> cid c) by (intro Q1; apply Hn2; rewrite in_app_iff; left; rewrite Q1; apply in_elt).
        assert (cid c2 <> last (map cid A) 0).
        { intro Q1. destruct (last_or A) as [->|(A' & d & ->)]; [cbn in Q1; congruence|].
          rewrite map_app in Q1. cbn [map] in Q1. rewrite last_snoc in Q1. apply Hn2. rewrite !in_app_iff. left. left. rewrite Q1, map_app. apply in_elt. }
        destruct (neigh _ _ _ E1) as [Hp _]. rewrite F6, E6, Hp. destruct (Z.eqb_spec (cid c2) (cid c)); [contradiction|]. cbn [andb]. destruct (Z.eqb_spec (cid c2) (last (map cid A) 0)); [contradiction|].
        exists (cid c), cs, (cid c2), es. split; [reflexivity|]. right. rewrite <- E6, <- F6. auto 10.
Qed.

(* ---- the walk ---- *)
Definition step (c : cell K) (co cs eo es : Z) : Z * Z :=
  if (co =? eo) && (cs =? es) then (0, cs) else if size K c <=? cs + 1 then (succ x co, 0) else (co, cs + 1).
Inductive path (eo es : Z) : Z -> Z -> list Z -> Prop :=
| p_end cs : path eo es 0 cs []
| p_row co cs c r M co' cs' : co <> 0 -> node_at K x co = Some c -> slot_at K c cs = Some r -> step c co cs eo es = (co', cs') ->
    path eo es co' cs' M -> path eo es co cs (r :: M).
Lemma slot_mid c P r Q : els c = P ++ r :: Q -> slot_at K c (Z.of_nat (length P)) = Some r.
Proof.
  intro H. unfold slot_at. destruct (Z.ltb_spec (Z.of_nat (length P)) 0); [lia|]. rewrite H, Nat2Z.id, nth_error_app2, Nat.sub_diag by lia. reflexivity.
Qed.
Lemma walk M : forall L R co cs eo es, M <> [] -> flat C = L ++ M ++ R -> at_start C L (M ++ R) co cs -> at_end C (L ++ M) R eo es -> path eo es co cs M.
Proof.
  induction M as [|r M IH]; intros L R co cs eo es Hne Hf HS HE; [contradiction|]. clear Hne.
  destruct HS as [[HS _]|(A & c & B & P & Q & E1 & E2 & E3 & E4 & E5 & E6 & E7)]; [discriminate|].
  destruct Q as [|q Q]; [contradiction|]. cbn [List.app] in E5. injection E5 as <- E5.
  pose proof (in_mid _ _ _ E1) as Hc. destruct (step c co cs eo es) as [co' cs'] eqn:Est.
  eapply p_row; [subst co; now apply cid_ne0|rewrite E6; eapply node_ok; exact E1|rewrite E7; eapply slot_mid; exact E2|exact Est|].
  destruct HE as [[HL _]|(A2 & c2 & B2 & P2 & Q2 & F1 & F2 & F3 & F4 & F5 & F6 & F7)]; [destruct L; discriminate|].
  assert (EM : flat A2 ++ P2 = flat A ++ P ++ r :: M) by (rewrite <- F4, E4, <- app_assoc; reflexivity).
  assert (LM := f_equal (@length Z) EM). rewrite !app_length in LM. cbn [length] in LM.
  pose proof (i_nd _ _ _ Hinv) as Hn. pose proof Hn as Hn2. unfold ids in Hn, Hn2. rewrite E1, map_app in Hn. rewrite F1, map_app in Hn2. cbn [map] in Hn, Hn2.
  assert (HE : at_end C (L ++ r :: M) R eo es) by (right; exists A2, c2, B2, P2, Q2; auto 10).
  (* the last row? *)
  destruct M as [|r2 M].
  - assert (Hlast : (co =? eo) && (cs =? es) = true).
    { pose proof E1 as EQ. rewrite F1 in EQ. cbn [length] in LM. destruct (mid_cases _ _ _ _ _ _ EQ) as [(-> & -> & ->)|[(z & -> & ->)|(z & -> & ->)]].
      - rewrite E6, F6, Z.eqb_refl. cbn [andb]. apply Z.eqb_eq. lia.
      - exfalso. rewrite flat_app, flat_cons, !app_length, F2, app_length in LM. lia.
      - exfalso. rewrite flat_app, flat_cons, !app_length, E2, app_length in LM. cbn [length] in LM. destruct P2; [contradiction|]. cbn [length] in LM. lia. }
    unfold step in Est. rewrite Hlast in Est. injection Est as <- <-. constructor.
  - assert (Hlast : (co =? eo) && (cs =? es) = false).
    { destruct (Z.eqb_spec co eo) as [Q1|]; [|reflexivity]. cbn [andb]. apply Z.eqb_neq. intro Q3. pose proof E1 as EQ. rewrite F1 in EQ. cbn [length] in LM.
      destruct (mid_cases _ _ _ _ _ _ EQ) as [(-> & -> & ->)|[(z & -> & ->)|(z & -> & ->)]]; [lia| |].
      - rewrite flat_app, flat_cons, !app_length, F2, app_length in LM. lia.
      - rewrite map_app in Hn2. cbn [map] in Hn2. apply NoDup_remove_2 in Hn2. apply Hn2. rewrite in_app_iff. left. rewrite <- F6, <- Q1, E6. apply in_elt. }
    unfold step in Est. rewrite Hlast in Est.
    assert (Hsz : size K c = Z.of_nat (length P) + 1 + Z.of_nat (length Q)) by (unfold size; rewrite E2, app_length; cbn [length]; lia). rewrite Hsz in Est.
    assert (HE2 : at_end C ((L ++ [r]) ++ r2 :: M) R eo es) by (rewrite <- app_assoc; exact HE).
    assert (Hf2 : flat C = (L ++ [r]) ++ (r2 :: M) ++ R) by (rewrite Hf, <- app_assoc; reflexivity).
    destruct (Z.leb_spec (Z.of_nat (length P) + 1 + Z.of_nat (length Q)) (cs + 1)) as [Hle|Hgt]; injection Est as <- <-.
    + assert (Q = []) as -> by (destruct Q; [reflexivity|cbn [length] in Hle; lia]). apply (IH (L ++ [r]) R); [discriminate|exact Hf2| |exact HE2].
      rewrite E6. apply (next_start A c B); [exact E1| |exact E5]. rewrite E4, E2, <- app_assoc. reflexivity.
    + apply (IH (L ++ [r]) R); [discriminate|exact Hf2| |exact HE2]. right. exists A, c, B, (P ++ [r]), Q. split; [exact E1|]. split; [rewrite E2, <- app_assoc; reflexivity|].
      split; [intros ->; cbn [length] in Hgt; lia|]. split; [rewrite E4, <- app_assoc; reflexivity|]. split; [exact E5|]. split; [exact E6|]. rewrite app_length. cbn [length]. lia.
Qed.
(* both bounds *)
Lemma bounds_full b1 i1 b2 i2 : (forall k1 k2, b1 = Some k1 -> b2 = Some k2 -> cmp k1 k2 <> Gt /\ (cmp k1 k2 = Eq -> i1 = true \/ i2 = true)) ->
  exists co cs eo es co' cs' eo' es' L M R, start_of K cmp x key b1 i1 = Some (Some (co, cs)) /\ end_of K cmp x key b2 i2 = Some (Some (eo, es)) /\
    settle K x co cs eo es = (co', cs', eo', es') /\ flat C = L ++ M ++ R /\
    Forall (fun e => ~ in_start b1 i1 e) L /\ Forall (in_start b1 i1) M /\ Forall (in_end b2 i2) M /\ Forall (fun e => ~ in_end b2 i2 e) R /\ path eo' es' co' cs' M.
Proof.
  intro Hb. destruct (start_ok b1 i1) as (co & cs & L1 & R1 & H1 & (S1 & S2 & S3) & S4). destruct (end_ok b2 i2) as (eo & es & L2 & R2 & H2 & (T1 & T2 & T3) & T4).
  exists co, cs, eo, es. pose proof S1 as EQ. rewrite T1 in EQ. symmetry in EQ. destruct (prefix_cases _ _ _ _ EQ) as [(M & EL & ER)|(e & m & EL & ER)].
  - destruct (settle_ok _ _ _ _ _ _ _ _ _ S4 T4 S1 EL ER) as (co' & cs' & eo' & es' & Hs & Hcase). exists co', cs', eo', es', L1, M, R2.
    split; [exact H1|]. split; [exact H2|]. split; [exact Hs|]. split; [rewrite S1, ER; reflexivity|]. split; [exact S2|]. rewrite ER in S3. apply Forall_app in S3. split; [apply S3|].
    rewrite EL in T2. apply Forall_app in T2. split; [apply T2|]. split; [exact T3|]. destruct Hcase as [[-> ->]|(HM & -> & -> & -> & -> & _)]; [constructor|].
    apply (walk M L1 R2); [exact HM|rewrite S1, ER; reflexivity|rewrite <- ER; exact S4|rewrite <- EL; exact T4].
  - exfalso. rewrite EL in S2. apply Forall_app in S2. destruct S2 as [_ S2]. inversion_clear S2 as [|? ? N1 _]. rewrite ER in T3. inversion_clear T3 as [|? ? N2 _].
    destruct b1 as [k1|]; [|now apply N1]. destruct b2 as [k2|]; [|now apply N2]. destruct (Hb k1 k2 eq_refl eq_refl) as [G1 G2]. cbn in N1, N2.
    pose proof (le_lt_trans cmp TO) as X1. pose proof (lt_le_trans cmp TO) as X2.
    (* [key e] is not in the start range and not in the end range *)
    assert (D1 : cmp (key e) k1 <> Gt) by (intro Q; apply N1; destruct i1; congruence).
    assert (D2 : cmp (key e) k2 <> Lt) by (intro Q; apply N2; destruct i2; congruence).
    assert (D3 : cmp (key e) k2 <> Gt) by (eapply c_trans; eauto).
    assert (D4 : cmp k1 k2 <> Lt).
    { intro Q. apply D2. eapply le_lt_trans; eauto. }
    assert (D5 : cmp k1 k2 = Eq) by (destruct (cmp k1 k2); congruence). destruct (G2 D5) as [-> | ->].
    + apply N1. intro Q. apply D2. eapply lt_le_trans; eauto.
    + now apply N2.
Qed.
End T.

(* ---- all indexes ---- *)
Lemma bounds_ok {K} (cmp : K -> K -> comparison) key (TO : total_order cmp) (x : ix K) b1 i1 b2 i2 : inv cmp key x ->
  (forall k1 k2, b1 = Some k1 -> b2 = Some k2 -> cmp k1 k2 <> Gt /\ (cmp k1 k2 = Eq -> i1 = true \/ i2 = true)) ->
  exists co cs eo es co' cs' eo' es' L M R, start_of K cmp x key b1 i1 = Some (Some (co, cs)) /\ end_of K cmp x key b2 i2 = Some (Some (eo, es)) /\
    settle K x co cs eo es = (co', cs', eo', es') /\ rows (tr x) = L ++ M ++ R /\
    Forall (fun e => ~ in_start cmp key b1 i1 e) L /\ Forall (in_start cmp key b1 i1) M /\ Forall (in_end cmp key b2 i2) M /\ Forall (fun e => ~ in_end cmp key b2 i2 e) R /\
    path x eo' es' co' cs' M.
Proof.
  intros Hx Hb. rewrite rows_flat. destruct (i_shape _ _ _ Hx) as [(c & Et & E1 & E2 & E3)|[_ W]]; [|now apply bounds_full].
  pose proof (i_chain _ _ _ Hx) as (Hl & Hmin & Hmax). unfold ids in Hl, Hmin, Hmax. rewrite Et in Hl, Hmin, Hmax. cbn in Hl, Hmin, Hmax.
  assert (H0 : cid c <> 0) by (intro Q; apply (i_0 _ _ _ Hx); rewrite Et; left; exact Q).
  assert (Hs : succ x (cid c) = 0) by apply Hl.
  assert (Hn : node_at K x (cid c) = Some c) by (unfold node_at; rewrite Et; cbn [find]; rewrite Z.eqb_refl; reflexivity).
  assert (Hls : last_slot K x (cid c) = Some (Some (cid c, -1))) by (unfold last_slot; destruct (Z.eqb_spec (cid c) 0); [contradiction|]; rewrite Hn; unfold size; rewrite E1; reflexivity).
  assert (Hst : exists co, start_of K cmp x key b1 i1 = Some (Some (co, 0)) /\ (co = 0 \/ co = cid c)).
  { unfold start_of. destruct b1 as [k|]; [|exists (minp x); split; [reflexivity|right; exact Hmin]]. rewrite Et. cbn [leftmost rightmost]. rewrite E2, E3. cbn. exists (succ x (cid c)). destruct i1; rewrite Hs; auto. }
  assert (Hen : end_of K cmp x key b2 i2 = Some (Some (cid c, -1))).
  { unfold end_of. destruct b2 as [k|]; [|rewrite Hmax; exact Hls]. rewrite Et. cbn [leftmost rightmost]. rewrite E2, E3. cbn. destruct i2; exact Hls. }
  destruct Hst as (co & H1 & H2). exists co, 0, (cid c), (-1), 0, 0, 0, (-1), [], [], []. split; [exact H1|]. split; [exact Hen|].
  split; [unfold settle; destruct H2 as [-> | ->]; [reflexivity|destruct (Z.eqb_spec (cid c) 0); [contradiction|]; rewrite Z.eqb_refl; reflexivity]|].
  split; [rewrite Et; cbn; rewrite E1; reflexivity|]. repeat split; constructor.
Qed.
