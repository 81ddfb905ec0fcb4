(** Lemmas about the parallel search. *)
From Coq Require Import ZArith Arith List Bool Lia.
From Verif Require Import FkModel FkSpec.
Import ListNotations.

Lemma put_length : forall (A : Type) (l : list A) k x, length (put k x l) = length l.
Proof. induction l as [|y l IH]; intros [|k] x; simpl; auto. Qed.

Lemma put_same : forall (A : Type) (l : list A) k x, k < length l -> nth_error (put k x l) k = Some x.
Proof. induction l as [|y l IH]; intros [|k] x H; simpl in *; auto; try lia. apply IH. lia. Qed.

Lemma put_other : forall (A : Type) (l : list A) k j x, j <> k -> nth_error (put k x l) j = nth_error l j.
Proof. induction l as [|y l IH]; intros [|k] [|j] x H; simpl; auto; try lia. Qed.

Lemma forks_made_le : forall ok n k, forks_made ok n k <= n.
Proof. induction n as [|n IH]; intros k; simpl; [lia|]. destruct (ok k); [specialize (IH (S k)); lia|lia]. Qed.

Lemma forks_made_all : forall ok n k, (forall j, ok j = true) -> forks_made ok n k = n.
Proof. induction n as [|n IH]; intros k H; simpl; auto. rewrite H, IH; auto. Qed.

Lemma starts_app : forall a b, started (a ++ b) = started a ++ started b.
Proof. induction a as [|x a IH]; intros b; simpl; auto. destruct x; simpl; rewrite ?IH; auto. Qed.

Lemma started_in : forall l i, In i (started l) <-> exists k, In (Start k i) l.
Proof.
  induction l as [|x l IH]; intros i; simpl.
  - split; [tauto|]. intros (k & []).
  - destruct x as [k0 i0|k0 i0|]; simpl; rewrite IH; split.
    + intros [E|(k & H)]; [subst; eauto|eauto].
    + intros (k & [E|H]); [injection E as _ E; auto|right; eauto].
    + intros (k & H); eauto.
    + intros (k & [E|H]); [discriminate|eauto].
    + intros (k & H); eauto.
    + intros (k & [E|H]); [discriminate|eauto].
Qed.

Section P.
Variable ltb : bool.
Variable st : strategy.
Variable m : nat.
Variable act : nat -> nat -> turn.
Hypothesis m_pos : 0 < m.

Notation turn_step := (turn_step ltb st m act).
Notation step := (step ltb st m act).
Notation reaches := (reaches ltb st m act).

(** Up to turn [i] worker [k] was never stopped. *)
Definition pre (o : list event) (k i : nat) : Prop :=
  forall j, j < i -> j mod m = k ->
    exists r a, act k j = Ran r a /\ r <> 0%Z /\ S j < guide_result st j /\ In (Start k j) o.

Definition cause (k j : nat) (res : Z) : Prop :=
  res = 1%Z \/ exists j' a, act k j' = Ran res a /\ res <> 0%Z.

Definition done (o : list event) (k : nat) (w : status) : Prop :=
  exists j res e, j mod m = k /\ pre o k j /\ cause k j res /\
    turn_step true k j res = (Ended w, e) /\ incl e o.

Lemma pre_mono : forall o o' k i, incl o o' -> pre o k i -> pre o' k i.
Proof.
  intros o o' k i H P j Hj E. destruct (P j Hj E) as (r & a & A & B & C & D).
  exists r, a. split; [exact A|]. split; [exact B|]. split; [exact C|]. apply H, D.
Qed.

Lemma done_mono : forall o o' k w, incl o o' -> done o k w -> done o' k w.
Proof.
  intros o o' k w H (j & res & e & A & B & C & D & E). exists j, res, e.
  split; [exact A|]. split; [exact (pre_mono o o' k j H B)|]. split; [exact C|]. split; [exact D|].
  intros x Hx. apply H, E, Hx.
Qed.

(** The cases of a turn. *)
Lemma turn_cases : forall k i res x e, turn_step true k i res = (x, e) ->
  (i mod m <> k /\ x = Running (S i) res /\ e = nil) \/
  (i mod m = k /\ exists w, x = Ended w) \/
  (i mod m = k /\ exists r a, act k i = Ran r a /\ r <> 0%Z /\ S i < guide_result st i /\
     x = Running (S i) r /\ In (Start k i) e).
Proof.
  intros k i res x e H. unfold FkModel.turn_step in H. simpl in H.
  destruct (Nat.eqb_spec (i mod m) k) as [E|E]; simpl in H.
  - right. destruct (act k i) as [| | | |r a] eqn:A; unfold finish in H; simpl in H.
    + injection H as H1 H2. left. split; [exact E|]. exists (Exited (if ltb then low8 2 else 0)). symmetry; exact H1.
    + injection H as H1 H2. left. split; [exact E|]. eexists. symmetry; exact H1.
    + left. split; [exact E|]. destruct (res =? 0)%Z; injection H as H1 H2; eexists; symmetry; exact H1.
    + injection H as H1 H2. left. split; [exact E|]. eexists. symmetry; exact H1.
    + destruct (Z.eqb_spec r 0) as [Z0|Z0]; simpl in H.
      * left. split; [exact E|]. injection H as H1 H2. eexists. symmetry; exact H1.
      * destruct (Nat.leb_spec (guide_result st i) (S i)) as [L|L]; simpl in H.
        -- left. split; [exact E|]. injection H as H1 H2. eexists. symmetry; exact H1.
        -- right. split; [exact E|]. injection H as H1 H2. exists r, a.
           split; [reflexivity|]. split; [exact Z0|]. split; [exact L|]. split; [symmetry; exact H1|].
           subst e. left. reflexivity.
  - left. injection H as H1 H2. subst. auto.
Qed.

(** What a turn prints. *)
Lemma turn_events : forall k i res x e, turn_step true k i res = (x, e) ->
  (forall k' i', In (Start k' i') e -> k' = k /\ i' = i /\ i mod m = k) /\
  (started e = nil \/ started e = [i]) /\
  (forall k' i', In (Shown k' i') e -> k' = k /\ i' = i /\ In (Start k i) e /\
     exists r a, act k i = Ran r a /\ (r = 0%Z \/ r = 1%Z /\ a = true)).
Proof.
  intros k i res x e H. unfold FkModel.turn_step in H. simpl in H.
  destruct (Nat.eqb_spec (i mod m) k) as [E|E]; simpl in H.
  2:{ injection H as H1 H2; subst e. split; [intros ? ? []|]. split; [auto|]. intros ? ? []. }
  assert (G : forall l s, (s = nil \/ s = [NotFound]) ->
     (l = nil \/ (l = [Shown k i] /\ exists r a, act k i = Ran r a /\ (r = 0%Z \/ r = 1%Z /\ a = true))) ->
     (forall k' i', In (Start k' i') (Start k i :: l ++ s) -> k' = k /\ i' = i /\ i mod m = k) /\
     (started (Start k i :: l ++ s) = nil \/ started (Start k i :: l ++ s) = [i]) /\
     (forall k' i', In (Shown k' i') (Start k i :: l ++ s) -> k' = k /\ i' = i /\ In (Start k i) (Start k i :: l ++ s) /\
        exists r a, act k i = Ran r a /\ (r = 0%Z \/ r = 1%Z /\ a = true))).
  { intros l s Hs Hl. split; [|split].
    - intros k' i' [Q|Q]; [injection Q as Q1 Q2; subst; auto|].
      apply in_app_or in Q. destruct Hl as [Hl|(Hl & _)]; subst l; destruct Hs; subst s; simpl in Q;
        destruct Q as [Q|Q]; try contradiction; repeat destruct Q as [Q|Q]; try contradiction; discriminate.
    - right. destruct Hl as [Hl|(Hl & _)]; subst l; destruct Hs; subst s; reflexivity.
    - intros k' i' [Q|Q]; [discriminate|]. apply in_app_or in Q.
      destruct Hl as [Hl|(Hl & X)]; subst l; destruct Hs; subst s; simpl in Q;
        destruct Q as [Q|Q]; try contradiction; repeat destruct Q as [Q|Q]; try contradiction; try discriminate;
        injection Q as Q1 Q2; subst; split; auto; split; auto; split; auto; left; reflexivity. }
  destruct (act k i) as [| | | |r a] eqn:A; unfold finish in H; simpl in H.
  - injection H as H1 H2; subst e. split; [intros ? ? [Q|[]]; discriminate|]. split; [left; reflexivity|].
    intros ? ? [Q|[]]; discriminate.
  - injection H as H1 H2; subst e. split; [intros ? ? [Q|[]]; discriminate|]. split; [left; reflexivity|].
    intros ? ? [Q|[]]; discriminate.
  - destruct (res =? 0)%Z; injection H as H1 H2; subst e.
    + apply (G nil nil); auto.
    + apply (G nil [NotFound]); auto.
  - injection H as H1 H2; subst e. apply (G nil nil); auto.
  - assert (S1 : (if (r =? 0)%Z || (r =? 1)%Z && a then [Shown k i] else []) = nil \/
       ((if (r =? 0)%Z || (r =? 1)%Z && a then [Shown k i] else []) = [Shown k i] /\
         exists r0 a0, Ran r a = Ran r0 a0 /\ (r0 = 0%Z \/ r0 = 1%Z /\ a0 = true))).
    { destruct (Z.eqb_spec r 0); simpl; [right; split; [reflexivity|]; exists r, a; auto|].
      destruct (Z.eqb_spec r 1); simpl; [|auto]. destruct a; [|auto].
      right. split; [reflexivity|]. exists r, true. auto. }
    destruct (r =? 0)%Z eqn:Z0; simpl in H.
    + injection H as H1 H2; subst e. apply (G [Shown k i] nil); auto.
    + destruct (Nat.leb (guide_result st i) (S i)); injection H as H1 H2; subst e.
      * apply G; auto.
      * match goal with |- context [Start k i :: ?l] => rewrite <- (app_nil_r l) end. apply G; auto.
Qed.

(** A worker at a turn before which nothing stopped it gives the same end wherever it is looked at. *)
Lemma done_unique : forall o k w i, done o k w -> pre o k i -> i mod m = k ->
  (exists w' e res, turn_step true k i res = (Ended w', e)) ->
  exists res e, cause k i res /\ turn_step true k i res = (Ended w, e) /\ incl e o.
Proof.
  intros o k w i (j & res & e & A & B & C & D & E) P Hi (w' & e' & res' & T).
  assert (j = i).
  { destruct (lt_eq_lt_dec j i) as [[L|L]|L]; [|exact L|].
    - destruct (P j L A) as (r & a & A1 & A2 & A3 & _). unfold FkModel.turn_step in D.
      rewrite A, Nat.eqb_refl, A1 in D. simpl in D.
      destruct (Z.eqb_spec r 0); [contradiction|]. simpl in D.
      destruct (Nat.leb_spec (guide_result st j) (S j)); [lia|]. discriminate.
    - destruct (B i L Hi) as (r & a & A1 & A2 & A3 & _). unfold FkModel.turn_step in T.
      rewrite Hi, Nat.eqb_refl, A1 in T. simpl in T.
      destruct (Z.eqb_spec r 0); [contradiction|]. simpl in T.
      destruct (Nat.leb_spec (guide_result st i) (S i)); [lia|]. discriminate. }
  subst j. exists res, e. auto.
Qed.

Fixpoint alive (ks : list kid) : nat :=
  match ks with nil => 0 | Gone :: r => alive r | _ :: r => S (alive r) end.

Lemma alive_put_gone : forall ks k x, nth_error ks k = Some x -> x <> Gone ->
  S (alive (put k Gone ks)) = alive ks.
Proof.
  induction ks as [|y ks IH]; intros [|k] x H N; simpl in *; try discriminate.
  - injection H as H; subst y. destruct x; [reflexivity|reflexivity|contradiction].
  - destruct y; simpl; rewrite (IH k x H N); reflexivity.
Qed.

Lemma alive_put : forall ks k x y, nth_error ks k = Some x -> x <> Gone -> y <> Gone ->
  alive (put k y ks) = alive ks.
Proof.
  induction ks as [|z ks IH]; intros [|k] x y H N M; simpl in *; try discriminate.
  - injection H as H; subst z. destruct x; destruct y; try contradiction; reflexivity.
  - destruct z; simpl; rewrite (IH k x y H N M); reflexivity.
Qed.

Lemma alive_0 : forall ks, alive ks = 0 <-> (forall x, In x ks -> x = Gone).
Proof.
  induction ks as [|y ks IH]; simpl; split; intros H.
  - intros x [].
  - reflexivity.
  - intros x [E|I]; subst; [destruct x; try discriminate; reflexivity|].
    apply IH; [|exact I]. destruct y; try discriminate; exact H.
  - rewrite (H y (or_introl eq_refl)). apply IH. intros x I. apply H. auto.
Qed.

Lemma kill_gone : forall ks pids, length pids = length ks ->
  (forall k, nth_error pids k = Some false -> nth_error ks k = Some Gone) ->
  forall x, In x (kill_all pids ks) -> x = Gone.
Proof.
  induction ks as [|y ks IH]; intros [|b pids] L H x I; simpl in *; try discriminate; try contradiction.
  destruct b; simpl in I; destruct I as [I|I].
  - auto.
  - apply (IH pids); [lia| |exact I]. intros k Hk. apply (H (S k)). exact Hk.
  - subst y. specialize (H 0 eq_refl). simpl in H. injection H as H. exact H.
  - apply (IH pids); [lia| |exact I]. intros k Hk. apply (H (S k)). exact Hk.
Qed.

Definition kinv (o : list event) (k : nat) (x : kid) : Prop :=
  match x with
  | Running i res => pre o k i /\ cause k i res
  | Ended w => done o k w
  | Gone => exists w, done o k w /\ w <> Exited 0
  end.

Record Inv (f : nat) (s : system) : Prop := {
  inv_len : length (kids s) = f;
  inv_start : forall k i, In (Start k i) (out s) -> k < f /\ i mod m = k /\ pre (out s) k i /\
      forall j r, nth_error (kids s) k = Some (Running j r) -> i < j;
  inv_shown : forall k i, In (Shown k i) (out s) -> In (Start k i) (out s) /\
      exists r a, act k i = Ran r a /\ (r = 0%Z \/ r = 1%Z /\ a = true);
  inv_nodup : NoDup (started (out s));
  inv_par : match par s with
    | Waiting live stat pids =>
        length pids = f /\
        (forall k, nth_error pids k = Some false -> nth_error (kids s) k = Some Gone) /\
        alive (kids s) <= live /\ 0 < live /\ stat <> Some (Exited 0) /\
        (forall k x, nth_error (kids s) k = Some x -> kinv (out s) k x)
    | Exit c =>
        (forall x, In x (kids s) -> x = Gone) /\
        ((c = 0 /\ exists k, k < f /\ done (out s) k (Exited 0)) \/
         (c = (if ltb then 1 else 0) /\ In NotFound (out s) /\
          forall k, k < f -> exists w, done (out s) k w /\ w <> Exited 0))
    end }.

Lemma kinv_mono : forall o o' k x, incl o o' -> kinv o k x -> kinv o' k x.
Proof.
  intros o o' k [i r|w|] H K; simpl in *.
  - destruct K as (K1 & K2). split; [exact (pre_mono o o' k i H K1)|exact K2].
  - exact (done_mono o o' k w H K).
  - destruct K as (w & K & N). exists w. split; [exact (done_mono o o' k w H K)|exact N].
Qed.

Lemma nth_lt : forall (A : Type) (l : list A) k x, nth_error l k = Some x -> k < length l.
Proof. intros A l k x H. apply nth_error_Some. rewrite H. discriminate. Qed.

Lemma nodup_app_one : forall (l : list nat) e i, NoDup l -> ~ In i l -> (e = nil \/ e = [i]) -> NoDup (l ++ e).
Proof.
  intros l e i N I [E|E]; subst e; [rewrite app_nil_r; exact N|].
  apply NoDup_rev in N. rewrite <- (rev_involutive (l ++ [i])). apply NoDup_rev.
  rewrite rev_app_distr. simpl. constructor; [|exact N]. rewrite <- in_rev. exact I.
Qed.

Lemma inv_kid : forall f s k i res x e, Inv f s ->
  nth_error (kids s) k = Some (Running i res) -> turn_step true k i res = (x, e) ->
  Inv f (System (put k x (kids s)) (par s) (out s ++ e)).
Proof.
  intros f s k i res x e I K T.
  assert (Kl : k < f) by (rewrite <- (inv_len f s I); exact (nth_lt _ _ _ _ K)).
  assert (In1 : incl (out s) (out s ++ e)) by (intros z Hz; apply in_or_app; auto).
  assert (W : exists live stat pids, par s = Waiting live stat pids).
  { pose proof (inv_par f s I) as P. destruct (par s) as [live stat pids|c]; [eauto|].
    destruct P as (P & _). apply nth_error_In in K. apply P in K. discriminate. }
  destruct W as (live & stat & pids & W).
  pose proof (inv_par f s I) as P. rewrite W in P.
  destruct P as (P1 & P2 & P3 & P4 & P5 & P6).
  pose proof (P6 k _ K) as KI. simpl in KI. destruct KI as (KP & KC).
  destruct (turn_events k i res x e T) as (E1 & E2 & E3).
  assert (NG : x <> Gone).
  { destruct (turn_cases k i res x e T) as [(_ & A & _)|[(_ & w & A)|(_ & r & a & _ & _ & _ & A & _)]];
      rewrite A; discriminate. }
  constructor; simpl.
  - rewrite put_length. exact (inv_len f s I).
  - intros k' i' H. apply in_app_or in H. destruct H as [H|H].
    + destruct (inv_start f s I k' i' H) as (A & B & C & D). split; [exact A|]. split; [exact B|].
      split; [exact (pre_mono _ _ _ _ In1 C)|]. intros j r N.
      destruct (Nat.eq_dec k' k) as [->|Nk].
      * rewrite put_same in N by (rewrite (inv_len f s I); exact Kl). injection N as N. subst x.
        specialize (D i res K).
        destruct (turn_cases k i res _ e T) as [(_ & Q & _)|[(_ & w & Q)|(_ & r' & a & _ & _ & _ & Q & _)]];
          try discriminate; injection Q as Q _; lia.
      * rewrite put_other in N by exact Nk. exact (D j r N).
    + destruct (E1 k' i' H) as (-> & -> & E). split; [exact Kl|]. split; [exact E|].
      split; [exact (pre_mono _ _ _ _ In1 KP)|]. intros j r N.
      rewrite put_same in N by (rewrite (inv_len f s I); exact Kl). injection N as N. subst x.
      destruct (turn_cases k i res _ e T) as [(_ & Q & _)|[(_ & w & Q)|(_ & r' & a & _ & _ & _ & Q & _)]];
          try discriminate; injection Q as Q _; lia.
  - intros k' i' H. apply in_app_or in H. destruct H as [H|H].
    + destruct (inv_shown f s I k' i' H) as (A & B). split; [apply In1; exact A|exact B].
    + destruct (E3 k' i' H) as (-> & -> & A & B). split; [apply in_or_app; right; exact A|exact B].
  - rewrite starts_app. destruct E2 as [E2|E2]; [rewrite E2, app_nil_r; exact (inv_nodup f s I)|].
    apply nodup_app_one with (i := i); [exact (inv_nodup f s I)| |right; exact E2].
    intros Hi. rewrite started_in in Hi. destruct Hi as (k' & Hi).
    destruct (inv_start f s I k' i Hi) as (A & B & C & D).
    assert (Q : In i (started e)) by (rewrite E2; left; reflexivity).
    rewrite started_in in Q. destruct Q as (k2 & Q). destruct (E1 k2 i Q) as (_ & _ & Q2).
    rewrite B in Q2. rewrite Q2 in D. specialize (D i res K). lia.
  - rewrite W. split; [exact P1|]. split; [|split; [|split; [exact P4|split; [exact P5|]]]].
    + intros k' H. destruct (Nat.eq_dec k' k) as [->|Nk].
      * rewrite (P2 k H) in K. discriminate.
      * rewrite put_other by exact Nk. exact (P2 k' H).
    + rewrite (alive_put _ _ _ x K); [exact P3|discriminate|exact NG].
    + intros k' y H. destruct (Nat.eq_dec k' k) as [->|Nk].
      * rewrite put_same in H by (rewrite (inv_len f s I); exact Kl). injection H as H. subst y.
        destruct (turn_cases k i res x e T) as [(Q & A & A')|[(Q & w & A)|(Q & r & a & R1 & R2 & R3 & A & R4)]]; subst x; simpl.
        -- split; [|exact KC]. intros j Hj Ej. apply (pre_mono _ _ _ _ In1 KP); [|exact Ej].
           assert (j <> i) by (intros ->; contradiction). lia.
        -- exists i, res, e. split; [exact Q|]. split; [exact (pre_mono _ _ _ _ In1 KP)|]. split; [exact KC|].
           split; [exact T|]. intros z Hz. apply in_or_app; auto.
        -- split; [|right; exists i, a; auto]. intros j Hj Ej. destruct (Nat.eq_dec j i) as [->|Nj].
           ++ exists r, a. split; [exact R1|]. split; [exact R2|]. split; [exact R3|]. apply in_or_app; auto.
           ++ apply (pre_mono _ _ _ _ In1 KP); [lia|exact Ej].
      * rewrite put_other in H by exact Nk. exact (kinv_mono _ _ _ _ In1 (P6 k' y H)).
Qed.

Lemma repeat_nth : forall (A : Type) (x y : A) n k, nth_error (repeat x n) k = Some y -> y = x.
Proof. intros A x y n k H. apply nth_error_In in H. exact (repeat_spec _ _ _ H). Qed.

Lemma alive_repeat : forall n i r, alive (repeat (Running i r) n) = n.
Proof. induction n as [|n IH]; intros; simpl; auto. Qed.

Lemma inv_forked : forall f, 0 < f -> Inv f (forked f).
Proof.
  intros f H. constructor; simpl.
  - apply repeat_length.
  - intros k i [].
  - intros k i [].
  - constructor.
  - split; [apply repeat_length|]. split; [|split; [|split; [exact H|split; [discriminate|]]]].
    + intros k Hk. apply repeat_nth in Hk. discriminate.
    + rewrite alive_repeat. lia.
    + intros k x Hx. apply repeat_nth in Hx. subst x. simpl. split; [|left; reflexivity].
      intros j Hj. lia.
Qed.

Lemma all_gone_done : forall f s, Inv f s -> forall live stat pids, par s = Waiting live stat pids ->
  forall ks, length ks = f -> (forall x, In x ks -> x = Gone) ->
  (forall k, k < f -> nth_error ks k = Some Gone -> exists w, done (out s) k w /\ w <> Exited 0) ->
  forall k, k < f -> exists w, done (out s) k w /\ w <> Exited 0.
Proof.
  intros f s I live stat pids W ks L G H k Hk. apply H; [exact Hk|].
  destruct (nth_error ks k) as [x|] eqn:E.
  - f_equal. apply G. exact (nth_error_In _ _ E).
  - apply nth_error_None in E. lia.
Qed.

Lemma inv_wait : forall f s k w live stat pids, Inv f s ->
  par s = Waiting live stat pids -> nth_error (kids s) k = Some (Ended w) ->
  Inv f (parent_step ltb s live (Some w) pids (Some k)).
Proof.
  intros f s k w live stat pids I W K.
  assert (Kl : k < f) by (rewrite <- (inv_len f s I); exact (nth_lt _ _ _ _ K)).
  pose proof (inv_par f s I) as P. rewrite W in P. destruct P as (P1 & P2 & P3 & P4 & P5 & P6).
  pose proof (P6 k _ K) as KI. simpl in KI.
  pose proof (alive_put_gone _ _ _ K ltac:(discriminate)) as AL.
  assert (NR : forall k' j r, nth_error (put k Gone (kids s)) k' = Some (Running j r) ->
                 nth_error (kids s) k' = Some (Running j r)).
  { intros k' j r N. destruct (Nat.eq_dec k' k) as [->|Nk].
    - rewrite put_same in N by (rewrite (inv_len f s I); exact Kl). discriminate.
    - rewrite put_other in N by exact Nk. exact N. }
  assert (NK : w <> Exited 0 -> forall k' x, nth_error (put k Gone (kids s)) k' = Some x -> kinv (out s) k' x).
  { intros Nw k' x N. destruct (Nat.eq_dec k' k) as [->|Nk].
    - rewrite put_same in N by (rewrite (inv_len f s I); exact Kl). injection N as N. subst x.
      exists w. auto.
    - rewrite put_other in N by exact Nk. exact (P6 k' x N). }
  assert (PG : forall k', nth_error (put k false pids) k' = Some false -> nth_error (put k Gone (kids s)) k' = Some Gone).
  { intros k' H. destruct (Nat.eq_dec k' k) as [->|Nk].
    - apply put_same. rewrite (inv_len f s I). exact Kl.
    - rewrite put_other by exact Nk. rewrite put_other in H by exact Nk. exact (P2 k' H). }
  unfold parent_step. destruct w as [e|].
  - destruct (Nat.eqb_spec e 0) as [->|Ne].
    + assert (KG : forall x, In x (kill_all (put k false pids) (put k Gone (kids s))) -> x = Gone).
      { apply kill_gone; [rewrite !put_length, P1, (inv_len f s I); reflexivity|exact PG]. }
      constructor; simpl.
      * assert (X : forall p ks, length (kill_all p ks) = length ks).
        { induction p as [|[] p IH]; intros [|y ks]; simpl; auto. }
        rewrite X, put_length. exact (inv_len f s I).
      * intros k' i' H. destruct (inv_start f s I k' i' H) as (A & B & C & D).
        split; [exact A|]. split; [exact B|]. split; [exact C|]. intros j r N.
        apply nth_error_In in N. apply KG in N. discriminate.
      * exact (inv_shown f s I).
      * exact (inv_nodup f s I).
      * split; [exact KG|]. left. split; [reflexivity|]. exists k. auto.
    + assert (Nw : Exited e <> Exited 0) by (intros X; injection X as X; contradiction).
      specialize (NK Nw). destruct live as [|[|l]]; [lia| |]; simpl.
      * assert (KG : forall x, In x (put k Gone (kids s)) -> x = Gone) by (apply alive_0; lia).
        assert (IN : incl (out s) (out s ++ [NotFound])) by (intros z Hz; apply in_or_app; auto).
        constructor; simpl.
        -- rewrite put_length. exact (inv_len f s I).
        -- intros k' i' H. apply in_app_or in H. destruct H as [H|[H|[]]]; [|discriminate].
           destruct (inv_start f s I k' i' H) as (A & B & C & D).
           split; [exact A|]. split; [exact B|]. split; [exact (pre_mono _ _ _ _ IN C)|]. intros j r N. exact (D j r (NR _ _ _ N)).
        -- intros k' i' H. apply in_app_or in H. destruct H as [H|[H|[]]]; [|discriminate].
           destruct (inv_shown f s I k' i' H) as (A & B). split; [apply IN; exact A|exact B].
        -- rewrite starts_app. simpl. rewrite app_nil_r. exact (inv_nodup f s I).
        -- split; [exact KG|]. right. split; [reflexivity|]. split; [apply in_or_app; right; left; reflexivity|].
           intros k' Hk'. destruct (nth_error (put k Gone (kids s)) k') as [x|] eqn:E.
           ++ pose proof (NK k' x E) as Q. rewrite (KG x (nth_error_In _ _ E)) in Q. simpl in Q.
              destruct Q as (w & Q1 & Q2). exists w. split; [exact (done_mono _ _ _ _ IN Q1)|exact Q2].
           ++ apply nth_error_None in E. rewrite put_length, (inv_len f s I) in E. lia.
      * constructor; simpl.
        -- rewrite put_length. exact (inv_len f s I).
        -- intros k' i' H. destruct (inv_start f s I k' i' H) as (A & B & C & D).
           split; [exact A|]. split; [exact B|]. split; [exact C|]. intros j r N. exact (D j r (NR _ _ _ N)).
        -- exact (inv_shown f s I).
        -- exact (inv_nodup f s I).
        -- split; [rewrite put_length; exact P1|]. split; [exact PG|]. split; [lia|]. split; [lia|].
           split; [intros X; injection X as X; contradiction|exact NK].
  - constructor; simpl.
    + rewrite put_length. exact (inv_len f s I).
    + intros k' i' H. destruct (inv_start f s I k' i' H) as (A & B & C & D).
      split; [exact A|]. split; [exact B|]. split; [exact C|]. intros j r N. exact (D j r (NR _ _ _ N)).
    + exact (inv_shown f s I).
    + exact (inv_nodup f s I).
    + split; [exact P1|]. split; [|split; [lia|split; [exact P4|split; [discriminate|exact (NK ltac:(discriminate))]]]].
      intros k' H. destruct (Nat.eq_dec k' k) as [->|Nk].
      * apply put_same. rewrite (inv_len f s I). exact Kl.
      * rewrite put_other by exact Nk. exact (P2 k' H).
Qed.

Lemma inv_nochild : forall f s live stat pids, Inv f s ->
  par s = Waiting live stat pids -> (forall x, In x (kids s) -> x = Gone) ->
  Inv f (parent_step ltb s live stat pids None).
Proof.
  intros f s live stat pids I W G.
  pose proof (inv_par f s I) as P. rewrite W in P. destruct P as (P1 & P2 & P3 & P4 & P5 & P6).
  pose proof (proj2 (alive_0 (kids s)) G) as A0.
  unfold parent_step. destruct stat as [[e|]|].
  - destruct (Nat.eqb_spec e 0) as [->|Ne]; [contradiction|].
    destruct live as [|[|l]]; [lia| |]; simpl.
    + assert (IN : incl (out s) (out s ++ [NotFound])) by (intros z Hz; apply in_or_app; auto).
      constructor; simpl.
      * exact (inv_len f s I).
      * intros k' i' H. apply in_app_or in H. destruct H as [H|[H|[]]]; [|discriminate].
        destruct (inv_start f s I k' i' H) as (A & B & C & D).
        split; [exact A|]. split; [exact B|]. split; [exact (pre_mono _ _ _ _ IN C)|exact D].
      * intros k' i' H. apply in_app_or in H. destruct H as [H|[H|[]]]; [|discriminate].
        destruct (inv_shown f s I k' i' H) as (A & B). split; [apply IN; exact A|exact B].
      * rewrite starts_app. simpl. rewrite app_nil_r. exact (inv_nodup f s I).
      * split; [exact G|]. right. split; [reflexivity|]. split; [apply in_or_app; right; left; reflexivity|].
        intros k' Hk'. destruct (nth_error (kids s) k') as [x|] eqn:E.
        -- pose proof (P6 k' x E) as Q. rewrite (G x (nth_error_In _ _ E)) in Q. simpl in Q.
           destruct Q as (w & Q1 & Q2). exists w. split; [exact (done_mono _ _ _ _ IN Q1)|exact Q2].
        -- apply nth_error_None in E. rewrite (inv_len f s I) in E. lia.
    + constructor; simpl.
      * exact (inv_len f s I).
      * exact (inv_start f s I).
      * exact (inv_shown f s I).
      * exact (inv_nodup f s I).
      * split; [exact P1|]. split; [exact P2|]. split; [lia|]. split; [lia|]. split; [exact P5|exact P6].
  - constructor; simpl.
    + exact (inv_len f s I).
    + exact (inv_start f s I).
    + exact (inv_shown f s I).
    + exact (inv_nodup f s I).
    + split; [exact P1|]. split; [exact P2|]. split; [exact P3|]. split; [exact P4|]. split; [exact P5|exact P6].
  - constructor; simpl.
    + exact (inv_len f s I).
    + exact (inv_start f s I).
    + exact (inv_shown f s I).
    + exact (inv_nodup f s I).
    + split; [exact P1|]. split; [exact P2|]. split; [exact P3|]. split; [exact P4|]. split; [exact P5|exact P6].
Qed.

Lemma inv_step : forall f s t, Inv f s -> step s t -> Inv f t.
Proof.
  intros f s t I S. destruct S as [s k i res x e K T|s k w live stat pids W K|s live stat pids W G].
  - exact (inv_kid f s k i res x e I K T).
  - exact (inv_wait f s k w live stat pids I W K).
  - exact (inv_nochild f s live stat pids I W G).
Qed.

Lemma inv_reaches : forall f s, 0 < f -> reaches (forked f) s -> Inv f s.
Proof.
  intros f s H R. remember (forked f) as s0 eqn:E. induction R as [s|s t u R IH S].
  - subst s. exact (inv_forked f H).
  - exact (inv_step f t u (IH E) S).
Qed.

(** A state with a waiting parent has a step. *)
Lemma waiting_steps : forall s live stat pids, par s = Waiting live stat pids -> exists t, step s t.
Proof.
  intros s live stat pids W.
  assert (D : (exists k x, nth_error (kids s) k = Some x /\ x <> Gone) \/ (forall x, In x (kids s) -> x = Gone)).
  { generalize (kids s). induction l as [|y l [(k & x & A & B)|IH]].
    - right. intros x [].
    - left. exists (S k), x. auto.
    - destruct y.
      + left. exists 0. eexists. split; [reflexivity|discriminate].
      + left. exists 0. eexists. split; [reflexivity|discriminate].
      + right. intros x [E|E]; auto. }
  destruct D as [(k & x & A & B)|G].
  - destruct x as [i res|w|]; [| |contradiction].
    + destruct (turn_step true k i res) as [x e] eqn:T. eexists. exact (step_kid _ _ _ _ s k i res x e A T).
    + eexists. exact (step_wait _ _ _ _ s k w live stat pids W A).
  - eexists. exact (step_nochild _ _ _ _ s live stat pids W G).
Qed.

Lemma low8_nz : forall r, (-256 < r < 256)%Z -> r <> 0%Z -> low8 r <> 0.
Proof.
  intros r H N. unfold low8. assert (r mod 256 <> 0)%Z.
  { intros E. apply Z.mod_divide in E; [|lia]. destruct E as (q & E). lia. }
  pose proof (Z.mod_pos_bound r 256). lia.
Qed.

(** In the mode in which the exit status tells, status 0 is a proof shown. *)
Lemma exited0 : forall k j res e, ltb = true -> small_codes act -> cause k j res -> j mod m = k ->
  turn_step true k j res = (Ended (Exited 0), e) ->
  exists a, act k j = Ran 0 a /\ In (Shown k j) e.
Proof.
  intros k j res e L SC C E T. unfold FkModel.turn_step in T. rewrite E, Nat.eqb_refl in T. simpl in T.
  destruct (act k j) as [| | | |r a] eqn:A; unfold finish in T; rewrite ?L in T; simpl in T; try discriminate.
  - destruct C as [->|(j' & a & A' & N)].
    + discriminate.
    + destruct (Z.eqb_spec res 0); [contradiction|]. injection T as T _.
      exfalso. exact (low8_nz res (SC _ _ _ _ A') N T).
  - destruct (Z.eqb_spec r 0) as [->|N]; simpl in T.
    + injection T as T. subst e. exists a. split; [reflexivity|]. right. left. reflexivity.
    + destruct (Nat.leb (guide_result st j) (S j)); [|discriminate]. injection T as T _.
      exfalso. exact (low8_nz r (SC _ _ _ _ A) N T).
Qed.

Lemma plain_result : plain st -> forall i, guide_result st i = length st.
Proof.
  intros P i. unfold guide_result. destruct (nth_error st i) as [[]|] eqn:E; auto.
  apply nth_error_In in E. unfold plain in P. rewrite Forall_forall in P. apply P in E. discriminate.
Qed.

Lemma past_result : forall i, length st <= i -> guide_result st i = length st.
Proof. intros i H. unfold guide_result. apply nth_error_None in H. rewrite H. reflexivity. Qed.

(** A worker that ended without exit status 0 met no proof. *)
Lemma done_no_proof : forall o k w i a, done o k w -> w <> Exited 0 -> i mod m = k ->
  act k i = Ran 0 a -> pre o k i -> False.
Proof.
  intros o k w i a D N E A P.
  assert (T : forall res, turn_step true k i res = (Ended (Exited 0), [Start k i; Shown k i])).
  { intros res. unfold FkModel.turn_step. rewrite E, Nat.eqb_refl, A. simpl. reflexivity. }
  destruct (done_unique o k w i D P E) as (res & e & _ & T' & _).
  - exists (Exited 0), [Start k i; Shown k i], 1%Z. apply T.
  - rewrite T in T'. injection T' as T' _. congruence.
Qed.

Lemma fruitless_turn : forall k i res, plain st -> i mod m = k -> fruitless (act k i) -> S i < length st ->
  exists r e, turn_step true k i res = (Running (S i) r, e).
Proof.
  intros k i res P E (r & a & A & N) L. unfold FkModel.turn_step. rewrite E, Nat.eqb_refl, A. simpl.
  destruct (Z.eqb_spec r 0); [contradiction|]. rewrite (plain_result P).
  destruct (Nat.leb_spec (length st) (S i)); [lia|]. eauto.
Qed.

(** A worker that would come to a proof does not end otherwise. *)
Lemma finds_done : forall o k w i, plain st -> finds st m act k i -> done o k w -> w = Exited 0.
Proof.
  intros o k w i P (Hi & E & (a & A) & F) (j & res & e & B1 & B2 & B3 & B4 & B5).
  destruct (lt_eq_lt_dec j i) as [[L|L]|L].
  - destruct (fruitless_turn k j res P B1 (F j L B1)) as (r & e' & T); [lia|]. rewrite B4 in T. discriminate.
  - subst j. unfold FkModel.turn_step in B4. rewrite E, Nat.eqb_refl, A in B4. simpl in B4.
    injection B4 as B4 _. symmetry. exact B4.
  - destruct (B2 i L E) as (r & a' & A' & N & _). rewrite A in A'. injection A' as A' _. congruence.
Qed.

(** A worker that ended after fruitless runs only has started all its runs, and says so. *)
Lemma done_all : forall o k w, plain st -> done o k w ->
  (forall i, i mod m = k -> fruitless (act k i)) ->
  In NotFound o /\ forall i, i < length st -> i mod m = k -> In (Start k i) o.
Proof.
  intros o k w P (j & res & e & B1 & B2 & B3 & B4 & B5) F.
  assert (L : length st <= S j).
  { destruct (le_lt_dec (length st) (S j)) as [L|L]; [exact L|].
    destruct (fruitless_turn k j res P B1 (F j B1) L) as (r & e' & T). rewrite B4 in T. discriminate. }
  destruct (F j B1) as (r & a & A & N).
  unfold FkModel.turn_step in B4. rewrite B1, Nat.eqb_refl, A in B4. simpl in B4.
  destruct (Z.eqb_spec r 0) as [|Nz]; [contradiction|]. simpl in B4. rewrite (plain_result P) in B4.
  destruct (Nat.leb_spec (length st) (S j)); [|lia]. unfold finish in B4.
  destruct (Z.eqb_spec r 0); [contradiction|]. injection B4 as B4 B6. subst e. split.
  - apply B5. right. apply in_or_app. right. left. reflexivity.
  - intros i Hi Ei. destruct (Nat.eq_dec i j) as [->|Nj]; [apply B5; left; reflexivity|].
    assert (Lj : i < j) by lia. destruct (B2 i Lj Ei) as (_ & _ & _ & _ & _ & Q). exact Q.
Qed.

(** Termination when no worker is ended by a signal. *)
Lemma own_turn : forall n k, k < m -> exists j, n <= j < n + m /\ j mod m = k.
Proof.
  intros n k H. pose proof (Nat.div_mod n m ltac:(lia)) as D. pose proof (Nat.mod_upper_bound n m ltac:(lia)) as B.
  destruct (le_lt_dec (n mod m) k) as [L|L].
  - exists (k + n / m * m). split; [nia|]. rewrite Nat.mod_add by lia. apply Nat.mod_small. exact H.
  - exists (k + S (n / m) * m). split; [nia|]. rewrite Nat.mod_add by lia. apply Nat.mod_small. exact H.
Qed.

Lemma pre_bound : forall o k i, k < m -> pre o k i -> i < length st + m.
Proof.
  intros o k i H P. destruct (le_lt_dec (length st + m) i) as [L|L]; [|exact L].
  destruct (own_turn (length st) k H) as (j & Hj & E).
  destruct (P j ltac:(lia) E) as (r & a & _ & _ & Q & _). rewrite past_result in Q; lia.
Qed.

Definition weight (x : kid) : nat :=
  match x with Running i _ => S (length st + m - i) | Ended _ => 1 | Gone => 0 end.
Fixpoint total (ks : list kid) : nat := match ks with nil => 0 | x :: r => weight x + total r end.

Lemma total_put : forall ks k x y, nth_error ks k = Some x -> total (put k y ks) + weight x = total ks + weight y.
Proof.
  induction ks as [|z ks IH]; intros [|k] x y H; simpl in *; try discriminate.
  - injection H as H. subst z. lia.
  - specialize (IH k x y H). lia.
Qed.

Lemma total_kill : forall p ks, total (kill_all p ks) <= total ks.
Proof. induction p as [|[] p IH]; intros [|y ks]; simpl; auto; specialize (IH ks); lia. Qed.

Definition Calm (s : system) : Prop :=
  match par s with Waiting live _ _ => live <= alive (kids s) | Exit _ => True end.

Lemma done_calm : forall o k w, calm act -> done o k w -> exists e, w = Exited e.
Proof.
  intros o k w C (j & res & e & B1 & B2 & B3 & B4 & B5). unfold FkModel.turn_step in B4.
  rewrite B1, Nat.eqb_refl in B4. simpl in B4. specialize (C k j).
  destruct (act k j) as [| | | |r a]; unfold finish in B4; simpl in B4.
  - injection B4 as B4 _. eauto.
  - injection B4 as B4 _. eauto.
  - destruct (res =? 0)%Z; injection B4 as B4 _; eauto.
  - contradiction.
  - destruct (r =? 0)%Z; simpl in B4; [injection B4 as B4 _; eauto|].
    destruct (Nat.leb (guide_result st j) (S j)); [|discriminate].
    injection B4 as B4 _; eauto.
Qed.

Lemma calm_step : forall f s t, f <= m -> calm act -> Inv f s -> Calm s -> step s t ->
  Calm t /\ total (kids t) < total (kids s).
Proof.
  intros f s t Hf C I CS S. destruct S as [s k i res x e K T|s k w live stat pids W K|s live stat pids W G].
  - assert (Kl : k < f) by (rewrite <- (inv_len f s I); exact (nth_lt _ _ _ _ K)).
    pose proof (inv_par f s I) as P. destruct (par s) as [live stat pids|c] eqn:W.
    2:{ destruct P as (P & _). apply nth_error_In in K. apply P in K. discriminate. }
    destruct P as (P1 & P2 & P3 & P4 & P5 & P6).
    destruct (P6 k _ K) as (KP & _). pose proof (pre_bound _ k i ltac:(lia) KP) as B.
    pose proof (total_put (kids s) k _ x K) as TP. simpl in TP.
    assert (WX : weight x < S (length st + m - i) /\ x <> Gone).
    { destruct (turn_cases k i res x e T) as [(_ & A & _)|[(_ & w & A)|(_ & r & a & _ & _ & _ & A & _)]];
        subst x; simpl; (split; [lia|discriminate]). }
    split; [|simpl; lia]. unfold Calm in *. simpl. rewrite W in *.
    rewrite (alive_put _ _ _ x K); [exact CS|discriminate|apply WX].
  - pose proof (inv_par f s I) as P. rewrite W in P. destruct P as (P1 & P2 & P3 & P4 & P5 & P6).
    destruct (done_calm _ _ _ C (P6 k _ K)) as (e & ->).
    pose proof (total_put (kids s) k _ Gone K) as TP. simpl in TP.
    pose proof (alive_put_gone _ _ _ K ltac:(discriminate)) as AL.
    unfold Calm in CS. rewrite W in CS. unfold parent_step.
    destruct (Nat.eqb e 0).
    + split; [exact Logic.I|]. simpl. pose proof (total_kill (put k false pids) (put k Gone (kids s))). lia.
    + destruct live as [|[|l]]; simpl.
      * lia.
      * split; [exact Logic.I|lia].
      * split; [unfold Calm; simpl; lia|lia].
  - pose proof (inv_par f s I) as P. rewrite W in P. destruct P as (P1 & P2 & P3 & P4 & P5 & P6).
    unfold Calm in CS. rewrite W in CS. pose proof (proj2 (alive_0 (kids s)) G). lia.
Qed.

Lemma calm_reaches : forall f s, 0 < f -> f <= m -> calm act -> reaches (forked f) s -> Calm s.
Proof.
  intros f s H Hf C R. remember (forked f) as s0 eqn:E. induction R as [s|s t u R IH S].
  - subst s. unfold Calm. simpl. rewrite alive_repeat. lia.
  - subst s. specialize (IH eq_refl). pose proof (inv_reaches f t H R) as I.
    exact (proj1 (calm_step f t u Hf C I IH S)).
Qed.

End P.

(** The only process. *)
Section Alone.
Variable ltb : bool.
Variable st : strategy.
Variable m : nat.
Variable act : nat -> nat -> turn.
Notation turn_step := (turn_step ltb st m act).

Lemma alone_det : forall x e y e' y', alone ltb st m act x e y -> alone ltb st m act x e' y' ->
  (exists w, y = Ended w) -> (exists w, y' = Ended w) -> e = e' /\ y = y'.
Proof.
  intros x e y e' y' A. revert e' y'. induction A as [x|i res x e y e2 T A IH]; intros e' y' A' (w & E) (w' & E').
  - subst x. inversion A'; subst; auto.
  - inversion A' as [|i0 res0 x0 e0 y0 e1 T0 A0]; subst; [discriminate|].
    rewrite T in T0. injection T0 as -> ->.
    destruct (IH _ _ A0 ltac:(eauto) ltac:(eauto)) as (-> & ->). auto.
Qed.

Lemma alone_app : forall x e y e' z, alone ltb st m act x e y -> alone ltb st m act y e' z ->
  alone ltb st m act x (e ++ e') z.
Proof.
  intros x e y e' z A B. induction A as [x|i res x e y e2 T A IH]; [exact B|].
  rewrite <- app_assoc. exact (alone_turn _ _ _ _ i res x e z (e2 ++ e') T (IH B)).
Qed.

Lemma alone_fruitless : forall d i res, plain st -> (forall j, i <= j < i + d -> fruitless (act 0 j)) ->
  i + d < length st ->
  exists e r, alone ltb st m act (Running i res) e (Running (i + d) r) /\ started e = seq i d /\
    ~ In NotFound e /\ (forall k j, In (Shown k j) e -> fruitless (act k j)) /\ (d = 0 -> r = res).
Proof.
  induction d as [|d IH]; intros i res P F L.
  - exists nil, res. rewrite Nat.add_0_r. split; [constructor|]. split; [reflexivity|].
    split; [intros []|]. split; [intros k j []|auto].
  - destruct (F i ltac:(lia)) as (r & a & A & N).
    destruct (IH (S i) r P) as (e & r' & B1 & B2 & B3 & B4 & _); [intros j Hj; apply F; lia|lia|].
    assert (T : turn_step false 0 i res =
      (Running (S i) r, Start 0 i :: (if (r =? 0)%Z || (r =? 1)%Z && a then [Shown 0 i] else []))).
    { unfold FkModel.turn_step. simpl. rewrite A. destruct (Z.eqb_spec r 0); [contradiction|]. simpl.
      rewrite (plain_result st P). destruct (Nat.leb_spec (length st) (S i)); [lia|]. reflexivity. }
    exists ((Start 0 i :: (if (r =? 0)%Z || (r =? 1)%Z && a then [Shown 0 i] else [])) ++ e), r'.
    split; [replace (i + S d) with (S i + d) by lia; exact (alone_turn _ _ _ _ i res _ _ _ e T B1)|].
    split; [rewrite starts_app, B2; destruct ((r =? 0)%Z || (r =? 1)%Z && a); reflexivity|].
    split.
    + intros H. apply in_app_or in H. destruct H as [H|H]; [|exact (B3 H)].
      destruct ((r =? 0)%Z || (r =? 1)%Z && a); destruct H as [H|H]; try discriminate;
        [destruct H as [H|H]; [discriminate|contradiction]|contradiction].
    + split; [|discriminate]. intros k j H. apply in_app_or in H. destruct H as [H|H]; [|exact (B4 k j H)].
      destruct H as [H|H]; [discriminate|]. destruct ((r =? 0)%Z || (r =? 1)%Z && a); [|contradiction].
      destruct H as [H|[]]. injection H as <- <-. exists r, a. auto.
Qed.
End Alone.

(** Executing a schedule. *)
Inductive choice : Type := K (k : nat) | W (k : nat) | N.

Definition all_gone (ks : list kid) : bool := forallb (fun x => match x with Gone => true | _ => false end) ks.

Definition exec1 ltb st m act (c : choice) (s : system) : option system :=
  match c with
  | K k =>
      match nth_error (kids s) k with
      | Some (Running i res) =>
          let (x, e) := turn_step ltb st m act true k i res in
          Some (System (put k x (kids s)) (par s) (out s ++ e))
      | _ => None
      end
  | W k =>
      match par s, nth_error (kids s) k with
      | Waiting live stat pids, Some (Ended w) => Some (parent_step ltb s live (Some w) pids (Some k))
      | _, _ => None
      end
  | N =>
      match par s with
      | Waiting live stat pids =>
          if all_gone (kids s) then Some (parent_step ltb s live stat pids None) else None
      | _ => None
      end
  end.

Fixpoint exec ltb st m act (l : list choice) (s : system) : option system :=
  match l with
  | nil => Some s
  | c :: r => match exec1 ltb st m act c s with Some t => exec ltb st m act r t | None => None end
  end.

Lemma all_gone_spec : forall ks, all_gone ks = true -> forall x, In x ks -> x = Gone.
Proof.
  intros ks H x I. unfold all_gone in H. rewrite forallb_forall in H. specialize (H x I).
  destruct x; try discriminate; reflexivity.
Qed.

Lemma exec1_step : forall ltb st m act c s t, exec1 ltb st m act c s = Some t -> step ltb st m act s t.
Proof.
  intros ltb st m act [k|k|] s t H; simpl in H.
  - destruct (nth_error (kids s) k) as [[i res|w|]|] eqn:E; try discriminate.
    destruct (turn_step ltb st m act true k i res) as [x e] eqn:T. injection H as <-.
    exact (step_kid _ _ _ _ s k i res x e E T).
  - destruct (par s) as [live stat pids|c] eqn:P; try discriminate.
    destruct (nth_error (kids s) k) as [[i res|w|]|] eqn:E; try discriminate. injection H as <-.
    exact (step_wait _ _ _ _ s k w live stat pids P E).
  - destruct (par s) as [live stat pids|c] eqn:P; try discriminate.
    destruct (all_gone (kids s)) eqn:G; try discriminate. injection H as <-.
    exact (step_nochild _ _ _ _ s live stat pids P (all_gone_spec _ G)).
Qed.

Lemma reaches_trans : forall ltb st m act s t u, reaches ltb st m act s t -> reaches ltb st m act t u ->
  reaches ltb st m act s u.
Proof. intros ltb st m act s t u R Q. induction Q as [|t u v Q IH S]; [exact R|]. exact (reaches_step _ _ _ _ _ _ _ (IH R) S). Qed.

Lemma exec_reaches : forall ltb st m act l s t, exec ltb st m act l s = Some t -> reaches ltb st m act s t.
Proof.
  intros ltb st m act. induction l as [|c l IH]; intros s t H; simpl in H.
  - injection H as <-. constructor.
  - destruct (exec1 ltb st m act c s) as [u|] eqn:E; [|discriminate].
    exact (reaches_trans _ _ _ _ _ _ _ (reaches_step _ _ _ _ _ _ _ (reaches_refl _ _ _ _ s) (exec1_step _ _ _ _ _ _ _ E)) (IH _ _ H)).
Qed.

Lemma over_exit : forall ltb st p act s c, par s = Exit c -> all_gone (kids s) = true -> over ltb st p act s.
Proof.
  intros ltb st p act s c P G t S. pose proof (all_gone_spec _ G) as A.
  destruct S as [s k i res x e E T|s k w live stat pids W E|s live stat pids W _].
  - apply nth_error_In, A in E. discriminate.
  - rewrite P in W. discriminate.
  - rewrite P in W. discriminate.
Qed.
