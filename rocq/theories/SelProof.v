(** The choice of literals: proofs. *)
From Coq Require Import List ZArith Bool Lia.
From Verif Require Import Terms TermsProof OrdModel OrdSpec OrdProof OrdThm SelModel SelSpec.
Import ListNotations.
Open Scope Z_scope.

(** * The loops of the ordering strategy *)
Section Loops.
  Variable word : cst -> Z.
  Variable is_uri : cst -> bool.
  Variable uid : cst -> Z.
  Notation cmpl := (compare_lits word is_uri uid).
  Notation inner := (kb_inner word is_uri uid).
  Notation outer := (kb_outer word is_uri uid).
  Notation ent := (Z * vlist * term)%type.

  Lemma mark_true m i j : mark m i false j = true -> m j = true /\ j <> i.
  Proof. unfold mark. destruct (Nat.eqb_spec j i); [discriminate|auto]. Qed.
  Lemma mark_at m i : mark m i false i = false.
  Proof. unfold mark. now rewrite Nat.eqb_refl. Qed.

  Definition step i (x : ent) (y : option ent) j (m : nat -> bool) : nat -> bool :=
    if negb (m j) then m
    else match y with
         | None => mark m j false
         | Some y => let r := cmpl x y in
                     if r =? 1 then mark m j false else if r =? 2 then mark m i false else m
         end.
  Lemma inner_cons i x y ys j m : inner i x (y :: ys) j m = inner i x ys (S j) (step i x y j m).
  Proof. reflexivity. Qed.
  Lemma step_mono i x y j m k : step i x y j m k = true -> m k = true.
  Proof.
    unfold step. destruct (negb (m j)); [auto|]. destruct y as [y|]; [|intro H; now apply mark_true in H].
    cbn zeta. destruct (_ =? 1); [intro H; now apply mark_true in H|]. destruct (_ =? 2); [intro H; now apply mark_true in H|auto].
  Qed.
  Lemma inner_mono i x ys : forall j m k, inner i x ys j m k = true -> m k = true.
  Proof.
    induction ys as [|y ys IH]; intros j m k H; [exact H|]. rewrite inner_cons in H. apply IH in H. now apply step_mono in H.
  Qed.
  Lemma inner_hit_j i x ys : forall j m k y, nth_error ys k = Some (Some y) -> cmpl x y = 1 -> inner i x ys j m (j + k)%nat = false.
  Proof.
    induction ys as [|z ys IH]; intros j m [|k] y E H; cbn in E; try discriminate.
    - injection E as ->. rewrite inner_cons. destruct (inner i x ys (S j) (step i x (Some y) j m) (j + 0)%nat) eqn:F; [|reflexivity].
      exfalso. apply inner_mono in F. rewrite Nat.add_0_r in F. pose proof (step_mono _ _ _ _ _ _ F) as G.
      unfold step in F. rewrite G in F. cbn [negb] in F. cbn zeta in F. rewrite H in F. cbn in F. now rewrite mark_at in F.
    - rewrite inner_cons. replace (j + S k)%nat with (S j + k)%nat by lia. now apply (IH _ _ _ y).
  Qed.
  Lemma inner_hit_i i x ys : forall j m k y, nth_error ys k = Some (Some y) -> cmpl x y = 2 ->
    inner i x ys j m (j + k)%nat = true -> inner i x ys j m i = false.
  Proof.
    induction ys as [|z ys IH]; intros j m [|k] y E H T; cbn in E; try discriminate.
    - injection E as ->. rewrite inner_cons in *. apply inner_mono in T. rewrite Nat.add_0_r in T. apply step_mono in T.
      destruct (inner i x ys (S j) (step i x (Some y) j m) i) eqn:F; [|reflexivity]. exfalso.
      apply inner_mono in F. unfold step in F. rewrite T in F. cbn [negb] in F. cbn zeta in F. rewrite H in F. cbn in F. now rewrite mark_at in F.
    - rewrite inner_cons in *. replace (j + S k)%nat with (S j + k)%nat in T by lia. now apply (IH _ _ k y).
  Qed.

  (* marks are only taken from entries below another one *)
  Variable all : list (option ent).
  Definition sound (m : nat -> bool) : Prop := forall j x, nth_error all j = Some (Some x) -> m j = false ->
    exists i y, nth_error all i = Some (Some y) /\ (cmpl y x = 1 \/ cmpl x y = 2).
  Lemma step_sound i x y j m : nth_error all i = Some (Some x) -> nth_error all j = Some y -> sound m -> sound (step i x y j m).
  Proof.
    intros Hi Hj S k z Hk E. unfold step in E. destruct (negb (m j)) eqn:Mj; [eauto|]. destruct y as [y|].
    - cbn zeta in E. destruct (Z.eqb_spec (cmpl x y) 1) as [C|C].
      + unfold mark in E. destruct (Nat.eqb_spec k j) as [->|]; [|eauto]. rewrite Hj in Hk. injection Hk as <-. eauto.
      + destruct (Z.eqb_spec (cmpl x y) 2) as [D|D]; [|eauto].
        unfold mark in E. destruct (Nat.eqb_spec k i) as [->|]; [|eauto]. rewrite Hi in Hk. injection Hk as <-. eauto.
    - unfold mark in E. destruct (Nat.eqb_spec k j) as [->|]; [congruence|eauto].
  Qed.
  Lemma inner_sound i x ys : forall j m, nth_error all i = Some (Some x) ->
    (forall k y, nth_error ys k = Some y -> nth_error all (j + k) = Some y) -> sound m -> sound (inner i x ys j m).
  Proof.
    induction ys as [|y ys IH]; intros j m Hi Hs S; [exact S|]. rewrite inner_cons. apply IH; [exact Hi| |].
    - intros k z Hk. replace (Datatypes.S j + k)%nat with (j + Datatypes.S k)%nat by lia. apply Hs. exact Hk.
    - apply step_sound; [exact Hi| |exact S]. specialize (Hs 0%nat y eq_refl). now rewrite Nat.add_0_r in Hs.
  Qed.
  Definition step1 (x : option ent) xs i m := match x with None => mark m i false | Some x => inner i x xs (S i) m end.
  Lemma outer_cons x xs i m : outer (x :: xs) i m = outer xs (S i) (step1 x xs i m).
  Proof. reflexivity. Qed.
  Lemma step1_mono x xs i m k : step1 x xs i m k = true -> m k = true.
  Proof. destruct x; cbn; [apply inner_mono|intro H; now apply mark_true in H]. Qed.
  Lemma outer_mono xs : forall i m k, outer xs i m k = true -> m k = true.
  Proof. induction xs as [|x xs IH]; intros i m k H; [exact H|]. rewrite outer_cons in H. apply IH in H. now apply step1_mono in H. Qed.
  Lemma outer_none xs : forall i m k, nth_error xs k = Some None -> outer xs i m (i + k)%nat = false.
  Proof.
    induction xs as [|x xs IH]; intros i m [|k] E; cbn in E; try discriminate; rewrite outer_cons.
    - injection E as ->. rewrite Nat.add_0_r. destruct (outer xs (S i) _ i) eqn:F; [|reflexivity]. apply outer_mono in F. cbn in F. now rewrite mark_at in F.
    - replace (i + S k)%nat with (S i + k)%nat by lia. now apply IH.
  Qed.
  Lemma outer_hit xs : forall i m a b x y, nth_error xs a = Some (Some x) -> nth_error xs b = Some (Some y) -> (a < b)%nat ->
    (cmpl x y = 1 -> outer xs i m (i + b)%nat = false) /\
    (cmpl x y = 2 -> outer xs i m (i + b)%nat = true -> outer xs i m (i + a)%nat = false).
  Proof.
    induction xs as [|z xs IH]; intros i m [|a] [|b] x y Ea Eb L; cbn in Ea, Eb; try discriminate; try lia; rewrite !outer_cons.
    - injection Ea as ->. cbn [step1]. replace (i + S b)%nat with (S i + b)%nat by lia. rewrite Nat.add_0_r. split.
      + intro C. destruct (outer xs (S i) _ (S i + b)%nat) eqn:F; [|reflexivity]. apply outer_mono in F.
        now rewrite (inner_hit_j i x xs (S i) m b y Eb C) in F.
      + intros C T. apply outer_mono in T. destruct (outer xs (S i) _ i) eqn:F; [|reflexivity]. apply outer_mono in F.
        now rewrite (inner_hit_i i x xs (S i) m b y Eb C T) in F.
    - replace (i + S b)%nat with (S i + b)%nat by lia. replace (i + S a)%nat with (S i + a)%nat by lia.
      apply (IH (S i) _ a b x y); auto; lia.
  Qed.
  Lemma outer_sound xs : forall i m, (forall k y, nth_error xs k = Some y -> nth_error all (i + k) = Some y) ->
    sound m -> sound (outer xs i m).
  Proof.
    induction xs as [|x xs IH]; intros i m Hs S; [exact S|]. rewrite outer_cons.
    assert (Hi : nth_error all i = Some x) by (specialize (Hs 0%nat x eq_refl); now rewrite Nat.add_0_r in Hs).
    assert (Ht : forall k y, nth_error xs k = Some y -> nth_error all (Datatypes.S i + k) = Some y)
      by (intros k y Hk; replace (Datatypes.S i + k)%nat with (i + Datatypes.S k)%nat by lia; apply Hs; exact Hk).
    apply IH; [exact Ht|]. destruct x as [x|]; cbn [step1].
    - apply inner_sound; auto.
    - intros k z Hk E. unfold mark in E. destruct (Nat.eqb_spec k i) as [->|]; [congruence|eauto].
  Qed.

  (* the result, when the comparison is a strict order on the entries *)
  Definition mem (x : ent) := In (Some x) all.
  Hypothesis flipc : forall x y, mem x -> mem y -> cmpl x y = 2 <-> cmpl y x = 1.
  Hypothesis irr : forall x, mem x -> cmpl x x <> 1.
  Hypothesis tra : forall x y z, mem x -> mem y -> mem z -> cmpl x y = 1 -> cmpl y z = 1 -> cmpl x z = 1.

  Definition above (x : ent) (o : option ent) : bool := match o with Some y => cmpl y x =? 1 | None => false end.
  Lemma max_above : forall n x, mem x ->
    (length (filter (above x) all) <= n)%nat ->
    exists y, mem y /\ (y = x \/ cmpl y x = 1) /\ forall z, mem z -> cmpl z y <> 1.
  Proof.
    induction n as [|n IH]; intros x Hx Hn.
    - exists x. split; [exact Hx|]. split; [auto|]. intros z Hz C.
      assert (F : In (Some z) (filter (above x) all))
        by (apply filter_In; split; [exact Hz|now apply Z.eqb_eq]).
      destruct (filter _ all); [destruct F|cbn in Hn; lia].
    - destruct (existsb (above x) all) eqn:Ex.
      + apply existsb_exists in Ex as ([z|]&Hz&C); [|discriminate]. apply Z.eqb_eq in C.
        destruct (IH z Hz) as (y&Hy&Hyz&M).
        * assert (L : forall l, incl l all ->
            (length (filter (above z) l) <=
             length (filter (above x) l))%nat /\
            (In (Some z) l -> (length (filter (above z) l) <
             length (filter (above x) l))%nat)).
          { induction l as [|o l IHl]; intro Hl; [split; [cbn; lia|intros []]|].
            destruct (IHl ltac:(intros q Hq; apply Hl; now right)) as [L1 L2]. cbn [filter]. unfold above in *. destruct o as [w|].
            - assert (Hw : mem w) by (apply Hl; now left).
              destruct (Z.eqb_spec (cmpl w z) 1) as [A|A], (Z.eqb_spec (cmpl w x) 1) as [B|B]; cbn [length].
              + split; [lia|]. intros [Q|Q]; [injection Q as ->; now destruct (irr z Hz)|specialize (L2 Q); lia].
              + exfalso. apply B. now apply (tra w z x).
              + split; [lia|]. intros [Q|Q]; [lia|specialize (L2 Q); lia].
              + split; [lia|]. intros [Q|Q]; [injection Q as ->; contradiction|exact (L2 Q)].
            - split; [exact L1|]. intros [Q|Q]; [discriminate|exact (L2 Q)]. }
          specialize (L all (incl_refl _)) as [_ L]. specialize (L Hz). lia.
        * exists y. split; [exact Hy|]. split; [|exact M]. right. destruct Hyz as [->|D]; [exact C|now apply (tra y z x)].
      + exists x. split; [exact Hx|]. split; [auto|]. intros z Hz C.
        assert (F : existsb (above x) all = true)
          by (apply existsb_exists; exists (Some z); split; [exact Hz|now apply Z.eqb_eq]). congruence.
  Qed.

  Lemma outer_exact j x : nth_error all j = Some (Some x) ->
    outer all 0 (fun _ => true) j = true <-> forall y, mem y -> cmpl y x <> 1.
  Proof.
    intro Hj. assert (Hx : mem x) by (eapply nth_error_In; exact Hj).
    assert (S : sound (outer all 0 (fun _ => true))).
    { apply outer_sound; [intros k y Hk; exact Hk|]. intros k y _ E. discriminate. }
    assert (Top : forall k y, nth_error all k = Some (Some y) -> (forall z, mem z -> cmpl z y <> 1) -> outer all 0 (fun _ => true) k = true).
    { intros k y Hk M. destruct (outer all 0 (fun _ => true) k) eqn:F; [reflexivity|]. destruct (S k y Hk F) as (i&z&Hi&C).
      assert (Hz : mem z) by (eapply nth_error_In; exact Hi). assert (Hy : mem y) by (eapply nth_error_In; exact Hk).
      destruct C as [C|C]; [|apply flipc in C; [|exact Hy|exact Hz]]; now destruct (M z Hz). }
    split; [|intro M; now apply (Top j x)].
    intros T z Hz C. destruct (max_above _ z Hz (le_n _)) as (y&Hy&Hyz&M).
    assert (Cy : cmpl y x = 1) by (destruct Hyz as [->|D]; [exact C|now apply (tra y z x)]).
    destruct (In_nth_error _ _ Hy) as (k&Hk). pose proof (Top k y Hk M) as Tk.
    destruct (Nat.lt_trichotomy k j) as [L|[L|L]].
    - destruct (outer_hit all 0 (fun _ => true) k j y x Hk Hj L) as [A _]. cbn [Nat.add] in A. rewrite (A Cy) in T. discriminate.
    - subst k. rewrite Hj in Hk. injection Hk as <-. now destruct (irr x Hx).
    - destruct (outer_hit all 0 (fun _ => true) j k x y Hj Hk L) as [_ A]. cbn [Nat.add] in A.
      rewrite A in T; [discriminate|now apply flipc|exact Tk].
  Qed.
End Loops.
