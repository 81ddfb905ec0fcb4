From Coq Require Import List ZArith Bool Lia Permutation.
From Verif Require Import VecModel VecSpec VecProof QueueModel QueueSpec QueueProof PickModel PickSpec PickProof.
Import ListNotations.
Open Scope Z_scope.

Definition nx (k : Z) : Z := if 3 <=? k then 0 else k + 1.
Definition cur4 (s : sel) : Z := if 4 <=? cur s then 0 else cur s.

(** The states the choice passes through: blocks found empty, then one that gives a clause. *)
Inductive idles : list Z -> sel -> sel -> Prop :=
| id_nil s : idles [] s s
| id_cons s x l s' : pick_block (blk s (cur s)) = Some (None, x) ->
    idles l (set_cur (set_blk s (cur s) x) (nx (cur s))) s' -> idles (cur s :: l) s s'.
Definition after_hit (s : sel) (x : block) : sel :=
  if tratio x <=? tcount x then set_cur (set_blk s (cur s) (with_tcount x 0)) (cur s + 1)
  else set_blk s (cur s) (with_tcount x (tcount x + 1)).

Definition B4 (k : Z) : Prop := k = 0 \/ k = 1 \/ k = 2 \/ k = 3.

Ltac sb E H := let a := fresh in let b := fresh in let c := fresh in let d := fresh in injection E as a b c d; rewrite a in H; subst.
Lemma loop_char s : B4 (cur s) -> (forall k, pick_block (blk s k) <> None) ->
  (exists s', pick_queues s = Some (None, s') /\ exists l, idles l s s' /\ forall k, B4 k -> In k l) \/
  (exists l s1 light c x, idles l s s1 /\ B4 (cur s1) /\ ~ In (cur s1) l /\ pick_block (blk s1 (cur s1)) = Some (Some (light, c), x) /\
     pick_queues s = Some (Some (cur s1, light, c), after_hit s1 x)).
Proof.
  intros HC HN. unfold pick_queues.
  assert (E0 : (if 4 <=? cur s then set_cur s 0 else s) = s) by (destruct (Z.leb_spec 4 (cur s)); auto; destruct HC as [H1|[H1|[H1|H1]]]; lia).
  rewrite E0.
  assert (AL : forall k0 k1 k2 k3, [k0; k1; k2; k3] = [0;1;2;3] \/ [k0; k1; k2; k3] = [1;2;3;0] \/ [k0; k1; k2; k3] = [2;3;0;1] \/ [k0; k1; k2; k3] = [3;0;1;2] ->
     cur s = k0 ->
  (exists s', pick_loop 9 (cur s) (cur s) false s = Some (None, s') /\ exists l, idles l s s' /\ forall k, B4 k -> In k l) \/
  (exists l s1 light c x, idles l s s1 /\ B4 (cur s1) /\ ~ In (cur s1) l /\ pick_block (blk s1 (cur s1)) = Some (Some (light, c), x) /\
     pick_loop 9 (cur s) (cur s) false s = Some (Some (cur s1, light, c), after_hit s1 x))).
  { intros k0 k1 k2 k3 HK HC0.
    assert (HB : B4 k0 /\ B4 k1 /\ B4 k2 /\ B4 k3 /\ nx k0 = k1 /\ nx k1 = k2 /\ nx k2 = k3 /\ NoDup [k0;k1;k2;k3] /\ forall k, B4 k -> In k [k0;k1;k2;k3]).
    { unfold B4. destruct HK as [E|[E|[E|E]]]; inversion E; subst; cbn; (split; [lia|]); (split; [lia|]); (split; [lia|]); (split; [lia|]);
      (split; [reflexivity|]); (split; [reflexivity|]); (split; [reflexivity|]);
      (split; [|intros; lia]); (repeat (apply NoDup_cons; [cbn; lia|])); apply NoDup_nil. }
    destruct HB as (B0&B1&B2&B3&N0&N1&N2&ND&ALL).
    destruct (pick_block (blk s k0)) as [[[[li0 c0]|] x0]|] eqn:P0; [| |exfalso; exact (HN _ P0)].
    { right. exists [], s, li0, c0, x0. split; [constructor|]. rewrite HC0. split; [exact B0|]. split; [intros []|]. split; [exact P0|].
      unfold after_hit. rewrite HC0. cbn [pick_loop]. cbn [andb]. rewrite P0, ?HC0. reflexivity. }
    set (s1 := set_cur (set_blk s k0 x0) k1).
    assert (I1 : forall l s', idles l s1 s' -> idles (k0 :: l) s s').
    { intros l s' H. rewrite <- HC0. econstructor; rewrite ?HC0; [exact P0|]. rewrite N0. exact H. }
    assert (Q1 : forall k, k <> k0 -> blk s1 k = blk s k). { intros k Hk. unfold s1. cbn. destruct (Z.eqb_spec k k0); [contradiction|reflexivity]. }
    destruct (pick_block (blk s k1)) as [[[[li1 c1]|] x1]|] eqn:P1; [| |exfalso; exact (HN _ P1)].
    { right. exists [k0], s1, li1, c1, x1. split; [apply I1; constructor|]. change (cur s1) with k1. split; [exact B1|].
      assert (D : k1 <> k0) by (intros ->; inversion ND as [|? ? X _]; apply X; left; reflexivity).
      split; [intros [X|[]]; congruence|]. rewrite Q1 by exact D. split; [exact P1|].
      unfold after_hit. change (cur s1) with k1. destruct HK as [E|[E|[E|E]]]; sb E HC0; rewrite HC0; cbn [pick_loop andb]; rewrite P0; cbn; rewrite P1; reflexivity. }
    set (s2 := set_cur (set_blk s1 k1 x1) k2).
    assert (D1 : k1 <> k0) by (intros ->; inversion ND as [|? ? X _]; apply X; left; reflexivity).
    assert (I2 : forall l s', idles l s2 s' -> idles (k0 :: k1 :: l) s s').
    { intros l s' H. apply I1. change k1 with (cur s1) at 1. econstructor; change (cur s1) with k1; [rewrite Q1 by exact D1; exact P1|]. rewrite N1. exact H. }
    assert (D2 : k2 <> k0 /\ k2 <> k1). { destruct HK as [E|[E|[E|E]]]; inversion E; subst; lia. }
    assert (D3 : k3 <> k0 /\ k3 <> k1 /\ k3 <> k2). { destruct HK as [E|[E|[E|E]]]; inversion E; subst; lia. }
    assert (Q2 : forall k, k <> k0 -> k <> k1 -> blk s2 k = blk s k). { intros k Hk Hk1. unfold s2. cbn. destruct (Z.eqb_spec k k1); [contradiction|]. apply Q1. exact Hk. }
    destruct (pick_block (blk s k2)) as [[[[li2 c2]|] x2]|] eqn:P2; [| |exfalso; exact (HN _ P2)].
    { right. exists [k0; k1], s2, li2, c2, x2. split; [apply I2; constructor|]. change (cur s2) with k2. split; [exact B2|].
      split; [intros [X|[X|[]]]; lia|]. rewrite Q2 by lia. split; [exact P2|].
      unfold after_hit. change (cur s2) with k2. destruct HK as [E|[E|[E|E]]]; sb E HC0; rewrite HC0; cbn [pick_loop andb]; rewrite P0; cbn; rewrite P1; cbn; rewrite P2; reflexivity. }
    set (s3 := set_cur (set_blk s2 k2 x2) k3).
    assert (I3 : forall l s', idles l s3 s' -> idles (k0 :: k1 :: k2 :: l) s s').
    { intros l s' H. apply I2. change k2 with (cur s2) at 1. econstructor; change (cur s2) with k2; [rewrite Q2 by lia; exact P2|]. rewrite N2. exact H. }
    assert (Q3 : blk s3 k3 = blk s k3). { unfold s3. cbn. destruct (Z.eqb_spec k3 k2); [lia|]. apply Q2; lia. }
    destruct (pick_block (blk s k3)) as [[[[li3 c3]|] x3]|] eqn:P3; [| |exfalso; exact (HN _ P3)].
    { right. exists [k0; k1; k2], s3, li3, c3, x3. split; [apply I3; constructor|]. change (cur s3) with k3. split; [exact B3|].
      split; [intros [X|[X|[X|[]]]]; lia|]. rewrite Q3. split; [exact P3|].
      unfold after_hit. change (cur s3) with k3. destruct HK as [E|[E|[E|E]]]; sb E HC0; rewrite HC0; cbn [pick_loop andb]; rewrite P0; cbn; rewrite P1; cbn; rewrite P2; cbn; rewrite P3; reflexivity. }
    left. eexists. split.
    - destruct HK as [E|[E|[E|E]]]; sb E HC0; rewrite HC0; cbn [pick_loop andb]; rewrite P0; cbn; rewrite P1; cbn; rewrite P2; cbn; rewrite P3; cbn; reflexivity.
    - exists [k0; k1; k2; k3]. split; [|exact ALL]. apply I3. change k3 with (cur s3) at 1. econstructor; change (cur s3) with k3; [rewrite Q3; exact P3|].
      unfold s3, s2, s1. destruct HK as [E|[E|[E|E]]]; sb E HC0; apply id_nil. }
  destruct HC as [H|[H|[H|H]]].
  - apply (AL 0 1 2 3); auto.
  - apply (AL 1 2 3 0); auto.
  - apply (AL 2 3 0 1); auto.
  - apply (AL 3 0 1 2); auto 6.
Qed.
