(** Lemmas about terms and substitutions. *)
From Coq Require Import List ZArith Bool Lia.
From Verif Require Import Terms UnifySpec.
Import ListNotations.
Open Scope Z_scope.

Lemma app_ids t : app ids t = t.
Proof.
  induction t as [i|c|fs IH] using term_ind'; simpl; auto.
  f_equal. induction IH; simpl; congruence.
Qed.

Definition comp (s2 s1 : subst) : subst := fun i => app s2 (s1 i).

Lemma app_comp s2 s1 t : app (comp s2 s1) t = app s2 (app s1 t).
Proof.
  induction t as [i|c|fs IH] using term_ind'; simpl; auto.
  f_equal. rewrite map_map. induction IH; simpl; congruence.
Qed.

Lemma app_ext s1 s2 t : (forall i, In i (tvars t) -> s1 i = s2 i) -> app s1 t = app s2 t.
Proof.
  induction t as [i|c|fs IH] using term_ind'; simpl; intros H; auto.
  f_equal. induction IH as [|f fs Hf _ IHfs]; simpl in *; auto.
  f_equal; [apply Hf|apply IHfs]; intros; apply H; apply in_or_app; auto.
Qed.

Lemma app_inj s1 s2 t i : app s1 t = app s2 t -> In i (tvars t) -> s1 i = s2 i.
Proof.
  induction t as [j|c|fs IH] using term_ind'; simpl; intros H Hi.
  - destruct Hi as [->|[]]; auto.
  - destruct Hi.
  - injection H as H. induction IH as [|f fs Hf _ IHfs]; simpl in *; [destruct Hi|].
    injection H as H1 H2. apply in_app_or in Hi as [Hi|Hi]; auto.
Qed.

Lemma tvars_app s t j :
  In j (tvars (app s t)) <-> exists i, In i (tvars t) /\ In j (tvars (s i)).
Proof.
  induction t as [i|c|fs IH] using term_ind'; simpl.
  - split; [intros H; exists i; auto|intros (k&[->|[]]&H); auto].
  - split; [intros []|intros (k&[]&_)].
  - rewrite !in_flat_map. rewrite Forall_forall in IH. split.
    + intros (t&Ht&Hj). apply in_map_iff in Ht as (u&<-&Hu).
      apply IH in Hj as (i&Hi&Hj); auto. exists i; split; auto.
      apply in_flat_map. eauto.
    + intros (i&Hi&Hj). apply in_flat_map in Hi as (u&Hu&Hi).
      exists (app s u); split; [apply in_map; auto|]. apply IH; eauto.
Qed.

Lemma app_ground s t : tvars t = [] -> app s t = t.
Proof.
  intros H. rewrite <- (app_ids t) at 2. apply app_ext. rewrite H. intros i [].
Qed.

Lemma tsize_pos t : (0 < tsize t)%nat.
Proof. destruct t; simpl; lia. Qed.

Lemma list_sum_in x l : In x l -> (x <= list_sum l)%nat.
Proof.
  induction l as [|a l IH]; simpl; [intros []|intros [->|H]]; [lia|apply IH in H; lia].
Qed.

Lemma tsize_rec_in f fs : In f fs -> (tsize f < tsize (TRec fs))%nat.
Proof.
  intros H. simpl. apply (in_map tsize) in H. apply list_sum_in in H. lia.
Qed.

Lemma tsize_var_le s t i : In i (tvars t) -> (tsize (s i) <= tsize (app s t))%nat.
Proof.
  induction t as [j|c|fs IH] using term_ind'; intros Hi.
  - simpl in Hi. destruct Hi as [->|[]]. simpl. lia.
  - destruct Hi.
  - simpl in Hi. apply in_flat_map in Hi as (f&Hf&Hi).
    rewrite Forall_forall in IH. specialize (IH f Hf Hi).
    simpl. assert (In (tsize (app s f)) (map tsize (map (app s) fs))).
    { apply in_map, in_map; auto. }
    apply list_sum_in in H. lia.
Qed.

(** A variable occurring strictly inside a term has no common instance with it. *)
Lemma occurs_no_unifier s i fs : In i (tvars (TRec fs)) -> s i <> app s (TRec fs).
Proof.
  intros Hi E. simpl in Hi. apply in_flat_map in Hi as (f&Hf&Hi).
  pose proof (tsize_var_le s f i Hi) as H1.
  assert (H2 : (tsize (app s f) < tsize (app s (TRec fs)))%nat).
  { simpl app. apply tsize_rec_in, in_map, Hf. }
  rewrite <- E in H2. lia.
Qed.

(** ** Exhaustive application of acyclic bindings *)
Fixpoint rsub (n : nat) (b : Z -> option term) (i : Z) : term :=
  match n with
  | O => TVar i
  | S n' => match b i with None => TVar i | Some t => app (rsub n' b) t end
  end.

Lemma rsub_stable b r :
  (forall i t j, b i = Some t -> In j (tvars t) -> (r j < r i)%nat) ->
  forall n m i, (r i < n)%nat -> (r i < m)%nat -> rsub n b i = rsub m b i.
Proof.
  intros Hr. induction n as [|n IH]; intros m i Hn Hm; [lia|].
  destruct m as [|m]; [lia|]. simpl. destruct (b i) as [t|] eqn:E; auto.
  apply app_ext. intros j Hj. specialize (Hr i t j E Hj). apply IH; lia.
Qed.

Lemma exhaustive_exists b : acyclic b -> exists s, exhaustive b s.
Proof.
  intros [r Hr]. exists (fun i => rsub (S (r i)) b i). split.
  - intros i t E. replace (rsub (S (r i)) b i) with (app (rsub (r i) b) t) by (simpl; rewrite E; auto).
    apply app_ext. intros j Hj.
    specialize (Hr i t j E Hj) as Hlt. apply (rsub_stable b r Hr); lia.
  - intros i E. simpl. rewrite E. reflexivity.
Qed.

Lemma exhaustive_unique b s1 s2 :
  acyclic b -> exhaustive b s1 -> exhaustive b s2 -> forall i, s1 i = s2 i.
Proof.
  intros [r Hr] [H1 U1] [H2 U2].
  assert (H : forall n i, (r i < n)%nat -> s1 i = s2 i).
  { induction n as [|n IH]; intros i Hn; [lia|].
    destruct (b i) as [t|] eqn:E.
    - rewrite (H1 i t E), (H2 i t E). apply app_ext. intros j Hj.
      apply IH. specialize (Hr i t j E Hj). lia.
    - rewrite U1, U2; auto. }
  intros i. apply (H (S (r i))). lia.
Qed.

(** Every solution is an instance of the exhaustive application. *)
Lemma exhaustive_general b s t : acyclic b -> exhaustive b s ->
  solves t b -> forall i, t i = app t (s i).
Proof.
  intros [r Hr] [H1 U1] Ht.
  assert (H : forall n i, (r i < n)%nat -> t i = app t (s i)).
  { induction n as [|n IH]; intros i Hn; [lia|].
    destruct (b i) as [u|] eqn:E.
    - rewrite (H1 i u E), (Ht i u E), <- app_comp. apply app_ext. intros j Hj.
      apply IH. specialize (Hr i u j E Hj). lia.
    - rewrite U1; auto. }
  intros i. apply (H (S (r i))). lia.
Qed.

Lemma exhaustive_vars_unbound b s : acyclic b -> exhaustive b s ->
  forall i j, In j (tvars (s i)) -> b j = None.
Proof.
  intros [r Hr] [H1 U1].
  assert (H : forall n i, (r i < n)%nat -> forall j, In j (tvars (s i)) -> b j = None).
  { induction n as [|n IH]; intros i Hn j Hj; [lia|].
    destruct (b i) as [u|] eqn:E.
    - rewrite (H1 i u E) in Hj. apply tvars_app in Hj as (k&Hk&Hj).
      apply (IH k); auto. specialize (Hr i u k E Hk). lia.
    - rewrite U1 in Hj; auto. destruct Hj as [->|[]]; auto. }
  intros i j Hj. apply (H (S (r i)) i); [lia|auto].
Qed.
