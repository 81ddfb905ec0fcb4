(** Substitution lemma and consequences. *)
From Coq Require Import List ZArith Bool Lia.
From Verif Require Import Terms UnifySpec TermsProof UnifyModel UnifyProof SubsumeSpec Semantics.
Import ListNotations.
Open Scope Z_scope.

Lemma fot_rec fs : fot (TRec fs) = true -> exists c args, fs = TCst c :: args /\ forall a, In a args -> fot a = true.
Proof.
  simpl. destruct fs as [|[i|c|gs] args]; try discriminate.
  intros H. exists c, args. split; auto. apply forallb_forall. exact H.
Qed.

Section Sem.
  Variable eqc : cst.
  Variable M : interp.

  Lemma eval_ext v w t : (forall i, In i (tvars t) -> v i = w i) -> eval M v t = eval M w t.
  Proof.
    induction t as [i|c|fs IH] using term_ind'; simpl; intros H; auto.
    assert (Hm : forall l, (forall x, In x l -> In x fs) -> map (eval M v) l = map (eval M w) l).
    { intros l Hl. apply map_ext_in. intros a Ha. rewrite Forall_forall in IH.
      apply IH; auto. intros i Hi. apply H. apply in_flat_map. eauto. }
    destruct fs as [|[i|c|gs] args]; try (f_equal; apply Hm; intros; simpl; auto).
  Qed.

  Lemma eval_app v s t : fot t = true -> eval M v (app s t) = eval M (fun i => eval M v (s i)) t.
  Proof.
    induction t as [i|c|fs IH] using term_ind'; intros H; auto.
    apply fot_rec in H as (c&args&->&Ha). simpl. f_equal. rewrite map_map.
    apply map_ext_in. intros a Hin. rewrite Forall_forall in IH. apply IH; simpl; auto.
  Qed.

  (** Congruence: a record's value depends on its arguments' values only. *)
  Lemma holds_cong v w c xs ys : map (eval M v) xs = map (eval M w) ys ->
    (holds eqc M v (TRec (TCst c :: xs)) <-> holds eqc M w (TRec (TCst c :: ys))).
  Proof.
    intros H. cbn [holds]. destruct (cst_eq_dec c eqc); [|rewrite H; tauto].
    assert (D : (exists x1 x2 y1 y2, xs = [x1; x2] /\ ys = [y1; y2]) \/
       ((match xs with [x; y] => eval M v x = eval M v y | _ => ipred M c (map (eval M v) xs) end
         <-> ipred M c (map (eval M v) xs)) /\
        (match ys with [x; y] => eval M w x = eval M w y | _ => ipred M c (map (eval M w) ys) end
         <-> ipred M c (map (eval M w) ys)))).
    { destruct xs as [|x [|x2 [|x3 xs]]], ys as [|y [|y2 [|y3 ys]]]; try discriminate H;
        try (right; tauto). left. exists x, x2, y, y2. auto. }
    destruct D as [(x1&x2&y1&y2&->&->)|[D1 D2]].
    - simpl in H. injection H as -> ->. tauto.
    - rewrite D1, D2, H. tauto.
  Qed.

  Lemma holds_ext v w a : (forall i, In i (tvars a) -> v i = w i) -> (holds eqc M v a <-> holds eqc M w a).
  Proof.
    intros H. destruct a as [i|c|fs]; simpl; try tauto.
    destruct fs as [|[i|c|gs] args]; try tauto. apply holds_cong.
    apply map_ext_in. intros x Hx. apply eval_ext. intros i Hi. apply H. simpl. apply in_flat_map. eauto.
  Qed.

  Lemma holds_app v s a : foa a = true ->
    (holds eqc M v (app s a) <-> holds eqc M (fun i => eval M v (s i)) a).
  Proof.
    destruct a as [i|c|fs]; try discriminate; [simpl; tauto|]. intros H. unfold foa in H.
    apply fot_rec in H as (c&args&->&Ha). cbn [app map]. apply holds_cong.
    rewrite map_map. apply map_ext_in. intros a Hin. apply eval_app; auto.
  Qed.

  Lemma lit_holds_app v s l : foa (snd l) = true ->
    (lit_holds eqc M v (inst s l) <-> lit_holds eqc M (fun i => eval M v (s i)) l).
  Proof. intros H. unfold lit_holds, inst. simpl. pose proof (holds_app v s _ H). destruct (fst l); tauto. Qed.

  (** A clause's instances are true where the clause is. *)
  Lemma valid_inst c s : focl c -> valid_in eqc M c -> valid_in eqc M (map (inst s) c).
  Proof.
    intros Hf Hv v. destruct (Hv (fun i => eval M v (s i))) as (l&Hl&Hh).
    exists (inst s l). split; [apply in_map; auto|]. apply lit_holds_app; auto.
  Qed.

  (** ** Valuations that respect a set of bindings *)
  Definition respects (w : Z -> dom M) (b : Z -> option term) : Prop :=
    forall i t, b i = Some t -> w i = eval M w t.

  Lemma respects_varval w b n : respects w b -> forall i t, varval n b i = Some t -> eval M w t = w i.
  Proof.
    intros Hr. induction n as [|n IH]; intros i t; [discriminate|]. cbn [varval].
    destruct (b i) as [[j|c|fs]|] eqn:E; intros H.
    - apply IH in H. rewrite H. rewrite (Hr i _ E). reflexivity.
    - injection H as <-. rewrite (Hr i _ E). reflexivity.
    - injection H as <-. rewrite (Hr i _ E). reflexivity.
    - injection H as <-. reflexivity.
  Qed.

  Lemma respects_deref w b n x t : respects w b -> deref n b x = Some t -> eval M w t = eval M w x.
  Proof.
    intros Hr. destruct x as [i|c|fs]; simpl; intros H; try (injection H as <-; auto).
    eapply respects_varval; eauto.
  Qed.

  Definition bank_fot (b : Z -> option term) : Prop := forall i t, b i = Some t -> fot t = true.

  Lemma respects_of_solves v s b : bank_fot b -> solves s b -> respects (fun i => eval M v (s i)) b.
  Proof. intros Hf Hs i t E. rewrite (Hs i t E). apply eval_app. eapply Hf; eauto. Qed.

  Lemma bank_fot_varval b n i t : bank_fot b -> varval n b i = Some t -> fot t = true.
  Proof.
    intros Hb. revert i. induction n as [|n IH]; intros i; [discriminate|]. cbn [varval].
    destruct (b i) as [[j|c|fs]|] eqn:E; intros H; try (injection H as <-; auto); eauto.
  Qed.
  Lemma bank_fot_deref b n x t : bank_fot b -> fot x = true -> deref n b x = Some t -> fot t = true.
  Proof.
    intros Hb Hx. destruct x as [i|c|fs]; cbn [deref]; intros H; try (injection H as <-; auto).
    eapply bank_fot_varval; eauto.
  Qed.
End Sem.

Lemma bank_fot_setvar i t s : bank_fot (bank s) -> fot t = true -> bank_fot (bank (setvar i t s)).
Proof.
  intros Hb Ht j u. simpl. destruct (Z.eqb j i); [|apply Hb]. intros E; injection E as <-; auto.
Qed.

(** Unification binds variables to first-order terms only. *)
Lemma unify_fot : forall n x y s r s', fot x = true -> fot y = true -> bank_fot (bank s) ->
  unify_aux n x y s = Done r s' -> bank_fot (bank s').
Proof.
  induction n as [|n IH]; intros x y s r s' Hx Hy Hb; [discriminate|]. cbn [unify_aux].
  destruct (deref n (bank s) x) as [x'|] eqn:Ex; [|discriminate].
  destruct (deref n (bank s) y) as [y'|] eqn:Ey; [|discriminate].
  pose proof (bank_fot_deref _ _ _ _ Hb Hx Ex) as Hx'.
  pose proof (bank_fot_deref _ _ _ _ Hb Hy Ey) as Hy'.
  assert (Hset : forall i t, fot t = true -> bank_fot (bank (setvar i t s))) by (intros; apply bank_fot_setvar; auto).
  destruct x' as [i|c|xs], y' as [j|d|ys].
  - destruct (Z.eqb i j); intros H; injection H as <- <-; auto.
  - intros H; injection H as <- <-; auto.
  - destruct (occurs_in n (bank s) i ys) as [[|]|]; [| |discriminate]; intros H; injection H as <- <-; auto.
  - intros H; injection H as <- <-; auto.
  - destruct (cst_same_word c d); intros H; injection H as <- <-; auto.
  - intros H; injection H as <- <-; auto.
  - destruct (occurs_in n (bank s) j xs) as [[|]|]; [| |discriminate]; intros H; injection H as <- <-; auto.
  - intros H; injection H as <- <-; auto.
  - destruct (Nat.eqb _ _); [|intros H; injection H as <- <-; auto].
    apply fot_rec in Hx' as (c&xa&->&Hxa). apply fot_rec in Hy' as (d&ya&->&Hya).
    assert (HL : forall xs ys s, (forall a, In a xs -> fot a = true) -> (forall a, In a ys -> fot a = true) ->
      bank_fot (bank s) -> forall r s', unify_loop (unify_aux n) xs ys s = Done r s' -> bank_fot (bank s')).
    { clear -IH. induction xs as [|a xs IHl]; intros [|b ys] s Hx Hy Hb r s'; cbn [unify_loop];
        try (intros H; injection H as <- <-; auto).
      destruct (unify_aux n a b s) as [q s1|] eqn:E; [|discriminate].
      apply IH in E; simpl in *; auto. destruct q.
      + apply IHl; auto.
      + intros H; injection H as <- <-; auto. }
    apply HL; auto; intros a [<-|]; auto.
Qed.
