(** The ordering of equations always gives a verdict; laws of the verdict. *)
From Coq Require Import List ZArith Bool Lia.
From Verif Require Import Terms TermsProof UnifyModel UnifySpec UnifyProof OrdModel OrdSpec OrdProof OrdThm.
Import ListNotations.
Open Scope Z_scope.

Definition ev (P : nat -> Prop) : Prop := exists n0, forall n, (n0 <= n)%nat -> P n.
Lemma ev_and P Q : ev P -> ev Q -> ev (fun n => P n /\ Q n).
Proof. intros [a A] [c B]. exists (a + c)%nat. intros n H. split; [apply A|apply B]; lia. Qed.
Lemma ev_imp (P Q : nat -> Prop) : ev P -> (forall n, P n -> Q n) -> ev Q.
Proof. intros [a A] H. exists a. auto. Qed.
Lemma ev_S (P : nat -> Prop) : ev (fun n => P (S n)) -> ev P.
Proof. intros [a A]. exists (S a). intros [|n] H; [lia|]. apply A. lia. Qed.

Section T.
Variable word : cst -> Z.
Variable b : Z -> option term.
Hypothesis Ha : acyclic b.
Lemma deref_ev x : exists u, ev (fun n => deref n b x = Some u).
Proof. destruct (deref_total b Ha x) as (n & u & E). exists u, n. intros m H. now apply (deref_mono n m). Qed.
Lemma occurs_ev i ys : exists r, ev (fun n => occurs_in n b i ys = Some r).
Proof. destruct (occurs_total b i Ha ys) as (n & r & E). exists r, n. intros m H. now apply (occurs_mono n m). Qed.
Variable s : subst.
Hypothesis Hs : exhaustive b s.
Lemma deref_size x u n : deref n b x = Some u -> app s x = app s u.
Proof. intro E. now destruct (der b s Hs _ _ _ E). Qed.
Lemma weight_total k : forall x, (tsize (app s x) < k)%nat -> ev (fun n => forall l, weight_vars n b x l <> None).
Proof.
  induction k as [|k IH]; intros x H; [lia|]. destruct (deref_ev x) as [u Eu]. apply ev_S. destruct u as [i|c|fs].
  - apply (ev_imp _ _ Eu). intros n E l. cbn [weight_vars]. rewrite E. discriminate.
  - apply (ev_imp _ _ Eu). intros n E l. cbn [weight_vars]. rewrite E. discriminate.
  - assert (Sz : (S (list_sum (map tsize (map (app s) fs))) < S k)%nat).
    { destruct Eu as [n0 E]. rewrite (deref_size x _ _ (E n0 (le_n n0))) in H. exact H. }
    assert (L : ev (fun n => forall acc l, weight_loop (weight_vars n b) fs acc l <> None)).
    { clear Eu H. induction fs as [|f fs IHf]; [exists O; intros; discriminate|].
      change (list_sum (map tsize (map (app s) (f :: fs)))) with (tsize (app s f) + list_sum (map tsize (map (app s) fs)))%nat in Sz.
      specialize (IHf ltac:(lia)). specialize (IH f ltac:(lia)). apply (ev_imp _ _ (ev_and _ _ IH IHf)).
      intros n [A B] acc l. cbn [weight_loop]. specialize (A l). destruct (weight_vars n b f l) as [[w l']|]; [apply B|contradiction]. }
    apply (ev_imp _ _ (ev_and _ _ Eu L)). intros n [E A] l. cbn [weight_vars]. rewrite E. apply A.
Qed.
Lemma lex_total k : forall x y, (tsize (app s x) < k)%nat -> ev (fun n => lex_order word n b x y <> None).
Proof.
  induction k as [|k IH]; intros x y H; [lia|]. destruct (deref_ev x) as [u Eu]. destruct (deref_ev y) as [v Ev]. apply ev_S.
  assert (Base : (forall fs gs, u = TRec fs -> v = TRec gs -> ev (fun n => lex_loop (lex_order word n b) fs gs <> None)) -> ev (fun n => lex_order word (S n) b x y <> None)).
  { intro L. destruct u as [i|c|fs], v as [j|d|gs].
    9: specialize (L _ _ eq_refl eq_refl); apply (ev_imp _ _ (ev_and _ _ (ev_and _ _ Eu Ev) L)); intros n [[A B] C]; cbn [lex_order]; rewrite A, B;
       destruct (Nat.ltb _ _); [discriminate|]; destruct (Nat.ltb _ _); [discriminate|exact C].
    all: apply (ev_imp _ _ (ev_and _ _ Eu Ev)); intros n [A B]; cbn [lex_order]; rewrite A, B; discriminate. }
  apply Base. intros fs gs -> ->.
  assert (Sz : (S (list_sum (map tsize (map (app s) fs))) < S k)%nat).
  { destruct Eu as [n0 E]. rewrite (deref_size x _ _ (E n0 (le_n n0))) in H. exact H. }
  clear - IH Sz. revert gs. induction fs as [|f fs IHf]; intros [|g gs]; try (exists O; intros; discriminate).
  change (list_sum (map tsize (map (app s) (f :: fs)))) with (tsize (app s f) + list_sum (map tsize (map (app s) fs)))%nat in Sz.
  specialize (IHf ltac:(lia) gs). specialize (IH f g ltac:(lia)). apply (ev_imp _ _ (ev_and _ _ IH IHf)).
  intros n [A B]. cbn [lex_loop]. destruct (lex_order word n b f g) as [r|]; [|contradiction]. destruct (r =? 0); [exact B|discriminate].
Qed.
Lemma order_total x y : ev (fun n => order_eqterms word n b x y <> None).
Proof.
  destruct (deref_ev x) as [u Eu]. destruct (deref_ev y) as [v Ev]. pose proof (ev_and _ _ Eu Ev) as E. unfold order_eqterms.
  destruct u as [i|c|fs], v as [j|d|gs].
  3: destruct (occurs_ev i gs) as [r Hr]; apply (ev_imp _ _ (ev_and _ _ E Hr)); intros n [[A B] C]; rewrite A, B, C; discriminate.
  6: destruct (occurs_ev j fs) as [r Hr]; apply (ev_imp _ _ (ev_and _ _ E Hr)); intros n [[A B] C]; rewrite A, B, C; discriminate.
  7: { pose proof (weight_total _ (TRec fs) (le_n _)) as W1. pose proof (weight_total _ (TRec gs) (le_n _)) as W2. pose proof (lex_total _ (TRec fs) (TRec gs) (le_n _)) as L.
    apply (ev_imp _ _ (ev_and _ _ E (ev_and _ _ (ev_and _ _ W1 W2) L))). intros n [[A B] [[C D] F]]. rewrite A, B.
    specialize (C empty_vl). specialize (D empty_vl). destruct (weight_vars n b (TRec fs) empty_vl) as [[xw xl]|]; [|contradiction].
    destruct (weight_vars n b (TRec gs) empty_vl) as [[yw yl]|]; [|contradiction].
    destruct (_ && _); [discriminate|]. destruct (_ && _); [discriminate|]. destruct (_ =? _); [|discriminate].
    destruct (lex_order word n b (TRec fs) (TRec gs)); [|contradiction]. destruct (_ && _); [discriminate|]. destruct (_ && _); discriminate. }
  all: apply (ev_imp _ _ E); intros n [A B]; rewrite A, B; discriminate.
Qed.
End T.

Section L.
Variable word : cst -> Z.
Notation ord0 := (ord0 word). Notation kbo := (kbo word).
Lemma order_ends b : acyclic b -> forall x y, exists n0 r, (r = 1 \/ r = 2 \/ r = 3) /\ forall n, (n0 <= n)%nat -> order_eqterms word n b x y = Some r.
Proof.
  intros Ha x y. destruct (exhaustive_exists _ Ha) as [s Hs]. destruct (order_total word b Ha s Hs x y) as [n0 H].
  exists n0, (ord0 (app s x) (app s y)). split; [apply ord_range|]. intros n Hn. specialize (H n Hn).
  destruct (order_eqterms word n b x y) as [r|] eqn:E; [|contradiction]. now rewrite (order_ok word b s Hs _ _ _ _ E).
Qed.
Lemma nobind_acyclic : acyclic nobind.
Proof. exists (fun _ => O). intros i t j E. discriminate. Qed.
Lemma ord_verdict x y r : ord0 x y = r -> exists n, order_eqterms word n nobind x y = Some r.
Proof.
  intros <-. destruct (order_ends nobind nobind_acyclic x y) as (n & r & _ & H). exists n. rewrite (H n (le_n n)). f_equal.
  apply (order_plain word n). now apply H.
Qed.
Lemma flip_verdict b x y : acyclic b -> (exists n, order_eqterms word n b x y = Some 1) <-> (exists n, order_eqterms word n b y x = Some 2).
Proof.
  intro Ha. destruct (exhaustive_exists _ Ha) as [s Hs]. pose proof (ord_flip word (app s x) (app s y)) as F. split; intros [k E].
  - apply (order_ok word b s Hs) in E. rewrite <- E in F. cbn in F. destruct (order_ends b Ha y x) as (k2 & r & _ & H). exists k2.
    rewrite (H k2 (le_n k2)). f_equal. specialize (H k2 (le_n k2)). apply (order_ok word b s Hs) in H. congruence.
  - apply (order_ok word b s Hs) in E. rewrite <- E in F. destruct (order_ends b Ha x y) as (k2 & r & Hr & H). exists k2.
    rewrite (H k2 (le_n k2)). f_equal. specialize (H k2 (le_n k2)). apply (order_ok word b s Hs) in H. rewrite <- H in F.
    destruct Hr as [->|[->| ->]]; [reflexivity|discriminate|discriminate].
Qed.
Lemma asym b n m x y : acyclic b -> order_eqterms word n b x y = Some 1 -> order_eqterms word m b y x <> Some 1.
Proof.
  intros Ha E1 E2. destruct (exhaustive_exists _ Ha) as [s Hs]. apply (order_ok word b s Hs) in E1, E2.
  pose proof (ord_flip word (app s x) (app s y)) as F. rewrite <- E1, <- E2 in F. discriminate.
Qed.
Lemma irrefl b n x : acyclic b -> order_eqterms word n b x x <> Some 1 /\ order_eqterms word n b x x <> Some 2.
Proof.
  intros Ha. destruct (exhaustive_exists _ Ha) as [s Hs].
  split; intro E; apply (order_ok word b s Hs) in E; rewrite ord_refl in E; discriminate.
Qed.
Lemma headed_app s t : (forall i, headed (s i)) -> headed t -> headed (app s t).
Proof.
  intro Hs. induction t as [i|c|fs IH] using term_ind'; intro H; cbn [app]; auto. apply headed_rec in H. destruct H as [(c & r & ->) H].
  apply headed_rec. split; [exists c, (map (app s) r); reflexivity|]. clear - IH H. induction IH; inversion H; subst; cbn; constructor; auto.
Qed.
Lemma stable n x y s : headed x -> headed y -> few_vars x -> few_vars y -> (forall i, headed (s i)) ->
  few_vars (app s x) -> few_vars (app s y) ->
  order_eqterms word n nobind x y = Some 1 -> exists m, order_eqterms word m nobind (app s x) (app s y) = Some 1.
Proof.
  intros Hx Hy Fx Fy Hs Gx Gy E. apply order_plain in E. symmetry in E. apply ord_kbo in E; auto. apply ord_verdict.
  apply ord_kbo; auto using headed_app. now apply kbo_stable.
Qed.
Lemma stable_bank n b b' s s' x y : acyclic b -> acyclic b' -> extends b b' -> exhaustive b s -> exhaustive b' s' ->
  (forall i, headed (s' i)) -> headed (app s x) -> headed (app s y) -> few_vars (app s x) -> few_vars (app s y) ->
  few_vars (app s' x) -> few_vars (app s' y) ->
  order_eqterms word n b x y = Some 1 -> exists m, order_eqterms word m b' x y = Some 1.
Proof.
  intros Ha Ha' He Hs Hs' Hh Hx Hy Fx Fy Gx Gy E. apply (order_ok word b s Hs) in E. symmetry in E. apply ord_kbo in E; auto.
  apply (kbo_stable word s') in E; [|exact Hh].
  assert (G : forall t, app s' (app s t) = app s' t).
  { intro t. rewrite <- app_comp. apply app_ext. intros i _. symmetry. apply (exhaustive_general b s s' Ha Hs). intros j u Eu. apply (proj1 Hs'). now apply He. }
  rewrite !G in E. apply ord_kbo in E; auto; [|rewrite <- G; now apply headed_app|rewrite <- G; now apply headed_app].
  destruct (order_ends b' Ha' x y) as (m & r & _ & H). exists m. rewrite (H m (le_n m)). f_equal. specialize (H m (le_n m)).
  apply (order_ok word b' s' Hs') in H. congruence.
Qed.
Lemma trans n m x y z : headed x -> headed y -> headed z -> few_vars x -> few_vars y -> few_vars z ->
  order_eqterms word n nobind x y = Some 1 -> order_eqterms word m nobind y z = Some 1 -> exists k, order_eqterms word k nobind x z = Some 1.
Proof.
  intros Hx Hy Hz Fx Fy Fz E1 E2. apply order_plain in E1, E2. symmetry in E1, E2. apply ord_kbo in E1, E2; auto. apply ord_verdict. apply ord_kbo; auto.
  eapply kbo_trans; eassumption.
Qed.
Lemma inside_headed t u : inside_of t u -> headed u -> headed t.
Proof.
  intros H Hu. induction H as [fs Hin|fs f Hf Hin IH]; apply headed_rec in Hu; destruct Hu as [_ Hall]; rewrite Forall_forall in Hall; auto.
Qed.
Lemma inside_vars t u : inside_of t u -> incl (tvars t) (tvars u).
Proof.
  induction 1 as [fs Hin|fs f Hf Hin IH]; intros v Hv; cbn [tvars]; apply in_flat_map; [exists t; auto|exists f; auto].
Qed.
Lemma inside_few t u : inside_of t u -> few_vars u -> few_vars t.
Proof. intros H F. unfold few_vars in *. eapply Nat.le_trans; [|exact F]. now apply nodup_mono, inside_vars. Qed.
Lemma subterm t u : headed u -> few_vars u -> inside_of t u -> exists n, order_eqterms word n nobind u t = Some 1.
Proof.
  intros Hu Fu H. apply ord_verdict. apply ord_kbo; eauto using inside_headed, inside_few. now apply kbo_sub.
Qed.
Lemma context n l r x y : headed (TRec (l ++ x :: r)) -> headed (TRec (l ++ y :: r)) -> few_vars (TRec (l ++ x :: r)) -> few_vars (TRec (l ++ y :: r)) ->
  order_eqterms word n nobind x y = Some 1 -> exists m, order_eqterms word m nobind (TRec (l ++ x :: r)) (TRec (l ++ y :: r)) = Some 1.
Proof.
  intros Hx Hy Fx Fy E. apply order_plain in E. symmetry in E. apply ord_verdict. apply ord_kbo; auto. apply kbo_ctx.
  assert (I : forall t, inside_of t (TRec (l ++ t :: r))) by (intro t; apply in_here; apply in_or_app; right; now left).
  apply ord_kbo; eauto using inside_headed, inside_few.
Qed.
Lemma descent C (f : nat -> term) : (forall i, headed (f i) /\ few_vars (f i) /\ incl (tcsts (f i)) C) ->
  ~ forall i, exists n, order_eqterms word n nobind (f i) (f (S i)) = Some 1.
Proof.
  intros Hf Hd. apply (kbo_wf word C f); [firstorder|]. intro i. destruct (Hd i) as [n E]. apply order_plain in E. symmetry in E.
  apply ord_kbo in E; auto; apply Hf.
Qed.
Lemma ground_total n x y : tvars x = [] -> tvars y = [] -> order_eqterms word n nobind x y = Some 3 -> lex0 word x y = 0.
Proof.
  intros Gx Gy E. apply order_plain in E. symmetry in E.
  assert (NL : lex0 word x y <> 3).
  { clear E. revert y Gx Gy. induction x as [i|c|fs IH] using term_ind'; intros [j|d|gs] Gx Gy; try discriminate; cbn [OrdProof.lex0].
    - destruct (_ =? _); [discriminate|]. destruct (_ <? _); discriminate.
    - change (lex0 word (TRec fs) (TRec gs) <> 3). rewrite lex_rec. destruct (Nat.ltb _ _); [discriminate|]. destruct (Nat.ltb _ _); [discriminate|].
      cbn [tvars] in Gx, Gy. revert gs Gx Gy. induction IH as [|f fs Hf _ IHf]; intros [|g gs] Gx Gy; cbn; try discriminate. cbn in Gx, Gy.
      apply app_eq_nil in Gx, Gy. destruct Gx, Gy. destruct (lex0 word f g =? 0); auto. }
  destruct x as [i|c|fs], y as [j|d|gs]; try discriminate.
  - cbn in E |- *. destruct (Z.ltb_spec (word d) (word c)); [discriminate|]. destruct (Z.ltb_spec (word c) (word d)); [discriminate|].
    destruct (Z.eqb_spec (word c) (word d)); [reflexivity|lia].
  - unfold OrdProof.ord0 in E. unfold vl in E. rewrite Gx, Gy in E. cbn [add_all fold_left subset items empty_vl] in E. rewrite !andb_true_r in E.
    destruct (Z.ltb_spec (wt (TRec gs)) (wt (TRec fs))); [discriminate|]. destruct (Z.ltb_spec (wt (TRec fs)) (wt (TRec gs))); [discriminate|].
    destruct (Z.eqb_spec (wt (TRec fs)) (wt (TRec gs))); [|lia].
    destruct (lex_range word (TRec fs) (TRec gs)) as [L|[L|[L|L]]]; auto; rewrite L in E; try discriminate. contradiction.
Qed.
Lemma lex_zero x : (forall c d, In c (tcsts x) -> word c = word d -> c = d) -> forall y, lex0 word x y = 0 -> x = y.
Proof.
  induction x as [i|c|fs IH] using term_ind'; intros Hw [j|d|gs] E; try (cbn in E; discriminate).
  - cbn in E. destruct (Z.eqb_spec i j); [now subst|discriminate].
  - cbn in E. destruct (Z.eqb_spec (word c) (word d)) as [Ew|]; [|destruct (_ <? _); discriminate]. f_equal. apply Hw; [now left|exact Ew].
  - rewrite lex_rec in E. destruct (Nat.ltb_spec (length fs) (length gs)); [discriminate|]. destruct (Nat.ltb_spec (length gs) (length fs)); [discriminate|].
    f_equal. assert (Len : length fs = length gs) by lia. cbn [tcsts] in Hw. clear - IH Hw E Len. revert gs E Len.
    induction IH as [|f fs Hf _ IHf]; intros [|g gs] E Len; cbn in *; try discriminate; auto.
    destruct (Z.eqb_spec (lex0 word f g) 0) as [E0|E0]; [|contradiction]. f_equal.
    + apply Hf; auto. intros c d Hc. apply Hw. apply in_or_app. now left.
    + apply IHf; auto. intros c d Hc. apply Hw. apply in_or_app. now right.
Qed.
Lemma ground_linear n x y : (forall c d, In c (tcsts x) -> word c = word d -> c = d) -> tvars x = [] -> tvars y = [] -> order_eqterms word n nobind x y = Some 3 -> x = y.
Proof. intros Hw Gx Gy E. apply lex_zero; auto. eapply ground_total; eassumption. Qed.
End L.
