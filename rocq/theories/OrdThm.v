(** The ordering of equations: its laws. *)
From Coq Require Import List ZArith Bool Lia Permutation Wellfounded.
From Verif Require Import Terms TermsProof UnifyModel UnifySpec UnifyProof OrdModel OrdSpec OrdProof.
Import ListNotations.
Open Scope Z_scope.

Lemma nodup_mono (L M : list Z) : incl L M -> (length (nodup Z.eq_dec L) <= length (nodup Z.eq_dec M))%nat.
Proof. intro H. apply NoDup_incl_length; [apply NoDup_nodup|]. intros v Hv. apply nodup_In. apply nodup_In in Hv. auto. Qed.
Lemma add_all_vlok M : forall L l, vlok L l -> (length (nodup Z.eq_dec (L ++ M)) <= capacity)%nat -> vlok (L ++ M) (add_all M l).
Proof.
  induction M as [|x M IH]; intros L l H Hc; cbn; [now rewrite app_nil_r|].
  assert (E : L ++ x :: M = (L ++ [x]) ++ M) by now rewrite <- app_assoc.
  rewrite E in *. apply IH; [|exact Hc]. apply record_vlok; [exact H|]. eapply Nat.le_trans; [|exact Hc].
  apply nodup_mono. intros v Hv. apply in_or_app. now left.
Qed.
Lemma vl_vlok t : few_vars t -> vlok (tvars t) (vl t).
Proof.
  intro H. apply (add_all_vlok (tvars t) [] empty_vl); [|exact H]. constructor; cbn.
  - constructor.
  - tauto.
  - intros v [].
  - intros v [].
  - auto.
  - lia.
Qed.
Lemma cnt_in v L : In v L <-> (0 < cnt v L)%nat.
Proof. unfold cnt. rewrite (count_occ_In Z.eq_dec). reflexivity. Qed.
Lemma lookup_nd (l : list (Z * Z)) v c : NoDup (map fst l) -> In (v, c) l -> lookup v l = Some c.
Proof.
  induction l as [|[u d] l IH]; cbn; intros N H; [destruct H|]. apply NoDup_cons_iff in N. destruct N as [N1 N2].
  destruct H as [E|H]; [injection E as -> ->; now rewrite Z.eqb_refl|]. destruct (Z.eqb_spec u v) as [->|]; [|now apply IH].
  exfalso. apply N1. apply in_map_iff. exists (v, c). auto.
Qed.
Lemma subset_iff L1 L2 l1 l2 : vlok L1 l1 -> vlok L2 l2 -> subset l1 l2 = true <-> forall v, (cnt v L1 <= cnt v L2)%nat.
Proof.
  intros H1 H2. unfold subset. split.
  - intros E v. destruct (in_dec Z.eq_dec v L1) as [Hv|Hv]; [|unfold cnt; rewrite (proj1 (count_occ_not_In Z.eq_dec L1 v) Hv); lia].
    pose proof (k_lk _ _ H1 v Hv) as Lk. 
    assert (Hi : exists c, In (v, c) (items l1) /\ lookup v (items l1) = Some c).
    { clear - Lk. revert Lk. generalize (Z.of_nat (cnt v L1)). induction (items l1) as [|[u d] r IH]; cbn; [discriminate|].
      intros z. destruct (Z.eqb_spec u v) as [->|]; intro E; [injection E as ->; exists z; auto|]. destruct (IH _ E) as (c & A & B). exists c. auto. }
    destruct Hi as (c & Hc & Lk'). rewrite Lk in Lk'. injection Lk' as Ec.
    destruct (items l1) as [|p1 r1] eqn:E1; [destruct Hc|]. destruct (items l2) as [|p2 r2] eqn:E2; [discriminate|].
    destruct (Nat.ltb _ _); [discriminate|]. destruct (maxv l2 <? maxv l1); [discriminate|].
    rewrite forallb_forall in E. specialize (E _ Hc). cbn [fst snd] in E. destruct (lookup v (p2 :: r2)) as [c2|] eqn:El; [|discriminate].
    apply Z.leb_le in E. rewrite <- E2 in El. assert (Hv2 : In v L2) by (apply (k_in _ _ H2); eapply lookup_in; exact El).
    rewrite (k_lk _ _ H2 v Hv2) in El. injection El as <-. lia.
  - intro Hc. assert (Hincl : incl (keys l1) (keys l2)).
    { intros v Hv. apply (k_in _ _ H2). apply (k_in _ _ H1) in Hv. apply cnt_in. apply cnt_in in Hv. specialize (Hc v). lia. }
    pose proof (NoDup_incl_length (k_nd _ _ H1) Hincl) as Hlen. unfold keys in Hlen. rewrite !map_length in Hlen.
    assert (Hmx : maxv l1 <= maxv l2).
    { destruct (k_mi _ _ H1) as [E|E]; [rewrite E; exact (k_lo _ _ H2)|]. apply (k_mx _ _ H2). apply Hincl. now apply (k_in _ _ H1). }
    assert (Hfa : forallb (fun p => match lookup (fst p) (items l2) with Some c => snd p <=? c | None => false end) (items l1) = true).
    { apply forallb_forall. intros [v c] Hv. cbn [fst snd]. pose proof (lookup_nd _ _ _ (k_nd _ _ H1) Hv) as E.
      assert (Hv1 : In v L1) by (apply (k_in _ _ H1); unfold keys; apply in_map_iff; exists (v, c); auto).
      rewrite (k_lk _ _ H1 v Hv1) in E. injection E as <-.
      assert (Hv2 : In v L2) by (apply cnt_in; apply cnt_in in Hv1; specialize (Hc v); lia).
      rewrite (k_lk _ _ H2 v Hv2). apply Z.leb_le. specialize (Hc v). lia. }
    destruct (items l1) as [|p1 r1]; [reflexivity|]. destruct (items l2) as [|p2 r2]; [cbn in Hlen; lia|].
    destruct (Nat.ltb_spec (length (p2 :: r2)) (length (p1 :: r1))); [lia|]. destruct (Z.ltb_spec (maxv l2) (maxv l1)); [lia|]. exact Hfa.
Qed.

(* ---- the order as a relation ---- *)
Definition allh : list term -> Prop := fix all (l : list term) : Prop := match l with [] => True | f :: l => headed f /\ all l end.
Lemma headed_rec fs : headed (TRec fs) <-> (exists c r, fs = TCst c :: r) /\ Forall headed fs.
Proof.
  change (headed (TRec fs)) with (match fs with TCst _ :: _ => True | _ => False end /\ allh fs). split.
  - intros [H1 H2]. split; [destruct fs as [|[| |] r]; try contradiction; eauto|]. clear H1. induction fs as [|f fs IH]; constructor; destruct H2; auto.
  - intros [(c & r & ->) H]. split; [exact I|]. clear - H. induction H; cbn; auto.
Qed.
Lemma wts_app a c : wts (a ++ c) = wts a + wts c.
Proof. induction a; cbn [wts List.app]; lia. Qed.
Lemma wt_pos t : headed t -> 10 <= wt t.
Proof.
  induction t as [i|c|fs IH] using term_ind'; intro H; [cbn; lia|cbn; lia|]. apply headed_rec in H. destruct H as [(c & r & ->) H].
  rewrite wt_rec. cbn [wts]. change (wt (TCst c)) with 10.
  assert (0 <= wts r); [|lia]. inversion IH as [|? ? _ IH']; inversion H as [|? ? _ H']; subst. clear - IH' H'.
  induction IH' as [|f r Hf _ IH]; [cbn; lia|]. inversion H'; subst. cbn [wts]. specialize (Hf ltac:(assumption)). specialize (IH ltac:(assumption)). lia.
Qed.
Lemma wts_nonneg l : Forall headed l -> 0 <= wts l.
Proof. induction 1 as [|f l Hf _ IH]; [cbn; lia|]. cbn [wts]. pose proof (wt_pos f Hf). lia. Qed.
Lemma wts_in f l : Forall headed l -> In f l -> wt f <= wts l.
Proof.
  induction 1 as [|g l Hg Hl IH]; intros [].
  - subst g. cbn [wts]. pose proof (wts_nonneg l Hl). lia.
  - cbn [wts]. pose proof (wt_pos g Hg). specialize (IH H). lia.
Qed.
Lemma wt_var i t : headed t -> In i (tvars t) -> t = TVar i \/ 10 < wt t.
Proof.
  destruct t as [j|c|fs]; intros H Hi; [left; destruct Hi as [->|[]]; reflexivity|destruct Hi|right].
  apply headed_rec in H. destruct H as [(c & r & ->) H]. cbn [tvars flat_map List.app] in Hi. apply in_flat_map in Hi. destruct Hi as (f & Hf & Hi).
  inversion H as [|? ? _ H']; subst. rewrite wt_rec. cbn [wts]. change (wt (TCst c)) with 10.
  pose proof (wts_in f r H' Hf). pose proof (proj1 (Forall_forall _ _) H' f Hf) as Hh. pose proof (wt_pos f Hh). lia.
Qed.

Section P.
Variable word : cst -> Z.
Notation lex0 := (lex0 word). Notation lexs := (lexs word). Notation ord0 := (ord0 word).
Definition covers (x y : term) : Prop := forall v, (cnt v (tvars y) <= cnt v (tvars x))%nat.
Definition kbo (x y : term) : Prop := covers x y /\ (wt y < wt x \/ (wt y = wt x /\ lex0 x y = 2)).
Lemma ord_kbo x y : headed x -> headed y -> few_vars x -> few_vars y -> ord0 x y = 1 <-> kbo x y.
Proof.
  intros Hx Hy Fx Fy. pose proof (wt_pos _ Hx) as Wx. pose proof (wt_pos _ Hy) as Wy. unfold kbo.
  assert (Cov : forall i t, covers t (TVar i) -> In i (tvars t)).
  { intros i t Hc. apply cnt_in. specialize (Hc i). cbn in Hc. destruct (Z.eq_dec i i); [lia|contradiction]. }
  destruct x as [i|c|fs], y as [j|d|gs].
  - cbn. split; [discriminate|]. intros [H [H1|[_ H1]]]; [lia|]. apply Cov in H. destruct H as [->|[]]. rewrite Z.eqb_refl in H1. discriminate.
  - cbn. split; [discriminate|]. intros [_ [H|[_ H]]]; [lia|discriminate].
  - cbn [OrdProof.ord0 OrdProof.lex0]. split; [destruct (Zmem _ _); discriminate|]. intros [_ [H|[_ H]]]; [change (wt (TVar i)) with 10 in H; lia|discriminate].
  - cbn. split; [discriminate|]. intros [H _]. apply Cov in H. destruct H.
  - cbn. split.
    + destruct (Z.ltb_spec (word d) (word c)); [discriminate|]. destruct (Z.ltb_spec (word c) (word d)); [|discriminate]. intros _.
      split; [intro; cbn; lia|]. right. split; [reflexivity|]. destruct (Z.eqb_spec (word c) (word d)); [lia|reflexivity].
    + intros [_ [H|[_ H]]]; [lia|]. destruct (Z.eqb_spec (word c) (word d)); [discriminate|]. destruct (Z.ltb_spec (word d) (word c)); [discriminate|].
      destruct (Z.ltb_spec (word c) (word d)); [reflexivity|lia].
  - cbn [OrdProof.ord0 OrdProof.lex0]. split; [discriminate|]. change (wt (TCst c)) with 10. intros [_ [H|[_ H]]]; [lia|discriminate].
  - cbn [OrdProof.ord0]. destruct (Zmem j (tvars (TRec fs))) eqn:Em.
    + apply zmem in Em. split; [intros _|reflexivity]. split.
      * intro v. change (cnt v (tvars (TVar j))) with (if Z.eq_dec j v then 1%nat else 0%nat). destruct (Z.eq_dec j v) as [->|]; [apply cnt_in in Em; lia|lia].
      * left. change (wt (TVar j)) with 10. destruct (wt_var j _ Hx Em) as [E|E]; [discriminate|exact E].
    + split; [discriminate|]. intros [H _]. apply Cov in H. apply zmem in H. congruence.
  - cbn [OrdProof.ord0 OrdProof.lex0]. change (wt (TCst d)) with 10. split; [intros _|reflexivity]. split; [intro; cbn; lia|]. destruct (Z.eq_dec 10 (wt (TRec fs))); [right; auto|left; lia].
  - unfold OrdProof.ord0. pose proof (vl_vlok _ Fx) as Vx. pose proof (vl_vlok _ Fy) as Vy. set (X := TRec fs) in *. set (Y := TRec gs) in *.
    pose proof (subset_iff _ _ _ _ Vy Vx) as S1. fold (covers X Y) in S1.
    destruct (subset (vl Y) (vl X)) eqn:Es.
    + assert (C : covers X Y) by now apply S1. rewrite !andb_true_r. clear S1 Es.
      destruct (Z.ltb_spec (wt Y) (wt X)); [split; auto|]. destruct (Z.ltb_spec (wt X) (wt Y)); cbn [andb].
      * split; [destruct (subset (vl X) (vl Y)); [discriminate|]; destruct (wt X =? wt Y) eqn:E; [apply Z.eqb_eq in E; lia|discriminate]|]. intros [_ [K|[K _]]]; lia.
      * destruct (Z.eqb_spec (wt X) (wt Y)); [|lia]. destruct (Z.eqb_spec (lex0 X Y) 2); [split; auto|].
        split; [destruct (_ && _); discriminate|]. intros [_ [K|[_ K]]]; [lia|contradiction].
    + rewrite !andb_false_r. split.
      * destruct (_ && _); [discriminate|]. destruct (wt X =? wt Y); [|discriminate]. destruct (_ && _); discriminate.
      * intros [C _]. apply S1 in C. discriminate.
Qed.

(* ---- lexicographic comparison ---- *)
Lemma lex_eq_l x : forall y, lex0 x y = 0 -> forall z, lex0 x z = lex0 y z.
Proof.
  induction x as [i|c|fs IH] using term_ind'; intros [j|d|gs] E z; try (cbn in E; discriminate).
  - cbn in E. destruct (Z.eqb_spec i j); [now subst|discriminate].
  - cbn in E. destruct (Z.eqb_spec (word c) (word d)) as [Ew|]; [|destruct (word d <? word c); discriminate].
    destruct z; cbn; try reflexivity. now rewrite Ew.
  - rewrite lex_rec in E. destruct (Nat.ltb_spec (length fs) (length gs)); [discriminate|]. destruct (Nat.ltb_spec (length gs) (length fs)); [discriminate|].
    destruct z as [k|e|hs]; try reflexivity. rewrite !lex_rec. assert (length fs = length gs) as -> by lia.
    destruct (Nat.ltb (length gs) (length hs)); [reflexivity|]. destruct (Nat.ltb (length hs) (length gs)); [reflexivity|].
    assert (Len : length fs = length gs) by lia. clear - IH E Len. revert gs hs E Len.
    induction IH as [|f fs Hf _ IHf]; intros [|g gs] [|h hs] E Len; cbn in *; try reflexivity; try discriminate.
    destruct (Z.eqb_spec (lex0 f g) 0) as [E0|E0]; [|contradiction]. rewrite (Hf g E0 h). destruct (lex0 g h =? 0); [|reflexivity]. apply IHf; [exact E|lia].
Qed.
Lemma lex_eq_r x y : lex0 x y = 0 -> forall z, lex0 z x = lex0 z y.
Proof. intros E z. rewrite (lex_flip _ x z), (lex_flip _ y z). now rewrite (lex_eq_l x y E). Qed.
Lemma lex_trans x : forall y z, lex0 x y = 2 -> lex0 y z = 2 -> lex0 x z = 2.
Proof.
  induction x as [i|c|fs IH] using term_ind'; intros [j|d|gs] [k|e|hs] E1 E2; try (cbn in E1, E2; discriminate); try reflexivity.
  - cbn in E1. destruct (i =? j); discriminate.
  - cbn in *. destruct (Z.eqb_spec (word c) (word d)); [discriminate|]. destruct (Z.ltb_spec (word d) (word c)); [discriminate|].
    destruct (Z.eqb_spec (word d) (word e)); [discriminate|]. destruct (Z.ltb_spec (word e) (word d)); [discriminate|].
    destruct (Z.eqb_spec (word c) (word e)); [lia|]. destruct (Z.ltb_spec (word e) (word c)); [lia|reflexivity].
  - rewrite lex_rec in *. destruct (Nat.ltb_spec (length fs) (length gs)); [discriminate|]. destruct (Nat.ltb_spec (length gs) (length hs)); [discriminate|].
    destruct (Nat.ltb_spec (length fs) (length hs)); [lia|]. destruct (Nat.ltb_spec (length hs) (length fs)); [reflexivity|].
    destruct (Nat.ltb_spec (length gs) (length fs)); [lia|]. destruct (Nat.ltb_spec (length hs) (length gs)); [lia|].
    clear - IH E1 E2. revert gs hs E1 E2. induction IH as [|f fs Hf _ IHf]; intros [|g gs] [|h hs] E1 E2; cbn in *; try discriminate.
    destruct (Z.eqb_spec (lex0 f g) 0) as [Z1|Z1], (Z.eqb_spec (lex0 g h) 0) as [Z2|Z2].
    + rewrite (lex_eq_l f g Z1 h), Z2. cbn. eapply IHf; eassumption.
    + rewrite (lex_eq_l f g Z1 h), E2. reflexivity.
    + rewrite <- (lex_eq_r g h Z2 f), E1. reflexivity.
    + rewrite (Hf _ _ E1 E2). reflexivity.
Qed.
Lemma lex_stable s x : forall y, lex0 x y <> 3 -> lex0 (app s x) (app s y) = lex0 x y.
Proof.
  induction x as [i|c|fs IH] using term_ind'; intros [j|d|gs] E; try (exfalso; apply E; reflexivity); try reflexivity.
  - cbn in E |- *. destruct (Z.eqb_spec i j) as [->|]; [apply lex_refl|contradiction].
  - cbn [app]. rewrite !lex_rec, !map_length in *. destruct (Nat.ltb _ _); [reflexivity|]. destruct (Nat.ltb _ _); [reflexivity|].
    revert gs E. induction IH as [|f fs Hf _ IHf]; intros [|g gs] E; cbn in *; try reflexivity.
    destruct (Z.eqb_spec (lex0 f g) 0) as [Z1|Z1].
    + rewrite Hf, Z1 by (rewrite Z1; discriminate). cbn. apply IHf. exact E.
    + rewrite Hf by exact E. destruct (Z.eqb_spec (lex0 f g) 0); [contradiction|reflexivity].
Qed.

(* ---- laws ---- *)
Lemma kbo_trans x y z : kbo x y -> kbo y z -> kbo x z.
Proof.
  intros [C1 [W1|[W1 L1]]] [C2 [W2|[W2 L2]]].
  1-3: split; [intro v; eapply Nat.le_trans; [apply C2|apply C1]|left; lia].
  split; [intro v; eapply Nat.le_trans; [apply C2|apply C1]|]. right. split; [lia|]. eapply lex_trans; eassumption.
Qed.
Definition sumw (s : subst) (L : list Z) : Z := fold_right (fun v a => wt (s v) - 10 + a) 0 L.
Lemma sumw_app s L M : sumw s (L ++ M) = sumw s L + sumw s M.
Proof. unfold sumw. induction L as [|v L IH]; cbn [fold_right List.app]; lia. Qed.
Lemma wt_app s t : wt (app s t) = wt t + sumw s (tvars t).
Proof.
  induction t as [i|c|fs IH] using term_ind'; [cbn [app tvars sumw fold_right]; change (wt (TVar i)) with 10; lia|reflexivity|]. cbn [app tvars]. rewrite !wt_rec.
  induction IH as [|f fs Hf _ IHf]; [cbn; lia|]. cbn [map wts flat_map]. rewrite sumw_app, IHf, Hf. lia.
Qed.
Lemma tvars_app_eq s t : tvars (app s t) = flat_map (fun v => tvars (s v)) (tvars t).
Proof.
  induction t as [i|c|fs IH] using term_ind'; [cbn; now rewrite app_nil_r|reflexivity|]. cbn [app tvars].
  induction IH as [|f fs Hf _ IHf]; [reflexivity|]. cbn [map flat_map]. now rewrite flat_map_app, IHf, Hf.
Qed.
Lemma cnt_perm L : forall M, (forall v, (cnt v L <= cnt v M)%nat) -> exists N, Permutation M (L ++ N).
Proof.
  induction L as [|x L IH]; intros M H; [exists M; apply Permutation_refl|].
  assert (Hx : In x M) by (apply cnt_in; specialize (H x); unfold cnt in H at 1; cbn in H; destruct (Z.eq_dec x x); [lia|contradiction]).
  apply in_split in Hx. destruct Hx as (M1 & M2 & ->). destruct (IH (M1 ++ M2)) as [N HN].
  - intro v. specialize (H v). rewrite cnt_app in *. unfold cnt in *. cbn in H. destruct (Z.eq_dec x v); lia.
  - exists N. cbn. rewrite <- HN. apply Permutation_sym, Permutation_middle.
Qed.
Lemma perm_cnt L M v : Permutation L M -> cnt v L = cnt v M.
Proof. intro H. unfold cnt. now apply Permutation_count_occ. Qed.
Lemma sumw_perm s L M : Permutation L M -> sumw s L = sumw s M.
Proof. unfold sumw. induction 1; cbn [fold_right]; lia. Qed.
Lemma sumw_nonneg s L : (forall i, headed (s i)) -> 0 <= sumw s L.
Proof. intro H. induction L as [|v L IH]; [cbn; lia|]. unfold sumw in *. cbn [fold_right]. pose proof (wt_pos _ (H v)). lia. Qed.
Lemma kbo_stable s x y : (forall i, headed (s i)) -> kbo x y -> kbo (app s x) (app s y).
Proof.
  intros Hs [C W]. destruct (cnt_perm _ _ C) as [N HN]. split.
  - intro v. rewrite !tvars_app_eq.
    assert (P : Permutation (flat_map (fun u => tvars (s u)) (tvars x)) (flat_map (fun u => tvars (s u)) (tvars y) ++ flat_map (fun u => tvars (s u)) N)).
    { rewrite <- flat_map_app. now apply Permutation_flat_map. }
    rewrite (perm_cnt _ _ v P), cnt_app. lia.
  - rewrite !wt_app. rewrite (sumw_perm s _ _ HN), sumw_app. pose proof (sumw_nonneg s N Hs).
    destruct W as [W|[W L]]; [left; lia|]. destruct (Z.eq_dec (sumw s N) 0) as [E|E]; [right|left; lia].
    split; [lia|]. rewrite lex_stable; [exact L|rewrite L; discriminate].
Qed.
Lemma cnt_sub v f fs : In f fs -> (cnt v (tvars f) <= cnt v (tvars (TRec fs)))%nat.
Proof.
  cbn [tvars]. induction fs as [|g fs IH]; intros []; cbn [flat_map]; rewrite cnt_app; [subst; lia|]. specialize (IH H). lia.
Qed.
Lemma kbo_sub t u : headed u -> inside_of t u -> kbo u t.
Proof.
  intros Hu H. induction H as [fs Hin|fs f Hf Hin IH].
  - apply headed_rec in Hu. destruct Hu as [(c & r & ->) Hall]. split; [intro v; now apply cnt_sub|].
    rewrite wt_rec. cbn [wts]. change (wt (TCst c)) with 10. inversion Hall as [|? ? _ Hr]; subst. destruct Hin as [<-|Hin].
    + pose proof (wts_nonneg r Hr). cbn [wt]. destruct (Z.eq_dec (wts r) 0); [right; split; [lia|reflexivity]|left; lia].
    + left. pose proof (wts_in _ _ Hr Hin). lia.
  - pose proof Hu as Hu'. apply headed_rec in Hu'. destruct Hu' as [_ Hall]. specialize (IH (proj1 (Forall_forall _ _) Hall f Hf)).
    apply (kbo_trans _ f); [|exact IH]. clear - Hu Hf. apply headed_rec in Hu. destruct Hu as [(c & r & ->) Hall]. split; [intro v; now apply cnt_sub|].
    rewrite wt_rec. cbn [wts]. change (wt (TCst c)) with 10. inversion Hall as [|? ? _ Hr]; subst. destruct Hf as [<-|Hin].
    + pose proof (wts_nonneg r Hr). cbn [wt]. destruct (Z.eq_dec (wts r) 0); [right; split; [lia|reflexivity]|left; lia].
    + left. pose proof (wts_in _ _ Hr Hin). lia.
Qed.
Lemma kbo_ctx l r x y : kbo x y -> kbo (TRec (l ++ x :: r)) (TRec (l ++ y :: r)).
Proof.
  intros [C W]. split.
  - intro v. cbn [tvars]. rewrite !flat_map_app, !cnt_app. cbn [flat_map]. rewrite !cnt_app. specialize (C v). lia.
  - rewrite !wt_rec, !wts_app. cbn [wts]. destruct W as [W|[W L]]; [left; lia|]. right. split; [lia|].
    rewrite lex_rec, !app_length. cbn [length]. rewrite Nat.ltb_irrefl. induction l as [|f l IH]; cbn; [now rewrite L|]. now rewrite lex_refl.
Qed.
Lemma kbo_irrefl x : ~ kbo x x.
Proof. intros [_ [H|[_ H]]]; [lia|]. rewrite lex_refl in H. discriminate. Qed.

(* ---- no infinite descent over finitely many constants ---- *)
Fixpoint lists (A : list term) (n : nat) : list (list term) :=
  match n with O => [[]] | S n => [] :: flat_map (fun l => map (fun a => a :: l) A) (lists A n) end.
Lemma lists_in A n : forall l, (length l <= n)%nat -> incl l A -> In l (lists A n).
Proof.
  induction n as [|n IH]; intros [|a l] Hl Hi; cbn in *; auto; [lia|]. right. apply in_flat_map. exists l. split.
  - apply IH; [lia|]. intros x Hx. apply Hi. now right.
  - apply in_map_iff. exists a. split; [reflexivity|]. apply Hi. now left.
Qed.
Section Enum.
Variables (C : list cst) (V : list Z).
Fixpoint enum (n : nat) : list term :=
  match n with O => [] | S n => map TVar V ++ map TCst C ++ map TRec (lists (enum n) n) end.
Lemma list_sum_len (l : list term) : (length l <= list_sum (map tsize l))%nat.
Proof. induction l; unfold list_sum in *; cbn [map fold_right length]; [lia|]. pose proof (tsize_pos a). lia. Qed.
Lemma enum_in n : forall t, (tsize t <= n)%nat -> incl (tvars t) V -> incl (tcsts t) C -> In t (enum n).
Proof.
  induction n as [|n IH]; intros t Hs Hv Hc; [pose proof (tsize_pos t); lia|]. cbn [enum]. destruct t as [i|c|fs].
  - apply in_or_app. left. apply in_map. apply Hv. now left.
  - apply in_or_app. right. apply in_or_app. left. apply in_map. apply Hc. now left.
  - apply in_or_app. right. apply in_or_app. right. apply in_map. cbn [tsize] in Hs. apply lists_in.
    + pose proof (list_sum_len fs). lia.
    + intros f Hf. apply IH.
      * pose proof (list_sum_in (tsize f) (map tsize fs) (in_map tsize fs f Hf)). lia.
      * intros v H. apply Hv. cbn [tvars]. apply in_flat_map. eauto.
      * intros c H. apply Hc. cbn [tcsts]. apply in_flat_map. eauto.
Qed.
End Enum.
Lemma size_wt t : headed t -> Z.of_nat (tsize t) <= wt t - 5.
Proof.
  induction t as [i|c|fs IH] using term_ind'; intro H; [cbn; lia|cbn; lia|]. apply headed_rec in H. destruct H as [(c & r & ->) H].
  inversion IH as [|? ? _ IH']; inversion H as [|? ? _ H']; subst. rewrite wt_rec. cbn [wts tsize map list_sum]. change (wt (TCst c)) with 10.
  change (list_sum (map tsize r)) with (list_sum (map tsize r)).
  assert (Q : Z.of_nat (list_sum (map tsize r)) <= wts r).
  { clear - IH' H'. induction IH' as [|f r Hf _ IHr]; [cbn; lia|]. inversion H'; subst. cbn [map wts]. change (list_sum (tsize f :: map tsize r)) with (tsize f + list_sum (map tsize r))%nat.
    specialize (Hf ltac:(assumption)). specialize (IHr ltac:(assumption)). lia. }
  unfold list_sum in Q |- *. cbn [fold_right]. lia.
Qed.
Lemma kbo_dec x y : {kbo x y} + {~ kbo x y}.
Proof.
  unfold kbo. assert (D : {covers x y} + {~ covers x y}).
  { destruct (Forall_dec (fun v => (cnt v (tvars y) <= cnt v (tvars x))%nat) (fun v => le_dec _ _) (tvars y)) as [F|F].
    - left. intro v. destruct (in_dec Z.eq_dec v (tvars y)) as [Hv|Hv]; [exact (proj1 (Forall_forall _ _) F v Hv)|].
      unfold cnt. rewrite (proj1 (count_occ_not_In Z.eq_dec (tvars y) v) Hv). lia.
    - right. intro H. apply F. apply Forall_forall. intros v _. apply H. }
  destruct D as [D|D]; [|right; tauto]. destruct (Z_lt_dec (wt y) (wt x)); [left; auto|].
  destruct (Z.eq_dec (wt y) (wt x)); [|right; intros [_ [H|[H _]]]; lia]. destruct (Z.eq_dec (lex0 x y) 2); [left; auto|right; intros [_ [H|[_ H]]]; [lia|contradiction]].
Qed.
Lemma kbo_wf C (f : nat -> term) : (forall i, headed (f i) /\ incl (tcsts (f i)) C) -> ~ forall i, kbo (f i) (f (S i)).
Proof.
  intros Hf Hd.
  set (U := enum C (tvars (f 0%nat)) (Z.to_nat (wt (f 0%nat)))).
  assert (Inv : forall i, incl (tvars (f i)) (tvars (f 0%nat)) /\ wt (f i) <= wt (f 0%nat)).
  { induction i as [|i [I1 I2]]; [split; [apply incl_refl|lia]|]. destruct (Hd i) as [K1 K2]. split; [|lia].
    intros v Hv. apply I1. apply cnt_in. apply cnt_in in Hv. specialize (K1 v). lia. }
  assert (InU : forall i, In (f i) U).
  { intro i. destruct (Inv i) as [I1 I2]. destruct (Hf i) as [H1 H2]. pose proof (size_wt _ H1). apply enum_in; auto. lia. }
  set (below := fun t => filter (fun y => if kbo_dec t y then true else false) U).
  assert (Dec : forall i, (length (below (f (S i))) < length (below (f i)))%nat).
  { intro i. assert (Sub : forall l, (length (filter (fun y => if kbo_dec (f (S i)) y then true else false) l) <= length (filter (fun y => if kbo_dec (f i) y then true else false) l))%nat /\
      (In (f (S i)) l -> (length (filter (fun y => if kbo_dec (f (S i)) y then true else false) l) < length (filter (fun y => if kbo_dec (f i) y then true else false) l))%nat)).
    { induction l as [|y l [I1 I2]]; [split; [cbn; lia|intros []]|]. cbn [filter].
      destruct (kbo_dec (f (S i)) y) as [A|A], (kbo_dec (f i) y) as [B|B]; cbn [length].
      - split; [lia|]. intros [E|H]; [subst y; destruct (kbo_irrefl _ A)|specialize (I2 H); lia].
      - exfalso. apply B. exact (kbo_trans _ _ _ (Hd i) A).
      - split; [lia|]. intros _. lia.
      - split; [lia|]. intros [E|H]; [subst y; destruct (B (Hd i))|specialize (I2 H); lia]. }
    unfold below. apply (proj2 (Sub U)). apply InU. }
  assert (Bad : forall n i, (length (below (f i)) < n)%nat -> False).
  { induction n as [|n IH]; intros i H; [lia|]. apply (IH (S i)). specialize (Dec i). lia. }
  apply (Bad (S (length (below (f 0%nat)))) 0%nat). lia.
Qed.
End P.
