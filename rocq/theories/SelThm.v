(** The choice of literals: the ordering of atoms, and the theorems. *)
From Coq Require Import List ZArith Bool Lia.
From Verif Require Import Terms TermsProof OrdModel OrdSpec OrdProof OrdThm SelModel SelSpec SelProof.
Import ListNotations.
Open Scope Z_scope.

(** * Weights and variables *)
Definition wloop := fix loop (fs : list term) (w : Z) (l : vlist) : Z * vlist :=
  match fs with
  | [] => (w, l)
  | f :: fs => let '(x, l) := atom_weight f l in loop fs (w + x) l
  end.
Lemma atom_weight_rec fs l : atom_weight (TRec fs) l = wloop fs 0 l.
Proof. reflexivity. Qed.
Lemma atom_weight_ok t : forall l, atom_weight t l = (Z.of_nat (leaves t), add_all (tvars t) l).
Proof.
  induction t as [i|c|fs IH] using term_ind'; intro l; [reflexivity|reflexivity|]. rewrite atom_weight_rec.
  assert (G : forall w, wloop fs w l = (w + Z.of_nat (list_sum (map leaves fs)), add_all (flat_map tvars fs) l)).
  { revert l. induction IH as [|f fs Hf _ IHf]; intros l w; [cbn; f_equal; lia|].
    cbn [wloop]. rewrite Hf. rewrite IHf. cbn [flat_map map]. unfold add_all. rewrite fold_left_app.
    unfold list_sum. cbn [fold_right]. f_equal. lia. }
  rewrite G. reflexivity.
Qed.
Lemma wt_leaves t : wt t = 10 * Z.of_nat (leaves t).
Proof.
  induction t as [i|c|fs IH] using term_ind'; [reflexivity|reflexivity|]. rewrite wt_rec. cbn [leaves].
  induction IH as [|f fs Hf _ IHf]; [reflexivity|]. cbn [wts map]. unfold list_sum in *. cbn [fold_right]. lia.
Qed.

Section Thm.
Variable word : cst -> Z.
Variable is_uri : cst -> bool.
Variable uid : cst -> Z.
Notation below := (below word is_uri uid).
Notation alex := (atoms_lex word is_uri uid).
Notation cmpl := (compare_lits word is_uri uid).

Definition ent (t : term) : Z * vlist * term := (Z.of_nat (leaves t), vl t, t).
Lemma info_ord l : ordinary l -> info l = Some (ent (atom l)).
Proof. intros [A B]. unfold info. rewrite A, B. cbn [orb]. now rewrite atom_weight_ok. Qed.
Lemma info_not l : ~ ordinary l -> info l = None.
Proof. unfold info, ordinary. intro H. destruct (ans l), (spc l); try reflexivity. exfalso. apply H. auto. Qed.
Lemma info_some l e : info l = Some e -> ordinary l /\ e = ent (atom l).
Proof.
  intro H. assert (O : ordinary l).
  { unfold info in H. unfold ordinary. destruct (ans l), (spc l); try discriminate; auto. }
  rewrite (info_ord l O) in H. injection H as <-. auto.
Qed.

(** * Lexicographic comparison under a ranking *)
Definition alexs := fix loop (xs ys : list term) : Z :=
  match xs, ys with
  | x :: xs, y :: ys => let r := alex x y in if r =? 0 then loop xs ys else r
  | _, _ => 0
  end.
Lemma alex_rec fs gs : alex (TRec fs) (TRec gs) =
  if Nat.ltb (length fs) (length gs) then 1 else if Nat.ltb (length gs) (length fs) then 2 else alexs fs gs.
Proof. reflexivity. Qed.
Lemma below_b c d : const_smaller word is_uri uid c d = true <-> below c d.
Proof. unfold const_smaller, SelSpec.below. destruct (is_uri c && is_uri d); apply Z.ltb_lt. Qed.

Section Rank.
Variable cs : list cst.
Variable rank : cst -> Z.
Hypothesis Hr : forall c d, In c cs -> In d cs -> c <> d -> rank c <> rank d /\ word c <> word d /\ (below c d <-> rank c < rank d).
Notation L := (lex0 (fun c => - rank c)).
Notation Ls := (lexs (fun c => - rank c)).
Lemma alex_rank x : forall y, incl (tcsts x) cs -> incl (tcsts y) cs -> alex x y = L x y.
Proof.
  induction x as [i|c|fs IH] using term_ind'; intros [j|d|gs] Hx Hy; try reflexivity.
  - cbn [atoms_lex lex0]. assert (Hc : In c cs) by (apply Hx; now left). assert (Hd : In d cs) by (apply Hy; now left).
    destruct (cst_eq_dec c d) as [->|N]; [now rewrite !Z.eqb_refl|]. destruct (Hr c d Hc Hd N) as (R&W&B).
    destruct (Z.eqb_spec (word c) (word d)); [contradiction|]. destruct (Z.eqb_spec (- rank c) (- rank d)); [lia|].
    destruct (const_smaller word is_uri uid c d) eqn:E.
    + apply below_b, B in E. destruct (Z.ltb_spec (- rank d) (- rank c)); [reflexivity|lia].
    + destruct (Z.ltb_spec (- rank d) (- rank c)) as [Q|Q]; [|reflexivity]. exfalso.
      assert (E' : const_smaller word is_uri uid c d = true) by (apply below_b, B; lia). congruence.
  - rewrite alex_rec, lex_rec. destruct (Nat.ltb (length fs) (length gs)); [reflexivity|]. destruct (Nat.ltb (length gs) (length fs)); [reflexivity|].
    cbn [tcsts] in Hx, Hy. revert gs Hy. induction IH as [|f fs Hf _ IHf]; intros [|g gs] Hy; try reflexivity.
    cbn [flat_map] in Hx, Hy. cbn [alexs lexs]. cbn zeta.
    rewrite (Hf g); [|intros a Ha; apply Hx, in_or_app; auto|intros a Ha; apply Hy, in_or_app; auto].
    rewrite IHf; [reflexivity|intros a Ha; apply Hx, in_or_app; auto|intros a Ha; apply Hy, in_or_app; auto].
Qed.
(* lexicographically bigger *)
Lemma lexs_field (fs : list term) : Forall (fun f => forall g, incl (tcsts f) cs -> incl (tcsts g) cs -> L f g = 2 <-> lex_bigger word is_uri uid f g) fs ->
  forall gs, length fs = length gs -> incl (flat_map tcsts fs) cs -> incl (flat_map tcsts gs) cs ->
  Ls fs gs = 2 <-> exists p f g fs' gs', fs = p ++ f :: fs' /\ gs = p ++ g :: gs' /\ length fs' = length gs' /\ lex_bigger word is_uri uid f g.
Proof.
  induction 1 as [|f fs Hf _ IH]; intros [|g gs] Hl Hx Hy; try discriminate.
  - cbn. split; [discriminate|]. intros ([|? ?]&f&g&fs'&gs'&A&_); discriminate.
  - cbn in Hl. cbn [flat_map] in Hx, Hy. cbn [lexs].
    assert (Hx1 : incl (tcsts f) cs) by (intros a Ha; apply Hx, in_or_app; auto).
    assert (Hx2 : incl (flat_map tcsts fs) cs) by (intros a Ha; apply Hx, in_or_app; auto).
    assert (Hy1 : incl (tcsts g) cs) by (intros a Ha; apply Hy, in_or_app; auto).
    assert (Hy2 : incl (flat_map tcsts gs) cs) by (intros a Ha; apply Hy, in_or_app; auto).
    specialize (IH gs ltac:(lia) Hx2 Hy2). specialize (Hf g Hx1 Hy1).
    destruct (Z.eqb_spec (L f g) 0) as [E0|E0].
    + assert (Efg : f = g).
      { assert (inj : forall a b, incl (tcsts a) cs -> incl (tcsts b) cs -> L a b = 0 -> a = b).
        { clear - Hr. induction a as [i|c|fs IH] using term_ind'; intros [j|d|gs] Ha Hb E; try discriminate.
          - cbn in E. destruct (Z.eqb_spec i j); [congruence|discriminate].
          - cbn in E. destruct (cst_eq_dec c d) as [->|N]; [reflexivity|]. destruct (Hr c d ltac:(apply Ha; now left) ltac:(apply Hb; now left) N) as (R&_&_).
            destruct (Z.eqb_spec (- rank c) (- rank d)); [lia|]. destruct (_ <? _); discriminate.
          - rewrite lex_rec in E. destruct (Nat.ltb_spec (length fs) (length gs)) as [|L1]; [discriminate|].
            destruct (Nat.ltb_spec (length gs) (length fs)) as [|L2]; [discriminate|]. f_equal.
            assert (Le : length fs = length gs) by lia. clear L1 L2. cbn [tcsts] in Ha, Hb. revert gs Hb E Le.
            induction IH as [|f fs Hf _ IHf]; intros [|g gs] Hb E Le; try discriminate; [reflexivity|].
            cbn [flat_map] in Ha, Hb. cbn [lexs] in E. destruct (Z.eqb_spec (L f g) 0) as [E1|E1]; [|congruence]. f_equal.
            + apply Hf; [intros q Hq; apply Ha, in_or_app; auto|intros q Hq; apply Hb, in_or_app; auto|exact E1].
            + apply IHf; [intros q Hq; apply Ha, in_or_app; auto|intros q Hq; apply Hb, in_or_app; auto|exact E|cbn in Le; lia]. }
        now apply inj. }
      subst g. rewrite IH. split.
      * intros (p&f0&g0&fs'&gs'&->&->&C&D). exists (f :: p), f0, g0, fs', gs'. auto.
      * intros ([|q p]&f0&g0&fs'&gs'&A&B&C&D).
        -- cbn in A, B. injection A as -> ->. injection B as -> ->. exfalso. apply Hf in D. congruence.
        -- cbn in A, B. injection A as -> ->. injection B as ->. exists p, f0, g0, fs', gs'. auto.
    + split.
      * intro E. exists [], f, g, fs, gs. repeat split; [lia|now apply Hf].
      * intros ([|q p]&f0&g0&fs'&gs'&A&B&C&D).
        -- cbn in A, B. injection A as -> ->. injection B as -> ->. now apply Hf.
        -- cbn in A, B. injection A as -> ->. injection B as -> ->. rewrite lex_refl in E0. contradiction.
Qed.
Lemma lex_bigger_iff x : forall y, incl (tcsts x) cs -> incl (tcsts y) cs -> L x y = 2 <-> lex_bigger word is_uri uid x y.
Proof.
  induction x as [i|c|fs IH] using term_ind'; intros [j|d|gs] Hx Hy;
    try (cbn; split; [discriminate|intro H; inversion H]; fail).
  - cbn. split; [destruct (i =? j); discriminate|intro H; inversion H].
  - cbn [lex0]. assert (Hc : In c cs) by (apply Hx; now left). assert (Hd : In d cs) by (apply Hy; now left).
    destruct (cst_eq_dec c d) as [->|N].
    + rewrite Z.eqb_refl. split; [discriminate|]. intro H. inversion H as [? ? B| | |]; subst. unfold SelSpec.below in B.
      destruct (is_uri d && is_uri d); lia.
    + destruct (Hr c d Hc Hd N) as (R&W&_). destruct (Hr d c Hd Hc ltac:(auto)) as (_&_&B).
      destruct (Z.eqb_spec (- rank c) (- rank d)); [lia|]. destruct (Z.ltb_spec (- rank d) (- rank c)); split; try discriminate.
      * intro H1. inversion H1 as [? ? B1| | |]; subst. apply B in B1. lia.
      * intros _. constructor. apply B. lia.
      * reflexivity.
  - split; [intros _; constructor|reflexivity].
  - rewrite lex_rec. destruct (Nat.ltb_spec (length fs) (length gs)) as [L1|L1].
    + split; [discriminate|]. intro H. inversion H; subst; [lia|]. rewrite !app_length in L1. cbn in L1. lia.
    + destruct (Nat.ltb_spec (length gs) (length fs)) as [L2|L2]; [split; [intros _; now constructor|reflexivity]|].
      assert (IH' : Forall (fun f => forall g, incl (tcsts f) cs -> incl (tcsts g) cs -> L f g = 2 <-> lex_bigger word is_uri uid f g) fs).
      { clear - IH. eapply Forall_impl; [|exact IH]. cbn. auto. }
      rewrite (lexs_field fs IH' gs ltac:(lia) Hx Hy). split.
      * intros (p&f&g&fs'&gs'&->&->&A&B). now constructor.
      * intro H. inversion H; subst; [lia|]. do 5 eexists. repeat split; eauto.
Qed.
Notation K := (kbo (fun c => - rank c)).
Lemma kbo_bigger x y : incl (tcsts x) cs -> incl (tcsts y) cs -> K x y <-> bigger word is_uri uid x y.
Proof.
  intros Hx Hy. unfold kbo, covers, bigger, occurrences, cnt. rewrite !wt_leaves. rewrite (lex_bigger_iff x y Hx Hy).
  split; intros [A [B|[B C]]]; (split; [exact A|]); [left|right|left|right]; try split; auto; lia.
Qed.

(** * The comparison of two literals is a strict order *)
Lemma subset_items xs ys : subset xs ys = true -> forall v c, In (v, c) (items xs) -> exists d, lookup v (items ys) = Some d /\ c <= d.
Proof.
  unfold subset. intros H v c Hv. destruct (items xs) as [|p px] eqn:Ex; [destruct Hv|]. destruct (items ys) as [|q qy] eqn:Ey; [discriminate|].
  destruct (Nat.ltb _ _); [discriminate|]. destruct (_ <? _); [discriminate|]. rewrite forallb_forall in H. specialize (H _ Hv). cbn [fst snd] in H.
  destruct (lookup v (q :: qy)) as [d|]; [|discriminate]. apply Z.leb_le in H. eauto.
Qed.
Lemma lookup_In v l c : lookup v l = Some c -> In (v, c) l.
Proof.
  induction l as [|[u d] l IH]; cbn; [discriminate|]. destruct (Z.eqb_spec u v) as [->|]; [intro E; injection E as ->; auto|auto].
Qed.
Lemma subset_trans xs ys zs : subset xs ys = true -> subset ys zs = true -> subset xs zs = true.
Proof.
  intros A B. pose proof (subset_items xs ys A) as Ia. pose proof (subset_items ys zs B) as Ib. unfold subset in *.
  destruct (items xs) as [|p px] eqn:Ex; [reflexivity|]. destruct (items ys) as [|q qy] eqn:Ey; [discriminate|].
  destruct (items zs) as [|r rz] eqn:Ez; [discriminate|].
  destruct (Nat.ltb_spec (length (q :: qy)) (length (p :: px))); [discriminate|].
  destruct (Nat.ltb_spec (length (r :: rz)) (length (q :: qy))); [discriminate|].
  destruct (Nat.ltb_spec (length (r :: rz)) (length (p :: px))); [lia|].
  destruct (Z.ltb_spec (maxv ys) (maxv xs)); [discriminate|]. destruct (Z.ltb_spec (maxv zs) (maxv ys)); [discriminate|].
  destruct (Z.ltb_spec (maxv zs) (maxv xs)); [lia|]. apply forallb_forall. intros [v c] Hv. cbn [fst snd].
  destruct (Ia v c Hv) as (d&Hd&Ld). apply lookup_In in Hd. destruct (Ib v d Hd) as (e&He&Le). rewrite He. apply Z.leb_le. lia.
Qed.
Lemma cmpl_one x y : incl (tcsts x) cs -> incl (tcsts y) cs ->
  cmpl (ent x) (ent y) = 1 <-> subset (vl y) (vl x) = true /\ ((leaves y < leaves x)%nat \/ (leaves y = leaves x /\ L x y = 2)).
Proof.
  intros Hx Hy. unfold compare_lits, ent. rewrite (alex_rank x y Hx Hy).
  destruct (Z.ltb_spec (Z.of_nat (leaves y)) (Z.of_nat (leaves x))) as [A|A]; cbn [andb].
  - destruct (subset (vl y) (vl x)); [split; [intros _; split; [reflexivity|left; lia]|reflexivity]|].
    destruct (Z.ltb_spec (Z.of_nat (leaves x)) (Z.of_nat (leaves y))); [lia|]. cbn [andb].
    destruct (Z.eqb_spec (Z.of_nat (leaves x)) (Z.of_nat (leaves y))); [lia|]. split; [discriminate|intros [? _]; discriminate].
  - destruct ((Z.of_nat (leaves x) <? Z.of_nat (leaves y)) && subset (vl x) (vl y)) eqn:B.
    + apply andb_prop in B as [B _]. apply Z.ltb_lt in B. split; [discriminate|intros [_ [?|[? _]]]; lia].
    + destruct (Z.eqb_spec (Z.of_nat (leaves x)) (Z.of_nat (leaves y))) as [E|E].
      * destruct (Z.eqb_spec (L x y) 2) as [F|F]; cbn [andb].
        -- destruct (subset (vl y) (vl x)); [split; [intros _; split; [reflexivity|right; split; [lia|exact F]]|reflexivity]|].
           destruct (Z.eqb_spec (L x y) 1); [congruence|]. cbn [andb]. split; [discriminate|intros [? _]; discriminate].
        -- split; [destruct ((L x y =? 1) && subset (vl x) (vl y)); intro; discriminate|intros [_ [?|[_ ?]]]; [lia|contradiction]].
      * split; [discriminate|intros [_ [?|[? _]]]; lia].
Qed.
Lemma cmpl_flip x y : incl (tcsts x) cs -> incl (tcsts y) cs -> cmpl (ent x) (ent y) = 2 <-> cmpl (ent y) (ent x) = 1.
Proof.
  intros Hx Hy. rewrite (cmpl_one y x Hy Hx). unfold compare_lits, ent. rewrite (alex_rank x y Hx Hy).
  assert (F12 : L x y = 1 <-> L y x = 2).
  { rewrite (lex_flip _ x y). unfold flip. destruct (lex_range (fun c => - rank c) x y) as [E|[E|[E|E]]]; rewrite E; cbn; split; congruence. }
  destruct (Z.ltb_spec (Z.of_nat (leaves y)) (Z.of_nat (leaves x))) as [A|A]; cbn [andb].
  - destruct (subset (vl y) (vl x)); [split; [discriminate|intros [_ [?|[? _]]]; lia]|].
    destruct (Z.ltb_spec (Z.of_nat (leaves x)) (Z.of_nat (leaves y))); [lia|]. cbn [andb].
    destruct (Z.eqb_spec (Z.of_nat (leaves x)) (Z.of_nat (leaves y))); [lia|]. split; [discriminate|intros [_ [?|[? _]]]; lia].
  - destruct (Z.ltb_spec (Z.of_nat (leaves x)) (Z.of_nat (leaves y))) as [B|B]; cbn [andb].
    + destruct (subset (vl x) (vl y)); [split; [intros _; split; [reflexivity|left; lia]|reflexivity]|].
      destruct (Z.eqb_spec (Z.of_nat (leaves x)) (Z.of_nat (leaves y))); [lia|]. split; [discriminate|intros [? _]; discriminate].
    + destruct (Z.eqb_spec (Z.of_nat (leaves x)) (Z.of_nat (leaves y))) as [E|E]; [|lia].
      destruct (Z.eqb_spec (L x y) 2) as [F|F]; cbn [andb].
      * destruct (subset (vl y) (vl x)).
        -- split; [discriminate|]. intros [_ [?|[_ Q]]]; [lia|]. apply F12 in Q. congruence.
        -- destruct (Z.eqb_spec (L x y) 1); [congruence|]. cbn [andb]. split; [discriminate|]. intros [_ [?|[_ Q]]]; [lia|]. apply F12 in Q. congruence.
      * destruct (Z.eqb_spec (L x y) 1) as [G|G]; cbn [andb].
        -- destruct (subset (vl x) (vl y)); [split; [intros _; split; [reflexivity|right; split; [lia|now apply F12]]|reflexivity]|split; [discriminate|intros [? _]; discriminate]].
        -- split; [discriminate|]. intros [_ [?|[_ Q]]]; [lia|]. apply F12 in Q. contradiction.
Qed.
Lemma cmpl_irr x : incl (tcsts x) cs -> cmpl (ent x) (ent x) <> 1.
Proof. intros Hx. rewrite (cmpl_one x x Hx Hx). rewrite lex_refl. intros [_ [?|[_ ?]]]; [lia|discriminate]. Qed.
Lemma cmpl_trans x y z : incl (tcsts x) cs -> incl (tcsts y) cs -> incl (tcsts z) cs ->
  cmpl (ent x) (ent y) = 1 -> cmpl (ent y) (ent z) = 1 -> cmpl (ent x) (ent z) = 1.
Proof.
  intros Hx Hy Hz. rewrite (cmpl_one x y Hx Hy), (cmpl_one y z Hy Hz), (cmpl_one x z Hx Hz).
  intros [S1 A] [S2 B]. split; [now apply (subset_trans _ (vl y))|].
  destruct A as [A|[A1 A2]], B as [B|[B1 B2]]; try (left; lia). right. split; [lia|]. now apply (lex_trans _ x y z).
Qed.
Lemma cmpl_bigger x y : incl (tcsts x) cs -> incl (tcsts y) cs -> few_vars x -> few_vars y ->
  cmpl (ent x) (ent y) = 1 <-> bigger word is_uri uid x y.
Proof.
  intros Hx Hy Fx Fy. rewrite (cmpl_one x y Hx Hy), (subset_iff _ _ _ _ (vl_vlok y Fy) (vl_vlok x Fx)).
  rewrite (lex_bigger_iff x y Hx Hy). reflexivity.
Qed.
End Rank.
End Thm.
