(** The ordering of equations: the algorithm and the pure order it computes. *)
From Coq Require Import List ZArith Bool Lia Permutation.
From Verif Require Import Terms TermsProof UnifyModel UnifySpec UnifyProof OrdModel OrdSpec.
Import ListNotations.
Open Scope Z_scope.

Fixpoint wt (t : term) : Z :=
  match t with
  | TVar _ => 10
  | TCst _ => 10
  | TRec fs => (fix go l := match l with [] => 0 | f :: l => wt f + go l end) fs
  end.
Fixpoint wts (l : list term) : Z := match l with [] => 0 | f :: l => wt f + wts l end.
Lemma wt_rec fs : wt (TRec fs) = wts fs.
Proof. induction fs; cbn in *; congruence. Qed.
Definition add_all (L : list Z) (l : vlist) : vlist := fold_left (fun l x => record_varocc x l) L l.

Section P.
Variable word : cst -> Z.
Fixpoint lex0 (x y : term) {struct x} : Z :=
  match x, y with
  | TVar i, TVar j => if i =? j then 0 else 3
  | TVar _, _ => 3
  | _, TVar _ => 3
  | TCst c, TCst d => if word c =? word d then 0 else if word d <? word c then 1 else 2
  | TCst _, TRec _ => 1
  | TRec _, TCst _ => 2
  | TRec fs, TRec gs =>
      if Nat.ltb (length fs) (length gs) then 1
      else if Nat.ltb (length gs) (length fs) then 2
      else (fix go fs gs := match fs, gs with
                            | f :: fs, g :: gs => if lex0 f g =? 0 then go fs gs else lex0 f g
                            | _, _ => 0
                            end) fs gs
  end.
Fixpoint lexs (fs gs : list term) : Z :=
  match fs, gs with
  | f :: fs, g :: gs => if lex0 f g =? 0 then lexs fs gs else lex0 f g
  | _, _ => 0
  end.
Lemma lex_rec fs gs : lex0 (TRec fs) (TRec gs) =
  if Nat.ltb (length fs) (length gs) then 1 else if Nat.ltb (length gs) (length fs) then 2 else lexs fs gs.
Proof.
  cbn [lex0]. destruct (Nat.ltb (length fs) (length gs)), (Nat.ltb (length gs) (length fs)); try reflexivity.
Qed.
Definition vl (t : term) : vlist := add_all (tvars t) empty_vl.
Definition ord0 (x y : term) : Z :=
  match x, y with
  | TVar _, TVar _ => 3
  | TVar i, TRec _ => if Zmem i (tvars y) then 2 else 3
  | TVar _, TCst _ => 3
  | TRec _, TVar j => if Zmem j (tvars x) then 1 else 3
  | TCst _, TVar _ => 3
  | TCst _, TRec _ => 2
  | TCst c, TCst d => if word d <? word c then 2 else if word c <? word d then 1 else 3
  | TRec _, TCst _ => 1
  | TRec _, TRec _ =>
      if (wt y <? wt x) && subset (vl y) (vl x) then 1
      else if (wt x <? wt y) && subset (vl x) (vl y) then 2
      else if wt x =? wt y then
        if (lex0 x y =? 2) && subset (vl y) (vl x) then 1
        else if (lex0 x y =? 1) && subset (vl x) (vl y) then 2
        else 3
      else 3
  end.

(* ---- the algorithm computes it ---- *)
Section Alg.
Variables (b : Z -> option term) (s : subst).
Hypothesis Hs : exhaustive b s.
Lemma der n x u : deref n b x = Some u -> app s x = app s u /\ (forall i, u = TVar i -> s i = TVar i).
Proof.
  intro E. destruct (deref_ok _ _ _ _ E) as [R H]. destruct Hs as [H1 H2]. split; [now apply H|].
  intros i ->. apply H2. exact R.
Qed.
Lemma weight_ok : forall n x l w l', weight_vars n b x l = Some (w, l') ->
  w = wt (app s x) /\ l' = add_all (tvars (app s x)) l.
Proof.
  induction n as [|n IH]; intros x l w l' E; [discriminate|]. cbn [weight_vars] in E.
  destruct (deref n b x) as [u|] eqn:Ed; [|discriminate]. destruct (der _ _ _ Ed) as [-> Hu]. destruct u as [i|c|fs].
  - injection E as <- <-. cbn [app]. rewrite (Hu i eq_refl). split; reflexivity.
  - injection E as <- <-. split; reflexivity.
  - assert (L : forall fs acc l w l', weight_loop (weight_vars n b) fs acc l = Some (w, l') ->
      w = acc + wts (map (app s) fs) /\ l' = add_all (flat_map tvars (map (app s) fs)) l).
    { clear - IH. induction fs as [|f fs IHf]; intros acc l w l' E; cbn [weight_loop map wts flat_map] in *.
      - injection E as <- <-. split; [lia|reflexivity].
      - destruct (weight_vars n b f l) as [[x l1]|] eqn:Ew; [|discriminate]. apply IH in Ew. destruct Ew as [-> ->].
        apply IHf in E. destruct E as [-> ->]. split; [lia|]. unfold add_all. now rewrite fold_left_app. }
    apply L in E. cbn [app tvars]. rewrite wt_rec. destruct E as [-> ->]. split; [lia|reflexivity].
Qed.
Lemma lex_ok : forall n x y r, lex_order word n b x y = Some r -> r = lex0 (app s x) (app s y).
Proof.
  induction n as [|n IH]; intros x y r E; [discriminate|]. cbn [lex_order] in E.
  destruct (deref n b x) as [u|] eqn:Eu; [|discriminate]. destruct (deref n b y) as [v|] eqn:Ev; [|discriminate].
  destruct (der _ _ _ Eu) as [-> Hu]. destruct (der _ _ _ Ev) as [-> Hv].
  destruct u as [i|c|fs], v as [j|d|gs]; cbn [app]; rewrite ?(Hu _ eq_refl), ?(Hv _ eq_refl); try (injection E as <-; reflexivity).
  rewrite lex_rec, !map_length.
  destruct (Nat.ltb (length fs) (length gs)); [now injection E as <-|].
  destruct (Nat.ltb (length gs) (length fs)); [now injection E as <-|].
  clear - IH E. revert gs E. induction fs as [|f fs IHf]; intros [|g gs] E; cbn [lex_loop map lexs] in *; try (injection E as <-; reflexivity).
  destruct (lex_order word n b f g) as [q|] eqn:Eq; [|discriminate]. apply IH in Eq. rewrite <- Eq.
  destruct (q =? 0); [now apply IHf|now injection E as <-].
Qed.
Lemma zmem x l : Zmem x l = true <-> In x l.
Proof. unfold Zmem. rewrite existsb_exists. split; [intros (y & H & E); apply Z.eqb_eq in E; now subst|intro H; exists x; split; [exact H|apply Z.eqb_refl]]. Qed.
Lemma occ_ok n i ys r : b i = None -> occurs_in n b i ys = Some r -> r = Zmem i (tvars (app s (TRec ys))).
Proof.
  intros Hi E. destruct Hs as [H1 H2]. pose proof (occurs_ok b s i H1 H2 Hi n ys r E) as Q.
  assert (Eq : tvars (app s (TRec ys)) = flat_map (fun y => tvars (app s y)) ys).
  { cbn [app tvars]. clear. induction ys; cbn; congruence. }
  rewrite <- Eq in Q. destruct r, (Zmem i (tvars (app s (TRec ys)))) eqn:Em; auto.
  - destruct Q as [Q _]. specialize (Q eq_refl). apply zmem in Q. congruence.
  - apply zmem in Em. apply Q in Em. discriminate.
Qed.
Lemma order_ok n x y r : order_eqterms word n b x y = Some r -> r = ord0 (app s x) (app s y).
Proof.
  unfold order_eqterms. intro E.
  destruct (deref n b x) as [u|] eqn:Eu; [|discriminate]. destruct (deref n b y) as [v|] eqn:Ev; [|discriminate].
  destruct (der _ _ _ Eu) as [-> Hu]. destruct (der _ _ _ Ev) as [-> Hv].
  pose proof (proj1 (deref_ok _ _ _ _ Eu)) as Ru. pose proof (proj1 (deref_ok _ _ _ _ Ev)) as Rv.
  destruct u as [i|c|fs], v as [j|d|gs].
  - cbn [app]. rewrite (Hu _ eq_refl), (Hv _ eq_refl). now injection E as <-.
  - cbn [app]. rewrite (Hu _ eq_refl). now injection E as <-.
  - destruct (occurs_in n b i gs) as [o|] eqn:Eo; [|discriminate]. apply occ_ok in Eo; [|exact Ru]. injection E as <-.
    cbn [app] in *. rewrite (Hu _ eq_refl). cbn [ord0]. now rewrite <- Eo.
  - cbn [app]. rewrite (Hv _ eq_refl). now injection E as <-.
  - now injection E as <-.
  - now injection E as <-.
  - destruct (occurs_in n b j fs) as [o|] eqn:Eo; [|discriminate]. apply occ_ok in Eo; [|exact Rv]. injection E as <-.
    cbn [app] in *. rewrite (Hv _ eq_refl). cbn [ord0]. now rewrite <- Eo.
  - now injection E as <-.
  - destruct (weight_vars n b (TRec fs) empty_vl) as [[xw xl]|] eqn:Ex; [|discriminate].
    destruct (weight_vars n b (TRec gs) empty_vl) as [[yw yl]|] eqn:Ey; [|discriminate].
    apply weight_ok in Ex, Ey. destruct Ex as [Ex1 Ex2], Ey as [Ey1 Ey2].
    change (add_all (tvars (app s (TRec fs))) empty_vl) with (vl (app s (TRec fs))) in Ex2.
    change (add_all (tvars (app s (TRec gs))) empty_vl) with (vl (app s (TRec gs))) in Ey2.
    change (app s (TRec fs)) with (TRec (map (app s) fs)) in *. change (app s (TRec gs)) with (TRec (map (app s) gs)) in *.
    unfold ord0. rewrite <- Ex1, <- Ex2, <- Ey1, <- Ey2.
    destruct ((yw <? xw) && subset yl xl); [now injection E as <-|]. destruct ((xw <? yw) && subset xl yl); [now injection E as <-|].
    destruct (xw =? yw); [|now injection E as <-].
    destruct (lex_order word n b (TRec fs) (TRec gs)) as [lo|] eqn:El; [|discriminate]. apply lex_ok in El.
    change (app s (TRec fs)) with (TRec (map (app s) fs)) in *. change (app s (TRec gs)) with (TRec (map (app s) gs)) in *.
    rewrite <- El. destruct ((lo =? 2) && subset yl xl); [now injection E as <-|]. destruct ((lo =? 1) && subset xl yl); now injection E as <-.
Qed.
End Alg.

Lemma nobind_ids : exhaustive nobind ids.
Proof. split; [intros i t E; discriminate|reflexivity]. Qed.
Lemma order_plain n x y r : order_eqterms word n nobind x y = Some r -> r = ord0 x y.
Proof. intro E. apply (order_ok nobind ids nobind_ids) in E. now rewrite !app_ids in E. Qed.

(* ---- asymmetry ---- *)
Lemma lex_range x : forall y, lex0 x y = 0 \/ lex0 x y = 1 \/ lex0 x y = 2 \/ lex0 x y = 3.
Proof.
  induction x as [i|c|fs IH] using term_ind'; intros [j|d|gs]; try (cbn; auto; fail).
  - cbn. destruct (i =? j); auto.
  - cbn. destruct (word c =? word d); auto. destruct (word d <? word c); auto.
  - rewrite lex_rec. destruct (Nat.ltb _ _); auto. destruct (Nat.ltb _ _); auto.
    revert gs. induction IH as [|f fs Hf _ IHf]; intros [|g gs]; cbn; auto. destruct (lex0 f g =? 0); auto.
Qed.
Definition flip (r : Z) : Z := if r =? 1 then 2 else if r =? 2 then 1 else r.
Lemma lex_flip x : forall y, lex0 y x = flip (lex0 x y).
Proof.
  induction x as [i|c|fs IH] using term_ind'; intros [j|d|gs]; try reflexivity.
  - cbn. rewrite Z.eqb_sym. destruct (i =? j); reflexivity.
  - cbn. rewrite Z.eqb_sym. destruct (Z.eqb_spec (word c) (word d)); [reflexivity|].
    destruct (Z.ltb_spec (word c) (word d)), (Z.ltb_spec (word d) (word c)); try reflexivity; lia.
  - rewrite !lex_rec. destruct (Nat.ltb_spec (length fs) (length gs)), (Nat.ltb_spec (length gs) (length fs)); try reflexivity; try lia.
    clear - IH. revert gs. induction IH as [|f fs Hf _ IHf]; intros [|g gs]; try reflexivity. cbn [lexs]. rewrite Hf.
    destruct (lex_range f g) as [E|[E|[E|E]]]; rewrite E; cbn; auto.
Qed.
Lemma ord_range x y : ord0 x y = 1 \/ ord0 x y = 2 \/ ord0 x y = 3.
Proof.
  unfold ord0. destruct x, y; repeat match goal with |- context [if ?c then _ else _] => destruct c end; auto.
Qed.
Lemma ord_flip x y : ord0 y x = flip (ord0 x y).
Proof.
  destruct x as [i|c|fs], y as [j|d|gs]; try reflexivity.
  - cbn [ord0]. destruct (Zmem i (tvars (TRec gs))); reflexivity.
  - cbn [ord0]. destruct (Z.ltb_spec (word c) (word d)), (Z.ltb_spec (word d) (word c)); try reflexivity; lia.
  - cbn [ord0]. destruct (Zmem j (tvars (TRec fs))); reflexivity.
  - unfold ord0. rewrite (lex_flip (TRec fs) (TRec gs)).
    generalize (TRec fs) (TRec gs). intros X Y. rewrite (Z.eqb_sym (wt Y)).
    generalize (subset (vl X) (vl Y)) (subset (vl Y) (vl X)). intros p q.
    destruct (Z.ltb_spec (wt X) (wt Y)), (Z.ltb_spec (wt Y) (wt X)), (Z.eqb_spec (wt X) (wt Y)); try lia; cbn [andb].
    + destruct p; reflexivity.
    + destruct q; reflexivity.
    + destruct (lex_range X Y) as [E'|[E'|[E'|E']]]; rewrite E'; cbn; destruct p, q; reflexivity.
Qed.
Lemma lex_refl x : lex0 x x = 0.
Proof.
  induction x as [i|c|fs IH] using term_ind'; [cbn; now rewrite Z.eqb_refl|cbn; now rewrite Z.eqb_refl|].
  rewrite lex_rec, Nat.ltb_irrefl. induction IH as [|f fs Hf _ IHf]; cbn; auto. rewrite Hf. exact IHf.
Qed.
Lemma ord_refl x : ord0 x x = 3.
Proof.
  destruct x as [i|c|fs]; [reflexivity|cbn; now rewrite Z.ltb_irrefl|]. unfold ord0.
  rewrite Z.ltb_irrefl, Z.eqb_refl, lex_refl. reflexivity.
Qed.

(* ---- counted lists ---- *)
Definition cnt (v : Z) (L : list Z) : nat := count_occ Z.eq_dec L v.
Definition keys (l : vlist) : list Z := map fst (items l).
Record vlok (L : list Z) (l : vlist) : Prop := {
  k_nd : NoDup (keys l);
  k_in : forall v, In v (keys l) <-> In v L;
  k_lk : forall v, In v L -> lookup v (items l) = Some (Z.of_nat (cnt v L));
  k_mx : forall v, In v (keys l) -> v <= maxv l;
  k_mi : maxv l = -1 \/ In (maxv l) L;
  k_lo : -1 <= maxv l }.
Lemma lookup_in v l c : lookup v l = Some c -> In v (map fst l).
Proof. induction l as [|[u d] l IH]; cbn; [discriminate|]. destruct (Z.eqb_spec u v); [auto|right; auto]. Qed.
Lemma lookup_some v l : In v (map fst l) -> exists c, lookup v l = Some c.
Proof. induction l as [|[u d] l IH]; cbn; [intros []|]. destruct (Z.eqb_spec u v); [eauto|]. intros [H|H]; [contradiction|auto]. Qed.
Lemma bump_some v l l' : bump v l = Some l' -> map fst l' = map fst l /\
  forall u, lookup u l' = if u =? v then match lookup v l with Some c => Some (c + 1) | None => None end else lookup u l.
Proof.
  revert l'. induction l as [|[w c] l IH]; intros l' E; cbn in E; [discriminate|].
  destruct (Z.eqb_spec w v) as [->|N].
  - injection E as <-. split; [reflexivity|]. intro u. cbn. rewrite Z.eqb_refl. rewrite (Z.eqb_sym v u). destruct (u =? v); reflexivity.
  - destruct (bump v l) as [l1|]; [|discriminate]. injection E as <-. destruct (IH _ eq_refl) as [I1 I2]. split; [cbn; now rewrite I1|].
    intro u. cbn. destruct (Z.eqb_spec w v); [contradiction|]. rewrite I2. destruct (Z.eqb_spec w u); [|reflexivity].
    subst u. destruct (Z.eqb_spec w v); [contradiction|reflexivity].
Qed.
Lemma bump_none v l : bump v l = None -> ~ In v (map fst l).
Proof.
  induction l as [|[w c] l IH]; cbn; [tauto|]. destruct (Z.eqb_spec w v); [discriminate|]. destruct (bump v l); [discriminate|].
  intros _ [H|H]; [contradiction|]. now apply IH.
Qed.
Lemma cnt_app v L M : cnt v (L ++ M) = (cnt v L + cnt v M)%nat.
Proof. apply count_occ_app. Qed.
Lemma cnt_one v u : cnt v [u] = if u =? v then 1%nat else 0%nat.
Proof. unfold cnt. cbn. destruct (Z.eq_dec u v), (Z.eqb_spec u v); congruence. Qed.
Lemma lookup_app v l p : lookup v (l ++ [p]) = match lookup v l with Some c => Some c | None => if fst p =? v then Some (snd p) else None end.
Proof. induction l as [|[u c] l IH]; cbn; [destruct p; reflexivity|]. destruct (u =? v); auto. Qed.
Lemma record_vlok L l x : vlok L l -> (length (nodup Z.eq_dec (L ++ [x])) <= capacity)%nat -> vlok (L ++ [x]) (record_varocc x l).
Proof.
  intros H Hc.
  assert (New : ~ In x (keys l) -> vlok (L ++ [x]) (store_new x l)).
  { intro Nx. unfold store_new.
    assert (Nl : ~ In x L) by (rewrite <- (k_in _ _ H); exact Nx).
    assert (Len : (length (items l) < capacity)%nat).
    { rewrite <- (map_length fst (items l)). change (length (keys l) < capacity)%nat.
      apply (Nat.lt_le_trans _ (length (nodup Z.eq_dec (L ++ [x])))); [|exact Hc].
      apply (Nat.lt_le_trans _ (length (x :: keys l))); [cbn; lia|]. apply NoDup_incl_length; [constructor; [exact Nx|exact (k_nd _ _ H)]|].
      intros v Hv. apply nodup_In, in_or_app. destruct Hv as [<-|Hv]; [right; now left|left; now apply (k_in _ _ H)]. }
    destruct (Nat.leb_spec capacity (length (items l))); [lia|]. unfold keys. constructor; unfold keys; cbn [items maxv].
    - rewrite map_app. cbn. apply (Permutation_NoDup (Permutation_cons_append (map fst (items l)) x)). constructor; [exact Nx|exact (k_nd _ _ H)].
    - intro v. rewrite map_app, !in_app_iff. cbn. change (map fst (items l)) with (keys l). rewrite (k_in _ _ H). tauto.
    - intros v Hv. rewrite lookup_app, cnt_app, cnt_one. cbn [fst snd]. apply in_app_or in Hv. destruct (Z.eqb_spec x v) as [->|N].
      + destruct (lookup v (items l)) as [c|] eqn:El; [apply lookup_in in El; contradiction|].
        assert (cnt v L = 0%nat) as -> by (apply count_occ_not_In; exact Nl). reflexivity.
      + destruct Hv as [Hv|[Hv|[]]]; [|contradiction]. rewrite (k_lk _ _ H v Hv). f_equal. lia.
    - intros v Hv. rewrite map_app, in_app_iff in Hv. cbn in Hv. destruct Hv as [Hv|[<-|[]]].
      + specialize (k_mx _ _ H v Hv). destruct (Z.ltb_spec (maxv l) x); lia.
      + destruct (Z.ltb_spec (maxv l) x); lia.
    - destruct (Z.ltb_spec (maxv l) x); [right; apply in_or_app; right; now left|].
      destruct (k_mi _ _ H) as [E|E]; [left; exact E|right; apply in_or_app; now left].
    - pose proof (k_lo _ _ H). destruct (Z.ltb_spec (maxv l) x); lia. }
  unfold record_varocc. destruct (Z.leb_spec x (maxv l)) as [Hm|Hm].
  - destruct (bump x (items l)) as [l'|] eqn:Eb; [|apply New; exact (bump_none _ _ Eb)].
    destruct (bump_some _ _ _ Eb) as [B1 B2].
    assert (Hk : In x (keys l)).
    { specialize (B2 x). rewrite Z.eqb_refl in B2. destruct (lookup x (items l)) eqn:El; [eapply lookup_in; exact El|].
      exfalso. clear - Eb El. revert l' Eb. induction (items l) as [|[w c] r IH]; cbn in *; [discriminate|]. destruct (w =? x); [discriminate|].
      intros l' Eb. destruct (bump x r) eqn:Er; [|discriminate]. eapply IH; eauto. }
    assert (Hl : In x L) by now apply (k_in _ _ H). constructor; unfold keys; cbn [items maxv]; rewrite ?B1.
    + exact (k_nd _ _ H).
    + intro v. change (map fst (items l)) with (keys l). rewrite (k_in _ _ H), in_app_iff. cbn. split; [auto|]. intros [Hv|[<-|[]]]; auto.
    + intros v Hv. rewrite B2, cnt_app, cnt_one. destruct (Z.eqb_spec v x) as [->|N].
      * rewrite (k_lk _ _ H x Hl), Z.eqb_refl. f_equal. lia.
      * apply in_app_or in Hv. destruct Hv as [Hv|[Hv|[]]]; [|congruence]. rewrite (k_lk _ _ H v Hv). destruct (Z.eqb_spec x v); [congruence|]. f_equal. lia.
    + exact (k_mx _ _ H).
    + destruct (k_mi _ _ H) as [E|E]; [left; exact E|right; apply in_or_app; now left].
    + exact (k_lo _ _ H).
  - apply New. intro Hk. specialize (k_mx _ _ H x Hk). lia.
Qed.
End P.
