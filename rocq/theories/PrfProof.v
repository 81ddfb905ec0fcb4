(** Flattening and printing over all derivations. *)
From Coq Require Import List ZArith Bool Lia Relations.
From Verif Require Import Word64 EncModel EncProof PrfModel PrfSpec PrfBase PrfRec PrfOp PrfPrint.
Import ListNotations.
Open Scope Z_scope.

Lemma put_old m h c ws h' c' : h' <> h -> c' <> c ->
  cl_hist (put m h c ws) c' = cl_hist m c' /\ rec (put m h c ws) h' = rec m h'.
Proof.
  intros H1 H2. cbn. rewrite (proj2 (Z.eqb_neq c' c) H2), (proj2 (Z.eqb_neq h' h) H1). auto.
Qed.
Lemma derive_put g m h c clid order o m' : derive g m h c clid order o = Some m' ->
  exists ws, build g m clid order o = Some ws /\ m' = put m h c ws.
Proof.
  unfold derive. destruct (build g m clid order o) as [ws|]; [|discriminate].
  intro E. injection E as <-. eauto.
Qed.
Lemma in_keys (h c : Z) (o : op) d : In (h, c, o) d -> In h (map (fun e => fst (fst e)) d) /\ In c (map clause_of d).
Proof. intro H. split; [apply (in_map (fun e => fst (fst e))) in H|apply (in_map clause_of) in H]; exact H. Qed.

Lemma stored g d m : derivation g d m -> forall h c o, In (h, c, o) d -> cl_hist m c = h /\ recorded m h o.
Proof.
  induction 1 as [|d m h0 c0 clid order o0 m' D IH U Hh Hc Nh Nc E]; intros h c o; [intros []|].
  destruct (derive_put _ _ _ _ _ _ _ _ E) as [ws [B ->]]. intros [Eq|I].
  - injection Eq as -> -> ->. cbn. rewrite Z.eqb_refl. split; [reflexivity|].
    split; [exact Hh|]. split; [exact (proj1 U)|]. exists g, m, clid, order. cbn. rewrite Z.eqb_refl. exact B.
  - destruct (in_keys _ _ _ _ I) as [I1 I2].
    destruct (put_old m h0 c0 ws h c) as [P1 P2]; [intros ->; exact (Nh I1)|intros ->; exact (Nc I2)|].
    destruct (IH _ _ _ I) as [S1 [S2 [S3 S4]]]. rewrite P1. split; [exact S1|].
    unfold recorded. rewrite P2. auto.
Qed.
Lemma unique g d m : derivation g d m -> forall c o o', made d c o -> made d c o' -> o = o'.
Proof.
  induction 1 as [|d m h0 c0 clid order o0 m' D IH U Hh Hc Nh Nc E]; intros c o o' [h I] [h' I']; [destruct I|].
  destruct I as [I|I], I' as [I'|I'].
  - congruence.
  - injection I as <- <- <-. exfalso. apply Nc. apply (in_keys _ _ _ _ I').
  - injection I' as <- <- <-. exfalso. apply Nc. apply (in_keys _ _ _ _ I).
  - apply (IH c); [exists h|exists h']; assumption.
Qed.
Lemma older g d m : derivation g d m -> forall d1 h c o d2, d = d1 ++ (h, c, o) :: d2 -> usable d2 o.
Proof.
  induction 1 as [|d m h0 c0 clid order o0 m' D IH U Hh Hc Nh Nc E]; intros d1 h c o d2 Eq.
  - destruct d1; discriminate.
  - destruct d1 as [|e d1]; cbn in Eq; injection Eq as Eq1 Eq2.
    + subst. exact U.
    + apply (IH d1 h c o d2 Eq2).
Qed.

Section Main.
Variables (g : env) (d : dlist) (m : mem) (stray : Z -> Z -> Z) (fi : Z -> Z).
Hypothesis D : derivation g d m.
Hypothesis C : calm m stray fi d.
Notation flat := (flatten m stray fi).
Notation keys st := (map fst (snd st)).

(** A list that can be printed: every clause after its parents. *)
Inductive good : alist -> Prop :=
| good_nil : good []
| good_cons c o a : good a -> ~ In c (map fst a) -> made d c o -> o <> OExtprop ->
    (forall p, In p (parents o) -> In p (map fst a)) ->
    good ((c, Z.of_nat (length a) + 1) :: a).
Definition okst (st : Z * alist) : Prop := fst st = Z.of_nat (length (snd st)) + 1 /\ good (snd st).

Lemma addcl_ok c o st : okst st -> made d c o -> o <> OExtprop -> (forall p, In p (parents o) -> In p (keys st)) ->
  okst (addcl c st) /\ (forall x, In x (keys (addcl c st)) <-> In x (keys st) \/ x = c).
Proof.
  destruct st as [nr a]. intros [Hn Hg] M Ne Hp. unfold addcl. cbn [snd fst] in *.
  destruct (get_assoc c a) as [k|] eqn:E.
  - assert (In c (map fst a)).
    { destruct (in_dec Z.eq_dec c (map fst a)) as [I|I]; [exact I|].
      apply get_assoc_none in I. congruence. }
    split; [split; assumption|]. intro x. cbn [snd]. split; [auto|]. intros [I| ->]; assumption.
  - apply get_assoc_none in E. split.
    + split; cbn [fst snd length]; [lia|]. rewrite Hn. apply good_cons with (o := o); assumption.
    + intro x. cbn. split; [intros [<-|I]; auto|]. intros [I| ->]; auto.
Qed.

Lemma flat_ok : forall n d1 h c o d2, d = d1 ++ (h, c, o) :: d2 -> (length d2 < n)%nat ->
  forall f st, (n <= f)%nat -> okst st ->
  exists st', flat f h st = Some st' /\ okst st' /\
    (forall x, In x (keys st) -> In x (keys st')) /\
    (forall p, In p (parents o) -> In p (keys st')) /\
    (forall x, In x (keys st') -> In x (keys st) \/ ancestor d x c).
Proof.
  induction n as [|n IH]; intros d1 h c o d2 Eq Hn f st Hf Hst; [lia|].
  destruct f as [|f]; [lia|].
  assert (I : In (h, c, o) d) by (rewrite Eq; apply in_or_app; right; left; reflexivity).
  destruct (stored _ _ _ D _ _ _ I) as [Hc R].
  rewrite (flatten_op m stray fi h o f st R).
  2: { intros nm p ->. exact (C h c nm p I). }
  pose proof (older _ _ _ D _ _ _ _ _ Eq) as [_ U].
  assert (M : made d c o) by (exists h; exact I).
  assert (G : forall ps, incl ps (parents o) -> forall st, okst st ->
    exists st', fold_left (vis m stray fi f) ps (Some st) = Some st' /\ okst st' /\
      (forall x, In x (keys st) -> In x (keys st')) /\
      (forall p, In p ps -> In p (keys st')) /\
      (forall x, In x (keys st') -> In x (keys st) \/ ancestor d x c)).
  { clear st Hst. induction ps as [|p ps IHp]; intros Hi st Hst.
    - exists st. cbn. split; [reflexivity|]. split; [exact Hst|]. split; [auto|]. split; [intros _ []|auto].
    - assert (Ip : In p (parents o)) by (apply Hi; left; reflexivity).
      assert (V : exists st1, vis m stray fi f (Some st) p = Some st1 /\ okst st1 /\
        (forall x, In x (keys st) -> In x (keys st1)) /\ In p (keys st1) /\
        (forall x, In x (keys st1) -> In x (keys st) \/ ancestor d x c)).
      { cbn [vis]. destruct (get_assoc p (snd st)) as [k|] eqn:E.
        - exists st. split; [reflexivity|]. split; [exact Hst|]. split; [auto|]. split; [|auto].
          destruct (in_dec Z.eq_dec p (keys st)) as [J|J]; [exact J|]. apply get_assoc_none in J. congruence.
        - destruct (U p Ip) as [o' [[hp J] Ne]]. apply in_split in J. destruct J as [e1 [e2 J]].
          assert (Eq' : d = (d1 ++ (h, c, o) :: e1) ++ (hp, p, o') :: e2).
          { rewrite Eq, J, <- app_assoc. reflexivity. }
          assert (Jd : In (hp, p, o') d) by (rewrite Eq'; apply in_or_app; right; left; reflexivity).
          destruct (stored _ _ _ D _ _ _ Jd) as [Hp Rp]. rewrite Hp.
          destruct (IH _ _ _ _ _ Eq' ltac:(rewrite J, app_length in Hn; cbn in Hn; lia) f st ltac:(lia) Hst)
            as [st1 [F1 [O1 [K1 [P1 A1]]]]].
          rewrite F1. exists (addcl p st1). split; [reflexivity|].
          assert (Mp : made d p o') by (exists hp; exact Jd).
          destruct (addcl_ok p o' st1 O1 Mp Ne P1) as [O2 K2]. split; [exact O2|].
          assert (Ap : ancestor d p c) by (apply t_step; exists o; auto).
          split; [intros x Hx; apply K2; left; apply K1, Hx|]. split; [apply K2; right; reflexivity|].
          intros x Hx. apply K2 in Hx. destruct Hx as [Hx| ->]; [|right; exact Ap].
          destruct (A1 x Hx) as [Hx'|Hx']; [left; exact Hx'|right]. apply t_trans with (y := p); assumption. }
      destruct V as [st1 [V1 [O1 [K1 [P1 A1]]]]]. cbn [fold_left]. rewrite V1.
      destruct (IHp ltac:(intros q Hq; apply Hi; right; exact Hq) st1 O1) as [st2 [F2 [O2 [K2 [P2 A2]]]]].
      exists st2. split; [exact F2|]. split; [exact O2|]. split; [auto|]. split.
      + intros q [<-|Hq]; auto.
      + intros x Hx. destruct (A2 x Hx) as [Hx'|Hx']; [apply A1, Hx'|right; exact Hx']. }
  exact (G (parents o) (fun x H => H) st Hst).
Qed.

(** Numbers in a good list. *)
Lemma get_assoc_app x y p : get_assoc p (x ++ y) = match get_assoc p x with Some n => Some n | None => get_assoc p y end.
Proof.
  induction x as [|[k n] x IH]; [reflexivity|]. cbn. destruct (k =? p); [reflexivity|exact IH].
Qed.
Lemma good_nums a : good a -> map snd (rev a) = map Z.of_nat (seq 1 (length a)).
Proof.
  induction 1 as [|c o a Hg IH N M Ne Hp]; [reflexivity|].
  cbn [rev length]. rewrite map_app, IH, seq_S, map_app. cbn. do 2 f_equal. lia.
Qed.
Lemma good_nodup a : good a -> NoDup (map fst a).
Proof. induction 1; cbn; constructor; assumption. Qed.
Lemma good_find a : good a -> forall p, In p (map fst a) ->
  exists n, get_assoc p (rev a) = Some n /\ 1 <= n <= Z.of_nat (length a) /\
    nth_error (rev a) (Z.to_nat (n - 1)) = Some (p, n).
Proof.
  induction 1 as [|c o a Hg IH N M Ne Hp]; intros p I; [destruct I|]. cbn [rev].
  destruct (in_dec Z.eq_dec p (map fst a)) as [J|J].
  - destruct (IH p J) as [n [F [Bd E]]]. exists n. rewrite get_assoc_app, F. split; [reflexivity|].
    split; [cbn [length]; lia|]. rewrite nth_error_app1; [exact E|]. rewrite rev_length. lia.
  - destruct I as [Eq|I]; [|contradiction]. cbn in Eq. subst p. exists (Z.of_nat (length a) + 1).
    rewrite get_assoc_app. replace (get_assoc c (rev a)) with (@None Z).
    2: { symmetry. apply get_assoc_none. rewrite map_rev. intro X. apply in_rev in X. exact (J X). }
    cbn [get_assoc]. rewrite Z.eqb_refl. split; [reflexivity|]. split; [cbn [length]; lia|].
    rewrite nth_error_app2 by (rewrite rev_length; lia). rewrite rev_length.
    replace (Z.to_nat (Z.of_nat (length a) + 1 - 1) - length a)%nat with 0%nat by lia. reflexivity.
Qed.
Lemma good_entry a : good a -> forall c k, In (c, k) a -> exists o, made d c o /\ o <> OExtprop /\
  forall p, In p (parents o) -> In p (map fst a) /\ num_of (rev a) p < k.
Proof.
  induction 1 as [|c o a Hg IH N M Ne Hp]; intros c' k I; [destruct I|].
  assert (Keep : forall p, In p (map fst a) -> num_of (rev ((c, Z.of_nat (length a) + 1) :: a)) p = num_of (rev a) p).
  { intros p J. destruct (good_find a Hg p J) as [n [F _]]. unfold num_of. cbn [rev]. rewrite get_assoc_app, F. reflexivity. }
  destruct I as [Eq|I].
  - injection Eq as <- <-. exists o. split; [exact M|]. split; [exact Ne|]. intros p Ip.
    split; [right; apply Hp, Ip|]. rewrite Keep by (apply Hp, Ip).
    destruct (good_find a Hg p (Hp p Ip)) as [n [F [Bd _]]]. unfold num_of. rewrite F. lia.
  - destruct (IH c' k I) as [o' [M' [Ne' P']]]. exists o'. split; [exact M'|]. split; [exact Ne'|].
    intros p Ip. destruct (P' p Ip) as [P1 P2]. split; [right; exact P1|]. rewrite Keep; assumption.
Qed.

(** Lines for a list of clauses. *)
Lemma lines_exist (tptp : bool) (A : alist) :
  (tptp = true -> forall x c t v, ~ made d x (OPropinst c t v)) ->
  forall B, (forall c k, In (c, k) B -> exists o, made d c o /\ o <> OExtprop) ->
  exists body, map (fun e => print_one m stray fi tptp A (cl_hist m (fst e)) (fst e) (snd e)) B = map Some body /\
    Forall2 (fun e l => l_clause l = fst e /\ l_num l = snd e /\
               forall o, made d (fst e) o -> line_ok m tptp A (cl_hist m (fst e)) (fst e) (snd e) o l) B body.
Proof.
  intros NT. induction B as [|[c k] B IH]; intro H.
  - exists []. split; [reflexivity|constructor].
  - destruct (H c k (or_introl eq_refl)) as [o [M Ne]].
    destruct (IH (fun c' k' I => H c' k' (or_intror I))) as [body [E F]].
    pose proof M as [h I]. destruct (stored _ _ _ D _ _ _ I) as [Hc R].
    destruct (print_op m stray fi tptp A h c k o R) as [l [P L]].
    { intros T x t v ->. exact (NT T _ _ _ _ M). }
    exists (l :: body). cbn [map fst snd]. rewrite Hc, P, E. split; [reflexivity|].
    constructor; [|exact F]. cbn [fst snd].
    split; [apply (proj1 (proj2 L)), Ne|]. split; [exact (proj1 L)|].
    intros o' M'. rewrite Hc. rewrite (unique _ _ _ D c o' o M' M). exact L.
Qed.
Lemma Forall2_nth {X Y} (P : X -> Y -> Prop) xs ys : Forall2 P xs ys -> forall i x, nth_error xs i = Some x ->
  exists y, nth_error ys i = Some y /\ P x y.
Proof.
  induction 1 as [|x y xs ys Pxy F IH]; intros i z E; [destruct i; discriminate|].
  destruct i as [|i]; cbn in *; [injection E as <-; eauto|apply IH, E].
Qed.
Lemma Forall2_in_r {X Y} (P : X -> Y -> Prop) xs ys : Forall2 P xs ys -> forall y, In y ys -> exists x, In x xs /\ P x y.
Proof.
  induction 1 as [|x y xs ys Pxy F IH]; intros z I; [destruct I|].
  destruct I as [<-|I]; [exists x; split; [left; reflexivity|exact Pxy]|].
  destruct (IH z I) as [x' [I' P']]. exists x'. split; [right; exact I'|exact P'].
Qed.
Lemma Forall2_map_fst (A : alist) body (P : Z * Z -> line -> Prop) :
  Forall2 (fun e l => l_clause l = fst e /\ l_num l = snd e /\ P e l) A body ->
  map l_clause body = map fst A /\ map l_num body = map snd A.
Proof.
  induction 1 as [|x y xs ys [P1 [P2 P3]] F [IH1 IH2]]; [auto|]. cbn. rewrite P1, P2, IH1, IH2. auto.
Qed.
Lemma Forall2_num (R : Z -> Z -> Prop) f ps : (forall p, In p ps -> R p (f p)) -> Forall2 R ps (map f ps).
Proof.
  induction ps as [|p ps IH]; intro H; [constructor|]. cbn. constructor; [apply H; left; reflexivity|].
  apply IH. intros q I. apply H. right. exact I.
Qed.

Lemma shown (tptp : bool) h c o ans f : In (h, c, o) d ->
  (tptp = true -> forall x c t v, ~ made d x (OPropinst c t v)) -> (length d <= f)%nat ->
  exists A body last, show m stray fi f tptp (cl_hist m c) ans = Some (map Some (body ++ [last])) /\
    is_proof d c o ans (body ++ [last]) /\
    (forall l o', In l body -> made d (l_clause l) o' ->
       exists h' n, In (h', l_clause l, o') d /\ line_ok m tptp A h' (l_clause l) n o' l) /\
    line_ok m tptp A h ans (l_num last) o last.
Proof.
  intros I NT Hf. destruct (stored _ _ _ D _ _ _ I) as [Hc R].
  destruct (in_split _ _ I) as [d1 [d2 Eq]].
  assert (Hl : (length d2 < length d)%nat) by (rewrite Eq, app_length; cbn; lia).
  destruct (flat_ok (length d) d1 h c o d2 Eq Hl f (1, []) Hf ltac:(split; [reflexivity|constructor]))
    as [[nr a] [Fl [[Hn Hg] [_ [Hp Ha]]]]].
  cbn [fst snd] in *. set (A := rev a).
  assert (Ent : forall c k, In (c, k) A -> exists o, made d c o /\ o <> OExtprop).
  { intros c' k J. apply in_rev in J. destruct (good_entry a Hg c' k J) as [o' [M [Ne _]]]. eauto. }
  destruct (lines_exist tptp A NT A Ent) as [body [Eb Fb]].
  destruct (print_op m stray fi tptp A h ans nr o R) as [last [Pl Ll]].
  { intros T x t v ->. exact (NT T _ _ _ _ (ex_intro _ h I)). }
  exists A, body, last.
  destruct (Forall2_map_fst _ _ _ Fb) as [Kc Kn].
  assert (Lb : length body = length a).
  { rewrite <- (map_length l_clause body), Kc, map_length. apply rev_length. }
  assert (Stand : forall p, In p (map fst a) -> stands_for (body ++ [last]) (num_of A p) p
                            /\ num_of A p <= Z.of_nat (length a)).
  { intros p J. destruct (good_find a Hg p J) as [n [F [Bd N]]]. unfold num_of, A. rewrite F.
    split; [|lia]. split; [lia|]. destruct (Forall2_nth _ _ _ Fb _ _ N) as [l [Nl [C1 [C2 _]]]].
    exists l. cbn [fst snd] in C1, C2. split; [|split; assumption].
    rewrite nth_error_app1; [exact Nl|]. rewrite Lb. lia. }
  split.
  { unfold show. rewrite Hc, Fl. fold A. rewrite Pl. unfold print_flat. rewrite Eb, map_app. reflexivity. }
  split; [|split].
  - exists body, last. split; [reflexivity|].
    split.
    { rewrite map_app, app_length, Kn. cbn [map length]. unfold A. rewrite (good_nums a Hg), Lb.
      rewrite (proj1 Ll), Hn, Nat.add_1_r, seq_S, map_app. cbn. do 2 f_equal. lia. }
    split. { rewrite Kc. unfold A. rewrite map_rev. apply NoDup_rev, good_nodup, Hg. }
    split.
    { intro x. rewrite Kc. unfold A. rewrite map_rev, <- in_rev. split.
      - intro J. destruct (Ha x J) as [[]|J']. exact J'.
      - intro J. apply clos_trans_t1n in J.
        assert (Cl : forall y, In y (map fst a) -> forall x, parent d x y -> In x (map fst a)).
        { intros y Hy z [oy [My Iz]]. apply in_map_iff in Hy. destruct Hy as [[y' k] [Ey Iy]]. cbn in Ey. subst y'.
          destruct (good_entry a Hg y k Iy) as [oy' [My' [_ Py]]].
          rewrite (unique _ _ _ D y oy oy' My My') in Iz. apply (Py z Iz). }
        revert Cl Hp. clear - J D I. intros Cl Hp. induction J as [x y P|x y z P J IH].
        + destruct P as [oy [My Ix]]. apply Hp. rewrite (unique _ _ _ D y o oy (ex_intro _ h I) My). exact Ix.
        + apply (Cl y); [apply IH; assumption|exact P]. }
    split.
    { intros l Il. destruct (Forall2_in_r _ _ _ Fb l Il) as [[x k] [Ie [C1 [C2 C3]]]]. cbn [fst snd] in *.
      apply in_rev in Ie. destruct (good_entry a Hg x k Ie) as [o' [M' [Ne' P']]].
      exists o'. rewrite C1. split; [exact M'|]. destruct (C3 o' M') as [_ [_ [L3 [L4 [_ [_ L7]]]]]].
      split; [exact L3|]. split; [exact L7|]. rewrite L4. apply Forall2_num. intros p Ip.
      destruct (P' p Ip) as [P1 P2]. rewrite C2. split; [exact P2|]. apply Stand, P1. }
    split; [|exact (proj1 (proj2 Ll))].
    destruct Ll as [L1 [_ [L3 [L4 [_ [_ L7]]]]]]. split; [exact L3|]. split; [exact L7|]. rewrite L4. apply Forall2_num. intros p Ip.
    destruct (Stand p (Hp p Ip)) as [S1 S2]. split; [rewrite L1, Hn; lia|exact S1].
  - intros l o' Il M'. destruct (Forall2_in_r _ _ _ Fb l Il) as [[x k] [Ie [C1 [C2 C3]]]]. cbn [fst snd] in *.
    rewrite C1 in M' |- *. destruct M' as [h' Ih]. exists h', k. split; [exact Ih|].
    pose proof (C3 o' (ex_intro _ h' Ih)) as L. rewrite (proj1 (stored _ _ _ D _ _ _ Ih)) in L. exact L.
  - rewrite (proj1 Ll). exact Ll.
Qed.
End Main.
