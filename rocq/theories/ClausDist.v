(** Proofs about distribution and definitions. *)
From Coq Require Import List String Bool Arith Lia Classical_Prop.
From Verif Require Import ClausModel ClausSpec ClausProof ClausMini ClausSk.
Import ListNotations.

Lemma qf_wff f : qf f -> wff true f.
Proof.
  induction 1 as [f [g A|g A]|c f g Hc _ IH1 _ IH2].
  - apply W_atomic; auto.
  - apply W_not, W_atomic; auto.
  - apply W_many; [tauto|reflexivity|auto].
Qed.
Lemma neg_qf f : qf f -> forall s, exists f', negpush f s = Some f' /\ qf f'.
Proof.
  induction 1 as [f L|c f g Hc Q1 IH1 Q2 IH2]; intro s.
  - destruct L as [g A|g A].
    + assert (E : negpush g s = Some (if s then g else mk_not g)).
      { destruct A as [a H|a args H _]; [reflexivity|]. destruct a; [destruct H|]. destruct args; reflexivity. }
      rewrite E. eexists; split; [reflexivity|]. apply Q_lit. destruct s; [constructor|apply L_neg]; auto.
    + cbn. rewrite atomic_sem_cases by auto. eexists; split; [reflexivity|]. apply Q_lit. destruct s; [apply L_neg|apply L_pos]; auto.
  - destruct (IH1 s) as (f' & E1 & Q1'). destruct (IH2 s) as (g' & E2 & Q2').
    exists (Sl [Sa (Con (dual_q s c)); g'; f']). rewrite np_many by auto. cbn [push_all]. rewrite E1, E2. split; [reflexivity|].
    apply Q_two; auto. destruct s, Hc as [-> | ->]; cbn; auto.
Qed.
Lemma neg_ok f : qf f -> exists f', negpush f false = Some f' /\ qf f' /\ sub f' f /\
  forall D (I : interp D) e, sem I e f' <-> ~ sem I e f.
Proof.
  intro Q. destruct (neg_qf f Q false) as (f' & E & Q'). exists f'. repeat split; auto; try (eapply negpush_sub; eauto using qf_wff).
  all: destruct (negpush_ok true f (qf_wff f Q) false) as (f2 & E2 & _ & S2); rewrite E in E2; injection E2 as <-; apply S2.
Qed.

Lemma collect_in t : forall acc a, In a (collect_vars t acc) <-> In a acc \/ (is_tvar a = true /\ In a (syms t)).
Proof.
  induction t as [b|l IH] using sx_ind2; intros acc a.
  - cbn [collect_vars]. destruct (is_tvar b) eqn:T; cbn [andb].
    + destruct b as [c|[] s]; try discriminate. cbn [syms In].
      destruct (existsb (atom_eqb (Sym TVar s)) acc) eqn:E; cbn [negb].
      * apply existsb_exists in E as (x & Hx & E). apply atom_eqb_eq in E. subst. intuition (subst; auto).
      * rewrite in_app_iff. cbn. intuition (subst; auto).
    + destruct b as [c|[] s]; try discriminate; cbn; intuition (subst; auto; try discriminate).
  - cbn [collect_vars syms]. revert acc. induction IH as [|x r Hx _ IHr]; intro acc; cbn [fold_left flat_map]; [cbn; tauto|].
    rewrite IHr, Hx, in_app_iff. tauto.
Qed.
Lemma targs_syms t a : In a (targs t) -> is_tvar a = true -> In a (syms t).
Proof.
  intros H T. induction t as [b|l IH] using sx_ind2.
  - destruct H as [<-|[]]. destruct b; [discriminate|left; auto].
  - destruct l as [|[h|?] args]; try (destruct H; fail). cbn in H. apply in_flat_map in H as (x & Hx & H).
    inversion IH as [|? ? _ IH1]; subst. rewrite Forall_forall in IH1. cbn. apply in_or_app. right. apply in_flat_map. eauto.
Qed.
Lemma fargs_syms f a : qf f -> In a (fargs f) -> is_tvar a = true -> In a (syms f).
Proof.
  intros Q H T.
  assert (AT : forall g, atomic g -> In a (fargs g) -> In a (syms g)).
  { intros g [b|h args Hh _] K; [destruct K|]. rewrite fargs_app in K by auto. apply in_flat_map in K as (x & Hx & K).
    cbn. apply in_or_app. right. apply in_flat_map. exists x. split; auto. apply targs_syms; auto. }
  induction Q as [f [g A|g A]|c f g Hc _ IH1 _ IH2].
  - auto.
  - cbn in *. rewrite app_nil_r in *. auto.
  - rewrite fargs_2 in H by auto. rewrite syms_2. apply in_or_app. apply in_app_or in H as [H|H]; auto.
Qed.

(** * States *)
Definition dfN (m m' : nat) (a : atom) : Prop := exists i, m < i <= m' /\ a = dfatom i.
Lemma dfN_con m m' c : ~ dfN m m' (Con c). Proof. intros (i & _ & H). discriminate. Qed.
Definition fresh (m : nat) (A : atom -> Prop) : Prop := forall i, m < i -> ~ A (dfatom i).
Definition dcnf (s : dst) : Prop := match d_defs s with None => True | Some g => cnf g end.
Definition spost (A : atom -> Prop) (s s' : dst) : Prop :=
  (dcnf s -> dcnf s') /\
  d_nr s <= d_nr s' /\
  (forall a, In a (names_of (d_defs s')) -> In a (names_of (d_defs s)) \/ A a \/ dfN (d_nr s) (d_nr s') a) /\
  (forall D (I : interp D), holds I (d_defs s') -> holds I (d_defs s)) /\
  (fresh (d_nr s) A -> fresh (d_nr s) (fun a => In a (names_of (d_defs s))) ->
   forall D (I : interp D), holds I (d_defs s) -> exists I', same_but (dfN (d_nr s) (d_nr s')) I I' /\ holds I' (d_defs s')).
Definition fpost (f r : sx) (s s' : dst) : Prop :=
  qf r /\ (forall a, In a (syms r) -> In a (syms f) \/ dfN (d_nr s) (d_nr s') a) /\
  (forall D (I : interp D), holds I (d_defs s') -> forall u, full u -> (sem I u r <-> sem I u f)).
Definition post f r s s' := spost (fun a => In a (syms f)) s s' /\ fpost f r s s'.

Lemma spost_refl A s : spost A s s.
Proof. split; [auto|]. split; [lia|]. split; [auto|]. split; [auto|]. intros _ _ D I H. exists I. split; auto. apply same_refl. Qed.
Lemma fresh_le m m' A : m <= m' -> fresh m A -> fresh m' A.
Proof. intros H F i Hi. apply F. lia. Qed.
Lemma fresh_dfN m A m1 : fresh m A -> fresh m1 (fun a => A a \/ dfN m m1 a) \/ m1 < m.
Proof. intro F. destruct (le_lt_dec m m1); auto. left. intros i Hi [H|(j & Hj & E)]; [apply (F i); auto; lia|]. apply dfatom_inj in E. lia. Qed.
Lemma spost_names A s s1 : spost A s s1 -> fresh (d_nr s) A -> fresh (d_nr s) (fun a => In a (names_of (d_defs s))) ->
  fresh (d_nr s1) (fun a => In a (names_of (d_defs s1))).
Proof.
  intros (_ & Hm & Hn & _) FA FN i Hi H. apply Hn in H as [H|[H|(j & Hj & E)]].
  - apply (FN i); auto. lia.
  - apply (FA i); auto. lia.
  - apply dfatom_inj in E. lia.
Qed.
Lemma spost_trans A A' s s1 s2 : spost A s s1 -> spost A' s1 s2 ->
  (forall a, A' a -> A a \/ dfN (d_nr s) (d_nr s1) a) -> spost A s s2.
Proof.
  intros P1 P2 HA. pose proof P1 as (Hc1 & Hm1 & Hn1 & M1 & X1). pose proof P2 as (Hc2 & Hm2 & Hn2 & M2 & X2).
  assert (L1 : forall a, dfN (d_nr s) (d_nr s1) a -> dfN (d_nr s) (d_nr s2) a) by (intros a (i & Hi & ->); exists i; split; auto; lia).
  assert (L2 : forall a, dfN (d_nr s1) (d_nr s2) a -> dfN (d_nr s) (d_nr s2) a) by (intros a (i & Hi & ->); exists i; split; auto; lia).
  split; [auto|]. split; [lia|]. split; [|split].
  - intros a Ha. apply Hn2 in Ha as [Ha|[Ha|Ha]]; auto.
    + apply Hn1 in Ha as [Ha|[Ha|Ha]]; auto.
    + apply HA in Ha as [Ha|Ha]; auto.
  - auto.
  - intros FA FN D I H. destruct (X1 FA FN D I H) as (I1 & S1 & H1).
    destruct (X2) with (D := D) (I := I1) as (I2 & S2 & H2); auto.
    + intros i Hi Ha. apply HA in Ha as [Ha|(j & Hj & E)]; [apply (FA i); auto; lia|apply dfatom_inj in E; lia].
    + eapply spost_names; eauto.
    + exists I2. split; auto. eapply same_trans; eauto. intros a [K|K]; auto.
Qed.
Lemma spost_le (A A' : atom -> Prop) s s' : spost A s s' -> (forall a, A a -> A' a) -> spost A' s s'.
Proof.
  intros (Hc & Hm & Hn & M & X) HA. split; [auto|]. split; [auto|]. split; [|split; [auto|]].
  - intros a Ha. apply Hn in Ha as [?|[?|?]]; auto.
  - intros FA FN. apply X; auto. intros i Hi Ha. apply (FA i); auto.
Qed.

(** * One definition *)
Definition setP {D} (I : interp D) (x : atom) (P : list D -> Prop) : interp D :=
  mkI (cst I) (fn I) (fun a ds => if atom_eqb a x then P ds else pr I a ds).
Lemma setP_same {D} (I : interp D) x P : same_but (fun a => a = x) I (setP I x P).
Proof. intros a Ha. unfold setP; cbn. destruct (atom_eqb a x) eqn:E; [apply atom_eqb_eq in E; tauto|]. repeat split; auto. Qed.
Lemma setP_at {D} (I : interp D) x P ds : pr (setP I x P) x ds = P ds.
Proof. unfold setP; cbn. rewrite (proj2 (atom_eqb_eq x x)) by auto. reflexivity. Qed.

Definition vars_def (f : sx) := rev (collect_vars f []).
Definition dterm (m : nat) (f : sx) := def_term m (collect_vars f []).
Lemma vars_tvar f : Forall (fun x => is_tvar x = true) (vars_def f).
Proof. rewrite Forall_forall. intros x Hx. apply in_rev in Hx. apply collect_in in Hx as [[]|[H _]]; auto. Qed.
Lemma dterm_eq m f : dterm m f = match vars_def f with [] => Sa (dfatom m) | _ => Sl (Sa (dfatom m) :: map Sa (vars_def f)) end.
Proof.
  unfold dterm, def_term, vars_def. destruct (collect_vars f []) as [|x r]; [reflexivity|].
  destruct (rev (x :: r)) eqn:E; [|reflexivity]. apply (f_equal (@List.length atom)) in E. rewrite rev_length in E. discriminate.
Qed.
Lemma dterm_atomic m f : atomic (dterm m f).
Proof.
  rewrite dterm_eq. pose proof (vars_tvar f) as T. destruct (vars_def f) eqn:E; [constructor; exact I|].
  constructor; [exact I|]. apply map_Sa_terms; auto.
Qed.
Lemma dterm_sem {D} (I : interp D) u m f : full u -> (sem I u (dterm m f) <-> pr I (dfatom m) (map (tm I u) (map Sa (vars_def f)))).
Proof.
  intro F. rewrite dterm_eq. destruct (vars_def f); [|reflexivity]. cbn. reflexivity.
Qed.
Lemma dterm_syms m f a : In a (syms (dterm m f)) -> a = dfatom m \/ In a (syms f).
Proof.
  rewrite dterm_eq. pose proof (vars_tvar f) as T. intro H.
  assert (In a (dfatom m :: vars_def f)) as [<-|K]; auto.
  - destruct (vars_def f) as [|x r] eqn:E; [destruct H as [<-|[]]; left; auto|].
    cbn [syms flat_map dfatom app] in H. destruct H as [<-|H]; [left; auto|].
    right. rewrite syms_map in H; auto. rewrite Forall_forall in *. intros y Hy. specialize (T y Hy). destruct y; [discriminate|exact I].
  - right. apply in_rev in K. apply collect_in in K as [[]|[_ K]]; auto.
Qed.

Lemma makedef_ok dist f s r s' : qf f ->
  (forall g t r t', qf g -> dist g t = Some (r, t') -> post g r t t' /\ cnf r) ->
  makedef dist f s = Some (r, s') -> post f r s s' /\ atomic r.
Proof.
  intros Q HD E. unfold makedef in E. destruct (Nat.leb varcollect_size _); [discriminate|].
  fold (dterm (S (d_nr s)) f) in E. set (m1 := S (d_nr s)) in *. set (def := dterm m1 f) in *.
  assert (AD : atomic def) by apply dterm_atomic.
  destruct (neg_ok def) as (nd & En & Qn & Bn & Sn); [apply Q_lit, L_pos; auto|].
  destruct (neg_ok f Q) as (nf & Ef & Qf' & Bf & Sf). rewrite En, Ef in E.
  destruct (dist (mk_or nd f) (mkd m1 (d_defs s))) as [[r1 s1]|] eqn:E1; [|discriminate].
  destruct (dist (mk_or def nf) s1) as [[r2 s2]|] eqn:E2; [|discriminate]. injection E as <- <-.
  assert (QO1 : qf (mk_or nd f)) by (apply Q_two; auto).
  assert (QO2 : qf (mk_or def nf)) by (apply Q_two; auto; apply Q_lit, L_pos; auto).
  destruct (HD _ _ _ _ QO1 E1) as [[P1 (Q1 & N1 & S1)] C1]. destruct (HD _ _ _ _ QO2 E2) as [[P2 (Q2 & N2 & S2)] C2].
  pose proof P1 as (Hc1 & Hm1 & Hn1 & M1 & X1). pose proof P2 as (Hc2 & Hm2 & Hn2 & M2 & X2). cbn [d_nr d_defs] in *.
  assert (Y1 : forall a, In a (syms (mk_or nd f)) -> In a (syms f) \/ a = dfatom m1).
  { intros a Ha. unfold mk_or, s_or in Ha. rewrite syms_2 in Ha. apply in_app_or in Ha as [Ha|Ha]; auto.
    apply Bn in Ha. apply dterm_syms in Ha. tauto. }
  assert (Y2 : forall a, In a (syms (mk_or def nf)) -> In a (syms f) \/ a = dfatom m1).
  { intros a Ha. unfold mk_or, s_or in Ha. rewrite syms_2 in Ha. apply in_app_or in Ha as [Ha|Ha].
    - apply dterm_syms in Ha. tauto.
    - apply Bf in Ha. auto. }
  assert (HOLD : forall D (I : interp D), holds I (add_def (d_defs s2) (mk_and r1 r2)) <->
     holds I (d_defs s2) /\ forall u, full u -> sem I u r1 /\ sem I u r2).
  { intros D I. unfold add_def. destruct (d_defs s2) as [g|]; cbn [holds].
    - split.
      + intro H. split; intros u F; specialize (H u F); apply sem_and2 in H as [A B]; auto. apply sem_and2 in B; auto.
      + intros [A B] u F. apply sem_and2. split; auto. apply sem_and2; auto.
    - split; [intro H; split; auto; intros u F; specialize (H u F); apply sem_and2 in H; auto|].
      intros [_ B] u F. apply sem_and2; auto. }
  assert (IFF : forall D (I : interp D), holds I (add_def (d_defs s2) (mk_and r1 r2)) -> forall u, full u -> (sem I u def <-> sem I u f)).
  { intros D I H u F. apply HOLD in H as [H2 H]. specialize (H u F) as [K1 K2].
    apply (S1 D I (M2 D I H2) u F) in K1. apply (S2 D I H2 u F) in K2. unfold mk_or in K1, K2.
    apply sem_or2 in K1. apply sem_or2 in K2. rewrite Sn in K1. rewrite Sf in K2. tauto. }
  split; [|exact AD]. split; [|split; [|split]].
  - split.
    { intro C. specialize (Hc2 (Hc1 C)). unfold dcnf, add_def in *. cbn [d_defs].
      destruct (d_defs s2); repeat apply F_and; auto. }
    split; [cbn; lia|]. split; [|split].
    + cbn [d_defs d_nr]. intros a Ha.
      assert (K : In a (names_of (d_defs s2)) \/ In a (syms r1) \/ In a (syms r2)).
      { unfold add_def in Ha. destruct (d_defs s2); cbn [names_of] in *; unfold mk_and, s_and in Ha; rewrite ?syms_2, ?in_app_iff in Ha; tauto. }
      assert (Z : In a (syms f) \/ a = dfatom m1 \/ dfN m1 (d_nr s2) a -> In a (syms f) \/ dfN (d_nr s) (d_nr s2) a).
      { intros [Z|[->|(i & Hi & ->)]]; auto; right; eexists; (split; [|reflexivity]); lia. }
      assert (L1 : dfN m1 (d_nr s1) a -> dfN m1 (d_nr s2) a) by (intros (i & Hi & ->); exists i; split; auto; lia).
      assert (L2 : dfN (d_nr s1) (d_nr s2) a -> dfN m1 (d_nr s2) a) by (intros (i & Hi & ->); exists i; split; auto; lia).
      destruct K as [K|[K|K]].
      * apply Hn2 in K as [K|[K|K]].
        -- apply Hn1 in K as [K|[K|K]]; [left; auto| |]; right; apply Z; auto. apply Y1 in K. tauto.
        -- right; apply Z. apply Y2 in K. tauto.
        -- right; apply Z. auto.
      * right. apply Z. apply N1 in K as [K|K]; auto. apply Y1 in K. tauto.
      * right. apply Z. apply N2 in K as [K|K]; auto. apply Y2 in K. tauto.
    + intros D I H. cbn in H. apply HOLD in H as [H _]. auto.
    + cbn [d_nr d_defs]. intros FA FN D I H.
      pose (P := fun ds => exists u, full u /\ map (tm I u) (map Sa (vars_def f)) = ds /\ sem I u f).
      pose (I1 := setP I (dfatom m1) P).
      assert (SI : same_but (fun a => a = dfatom m1) I I1) by apply setP_same.
      assert (HC : forall c, Con c <> dfatom m1) by discriminate.
      assert (KF : forall u, sem I u f <-> sem I1 u f).
      { intro u. apply (sem_same (fun a => a = dfatom m1)); auto. intros a Ha ->. apply (FA m1); auto. }
      assert (KD : forall u, full u -> (sem I1 u def <-> sem I1 u f)).
      { intros u F. unfold def. rewrite dterm_sem by auto. unfold I1 at 1. rewrite setP_at. rewrite <- KF. 
        rewrite (tm_vars I1 I) by (auto; apply vars_tvar). split.
        - intros (u0 & F0 & EQ & K). eapply sem_ext; [|exact K]. intros a Ha. destruct (is_tvar a) eqn:T; [|rewrite !full_none; auto].
          assert (Hv : In a (vars_def f)). { apply -> in_rev. apply collect_in. right. split; auto. apply fargs_syms; auto. }
          assert (TA : tm I u0 (Sa a) = tm I u (Sa a)).
          { rewrite !map_map in EQ. clear - EQ Hv. induction (vars_def f) as [|z r IHr]; [destruct Hv|]. injection EQ as A1 A2. destruct Hv as [<-|Hv]; auto. }
          cbn in TA. destruct (full_some u0 a F0 T) as [d0 X0], (full_some u a F T) as [d1 X1']. rewrite X0, X1' in *. congruence.
        - intro K. exists u. auto. }
      assert (H1 : holds I1 (d_defs s)).
      { destruct (d_defs s) as [g|] eqn:Eg; [|exact Logic.I]. cbn in *. intros u F. apply (sem_same (fun a => a = dfatom m1) I I1); auto.
        intros a Ha ->. apply (FN m1); auto. }
      destruct (X1) with (D := D) (I := I1) as (I2 & SI2 & H2); auto.
      { intros i Hi K. apply Y1 in K as [K|K]; [apply (FA i); auto; lia|apply dfatom_inj in K; lia]. }
      { intros i Hi K. apply (FN i); auto. lia. }
      destruct (X2) with (D := D) (I := I2) as (I3 & SI3 & H3); auto.
      { intros i Hi K. apply Y2 in K as [K|K]; [apply (FA i); auto; lia|apply dfatom_inj in K; lia]. }
      { intros i Hi K. apply Hn1 in K as [K|[K|(j & Hj & K)]].
        - apply (FN i); auto. lia.
        - apply Y1 in K as [K|K]; [apply (FA i); auto; lia|apply dfatom_inj in K; lia].
        - apply dfatom_inj in K. lia. }
      assert (S13 : same_but (dfN m1 (d_nr s2)) I1 I3).
      { eapply same_trans; [exact SI2|exact SI3|]. intros a [(i & Hi & ->)|(i & Hi & ->)]; exists i; split; auto; lia. }
      exists I3. split.
      { eapply same_trans; [exact SI|exact S13|]. intros a [->|(i & Hi & ->)]; eexists; (split; [|reflexivity]); lia. }
      apply HOLD. split; auto. intros u F.
      assert (KD3 : sem I3 u def <-> sem I3 u f).
      { rewrite <- (sem_same _ _ _ f S13 (dfN_con _ _)), <- (sem_same _ _ _ def S13 (dfN_con _ _)).
        - apply KD; auto.
        - intros a Ha (i & Hi & ->). apply dterm_syms in Ha as [Ha|Ha]; [apply dfatom_inj in Ha; lia|apply (FA i); auto; lia].
        - intros a Ha (i & Hi & ->). apply (FA i); auto; lia. }
      destruct (classic (sem I3 u f)) as [K|K]; (split; [apply (S1 D I3 (M2 D I3 H3) u F)|apply (S2 D I3 H3 u F)]); unfold mk_or; apply sem_or2; rewrite ?Sn, ?Sf; tauto.
  - apply Q_lit, L_pos; auto.
  - intros a Ha. cbn [d_nr]. apply dterm_syms in Ha as [->|Ha]; auto. right. exists m1. split; auto. lia.
  - cbn [d_defs]. exact IFF.
Qed.

Definition Nm (A : atom -> Prop) (s s' : dst) (g : sx) : Prop := forall a, In a (syms g) -> A a \/ dfN (d_nr s) (d_nr s') a.
Lemma chain A s s1 s2 g r : spost A s s1 -> Nm A s s1 g -> post g r s1 s2 ->
  spost A s s2 /\ Nm A s s2 r /\ (forall h, Nm A s s1 h -> Nm A s s2 h) /\
  (forall D (I : interp D), holds I (d_defs s2) -> holds I (d_defs s1)) /\
  (forall D (I : interp D), holds I (d_defs s2) -> forall u, full u -> (sem I u r <-> sem I u g)).
Proof.
  intros P N [P2 (Q & N2 & S2)]. pose proof P as (_ & Hm1 & _). pose proof P2 as (_ & Hm2 & _ & M2 & _).
  assert (W : forall h, Nm A s s1 h -> Nm A s s2 h).
  { intros h H a Ha. apply H in Ha as [Ha|(i & Hi & ->)]; auto. right. exists i. split; auto. lia. }
  split; [eapply spost_trans; eauto|]. split; [|auto].
  intros a Ha. apply N2 in Ha as [Ha|(i & Hi & ->)]; [apply (W g); auto|]. right. exists i. split; auto. lia.
Qed.
Lemma Nm2 A s s' c x y : Nm A s s' x -> Nm A s s' y -> Nm A s s' (Sl [Sa (Con c); x; y]).
Proof. intros H1 H2 a Ha. rewrite syms_2 in Ha. apply in_app_or in Ha as [Ha|Ha]; auto. Qed.
Lemma Nm2_inv A s s' c x y : Nm A s s' (Sl [Sa (Con c); x; y]) -> Nm A s s' x /\ Nm A s s' y.
Proof. intro H. split; intros a Ha; apply H; rewrite syms_2; apply in_or_app; auto. Qed.

Lemma lit_no_and f : literal f -> has_and f = false.
Proof. intros [g [a|a args Ha _]|g _]; try reflexivity. destruct a; [destruct Ha|]. reflexivity. Qed.
Lemma disj_no_and f : disj f -> has_and f = false.
Proof. intros [g L|g h _ _]; [apply lit_no_and; auto|reflexivity]. Qed.
Lemma cnf_has f : cnf f -> has_and f = true -> exists a b, f = mk_and a b /\ cnf a /\ cnf b.
Proof. intros [g d|a b Ha Hb] E; [rewrite disj_no_and in E by auto; discriminate|]. exists a, b. auto. Qed.
Lemma cnf_no f : cnf f -> has_and f = false -> disj f.
Proof. intros [g d|a b Ha Hb] E; auto. discriminate. Qed.
Lemma cnf_qf f : cnf f -> qf f.
Proof.
  assert (H : forall g, disj g -> qf g) by (induction 1; [apply Q_lit; auto|apply Q_two; auto]).
  induction 1; [auto|apply Q_two; auto].
Qed.

Lemma dist_ok fuel : forall strat f indef s r s', qf f -> distribute fuel strat f indef s = Some (r, s') ->
  post f r s s' /\ cnf r.
Proof.
  induction fuel as [|fuel IH]; [discriminate|]. intros strat f indef s r s' Q E.
  assert (LIT : literal f -> Some (f, s) = Some (r, s') -> post f r s s' /\ cnf r).
  { intros L X. injection X as <- <-. split; [|apply F_cl, C_lit; auto]. split; [apply spost_refl|].
    split; [auto|]. split; [auto|]. reflexivity. }
  destruct Q as [f L|c x y Hc Qx Qy].
  { apply LIT; auto. destruct L as [g [a|a args Ha _]|g _]; try exact E. destruct a; [destruct Ha|]. exact E. }
  cbn [distribute] in E. set (md := makedef (fun f s => distribute fuel strat f true s)) in E.
  assert (MD : forall g t r t', cnf g -> md g t = Some (r, t') -> post g r t t' /\ disj r).
  { intros g t r0 t' Cg Em. apply makedef_ok in Em as [P A]; [split; auto; apply C_lit, L_pos; auto|apply cnf_qf; auto|].
    intros h t1 r1 t1' Qh E1. apply (IH _ _ _ _ _ _ Qh E1). }
  set (A := fun a => In a (syms (Sl [Sa (Con c); x; y]))).
  assert (Ax : Nm A s s x /\ Nm A s s y).
  { split; intros a Ha; left; unfold A; rewrite syms_2; apply in_or_app; auto. }
  assert (CH : exists x' s1 y' s2, distribute fuel strat x indef s = Some (x', s1) /\ distribute fuel strat y indef s1 = Some (y', s2)).
  { destruct Hc as [-> | ->].
    all: destruct (distribute fuel strat x indef s) as [[x' s1]|]; [|discriminate E].
    all: destruct (distribute fuel strat y indef s1) as [[y' s2]|] eqn:E2; [|discriminate E].
    all: exists x', s1, y', s2; auto. }
  destruct CH as (x' & s1 & y' & s2 & E1 & E2). rewrite E1, E2 in E.
  destruct (IH _ _ _ _ _ _ Qx E1) as [K1 C1]. destruct (IH _ _ _ _ _ _ Qy E2) as [K2 C2].
  destruct (chain A s s s1 x x' (spost_refl A s) (proj1 Ax) K1) as (P1 & N1 & W1 & M1 & S1).
  destruct (chain A s s1 s2 y y' P1 (W1 _ (proj2 Ax)) K2) as (P2 & N2 & W2 & M2 & S2).
  assert (XY : forall D (I : interp D), holds I (d_defs s2) -> forall u, full u -> (sem I u x' <-> sem I u x) /\ (sem I u y' <-> sem I u y)).
  { intros D I H u F. split; [apply S1; auto|apply S2; auto]. }
  assert (FIN : forall r t, spost A s t -> Nm A s t r -> cnf r ->
     (forall D (I : interp D), holds I (d_defs t) -> holds I (d_defs s2)) ->
     (forall D (I : interp D), holds I (d_defs t) -> forall u, full u -> 
         (sem I u r <-> if match c with CAnd => true | _ => false end then sem I u x' /\ sem I u y' else sem I u x' \/ sem I u y')) ->
     post (Sl [Sa (Con c); x; y]) r s t /\ cnf r).
  { intros r0 t P N C M Sr. split; auto. split; [exact P|]. split; [apply cnf_qf; auto|]. split; [exact N|].
    intros D I H u F. rewrite (Sr D I H u F). destruct (XY D I (M D I H) u F) as [Z1 Z2].
    destruct Hc as [-> | ->]; [rewrite sem_and2|rewrite sem_or2]; rewrite Z1, Z2; reflexivity. }
  assert (DIST : forall g t r t', spost A s t -> Nm A s t g -> qf g -> distribute fuel strat g indef t = Some (r, t') ->
     cnf r /\ spost A s t' /\ Nm A s t' r /\ (forall h, Nm A s t h -> Nm A s t' h) /\
     (forall D (I : interp D), holds I (d_defs t') -> holds I (d_defs t)) /\
     (forall D (I : interp D), holds I (d_defs t') -> forall u, full u -> (sem I u r <-> sem I u g))).
  { intros g t r0 t' P N Qg Eg. destruct (IH _ _ _ _ _ _ Qg Eg) as [K C]. split; auto. apply (chain A s t t' g r0 P N K). }
  destruct Hc as [-> | ->].
  { injection E as <- <-. apply FIN; auto.
    - apply Nm2; auto.
    - apply F_and; auto.
    - intros D I _ u _. cbn iota. unfold mk_and, s_and. apply sem_and2. }
  cbn iota in FIN.
  destruct (has_and x') eqn:Hx; destruct (has_and y') eqn:Hy.
  - destruct (cnf_has x' C1 Hx) as (a & b & -> & Ca & Cb). destruct (cnf_has y' C2 Hy) as (p & q & -> & Cp & Cq).
    change (as_and (mk_and a b)) with (Some (a, b)) in E. change (as_and (mk_and p q)) with (Some (p, q)) in E.
    cbn iota in E. pose proof (Nm2_inv _ _ _ _ _ _ (W2 _ N1)) as [Na Nb]. pose proof (Nm2_inv _ _ _ _ _ _ N2) as [Np Nq].
    assert (QF : qf a /\ qf b /\ qf p /\ qf q) by (repeat split; apply cnf_qf; auto). destruct QF as (Qa & Qb & Qp & Qq).
    match type of E with (if ?z then _ else _) = _ => destruct z end.
    + destruct (md (mk_and a b) s2) as [[d1 s3]|] eqn:E3; [|discriminate]. destruct (md (mk_and p q) s3) as [[d2 s4]|] eqn:E4; [|discriminate].
      injection E as <- <-. destruct (MD _ _ _ _ C1 E3) as [K3 C3]. destruct (MD _ _ _ _ C2 E4) as [K4 C4].
      destruct (chain A s s2 s3 _ _ P2 (W2 _ N1) K3) as (P3 & N3 & W3 & M3 & S3).
      destruct (chain A s s3 s4 _ _ P3 (W3 _ N2) K4) as (P4 & N4 & W4 & M4 & S4).
      apply FIN; auto.
      * apply Nm2; auto.
      * apply F_cl, C_or; auto.
      * intros D I H u F. unfold mk_or, s_or. rewrite sem_or2. rewrite (S4 D I H u F), (S3 D I (M4 D I H) u F). reflexivity.
    + destruct (distribute fuel strat (mk_or a p) indef s2) as [[r3 s3]|] eqn:E3; [|discriminate].
      destruct (distribute fuel strat (mk_or a q) indef s3) as [[r4 s4]|] eqn:E4; [|discriminate].
      destruct (distribute fuel strat (mk_or b p) indef s4) as [[r5 s5]|] eqn:E5; [|discriminate].
      destruct (distribute fuel strat (mk_or b q) indef s5) as [[r6 s6]|] eqn:E6; [|discriminate]. injection E as <- <-.
      destruct (DIST (mk_or a p) s2 r3 s3 P2) as (C3 & P3 & N3 & W3 & M3 & S3); [apply Nm2; auto|apply Q_two; auto|auto|].
      destruct (DIST (mk_or a q) s3 r4 s4 P3) as (C4 & P4 & N4 & W4 & M4 & S4); [apply Nm2; auto|apply Q_two; auto|auto|].
      destruct (DIST (mk_or b p) s4 r5 s5 P4) as (C5 & P5 & N5 & W5 & M5 & S5); [apply Nm2; auto|apply Q_two; auto|auto|].
      destruct (DIST (mk_or b q) s5 r6 s6 P5) as (C6 & P6 & N6 & W6 & M6 & S6); [apply Nm2; auto|apply Q_two; auto|auto|].
      apply FIN; auto.
      * repeat apply Nm2; auto.
      * repeat apply F_and; auto.
      * intros D I H u F. unfold mk_and, s_and. rewrite !sem_and2. rewrite (S6 D I H u F), (S5 D I (M6 D I H) u F), (S4 D I (M5 D I (M6 D I H)) u F),
          (S3 D I (M4 D I (M5 D I (M6 D I H))) u F). unfold mk_or, s_or. rewrite !sem_or2. tauto.
  - destruct (cnf_has x' C1 Hx) as (a & b & -> & Ca & Cb). change (as_and (mk_and a b)) with (Some (a, b)) in E. cbn iota in E.
    pose proof (Nm2_inv _ _ _ _ _ _ (W2 _ N1)) as [Na Nb].
    assert (QF : qf a /\ qf b /\ qf y') by (repeat split; apply cnf_qf; auto). destruct QF as (Qa & Qb & Qy').
    destruct (distribute fuel strat (mk_or a y') indef s2) as [[r3 s3]|] eqn:E3; [|discriminate].
    destruct (distribute fuel strat (mk_or b y') indef s3) as [[r4 s4]|] eqn:E4; [|discriminate]. injection E as <- <-.
    destruct (DIST (mk_or a y') s2 r3 s3 P2) as (C3 & P3 & N3 & W3 & M3 & S3); [apply Nm2; auto|apply Q_two; auto|auto|].
    destruct (DIST (mk_or b y') s3 r4 s4 P3) as (C4 & P4 & N4 & W4 & M4 & S4); [apply Nm2; auto|apply Q_two; auto|auto|].
    apply FIN; auto.
    + apply Nm2; auto.
    + apply F_and; auto.
    + intros D I H u F. unfold mk_and, s_and. rewrite !sem_and2. rewrite (S4 D I H u F), (S3 D I (M4 D I H) u F). unfold mk_or, s_or. rewrite !sem_or2. tauto.
  - destruct (cnf_has y' C2 Hy) as (a & b & -> & Ca & Cb). change (as_and (mk_and a b)) with (Some (a, b)) in E. cbn iota in E.
    pose proof (Nm2_inv _ _ _ _ _ _ N2) as [Na Nb].
    assert (QF : qf a /\ qf b /\ qf x') by (repeat split; apply cnf_qf; auto). destruct QF as (Qa & Qb & Qx').
    destruct (distribute fuel strat (mk_or b x') indef s2) as [[r3 s3]|] eqn:E3; [|discriminate].
    destruct (distribute fuel strat (mk_or a x') indef s3) as [[r4 s4]|] eqn:E4; [|discriminate]. injection E as <- <-.
    destruct (DIST (mk_or b x') s2 r3 s3 P2) as (C3 & P3 & N3 & W3 & M3 & S3); [apply Nm2; auto|apply Q_two; auto|auto|].
    destruct (DIST (mk_or a x') s3 r4 s4 P3) as (C4 & P4 & N4 & W4 & M4 & S4); [apply Nm2; auto|apply Q_two; auto|auto|].
    apply FIN; auto.
    + apply Nm2; auto.
    + apply F_and; auto.
    + intros D I H u F. unfold mk_and, s_and. rewrite !sem_and2. rewrite (S4 D I H u F), (S3 D I (M4 D I H) u F). unfold mk_or, s_or. rewrite !sem_or2. tauto.
  - injection E as <- <-. apply FIN; auto.
    + apply Nm2; auto.
    + apply F_cl, C_or; apply cnf_no; auto.
    + intros D I _ u _. unfold mk_or, s_or. apply sem_or2.
Qed.
