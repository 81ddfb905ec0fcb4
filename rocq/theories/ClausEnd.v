(** Proofs about flattening, free variables and the whole conversion. *)
From Coq Require Import List String Bool Arith Lia Classical_Prop.
From Verif Require Import ClausModel ClausSpec ClausProof ClausMini ClausSk ClausDist.
Import ListNotations.

(** * Flattening *)
Lemma log_const_sem {D} (I : interp D) u x : match log_const x with Yes => sem I u x | No => ~ sem I u x | Neither => True end.
Proof.
  destruct x as [[c|[] s]|]; cbn; auto.
  destruct (String.eqb s "$true"); cbn; auto. destruct (String.eqb s "$false"); cbn; auto.
Qed.
Lemma log_truth_sem {D} (I : interp D) u x : disj x -> match log_truth x with Yes => sem I u x | No => ~ sem I u x | Neither => True end.
Proof.
  intros [f [g [a Ha|a args Ha _]|g A]|f g _ _].
  - apply log_const_sem.
  - destruct a; [destruct Ha|]. exact Logic.I.
  - cbn [log_truth]. pose proof (log_const_sem I u g) as H. rewrite sem_not. destruct (log_const g); auto.
  - exact Logic.I.
Qed.
Definition cl_post (f c : sx) : Prop :=
  (c = s_true /\ forall D (I : interp D) u, sem I u f) \/
  exists lits, c = Sl lits /\ lits <> [] /\ Forall literal lits /\ forall D (I : interp D) u, sem I u f <-> Exists (sem I u) lits.
Lemma flatten_or_ok f : disj f -> exists c, flatten_or f = Some c /\ cl_post f c.
Proof.
  induction 1 as [f L|x y Dx (cx & Ex & Px) Dy (cy & Ey & Py)].
  - exists (Sl [f]). split.
    + destruct L as [g [a Ha|a args Ha _]|g A]; try reflexivity. destruct a; [destruct Ha|]. reflexivity.
    + right. exists [f]. split; [auto|]. split; [discriminate|]. split; [auto|]. intros. split; [auto|]. intro H. inversion H as [? ? K|? ? K]; subst; auto. inversion K.
  - assert (TX := fun D (I : interp D) u => log_truth_sem I u x Dx). assert (TY := fun D (I : interp D) u => log_truth_sem I u y Dy).
    cbn [flatten_or].
    assert (T1 : (forall D (I : interp D) u, sem I u x) -> exists c, Some s_true = Some c /\ cl_post (Sl [Sa (Con COr); x; y]) c).
    { intro H. exists s_true. split; auto. left. split; auto. intros. apply sem_or2. auto. }
    assert (T2 : (forall D (I : interp D) u, sem I u y) -> exists c, Some s_true = Some c /\ cl_post (Sl [Sa (Con COr); x; y]) c).
    { intro H. exists s_true. split; auto. left. split; auto. intros. apply sem_or2. auto. }
    assert (F1 : (forall D (I : interp D) u, ~ sem I u x) -> exists c, flatten_or y = Some c /\ cl_post (Sl [Sa (Con COr); x; y]) c).
    { intro H. exists cy. split; auto. destruct Py as [[-> Hy]|(l & -> & N & FL & Hy)].
      - left. split; auto. intros. apply sem_or2. auto.
      - right. exists l. split; [auto|]. split; [auto|]. split; [auto|]. intros. rewrite sem_or2, <- Hy. specialize (H D I u). tauto. }
    assert (F2 : (forall D (I : interp D) u, ~ sem I u y) -> exists c, flatten_or x = Some c /\ cl_post (Sl [Sa (Con COr); x; y]) c).
    { intro H. exists cx. split; auto. destruct Px as [[-> Hy]|(l & -> & N & FL & Hy)].
      - left. split; auto. intros. apply sem_or2. auto.
      - right. exists l. split; [auto|]. split; [auto|]. split; [auto|]. intros. rewrite sem_or2, <- Hy. specialize (H D I u). tauto. }
    destruct (log_truth x), (log_truth y); auto.
    rewrite Ex, Ey. destruct Px as [[-> Hx]|(lx & -> & Nx & Fx & Hx)].
    { cbn. auto. }
    cbn [is_log_true]. destruct Py as [[-> Hy]|(ly & -> & Ny & Fy & Hy)].
    { cbn. auto. }
    cbn [is_log_true append_sx]. eexists; split; [reflexivity|]. right. exists (lx ++ ly)%list. split; [auto|].
    split; [destruct lx; [congruence|discriminate]|]. split; [apply Forall_app; auto|].
    intros. rewrite sem_or2, Exists_app, Hx, Hy. reflexivity.
Qed.
Lemma flatten_ok f : cnf f -> exists cls, flatten f = Some cls /\ Forall clause_ok cls /\
  forall D (I : interp D) u, sem I u f <-> Forall (clause_true I u) cls.
Proof.
  induction 1 as [f d|x y _ (cx & Ex & Ox & Sx) _ (cy & Ey & Oy & Sy)].
  - destruct (flatten_or_ok f d) as (c & E & P). exists [c]. split.
    + assert (FE : flatten f = match flatten_or f with Some c => Some [c] | None => None end).
      { destruct d as [g [h [a Ha|a args Ha _]|h A]|g h _ _]; try reflexivity. destruct a; [destruct Ha|]. reflexivity. }
      rewrite FE, E. reflexivity.
    + destruct P as [[-> H]|(l & -> & N & FL & H)].
      * split; [repeat constructor|]. intros. split; [intros _; constructor; [exact Logic.I|constructor]|auto].
      * split; [constructor; [right; eauto|constructor]|]. intros. rewrite H. split; [intro; constructor; auto|].
        intro K. inversion K; auto.
  - exists (cx ++ cy)%list. cbn [flatten]. rewrite Ex, Ey. split; [auto|]. split; [apply Forall_app; auto|].
    intros. rewrite sem_and2, Forall_app, Sx, Sy. reflexivity.
Qed.

(** * Free variables *)
Lemma binders_syms f : incl (binders f) (syms f).
Proof.
  induction f as [b|l IH] using sx_ind2; intros a Ha; [destruct Ha|].
  assert (G : forall r, incl r l -> In a (flat_map binders r) -> In a (flat_map syms l)).
  { intros r Hr H. apply in_flat_map in H as (x & Hx & H). apply in_flat_map. exists x. split; auto. rewrite Forall_forall in IH. apply IH; auto. }
  cbn [syms]. assert (D : In a (flat_map binders l) \/ exists h v r, l = h :: v :: r /\ In a (syms v ++ flat_map binders r)).
  { cbn in Ha. destruct l as [|h l]; auto. destruct h as [[[]|]|]; auto; destruct l as [|v r]; auto; right; eauto. }
  destruct D as [D|(h & v & r & -> & D)]; [apply (G l); auto; apply incl_refl|].
  apply in_app_or in D as [D|D]; [apply in_flat_map; exists v; split; auto; right; left; auto|apply (G r); auto]. intros z Hz. right; right; auto.
Qed.

Section Free.
Variable isv : string -> bool.
Notation vl := (var_like isv).
Notation pf := (parse_freeoccs isv).
Fixpoint occs_list (vars : list atom) (acc : list atom) (l : list sx) : list atom :=
  match l with [] => acc | x :: r => occs_list vars (add_occs acc (pf vars x)) r end.
Lemma add_occs_in vars occs a : In a (add_occs vars occs) -> In a vars \/ In a occs.
Proof.
  unfold add_occs. destruct occs as [|o occs]; [auto|]. destruct vars as [|v vars]; [auto|].
  rewrite add_fold. tauto.
Qed.
Lemma add_occs_keep vars occs a : In a vars -> In a (add_occs vars occs).
Proof.
  unfold add_occs. destruct occs as [|o occs]; [auto|]. destruct vars as [|v vars]; [intros []|].
  rewrite add_fold. tauto.
Qed.
Lemma occs_in vars l : forall acc a, In a (occs_list vars acc l) -> In a acc \/ exists x, In x l /\ In a (pf vars x).
Proof.
  induction l as [|x r IH]; intros acc a H; [auto|]. cbn in H. apply IH in H as [H|(y & Hy & H)].
  - apply add_occs_in in H as [H|H]; auto. right. exists x. split; auto. left; auto.
  - right. exists y. split; auto. right; auto.
Qed.
Lemma pf_eq vars h args : pf vars (Sl (Sa h :: args)) =
  match h with
  | Con CAll | Con CEx => match args with v :: b :: _ => match var_list v with Some vs => pf (vars_subset vs vars) b | None => [] end | _ => [] end
  | _ => occs_list vars [] args
  end.
Proof.
  assert (G : forall l acc, (fix occs_all (acc : list atom) (l : list sx) : list atom :=
        match l with [] => acc | x :: r => occs_all (add_occs acc (pf vars x)) r end) acc l = occs_list vars acc l).
  { induction l; intros; cbn; auto. }
  destruct h as [[]|]; cbn; auto; apply G.
Qed.
(** what is collected *)
Lemma pf_sound f : forall vars a, In a (pf vars f) -> vl a = true /\ In a (syms f).
Proof.
  induction f as [b|l IH] using sx_ind2; intros vars a H.
  - cbn in H. destruct (vl b) eqn:E; [|destruct H]. destruct (in_vars vars b); [destruct H|]. destruct H as [<-|[]]. split; auto.
    destruct b; [discriminate|left; auto].
  - rewrite Forall_forall in IH. destruct l as [|h args]; [destruct H|]. destruct h as [h|g].
    + rewrite pf_eq in H.
      assert (G : In a (occs_list vars [] args) -> vl a = true /\ In a (flat_map syms (Sa h :: args))).
      { intro K. apply occs_in in K as [[]|(x & Hx & K)]. apply IH in K as [K1 K2]; [|right; auto]. split; auto. apply in_flat_map. exists x. split; auto. right; auto. }
      assert (G2 : In a (match args with v :: b :: _ => match var_list v with Some vs => pf (vars_subset vs vars) b | None => [] end | _ => [] end) ->
         vl a = true /\ In a (flat_map syms (Sa h :: args))).
      { destruct args as [|v [|b r]]; try (intros []; fail). destruct (var_list v); [|intros []]. intro K. apply IH in K as [K1 K2]; [|right; right; left; auto].
        split; auto. apply in_flat_map. exists b. split; auto. right; right; left; auto. }
      cbn [syms]. destruct h as [[]|]; auto.
    + destruct g as [|g0 g1].
      { assert (K : In a (occs_list vars [] args)).
        { revert H. cbn. clear. generalize (@nil atom). induction args; intros; cbn in *; auto. }
        apply occs_in in K as [[]|(x & Hx & K)]. apply IH in K as [K1 K2]; [|right; auto]. split; auto. apply in_flat_map. exists x. split; auto. right; auto. }
      cbn in H. destruct args; [|destruct H]. apply (IH (Sl (g0 :: g1))) in H; [|left; auto]. destruct H. split; auto. cbn [syms flat_map] in *. rewrite app_nil_r. auto.
Qed.

Variables S B : atom -> Prop.
Hypothesis SB : forall a b, S a -> B b -> astr a = astr b -> a = b.
Hypothesis BV : forall a, S a -> vl a = true -> B a.
Lemma occs_keep vars l : forall acc a, In a acc -> In a (occs_list vars acc l).
Proof. induction l as [|x r IH]; intros acc a H; [auto|]. cbn. apply IH, add_occs_keep; auto. Qed.
Lemma occs_get vars l x a : (forall y b, In y l -> In b (syms y) -> S b) -> In x l -> In a (pf vars x) ->
  forall acc, (forall b, In b acc -> B b) -> In a (occs_list vars acc l).
Proof.
  intros HS Hx Ha. induction l as [|y r IH]; intros acc HA; [destruct Hx|]. cbn.
  assert (HY : forall b, In b (pf vars y) -> S b /\ B b).
  { intros b Hb. apply pf_sound in Hb as [V Hs]. assert (S b) by (apply (HS y); auto; left; auto). auto. }
  destruct Hx as [->|Hx].
  - apply occs_keep. apply (add_occs_spec S B SB); auto. intros v Hv. apply HY; auto.
  - apply IH; auto.
    + intros z b Hz. apply HS. right; auto.
    + intros b Hb. apply add_occs_in in Hb as [Hb|Hb]; auto. apply HY; auto.
Qed.
Lemma pf_term t : forall vars a, (forall b, In b (syms t) -> S b) -> (forall b, In b vars -> B b) -> term_ok t ->
  In a (targs t) -> vl a = true -> ~ In a vars -> In a (pf vars t).
Proof.
  induction t as [b|l IH] using sx_ind2; intros vars a HS HV T H V N.
  - destruct H as [<-|[]]. cbn. rewrite V. destruct (in_vars vars b) eqn:E; [|left; auto].
    apply (in_vars_spec S B SB) in E; auto; [tauto|]. apply HS. destruct b; [destruct T|left; auto].
  - destruct l as [|[h|?] args]; try (destruct T; fail). rewrite pf_eq. destruct T as [Th Ta]. cbn in H.
    apply in_flat_map in H as (x & Hx & H).
    assert (K : In a (occs_list vars [] args)).
    { apply (occs_get vars args x); auto; [| |intros ? []].
      - intros y b Hy Hb. apply HS. cbn. apply in_or_app. right. apply in_flat_map. eauto.
      - 
      rewrite Forall_forall in IH. apply IH; auto; [right; auto| |].
      + intros b Hb. apply HS. cbn. apply in_or_app. right. apply in_flat_map. eauto.
      + clear - Ta Hx. induction args as [|z r IHr]; [destruct Hx|]. destruct Ta. destruct Hx as [->|Hx]; auto. }
    destruct h; [destruct Th|exact K].
Qed.
Lemma pf_complete f : wff true f -> forall vars a, (forall b, In b (syms f) -> S b) -> (forall b, In b (binders f) -> B b) -> (forall b, In b vars -> B b) ->
  In a (fargs f) -> vl a = true -> ~ In a vars -> In a (pf vars f).
Proof.
  induction f as [b|l IH] using sx_ind2; intros W vars a HS HB HV H V N; [destruct H|].
  rewrite Forall_forall in IH.
  assert (MANY : forall c args, l = Sa (Con c) :: args -> c <> CAll -> c <> CEx -> Forall (wff true) args -> In a (pf vars (Sl l))).
  { intros c args -> N1 N2 FW. rewrite pf_eq. assert (FE : In a (flat_map fargs args)) by (destruct c; cbn in H; tauto || exact H).
    assert (BE : flat_map binders args = binders (Sl (Sa (Con c) :: args))) by (destruct c; cbn; tauto || reflexivity).
    apply in_flat_map in FE as (x & Hx & K). rewrite Forall_forall in FW.
    assert (G : In a (occs_list vars [] args)).
    { apply (occs_get vars args x); auto; [| |intros ? []].
      - intros y b Hy Hb. apply HS. cbn. apply in_flat_map. eauto.
      - apply IH; auto; [right; auto| |].
        + intros b Hb. apply HS. cbn. apply in_flat_map. eauto.
        + intros b Hb. apply HB. rewrite <- BE. apply in_flat_map. eauto. }
    destruct c; tauto. }
  inversion W as [f A|l0 W1|f W1|c args Hc Har FW|f g W1 W2|c vs b Hc Hn Hs W1]; subst.
  - inversion A as [|h args Hh FT]; subst. rewrite fargs_app in H by auto. apply in_flat_map in H as (x & Hx & H). rewrite pf_eq.
    rewrite Forall_forall in FT.
    assert (G : In a (occs_list vars [] args)).
    { apply (occs_get vars args x); auto; [| |intros ? []].
      - intros y b Hy Hb. apply HS. cbn. apply in_or_app. right. apply in_flat_map. eauto.
      - apply pf_term; auto. intros b Hb. apply HS. cbn. apply in_or_app. right. apply in_flat_map. eauto. }
    destruct h; [destruct Hh|exact G].
  - assert (l0 <> []) by (intros ->; inversion W1 as [? X| | | | |]; inversion X).
    destruct l0 as [|x0 l0]; [congruence|]. change (In a (pf vars (Sl (x0 :: l0)))). apply IH; auto; [left; auto| |].
    + intros b Hb. apply HS. cbn. rewrite app_nil_r. exact Hb.
    + intros b Hb. apply HB. cbn [binders flat_map]. rewrite app_nil_r. exact Hb.
  - apply (MANY CNot [f]); try discriminate; auto.
  - apply (MANY c args); auto; intros ->; destruct Hc as [|[|]]; discriminate.
  - apply (MANY CEqv [f; g]); try discriminate; auto.
  - change (Sl [Sa (Con c); Sl (map Sa vs); b]) with (Qf c vs b) in *. rewrite fargs_q in H by auto. destruct H as [H Nv].
    assert (HS' : forall z, In z (vs ++ syms b) -> S z) by (intros z Hz; apply HS; unfold Qf; rewrite syms_q; auto).
    assert (HB' : forall z, In z (vs ++ binders b) -> B z) by (intros z Hz; apply HB; unfold Qf; rewrite binders_q; auto).
    assert (G : In a (pf (vars_subset vs vars) b)).
    { assert (SU : forall z, In z (vars_subset vs vars) -> In z vs).
      { intros z Hz. apply (vars_subset_spec S B SB) in Hz; auto; [tauto|]. intros y Hy. apply HS', in_or_app; auto. }
      apply IH; auto; [right; right; left; auto| | |].
      - intros z Hz. apply HS', in_or_app; auto.
      - intros z Hz. apply HB', in_or_app; auto.
      - intros z Hz. apply HB', in_or_app; auto. }
    unfold Qf. rewrite pf_eq. cbn [var_list]. rewrite atoms_of_map. destruct Hc as [-> | ->]; exact G.
Qed.
End Free.

(** * The whole conversion *)
Definition clos (fv : list atom) (f : sx) : sx := match fv with [] => f | _ => Sl [Sa (Con CAll); Sl (map Sa fv); f] end.
Lemma clos_sem fv f {D} (I : interp D) e : sem I e (clos fv f) <-> forall e', avariant fv e e' -> sem I e' f.
Proof.
  unfold clos. destruct fv as [|v r]; [|apply sem_all]. rewrite <- (sem_all I e [] f). symmetry. apply q_nil; auto.
Qed.
Lemma clos_true isv f {D} (I : interp D) fv : (forall a, In a fv -> var_like isv a = true) ->
  (forall a, In a (fargs f) -> var_like isv a = true -> In a fv) ->
  (sem I none (clos fv f) <-> formula_true isv I f).
Proof.
  intros HV HF. rewrite clos_sem. split; intros H e He.
  - pose (e1 := fun a => if in_dec atom_eq_dec a fv then e a else None).
    apply (sem_ext f D I e1 e).
    + intros a Ha. unfold e1. destruct (in_dec atom_eq_dec a fv) as [i|i]; auto.
      destruct (e a) eqn:E; auto. exfalso. apply i, HF; auto. apply He. congruence.
    + apply H. intro a. unfold e1. destruct (in_dec atom_eq_dec a fv) as [i|i]; split; intro K; try tauto; try reflexivity.
      apply He. auto.
  - pose (e1 := fun a => if var_like isv a then (if in_dec atom_eq_dec a fv then e a else Some (cst I a)) else None).
    apply (sem_ext f D I e1 e).
    + intros a Ha. unfold e1. destruct (var_like isv a) eqn:V.
      * destruct (in_dec atom_eq_dec a fv) as [i|i]; auto. exfalso. auto.
      * symmetry. apply He. intro K. apply HV in K. congruence.
    + apply H. intro a. unfold e1. destruct (var_like isv a) eqn:V; [|split; intro K; [tauto|discriminate]].
      destruct (in_dec atom_eq_dec a fv) as [i|i]; split; intro K; auto; try discriminate. apply He; auto.
Qed.

Definition goal_of isv (frm out : sx) k m k' m' : Prop :=
  cnf out /\ k <= k' /\ m <= m' /\
  (forall D (I : interp D), (forall u, full u -> sem I u out) -> formula_true isv I frm) /\
  (forall D (I : interp D), formula_true isv I frm ->
     exists I', same_but (made k k' m m') I I' /\ forall u, full u -> sem I' u out).

Lemma made_con k k' m m' c : ~ made k k' m m' (Con c).
Proof. intros [(i & _ & H)|(i & _ & H)]; discriminate. Qed.
Lemma full_exists {D} (I : interp D) : exists u : env D, full u.
Proof.
  exists (fun a => if is_tvar a then Some (cst I a) else None). intro a. destruct (is_tvar a); split; intro H; congruence.
Qed.

(** the four steps on a closed formula *)
Lemma steps_ok fuel strat f k m f1 f2 f3 n' k' f4 s :
  wff true f -> spelling_ok f -> (forall b, In b (binders f) -> bindable b = true) ->
  (forall h, In h (fheads f) -> ~ In h (binders f)) -> (forall a, In a (fargs f) -> is_tvar a = false) ->
  (forall i, k < i -> ~ In (skatom i) (syms f)) -> (forall i, m < i -> ~ In (dfatom i) (syms f)) ->
  negpush f true = Some f1 -> miniscope f1 = Some f2 -> skolemize f2 [] 0 k = Some (f3, n', k') ->
  distribute fuel strat f3 false (mkd m None) = Some (f4, s) ->
  let out := match d_defs s with None => f4 | Some d => mk_and f4 d end in
  cnf out /\ k <= k' /\ m <= d_nr s /\
  (forall D (I : interp D), (forall u, full u -> sem I u out) -> sem I none f) /\
  (forall D (I : interp D), sem I none f ->
     exists I', same_but (made k k' m (d_nr s)) I I' /\ forall u, full u -> sem I' u out).
Proof.
  intros W SO HB HH HT HK HD E1 E2 E3 E4.
  destruct (negpush_ok true f W true) as (g & X & N1 & S1). rewrite E1 in X. injection X as <-.
  pose proof (negpush_sub f W true f1 E1) as B1.
  assert (SO1 : spelling_ok f1). { intros a b Ha Hb. apply SO; apply B1; auto. }
  destruct (miniscope_main f1 N1 SO1) as (g & X & N2 & S2 & B2). rewrite E2 in X. injection X as <-.
  pose proof (sub_trans _ _ _ B2 B1) as B3. destruct B3 as (Bs & Bb & Ba & Bh).
  destruct (skolemize_ok (fun v => In v (binders f)) f2 N2 [] 0 k) as (g & n1 & k1 & X & P); auto.
  { intros v t []. }
  { intros v []. }
  { intros a Ha T. apply Ba in Ha. apply HT in Ha. congruence. }
  { intros a i Ha Hi ->. apply (HK i); auto. }
  rewrite E3 in X. injection X as <- <- <-. destruct P as (Hn & Hk & Q3 & _ & Hs3 & Snd & Cpl).
  assert (EO : forall D (I : interp D) u a, e_of I [] u a = none a) by reflexivity.
  destruct (dist_ok fuel strat f3 false _ _ _ Q3 E4) as [[P4 (Q4 & Nm4 & S4)] C4].
  destruct P4 as (DC & Dm & Dn & _ & DX). cbn [d_nr d_defs] in *.
  assert (FR : forall i, m < i -> ~ In (dfatom i) (syms f3)).
  { intros i Hi H. apply Hs3 in H as [H|[(j & Hj & H)|(j & Hj & H)]].
    - apply Bs in H. apply (HD i); auto.
    - symmetry in H. apply sk_df in H. auto.
    - discriminate. }
  assert (OUT : forall D (I : interp D), (forall u, full u -> sem I u (match d_defs s with None => f4 | Some d => mk_and f4 d end)) <->
     holds I (d_defs s) /\ forall u, full u -> sem I u f4).
  { intros D I. destruct (d_defs s); cbn [holds]; [|tauto]. split.
    - intro H. split; intros u F; specialize (H u F); apply sem_and2 in H; tauto.
    - intros [H1 H2] u F. apply sem_and2. auto. }
  split; [|split; [auto|split; [auto|split]]].
  - unfold dcnf in DC. cbn [d_defs] in DC. specialize (DC Logic.I). destruct (d_defs s); auto. apply F_and; auto.
  - intros D I H. apply OUT in H as [H1 H2]. destruct (full_exists I) as [u0 F0].
    assert (K : sem I (e_of I [] u0) f2). { apply Snd; auto. intros u' F' _. apply (S4 D I H1 u' F'). auto. }
    apply (sem_ext f2 D I _ none (fun a _ => EO D I u0 a)) in K. apply S2 in K. apply S1 in K. exact K.
  - intros D I H. destruct (Cpl D I) as (I1 & SI1 & K1).
    assert (G : forall u, full u -> sem I1 u f3).
    { intros u F. apply K1; auto. apply (sem_ext f2 D I _ none (fun a _ => EO D I u a)). apply S2, S1. exact H. }
    destruct (DX FR) with (D := D) (I := I1) as (I2 & SI2 & K2); [intros i Hi []|exact Logic.I|].
    exists I2. split.
    + eapply same_trans; [exact SI1|exact SI2|]. intros a [(i & Hi & ->)|(i & Hi & ->)]; [left|right]; eauto.
    + apply OUT. split; auto. intros u F. apply (S4 D I2 K2 u F).
      apply (sem_same _ I1 I2 f3 SI2 (dfN_con _ _)); auto. intros a Ha (i & Hi & ->). apply (FR i); auto. lia.
Qed.

Lemma clos_facts isv f k m : input_ok isv f k m ->
  let fv := parse_freeoccs isv [] f in let g := clos fv f in
  wff true g /\ spelling_ok g /\ (forall b, In b (binders g) -> bindable b = true) /\
  (forall h, In h (fheads g) -> ~ In h (binders g)) /\ (forall a, In a (fargs g) -> is_tvar a = false) /\
  (forall a, In a (syms g) -> In a (syms f)) /\
  (forall D (I : interp D), sem I none g <-> formula_true isv I f).
Proof.
  intros [W HB HP HH HK HD] fv g.
  assert (FV : forall a, In a fv -> var_like isv a = true /\ In a (syms f)) by (intro a; apply pf_sound).
  assert (FC : forall a, In a (fargs f) -> var_like isv a = true -> In a fv).
  { intros a Ha V. apply (pf_complete isv (fun a => In a (syms f)) (fun b => In b (syms f) /\ (In b (binders f) \/ var_like isv b = true))); auto.
    - intros x y Hx [Hy Hb]. auto.
    - intros b Hb. split; auto. apply binders_syms; auto.
    - intros b [].
    }
  clearbody fv.
  assert (TV : forall a, is_tvar a = true -> var_like isv a = true) by (intros [|[]]; cbn; congruence).
  assert (VB : forall a, var_like isv a = true -> bindable a = true) by (intros [|[]]; cbn; congruence).
  assert (FS : Forall sym fv). { rewrite Forall_forall. intros a Ha. apply FV in Ha as [Ha _]. destruct a; [discriminate|exact I]. }
  assert (Hs : forall a, In a (syms g) -> In a (syms f)).
  { intros a Ha. unfold g, clos in Ha. destruct fv as [|v r] eqn:Ef; [auto|]. rewrite syms_q in Ha by auto.
    apply in_app_or in Ha as [Ha|Ha]; auto. apply FV in Ha. tauto. }
  assert (Hb : forall a, In a (binders g) -> In a (binders f) \/ (var_like isv a = true /\ In a (syms f))).
  { intros a Ha. unfold g, clos in Ha. destruct fv as [|v r] eqn:Ef; [auto|]. rewrite binders_q in Ha by auto.
    apply in_app_or in Ha as [Ha|Ha]; auto. }
  assert (Hh : fheads g = fheads f). { unfold g, clos. destruct fv; [auto|]. apply fheads_q; auto. }
  split; [|split; [|split; [|split; [|split; [|split]]]]].
  - unfold g, clos. destruct fv as [|v r]; auto. apply W_q; [auto|discriminate|exact FS|exact W].
  - intros a b Ha Hbb E. destruct (Hb b Hbb) as [K|[K K']]; apply HP; auto. apply binders_syms; auto.
  - intros b Hbb. destruct (Hb b Hbb) as [K|[K _]]; auto.
  - intros h Hhh Hbb. rewrite Hh in Hhh. destruct (HH h Hhh) as [N1 N2]. destruct (Hb h Hbb) as [K|[K _]]; [auto|congruence].
  - intros a Ha. destruct (is_tvar a) eqn:T; auto. exfalso. apply TV in T. unfold g, clos in Ha. destruct fv as [|v r] eqn:Ef.
    + apply (FC a); auto.
    + change (In a (fargs (Qf CAll (v :: r) f))) in Ha. rewrite fargs_q in Ha by auto. destruct Ha. auto.
  - exact Hs.
  - intros D I. apply clos_true; auto. intros a Ha. apply FV; auto.
Qed.

Lemma clausify_con isv fuel strat c args k m :
  clausify isv fuel strat (Sl (Sa (Con c) :: args)) k m =
  match negpush (clos (parse_freeoccs isv [] (Sl (Sa (Con c) :: args))) (Sl (Sa (Con c) :: args))) true with
  | Some f1 => match miniscope f1 with
    | Some f2 => match skolemize f2 [] 0 k with
      | Some (f3, _, k') => match distribute fuel strat f3 false (mkd m None) with
        | Some (f4, s) => Some (match d_defs s with None => f4 | Some d => mk_and f4 d end, k', d_nr s)
        | None => None end
      | None => None end
    | None => None end
  | None => None end.
Proof. reflexivity. Qed.

Lemma clausify_ok isv fuel strat frm : forall k m out k' m', input_ok isv frm k m -> ~ atomic frm ->
  clausify isv fuel strat frm k m = Some (out, k', m') -> goal_of isv frm out k m k' m'.
Proof.
  induction frm as [a|l IH] using sx_ind2; intros k m out k' m' IO NA E.
  { exfalso. apply NA. destruct IO as [W _ _ _ _ _]. inversion W; auto. }
  assert (CON : forall c args, l = Sa (Con c) :: args -> goal_of isv (Sl l) out k m k' m').
  { intros c args ->. rewrite clausify_con in E. pose proof (clos_facts isv _ k m IO) as CF.
    set (g := clos _ _) in *. cbn zeta in CF. destruct CF as (W & SO & HB & HH & HT & HS & HM).
    destruct (negpush g true) as [f1|] eqn:E1; [|discriminate]. destruct (miniscope f1) as [f2|] eqn:E2; [|discriminate].
    destruct (skolemize f2 [] 0 k) as [[[f3 n'] k1]|] eqn:E3; [|discriminate].
    destruct (distribute fuel strat f3 false (mkd m None)) as [[f4 s]|] eqn:E4; [|discriminate]. injection E as <- <- <-.
    destruct (steps_ok fuel strat g k m f1 f2 f3 n' k1 f4 s W SO HB HH HT) as (C & Hk & Hm & Sd & Cp); auto.
    - intros i Hi K. apply HS in K. revert K. apply (io_sk _ _ _ _ IO); auto.
    - intros i Hi K. apply HS in K. revert K. apply (io_df _ _ _ _ IO); auto.
    - split; [exact C|]. split; [exact Hk|]. split; [exact Hm|]. split.
      + intros D I H. apply HM. auto.
      + intros D I H. apply Cp. apply HM. exact H. }
  pose proof (io_wff _ _ _ _ IO) as W.
  inversion W as [f A|l0 W1|f W1|c args Hc Har FW|f g W1 W2|c vs b Hc Hn Hs W1]; subst; try (eapply CON; reflexivity).
  { contradiction. }
  clear CON. assert (NE : l0 <> []) by (intros ->; inversion W1 as [? X| | | | |]; inversion X).
  destruct l0 as [|x0 r0]; [congruence|]. set (g := Sl (x0 :: r0)) in *.
  assert (EQ : clausify isv fuel strat (Sl [g]) k m = match parse_freeoccs isv [] g with [] => clausify isv fuel strat g k m | _ => None end) by reflexivity.
  rewrite EQ in E. destruct (parse_freeoccs isv [] g) eqn:EF; [|discriminate].
  assert (IG : input_ok isv g k m).
  { destruct IO as [_ I1 I2 I3 I4 I5].
    assert (Y : syms (Sl [g]) = syms g) by (cbn [syms flat_map]; apply app_nil_r).
    assert (Z : binders (Sl [g]) = binders g) by (cbn [binders flat_map]; apply app_nil_r).
    assert (X : fheads (Sl [g]) = fheads g) by reflexivity.
    rewrite ?Y, ?Z, ?X in *. constructor; auto. }
  assert (SG : forall D (I : interp D), formula_true isv I (Sl [g]) <-> formula_true isv I g) by (intros; reflexivity).
  destruct (classic (atomic g)) as [A|A].
  - assert (R : clausify isv fuel strat g k m = Some (g, k, m)).
    { unfold g in *. inversion A as [|a args Ha]; subst. destruct a; [destruct Ha|]. reflexivity. }
    rewrite R in E. injection E as <- <- <-. pose proof (clos_facts isv _ k m IG) as CF. rewrite EF in CF. cbn zeta in CF.
    destruct CF as (_ & _ & _ & _ & HT & _ & HM). cbn [clos] in *.
    assert (EV : forall D (I : interp D) u, full u -> (sem I u g <-> sem I none g)).
    { intros D I u F. apply sem_ext. intros a Ha. apply full_none; auto. }
    split; [apply F_cl, C_lit, L_pos; auto|]. split; [auto|]. split; [auto|]. split.
    + intros D I H. apply SG, HM. destruct (full_exists I) as [u F]. apply (EV D I u F); auto.
    + intros D I H. exists I. split; [apply same_refl|]. intros u F. apply EV; auto. apply HM, SG; auto.
  - rewrite Forall_forall in IH. destruct (IH g (or_introl eq_refl) k m out k' m' IG A E) as (C & Hk & Hm & Sd & Cp).
    split; [auto|]. split; [auto|]. split; [auto|]. split; intros D I H.
    + apply SG. auto.
    + apply Cp. apply SG; auto.
Qed.

Lemma clausify_main isv fuel strat frm k m out k' m' : input_ok isv frm k m -> ~ atomic frm ->
  clausify isv fuel strat frm k m = Some (out, k', m') ->
  exists cls, flatten out = Some cls /\ Forall clause_ok cls /\
    (forall D (I : interp D), clauses_true I cls -> formula_true isv I frm) /\
    (forall D (I : interp D), formula_true isv I frm -> exists I', same_but (made k k' m m') I I' /\ clauses_true I' cls).
Proof.
  intros IO NA E. destruct (clausify_ok _ _ _ _ _ _ _ _ _ IO NA E) as (C & _ & _ & Sd & Cp).
  destruct (flatten_ok out C) as (cls & Ec & Oc & Sc). exists cls. split; [auto|]. split; [auto|]. split.
  - intros D I H. apply Sd. intros u F. apply Sc. auto.
  - intros D I H. destruct (Cp D I H) as (I' & S' & H'). exists I'. split; auto. intros u F. apply Sc. auto.
Qed.

(** * Without definitions the distribution always ends *)
Section Ends.
Variables (i : bool) (s : dst).
Definition to (f r : sx) : Prop := exists n, forall fuel, n <= fuel -> distribute fuel false f i s = Some (r, s).
Definition ends (f : sx) : Prop := exists r, cnf r /\ to f r.
Lemma to_lit f : literal f -> to f f.
Proof.
  intro L. exists 1. intros [|fuel] H; [lia|].
  destruct L as [g [a|a args Ha _]|g _]; try reflexivity. destruct a; [destruct Ha|]. reflexivity.
Qed.
Lemma to_and x y x' y' : to x x' -> to y y' -> to (mk_and x y) (mk_and x' y').
Proof.
  intros [n1 H1] [n2 H2]. exists (1 + n1 + n2). intros [|fuel] H; [lia|].
  cbn [distribute mk_and s_and]. rewrite H1, H2 by lia. reflexivity.
Qed.
Lemma to_or x y x' y' : to x x' -> to y y' -> has_and x' = false -> has_and y' = false -> to (mk_or x y) (mk_or x' y').
Proof.
  intros [n1 H1] [n2 H2] A1 A2. exists (1 + n1 + n2). intros [|fuel] H; [lia|].
  cbn [distribute mk_or s_or]. rewrite H1, H2 by lia. rewrite A1, A2. reflexivity.
Qed.
Lemma to_left x y a b y' r1 r2 : to x (mk_and a b) -> to y y' -> has_and y' = false ->
  to (mk_or a y') r1 -> to (mk_or b y') r2 -> to (mk_or x y) (mk_and r1 r2).
Proof.
  intros [n1 H1] [n2 H2] A2 [n3 H3] [n4 H4]. exists (1 + n1 + n2 + n3 + n4). intros [|fuel] H; [lia|].
  cbn [distribute mk_or s_or]. rewrite H1, H2 by lia. change (has_and (mk_and a b)) with true.
  change (as_and (mk_and a b)) with (Some (a, b)). rewrite A2. cbn iota.
  change (Sl [Sa (Con COr); a; y']) with (mk_or a y'). rewrite H3, H4 by lia. reflexivity.
Qed.
Lemma to_right x y a b x' r1 r2 : to x x' -> to y (mk_and b a) -> has_and x' = false ->
  to (mk_or a x') r1 -> to (mk_or b x') r2 -> to (mk_or x y) (mk_and r1 r2).
Proof.
  intros [n1 H1] [n2 H2] A2 [n3 H3] [n4 H4]. exists (1 + n1 + n2 + n3 + n4). intros [|fuel] H; [lia|].
  cbn [distribute mk_or s_or]. rewrite H1, H2 by lia. change (has_and (mk_and b a)) with true.
  change (as_and (mk_and b a)) with (Some (b, a)). rewrite A2. cbn iota.
  rewrite H3, H4 by lia. reflexivity.
Qed.
Lemma to_both x y a b c d r1 r2 r3 r4 : to x (mk_and a b) -> to y (mk_and c d) ->
  to (mk_or a c) r1 -> to (mk_or a d) r2 -> to (mk_or b c) r3 -> to (mk_or b d) r4 ->
  to (mk_or x y) (mk_and r1 (mk_and r2 (mk_and r3 r4))).
Proof.
  intros [n1 H1] [n2 H2] [n3 H3] [n4 H4] [n5 H5] [n6 H6]. exists (1 + n1 + n2 + n3 + n4 + n5 + n6). intros [|fuel] H; [lia|].
  cbn [distribute mk_or s_or]. rewrite H1, H2 by lia. change (has_and (mk_and a b)) with true. change (has_and (mk_and c d)) with true.
  change (as_and (mk_and a b)) with (Some (a, b)). change (as_and (mk_and c d)) with (Some (c, d)). cbn [andb negb]; cbv zeta; cbn iota.
  rewrite H3, H4, H5, H6 by lia. reflexivity.
Qed.
Lemma to_disj f : disj f -> to f f.
Proof. induction 1 as [f L|f g D1 H1 D2 H2]; [apply to_lit; auto|]. apply to_or; auto; apply disj_no_and; auto. Qed.
Lemma to_cnf f : cnf f -> to f f.
Proof. induction 1 as [f d|f g _ H1 _ H2]; [apply to_disj; auto|apply to_and; auto]. Qed.
Definition P (p q : sx) : Prop := forall x y, to x p -> to y q -> ends (mk_or x y).
Lemma P_dd p q : disj p -> disj q -> P p q.
Proof. intros A B x y Hx Hy. exists (mk_or p q). split; [apply F_cl, C_or; auto|]. apply to_or; auto; apply disj_no_and; auto. Qed.
Lemma P_cd p : cnf p -> forall q, disj q -> P p q.
Proof.
  induction 1 as [p d|a b Ca IHa Cb IHb]; intros q Dq; [apply P_dd; auto|]. intros x y Hx Hy.
  destruct (IHa q Dq a q) as (r1 & C1 & T1); [apply to_cnf; auto|apply to_disj; auto|].
  destruct (IHb q Dq b q) as (r2 & C2 & T2); [apply to_cnf; auto|apply to_disj; auto|].
  exists (mk_and r1 r2). split; [apply F_and; auto|]. eapply to_left; eauto. apply disj_no_and; auto.
Qed.
Lemma P_cc p : cnf p -> forall q, cnf q -> P p q.
Proof.
  induction 1 as [p d|a b Ca IHa Cb IHb]; intros q Cq x y Hx Hy.
  - destruct Cq as [q e|b a Cb Ca]; [apply (P_dd p q); auto|].
    destruct (P_cd a Ca p d a p) as (r1 & C1 & T1); [apply to_cnf; auto|apply to_disj; auto|].
    destruct (P_cd b Cb p d b p) as (r2 & C2 & T2); [apply to_cnf; auto|apply to_disj; auto|].
    exists (mk_and r1 r2). split; [apply F_and; auto|]. eapply to_right; eauto. apply disj_no_and; auto.
  - destruct Cq as [q e|c d Cc Cd]; [apply (P_cd (mk_and a b)) with (q := q); auto; apply F_and; auto|].
    destruct (IHa c Cc a c) as (r1 & C1 & T1); try (apply to_cnf; auto).
    destruct (IHa d Cd a d) as (r2 & C2 & T2); try (apply to_cnf; auto).
    destruct (IHb c Cc b c) as (r3 & C3 & T3); try (apply to_cnf; auto).
    destruct (IHb d Cd b d) as (r4 & C4 & T4); try (apply to_cnf; auto).
    exists (mk_and r1 (mk_and r2 (mk_and r3 r4))). split; [repeat apply F_and; auto|]. eapply to_both; eauto.
Qed.
Lemma qf_ends f : qf f -> ends f.
Proof.
  induction 1 as [f L|c x y Hc _ (x' & Cx & Tx) _ (y' & Cy & Ty)].
  - exists f. split; [apply F_cl, C_lit; auto|apply to_lit; auto].
  - destruct Hc as [-> | ->].
    + exists (mk_and x' y'). split; [apply F_and; auto|apply to_and; auto].
    + apply (P_cc x' Cx y' Cy); auto.
Qed.
End Ends.

Lemma dist_total f i s : qf f -> exists fuel r, distribute fuel false f i s = Some (r, s).
Proof. intro Q. destruct (qf_ends i s f Q) as (r & _ & n & H). exists n, r. apply H. lia. Qed.

(** without definitions every closed well-formed formula is accepted *)
Lemma clausify_total isv frm k m : input_ok isv frm k m -> (forall f, frm <> Sl [Sl f]) ->
  exists fuel out k', clausify isv fuel false frm k m = Some (out, k', m).
Proof.
  intros IO NP. destruct frm as [a|l].
  { exists 0, (Sa a), k. reflexivity. }
  pose proof (io_wff _ _ _ _ IO) as W.
  assert (CON : forall c args, l = Sa (Con c) :: args -> exists fuel out k', clausify isv fuel false (Sl l) k m = Some (out, k', m)).
  { intros c args ->. pose proof (clos_facts isv _ k m IO) as CF. cbn zeta in CF.
    destruct CF as (Wg & SO & HB & HH & HT & HS & _). setoid_rewrite clausify_con. set (g := clos _ _) in *.
    destruct (negpush_ok true g Wg true) as (f1 & E1 & N1 & _). pose proof (negpush_sub g Wg true f1 E1) as B1.
    assert (SO1 : spelling_ok f1). { intros a b Ha Hb. apply SO; apply B1; auto. }
    destruct (miniscope_main f1 N1 SO1) as (f2 & E2 & N2 & _ & B2).
    pose proof (sub_trans _ _ _ B2 B1) as (Bs & Bb & Ba & Bh).
    destruct (skolemize_ok (fun v => In v (binders g)) f2 N2 [] 0 k) as (f3 & n1 & k1 & E3 & P3); auto.
    { intros v t []. }
    { intros v []. }
    { intros a Ha T. apply Ba in Ha. apply HT in Ha. congruence. }
    { intros a j Ha Hj ->. apply (io_sk _ _ _ _ IO j); auto. }
    destruct P3 as (_ & _ & Q3 & _). destruct (dist_total f3 false (mkd m None) Q3) as (fuel & r & E4).
    exists fuel, r, k1. rewrite E1, E2, E3, E4. reflexivity. }
  inversion W as [f A|l0 W1|f W1|c args Hc Har FW|f g W1 W2|c vs b Hc Hn Hs W1]; subst; try (eapply CON; reflexivity).
  - inversion A as [|a args Ha]; subst. destruct a; [destruct Ha|]. exists 0. eexists _, k. reflexivity.
  - exfalso. apply (NP l0). reflexivity.
Qed.
