(** Proofs about miniscoping. *)
From Coq Require Import List String Bool Arith Lia Classical_Prop.
From Verif Require Import ClausModel ClausSpec ClausProof.
Import ListNotations.

(** * Environments *)
Lemma sem_app {D} (I : interp D) e a args : sym a -> sem I e (Sl (Sa a :: args)) = pr I a (map (tm I e) args).
Proof. destruct a; [intros []|]. destruct args; reflexivity. Qed.
Lemma sem_not {D} (I : interp D) e x : sem I e (Sl [Sa (Con CNot); x]) = ~ sem I e x.
Proof. reflexivity. Qed.
Lemma sem_and2 {D} (I : interp D) e x y : sem I e (Sl [Sa (Con CAnd); x; y]) <-> sem I e x /\ sem I e y.
Proof. cbn. tauto. Qed.
Lemma sem_or2 {D} (I : interp D) e x y : sem I e (Sl [Sa (Con COr); x; y]) <-> sem I e x \/ sem I e y.
Proof. cbn. tauto. Qed.

Definition Qf (c : conn) (vs : list atom) (b : sx) : sx := Sl [Sa (Con c); Sl (map Sa vs); b].
Definition avariant {D} (vs : list atom) (e e' : env D) : Prop :=
  forall a, (In a vs -> e' a <> None) /\ (~ In a vs -> e' a = e a).
Lemma in_map_Sa a vs : In (Sa a) (map Sa vs) <-> In a vs.
Proof. rewrite in_map_iff. split; [intros (x & E & H); inversion E; subst; auto|intro; exists a; auto]. Qed.
Lemma variant_map {D} vs (e e' : env D) : variant (map Sa vs) e e' <-> avariant vs e e'.
Proof. unfold variant, avariant. split; intros H a; specialize (H a); rewrite in_map_Sa in *; exact H. Qed.
Lemma sem_all {D} (I : interp D) e vs b : sem I e (Qf CAll vs b) <-> forall e', avariant vs e e' -> sem I e' b.
Proof. unfold Qf. cbn. split; intros H e' V; apply H; apply variant_map; auto. Qed.
Lemma sem_ex {D} (I : interp D) e vs b : sem I e (Qf CEx vs b) <-> exists e', avariant vs e e' /\ sem I e' b.
Proof. unfold Qf. cbn. split; intros (e' & V & H); exists e'; split; auto; apply variant_map; auto. Qed.

Lemma syms_map vs : Forall sym vs -> flat_map syms (map Sa vs) = vs.
Proof. induction 1 as [|v r Hv _ IH]; cbn; [reflexivity|]. rewrite IH. destruct v; [destruct Hv|reflexivity]. Qed.
Lemma syms_q c vs b : Forall sym vs -> syms (Sl [Sa (Con c); Sl (map Sa vs); b]) = (vs ++ syms b)%list.
Proof. intro H. cbn. rewrite syms_map by auto. rewrite app_nil_r. reflexivity. Qed.
Lemma binders_q c vs b : c = CAll \/ c = CEx -> Forall sym vs ->
  binders (Sl [Sa (Con c); Sl (map Sa vs); b]) = (vs ++ binders b)%list.
Proof. intros Hc H. destruct Hc as [-> | ->]; cbn; rewrite syms_map by auto; rewrite app_nil_r; reflexivity. Qed.

Lemma mem_map a vs : mem a (map Sa vs) = true <-> In a vs.
Proof.
  unfold mem. rewrite existsb_exists. split.
  - intros (x & Hx & E). apply in_map_iff in Hx as (b & <- & Hb). apply atom_eqb_eq in E. subst; auto.
  - intro H. exists (Sa a). split; [apply in_map; auto|]. apply atom_eqb_eq; auto.
Qed.
Lemma fargs_q c vs b a : c = CAll \/ c = CEx -> (In a (fargs (Qf c vs b)) <-> In a (fargs b) /\ ~ In a vs).
Proof.
  intro Hc. assert (E : fargs (Qf c vs b) = filter (fun a => negb (mem a (map Sa vs))) (fargs b)) by (destruct Hc as [-> | ->]; reflexivity).
  rewrite E, filter_In, negb_true_iff. rewrite <- (mem_map a vs). destruct (mem a (map Sa vs)); intuition congruence.
Qed.
Lemma fargs_app h args : sym h -> fargs (Sl (Sa h :: args)) = flat_map targs args.
Proof. destruct h; [intros []|]. reflexivity. Qed.
Lemma fargs_2 c x y : c = CAnd \/ c = COr -> fargs (Sl [Sa (Con c); x; y]) = (fargs x ++ fargs y)%list.
Proof. intros [-> | ->]; cbn; rewrite app_nil_r; reflexivity. Qed.

(** * Variable lists, when spelling identifies names *)
Section Names.
Variables S B : atom -> Prop.
Hypothesis SB : forall a b, S a -> B b -> astr a = astr b -> a = b.

Lemma in_vars_spec vars a : S a -> (forall v, In v vars -> B v) -> (in_vars vars a = true <-> In a vars).
Proof.
  intros Ha Hv. unfold in_vars. rewrite existsb_exists. split.
  - intros (v & Hin & E). apply String.eqb_eq in E. rewrite (SB a v); auto.
  - intro Hin. exists a. split; auto. apply String.eqb_refl.
Qed.
Lemma in_vars_false vars a : S a -> (forall v, In v vars -> B v) -> in_vars vars a = false -> ~ In a vars.
Proof. intros Ha Hv H Hin. apply in_vars_spec in Hin; auto. congruence. Qed.
Lemma vars_subset_spec vars bound a : (forall v, In v vars -> S v) -> (forall v, In v bound -> B v) ->
  (In a (vars_subset vars bound) <-> In a vars /\ ~ In a bound).
Proof.
  intros Hs Hb. unfold vars_subset. destruct (existsb (in_vars bound) vars) eqn:E.
  - assert (F : In a (rev (filter (fun v => negb (in_vars bound v)) vars)) <-> In a vars /\ ~ In a bound).
    { rewrite <- in_rev, filter_In. split; intros [H1 H2]; split; auto.
      - apply negb_true_iff in H2. apply in_vars_false; auto.
      - apply negb_true_iff. destruct (in_vars bound a) eqn:V; auto. apply in_vars_spec in V; auto. tauto. }
    destruct vars as [|v [|w r]]; auto. cbn in E. rewrite orb_false_r in E.
    apply in_vars_spec in E; [|apply Hs; left; auto|auto]. cbn. split; [tauto|intros [[<-|[]] H]; tauto].
  - split; [intro H|tauto]. split; auto. intro Hin.
    assert (existsb (in_vars bound) vars = true); [|congruence]. apply existsb_exists. exists a. split; auto.
    apply in_vars_spec; auto.
Qed.
Lemma add_fold vars occs : forall res a,
  In a (fold_left (fun res v => if in_vars vars v then res else v :: res) occs res) <->
  In a res \/ (In a occs /\ in_vars vars a = false).
Proof.
  induction occs as [|v r IH]; intros res a; cbn; [tauto|].
  rewrite IH. destruct (in_vars vars v) eqn:E; cbn; intuition (subst; auto; congruence).
Qed.
Lemma add_occs_spec vars occs a : (forall v, In v vars -> B v) -> (forall v, In v occs -> S v) ->
  (In a (add_occs vars occs) <-> In a vars \/ In a occs).
Proof.
  intros Hb Hs. unfold add_occs. destruct occs as [|o r]; [cbn; tauto|]. destruct vars as [|v w]; [cbn; tauto|].
  rewrite add_fold. split; [tauto|]. intros [H|H]; auto. destruct (in_vars (v :: w) a) eqn:E; auto.
  apply in_vars_spec in E; auto.
Qed.

Definition goodv (vars : list atom) := forall v, In v vars -> B v /\ S v.
Lemma goodB vars : goodv vars -> forall v, In v vars -> B v. Proof. firstorder. Qed.
Lemma goodS vars : goodv vars -> forall v, In v vars -> S v. Proof. firstorder. Qed.
Lemma good_incl vars occ : goodv vars -> incl occ vars -> goodv occ. Proof. firstorder. Qed.
Local Hint Resolve goodB goodS : core.

Fixpoint occs_list (vars acc : list atom) (l : list sx) : option (list atom) :=
  match l with
  | [] => Some acc
  | x :: r => match freeoccs vars x with Some o => occs_list vars (add_occs acc o) r | None => None end
  end.
Lemma fo_nil f : freeoccs [] f = Some []. Proof. destruct f; reflexivity. Qed.
Lemma fo_app v vars t s args : freeoccs (v :: vars) (Sl (Sa (Sym t s) :: args)) =
  occs_list (v :: vars) (if in_vars (v :: vars) (Sym t s) then [Sym t s] else []) args.
Proof.
  cbn [freeoccs]. generalize (if in_vars (v :: vars) (Sym t s) then [Sym t s] else []).
  induction args as [|x r IH]; intro l; [reflexivity|]. cbn [occs_list]. destruct (freeoccs (v :: vars) x); auto.
Qed.
Lemma fo_conn v vars c args : c = CNot \/ c = CAnd \/ c = COr ->
  freeoccs (v :: vars) (Sl (Sa (Con c) :: args)) = occs_list (v :: vars) [] args.
Proof.
  intro Hc. assert (E : freeoccs (v :: vars) (Sl (Sa (Con c) :: args)) =
    freeoccs (v :: vars) (Sl (Sa (Con CAnd) :: args))) by (destruct Hc as [->|[->| ->]]; reflexivity).
  rewrite E. clear E Hc. cbn [freeoccs]. generalize (@nil atom).
  induction args as [|x r IH]; intro l; [reflexivity|]. cbn [occs_list]. destruct (freeoccs (v :: vars) x); auto.
Qed.
Lemma atoms_of_map vs : atoms_of (map Sa vs) = Some vs.
Proof. induction vs as [|v r IH]; cbn; [reflexivity|]. rewrite IH. reflexivity. Qed.
Lemma fo_q v vars c vs b : c = CAll \/ c = CEx ->
  freeoccs (v :: vars) (Qf c vs b) = freeoccs (vars_subset (v :: vars) vs) b.
Proof.
  unfold Qf. intros [-> | ->]; cbn [freeoccs var_list]; rewrite atoms_of_map; reflexivity.
Qed.

(** [e] and [e'] agree off [vars] and on [occ] *)
Definition agree {D} (vars occ : list atom) (e e' : env D) : Prop :=
  forall a, ~ In a vars \/ In a occ -> e a = e' a.
Lemma agree_sym {D} vars occ (e e' : env D) : agree vars occ e e' -> agree vars occ e' e.
Proof. intros H a Ha. symmetry. auto. Qed.
Lemma agree_le {D} vars occ occ' (e e' : env D) : incl occ occ' -> agree vars occ' e e' -> agree vars occ e e'.
Proof. intros Hi H a [Ha|Ha]; apply H; auto. Qed.

Lemma occs_list_ok vars (R : sx -> list atom -> Prop) args :
  goodv vars ->
  (forall x o o', incl o o' -> R x o -> R x o') ->
  Forall (fun x => exists o, freeoccs vars x = Some o /\ incl o vars /\ R x o) args ->
  forall acc, incl acc vars -> exists occ, occs_list vars acc args = Some occ /\ incl occ vars /\ incl acc occ /\
    Forall (fun x => R x occ) args.
Proof.
  intros Hg Hm. induction 1 as [|x r (o & E & Hi & Rx) _ IH]; intros acc Ha.
  - exists acc. repeat split; auto. apply incl_refl.
  - cbn. rewrite E.
    assert (A : forall a, In a (add_occs acc o) <-> In a acc \/ In a o).
    { intro a. apply add_occs_spec; intros v Hv; apply Hg; auto. }
    destruct (IH (add_occs acc o)) as (occ & E2 & I2 & A2 & F2).
    { intros a H. apply A in H as [H|H]; auto. }
    exists occ. rewrite E2. repeat split; auto.
    + intros a H. apply A2. apply A. auto.
    + constructor; auto. apply (Hm x o occ); auto. intros a H. apply A2, A. auto.
Qed.

Lemma map_ext_F {X Y} (f g : X -> Y) l : Forall (fun x => f x = g x) l -> map f l = map g l.
Proof. induction 1; cbn; congruence. Qed.

Lemma in_flat_syms a x l : In x l -> In a (syms x) -> In a (flat_map syms l).
Proof. intros. apply in_flat_map. eauto. Qed.

Definition tm_dep vars x occ : Prop := (forall D (I : interp D) e e', agree vars occ e e' -> tm I e x = tm I e' x) /\
  forall a, In a vars -> In a (targs x) -> In a occ.
Lemma tm_dep_le vars x o o' : incl o o' -> tm_dep vars x o -> tm_dep vars x o'.
Proof. intros Hi [T C]. split; [|auto]. intros D I e e' A. apply T. eapply agree_le; eauto. Qed.
Lemma fo_args vars h args : goodv vars -> sym h -> S h ->
  Forall (fun x => exists o, freeoccs vars x = Some o /\ incl o vars /\ tm_dep vars x o) args ->
  exists occ, freeoccs vars (Sl (Sa h :: args)) = Some occ /\ incl occ vars /\ Forall (fun x => tm_dep vars x occ) args.
Proof.
  intros Hg Hh HS F. destruct vars as [|v vars].
  { exists []. rewrite fo_nil. repeat split; [apply incl_refl|]. eapply Forall_impl; [|exact F].
    cbn. intros x (o & E & _ & T). rewrite fo_nil in E. inversion E; subst; auto. }
  destruct h as [c|ty s]; [destruct Hh|]. rewrite fo_app.
  destruct (occs_list_ok (v :: vars) (tm_dep (v :: vars)) args Hg (tm_dep_le (v :: vars)) F
    (if in_vars (v :: vars) (Sym ty s) then [Sym ty s] else [])) as (occ & E & Hi & _ & F1).
  - destruct (in_vars (v :: vars) (Sym ty s)) eqn:E; [|intros b []]. apply in_vars_spec in E; eauto.
    intros b [<-|[]]; auto.
  - exists occ. auto.
Qed.
Lemma fo_term vars t : goodv vars -> term_ok t -> (forall a, In a (syms t) -> S a) ->
  exists occ, freeoccs vars t = Some occ /\ incl occ vars /\ tm_dep vars t occ.
Proof.
  intros Hg. induction t as [a|l IH] using sx_ind2; intros W Hs.
  - destruct vars as [|v vars].
    { exists []. rewrite fo_nil. split; [reflexivity|]. split; [apply incl_refl|]. split; [|auto]. intros D I e e' A. cbn. rewrite (A a); auto. }
    assert (Sa_ : S a) by (apply Hs; destruct a; [destruct W|left; auto]).
    cbn [freeoccs]. destruct (in_vars (v :: vars) a) eqn:E; eexists; (split; [reflexivity|]).
    + apply in_vars_spec in E; eauto. split; [intros b [<-|[]]; auto|].
      split; [|intros b _ [<-|[]]; left; auto]. intros D I e e' A. cbn. rewrite (A a); auto. right; left; auto.
    + apply in_vars_false in E; eauto. split; [intros b []|].
      split; [|intros b Hb [<-|[]]; tauto]. intros D I e e' A. cbn. rewrite (A a); auto.
  - destruct l as [|[h|?] args]; try (destruct W; fail).
    apply term_ok_app in W as [Hh Hargs]. inversion IH as [|? ? _ IH1]; subst.
    destruct (fo_args vars h args) as (occ & E & Hi & F); auto.
    + apply Hs. destruct h; [destruct Hh|left; auto].
    + rewrite Forall_forall in *. intros x Hx. apply IH1; auto.
      intros b Hb. apply Hs. cbn. apply in_or_app. right. eapply in_flat_syms; eauto.
    + exists occ. split; [auto|]. split; [auto|]. rewrite Forall_forall in *. split.
      * intros D I e e' A. cbn. f_equal. apply map_ext_F. rewrite Forall_forall. intros x Hx. apply (F x Hx); auto.
      * intros a Ha Hin. cbn in Hin. apply in_flat_map in Hin as (x & Hx & Hin). apply (F x Hx); auto.
Qed.

Definition sem_dep vars x occ : Prop := (forall D (I : interp D) e e', agree vars occ e e' -> (sem I e x <-> sem I e' x)) /\
  forall a, In a vars -> In a (fargs x) -> In a occ.

Definition upd {D} (vs : list atom) (e1 e : env D) : env D := fun a => if in_dec atom_eq_dec a vs then e1 a else e a.
Lemma upd_in {D} vs (e1 e : env D) a : In a vs -> upd vs e1 e a = e1 a.
Proof. unfold upd. destruct (in_dec atom_eq_dec a vs); tauto. Qed.
Lemma upd_out {D} vs (e1 e : env D) a : ~ In a vs -> upd vs e1 e a = e a.
Proof. unfold upd. destruct (in_dec atom_eq_dec a vs); tauto. Qed.
Lemma upd_variant {D} vs (e1 e : env D) : (forall a, In a vs -> e1 a <> None) -> avariant vs e (upd vs e1 e).
Proof. intros H a. split; intro K; [rewrite upd_in by auto; auto|apply upd_out; auto]. Qed.

(** Nothing but the names in [occ] matters among [vars], and what is bound does not matter *)
Lemma dep_q c vs b vars vars' occ : c = CAll \/ c = CEx ->
  (forall a, In a vars' <-> In a vars /\ ~ In a vs) -> sem_dep vars' b occ -> sem_dep vars (Qf c vs b) occ.
Proof.
  intros Hc Hv [Hd Hcp].
  assert (K : forall D (I : interp D) (e e' : env D), agree vars occ e e' ->
             sem I e (Qf c vs b) -> sem I e' (Qf c vs b)).
  { intros D I e e' A.
    assert (K : forall e1, avariant vs e' e1 -> agree vars' occ (upd vs e1 e) e1).
    { intros e1 V a Ha. destruct (in_dec atom_eq_dec a vs) as [Hin|Hin]; [apply upd_in; auto|].
      rewrite upd_out by auto. rewrite (proj2 (V a) Hin). apply A. rewrite Hv in Ha. tauto. }
    destruct Hc as [-> | ->].
    - rewrite !sem_all. intros H e1 V. apply (Hd D I (upd vs e1 e) e1); [auto|].
      apply H. apply upd_variant. intros a Ha. apply V; auto.
    - rewrite !sem_ex. intros (e1 & V & H). exists (upd vs e1 e'). split; [apply upd_variant; intros a Ha; apply V; auto|].
      apply (Hd D I e1 (upd vs e1 e')); auto.
      intros a Ha. destruct (in_dec atom_eq_dec a vs) as [Hin|Hin]; [rewrite upd_in; auto|].
      rewrite upd_out by auto. rewrite (proj2 (V a) Hin). apply A. rewrite Hv in Ha. tauto. }
  split; [intros D I e e' A; split; apply K; auto; apply agree_sym; auto|].
  intros a Ha Hin. rewrite fargs_q in Hin by auto. destruct Hin as [Hin Hn]. apply Hcp; auto. apply Hv; auto.
Qed.

Lemma dep_args h vars occ args : sym h -> Forall (fun x => tm_dep vars x occ) args -> sem_dep vars (Sl (Sa h :: args)) occ.
Proof.
  intros Hh F. split; [intros D I e e' A|intros a Ha Hin; destruct h; [destruct Hh|];
    rewrite fargs_app in Hin by exact Logic.I; apply in_flat_map in Hin as (x & Hx & Hin); rewrite Forall_forall in F; apply (F x Hx); auto].
  rewrite !sem_app by auto. rewrite (map_ext_F (tm I e) (tm I e') args); [reflexivity|].
  rewrite Forall_forall in *. intros x Hx. apply (F x Hx); auto.
Qed.
Lemma dep_le vars x o o' : incl o o' -> sem_dep vars x o -> sem_dep vars x o'.
Proof. intros Hi [H C]. split; [|auto]. intros D I e e' A. apply H. eapply agree_le; eauto. Qed.

Lemma nnf2_inv f : nnf true f ->
  literal f \/
  (exists c x y, (c = CAnd \/ c = COr) /\ f = Sl [Sa (Con c); x; y] /\ nnf true x /\ nnf true y) \/
  (exists c vs b, (c = CAll \/ c = CEx) /\ f = Qf c vs b /\ Forall sym vs /\ nnf true b).
Proof.
  intro N. inversion N as [? L|c args Hc Ha F|c vs b Hc Hsy Nb]; subst; auto.
  - right; left. destruct args as [|x [|y [|z r]]]; cbn in Ha; try discriminate. inversion F as [|? ? F1 F2]; inversion F2; subst. exists c, x, y. auto.
  - right; right. exists c, vs, b. auto.
Qed.

Lemma dep_none f : sem_dep [] f [].
Proof.
  assert (TE : forall t D (I : interp D) (e e' : env D), (forall a, e a = e' a) -> tm I e t = tm I e' t).
  { induction t as [a|l IH] using sx_ind2; intros D I e e' H; [cbn; rewrite H; reflexivity|].
    destruct l as [|[h|?] args]; try reflexivity. cbn. f_equal. apply map_ext_F. inversion IH as [|? ? _ IH1]; subst.
    eapply Forall_impl; [|exact IH1]. cbn; auto. }
  assert (K : forall f D (I : interp D) (e e' : env D), (forall a, e a = e' a) -> (sem I e f <-> sem I e' f)).
  { clear f. induction f as [a|l IH] using sx_ind2; intros D I e e' H; [reflexivity|].
    destruct l as [|[h|k] args]; [reflexivity| |].
    - destruct h as [c|ty s].
      + inversion IH as [|? ? _ IH1]; subst. destruct c.
        * destruct args as [|x [|y r]]; try reflexivity. rewrite !sem_not. inversion IH1; subst. rewrite (H2 D I e e' H). reflexivity.
        * rewrite !sem_and. rewrite !Forall_forall. rewrite Forall_forall in IH1.
          split; intros F x Hx; apply (IH1 x Hx D I e e' H); auto.
        * rewrite !sem_or. rewrite !Exists_exists. rewrite Forall_forall in IH1.
          split; intros (x & Hx & F); exists x; split; auto; apply (IH1 x Hx D I e e' H); auto.
        * rewrite !sem_imp. clear IH. induction IH1 as [|x r Hx Hr IHr]; [reflexivity|].
          destruct r as [|y r]; [apply Hx; auto|].
          change (imp_chain I e (x :: y :: r)) with (sem I e x -> imp_chain I e (y :: r)).
          change (imp_chain I e' (x :: y :: r)) with (sem I e' x -> imp_chain I e' (y :: r)).
          rewrite IHr, (Hx D I e e' H). reflexivity.
        * destruct args as [|x [|y [|z r]]]; try reflexivity. inversion IH1 as [|? ? H1 H2]; inversion H2 as [|? ? H4 _]; subst.
          cbn. rewrite (H1 D I e e' H), (H4 D I e e' H). reflexivity.
        * destruct args as [|[?|vs] [|b [|z r]]]; try reflexivity.
          cbn. split; intros F e1 V; apply F; intro a; specialize (V a); rewrite H in *; auto.
        * destruct args as [|[?|vs] [|b [|z r]]]; try reflexivity.
          cbn. split; intros (e1 & V & F); exists e1; split; auto; intro a; specialize (V a); rewrite H in *; auto.
      + rewrite !sem_app by exact Logic.I. rewrite (map_ext_F (tm I e) (tm I e') args); [reflexivity|].
        apply Forall_forall. auto.
    - destruct args; [|reflexivity]. inversion IH as [|? ? H1 _]; subst. destruct k as [|k]; cbn in *.
      reflexivity. apply (H1 D I e e' H). }
  split; [intros D I e e' A; apply K; intro a; apply A; auto|intros a []].
Qed.

Lemma fo_formula f : nnf true f -> forall vars, goodv vars ->
  (forall a, In a (syms f) -> S a) -> (forall b, In b (binders f) -> B b) ->
  exists occ, freeoccs vars f = Some occ /\ incl occ vars /\ sem_dep vars f occ.
Proof.
  induction f as [a|l IH] using sx_ind2; intros N vars Hg Hs Hb.
  - destruct vars as [|v vars].
    { exists []. rewrite fo_nil. split; [reflexivity|]. split; [apply incl_refl|]. apply dep_none. }
    cbn [freeoccs]. destruct (in_vars (v :: vars) a) eqn:E; eexists; (split; [reflexivity|]).
    + assert (S a). { apply Hs. inversion N as [? L| |]; subst. inversion L as [? A|]; subst. inversion A as [? Ha|]; subst. destruct a; [destruct Ha|left; auto]. }
      apply in_vars_spec in E; eauto. split; [intros b [<-|[]]; auto|]. split; [intros D I e e' _; reflexivity|intros ? _ []].
    + split; [intros b []|]. split; [intros D I e e' _; reflexivity|intros ? _ []].
  - destruct vars as [|v vars].
    { exists []. rewrite fo_nil. split; [reflexivity|]. split; [apply incl_refl|]. apply dep_none. }
    assert (LIT : forall f, atomic f -> (forall a, In a (syms f) -> S a) ->
      exists occ, freeoccs (v :: vars) f = Some occ /\ incl occ (v :: vars) /\ sem_dep (v :: vars) f occ).
    { clear - Hg SB. intros f A Hs. inversion A as [a Ha|h args Hh Hargs]; subst.
      - destruct (fo_term (v :: vars) (Sa a)) as (o & E & Hi & _); auto.
        exists o. split; [auto|]. split; [auto|]. split; [intros D I e e' _; reflexivity|intros ? _ []].
      - destruct (fo_args (v :: vars) h args) as (occ & E & Hi & F); auto.
        { apply Hs. destruct h; [destruct Hh|left; auto]. }
        { rewrite Forall_forall in *. intros x Hx. apply fo_term; auto.
          intros b Hb. apply Hs. cbn. apply in_or_app. right. eapply in_flat_syms; eauto. }
        exists occ. split; [auto|]. split; [auto|]. apply dep_args; auto. }
    destruct (nnf2_inv _ N) as [L|[(c & x & y & Hc & E & Nx & Ny)|(c & vs & b & Hc & E & Hsy & Nb)]].
    + inversion L as [? A|g A]; subst; [apply LIT; auto|].
      destruct (LIT g A) as (o & E & Hi & T). { intros a Ha. apply Hs. cbn. rewrite app_nil_r. auto. }
      rewrite fo_conn by auto. cbn [occs_list]. rewrite E.
      exists o. split; [unfold add_occs; destruct o; reflexivity|]. split; [auto|].
      split.
      * intros D I e e' A'. rewrite !sem_not. rewrite (proj1 T D I e e' A'). reflexivity.
      * intros a Ha Hin. apply T; auto. cbn in Hin. rewrite app_nil_r in Hin. exact Hin.
    + injection E as ->. inversion IH as [|? ? _ IH1]; inversion IH1 as [|? ? IH2 IH3]; inversion IH3 as [|? ? IH4 _]; subst.
      rewrite fo_conn by (destruct Hc as [-> | ->]; auto).
      destruct (occs_list_ok (v :: vars) (sem_dep (v :: vars)) [x; y] Hg (dep_le (v :: vars))) with (acc := @nil atom)
        as (occ & E & Hi & _ & F).
      * assert (HSx : forall a, In a (syms x) \/ In a (syms y) -> S a).
        { intros a Ha. apply Hs. destruct Hc as [-> | ->]; cbn; rewrite app_nil_r; apply in_or_app; auto. }
        assert (HBx : forall a, In a (binders x) \/ In a (binders y) -> B a).
        { intros a Ha. apply Hb. destruct Hc as [-> | ->]; cbn; rewrite app_nil_r; apply in_or_app; auto. }
        constructor; [apply IH2; auto|constructor; [apply IH4; auto|constructor]].
      * intros a [].
      * exists occ. split; [auto|]. split; [auto|]. inversion F as [|? ? F1 F2]; inversion F2 as [|? ? F3 _]; subst.
        split.
        -- intros D I e e' A. apply proj1 in F1. apply proj1 in F3. specialize (F1 D I e e' A). specialize (F3 D I e e' A).
           destruct Hc as [-> | ->]; [rewrite !sem_and2|rewrite !sem_or2]; tauto.
        -- intros a Ha Hin. rewrite fargs_2 in Hin by auto. apply in_app_or in Hin as [Hin|Hin]; [apply F1|apply F3]; auto.
    + unfold Qf in E. injection E as ->. inversion IH as [|? ? _ IH1]; inversion IH1 as [|? ? IH2 IH3]; inversion IH3 as [|? ? IH4 _]; subst.
      assert (HBv : forall w, In w vs -> B w).
      { intros w Hw. apply Hb. rewrite binders_q by auto. apply in_or_app; left; auto. }
      change (Sl [Sa (Con c); Sl (map Sa vs); b]) with (Qf c vs b). rewrite fo_q by auto.
      destruct (IH4 Nb (vars_subset (v :: vars) vs)) as (occ & E & Hi & T); auto.
      * intros w Hw. apply vars_subset_spec in Hw; eauto. apply Hg. tauto.
      * intros a Ha. apply Hs. rewrite syms_q by auto. apply in_or_app; auto.
      * intros a Ha. apply Hb. rewrite binders_q by auto. apply in_or_app; auto.
      * exists occ. split; [auto|]. split.
        { intros a Ha. apply Hi in Ha. apply vars_subset_spec in Ha; eauto. tauto. }
        apply (dep_q c vs b (v :: vars) (vars_subset (v :: vars) vs)); auto.
        intro a. apply vars_subset_spec; eauto.
Qed.

(** * Moving one quantifier *)
Lemma some_variant {D} (I : interp D) vs (e : env D) : exists e', avariant vs e e'.
Proof. exists (upd vs (fun _ => Some (cst I (Con CNot))) e). apply upd_variant. discriminate. Qed.
Lemma restrict_1 {D} (I : interp D) vs occ (e e1 : env D) : incl occ vs -> avariant occ e e1 ->
  exists e2, avariant vs e e2 /\ agree vs occ e2 e1.
Proof.
  intros Hi V. exists (upd vs (upd occ e1 (fun _ => Some (cst I (Con CNot)))) e). split.
  - apply upd_variant. intros a Ha. destruct (in_dec atom_eq_dec a occ) as [H|H]; [rewrite upd_in by auto; apply V; auto|].
    rewrite upd_out by auto. discriminate.
  - intros a Ha. destruct (in_dec atom_eq_dec a occ) as [H|H].
    + rewrite !upd_in by auto. reflexivity.
    + destruct Ha as [Ha|Ha]; [|tauto]. rewrite upd_out by auto. symmetry. apply V; auto.
Qed.
Lemma restrict_2 {D} vs occ (e e1 : env D) : incl occ vs -> avariant vs e e1 ->
  exists e2, avariant occ e e2 /\ agree vs occ e2 e1.
Proof.
  intros Hi V. exists (upd occ e1 e). split.
  - apply upd_variant. intros a Ha. apply V; auto.
  - intros a Ha. destruct (in_dec atom_eq_dec a occ) as [H|H].
    + rewrite !upd_in by auto. reflexivity.
    + destruct Ha as [Ha|Ha]; [|tauto]. rewrite upd_out by auto. symmetry. apply V; auto.
Qed.
Lemma q_restrict c vs occ b : c = CAll \/ c = CEx -> incl occ vs -> sem_dep vs b occ ->
  forall D (I : interp D) e, sem I e (Qf c occ b) <-> sem I e (Qf c vs b).
Proof.
  intros Hc Hi [Hd _] D I e. destruct Hc as [-> | ->]; [rewrite !sem_all|rewrite !sem_ex]; split.
  - intros H e1 V. destruct (restrict_2 vs occ e e1 Hi V) as (e2 & V2 & A). apply (Hd D I e2 e1 A); auto.
  - intros H e1 V. destruct (restrict_1 I vs occ e e1 Hi V) as (e2 & V2 & A). apply (Hd D I e2 e1 A); auto.
  - intros (e1 & V & H). destruct (restrict_1 I vs occ e e1 Hi V) as (e2 & V2 & A). exists e2. split; auto. apply (Hd D I e2 e1 A); auto.
  - intros (e1 & V & H). destruct (restrict_2 vs occ e e1 Hi V) as (e2 & V2 & A). exists e2. split; auto. apply (Hd D I e2 e1 A); auto.
Qed.
Lemma q_nil c b : c = CAll \/ c = CEx -> forall D (I : interp D) e, sem I e (Qf c [] b) <-> sem I e b.
Proof.
  intros Hc D I e.
  assert (K : forall e', avariant [] e e' -> (sem I e' b <-> sem I e b)).
  { intros e' V. apply (proj1 (dep_none b)). intros a _. apply V. intros []. }
  assert (V0 : avariant [] e e) by (intro a; split; [intros []|auto]).
  destruct Hc as [-> | ->]; [rewrite sem_all|rewrite sem_ex]; split.
  - intro H. apply H; auto.
  - intros H e' V. apply K; auto.
  - intros (e' & V & H). apply (K e'); auto.
  - intro H. exists e. auto.
Qed.

Definition sub (f' f : sx) : Prop :=
  incl (syms f') (syms f) /\ incl (binders f') (binders f) /\ incl (fargs f') (fargs f) /\ incl (fheads f') (fheads f).
Lemma sub_refl f : sub f f. Proof. repeat split; apply incl_refl. Qed.
Lemma sub_trans f g h : sub f g -> sub g h -> sub f h.
Proof. intros (A & B1 & C & D1) (A' & B' & C' & D'). repeat split; eapply incl_tran; eauto. Qed.
Lemma fheads_q c vs b : c = CAll \/ c = CEx -> fheads (Qf c vs b) = fheads b.
Proof. intros [-> | ->]; reflexivity. Qed.
Lemma fheads_2 c x y : c = CAnd \/ c = COr -> fheads (Sl [Sa (Con c); x; y]) = (fheads x ++ fheads y)%list.
Proof. intros [-> | ->]; cbn; rewrite app_nil_r; reflexivity. Qed.
Lemma syms_2 c x y : syms (Sl [Sa (Con c); x; y]) = (syms x ++ syms y)%list.
Proof. cbn; rewrite app_nil_r; reflexivity. Qed.
Lemma binders_2 c x y : c = CAnd \/ c = COr -> binders (Sl [Sa (Con c); x; y]) = (binders x ++ binders y)%list.
Proof. intros [-> | ->]; cbn; rewrite app_nil_r; reflexivity. Qed.
Lemma sub_q c vs b b' : c = CAll \/ c = CEx -> Forall sym vs -> sub b' b -> sub (Qf c vs b') (Qf c vs b).
Proof.
  intros Hc Hs (A & B1 & C & D1). unfold sub. rewrite !fheads_q by auto. unfold Qf at 1 2 3 4.
  rewrite !syms_q, !binders_q by auto. repeat split; auto.
  - apply incl_app_app; auto using incl_refl.
  - apply incl_app_app; auto using incl_refl.
  - intros a Ha. apply fargs_q in Ha; auto. apply fargs_q; auto. destruct Ha; auto.
Qed.
Lemma sub_2 c x y x' y' : c = CAnd \/ c = COr -> sub x' x -> sub y' y ->
  sub (Sl [Sa (Con c); x'; y']) (Sl [Sa (Con c); x; y]).
Proof.
  intros Hc (A & B1 & C & D1) (A' & B' & C' & D'). unfold sub.
  rewrite !syms_2, !binders_2, !fargs_2, !fheads_2 by auto. repeat split; apply incl_app_app; auto.
Qed.

Definition mkq (c : conn) (occ : list atom) (b : sx) : sx := match occ with [] => b | _ => Qf c occ b end.
Lemma mkq_ok c vs occ b : c = CAll \/ c = CEx -> Forall sym vs -> nnf true b -> incl occ vs -> sem_dep vs b occ ->
  nnf true (mkq c occ b) /\ (forall D (I : interp D) e, sem I e (mkq c occ b) <-> sem I e (Qf c vs b)) /\
  sub (mkq c occ b) (Qf c vs b).
Proof.
  intros Hc Hsy N Hi Hd.
  assert (Ho : Forall sym occ) by (rewrite Forall_forall in *; auto).
  assert (SQ : sub (Qf c occ b) (Qf c vs b)).
  { unfold sub. rewrite !fheads_q by auto. unfold Qf at 1 2 3 4. rewrite !syms_q, !binders_q by auto. repeat split.
    - apply incl_app_app; auto using incl_refl.
    - apply incl_app_app; auto using incl_refl.
    - intros a Ha. apply fargs_q in Ha; auto. apply fargs_q; auto. destruct Ha as [Ha Hn]. split; auto.
      intro Hv. apply Hn. apply Hd; auto.
    - apply incl_refl. }
  destruct occ as [|o r].
  - cbn [mkq]. repeat split; auto.
    + intro H. apply (q_restrict c vs [] b Hc Hi Hd). apply q_nil; auto.
    + intro H. apply (q_restrict c vs [] b Hc Hi Hd) in H. apply q_nil in H; auto.
    + apply (incl_tran (m := syms (Qf c [] b))); [|apply SQ]. unfold Qf. rewrite syms_q by auto. apply incl_refl.
    + apply (incl_tran (m := binders (Qf c [] b))); [|apply SQ]. unfold Qf. rewrite binders_q by auto. apply incl_refl.
    + apply (incl_tran (m := fargs (Qf c [] b))); [|apply SQ]. intros a Ha. apply fargs_q; auto.
    + rewrite fheads_q by auto. apply incl_refl.
  - unfold mkq. split; [apply N_q; auto|]. split; [|exact SQ]. intros. apply q_restrict; auto.
Qed.

Lemma q_split c o vs x y : (c = CAll /\ o = CAnd) \/ (c = CEx /\ o = COr) -> forall D (I : interp D) e,
  sem I e (Sl [Sa (Con o); Qf c vs x; Qf c vs y]) <-> sem I e (Qf c vs (Sl [Sa (Con o); x; y])).
Proof.
  intros [[-> ->]|[-> ->]] D I e.
  - rewrite sem_and2, !sem_all. setoid_rewrite sem_and2. firstorder.
  - rewrite sem_or2, !sem_ex. setoid_rewrite sem_or2. firstorder.
Qed.
Lemma q_out c o vs x y : c = CAll \/ c = CEx -> o = CAnd \/ o = COr -> sem_dep vs x [] -> forall D (I : interp D) e,
  (sem I e (Sl [Sa (Con o); Qf c vs x; Qf c vs y]) <-> sem I e (Qf c vs (Sl [Sa (Con o); x; y]))) /\
  (sem I e (Sl [Sa (Con o); Qf c vs y; Qf c vs x]) <-> sem I e (Qf c vs (Sl [Sa (Con o); y; x]))).
Proof.
  intros Hc Ho [Hd _] D I e.
  assert (K : forall e', avariant vs e e' -> (sem I e' x <-> sem I e x)).
  { intros e' V. apply Hd. intros a [Ha|[]]. apply V; auto. }
  destruct (some_variant I vs e) as [e0 V0].
  assert (Q : sem I e (Qf c vs x) <-> sem I e x).
  { destruct Hc as [-> | ->]; [rewrite sem_all|rewrite sem_ex]; split.
    - intro H. apply (K e0 V0). auto.
    - intros H e' V. apply K; auto.
    - intros (e' & V & H). apply (K e'); auto.
    - intro H. exists e0. split; auto. apply K; auto. }
  destruct Hc as [-> | ->], Ho as [-> | ->].
  - split; apply q_split; auto.
  - rewrite !sem_or2, Q, !sem_all. setoid_rewrite sem_or2. split.
    + split; [intros [H|H] e' V; [left; apply K; auto|right; auto]|].
      intro H. destruct (classic (sem I e x)) as [X|X]; auto. right. intros e' V. destruct (H e' V) as [Y|Y]; auto.
      apply K in Y; tauto.
    + split; [intros [H|H] e' V; [left; auto|right; apply K; auto]|].
      intro H. destruct (classic (sem I e x)) as [X|X]; auto. left. intros e' V. destruct (H e' V) as [Y|Y]; auto.
      apply K in Y; tauto.
  - rewrite !sem_and2, Q, !sem_ex. setoid_rewrite sem_and2. split.
    + split; [intros (H & e' & V & Y); exists e'; rewrite (K e' V); auto|].
      intros (e' & V & H & Y). rewrite (K e' V) in H. eauto.
    + split; [intros ((e' & V & Y) & H); exists e'; rewrite (K e' V); auto|].
      intros (e' & V & Y & H). rewrite (K e' V) in H. eauto.
  - split; apply q_split; auto.
Qed.

Lemma scope_and c vs o x y o1 o2 : o = CAnd \/ o = COr ->
  freeoccs vs x = Some o1 -> freeoccs vs y = Some o2 ->
  scope_in c (Sl (map Sa vs)) (Sl [Sa (Con o); x; y]) =
  Some (match o1, o2 with
        | _ :: _, _ :: _ =>
            if match o, c with CAnd, CAll | COr, CEx => true | _, _ => false end
            then Sl [Sa (Con o); Qf c o1 x; Qf c o2 y]
            else Qf c (add_occs o1 o2) (Sl [Sa (Con o); x; y])
        | _, _ => Sl [Sa (Con o); mkq c o1 x; mkq c o2 y]
        end).
Proof.
  intros Ho E1 E2. unfold scope_in. cbn [var_list]. rewrite atoms_of_map.
  destruct Ho as [-> | ->]; rewrite E1, E2; destruct o1, o2; try reflexivity; destruct c; reflexivity.
Qed.
Lemma scope_other c vs h args occ : h <> Sa (Con CAnd) -> h <> Sa (Con COr) ->
  freeoccs vs (Sl (h :: args)) = Some occ ->
  scope_in c (Sl (map Sa vs)) (Sl (h :: args)) = Some (mkq c occ (Sl (h :: args))).
Proof.
  intros H1 H2 E. unfold scope_in. cbn [var_list]. rewrite atoms_of_map, E.
  destruct h as [[k|? ?]|?]; [destruct k; try congruence| |]; destruct occ; reflexivity.
Qed.

Lemma scope_ok c vs b : c = CAll \/ c = CEx -> Forall sym vs -> goodv vs -> nnf true b ->
  (forall a, In a (syms b) -> S a) -> (forall a, In a (binders b) -> B a) ->
  exists f', scope_in c (Sl (map Sa vs)) b = Some f' /\ nnf true f' /\
    (forall D (I : interp D) e, sem I e f' <-> sem I e (Qf c vs b)) /\ sub f' (Qf c vs b).
Proof.
  intros Hc Hsy Hg N Hs Hb. destruct b as [a|[|h args]].
  - exists (Sa a). split; [reflexivity|]. apply (mkq_ok c vs [] (Sa a)); auto.
    + intros x [].
    + split; [reflexivity|intros ? _ []].
  - exfalso. destruct (nnf2_inv _ N) as [L|[(c' & x & y & _ & E & _)|(c' & vs' & b & _ & E & _)]]; try discriminate.
    inversion L as [? A|]; subst. inversion A.
  - destruct (nnf2_inv _ N) as [L|[(o & x & y & Ho & E & Nx & Ny)|(c' & vs' & b & Hc' & E & _)]].
    + destruct (fo_formula _ N vs Hg Hs Hb) as (occ & E & Hi & Hd).
      exists (mkq c occ (Sl (h :: args))). split; [|apply mkq_ok; auto].
      apply scope_other; auto; intros ->; inversion L as [? A|]; subst; inversion A; subst; auto.
    + injection E as -> ->.
      assert (HSx : forall a, In a (syms x) \/ In a (syms y) -> S a).
      { intros a Ha. apply Hs. rewrite syms_2. apply in_or_app; auto. }
      assert (HBx : forall a, In a (binders x) \/ In a (binders y) -> B a).
      { intros a Ha. apply Hb. rewrite binders_2 by auto. apply in_or_app; auto. }
      destruct (fo_formula _ Nx vs Hg) as (o1 & E1 & Hi1 & Hd1); auto.
      destruct (fo_formula _ Ny vs Hg) as (o2 & E2 & Hi2 & Hd2); auto.
      destruct (mkq_ok c vs o1 x) as (N1 & S1 & B1); auto.
      destruct (mkq_ok c vs o2 y) as (N2 & S2 & B2); auto.
      assert (SPL : (o1 = [] \/ o2 = [] \/ (c = CAll /\ o = CAnd) \/ (c = CEx /\ o = COr)) ->
        nnf true (Sl [Sa (Con o); mkq c o1 x; mkq c o2 y]) /\
        (forall D (I : interp D) e, sem I e (Sl [Sa (Con o); mkq c o1 x; mkq c o2 y]) <->
            sem I e (Qf c vs (Sl [Sa (Con o); x; y]))) /\
        sub (Sl [Sa (Con o); mkq c o1 x; mkq c o2 y]) (Qf c vs (Sl [Sa (Con o); x; y]))).
      { intro Hcase. split; [apply N_many; auto; reflexivity|]. split.
        - intros D I e.
          assert (T : sem I e (Sl [Sa (Con o); mkq c o1 x; mkq c o2 y]) <-> sem I e (Sl [Sa (Con o); Qf c vs x; Qf c vs y])).
          { specialize (S1 D I e). specialize (S2 D I e). destruct Ho as [-> | ->]; [rewrite !sem_and2|rewrite !sem_or2]; tauto. }
          rewrite T. destruct Hcase as [->|[->|H]].
          + apply (q_out c o vs x y); auto.
          + apply (q_out c o vs y x); auto.
          + apply q_split; auto.
        - apply (sub_trans _ (Sl [Sa (Con o); Qf c vs x; Qf c vs y])); [apply sub_2; auto|].
          repeat split.
          + intros a. rewrite syms_2. unfold Qf. rewrite !syms_q, syms_2 by auto. rewrite !in_app_iff. tauto.
          + intros a. rewrite binders_2 by auto. unfold Qf. rewrite !binders_q, binders_2 by auto. rewrite !in_app_iff. tauto.
          + intros a. rewrite fargs_2 by auto. rewrite in_app_iff, !fargs_q, fargs_2, in_app_iff by auto. tauto.
          + rewrite fheads_2, !fheads_q, fheads_2 by auto. apply incl_refl. }
      rewrite (scope_and c vs o x y o1 o2 Ho E1 E2). eexists. split; [reflexivity|].
      destruct o1 as [|v1 r1]; [apply SPL; auto|]. destruct o2 as [|v2 r2]; [apply SPL; auto|].
      destruct (match o, c with CAnd, CAll | COr, CEx => true | _, _ => false end) eqn:M.
      * apply SPL. destruct Hc as [-> | ->], Ho as [-> | ->]; try discriminate M; auto 6.
      * assert (HA : forall a, In a (add_occs (v1 :: r1) (v2 :: r2)) <-> In a (v1 :: r1) \/ In a (v2 :: r2)).
        { intro a. apply add_occs_spec; intros v Hv; apply Hg; auto. }
        assert (K : mkq c (add_occs (v1 :: r1) (v2 :: r2)) (Sl [Sa (Con o); x; y]) = Qf c (add_occs (v1 :: r1) (v2 :: r2)) (Sl [Sa (Con o); x; y])).
        { unfold mkq. destruct (add_occs (v1 :: r1) (v2 :: r2)) eqn:EA; [|reflexivity]. exfalso. apply (HA v1). left; left; auto. }
        rewrite <- K. apply mkq_ok; auto.
        -- intros a Ha. apply HA in Ha as [Ha|Ha]; auto.
        -- split.
           ++ intros D I e e' A.
              assert (A1 : agree vs (v1 :: r1) e e') by (eapply agree_le; [|exact A]; intros a Ha; apply HA; auto).
              assert (A2 : agree vs (v2 :: r2) e e') by (eapply agree_le; [|exact A]; intros a Ha; apply HA; auto).
              apply (proj1 Hd1 D I) in A1. apply (proj1 Hd2 D I) in A2.
              destruct Ho as [-> | ->]; [rewrite !sem_and2|rewrite !sem_or2]; tauto.
           ++ intros a Ha Hin. rewrite fargs_2 in Hin by auto. apply HA. apply in_app_or in Hin as [Hin|Hin]; [left; apply Hd1|right; apply Hd2]; auto.
    + injection E as -> ->. destruct (fo_formula _ N vs Hg Hs Hb) as (occ & E & Hi & Hd).
      exists (mkq c occ (Sl [Sa (Con c'); Sl (map Sa vs'); b])). split; [|apply mkq_ok; auto].
      apply scope_other; auto; intro H; destruct Hc' as [-> | ->]; discriminate H.
Qed.

Lemma miniscope_ok f : nnf true f ->
  (forall a, In a (syms f) -> S a) -> (forall a, In a (binders f) -> B a) ->
  exists f', miniscope f = Some f' /\ nnf true f' /\
    (forall D (I : interp D) e, sem I e f' <-> sem I e f) /\ sub f' f.
Proof.
  induction f as [a|l IH] using sx_ind2; intros N Hs Hb.
  - exists (Sa a). split; [reflexivity|]. split; [auto|]. split; [reflexivity|apply sub_refl].
  - destruct (nnf2_inv _ N) as [L|[(o & x & y & Ho & E & Nx & Ny)|(c & vs & b & Hc & E & Hsy & Nb)]].
    + exists (Sl l). split; [|split; [auto|split; [reflexivity|apply sub_refl]]].
      inversion L as [? A|]; subst; [|reflexivity]. inversion A as [|h args Hh _]; subst. destruct h; [destruct Hh|]. destruct args; reflexivity.
    + injection E as ->. inversion IH as [|? ? _ IH1]; inversion IH1 as [|? ? IH2 IH3]; inversion IH3 as [|? ? IH4 _]; subst.
      rewrite syms_2 in Hs. rewrite binders_2 in Hb by auto. setoid_rewrite in_app_iff in Hs. setoid_rewrite in_app_iff in Hb.
      destruct IH2 as (x' & E1 & N1 & S1 & B1); auto. destruct IH4 as (y' & E2 & N2 & S2 & B2); auto.
      exists (Sl [Sa (Con o); x'; y']). split; [destruct Ho as [-> | ->]; cbn; rewrite E1, E2; reflexivity|].
      split; [apply N_many; auto; reflexivity|]. split; [|apply sub_2; auto].
      intros D I e. specialize (S1 D I e). specialize (S2 D I e). destruct Ho as [-> | ->]; [rewrite !sem_and2|rewrite !sem_or2]; tauto.
    + unfold Qf in E. injection E as ->. inversion IH as [|? ? _ IH1]; inversion IH1 as [|? ? IH2 IH3]; inversion IH3 as [|? ? IH4 _]; subst.
      rewrite syms_q in Hs by auto. rewrite binders_q in Hb by auto. setoid_rewrite in_app_iff in Hs. setoid_rewrite in_app_iff in Hb.
      destruct IH4 as (b' & E1 & N1 & S1 & B1); auto.
      destruct (scope_ok c vs b') as (f' & E2 & N2 & S2 & B2); auto.
      * intros v Hv. split; auto.
      * intros a Ha. apply Hs. right. apply B1; auto.
      * intros a Ha. apply Hb. right. apply B1; auto.
      * exists f'. split; [destruct Hc as [-> | ->]; cbn [miniscope]; rewrite E1; exact E2|]. split; [auto|]. split.
        -- intros D I e. rewrite S2. change (Sl [Sa (Con c); Sl (map Sa vs); b]) with (Qf c vs b).
           destruct Hc as [-> | ->]; [rewrite !sem_all; setoid_rewrite S1; reflexivity|rewrite !sem_ex; setoid_rewrite S1; reflexivity].
        -- eapply sub_trans; [exact B2|]. apply sub_q; auto.
Qed.
End Names.

Lemma miniscope_main f : nnf true f -> spelling_ok f ->
  exists f', miniscope f = Some f' /\ nnf true f' /\ (forall D (I : interp D) e, sem I e f' <-> sem I e f) /\ sub f' f.
Proof.
  intros N Hsp. apply (miniscope_ok (fun a => In a (syms f)) (fun b => In b (binders f))); auto.
Qed.

(** * Negation pushing brings no new names *)
Lemma sub_not1 f f' : sub f' f -> sub (Sl [Sa (Con CNot); f']) f.
Proof. intros (A & B & C & D). unfold sub. cbn. rewrite !app_nil_r. auto. Qed.
Lemma sub_not2 f f' : sub f' f -> sub f' (Sl [Sa (Con CNot); f]).
Proof. intros (A & B & C & D). unfold sub. cbn. rewrite !app_nil_r. auto. Qed.
Definition is2 c := c = CAnd \/ c = COr \/ c = CImp \/ c = CEqv.
Lemma sub_pair c c' x y x' y' x2 y2 : is2 c -> is2 c' -> sub x' x \/ sub x' y -> sub y' y \/ sub y' x ->
  (x2 = x' /\ y2 = y') \/ (x2 = y' /\ y2 = x') ->
  sub (Sl [Sa (Con c'); x2; y2]) (Sl [Sa (Con c); x; y]).
Proof.
  intros Hc Hc' H1 H2 H3.
  assert (K : forall c u v, is2 c -> syms (Sl [Sa (Con c); u; v]) = (syms u ++ syms v)%list /\
    binders (Sl [Sa (Con c); u; v]) = (binders u ++ binders v)%list /\
    fargs (Sl [Sa (Con c); u; v]) = (fargs u ++ fargs v)%list /\
    fheads (Sl [Sa (Con c); u; v]) = (fheads u ++ fheads v)%list).
  { intros k u v [->|[->|[->| ->]]]; cbn; rewrite !app_nil_r; auto. }
  destruct (K c x y Hc) as (A1 & A2 & A3 & A4). destruct (K c' x2 y2 Hc') as (B1 & B2 & B3 & B4).
  unfold sub. rewrite A1, A2, A3, A4, B1, B2, B3, B4. unfold sub, incl in *.
  repeat split; intro a; rewrite !in_app_iff; 
    destruct H1 as [(?&?&?&?)|(?&?&?&?)], H2 as [(?&?&?&?)|(?&?&?&?)], H3 as [[-> ->]|[-> ->]]; intros [Ka|Ka]; auto.
Qed.
Lemma negpush_sub f : wff true f -> forall s f', negpush f s = Some f' -> sub f' f.
Proof.
  induction f as [a|l IH] using sx_ind2; intros W s f' E.
  - cbn in E. injection E as <-. destruct s; [|apply sub_not1]; apply sub_refl.
  - inversion W as [? A|? W1|? W1|c args Hc Ha W1|? ? W1 W2|c vs ? Hc Hv Hsy W1]; subst.
    + destruct A as [|a args Hh _]; [cbn in E; injection E as <-; destruct s; [|apply sub_not1]; apply sub_refl|].
      destruct a; [destruct Hh|].
      assert (f' = if s then Sl (Sa (Sym t s0) :: args) else mk_not (Sl (Sa (Sym t s0) :: args))) as -> by (destruct args; cbn in E; congruence).
      destruct s; [|apply sub_not1]; apply sub_refl.
    + inversion IH as [|? ? IH1 _]; subst.
      assert (l0 <> []) by (intros ->; inversion W1; subst; inversion H).
      destruct l0 as [|x l0]; [congruence|]. specialize (IH1 W1 s f' E). destruct IH1 as (A & B & C & D).
      unfold sub. cbn [syms flat_map binders fargs fheads] in *. rewrite !app_nil_r. auto.
    + inversion IH as [|? ? _ IH0]; inversion IH0 as [|? ? IH1 _]; subst. specialize (IH1 W1). cbn in E.
      destruct (is_lit_body f); [injection E as <-; destruct s; [apply sub_refl|apply sub_not2, sub_refl]|].
      apply sub_not2. eauto.
    + destruct args as [|x [|y [|z r]]]; cbn in Ha; try discriminate.
      inversion IH as [|? ? _ IH1]; inversion IH1 as [|? ? IH2 IH3]; inversion IH3 as [|? ? IH4 _]; subst.
      inversion W1 as [|? ? Wx W3]; inversion W3 as [|? ? Wy _]; subst. specialize (IH2 Wx). specialize (IH4 Wy).
      assert (exists c' x' y' s1 s2, is2 c' /\ negpush x s1 = Some x' /\ negpush y s2 = Some y' /\ f' = Sl [Sa (Con c'); y'; x'])
        as (c' & x' & y' & s1 & s2 & Hc' & Ex & Ey & ->).
      { destruct Hc as [->|[->| ->]].
        - rewrite np_many in E by auto. cbn [push_all] in E. destruct (negpush x s) as [x'|] eqn:Ex; [|discriminate].
          destruct (negpush y s) as [y'|] eqn:Ey; [|discriminate]. injection E as <-. exists (dual_q s CAnd), x', y', s, s.
          repeat split; auto. unfold is2; destruct s; cbn; auto.
        - rewrite np_many in E by auto. cbn [push_all] in E. destruct (negpush x s) as [x'|] eqn:Ex; [|discriminate].
          destruct (negpush y s) as [y'|] eqn:Ey; [|discriminate]. injection E as <-. exists (dual_q s COr), x', y', s, s.
          repeat split; auto. unfold is2; destruct s; cbn; auto.
        - rewrite np_imp in E. cbn [push_imp] in E. destruct (negpush x (negb s)) as [x'|] eqn:Ex; [|discriminate].
          destruct (negpush y s) as [y'|] eqn:Ey; [|discriminate]. injection E as <-. exists (if s then COr else CAnd), x', y', (negb s), s.
          repeat split; auto. unfold is2; destruct s; cbn; auto. }
      apply (sub_pair c c' x y x' y'); eauto. unfold is2; tauto.
    + inversion IH as [|? ? _ IH1]; inversion IH1 as [|? ? IH2 IH3]; inversion IH3 as [|? ? IH4 _]; subst.
      specialize (IH2 W1). specialize (IH4 W2). cbn in E.
      destruct (negpush f (negb s)) as [r1|] eqn:E1; [|discriminate]. destruct (negpush g s) as [r2|] eqn:E2; [|discriminate].
      destruct (copy_ok f && copy_ok g); [|discriminate]. destruct (negpush f s) as [r3|] eqn:E3; [|discriminate].
      destruct (negpush g (negb s)) as [r4|] eqn:E4; [|discriminate].
      assert (K : forall c, is2 c -> sub (Sl [Sa (Con c); r1; r2]) (Sl [Sa (Con CEqv); f; g]) /\ sub (Sl [Sa (Con c); r3; r4]) (Sl [Sa (Con CEqv); f; g])).
      { intros c Hc. split; [apply (sub_pair CEqv c f g r1 r2)|apply (sub_pair CEqv c f g r3 r4)]; eauto; unfold is2; auto. }
      injection E as <-. 
      assert (K2 : forall c u v w, is2 c -> sub u w -> sub v w -> sub (Sl [Sa (Con c); u; v]) w).
      { intros c u v w Hc (A & B & C & D) (A' & B' & C' & D'). unfold sub.
        destruct Hc as [->|[->|[->| ->]]]; cbn; rewrite !app_nil_r; repeat split; apply incl_app; auto. }
      destruct s; apply K2; try apply K; unfold is2; auto.
    + inversion IH as [|? ? _ IH1]; inversion IH1 as [|? ? IH2 IH3]; inversion IH3 as [|? ? IH4 _]; subst.
      specialize (IH4 W1). assert (exists b c', negpush f s = Some b /\ (c' = CAll \/ c' = CEx) /\ f' = Qf c' vs b) as (b & c' & Eb & Hc' & ->).
      { destruct Hc as [-> | ->]; cbn in E; destruct (negpush f s) as [b|]; try discriminate; injection E as <-; exists b; eexists; (split; [auto|]);
          (split; [|reflexivity]); destruct s; auto. }
      specialize (IH4 s b Eb). eapply sub_trans; [apply sub_q; [auto|auto|exact IH4]|].
      destruct Hc as [-> | ->], Hc' as [-> | ->]; repeat split; cbn; apply incl_refl.
Qed.
