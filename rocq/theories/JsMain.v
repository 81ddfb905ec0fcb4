(** Every documented formula is read with its meaning *)
From Coq Require Import ZArith Lia Arith String Ascii Bool List.
From Verif Require Import ClausModel ClausSpec JsModel JsSpec JsBase JsTerm JsCore JsRead.
Import ListNotations.
Open Scope string_scope.
Open Scope list_scope.

Fixpoint fsize (f : form) : nat :=
  match f with
  | FNot g | FForall _ g | FExists _ g => S (fsize g)
  | FBin _ g h => S (fsize g + fsize h)
  | FAnd l | FOr l => S (fold_right plus 0 (map fsize l))
  | FIf cs qs => S (fold_right plus 0 (map fsize cs) + fold_right plus 0 (map fsize qs))
  | _ => 1
  end.
Lemma fsize_in f l : In f l -> fsize f <= fold_right plus 0 (map fsize l).
Proof. induction l as [|u r IH]; cbn; [tauto|]. intros [<-|H]; [lia|]. specialize (IH H). lia. Qed.
Lemma legal_in bd l f : fold_right and True (map (legal bd) l) -> In f l -> legal bd f.
Proof. intros H. now apply and_all. Qed.
Lemma keq_not k f : keq k f -> keq (KNot k) (FNot f).
Proof. intros [A B]. split; [intros D w v; cbn; rewrite (A D w v); reflexivity|exact B]. Qed.
Lemma plain_key p : plain p -> same_key p.
Proof.
  intros [C Q]. unfold same_key, stored. cbn [astr].
  destruct (renamed p); [reflexivity|]. cbn [stored_name].
  destruct (String.prefix "#:" p) eqn:E.
  - destruct p as [|a p]; [discriminate|]. unfold should_quote in Q. apply orb_false_iff in Q as [_ Q].
    cbn [has_quote] in Q. cbn [String.prefix] in E. destruct (Ascii.ascii_dec "#" a) as [<-|]; [|discriminate].
    cbn in Q. discriminate.
  - rewrite C, Q. cbn [orb]. destruct (andb true (one_op p)); reflexivity.
Qed.
Lemma plain_neg p : p <> "" -> plain p -> neg_char p = false.
Proof.
  intros N [_ Q]. destruct p as [|a p]; [contradiction|]. unfold should_quote in Q. apply orb_false_iff in Q as [_ Q].
  cbn [has_quote] in Q. apply orb_false_iff in Q as [Q _].
  unfold neg_char. cbn [first_char].
  destruct (Ascii.eqb_spec a "-") as [->|]; [cbn in Q; discriminate|].
  destruct (Ascii.eqb_spec a "~") as [->|]; [cbn in Q; discriminate|]. reflexivity.
Qed.

(** Several formulas at once *)
Definition freads bd (f : form) (j : json) : Prop := exists k, reads bd (raw j) k /\ keq k f.
Lemma freads_all bd fs js : Forall2 spells fs js -> (forall f j, In f fs -> spells f j -> freads bd f j) ->
  exists ks, Forall2 (fun j k => flike (raw j) /\ reads bd (raw j) k) js ks /\ Forall2 keq ks fs.
Proof.
  intros F H. induction F as [|f j fs js S F IH].
  - exists []. split; constructor.
  - destruct (H f j (or_introl eq_refl) S) as (k & R & E).
    destruct IH as (ks & A & B); [intros; apply H; [right|]; assumption|].
    exists (k :: ks). split; constructor; try assumption. split; [eapply raw_flike; exact S|exact R].
Qed.
Lemma Forall2_length {A B} (R : A -> B -> Prop) l m : Forall2 R l m -> List.length l = List.length m.
Proof. induction 1; cbn; congruence. Qed.
Lemma rev_cons {A} (l : list A) : l <> [] -> exists k r, rev l = k :: r.
Proof. intros H. destruct (rev l) as [|k r] eqn:E; [|eauto]. apply (f_equal (@rev A)) in E. rewrite rev_involutive in E. contradiction. Qed.
Lemma rev_same {A} (l : list A) k r : rev l = k :: r -> forall x, In x (k :: r) <-> In x l.
Proof. intros E x. rewrite <- E, <- in_rev. reflexivity. Qed.

(** The equality read in place *)
Lemma reads_eq bd a b ja jb op (neg : bool) : spellsT a ja -> spellsT b jb -> legalT bd a -> legalT bd b ->
  (if neg then In op ["!="; "-="; "~="] else op = "=") ->
  reads bd (raw (JArr [ja; JStr op; jb])) (if neg then KNot (KEq a b) else KEq a b).
Proof.
  intros Sa' Sb La Lb O fv. pose proof (spells_in _ _ Sa') as Ia. pose proof (spells_in _ _ Sb) as Ib.
  destruct (term_read bd a _ La Ia fv 1 ltac:(lia)) as (u & f1 & R1 & O1 & F1).
  destruct (term_read bd b _ Lb Ib f1 2 ltac:(lia)) as (v & f2 & R2 & O2 & F2).
  pose proof (quiet_term bd a _ La Ia) as (A1 & A2 & A3 & A4 & _).
  pose proof (quiet_term bd b _ Lb Ib) as (B1 & B2 & B3 & B4 & _).
  assert (X : op = "=" \/ op = "!=" \/ op = "-=" \/ op = "~=") by (destruct neg; [cbn in O; intuition (subst; auto)|auto]).
  assert (Y : is_str (uri op) "=" = negb neg).
  { destruct neg; [|subst; reflexivity]. cbn in O. destruct O as [<-|[<-|[<-|[]]]]; reflexivity. }
  exists (if neg then mk_not (Sl [atomeq; u; v]) else Sl [uri op; u; v]), f2. split; [|split].
  - eapply runs_S.
    + intros n. rewrite raw_arr. cbn [map]. cbn [aux].
      assert (L : list_logconn None [raw ja; raw (JStr op); raw jb] = Done None).
      { apply logconn_quiet. repeat constructor; [exact A4| |exact B4]. destruct X as [->|[->|[->| ->]]]; reflexivity. }
      rewrite L. cbn [bind]. rewrite A1, !andb_false_r.
      assert (N : nul_uri (raw (JStr op)) = false) by (destruct X as [->|[->|[->| ->]]]; reflexivity). rewrite N.
      assert (Eq : is_eq_op (raw (JStr op)) = true) by (destruct X as [->|[->|[->| ->]]]; reflexivity). rewrite Eq.
      change (raw (JStr op)) with (uri op). rewrite Y. reflexivity.
    + eapply runs_bind; [exact R1|]. cbn beta iota. eapply runs_bind; [exact R2|]. cbn beta iota.
      destruct neg; apply runs_done.
  - destruct neg.
    + apply R_not, R_eq; auto.
    + subst op. apply R_eq; auto.
  - destruct neg; cbn; eapply fvspec_app; eassumption.
Qed.
Lemma reads_atom bd p ts js : name_ok p -> neg_char p = false -> ~ In p bd -> bd_ok bd ->
  fold_right and True (map (legalT bd) ts) -> Forall2 spellsT ts js ->
  reads bd (raw (JArr (JStr p :: js))) (KAtom p ts).
Proof.
  intros N G B Bo L F. pose proof (spells_ins ts js F) as Fi.
  destruct (calm_conn (Sym TUri p)) as (C1 & C2 & C3); [now apply name_calm|].
  intros fv.
  destruct (each_good bd ts _ (terms_read bd ts _ L Fi) 1 fv ltac:(lia)) as (us & fv' & R & O & V).
  exists (Sl (Sa (Sym TAnon p) :: us)), fv'. split; [|split; [|exact V]].
  - eapply runs_S with (h := fun n => term n true 0 bd (raw (JArr (JStr p :: js))) fv).
    + intros n. rewrite raw_arr. cbn [map raw]. apply aux_term; try assumption. eapply outs_quiet; eassumption.
    + eapply runs_S.
      * intros n. rewrite raw_arr. cbn [map raw]. apply term_generic.
        -- eapply terms_first_quiet; eassumption.
        -- reflexivity.
        -- apply N.
        -- intros _. split; [exact G|]. cbn [astr]. intros I. apply name_calm in N as [_ N]. apply N. cbn in *. intuition (subst; auto 40).
        -- cbn [astr]. intros I. apply name_calm in N as [_ N]. apply N. cbn in *. intuition (subst; auto 40).
      * eapply runs_bind with (a := (Sa (Sym TAnon p) :: us, fv')); [|apply runs_done].
        apply each_head; [apply tatom_calm; [exact N|exact B|left; reflexivity]|exact R].
  - apply R_atom; try assumption. left. reflexivity.
Qed.
Lemma neg_out p s : name_ok p -> In s (connectives ++ ["="; "!="; "-="; "~="; "exists"; "all"; "@type"]) -> String "-" p <> s.
Proof.
  intros (N & _ & R & _) I E.
  assert (K : In p ["="] \/ p = "").
  { cbn in I. repeat (destruct I as [<-|I]; [try discriminate; try (injection E as <-; cbn; auto)|]). contradiction. }
  destruct K as [[<-|[]]| ->]; [apply R; cbn; auto 40|contradiction].
Qed.
Lemma reads_neg bd p ts js : name_ok p -> plain p -> ~ In p bd -> bd_ok bd ->
  fold_right and True (map (legalT bd) ts) -> Forall2 spellsT ts js ->
  reads bd (raw (JArr (JStr (String "-" p) :: js))) (KNot (KAtom p ts)).
Proof.
  intros N P B Bo L F. pose proof (spells_ins ts js F) as Fi.
  pose proof (fun s => neg_out p s N) as NO.
  assert (C1 : is_connective (uri (String "-" p)) = false).
  { cbn [uri is_connective is_uri is_anon orb andb astr]. apply mems_out. intros I. apply (NO (String "-" p)); [|reflexivity].
    apply in_or_app. now left. }
  intros fv.
  destruct (each_good bd ts _ (terms_read bd ts _ L Fi) 1 fv ltac:(lia)) as (us & fv' & R & O & V).
  pose proof (terms_first_quiet bd ts _ L Fi) as Q1. pose proof (outs_quiet bd ts _ L Fi) as Q2.
  exists (mk_not (Sl (uri p :: us))), fv'. split; [|split; [|exact V]].
  - eapply runs_S with (h := fun n => term n true 0 bd (raw (JArr (JStr (String "-" p) :: js))) fv).
    + intros n. rewrite raw_arr. cbn [map raw]. apply aux_term; try assumption.
      * reflexivity.
      * cbn [astr]. intros I. cbn in I. repeat (destruct I as [I|I]; [eapply NO; [|symmetry; exact I]; cbn; auto 40|]). contradiction.
    + assert (T : tatom 0 bd (Sym TUri (String "-" p)) fv = Done (Sa (anon (String "-" p)), fv)).
      { rewrite (tatom_name bd fv (Sym TUri (String "-" p)) (String "-" p) 0); [reflexivity|discriminate|reflexivity| | |left; reflexivity].
        - apply NO. cbn. auto 40.
        - intros I. unfold bd_ok in Bo. rewrite Forall_forall in Bo. specialize (Bo _ I). destruct Bo as [Bo|Bo]; cbn in Bo; discriminate. }
      eapply runs_S with (h := fun n => '(ys, fv') <- each_term n bd 0 (uri (String "-" p) :: map raw js) fv ;;
        Done (mk_not (Sl (uri p :: tl ys)), fv')).
      * intros n. rewrite raw_arr. cbn [map raw]. cbn [term andb negb].
        assert (E1 : match map raw js with x1 :: _ => nul_atom x1 | [] => false end = false) by (destruct (map raw js); [reflexivity|apply Q1]).
        assert (E2 : match map raw js with x1 :: _ => is_one x1 ["="; "!="] | [] => false end = false) by (destruct (map raw js); [reflexivity|apply Q1]).
        rewrite E1, E2.
        change (nul_atom (Sa (Sym TUri (String "-" p)))) with false. cbn iota.
        rewrite is_one_sa. cbn [astr].
        assert (E3 : mems (String "-" p) ["="; "!="; "-="; "~="] = false).
        { apply mems_out. intros I. cbn in I. repeat (destruct I as [I|I]; [eapply NO; [|symmetry; exact I]; cbn; auto 40|]). contradiction. }
        rewrite E3. reflexivity.
      * eapply runs_bind with (a := (Sa (anon (String "-" p)) :: us, fv')); [apply each_head; [exact T|exact R]|].
        cbn beta iota. cbn [tl]. apply runs_done.
  - apply R_not. apply R_atom; try assumption.
    + apply plain_neg; [apply N|exact P].
    + right. split; [reflexivity|now apply plain_key].
Qed.

Lemma form_reads : forall n bd f j, fsize f <= n -> bd_ok bd -> legal bd f -> spells f j -> freads bd f j.
Proof.
  induction n as [|n IH]; intros bd f j L Bo G S; [destruct f; cbn in L; lia|].
  inversion S; subst; cbn [legal] in G; cbn [fsize] in L.
  - exists (KTruth b). split; [|split; [intros; reflexivity|reflexivity]].
    replace (raw (JBool b)) with (tf b) by (destruct b; reflexivity). apply rep_reads; [constructor|exact Bo].
  - destruct G as (G1 & G2 & G3 & G4). exists (KAtom p ts). split; [|split; [intros; reflexivity|reflexivity]].
    now apply reads_atom.
  - destruct G as (G1 & G2 & G3 & G4). exists (KNot (KAtom p ts)). split; [|split; [intros; reflexivity|reflexivity]].
    now apply reads_neg.
  - destruct G as [G1 G2]. exists (KEq a b). split; [|split; [intros; reflexivity|reflexivity]].
    exact (reads_eq bd a b ja jb "=" false H H0 G1 G2 eq_refl).
  - destruct G as [G1 G2]. exists (KNot (KEq a b)). split; [|split; [intros; reflexivity|reflexivity]].
    exact (reads_eq bd a b ja jb op true H0 H1 G1 G2 H).
  - destruct (IH bd f0 j0 ltac:(lia) Bo G H0) as (k & R & E). exists (KNot k). split; [|now apply keq_not].
    rewrite raw_arr. cbn [map raw]. apply reads_not; [cbn in *; tauto|reflexivity|eapply flike_quiet, raw_flike; exact H0|exact R].
  - destruct G as [G1 G2].
    destruct (IH bd f0 jf ltac:(lia) Bo G1 H) as (kf & Rf & [Tf Vf]).
    destruct (IH bd g jg ltac:(lia) Bo G2 H0) as (kg & Rg & [Tg Vg]).
    pose proof (raw_flike _ _ H) as Ff. pose proof (raw_flike _ _ H0) as Fg.
    assert (F2 : Forall2 (fun j k => flike (raw j) /\ reads bd (raw j) k) [jf; jg] [kf; kg]).
    { constructor; [split; assumption|]. constructor; [split; assumption|constructor]. }
    assert (X : exists c, translate (op_name o) = Some (Con c) /\ In c [CAnd; COr; CImp; CEqv] /\
      keq (foldc c (negb (negtype (op_name o))) (String.eqb (op_name o) "<=") kg [kf]) (FBin o f0 g)).
    { destruct o;
        [exists CImp|exists CImp|exists CEqv|exists CEqv|exists COr|exists CAnd];
        (split; [reflexivity|split; [cbn; tauto|split; [intros D w v; cbn; rewrite (Tf D w v), (Tg D w v); reflexivity|
          intros y; cbn; rewrite !in_app_iff, (Vf y), (Vg y); tauto]]]). }
    destruct X as (c & T & C & E).
    eexists. split; [|exact E].
    refine (reads_infix bd (op_name o) c [jf; jg] [kf; kg] kg [kf] _ T C _ F2 eq_refl).
    + destruct o; cbn; tauto.
    + cbn. lia.
  - destruct (freads_all bd fs js H1) as (ks & A & B).
    { intros g jg I Sg. apply IH; try assumption; [apply fsize_in in I; lia|eapply legal_in; eassumption]. }
    assert (Lk : List.length js = List.length ks /\ List.length ks = List.length fs)
      by (split; eapply Forall2_length; eassumption).
    destruct (rev_cons ks) as (k & r & E); [intros ->; cbn in Lk; lia|].
    exists (foldc CAnd true false k r). split; [|eapply keq_and; [exact B|now apply rev_same]].
    assert (T : translate op = Some (Con CAnd) /\ negtype op = false /\ String.eqb op "<=" = false /\ In op connectives)
      by (cbn in H; destruct H as [<-|[<-|[]]]; cbn; tauto).
    destruct T as (T1 & T2 & T3 & T4).
    pose proof (reads_infix bd op CAnd js ks k r T4 T1 ltac:(cbn; tauto) ltac:(lia) A E) as R. rewrite T2, T3 in R. exact R.
  - destruct (freads_all bd fs js H1) as (ks & A & B).
    { intros g jg I Sg. apply IH; try assumption; [apply fsize_in in I; lia|eapply legal_in; eassumption]. }
    assert (Lk : List.length js = List.length ks /\ List.length ks = List.length fs)
      by (split; eapply Forall2_length; eassumption).
    destruct (rev_cons ks) as (k & r & E); [intros ->; cbn in Lk; lia|].
    exists (foldc COr true false k r). split; [|eapply keq_or; [exact B|now apply rev_same]].
    assert (T : translate op = Some (Con COr) /\ negtype op = false /\ String.eqb op "<=" = false /\ In op connectives)
      by (cbn in H; destruct H as [<-|[<-|[]]]; cbn; tauto).
    destruct T as (T1 & T2 & T3 & T4).
    pose proof (reads_infix bd op COr js ks k r T4 T1 ltac:(cbn; tauto) ltac:(lia) A E) as R. rewrite T2, T3 in R. exact R.
  - destruct (freads_all bd fs js H0) as (ks & A & B).
    { intros g jg I Sg. apply IH; try assumption; [apply fsize_in in I; lia|eapply legal_in; eassumption]. }
    assert (Nj : js <> []) by (intros ->; inversion H0; subst; contradiction).
    destruct (rev_cons ks) as (k & r & E); [intros ->; inversion A; subst; contradiction|].
    exists (foldc COr true false k r). split; [|eapply keq_or; [exact B|now apply rev_same]].
    apply reads_clause with (ks := ks); try assumption.
    apply Forall_forall. intros x Ix. rewrite Forall_forall in H1. specialize (H1 x Ix).
    destruct (Forall2_in_r _ _ _ _ H0 Ix) as (fx & _ & Sx). apply raw_flike in Sx as [[b Eb]|Sx]; [|exact Sx].
    destruct x as [| | |l]; try contradiction. destruct l; cbn in Eb; [destruct b; discriminate|discriminate].
  - destruct G as [G1 G2].
    destruct (freads_all bd cs jcs H1) as (kc & Ac & Bc).
    { intros g jg I Sg. apply IH; try assumption; [apply fsize_in in I; lia|exact (legal_in bd cs g G1 I)]. }
    destruct (freads_all bd qs jqs H2) as (kq & Aq & Bq).
    { intros g jg I Sg. apply IH; try assumption; [apply fsize_in in I; lia|exact (legal_in bd qs g G2 I)]. }
    destruct kc as [|k1 r1]; [inversion Bc; subst; contradiction|].
    destruct kq as [|k2 r2]; [inversion Bq; subst; contradiction|].
    exists (KBin CImp (foldc CAnd true false k1 r1) (foldc COr true false k2 r2)). split; [now apply reads_if|].
    destruct (keq_and _ _ k1 r1 Bc ltac:(reflexivity)) as [Tc Vc]. destruct (keq_or _ _ k2 r2 Bq ltac:(reflexivity)) as [Tq Vq].
    split.
    + intros D w v. cbn [ctruth truth]. rewrite (Tc D w v), (Tq D w v). reflexivity.
    + intros y. cbn [kvars fvars]. rewrite !in_app_iff, (Vc y), (Vq y). reflexivity.
  - destruct G as (G1 & G2 & G3).
    destruct (IH (vs ++ bd) f0 j0 ltac:(lia) (bd_app vs bd G2 Bo) G3 H) as (k & R & [T V]).
    exists (KQ CAll vs k). split.
    + rewrite raw_arr. cbn [map]. replace (raw (JArr (map JStr vs))) with (Sl (map uri vs)).
      * apply reads_quant; [right; split; reflexivity|reflexivity|exact G1|exact G2|eapply flike_quiet, raw_flike; exact H|exact R].
      * destruct vs as [|v0 vs]; [contradiction|]. cbn. rewrite map_map. reflexivity.
    + split.
      * intros D w v. cbn. split; intros X v' Dv; apply T; apply X; exact Dv.
      * intros y. cbn. rewrite !in_without, (V y). reflexivity.
  - destruct G as (G1 & G2 & G3).
    destruct (IH (vs ++ bd) f0 j0 ltac:(lia) (bd_app vs bd G2 Bo) G3 H) as (k & R & [T V]).
    exists (KQ CEx vs k). split.
    + rewrite raw_arr. cbn [map]. replace (raw (JArr (map JStr vs))) with (Sl (map uri vs)).
      * apply reads_quant; [left; split; reflexivity|reflexivity|exact G1|exact G2|eapply flike_quiet, raw_flike; exact H|exact R].
      * destruct vs as [|v0 vs]; [contradiction|]. cbn. rewrite map_map. reflexivity.
    + split.
      * intros D w v. cbn. split; intros (v' & Dv & X); exists v'; (split; [exact Dv|]); apply T; exact X.
      * intros y. cbn. rewrite !in_without, (V y). reflexivity.
Qed.

(** ** Meaning of the lists left by the reader *)
Definition agree {D} (S : string -> Prop) (e : env D) (v : string -> D) : Prop :=
  (forall x, S x -> e (Sym TUri x) = Some (v x)) /\ (forall a, is_uri a = false -> e a = None).
Lemma renamed_find s : find (fun p => true && String.eqb (fst p) s) synonyms = option_map (fun op => (s, op)) (renamed s).
Proof.
  unfold synonyms, renamed. cbn [find andb fst].
  rewrite !(String.eqb_sym _ s).
  destruct (String.eqb_spec s "$sum") as [->|]; [reflexivity|].
  destruct (String.eqb_spec s "$difference") as [->|]; [reflexivity|].
  destruct (String.eqb_spec s "$product") as [->|]; [reflexivity|].
  destruct (String.eqb_spec s "$quotient") as [->|]; reflexivity.
Qed.
Lemma stored_key head s : stored head (Sym TAnon s) = name_key head s.
Proof.
  unfold stored, name_key. destruct head; [|reflexivity]. rewrite renamed_find. cbn [astr].
  destruct (renamed s); reflexivity.
Qed.
Lemma head_key f a : head_out f a -> stored true a = name_key true f.
Proof. intros [->|[-> K]]; [apply stored_key|]. rewrite <- stored_key. exact K. Qed.
Lemma term_sem {D} (J : stint D) S e v bd : agree S e v -> forall k t u, tsize t <= k -> legalT bd t -> outT t u ->
  (forall x, In x (tvars t) -> S x) -> tm (int_of J) e u = tval (world_of J) v t.
Proof.
  intros [A1 A2]. induction k as [|k IH]; intros t u L G O V; [destruct t; cbn in L; lia|].
  inversion O; subst; cbn [tm tval].
  - rewrite A1 by (apply V; left; reflexivity). reflexivity.
  - rewrite A2 by reflexivity. reflexivity.
  - rewrite A2 by reflexivity. cbn [cst int_of]. cbn in G. rewrite stored_int by exact G. reflexivity.
  - cbn [fn int_of]. rewrite (head_key f a H). cbn [wf world_of]. f_equal.
    cbn in G, L, V. destruct G as (_ & _ & G).
    assert (X : forall t', In t' ts -> tsize t' <= k) by (intros t' I; apply tsize_in in I; lia). clear L O.
    induction H0 as [|t' u' ts' us' R F IHF]; [reflexivity|]. cbn [map]. f_equal.
    + apply IH; [apply X; left; reflexivity|apply G|exact R|]. intros x I. apply V. cbn. apply in_or_app. now left.
    + apply IHF; [|apply G|].
      * intros x I. apply V. cbn. apply in_or_app. now right.
      * intros t'' I. apply X. now right.
Qed.
Lemma terms_sem {D} (J : stint D) S e v bd ts us : agree S e v -> fold_right and True (map (legalT bd) ts) -> Forall2 outT ts us ->
  (forall x, In x (flat_map tvars ts) -> S x) -> map (tm (int_of J) e) us = map (tval (world_of J) v) ts.
Proof.
  intros A G F V. induction F as [|t u ts us R F IH]; [reflexivity|]. cbn in *. f_equal.
  - eapply term_sem with (bd := bd) (k := tsize t); [exact A|lia|apply G|exact R|]. intros x I. apply V, in_or_app. now left.
  - apply IH; [apply G|]. intros x I. apply V, in_or_app. now right.
Qed.
Lemma sem_app {D} (I : interp D) e a us : sym a -> sem I e (Sl (Sa a :: us)) <-> pr I a (map (tm I e) us).
Proof. intros H. destruct a as [c|t s]; [contradiction|]. cbn. destruct us; reflexivity. Qed.
Lemma in_uri x vs : In (Sa (Sym TUri x)) (map uri vs) <-> In x vs.
Proof.
  rewrite in_map_iff. split; [intros (y & E & I); injection E as ->; exact I|intros I; exists x; auto].
Qed.
Lemma not_uri a vs : is_uri a = false -> ~ In (Sa a) (map uri vs).
Proof. intros H I. apply in_map_iff in I as (y & E & _). injection E as <-. discriminate. Qed.
(** Environments and valuations that change together *)
Lemma env_to_val {D} (S : string -> Prop) (e e' : env D) v vs : agree S e v -> variant (map uri vs) e e' ->
  exists v', differ_on vs v v' /\ agree (fun x => In x vs \/ S x) e' v'.
Proof.
  intros [A1 A2] Va.
  exists (fun x => if mems x vs then match e' (Sym TUri x) with Some d => d | None => v x end else v x). split.
  - intros x N. rewrite mems_out by exact N. reflexivity.
  - split.
    + intros x H. destruct (mems x vs) eqn:E.
      * apply mems_in in E. destruct (Va (Sym TUri x)) as [Va1 _]. specialize (Va1 (proj2 (in_uri x vs) E)).
        destruct (e' (Sym TUri x)); [reflexivity|contradiction].
      * assert (N : ~ In x vs) by (intros I; apply mems_in in I; congruence).
        destruct (Va (Sym TUri x)) as [_ Va2]. rewrite Va2 by (rewrite in_uri; exact N).
        apply A1. destruct H; [contradiction|assumption].
    + intros a U. destruct (Va a) as [_ Va2]. rewrite Va2 by (now apply not_uri). now apply A2.
Qed.
Lemma val_to_env {D} (S : string -> Prop) (e : env D) v v' vs : agree S e v -> differ_on vs v v' ->
  exists e', variant (map uri vs) e e' /\ agree (fun x => In x vs \/ S x) e' v'.
Proof.
  intros [A1 A2] Dv.
  exists (fun a => match a with Sym TUri x => if mems x vs then Some (v' x) else e a | _ => e a end). split.
  - intros a. destruct a as [c|[] s]; try (split; [intros I; exfalso; revert I; apply not_uri; reflexivity|reflexivity]).
    rewrite in_uri. destruct (mems s vs) eqn:E.
    + apply mems_in in E. split; [discriminate|contradiction].
    + split; [|reflexivity]. intros I. apply mems_in in I. congruence.
  - split.
    + intros x H. destruct (mems x vs) eqn:E; [reflexivity|].
      assert (N : ~ In x vs) by (intros I; apply mems_in in I; congruence).
      rewrite A1 by (destruct H; [contradiction|assumption]). rewrite Dv by exact N. reflexivity.
    + intros a U. destruct a as [c|[] s]; try (apply A2; exact U). discriminate.
Qed.
Lemma agree_sub {D} (S T : string -> Prop) (e : env D) v : (forall x, T x -> S x) -> agree S e v -> agree T e v.
Proof. intros H [A B]. split; [intros x I; apply A, H, I|exact B]. Qed.
Lemma rep_sem {D} (J : stint D) bd k x : rep bd k x -> forall S e v, agree S e v -> (forall y, In y (kvars k) -> S y) ->
  (sem (int_of J) e x <-> ctruth (world_of J) v k).
Proof.
  induction 1 as [bd b|bd p a ts us N G B A L F|bd h a b u v Hh La Lb Oa Ob|bd k x H IH|bd c k l x y C H IHx H' IHy|bd c vs k x C N V H IH];
    intros Sx e val Ag Sub.
  - destruct b; cbn; intuition discriminate.
  - rewrite sem_app by (destruct A as [->|[-> _]]; exact Logic.I). cbn [pr int_of ctruth].
    rewrite (head_key p a A). rewrite (terms_sem J Sx e val bd ts us Ag L F Sub). reflexivity.
  - rewrite sem_app by (destruct Hh as [->| ->]; exact Logic.I). cbn [pr int_of ctruth].
    assert (K : stored true h = name_key true "=") by (destruct Hh as [->| ->]; reflexivity). rewrite K.
    rewrite (terms_sem J Sx e val bd [a; b] [u; v] Ag); [reflexivity|cbn; tauto|repeat constructor; assumption|].
    intros x I. apply Sub. cbn in *. rewrite app_nil_r in I. exact I.
  - cbn. rewrite (IH Sx e val Ag Sub). reflexivity.
  - cbn in Sub.
    assert (Hx : sem (int_of J) e x <-> ctruth (world_of J) val k) by (apply IHx with (S := Sx); [exact Ag|intros; apply Sub, in_or_app; now left]).
    assert (Hy : sem (int_of J) e y <-> ctruth (world_of J) val l) by (apply IHy with (S := Sx); [exact Ag|intros; apply Sub, in_or_app; now right]).
    cbn in C. destruct C as [<-|[<-|[<-|[<-|[]]]]]; cbn; rewrite Hx, Hy; tauto.
  - assert (Sub' : forall y, In y (kvars k) -> In y vs \/ Sx y).
    { intros y I. destruct (in_dec string_dec y vs) as [Iv|Nv]; [now left|]. right. apply Sub. cbn. rewrite in_without. now split. }
    cbn in C. destruct C as [<-|[<-|[]]]; cbn.
    + split.
      * intros X v' Dv. destruct (val_to_env Sx e val v' vs Ag Dv) as (e' & Va & Ag').
        apply (IH _ e' v' Ag' Sub'). now apply X.
      * intros X e' Va. destruct (env_to_val Sx e e' val vs Ag Va) as (v' & Dv & Ag').
        apply (IH _ e' v' Ag' Sub'). now apply X.
    + split.
      * intros (e' & Va & X). destruct (env_to_val Sx e e' val vs Ag Va) as (v' & Dv & Ag').
        exists v'. split; [exact Dv|]. now apply (IH _ e' v' Ag' Sub').
      * intros (v' & Dv & X). destruct (val_to_env Sx e val v' vs Ag Dv) as (e' & Va & Ag').
        exists e'. split; [exact Va|]. now apply (IH _ e' v' Ag' Sub').
Qed.

(** ** The whole formula *)
Lemma close_sem {D} (I : interp D) (v0 : string -> D) fv x (P : (string -> D) -> Prop) :
  (forall e v, agree (fun y => In y fv) e v -> (sem I e x <-> P v)) ->
  (forall v v', (forall y, In y fv -> v y = v' y) -> (P v <-> P v')) ->
  (sem I none (close fv x) <-> forall v, P v).
Proof.
  intros H K.
  assert (A0 : forall v, agree (D := D) (fun y => In y []) none v) by (intros v; split; [intros y []|reflexivity]).
  destruct fv as [|y0 fv].
  - cbn [close]. split.
    + intros X v. apply (H none v (A0 v)). exact X.
    + intros X. apply (H none v0 (A0 v0)). apply X.
  - cbn [close]. change (sem I none (Sl [Sa (Con CAll); Sl (map (fun s => Sa (Sym TUri s)) (y0 :: fv)); x]))
      with (forall e', variant (map uri (y0 :: fv)) none e' -> sem I e' x).
    split.
    + intros X v.
      destruct (val_to_env (fun y => In y []) none v0 (fun y => if mems y (y0 :: fv) then v y else v0 y) (y0 :: fv) (A0 v0))
        as (e' & Va & Ag).
      * intros y N. rewrite mems_out by exact N. reflexivity.
      * assert (Q : P (fun y => if mems y (y0 :: fv) then v y else v0 y)).
        { apply (H e'); [|now apply X]. eapply agree_sub; [|exact Ag]. intros y I'. now left. }
        revert Q. apply K. intros y I'. rewrite (proj2 (mems_in y _) I'). reflexivity.
    + intros X e' Va. destruct (env_to_val (fun y => In y []) none e' v0 (y0 :: fv) (A0 v0) Va) as (v' & _ & Ag).
      apply (H e' v'); [|apply X]. eapply agree_sub; [|exact Ag]. intros y I'. now left.
Qed.
(** Only the free variables matter *)
Lemma tval_ext {D} (w : world D) v v' : forall k t, tsize t <= k -> (forall y, In y (tvars t) -> v y = v' y) -> tval w v t = tval w v' t.
Proof.
  induction k as [|k IH]; intros t L H; [destruct t; cbn in L; lia|].
  destruct t as [x|c|z|f ts]; cbn; [apply H; left; reflexivity|reflexivity|reflexivity|]. f_equal. cbn in L, H.
  apply map_ext_in. intros t I. apply IH; [apply tsize_in in I; lia|]. intros y Iy. apply H. apply in_flat_map. eauto.
Qed.
Lemma tvals_ext {D} (w : world D) v v' ts : (forall y, In y (flat_map tvars ts) -> v y = v' y) -> map (tval w v) ts = map (tval w v') ts.
Proof.
  intros H. apply map_ext_in. intros t I. apply tval_ext with (k := tsize t); [lia|]. intros y Iy. apply H, in_flat_map. eauto.
Qed.
Lemma ctruth_ext {D} (w : world D) : forall k v v', (forall y, In y (kvars k) -> v y = v' y) -> (ctruth w v k <-> ctruth w v' k).
Proof.
  assert (Q : forall vs k (v v' u : string -> D), (forall y, In y (without vs (kvars k)) -> v y = v' y) -> differ_on vs v u ->
    exists u', differ_on vs v' u' /\ forall y, In y (kvars k) -> u y = u' y).
  { intros vs k v v' u H Dv. exists (fun y => if mems y vs then u y else v' y). split.
    - intros y N. rewrite mems_out by exact N. reflexivity.
    - intros y I. destruct (mems y vs) eqn:E; [reflexivity|].
      assert (N : ~ In y vs) by (intros J; apply mems_in in J; congruence). rewrite Dv by exact N. apply H, in_without. now split. }
  induction k as [b|p ts|a b|k IH|c k IHk l IHl|c vs k IH]; intros v v' H; cbn [ctruth].
  - reflexivity.
  - rewrite (tvals_ext w v v' ts H). reflexivity.
  - cbn in H. rewrite (tval_ext w v v' (tsize a) a), (tval_ext w v v' (tsize b) b); [reflexivity|lia| |lia|];
      intros y I; apply H, in_or_app; auto.
  - rewrite (IH v v' H). reflexivity.
  - cbn in H.
    assert (Hk : ctruth w v k <-> ctruth w v' k) by (apply IHk; intros; apply H, in_or_app; now left).
    assert (Hl : ctruth w v l <-> ctruth w v' l) by (apply IHl; intros; apply H, in_or_app; now right).
    destruct c; rewrite ?Hk, ?Hl; reflexivity.
  - cbn in H. assert (H' : forall y, In y (without vs (kvars k)) -> v' y = v y) by (intros y I; symmetry; now apply H).
    destruct c; try reflexivity; split.
    + intros X u Dv. destruct (Q vs k v' v u H' Dv) as (u' & D' & E). apply (IH u u' E). now apply X.
    + intros X u Dv. destruct (Q vs k v v' u H Dv) as (u' & D' & E). apply (IH u u' E). now apply X.
    + intros (u & Dv & X). destruct (Q vs k v v' u H Dv) as (u' & D' & E). exists u'. split; [exact D'|]. now apply (IH u u' E).
    + intros (u & Dv & X). destruct (Q vs k v' v u H' Dv) as (u' & D' & E). exists u'. split; [exact D'|]. now apply (IH u u' E).
Qed.

Lemma read_main f j : legal [] f -> spells f j -> exists k p fv, runs (fun n => aux n [] (raw j) []) (p, fv) /\
  rep [] k p /\ keq k f /\ (forall y, In y fv <-> In y (fvars f)).
Proof.
  intros L S. destruct (form_reads (fsize f) [] f j ltac:(lia) ltac:(constructor) L S) as (k & R & [T V]).
  destruct (R []) as (p & fv & A & B & C). exists k, p, fv. split; [exact A|]. split; [exact B|]. split; [split; assumption|].
  intros y. rewrite (C y), (V y). cbn. tauto.
Qed.
Lemma closed_sem {D} (J : stint D) (d : D) f k p fv : rep [] k p -> keq k f -> (forall y, In y fv <-> In y (fvars f)) ->
  (sem (int_of J) none (close (rev fv) p) <-> true_in (world_of J) f).
Proof.
  intros R [T V] F. unfold true_in.
  assert (Sub : forall y, In y (kvars k) -> In y (rev fv)) by (intros y I; rewrite <- in_rev, F, <- (V y); exact I).
  rewrite (close_sem (int_of J) (fun _ => d) (rev fv) p (fun v => ctruth (world_of J) v k)).
  - split; intros X v; apply T; apply X.
  - intros e v A. eapply rep_sem; [exact R|exact A|exact Sub].
  - intros v v' E. apply ctruth_ext. intros y I. apply E, Sub, I.
Qed.

(** ** Questions *)
Lemma ans_sem {D} (J : stint D) vs e v : agree (fun y => In y vs) e v ->
  (sem (int_of J) e (Sl (Sa (Sym TUri "$ans") :: map (fun s => Sa (Sym TUri s)) vs)) <-> sp J (KName None "$ans") (map v vs)).
Proof.
  intros [A _]. rewrite sem_app by exact Logic.I. cbn [pr int_of stored].
  replace (map (tm (int_of J) e) (map (fun s => Sa (Sym TUri s)) vs)) with (map v vs); [reflexivity|].
  rewrite map_map. apply map_ext_in. intros y I. cbn. rewrite A by exact I. reflexivity.
Qed.
Lemma truth_ext {D} (w : world D) k f v v' : keq k f -> (forall y, In y (fvars f) -> v y = v' y) -> (truth w v f <-> truth w v' f).
Proof. intros [T V] E. rewrite <- (T D w v), <- (T D w v'). apply ctruth_ext. intros y I. apply E, V, I. Qed.
Lemma question_sem {D} (J : stint D) (d : D) f k p fv : rep [] k p -> keq k f -> (forall y, In y fv <-> In y (fvars f)) ->
  (sem (int_of J) none (close fv (Sl [Sa (Con CImp); p; Sl (Sa (Sym TUri "$ans") :: map (fun s => Sa (Sym TUri s)) fv)])) <->
   forall v, truth (world_of J) v f -> sp J (KName None "$ans") (map v fv)).
Proof.
  intros R K F. pose proof K as [T V].
  apply (close_sem (int_of J) (fun _ => d) fv _ (fun v => truth (world_of J) v f -> sp J (KName None "$ans") (map v fv))).
  - intros e v A. rewrite <- (ans_sem J fv e v A), <- (T D (world_of J) v).
    rewrite <- (rep_sem J [] k p R _ e v A); [reflexivity|]. intros y I. apply F, V, I.
  - intros v v' E. rewrite (truth_ext (world_of J) k f v v' K) by (intros y I; apply E, F, I).
    rewrite (map_ext_in v v' fv) by exact E. reflexivity.
Qed.

(** ** Every interpretation of the names comes from one of the symbols *)
Definition unkey (k : key) : string :=
  match k with KName (Some "#") s => String "#" (String ":" s) | KName _ s => s | _ => "" end.
Lemma unkey_name head s : (head = true -> renamed s = None) -> unkey (name_key head s) = s.
Proof.
  intros H. unfold name_key.
  assert (X : find (fun p => head && String.eqb (fst p) s) synonyms = None)
    by (destruct head; [rewrite renamed_find, H; reflexivity|reflexivity]).
  rewrite X. clear X. destruct (String.prefix "#:" s) eqn:E.
  - destruct s as [|a s]; [discriminate|]. cbn [String.prefix] in E. destruct (ascii_dec "#" a) as [<-|]; [|discriminate].
    destruct s as [|b s]; [discriminate|]. cbn [String.prefix] in E. destruct (ascii_dec ":" b) as [<-|]; [|discriminate]. reflexivity.
  - destruct (head && _); [reflexivity|]. destruct (cap s || should_quote s); reflexivity.
Qed.
Definition world_back {D} (w : world D) : stint D :=
  mkJ (fun k => match k with KInt z => wn w z | _ => wc w (unkey k) end) (fun k => wf w (unkey k)) (fun k => wp w (unkey k)).
Lemma name_key_sc {D} (w : world D) s : sc (world_back w) (name_key false s) = wc w s.
Proof.
  cbn [sc world_back]. rewrite unkey_name by discriminate. unfold name_key. cbn [find synonyms andb].
  destruct (String.prefix "#:" s); [reflexivity|].
  destruct (cap s || should_quote s); reflexivity.
Qed.
Lemma back_heads {D} (w : world D) : respects w -> forall s,
  wf w (unkey (name_key true s)) = wf w s /\ wp w (unkey (name_key true s)) = wp w s.
Proof.
  intros R s. destruct (renamed s) as [op|] eqn:E; [|rewrite unkey_name by (intros _; exact E); split; reflexivity].
  assert (K : name_key true s = KName None op) by (unfold name_key; rewrite renamed_find, E; reflexivity).
  rewrite K. cbn [unkey]. unfold respects in R. rewrite Forall_forall in R.
  assert (I : In (s, op) synonyms).
  { eapply find_some. rewrite renamed_find, E. reflexivity. }
  specialize (R _ I). cbn [fst snd] in R. destruct R as [R1 R2]. split; congruence.
Qed.
Lemma back_tval {D} (w : world D) v : respects w -> forall k t, tsize t <= k -> tval (world_of (world_back w)) v t = tval w v t.
Proof.
  intros R. induction k as [|k IH]; intros t L; [destruct t; cbn in L; lia|].
  destruct t as [x|c|z|f ts]; cbn [tval]; [reflexivity|apply name_key_sc|reflexivity|].
  cbn [wf world_of sf world_back]. rewrite (proj1 (back_heads w R f)). f_equal. cbn in L. apply map_ext_in. intros t I. apply IH. apply tsize_in in I. lia.
Qed.
Lemma back_tvals {D} (w : world D) v ts : respects w -> map (tval (world_of (world_back w)) v) ts = map (tval w v) ts.
Proof. intros R. apply map_ext. intros t. apply (back_tval w v R) with (k := tsize t). lia. Qed.
Lemma fold_and_iff {A} (P Q : A -> Prop) l : (forall x, In x l -> (P x <-> Q x)) ->
  (fold_right and True (map P l) <-> fold_right and True (map Q l)).
Proof. intros H. rewrite !and_all. split; intros X x I; apply H; auto. Qed.
Lemma fold_or_iff {A} (P Q : A -> Prop) l : (forall x, In x l -> (P x <-> Q x)) ->
  (fold_right or False (map P l) <-> fold_right or False (map Q l)).
Proof. intros H. rewrite !or_some. split; intros (x & I & X); exists x; (split; [exact I|]); apply H; auto. Qed.
Lemma back_truth {D} (w : world D) : respects w -> forall n f v, fsize f <= n -> (truth (world_of (world_back w)) v f <-> truth w v f).
Proof.
  intros R. induction n as [|n IH]; intros f v L; [destruct f; cbn in L; lia|].
  assert (P : forall p ts, wp (world_of (world_back w)) p (map (tval (world_of (world_back w)) v) ts) <-> wp w p (map (tval w v) ts)).
  { intros p ts. rewrite back_tvals by exact R. cbn [wp world_of sp world_back]. rewrite (proj2 (back_heads w R p)). reflexivity. }
  destruct f as [b|p ts|p ts|a b|a b|g|o g h|l|l|cs qs|vs g|vs g]; cbn [truth]; cbn [fsize] in L.
  - reflexivity.
  - apply P.
  - rewrite (P p ts). reflexivity.
  - apply (P "=" [a; b]).
  - pose proof (P "=" [a; b]) as Q. cbn [map] in Q. rewrite Q. reflexivity.
  - rewrite (IH g v) by lia. reflexivity.
  - destruct o; cbn [bop_truth]; rewrite (IH g v), (IH h v) by lia; reflexivity.
  - apply fold_and_iff. intros x I. apply IH. apply fsize_in in I. lia.
  - apply fold_or_iff. intros x I. apply IH. apply fsize_in in I. lia.
  - rewrite (fold_and_iff (truth (world_of (world_back w)) v) (truth w v) cs), (fold_or_iff (truth (world_of (world_back w)) v) (truth w v) qs);
      [reflexivity| |]; intros x I; apply IH; apply fsize_in in I; lia.
  - split; intros X v' E; apply IH; try lia; apply X; exact E.
  - split; intros (v' & E & X); exists v'; (split; [exact E|]); apply IH; try lia; exact X.
Qed.

(** ** Files *)
Lemma read_runs f j : legal [] f -> spells f j -> exists k p fv, rep [] k p /\ keq k f /\ (forall y, In y fv <-> In y (fvars f)) /\
  runs (fun n => read n RAx j) (close fv p) /\ runs (fun n => read n RConj j) (mk_not (close fv p)) /\
  runs (fun n => read n RNegConj j) (close fv p) /\
  runs (fun n => read n RQuest j) (match fv with [] => mk_not p | _ =>
    close fv (Sl [Sa (Con CImp); p; Sl (Sa (Sym TUri "$ans") :: map (fun s => Sa (Sym TUri s)) fv)]) end).
Proof.
  intros L S. destruct (read_main f j L S) as (k & p & fv & R & Q & K & F). exists k, p, (rev fv).
  split; [exact Q|]. split; [exact K|]. split; [intros y; rewrite <- in_rev; apply F|].
  unfold read.
  split; [|split; [|split]]; (eapply runs_bind with (a := (p, fv)); [exact R|apply runs_done]).
Qed.
Lemma close_none {D} (J : stint D) (d : D) f k p fv : rep [] k p -> keq k f -> (forall y, In y fv <-> In y (fvars f)) ->
  (sem (int_of J) none (close fv p) <-> true_in (world_of J) f).
Proof.
  intros R K F. rewrite <- (rev_involutive fv). eapply closed_sem; try eassumption. intros y. rewrite <- in_rev. apply F.
Qed.
Lemma spells_shape f j : spells f j -> (exists b, f = FTruth b /\ j = JBool b) \/ exists a l, j = JArr (a :: l).
Proof.
  intros S. inversion S; subst; try (right; eauto; fail); try (left; eauto; fail); right.
  - destruct js as [|j1 [|j2 js]]; [inversion H1; subst; cbn in H0; lia|inversion H1; subst; eexists; eexists; reflexivity|eexists; eexists; reflexivity].
  - destruct js as [|j1 [|j2 js]]; [inversion H1; subst; cbn in H0; lia|inversion H1; subst; eexists; eexists; reflexivity|eexists; eexists; reflexivity].
  - destruct js as [|j1 js]; [inversion H0; subst; contradiction|eauto].
Qed.
Lemma doc_reads fs js : Forall2 (fun f j => legal [] f /\ spells f j) fs js -> exists outs, runs (fun n => read_all n js) outs /\
  forall D (J : stint D) (d : D), Forall (sem (int_of J) none) outs <-> Forall (true_in (world_of J)) fs.
Proof.
  induction 1 as [|f j fs js [L S] F (outs & R & IH)].
  - exists []. split; [apply runs_done|]. intros. split; constructor.
  - assert (T : {j = JBool true} + {j <> JBool true}) by (destruct j as [[]| | |]; (now left) || (right; discriminate)).
    destruct T as [->|T].
    + exists outs. split; [exact R|]. intros D J d. rewrite (IH D J d).
      inversion S; subst. split; intros X; [constructor; [intros v; reflexivity|exact X]|inversion X; subst; assumption].
    + destruct (read_runs f j L S) as (k & p & fv & Q & K & V & RA & _).
      exists (close fv p :: outs). split.
      * eapply runs_ext with (h := fun n => x <- read n RAx j ;; xs <- read_all n js ;; Done (x :: xs)).
        -- intros n. destruct (spells_shape f j S) as [([] & -> & ->)|(a & l & ->)]; [contradiction|reflexivity|reflexivity].
        -- eapply runs_bind with (a := close fv p); [exact RA|]. eapply runs_bind with (a := outs); [exact R|apply runs_done].
      * intros D J d. split; intros X; inversion X; subst; constructor.
        -- apply (close_none J d f k p fv Q K V). assumption.
        -- apply (IH D J d). assumption.
        -- apply (close_none J d f k p fv Q K V). assumption.
        -- apply (IH D J d). assumption.
Qed.
