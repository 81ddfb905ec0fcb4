(** Reading of formulas: every documented formula is read, and as a formula with its meaning *)
From Coq Require Import ZArith Lia Arith String Ascii Bool List.
From Verif Require Import ClausModel ClausSpec JsModel JsSpec JsBase JsTerm JsCore.
Import ListNotations.
Open Scope string_scope.
Open Scope list_scope.

Fixpoint ctruth {D} (w : world D) (v : string -> D) (k : core) : Prop :=
  match k with
  | KTruth b => b = true
  | KAtom p ts => wp w p (map (tval w v) ts)
  | KEq a b => wp w "=" [tval w v a; tval w v b]
  | KNot k => ~ ctruth w v k
  | KBin c k l =>
      match c with
      | CAnd => ctruth w v k /\ ctruth w v l
      | COr => ctruth w v k \/ ctruth w v l
      | CImp => ctruth w v k -> ctruth w v l
      | CEqv => ctruth w v k <-> ctruth w v l
      | _ => False
      end
  | KQ CAll vs k => forall v', differ_on vs v v' -> ctruth w v' k
  | KQ CEx vs k => exists v', differ_on vs v v' /\ ctruth w v' k
  | KQ _ _ _ => False
  end.
Definition keq (k : core) (f : form) : Prop :=
  (forall D (w : world D) v, ctruth w v k <-> truth w v f) /\ (forall y, In y (kvars k) <-> In y (fvars f)).

Lemma and_all {A} (P : A -> Prop) l : fold_right and True (map P l) <-> forall x, In x l -> P x.
Proof.
  induction l as [|a r IH]; cbn; [split; [intros _ x []|trivial]|]. rewrite IH. split.
  - intros [H K] x [<-|I]; auto.
  - intros H. split; [apply H; left; reflexivity|]. intros x I. apply H. right. exact I.
Qed.
Lemma or_some {A} (P : A -> Prop) l : fold_right or False (map P l) <-> exists x, In x l /\ P x.
Proof.
  induction l as [|a r IH]; cbn; [split; [tauto|intros (x & [] & _)]|]. rewrite IH. split.
  - intros [H|(x & I & H)]; eauto.
  - intros (x & [<-|I] & H); eauto.
Qed.
Lemma foldc_and {D} (w : world D) v : forall r k, ctruth w v (foldc CAnd true false k r) <-> forall x, In x (k :: r) -> ctruth w v x.
Proof.
  induction r as [|k2 r IH]; intros k.
  - cbn. split; [intros H x [<-|[]]; exact H|intros H; apply H; left; reflexivity].
  - cbn [foldc comb]. change (ctruth w v (KBin CAnd (foldc CAnd true false k2 r) k)) with
      (ctruth w v (foldc CAnd true false k2 r) /\ ctruth w v k). rewrite IH. split.
    + intros [H K] x [<-|I]; [exact K|apply H; exact I].
    + intros H. split; [intros x I; apply H; right; exact I|apply H; left; reflexivity].
Qed.
Lemma foldc_or {D} (w : world D) v : forall r k, ctruth w v (foldc COr true false k r) <-> exists x, In x (k :: r) /\ ctruth w v x.
Proof.
  induction r as [|k2 r IH]; intros k.
  - cbn. split; [intros H; exists k; auto|intros (x & [<-|[]] & H); exact H].
  - cbn [foldc comb]. change (ctruth w v (KBin COr (foldc COr true false k2 r) k)) with
      (ctruth w v (foldc COr true false k2 r) \/ ctruth w v k). rewrite IH. split.
    + intros [(x & I & H)|H]; [exists x; split; [right; exact I|exact H]|exists k; split; [left; reflexivity|exact H]].
    + intros (x & [<-|I] & H); [right; exact H|left; eauto].
Qed.
Lemma foldc_vars c y : forall r k, In y (kvars (foldc c true false k r)) <-> exists x, In x (k :: r) /\ In y (kvars x).
Proof.
  induction r as [|k2 r IH]; intros k.
  - cbn. split; [intros H; exists k; auto|intros (x & [<-|[]] & H); exact H].
  - cbn [foldc comb kvars]. rewrite in_app_iff, IH. split.
    + intros [(x & I & H)|H]; [exists x; split; [right; exact I|exact H]|exists k; split; [left; reflexivity|exact H]].
    + intros (x & [<-|I] & H); [right; exact H|left; eauto].
Qed.
Lemma Forall2_in_r {A B} (R : A -> B -> Prop) l m y : Forall2 R l m -> In y m -> exists x, In x l /\ R x y.
Proof.
  induction 1 as [|a b l m H F IH]; [contradiction|]. intros [<-|I].
  - exists a. split; [left; reflexivity|exact H].
  - destruct (IH I) as (x' & I' & J). exists x'. split; [right; exact I'|exact J].
Qed.
Lemma keq_and ks fs k r : Forall2 keq ks fs -> (forall x, In x (k :: r) <-> In x ks) -> keq (foldc CAnd true false k r) (FAnd fs).
Proof.
  intros F S. split.
  - intros D w v. rewrite foldc_and. cbn [truth]. rewrite and_all. split.
    + intros H f I. destruct (Forall2_in_r _ _ _ _ F I) as (x & Ix & [E _]). apply E, H, S, Ix.
    + intros H x I. apply S in I. destruct (Forall2_in_l _ _ _ _ F I) as (f & If & [E _]). apply E, H, If.
  - intros y. rewrite foldc_vars. cbn [fvars]. rewrite in_flat_map. split.
    + intros (x & I & H). apply S in I. destruct (Forall2_in_l _ _ _ _ F I) as (f & If & [_ E]). exists f. split; [exact If|now apply E].
    + intros (f & I & H). destruct (Forall2_in_r _ _ _ _ F I) as (x & Ix & [_ E]). exists x. split; [now apply S|now apply E].
Qed.
Lemma keq_or ks fs k r : Forall2 keq ks fs -> (forall x, In x (k :: r) <-> In x ks) -> keq (foldc COr true false k r) (FOr fs).
Proof.
  intros F S. split.
  - intros D w v. rewrite foldc_or. cbn [truth]. rewrite or_some. split.
    + intros (x & I & H). apply S in I. destruct (Forall2_in_l _ _ _ _ F I) as (f & If & [E _]). exists f. split; [exact If|now apply E].
    + intros (f & I & H). destruct (Forall2_in_r _ _ _ _ F I) as (x & Ix & [E _]). exists x. split; [now apply S|now apply E].
  - intros y. rewrite foldc_vars. cbn [fvars]. rewrite in_flat_map. split.
    + intros (x & I & H). apply S in I. destruct (Forall2_in_l _ _ _ _ F I) as (f & If & [_ E]). exists f. split; [exact If|now apply E].
    + intros (f & I & H). destruct (Forall2_in_r _ _ _ _ F I) as (x & Ix & [_ E]). exists x. split; [now apply S|now apply E].
Qed.

(** ** The list form of a written formula *)
Definition flike (x : sx) : Prop := (exists b, x = tf b) \/ exists y l, x = Sl (y :: l).
Lemma raw_arr j l : raw (JArr (j :: l)) = Sl (map raw (j :: l)).
Proof. reflexivity. Qed.
Lemma infix_cons op j js : infix op (j :: js) = j :: match js with [] => [] | _ => JStr op :: infix op js end.
Proof. destruct js; reflexivity. Qed.
Lemma raw_flike f j : spells f j -> flike (raw j).
Proof.
  intros H. inversion H; subst.
  - left. exists b. destruct b; reflexivity.
  - right. rewrite raw_arr. cbn [map]. eauto.
  - right. rewrite raw_arr. cbn [map]. eauto.
  - right. rewrite raw_arr. cbn [map]. eauto.
  - right. rewrite raw_arr. cbn [map]. eauto.
  - right. rewrite raw_arr. cbn [map]. eauto.
  - right. rewrite raw_arr. cbn [map]. eauto.
  - right. destruct H2 as [|a b fs' js' _ _]; [cbn in H1; lia|]. rewrite infix_cons, raw_arr. cbn [map]. eauto.
  - right. destruct H2 as [|a b fs' js' _ _]; [cbn in H1; lia|]. rewrite infix_cons, raw_arr. cbn [map]. eauto.
  - right. destruct H1 as [|a b fs' js' _ _]; [contradiction|]. rewrite raw_arr. cbn [map]. eauto.
  - right. rewrite raw_arr. cbn [map]. eauto.
  - right. rewrite raw_arr. cbn [map]. eauto.
  - right. rewrite raw_arr. cbn [map]. eauto.
Qed.
Lemma flike_quiet x : flike x -> quiet x.
Proof. intros [[b ->]|(y & l & ->)]; [apply quiet_tf|apply quiet_list]. Qed.
Lemma flike_str x s : flike x -> s <> "$true" -> s <> "$false" -> is_str x s = false.
Proof.
  intros [[b ->]|(y & l & ->)] A B; [|reflexivity]. cbn. apply eqb_out. destruct b; congruence.
Qed.
Lemma flike_elem cn x : flike x -> In (astr cn) connectives -> elem cn x.
Proof.
  intros H I. pose proof (flike_quiet x H) as (Q1 & Q2 & _). split; [exact Q2|]. split; [exact Q1|]. split.
  - destruct H as [[b ->]|(y & l & ->)]; [destruct b, cn; reflexivity|reflexivity].
  - apply flike_str; [exact H| |]; intros E; rewrite E in I; cbn in I; intuition discriminate.
Qed.

(** ** Lists with a connective between formulas *)
Lemma chain_app cn bd l ks l' ks' : chain cn bd l ks -> chain cn bd l' ks' -> chain cn bd (l ++ l') (ks ++ ks').
Proof. induction 1; intros H'; cbn; [exact H'| |]; constructor; auto. Qed.
Lemma chain_rev cn bd l ks : chain cn bd l ks -> chain cn bd (rev l) (rev ks).
Proof.
  induction 1; cbn.
  - constructor.
  - rewrite <- (app_nil_r (rev ks)). apply chain_app; [assumption|]. constructor; [assumption|assumption|constructor].
  - apply chain_app; [assumption|]. constructor; [assumption|assumption|constructor].
Qed.
Lemma chain_infix op bd : In op connectives -> forall js ks, Forall2 (fun j k => flike (raw j) /\ reads bd (raw j) k) js ks ->
  chain (Sym TUri op) bd (map raw (infix op js)) ks.
Proof.
  intros I js ks F. induction F as [|j k js ks [H R] F IH]; [constructor|].
  rewrite infix_cons. destruct js as [|j2 js].
  - inversion F; subst. cbn. constructor; [now apply flike_elem|exact R|constructor].
  - cbn [map]. constructor; [now apply flike_elem|exact R|].
    change (raw (JStr op)) with (Sa (Sym TUri op)). constructor; [reflexivity| |exact IH].
    cbn. apply eqb_out. intros ->. cbn in I. intuition discriminate.
Qed.
Lemma chain_plain cn bd : In (astr cn) connectives -> forall xs ks, Forall2 (fun x k => flike x /\ reads bd x k) xs ks ->
  chain cn bd xs ks.
Proof.
  intros I xs ks F. induction F as [|j k js ks [H R] F IH]; [constructor|].
  constructor; [now apply flike_elem|exact R|exact IH].
Qed.
Lemma logconn_infix op (js : list json) : In op connectives -> Forall (fun j => flike (raw j)) js ->
  list_logconn (Some (Sym TUri op)) (map raw (infix op js)) = Done (Some (Sym TUri op)) /\
  (2 <= List.length js -> list_logconn None (map raw (infix op js)) = Done (Some (Sym TUri op))).
Proof.
  intros I F.
  assert (Cn : is_connective (raw (JStr op)) = true) by (cbn; apply (proj2 (mems_in op connectives) I)).
  assert (Eq : equal_atoms (Sym TUri op) (Sym TUri op) = true) by (apply uri_equal; reflexivity).
  assert (St : forall o j r, flike (raw j) -> list_logconn o (raw j :: r) = list_logconn o r).
  { intros o j r H. cbn [list_logconn]. pose proof (flike_quiet _ H) as (_ & _ & _ & Q & _).
    destruct (raw j); [rewrite Q|]; reflexivity. }
  induction F as [|j js H F IH]; [split; [reflexivity|cbn; lia]|].
  rewrite infix_cons. destruct js as [|j2 js].
  - cbn [map]. rewrite St by exact H. split; [reflexivity|cbn; lia].
  - cbn [map]. destruct IH as [IH _].
    split; [|intros _]; rewrite St by exact H; change (raw (JStr op)) with (Sa (Sym TUri op)) in *;
      cbn [list_logconn]; rewrite Cn; [rewrite Eq|]; exact IH.
Qed.

(** ** The step of wr_process_json_formula_aux for lists with a connective *)
Lemma aux_chain n bd h r1 fv cn c : list_logconn None (h :: r1) = Done (Some cn) -> r1 <> [] ->
  nul_atom h = false -> is_one h ["not"; "-"; "~"] = false -> is_str h "exists" = false -> is_str h "forall" = false ->
  is_str h "if" = false -> match r1 with x1 :: _ => nul_uri x1 = false /\ is_eq_op x1 = false | [] => True end ->
  translate (astr cn) = Some (Con c) ->
  aux (S n) bd (Sl (h :: r1)) fv =
  bind (unflatten (fun y f => aux n bd y f) cn (Con c) (negb (negtype (astr cn))) (String.eqb (astr cn) "<=") (rev (h :: r1)) fv)
    (fun '(r, fv') => match r with Some y => Done (y, fv') | None => Odd end).
Proof.
  intros L R N E1 E2 E3 E4 X T. cbn [aux]. rewrite L. cbn [bind]. rewrite N.
  destruct r1 as [|x1 r2]; [contradiction|]. destruct X as [X1 X2]. rewrite !andb_false_r, X1.
  assert (E : match r2 with [] => false | _ :: _ => is_eq_op x1 end = false) by (destruct r2; [reflexivity|exact X2]).
  rewrite E, E1, E2, E3, E4, T. reflexivity.
Qed.
Lemma reads_chain bd h r1 cn c ks k r : list_logconn None (h :: r1) = Done (Some cn) -> r1 <> [] ->
  nul_atom h = false -> is_one h ["not"; "-"; "~"] = false -> is_str h "exists" = false -> is_str h "forall" = false ->
  is_str h "if" = false -> match r1 with x1 :: _ => nul_uri x1 = false /\ is_eq_op x1 = false | [] => True end ->
  translate (astr cn) = Some (Con c) -> In c [CAnd; COr; CImp; CEqv] ->
  chain cn bd (h :: r1) ks -> rev ks = k :: r ->
  reads bd (Sl (h :: r1)) (foldc c (negb (negtype (astr cn))) (String.eqb (astr cn) "<=") k r).
Proof.
  intros L R N E1 E2 E3 E4 X T C H K fv.
  destruct (chain_reads cn bd c (negb (negtype (astr cn))) (String.eqb (astr cn) "<=") _ _ (chain_rev _ _ _ _ H) C k r K fv)
    as (p & fv' & A & B & D).
  exists p, fv'. split; [|split; assumption].
  eapply runs_S; [intros n; eapply aux_chain; eassumption|].
  eapply runs_bind; [exact A|]. apply runs_done.
Qed.
Lemma flike_head x : flike x -> nul_atom x = false /\ is_one x ["not"; "-"; "~"] = false /\ is_str x "exists" = false /\
  is_str x "forall" = false /\ is_str x "if" = false.
Proof.
  intros H. pose proof (flike_quiet x H) as (Q & _). split; [exact Q|].
  unfold is_one. cbn [existsb].
  rewrite !flike_str by (try exact H; discriminate). repeat split.
Qed.
Lemma reads_infix bd op c js ks k r : In op connectives -> translate op = Some (Con c) -> In c [CAnd; COr; CImp; CEqv] ->
  2 <= List.length js -> Forall2 (fun j k => flike (raw j) /\ reads bd (raw j) k) js ks -> rev ks = k :: r ->
  reads bd (raw (JArr (infix op js))) (foldc c (negb (negtype op)) (String.eqb op "<=") k r).
Proof.
  intros I T C L F K.
  destruct js as [|j [|j2 js]]; try (cbn in L; lia).
  change (infix op (j :: j2 :: js)) with (j :: JStr op :: infix op (j2 :: js)) in *.
  destruct (Forall2_in_l _ _ _ j F (or_introl eq_refl)) as (kj & _ & [Fj _]).
  destruct (flike_head _ Fj) as (H1 & H2 & H3 & H4 & H5).
  rewrite raw_arr. cbn [map].
  apply (reads_chain bd (raw j) (raw (JStr op) :: map raw (infix op (j2 :: js))) (Sym TUri op) c ks k r); try assumption.
  - apply (logconn_infix op (j :: j2 :: js) I); [|exact L].
    apply Forall_forall. intros x Ix. destruct (Forall2_in_l _ _ _ _ F Ix) as (kk & _ & [H _]). exact H.
  - discriminate.
  - split.
    + cbn. apply eqb_out. intros ->. cbn in I. intuition discriminate.
    + cbn [raw is_eq_op is_uri andb astr]. apply mems_out. intros J. cbn in I, J. intuition congruence.
  - exact (chain_infix op bd I (j :: j2 :: js) ks F).
Qed.
Lemma reads_clause bd js ks k r : Forall2 (fun j k => flike (raw j) /\ reads bd (raw j) k) js ks ->
  Forall (fun j => exists y l, raw j = Sl (y :: l)) js -> rev ks = k :: r -> js <> [] ->
  reads bd (raw (JArr js)) (foldc COr true false k r).
Proof.
  intros F A K N.
  destruct js as [|j js]; [contradiction|]. rewrite raw_arr.
  inversion A as [|? ? (y & l & E) A']; subst. cbn [map]. rewrite E.
  assert (Q : Forall quiet (Sl (y :: l) :: map raw js)).
  { constructor; [apply quiet_list|]. inversion F; subst. apply Forall_forall. intros x Ix. apply in_map_iff in Ix as (j' & <- & Ij).
    destruct (Forall2_in_l _ _ _ _ H3 Ij) as (kk & _ & [H _]). now apply flike_quiet. }
  assert (R : reads bd (Sl (Sa (Sym TUri "or") :: Sl (y :: l) :: map raw js)) (foldc COr true false k r)).
  { apply (reads_chain bd (Sa (Sym TUri "or")) (Sl (y :: l) :: map raw js) (Sym TUri "or") COr ks k r);
      try reflexivity; try discriminate.
    - cbn [list_logconn]. change (is_connective (Sa (Sym TUri "or"))) with true. cbn [list_logconn].
      apply logconn_quiet. apply quiet_conn_all. inversion Q; subst; assumption.
    - split; reflexivity.
    - cbn. tauto.
    - constructor; [reflexivity|reflexivity|]. rewrite <- E.
      change (raw j :: map raw js) with (map raw (j :: js)).
      apply chain_plain; [cbn; tauto|].
      clear -F. induction F; cbn; constructor; assumption.
    - exact K. }
  intros fv. destruct (R fv) as (p & fv' & B & C & D). exists p, fv'. split; [|split; assumption].
  eapply runs_S; [|exact B]. intros n.
  remember (aux n bd (Sl (Sa (Sym TUri "or") :: Sl (y :: l) :: map raw js)) fv) as g eqn:G.
  cbn [aux]. rewrite (logconn_quiet None (Sl (y :: l) :: map raw js)) by (now apply quiet_conn_all).
  cbn [bind nul_atom is_str is_one existsb andb orb].
  inversion Q as [|? ? _ Q']; subst.
  assert (E1 : match map raw js with x1 :: _ => nul_uri x1 | [] => false end = false) by (destruct Q' as [|? ? [_ [Z _]]]; [reflexivity|exact Z]).
  assert (E2 : match map raw js with x1 :: _ :: _ => is_eq_op x1 | _ => false end = false).
  { destruct Q' as [|? r' (_ & _ & Z & _) _]; [reflexivity|]. destruct r'; [reflexivity|exact Z]. }
  rewrite E1, E2. reflexivity.
Qed.

(** ** if ... then *)
Lemma if_parts_reads bd : forall js ks, Forall2 (fun j k => flike (raw j) /\ reads bd (raw j) k) js ks ->
  forall ic rest fv,
  exists ps fv', Forall2 (rep bd) ks ps /\ fvspec bd (flat_map kvars ks) fv fv' /\
    forall i cs qs fv2, runs (fun n => if_parts (fun y f => aux n bd y f) ic rest fv') (i, cs, qs, fv2) ->
      runs (fun n => if_parts (fun y f => aux n bd y f) ic (map raw js ++ rest) fv)
        (i, (if ic then ps ++ cs else cs), (if ic then qs else ps ++ qs), fv2).
Proof.
  induction 1 as [|j k js ks [H R] _ IH]; intros ic rest fv.
  - exists [], fv. split; [constructor|]. split; [apply fvspec_nil|]. intros. destruct ic; assumption.
  - destruct (R fv) as (p & f1 & A & B & D). destruct (IH ic rest f1) as (ps & f2 & G1 & G2 & G3).
    exists (p :: ps), f2. split; [constructor; assumption|]. split; [cbn; eapply fvspec_app; eassumption|].
    intros i cs qs fv2 X. specialize (G3 _ _ _ _ X).
    destruct (flike_quiet _ H) as (_ & Q & _).
    eapply runs_ext with (h := fun n => '(y, fv1) <- aux n bd (raw j) fv ;;
        '(inc, cs, qs, fv2) <- if_parts (fun y f => aux n bd y f) ic (map raw js ++ rest) fv1 ;;
        Done (if ic then (inc, y :: cs, qs, fv2) else (inc, cs, y :: qs, fv2))).
    + intros n. cbn [map app if_parts]. rewrite Q.
      assert (E : match raw j with Sa a => is_uri a && String.eqb (astr a) "then" | Sl _ => false end = false).
      { destruct H as [[b E]|(y & l & E)]; rewrite E; [destruct b|]; reflexivity. }
      rewrite E. reflexivity.
    + eapply runs_bind; [exact A|]. cbn beta iota. eapply runs_bind; [exact G3|]. cbn beta iota.
      destruct ic; apply runs_done.
Qed.
Lemma join_reads bd c : c = CAnd \/ c = COr -> bd_ok bd -> forall k r ps fv, Forall2 (rep bd) (k :: r) ps ->
  exists p fv', runs (fun n => join (fun y f => aux n bd y f) c ps fv) (p, fv') /\ rep bd (foldc c true false k r) p /\
    (forall y, In y fv' -> In y fv \/ (In y (kvars (foldc c true false k r)) /\ ~ In y bd)) /\ incl fv fv'.
Proof.
  intros C Bo k r ps fv F. inversion F as [|? p0 ? ps0 H F']; subst.
  destruct F' as [|k2 p2 r' ps' H2 F2].
  - exists p0, fv. split; [apply runs_done|]. split; [exact H|]. split; [auto|apply incl_refl].
  - assert (Cc : In (astr (Con c)) connectives) by (destruct C as [->| ->]; cbn; tauto).
    assert (Ch : chain (Con c) bd (p0 :: p2 :: ps') (k :: k2 :: r')).
    { assert (G : Forall2 (rep bd) (k :: k2 :: r') (p0 :: p2 :: ps')) by assumption. clear -G Bo Cc.
      induction G as [|ka pa ks pz R G IH]; [constructor|]. constructor; [eapply rep_elem; eassumption|now apply rep_reads|exact IH]. }
    destruct (chain_reads _ _ c true false _ _ Ch ltac:(destruct C as [->| ->]; cbn; tauto) k (k2 :: r') eq_refl fv)
      as (p & fv' & A & B & D).
    exists p, fv'. split; [|split; [exact B|split]].
    + eapply runs_ext with (h := fun n =>
        '(r, fv') <- unflatten (fun y f => aux n bd y f) (Con c) (Con c) true false (p0 :: p2 :: ps') fv ;;
        match r with Some y => Done (y, fv') | None => Err end).
      * intros n. unfold join.
        replace (unflatten (fun y f => aux n bd y f) (Con c) (Con c) true false (Sa (Con c) :: p0 :: p2 :: ps') fv)
          with ('(a1r, fv1) <- unflatten (fun y f => aux n bd y f) (Con c) (Con c) true false (p0 :: p2 :: ps') fv ;; Done (a1r, fv1)).
        -- destruct (unflatten (fun y f => aux n bd y f) (Con c) (Con c) true false (p0 :: p2 :: ps') fv) as [[? ?]| | | |]; reflexivity.
        -- symmetry. cbn [unflatten is_uri andb]. unfold equal_atoms at 1. cbn [is_uri andb].
           assert (E1 : nul_atom (Sa (Con c)) = false) by (destruct c; reflexivity). rewrite E1.
           assert (E2 : really_equal (Sa (Con c)) (Con c) = true) by (unfold really_equal; cbn [is_str]; apply String.eqb_refl). rewrite E2.
           reflexivity.
      * eapply runs_bind; [exact A|]. apply runs_done.
    + intros y I. now apply D.
    + intros y I. apply D. now left.
Qed.
Lemma logconn_if cn js : is_uri cn = true -> Forall (fun x => is_connective x = false) js -> list_logconn (Some cn) js = Done (Some cn).
Proof. intros _ H. now apply logconn_quiet. Qed.
Lemma reads_if bd jcs jqs kc rc kq rq : bd_ok bd ->
  Forall2 (fun j k => flike (raw j) /\ reads bd (raw j) k) jcs (kc :: rc) ->
  Forall2 (fun j k => flike (raw j) /\ reads bd (raw j) k) jqs (kq :: rq) ->
  reads bd (raw (JArr (JStr "if" :: jcs ++ JStr "then" :: jqs)))
    (KBin CImp (foldc CAnd true false kc rc) (foldc COr true false kq rq)).
Proof.
  intros Bo Fc Fq fv.
  destruct (if_parts_reads bd jcs (kc :: rc) Fc true (map raw (JStr "then" :: jqs)) fv) as (cs & f1 & Rc & Vc & Gc).
  destruct (if_parts_reads bd jqs (kq :: rq) Fq false [] f1) as (qs & f2 & Rq & Vq & Gq).
  specialize (Gq false [] [] f2 ltac:(apply runs_done)). rewrite app_nil_r in Gq.
  assert (Gq' : runs (fun n => if_parts (fun y f => aux n bd y f) true (map raw (JStr "then" :: jqs)) f1) (false, [], qs, f2)).
  { eapply runs_ext; [|rewrite app_nil_r in Gq; exact Gq]. intros n. reflexivity. }
  specialize (Gc _ _ _ _ Gq'). rewrite app_nil_r in Gc. clear Gq Gq'.
  destruct (join_reads bd CAnd (or_introl eq_refl) Bo kc rc cs f2 Rc) as (p & f3 & A1 & B1 & C1 & D1).
  destruct (join_reads bd COr (or_intror eq_refl) Bo kq rq qs f3 Rq) as (q & f4 & A2 & B2 & C2 & D2).
  exists (Sl [Sa (Con CImp); p; q]), f4. split; [|split].
  - eapply runs_S with (h := fun n => if_then (fun y f => aux n bd y f) (map raw (jcs ++ JStr "then" :: jqs)) fv).
    + intros n. rewrite raw_arr. cbn [map raw]. cbn [aux].
      assert (Q : Forall quiet (map raw (jcs ++ JStr "then" :: jqs))).
      { rewrite map_app. apply Forall_app. split; [|constructor].
        - apply Forall_forall. intros x Ix. apply in_map_iff in Ix as (j & <- & Ij).
          destruct (Forall2_in_l _ _ _ _ Fc Ij) as (kk & _ & [H _]). now apply flike_quiet.
        - apply quiet_name. split; [discriminate|cbn; intuition discriminate].
        - apply Forall_forall. intros x Ix. apply in_map_iff in Ix as (j & <- & Ij).
          destruct (Forall2_in_l _ _ _ _ Fq Ij) as (kk & _ & [H _]). now apply flike_quiet. }
      assert (L : list_logconn None (Sa (Sym TUri "if") :: map raw (jcs ++ JStr "then" :: jqs)) = Done (Some (Sym TUri "if"))).
      { change (list_logconn (Some (Sym TUri "if")) (map raw (jcs ++ JStr "then" :: jqs)) = Done (Some (Sym TUri "if"))).
        apply logconn_quiet. now apply quiet_conn_all. }
      rewrite L. cbn [bind]. change (nul_atom (Sa (Sym TUri "if"))) with false.
      change (is_str (Sa (Sym TUri "if")) "and") with false. change (is_str (Sa (Sym TUri "if")) "or") with false. cbn [andb].
      assert (E1 : match map raw (jcs ++ JStr "then" :: jqs) with x1 :: _ => nul_uri x1 | [] => false end = false)
        by (destruct Q as [|? ? [_ [Z _]]]; [reflexivity|exact Z]).
      assert (E2 : match map raw (jcs ++ JStr "then" :: jqs) with x1 :: _ :: _ => is_eq_op x1 | _ => false end = false).
      { destruct Q as [|? r' (_ & _ & Z & _) _]; [reflexivity|]. destruct r'; [reflexivity|exact Z]. }
      rewrite E1, E2. reflexivity.
    + unfold if_then. rewrite map_app. eapply runs_bind; [exact Gc|]. cbn beta iota.
      destruct cs as [|c0 cs]; [inversion Rc|]. destruct qs as [|q0 qs]; [inversion Rq|].
      eapply runs_bind; [exact A1|]. cbn beta iota. eapply runs_bind; [exact A2|]. apply runs_done.
  - apply R_bin; [cbn; tauto|exact B1|exact B2].
  - intros y. cbn [kvars]. rewrite in_app_iff.
    assert (Sc : In y (kvars (foldc CAnd true false kc rc)) <-> In y (flat_map kvars (kc :: rc)))
      by (rewrite foldc_vars, in_flat_map; reflexivity).
    assert (Sq : In y (kvars (foldc COr true false kq rq)) <-> In y (flat_map kvars (kq :: rq)))
      by (rewrite foldc_vars, in_flat_map; reflexivity).
    specialize (Vc y). specialize (Vq y). specialize (C1 y). specialize (C2 y). specialize (D1 y). specialize (D2 y).
    rewrite Sc in *. rewrite Sq in *. tauto.
Qed.
