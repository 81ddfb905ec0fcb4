(** Literals, clauses and lists of clauses. *)
From Coq Require Import String Ascii Bool Arith ZArith Lia List Permutation.
From Verif Require Import RdModel RdSpec RdBase RdProof RdConv.
Import ListNotations.
Open Scope string_scope.
Open Scope list_scope.
Open Scope nat_scope.

Section E.
  Variable caps quest : bool.
  Variable strtod : string -> option Z.
  Notation prim := (parse_primitive caps quest strtod).
  Notation conv := (conv caps quest strtod).
  Notation conv_all := (conv_all caps quest strtod).
  Notation stands := (stands caps quest strtod).
  Notation proper := (proper caps quest strtod).
  Notation pterm := (parse_term caps quest strtod).
  Notation pargs := (parse_args caps quest strtod).
  Notation patom := (parse_atom caps quest strtod).
  Notation plit := (parse_lit caps quest strtod).
  Notation plits := (parse_lits caps quest strtod).

  Definition conv_atomic (x : watomic) (vd : list string) : res (sval * list string) :=
    match x with
    | WProp a => bindr (conv (WA a) vd) (fun '(v, vd) => Ok (VRec [VUri "$pr" None; v], vd))
    | WPred p ts => bindr (prim (PA p) vd 0) (fun '(v, vd) =>
                    bindr (conv_all ts vd) (fun '(l, vd) => Ok (VRec (v :: l), vd)))
    end.
  Fixpoint conv_lits (c : wclause) (vd : list string) : res (list (bool * sval) * list string) :=
    match c with
    | [] => Ok ([], vd)
    | (b, x) :: r => bindr (conv_atomic x vd) (fun '(v, vd) => bindr (conv_lits r vd) (fun '(l, vd) => Ok ((b, v) :: l, vd)))
    end.

  Definition asize (x : watomic) : nat := match x with WProp _ => 5 | WPred _ ts => 3 + sizes ts end.
  Definition csize (c : wclause) : nat := list_sum (map (fun x => asize (snd x)) c).

  Lemma same_wrap h p h' q : wrap h p = (h', q) -> same_but [] h h'.
  Proof.
    destruct p; cbn; intros E; inversion E; subst; try apply same_refl; rewrite <- app_assoc; apply same_app.
  Qed.

  (** an atom p(...) *)
  Lemma pred_ok f ts v0 vd : symbol f v0 -> Forall heads_named ts -> forall h n q S ps R L fuel,
    nth_error h n = Some (PA f, q) -> chain h q S ps -> all_held h ps ts R L -> lists_unshared (n :: S ++ R) L ->
    2 + sizes ts <= fuel ->
    match conv_atomic (WPred f ts) vd with
    | Ok (v, vd') => exists h', patom fuel h vd (PC n) = Ok (v, h', vd') /\ same_but L h h'
    | Fail => patom fuel h vd (PC n) = Fail
    | _ => True
    end.
  Proof.
    intros SY FN h n q S ps R L fuel E C A U Z. destruct fuel as [|fuel]; [lia|].
    cbn [conv_atomic]. rewrite (symbol_prim caps quest strtod f v0 vd SY). cbn [bindr].
    assert (V0 : v0 <> VNull) by (eapply prim_not_null; apply (symbol_prim caps quest strtod f v0 vd SY)).
    assert (PA_ : pargs (Datatypes.S fuel) h vd (PC n) 0 false =
      match pargs fuel h vd q 1 false with
                  | Ok (l, h, vd) => Ok (v0 :: l, h, vd)
                  | Fail => Fail | Wild => Wild | Spin => Spin end).
    { cbn [parse_args]. rewrite E. cbn [andb]. rewrite (symbol_prim caps quest strtod f v0 vd SY), E.
      destruct v0; try reflexivity. elim V0; auto. }
    unfold parse_atom. rewrite PA_.
    assert (FT : Forall (term_ok caps quest strtod) ts).
    { rewrite Forall_forall in *. intros u I. eapply all_terms_ok; eauto. }
    pose proof (args_ok caps quest strtod false ts FT h q S ps R L vd fuel 0 C A) as Q.
    assert (U' : lists_unshared (S ++ R) L) by (eapply unshared_sub; [exact U|]; intros m M; right; auto).
    specialize (Q U' ltac:(lia)).
    destruct (conv_all ts vd) as [[l vd2]| | |]; cbn [bindr]; auto.
    - destruct Q as (h' & Q1 & Q2). rewrite Q1. eauto.
    - rewrite Q. reflexivity.
  Qed.
  Lemma prop_ok a vd h fuel h' q : wrap h (PA a) = (h', q) -> 3 <= fuel ->
    (exists n t, q = PC n /\ nth_error h' n = Some (propfun, t)) /\
    match conv_atomic (WProp a) vd with
    | Ok (v, vd') => patom fuel h' vd q = Ok (v, h', vd')
    | Fail => patom fuel h' vd q = Fail
    | _ => True
    end.
  Proof.
    intros E Z. cbn in E. inversion E; subst. clear E.
    set (H1 := h ++ [(PA a, PN)]). set (H2 := H1 ++ [(propfun, PC (length h))]).
    assert (N2 : nth_error H2 (length H1) = Some (propfun, PC (length h))).
    { unfold H2. rewrite nth_error_app2, Nat.sub_diag by lia. reflexivity. }
    assert (N1 : nth_error H2 (length h) = Some (PA a, PN)).
    { unfold H2, H1. rewrite <- app_assoc, nth_error_app2, Nat.sub_diag by lia. reflexivity. }
    split; [eauto|]. destruct fuel as [|[|[|fuel]]]; try lia.
    cbn [conv_atomic RdProof.conv]. unfold parse_atom. cbn [parse_args]. rewrite N2.
    change (propfun) with (PA (mka TUri "$pr" None)). cbn [andb].
    change (prim (PA (mka TUri "$pr" None)) vd 0) with (Ok (VUri "$pr" None, vd)). cbv iota beta. rewrite N2, N1. cbn [andb].
    destruct (prim (PA a) vd 1) as [[v vd']| | |] eqn:EP; cbn [bindr]; auto.
    pose proof (prim_not_null caps quest strtod a vd 1 v vd' EP) as NN.
    rewrite N1. destruct v; try reflexivity. elim NN; auto.
  Qed.

  Lemma is_neg_minus f : is_neg (PA f) = true -> f = minus.
  Proof.
    unfold is_neg, is_not. destruct f as [t s o]. cbn. destruct t; try easy. destruct o; [rewrite andb_false_r; easy|].
    rewrite andb_true_r. destruct (String.eqb_spec s "not"); [subst; reflexivity|easy].
  Qed.
  Lemma lit_ok b x vd : proper_atomic caps quest strtod x -> forall h p R L fuel,
    held_lit h p (b, x) R L -> lists_unshared R L -> asize x <= fuel ->
    match conv_atomic x vd with
    | Ok (v, vd') => exists h', plit fuel h vd p = Ok (b, v, h', vd') /\ same_but L h h'
    | Fail => plit fuel h vd p = Fail
    | _ => True
    end.
  Proof.
    intros P h p R L fuel H U Z.
    inversion H as [p' x' R' L' HA|n m p' r x' R' L' E1 E2 HA]; subst.
    - inversion HA as [a|n f q S ps ts R' L' E C A]; subst.
      + cbn [asize] in Z. unfold parse_lit.
        destruct (wrap h (PA a)) as [h' q] eqn:W.
        destruct (prop_ok a vd h fuel h' q W ltac:(lia)) as ((n & t & -> & N) & Q).
        unfold atomic_head. cbn [cell]. rewrite N. cbn [propfun uri is_neg is_not a_ty andb]. unfold propfun, uri.
        cbn [is_neg is_not a_ty andb].
        destruct (conv_atomic (WProp a) vd) as [[v vd']| | |]; auto.
        * rewrite Q. exists h'. split; [reflexivity|]. eapply same_wrap; eauto.
        * rewrite Q. reflexivity.
      + inversion P as [|p' v ts' SY NM FP]; subst. cbn [asize] in Z. unfold parse_lit. cbn [wrap].
        unfold atomic_head. cbn [cell]. rewrite E.
        destruct (is_neg (PA f)) eqn:NG; [apply is_neg_minus in NG; easy|].
        assert (FN : Forall heads_named ts) by (rewrite Forall_forall in *; intros; eapply proper_named; eauto).
        pose proof (pred_ok f ts v vd SY FN h n q S ps R' L fuel E C A U ltac:(lia)) as Q.
        destruct (conv_atomic (WPred f ts) vd) as [[w vd']| | |]; auto.
        * destruct Q as (h' & Q1 & Q2). rewrite Q1. eauto.
        * rewrite Q. reflexivity.
    - unfold parse_lit. cbn [wrap]. unfold atomic_head. cbn [cell]. rewrite E1.
      change (is_neg (PA minus)) with true. cbv iota. rewrite E2.
      inversion HA as [a|k f q S ps ts R'' L' E C A]; subst.
      + cbn [asize] in Z. destruct (wrap h (PA a)) as [h' q] eqn:W.
        destruct (prop_ok a vd h fuel h' q W ltac:(lia)) as ((k & t & -> & N) & Q).
        cbn [cell]. rewrite N. unfold propfun, uri. cbv iota beta.
        destruct (conv_atomic (WProp a) vd) as [[v vd']| | |]; auto.
        * rewrite Q. exists h'. split; [reflexivity|]. eapply same_wrap; eauto.
        * rewrite Q. reflexivity.
      + inversion P as [|p' v ts' SY NM FP]; subst. cbn [asize] in Z. cbn [wrap cell]. rewrite E.
        assert (FN : Forall heads_named ts) by (rewrite Forall_forall in *; intros; eapply proper_named; eauto).
        assert (U' : lists_unshared (k :: S ++ R'') L).
        { eapply unshared_sub; [exact U|]. intros z Y. right; right; auto. }
        pose proof (pred_ok f ts v vd SY FN h k q S ps R'' L fuel E C A U' ltac:(lia)) as Q.
        destruct (conv_atomic (WPred f ts) vd) as [[w vd']| | |]; auto.
        * destruct Q as (h' & Q1 & Q2). rewrite Q1. eauto.
        * rewrite Q. reflexivity.
  Qed.

  (** framing of literals and clauses *)
  Lemma atomic_same W h h' p x R L : same_but W h h' -> held_atomic h p x R L ->
    (forall n, In n R \/ In n L -> ~ In n W) -> held_atomic h' p x R L.
  Proof.
    intros F H D. destruct H as [a|n f q S ps ts R L E C A]; [constructor|]. econstructor.
    - eapply same_nth; eauto. apply D. left; left; auto.
    - eapply chain_same; eauto. intros m M. apply D. left; right. apply in_or_app; auto.
    - eapply (proj2 (held_same W h h' F)); eauto. intros m [M|M]; apply D; [left; right; apply in_or_app; auto|auto].
  Qed.
  Lemma lit_same W h h' p x R L : same_but W h h' -> held_lit h p x R L ->
    (forall n, In n R \/ In n L -> ~ In n W) -> held_lit h' p x R L.
  Proof.
    intros F H D. destruct H as [p x R L A|n m p r x R L E1 E2 A].
    - constructor. eapply atomic_same; eauto.
    - econstructor.
      + eapply same_nth; eauto. apply D. left; left; auto.
      + eapply same_nth; eauto. apply D. left; right; left; auto.
      + eapply atomic_same; eauto. intros k [K|K]; apply D; [left; right; right; auto|auto].
  Qed.
  Lemma clause_same W h h' p x R L : same_but W h h' -> held_clause h p x R L ->
    (forall n, In n R \/ In n L -> ~ In n W) -> held_clause h' p x R L.
  Proof.
    intros F H. induction H as [|p x ps c R L R' L' HL HC IH]; intros D; constructor.
    - eapply lit_same; eauto. intros n [N|N]; apply D; [left|right]; apply in_or_app; auto.
    - apply IH. intros n [N|N]; apply D; [left|right]; apply in_or_app; auto.
  Qed.
  Lemma clauses_same W h h' p x R L : same_but W h h' -> held_clauses h p x R L ->
    (forall n, In n R \/ In n L -> ~ In n W) -> held_clauses h' p x R L.
  Proof.
    intros F H. induction H as [|p x ps c R L R' L' HL HC IH]; intros D; constructor.
    - eapply clause_same; eauto. intros n [N|N]; apply D; [left|right]; apply in_or_app; auto.
    - apply IH. intros n [N|N]; apply D; [left|right]; apply in_or_app; auto.
  Qed.

  Lemma lits_ok : forall c, Forall (fun x => proper_atomic caps quest strtod (snd x)) c -> forall h ps R L vd fuel,
    held_clause h ps c R L -> lists_unshared R L -> csize c <= fuel ->
    match conv_lits c vd with
    | Ok (l, vd') => exists h', plits fuel h vd ps = Ok (l, h', vd') /\ same_but L h h'
    | Fail => plits fuel h vd ps = Fail
    | _ => True
    end.
  Proof.
    induction c as [|[b x] c IH]; intros PC h ps R L vd fuel H U Z.
    - inversion H; subst. cbn. exists h. split; [reflexivity|apply same_refl].
    - inversion H as [|p x' ps' c' R1 L1 R2 L2 HL HC]; subst. inversion PC as [|? ? PX PCs]; subst. cbn [snd] in PX.
      apply unshared_app in U as (U1 & U2 & D1 & D2).
      unfold csize in Z. unfold list_sum in Z. cbn [map fold_right snd] in Z. change (fold_right Nat.add 0 (map (fun x => asize (snd x)) c)) with (csize c) in Z.
      pose proof (lit_ok b x vd PX h p R1 L1 fuel HL U1 ltac:(lia)) as Q.
      cbn [conv_lits parse_lits]. destruct (conv_atomic x vd) as [[v vd']| | |]; cbn [bindr]; auto.
      + destruct Q as (h1 & Q1 & Q2). rewrite Q1.
        pose proof (IH PCs h1 ps' R2 L2 vd' fuel (clause_same _ _ _ _ _ _ _ Q2 HC D1) U2 ltac:(lia)) as Q3.
        destruct (conv_lits c vd') as [[l vd2]| | |]; cbn [bindr]; auto.
        * destruct Q3 as (h2 & Q3 & Q4). rewrite Q3. exists h2. split; [reflexivity|].
          eapply same_trans; [exact Q2|exact Q4| |]; intros k K; apply in_or_app; auto.
        * rewrite Q3. reflexivity.
      + rewrite Q. reflexivity.
  Qed.

  (** the test for facts *)
  Lemma simple_args_ok : forall ps h q S fuel, chain h q S ps -> length S < fuel ->
    exists b, simple_args caps quest fuel h q = Ok b.
  Proof.
    induction ps as [|p ps IH]; intros h q S fuel C F.
    - inversion C; subst. destruct fuel; [cbn in F; lia|]. exists true. reflexivity.
    - inversion C as [|n p' q' S' ps' E C']; subst. cbn in F. destruct fuel as [|fuel]; [lia|].
      cbn [simple_args]. rewrite E.
      destruct (IH h q' S' fuel C' ltac:(lia)) as (b & IH').
      destruct p as [|a|k]; eauto. destruct (a_ty a); eauto. destruct (a_s2 a); eauto. destruct var_name; eauto.
  Qed.
  Lemma sizes_length ts : length ts <= sizes ts.
  Proof. unfold sizes, list_sum. induction ts; cbn [map fold_right length] in *; lia. Qed.
  Lemma simple_lit_ok b x h p R L fuel : held_lit h p (b, x) R L -> asize x <= fuel ->
    exists d, simple_lit caps quest fuel h p = Ok d /\ (d = true -> b = false).
  Proof.
    intros H Z. inversion H as [p' x' R' L' HA|n m p' r x' R' L' E1 E2 HA]; subst.
    - inversion HA as [a|n f q S ps ts R' L' E C A]; subst.
      + exists false. split; [reflexivity|easy].
      + cbn [simple_lit]. rewrite E. destruct (is_not (PA f)); [exists false; split; auto|].
        cbn [asize] in Z. pose proof (sizes_length ts). pose proof (all_held_len _ _ _ _ _ A). pose proof (chain_len _ _ _ _ C).
        destruct (simple_args_ok (PA f :: ps) h (PC n) (n :: S) fuel) as (d & D).
        * econstructor; eauto.
        * cbn. lia.
        * exists d. auto.
    - exists false. cbn [simple_lit]. rewrite E1. split; [reflexivity|easy].
  Qed.
  Lemma simple_lits_ok : forall c h ps R L fuel, held_clause h ps c R L -> csize c <= fuel ->
    exists d, simple_lits caps quest fuel h ps = Ok d /\ (d = true -> forall b x, In (b, x) c -> b = false).
  Proof.
    induction c as [|[b x] c IH]; intros h ps R L fuel H Z.
    - inversion H; subst. exists true. split; [reflexivity|easy].
    - inversion H as [|p x' ps' c' R1 L1 R2 L2 HL HC]; subst.
      unfold csize in Z. unfold list_sum in Z. cbn [map fold_right snd] in Z. change (fold_right Nat.add 0 (map (fun x => asize (snd x)) c)) with (csize c) in Z.
      destruct (simple_lit_ok _ _ _ _ _ _ fuel HL ltac:(lia)) as (d1 & E1 & P1).
      destruct (IH _ _ _ _ fuel HC ltac:(lia)) as (d2 & E2 & P2).
      cbn [simple_lits]. rewrite E1, E2. exists (d1 && d2). split; [reflexivity|].
      intros D. apply andb_prop in D as [D1 D2]. intros b' x' [I|I]; [inversion I; subst; auto|eauto].
  Qed.

  Lemma clause_ok c h ps R L fuel : proper_clause caps quest strtod c -> held_clause h ps c R L -> lists_unshared R L ->
    csize c <= fuel ->
    match conv_lits c [] with
    | Ok (l, _) => exists s h', parse_clause caps quest strtod fuel h ps = Ok (s, h') /\ literals s = l /\ same_but L h h'
    | Fail => parse_clause caps quest strtod fuel h ps = Fail
    | _ => True
    end.
  Proof.
    intros [NE PC] H U Z. unfold parse_clause.
    destruct (simple_lits_ok c h ps R L fuel H Z) as (d & E & P). rewrite E.
    pose proof (lits_ok c PC h ps R L [] fuel H U Z) as Q.
    destruct (d && (length ps <=? 1)) eqn:D.
    - apply andb_prop in D as [-> LN]. apply Nat.leb_le in LN.
      inversion H as [|p x ps' c' R1 L1 R2 L2 HL HC]; subst; [easy|].
      destruct ps'; [|cbn in LN; lia]. inversion HC; subst. destruct x as [b x].
      assert (b = false) by (eapply P; eauto; left; auto). subst b.
      cbn [parse_lits conv_lits] in *. destruct (conv_atomic x []) as [[v vd']| | |]; cbn [bindr] in *; auto.
      + destruct Q as (h' & Q1 & Q2).
        destruct (plit fuel h [] p) as [[[[b1 v1] h1] vd1]| | |]; try easy. inversion Q1; subst.
        exists (SFact v), h'. auto.
      + destruct (plit fuel h [] p) as [[[[b1 v1] h1] vd1]| | |]; try easy.
    - destruct (conv_lits c []) as [[l vd']| | |]; auto.
      + destruct Q as (h' & Q1 & Q2). rewrite Q1. exists (SRule l), h'. auto.
      + rewrite Q. reflexivity.
  Qed.

  (** what the clause stands for *)
  Lemma atomic_good x xs vd : proper_atomic caps quest strtod x -> vars_atomic caps quest x xs -> length vd <= 1000 ->
    if length (ext vd xs) <=? 1000 then
      exists v, conv_atomic x vd = Ok (v, ext vd xs) /\ forall r, agrees r (ext vd xs) -> stands_atomic caps quest strtod r x v
    else conv_atomic x vd = Fail.
  Proof.
    intros P V B. destruct V as [a xs V|p ts xs V].
    - inversion P as [a' PA_|]; subst. pose proof (conv_ok caps quest strtod (WA a) xs vd PA_ V B) as H.
      cbn [conv_atomic]. destruct (_ <=? 1000).
      + destruct H as (v & -> & H). cbn [bindr]. eexists. split; [reflexivity|]. intros r A. constructor; auto.
      + rewrite H. reflexivity.
    - inversion P as [|p' v ts' SY NM FP]; subst. cbn [conv_atomic].
      rewrite (symbol_prim caps quest strtod p v vd SY). cbn [bindr].
      pose proof (conv_all_good caps quest strtod ts) as H.
      specialize (H (proj2 (Forall_forall _ _) (fun u _ => conv_ok caps quest strtod u)) xs vd FP V B).
      destruct (_ <=? 1000).
      + destruct H as (vs & -> & H). cbn [bindr]. eexists. split; [reflexivity|]. intros r A. constructor; auto.
      + rewrite H. reflexivity.
  Qed.
  Lemma conv_lits_good : forall c xs vd, Forall (fun x => proper_atomic caps quest strtod (snd x)) c ->
    vars_clause caps quest c xs -> length vd <= 1000 ->
    if length (ext vd xs) <=? 1000 then
      exists l, conv_lits c vd = Ok (l, ext vd xs) /\ forall r, agrees r (ext vd xs) ->
        Forall2 (fun l m => fst l = fst m /\ stands_atomic caps quest strtod r (snd l) (snd m)) c l
    else conv_lits c vd = Fail.
  Proof.
    induction c as [|[b x] c IH]; intros xs vd P V B.
    - inversion V; subst. cbn. replace (length vd <=? 1000) with true by (symmetry; apply Nat.leb_le; auto).
      eexists. split; [reflexivity|]. constructor.
    - inversion V as [|? ? ? ys zs VX VC]; subst. inversion P as [|? ? PX PCs]; subst. cbn [snd] in PX. cbn [conv_lits].
      rewrite ext_app. pose proof (atomic_good x ys vd PX VX B) as H1.
      pose proof (ext_len (ext vd ys) zs) as L.
      destruct (Nat.leb_spec (length (ext vd ys)) 1000) as [B1|B1].
      + destruct H1 as (v & -> & H1). cbn [bindr]. pose proof (IH zs (ext vd ys) PCs VC B1) as H2.
        destruct (Nat.leb_spec (length (ext (ext vd ys) zs)) 1000) as [B2|B2].
        * destruct H2 as (vs & -> & H2). cbn [bindr]. eexists. split; [reflexivity|]. intros r A. constructor; auto.
          cbn. split; auto. apply H1. eapply agrees_ext; eauto.
        * rewrite H2. reflexivity.
      + rewrite H1. destruct (Nat.leb_spec (length (ext (ext vd ys) zs)) 1000); [lia|reflexivity].
  Qed.

  Lemma ext_count xs : length (ext [] xs) = length (nodup string_dec xs).
  Proof.
    apply Permutation_length. apply NoDup_Permutation.
    - apply ext_nodup. constructor.
    - apply NoDup_nodup.
    - intros x. pose proof (ext_in strtod xs [] x) as H1. pose proof (nodup_In string_dec xs x) as H2. cbn [In] in H1. tauto.
  Qed.
  Lemma agrees_index vd : NoDup vd -> agrees (fun x => match var_index vd x with Some i => i | None => 0 end) vd.
  Proof.
    intros N i x E. pose proof (var_index_spec strtod vd x) as V. destruct (var_index vd x) as [j|].
    - rewrite NoDup_nth_error in N. apply N; [apply nth_error_Some; congruence|congruence].
    - elim V. eapply nth_error_In; eauto.
  Qed.
  Lemma lits_read c : proper_clause caps quest strtod c -> few_variables caps quest c ->
    exists l vd, conv_lits c [] = Ok (l, vd) /\ forall s, literals s = l -> read_as caps quest strtod c s.
  Proof.
    intros [NE P] (xs & V & F). pose proof (conv_lits_good c xs [] P V ltac:(cbn; lia)) as H.
    rewrite ext_count in H. apply Nat.leb_le in F. rewrite F in H. destruct H as (l & E & H).
    exists l, (ext [] xs). split; auto. intros s <-.
    assert (N : NoDup (ext [] xs)) by (apply ext_nodup; constructor).
    pose proof (agrees_index _ N) as A. exists xs. eexists. split; [exact V|]. split; [|split; [|apply H; exact A]].
    - assert (IN : forall x, In x xs -> exists i, var_index (ext [] xs) x = Some i /\ nth_error (ext [] xs) i = Some x).
      { intros x I. pose proof (var_index_spec strtod (ext [] xs) x) as Q. destruct var_index; eauto. elim Q. apply (ext_in strtod); auto. }
      intros x y X Y. destruct (IN x X) as (i & -> & IX). destruct (IN y Y) as (j & -> & JY). congruence.
    - intros x X. rewrite <- ext_count. pose proof (var_index_spec strtod (ext [] xs) x) as Q. destruct var_index.
      + apply nth_error_Some. congruence.
      + elim Q. apply (ext_in strtod); auto.
  Qed.
  Lemma lits_fail c : proper_clause caps quest strtod c -> many_variables caps quest c -> conv_lits c [] = Fail.
  Proof.
    intros [NE P] (xs & V & F). pose proof (conv_lits_good c xs [] P V ltac:(cbn; lia)) as H.
    rewrite ext_count in H. destruct (Nat.leb_spec (length (nodup string_dec xs)) 1000); [lia|auto].
  Qed.

  Definition batch_size (cs : list wclause) : nat := list_sum (map csize cs).
  Theorem clauses_read cs : Forall (fun c => proper_clause caps quest strtod c /\ few_variables caps quest c) cs ->
    forall h ps R L fuel, held_clauses h ps cs R L -> lists_unshared R L -> batch_size cs <= fuel ->
    exists ss h', parse_clauses caps quest strtod fuel h ps = Ok (ss, h') /\ Forall2 (read_as caps quest strtod) cs ss.
  Proof.
    intros F. induction F as [|c cs [P FV] F IH]; intros h ps R L fuel H U Z.
    - inversion H; subst. exists [], h. split; [reflexivity|constructor].
    - inversion H as [|p x ps' c' R1 L1 R2 L2 HC HCS]; subst. apply unshared_app in U as (U1 & U2 & D1 & D2).
      unfold batch_size, list_sum in Z. cbn [map fold_right] in Z. change (fold_right Nat.add 0 (map csize cs)) with (batch_size cs) in Z.
      destruct (lits_read c P FV) as (l & vd & E & RD).
      pose proof (clause_ok c h p R1 L1 fuel P HC U1 ltac:(lia)) as Q. rewrite E in Q.
      destruct Q as (s & h1 & Q1 & Q2 & Q3).
      destruct (IH h1 ps' R2 L2 fuel (clauses_same _ _ _ _ _ _ _ Q3 HCS D1) U2 ltac:(lia)) as (ss & h2 & I1 & I2).
      exists (s :: ss), h2. cbn [parse_clauses]. rewrite Q1, I1. split; [reflexivity|]. constructor; auto.
  Qed.
  Theorem clause_fails c h ps R L fuel : proper_clause caps quest strtod c -> many_variables caps quest c ->
    held_clause h ps c R L -> lists_unshared R L -> csize c <= fuel ->
    parse_clause caps quest strtod fuel h ps = Fail.
  Proof.
    intros P M H U Z. pose proof (clause_ok c h ps R L fuel P H U Z) as Q. rewrite (lits_fail c P M) in Q. exact Q.
  Qed.
End E.
