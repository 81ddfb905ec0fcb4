(** The scan sees all arithmetic terms and all directly bindable variables; calls and runs. *)
From Coq Require Import List ZArith Bool Lia Permutation.
From Verif Require Import Terms AgModel AgSpec AgBase AgProof.
Import ListNotations.
Open Scope Z_scope.

Section Cover.
  Variable code : term -> comp.
  Variable numc : cst -> option num.
  Variable answer : term -> bool.
  Variable fo : fops.
  Notation scan_term := (scan_term code numc fo).
  Notation scan_lit := (scan_lit code numc answer fo).
  Notation covers := (covers code).

  Lemma scan_term_covers us : forall t s, visible code numc (TRec us) t -> covers (scan_term t s) (TRec us).
  Proof.
    intros t. induction t as [i|c|fs IH] using term_ind'; intros s Hu; [inversion Hu|inversion Hu|].
    assert (D : decode code numc (TRec fs) = None) by (inversion Hu; auto).
    cbn [AgModel.scan_term]. rewrite D.
    set (s1 := if arith (code (TRec fs)) then add_frontier (TRec fs) s else s).
    set (s2 := match code (TRec fs) with CCompare => scan_comparison code numc fo (TRec fs) s1 | _ => s1 end).
    assert (H2 : fgrow s1 s2) by (unfold s2; destruct (code (TRec fs)); apply fgrow_same; auto; unfold scan_comparison; rewrite !add_boundary_opt_fronts; auto).
    assert (G : forall fs s, fgrow s (fold_left (fun s f => scan_term f s) fs s)).
    { clear. induction fs as [|f fs IH]; intros s; cbn [fold_left]; [apply fgrow_refl|].
      eapply fgrow_trans; [apply scan_term_grow|apply IH]. }
    inversion Hu as [E|gs f E Hf Hv]; subst.
    - eapply covers_grow; [apply G|]. eapply covers_grow; [exact H2|]. unfold s1. intros Ha. rewrite Ha.
      apply (proj2 (add_frontier_grow code (TRec fs) s)); auto.
    - clearbody s2. clear s1 H2 D E Hu. revert s2. induction IH as [|x fs Hx _ IH]; intros s2; cbn [fold_left]; [destruct Hf|].
      destruct Hf as [->|Hf]; [|apply IH; auto]. eapply covers_grow; [apply G|]. apply Hx; auto.
  Qed.
  Lemma inverse_fronts e v s : fronts (inverse code numc fo e v s) = fronts s.
  Proof.
    unfold inverse. destruct (code e); auto;
    (pose proof (collect_spec 3 e [] s (NoDup_nil _)) as H; destruct (collect 3 e ([], s)) as [vs s1]; cbn [fst snd] in H;
     destruct H as (A&B&_); destruct (negb _); auto;
     repeat match goal with |- context [match (if ?b then _ else _) with _ => _ end] => destruct b end;
     repeat match goal with |- context [match decode_arg code numc ?i e with _ => _ end] => destruct (decode_arg code numc i e) end; auto).
  Qed.
  Lemma inverse_opt_fronts e v s : fronts (inverse_opt code numc fo e v s) = fronts s.
  Proof. unfold inverse_opt. destruct e as [[| |fs]|]; auto. destruct v; auto using inverse_fronts. Qed.
  Lemma scan_hints_fronts t s : fronts (scan_hints code numc fo t s) = fronts s.
  Proof. unfold scan_hints. destruct t; auto. destruct (code _); auto. rewrite !inverse_opt_fronts. auto. Qed.
  Lemma mark_fronts t s : fronts (mark code answer t s) = fronts s.
  Proof.
    unfold mark. destruct t as [| |fs]; auto. destruct (answer _); auto. destruct (code _); auto.
    revert s. induction fs as [|f fs IH]; intros s; cbn [fold_left]; auto. rewrite IH. destruct f; auto.
    unfold mark_var. cbn [fronts]. apply note_var_same.
  Qed.
  Lemma scan_lit_grow s t : fgrow s (scan_lit s t).
  Proof.
    unfold AgModel.scan_lit. eapply fgrow_trans; [apply scan_term_grow|]. apply fgrow_same. rewrite mark_fronts, scan_hints_fronts. auto.
  Qed.
  Lemma scan_clause_covers us ats a : In a ats -> visible code numc (TRec us) a -> covers (scan_clause code numc answer fo ats) (TRec us).
  Proof.
    intros Ha Hv. unfold scan_clause. generalize {| fronts := []; svars := []; vals := [] |} as s. revert Ha.
    assert (G : forall ats s, fgrow s (fold_left scan_lit ats s)).
    { clear. induction ats as [|f ats IH]; intros s; cbn [fold_left]; [apply fgrow_refl|].
      eapply fgrow_trans; [apply scan_lit_grow|apply IH]. }
    induction ats as [|x ats IH]; intros Ha s; [destruct Ha|]. cbn [fold_left]. destruct Ha as [->|Ha]; [|apply IH; auto].
    eapply covers_grow; [apply G|]. unfold AgModel.scan_lit.
    eapply covers_grow; [|apply scan_term_covers; exact Hv]. apply fgrow_same. rewrite mark_fronts, scan_hints_fronts. auto.
  Qed.

  (** ** Bindable variables *)
  Variable all : list Z.
  Record sinv (D : Z -> Prop) (s : scan) : Prop := {
    s_nodup : NoDup (map fst (svars s));
    s_in : forall v, In v (map fst (svars s)) -> In v all;
    s_yes : forall v, In (v, true) (svars s) -> D v;
    s_all : forall v, D v -> In (v, true) (svars s) \/ ((32 <= length (svars s))%nat /\ ~ In v (map fst (svars s))) }.

  Lemma known_var_spec v l : known_var v l = true <-> In v (map fst l).
  Proof.
    unfold known_var. rewrite existsb_exists, in_map_iff. split.
    - intros (x&Hx&E). apply Z.eqb_eq in E. exists x. auto.
    - intros (x&<-&Hx). exists x. split; auto. apply Z.eqb_refl.
  Qed.
  Lemma note_sinv D v s : In v all -> sinv D s -> sinv D (note_var v s).
  Proof.
    intros Hv [A B C E]. unfold note_var. destruct (known_var v (svars s)) eqn:K; cbn [orb]; [split; auto|].
    destruct (Z.leb_spec max_clause_vars (Z.of_nat (length (svars s)))) as [L|L]; [split; auto|]. unfold max_clause_vars in L.
    split; cbn [svars].
    - rewrite map_app. simpl. apply NoDup_Add with (a := v) (l := map fst (svars s)); [rewrite <- (app_nil_r (map fst (svars s))) at 1; apply Add_app|].
      split; auto. rewrite <- known_var_spec. congruence.
    - intros w. rewrite map_app, in_app_iff. simpl. intros [H|[<-|[]]]; auto.
    - intros w H. apply in_app_or in H as [H|[H|[]]]; auto. discriminate.
    - intros w Hw. destruct (E w Hw) as [H|[H _]]; [left; apply in_or_app; auto|lia].
  Qed.
  Lemma collect_sinv D mx : forall t a, incl (tvars t) all -> sinv D (snd a) -> sinv D (snd (collect mx t a)).
  Proof.
    intros t. induction t as [i|c|fs IH] using term_ind'; intros a Hi H; cbn [collect]; auto.
    - assert (X : sinv D (note_var i (snd a))) by (apply note_sinv; auto; apply Hi; simpl; auto).
      destruct (existsb _ _); auto. destruct (_ <? _); auto.
    - cbn [tvars] in Hi. revert a H. induction IH as [|f fs Hf _ IH]; intros a H; cbn [fold_left]; auto. apply IH.
      + intros x Hx. apply Hi. simpl. apply in_or_app. auto.
      + apply Hf; auto. intros x Hx. apply Hi. simpl. apply in_or_app. auto.
  Qed.
  Lemma sinv_same D s s' : svars s' = svars s -> sinv D s -> sinv D s'.
  Proof. intros E [A B C F]. split; rewrite E; auto. Qed.
  Lemma add_frontier_sinv D t s : incl (tvars t) all -> sinv D s -> sinv D (add_frontier t s).
  Proof.
    intros Hi H. unfold add_frontier. pose proof (collect_sinv D max_clause_vars t ([], s) Hi H) as X.
    destruct (collect max_clause_vars t ([], s)) as [vs s1]. cbn [snd] in X. destruct (_ || _); auto.
    destruct (existsb _ _); auto. destruct (_ <=? _); auto. eapply sinv_same; [|exact X]. reflexivity.
  Qed.
  Lemma scan_term_sinv D : forall t s, incl (tvars t) all -> sinv D s -> sinv D (scan_term t s).
  Proof.
    intros t. induction t as [i|c|fs IH] using term_ind'; intros s Hi H; cbn [AgModel.scan_term].
    - cbn. apply note_sinv; auto. apply Hi. simpl. auto.
    - destruct (decode code numc (TCst c)); [eapply sinv_same; [|exact H]; reflexivity|auto].
    - destruct (decode code numc (TRec fs)); [eapply sinv_same; [|exact H]; reflexivity|].
      set (s1 := if arith (code (TRec fs)) then add_frontier (TRec fs) s else s).
      assert (H1 : sinv D s1) by (unfold s1; destruct (arith _); auto using add_frontier_sinv).
      set (s2 := match code (TRec fs) with CCompare => scan_comparison code numc fo (TRec fs) s1 | _ => s1 end).
      assert (H2 : sinv D s2).
      { unfold s2. destruct (code (TRec fs)); auto. unfold scan_comparison.
        eapply sinv_same; [|exact H1]. destruct (decode_arg code numc 2 _), (decode_arg code numc 1 _); reflexivity. }
      clearbody s2. clear s1 H1 H. cbn [tvars] in Hi. revert s2 H2. induction IH as [|f fs Hf _ IH]; intros s2 H2; cbn [fold_left]; auto.
      apply IH.
      + intros x Hx. apply Hi. simpl. apply in_or_app. auto.
      + apply Hf; auto. intros x Hx. apply Hi. simpl. apply in_or_app. auto.
  Qed.
  Lemma inverse_sinv D e v s : incl (tvars e) all -> sinv D s -> sinv D (inverse code numc fo e v s).
  Proof.
    intros Hi H. unfold inverse. pose proof (collect_sinv D 3 e ([], s) Hi H) as X.
    destruct (code e); auto;
    (destruct (collect 3 e ([], s)) as [vs s1]; cbn [snd] in X; destruct (negb _); auto;
     repeat match goal with |- context [match (if ?b then _ else _) with _ => _ end] => destruct b end;
     repeat match goal with |- context [match decode_arg code numc ?i e with _ => _ end] => destruct (decode_arg code numc i e) end; auto;
     apply (sinv_same D s1); auto).
  Qed.
  Lemma arg_vars i t a : arg i t = Some a -> incl (tvars a) (tvars t).
  Proof.
    unfold arg. destruct t as [| |fs]; try discriminate. intros H. apply nth_error_In in H. intros x Hx. simpl. apply in_flat_map. eauto.
  Qed.
  Lemma inverse_opt_sinv D e v s : (forall t, e = Some t -> incl (tvars t) all) -> sinv D s -> sinv D (inverse_opt code numc fo e v s).
  Proof. intros Hi H. unfold inverse_opt. destruct e as [[| |fs]|]; auto. destruct v; auto using inverse_sinv. Qed.
  Lemma scan_hints_sinv D t s : incl (tvars t) all -> sinv D s -> sinv D (scan_hints code numc fo t s).
  Proof.
    intros Hi H. unfold scan_hints. destruct t; auto. destruct (code _); auto.
    apply inverse_opt_sinv; [intros t Ht; eapply incl_tran; [eapply arg_vars; eauto|auto]|].
    apply inverse_opt_sinv; [intros t Ht; eapply incl_tran; [eapply arg_vars; eauto|auto]|auto].
  Qed.
  Lemma mark_var_sinv D v s : In v all -> sinv D s -> sinv (fun w => D w \/ w = v) (mark_var v s).
  Proof.
    intros Hv H. apply (note_sinv D v s Hv) in H. unfold mark_var.
    assert (K : In v (map fst (svars (note_var v s))) \/ (32 <= length (svars (note_var v s)))%nat).
    { unfold note_var. destruct (known_var v (svars s)) eqn:K; cbn [orb]; [left; apply known_var_spec; auto|].
      destruct (Z.leb_spec max_clause_vars (Z.of_nat (length (svars s)))) as [L|L]; [right; unfold max_clause_vars in L; lia|].
      left. cbn [svars]. rewrite map_app. apply in_or_app. simpl. auto. }
    destruct H as [A B C E]. set (sv := svars (note_var v s)) in *. clearbody sv.
    assert (M : map fst (map (fun p => if fst p =? v then (fst p, true) else p) sv) = map fst sv).
    { rewrite map_map. apply map_ext. intros [w b]. simpl. destruct (w =? v); auto. }
    split; cbn [svars]; rewrite ?M, ?map_length; auto.
    - intros w Hw. apply in_map_iff in Hw as ([w' b]&Ew&Hw). simpl in Ew. destruct (Z.eqb_spec w' v) as [->|N].
      + right. congruence.
      + injection Ew as -> ->. left. auto.
    - intros w Hw. assert (Y : forall b, In (w, b) sv -> (w = v \/ b = true) -> In (w, true) (map (fun p => if fst p =? v then (fst p, true) else p) sv)).
      { intros b Hb Ho. apply in_map_iff. exists (w, b). split; auto. simpl. destruct (Z.eqb_spec w v); auto.
        destruct Ho; [contradiction|subst; auto]. }
      destruct Hw as [Hw| ->].
      + destruct (E w Hw) as [H|H]; [left; eapply Y; eauto|right; auto].
      + destruct (in_dec Z.eq_dec v (map fst sv)) as [H|H]; [|destruct K; [contradiction|right; auto]].
        apply in_map_iff in H as ([w b]&Ew&Hb). simpl in Ew. subst w. left. eapply Y; eauto.
  Qed.
  Lemma sinv_iff (D D' : Z -> Prop) s : (forall v, D v <-> D' v) -> sinv D s -> sinv D' s.
  Proof. intros H [A B C E]. split; auto; intros v Hv; [apply H|apply E, H]; auto. Qed.
  Definition dir1 (t : term) (v : Z) : Prop := direct code answer [t] v.
  Lemma mark_sinv D t s : incl (tvars t) all -> sinv D s -> sinv (fun v => D v \/ dir1 t v) (mark code answer t s).
  Proof.
    intros Hi H. unfold mark.
    assert (No : (forall v, ~ dir1 t v) -> sinv (fun v => D v \/ dir1 t v) s).
    { intros N. eapply sinv_iff; [|exact H]. intros v. split; auto. intros [X|X]; auto. destruct (N v X). }
    destruct t as [i|c|fs]; try (apply No; intros v (gs&[X|[]]&_); discriminate).
    destruct (answer (TRec fs)) eqn:Ea; [apply No; intros v (gs&[X|[]]&Y&_); injection X as <-; congruence|].
    assert (Nc : code (TRec fs) <> NoComp -> forall v, ~ dir1 (TRec fs) v) by (intros Hn v (gs&[X|[]]&_&Y&_); injection X as <-; auto).
    destruct (code (TRec fs)) eqn:Ec; try (apply No, Nc; congruence).
    assert (X : sinv (fun v => D v \/ In (TVar v) fs) (fold_left (fun s f => match f with TVar v => mark_var v s | _ => s end) fs s)).
    { clear No Nc Ea Ec. cbn [tvars] in Hi. revert D s H Hi. induction fs as [|f fs IH]; intros D s H Hi; cbn [fold_left].
      - eapply sinv_iff; [|exact H]. simpl. tauto.
      - assert (Hi' : incl (flat_map tvars fs) all) by (intros x Hx; apply Hi; simpl; apply in_or_app; auto).
        destruct f as [i|c|gs].
        + assert (Hx : In i all) by (apply Hi; simpl; auto).
          eapply sinv_iff; [|apply (IH (fun w => D w \/ w = i)); [apply mark_var_sinv; auto|exact Hi']].
          intros v. simpl. split; [intros [[Y|Y]|Y]; subst; auto|intros [Y|[Y|Y]]; auto; injection Y as ->; auto].
        + eapply sinv_iff; [|apply (IH D); [exact H|exact Hi']]. intros v. simpl. split; [tauto|]. intros [Y|[Y|Y]]; auto; discriminate.
        + eapply sinv_iff; [|apply (IH D); [exact H|exact Hi']]. intros v. simpl. split; [tauto|]. intros [Y|[Y|Y]]; auto; discriminate. }
    eapply sinv_iff; [|exact X]. intros v. split; intros [Y|Y]; auto; right.
    - exists fs. simpl. auto.
    - destruct Y as (gs&[Z0|[]]&_&_&Y). injection Z0 as <-. auto.
  Qed.
  Lemma scan_lits_sinv : forall ats D s, incl (flat_map tvars ats) all -> sinv D s ->
    sinv (fun v => D v \/ direct code answer ats v) (fold_left scan_lit ats s).
  Proof.
    induction ats as [|a ats IH]; intros D s Hi H; cbn [fold_left].
    - eapply sinv_iff; [|exact H]. intros v. split; auto. intros [X|(fs&[]&_)]; auto.
    - assert (Ha : incl (tvars a) all) by (intros x Hx; apply Hi; simpl; apply in_or_app; auto).
      assert (Hb : incl (flat_map tvars ats) all) by (intros x Hx; apply Hi; simpl; apply in_or_app; auto).
      eapply sinv_iff; [|apply (IH (fun v => D v \/ dir1 a v)); [exact Hb|]].
      + intros v. cbn beta. unfold dir1, direct. split.
        * intros [[X|(fs&[X|[]]&Y)]|(fs&X&Y)]; auto; right; exists fs; simpl; auto.
        * intros [X|(fs&[X|X]&Y)]; auto; [left; right|right]; exists fs; simpl; auto.
      + unfold AgModel.scan_lit. apply mark_sinv; auto. apply scan_hints_sinv; auto. apply scan_term_sinv; auto.
  Qed.
End Cover.

Lemma bindable_direct code numc answer fo ats vs : let s := scan_clause code numc answer fo ats in
  (bindable s vs = true -> exists v, In v vs /\ direct code answer ats v) /\
  (few_vars ats -> bindable s vs = false -> forall v, In v vs -> ~ direct code answer ats v).
Proof.
  intros s. pose proof (scan_lits_sinv code numc answer fo (flat_map tvars ats) ats (fun _ => False) {| fronts := []; svars := []; vals := [] |}
    (incl_refl _)) as H. fold (scan_clause code numc answer fo ats) in H. fold s in H.
  destruct H as [A B C E].
  { split; simpl; auto; try tauto. constructor. }
  unfold bindable. split.
  - intros X. apply existsb_exists in X as (v&Hv&X). apply existsb_exists in X as ([w b]&Hw&X). simpl in X.
    apply andb_prop in X as [X1 X2]. apply Z.eqb_eq in X1. subst. exists v. split; auto. destruct (C v Hw); [contradiction|auto].
  - intros F X v Hv Hd. destruct (E v (or_intror Hd)) as [H|[L N]].
    + assert (Y : existsb (fun v => existsb (fun p => (fst p =? v) && snd p) (svars s)) vs = true); [|congruence].
      apply existsb_exists. exists v. split; auto. apply existsb_exists. exists (v, true). split; auto. simpl. rewrite Z.eqb_refl. auto.
    + assert (Hin : In v (flat_map tvars ats)).
      { destruct Hd as (fs&Hf&_&_&Hx). apply in_flat_map. exists (TRec fs). split; auto. simpl. apply in_flat_map. exists (TVar v). simpl. auto. }
      assert (Hl : (length (v :: map fst (svars s)) <= length (nodup Z.eq_dec (flat_map tvars ats)))%nat).
      { apply NoDup_incl_length; [constructor; auto|]. intros x [<-|Hx]; apply nodup_In; auto. }
      unfold few_vars in F. simpl in Hl. rewrite map_length in Hl. lia.
Qed.
