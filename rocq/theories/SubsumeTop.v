(** The subsumption test on whole clauses, and the literal sort that it depends on. *)
From Coq Require Import List ZArith Bool Lia Permutation Sorting.Sorted.
From Verif Require Import Terms UnifySpec TermsProof UnifyModel UnifyProof MatchModel MatchProof
  TrailModel TrailProof MetaModel MetaProof MetaWordProof SortProof SubsumeModel SubsumeSpec SubsumeProof.
Import ListNotations.
Open Scope Z_scope.

Definition clear (s : vst) : Prop := (forall i, bank s i = None) /\ trail s = [].

(** What wr_calc_clause_meta and wr_sort_cl establish for a stored clause: a fact is ground;
    a rule has at least one literal, every literal carries its fingerprint, and the literals
    are in sorted order. *)
Definition stored (bh : cst -> Z) (c : clause) : Prop :=
  match c with
  | Fact a => tvars a = []
  | Rule l => l <> [] /\ (forall x, In x l -> good_lit bh x) /\ StronglySorted ord_ok l
  end.

Lemma clear_consistent s : clear s -> consistent s.
Proof. intros [A B]. split; rewrite B; [constructor|]. intros i. rewrite A. simpl. intuition congruence. Qed.
Lemma clear_agrees s t : clear s -> agrees t (bank s).
Proof. intros [A _] i u H. rewrite A in H. discriminate. Qed.

Lemma gnd_tvars t : gnd t = true <-> tvars t = [].
Proof.
  unfold gnd. rewrite negb_true_iff. induction t as [i|c|ts IH] using term_ind'.
  - simpl. split; discriminate.
  - simpl. tauto.
  - simpl. induction ts as [|t ts IHts]; simpl; [tauto|].
    rewrite existsb_app, orb_false_iff.
    assert (E : forall (a b : list Z), a ++ b = [] <-> a = [] /\ b = []).
    { intros a b. split; [apply app_eq_nil|]. intros [-> ->]; auto. }
    inversion IH as [|? ? Ht Hts]; subst. specialize (IHts Hts). rewrite E. rewrite Ht, IHts. tauto.
Qed.

Section S.
  Variable bh : cst -> Z.
  Variable sb : stray_env.
  Variable one : bool.
  Variable ans : cst.

  Lemma elit_blank x : elit one ans x = if one then blank ans (lit_of x) else lit_of x.
  Proof.
    unfold elit, blank, ansl, lit_of. cbn [snd fst].
    destruct (snd x) as [|c|[|[i|c|ts'] ts]]; try (destruct one; reflexivity).
    destruct (cst_eq_dec c ans), one; reflexivity.
  Qed.

  Definition answer (C D : list literal) (r : sres) : Prop :=
    match r with
    | SStray => True
    | SDone true s' => subsumes C D /\ clear s'
    | SDone false s' => ~ subsumes C D /\ clear s'
    end.

  Lemma subsumes_unit n a D : subsumes [(n, a)] D <-> exists t, In (n, app t a) D.
  Proof.
    split.
    - intros (t&rest&H). exists t. eapply Permutation_in; [exact H|]. simpl; auto.
    - intros (t&H). apply in_split in H as (l1&l2&->). exists t, (l1 ++ l2). simpl. unfold inst; simpl.
      apply Permutation_middle.
  Qed.

  Lemma sorted_rest m1 y l2 : StronglySorted ord_ok (y :: l2) -> sort_meta_bigger m1 (fst y) = true ->
    forall z, In z (y :: l2) -> sort_meta_bigger m1 (fst z) = true.
  Proof.
    intros Hs Hb z [<-|Hz]; auto. inversion Hs as [|? ? _ Hf]; subst. rewrite Forall_forall in Hf.
    specialize (Hf _ Hz). destruct (sort_meta_bigger m1 (fst z)) eqn:E; auto.
    rewrite (bigger_negtrans (fst y) (fst z) m1) in Hb; auto. 
  Qed.

  Lemma subs_unit_ok x l2 : good_lit bh x -> (forall y, In y l2 -> good_lit bh y) -> StronglySorted ord_ok l2 ->
    forall s, clear s -> answer [lit_of x] (map lit_of l2) (subs_unit sb (fst x) (snd x) l2 s).
  Proof.
    intros Hx. induction l2 as [|y l2 IH]; intros Hg Hso s Hs.
    - simpl. split; auto. intros H. apply subsumes_unit in H as (t&[]).
    - assert (Hstep : forall r, answer [lit_of x] (map lit_of l2) r ->
        (forall t, inst t (lit_of x) <> lit_of y) -> answer [lit_of x] (map lit_of (y :: l2)) r).
      { intros [[|] s'|] Hr Hno; simpl in *; auto.
        - destruct Hr as [Hr Hc]. split; auto. apply subsumes_unit in Hr as (t&Ht). apply subsumes_unit.
          exists t. right; auto.
        - destruct Hr as [Hr Hc]. split; auto. intros H. apply Hr. apply subsumes_unit in H as (t&[Ht|Ht]).
          + exfalso. apply (Hno t). symmetry. exact Ht.
          + apply subsumes_unit. eauto. }
      assert (Hgy : good_lit bh y) by (apply Hg; simpl; auto).
      assert (IH' : forall s, clear s -> answer [lit_of x] (map lit_of l2) (subs_unit sb (fst x) (snd x) l2 s)).
      { apply IH; [intros; apply Hg; simpl; auto|]. inversion Hso; auto. }
      assert (Es : subs_unit sb (fst x) (snd x) (y :: l2) s = subs_unit sb (fst x) (snd x) ((fst y, snd y) :: l2) s)
        by (destruct y; reflexivity).
      rewrite Es; clear Es. cbn [subs_unit].
      destruct (sort_meta_bigger (fst x) (fst y)) eqn:Eb.
      { split; auto. intros H. apply subsumes_unit in H as (t&Ht). apply in_map_iff in Ht as (z&Hz&Hin).
        destruct (pass bh x z t Hx (Hg z Hin) (eq_sym Hz)) as (Hb&_).
        rewrite (sorted_rest (fst x) y l2 Hso Eb z Hin) in Hb. discriminate. }
      destruct (negb (negpolarities (fst x) (fst y)) && matchable_lit_meta (fst x) (fst y)) eqn:Ef.
      2:{ apply Hstep; [apply IH'; auto|]. intros t He.
          destruct (pass bh x y t Hx Hgy He) as (_&A&B). rewrite A, B in Ef. discriminate. }
      apply andb_prop in Ef as [Ef1 _].
      assert (Hpol : meta_is_neg (fst x) = meta_is_neg (fst y)).
      { assert (Fx := proj1 Hx). assert (Fy := proj1 Hgy).
        pose proof (good_lw bh x Hx) as Lx. pose proof (good_lw bh y Hgy) as Ly.
        rewrite Lx, Ly in Ef1. rewrite lw_samepol in Ef1 by auto.
        destruct (meta_is_neg (fst x)), (meta_is_neg (fst y)); auto; discriminate. }
      pose proof (match_never_wrong sb (snd x) (snd y) s) as Hm.
      destruct (match_term sb (snd x) (snd y) s) as [r s'|] eqn:Em; [|exact I].
      assert (Hc : clear (clear_varstack s')).
      { apply clear_ok. eapply grown_consistent; [apply clear_consistent; eauto|eapply match_grown; eauto]. }
      destruct r.
      + split; auto. destruct Hm as (t&_&Ht). apply subsumes_unit. exists t. left. rewrite Ht.
        unfold lit_of. congruence.
      + apply Hstep; [apply IH'; auto|]. intros t He. apply (Hm t (clear_agrees s t Hs)).
        unfold inst, lit_of in He; simpl in He. congruence.
  Qed.

  Lemma subs_fact_ok a l2 : tvars a = [] -> (forall y, In y l2 -> good_lit bh y) -> StronglySorted ord_ok l2 ->
    forall s, clear s -> answer [(false, a)] (map lit_of l2) (subs_fact sb a l2 s).
  Proof.
    intros Ha. induction l2 as [|y l2 IH]; intros Hg Hso s Hs.
    - simpl. split; auto. intros H. apply subsumes_unit in H as (t&[]).
    - assert (Hap : forall t, app t a = a).
      { intros t. apply app_ground; auto. }
      assert (Hgy : good_lit bh y) by (apply Hg; simpl; auto).
      assert (IH' : answer [(false, a)] (map lit_of l2) (subs_fact sb a l2 s)).
      { apply IH; auto; [intros; apply Hg; simpl; auto|]. inversion Hso; auto. }
      assert (Hstep : (false, a) <> lit_of y -> answer [(false, a)] (map lit_of (y :: l2)) (subs_fact sb a l2 s)).
      { intros Hno. destruct (subs_fact sb a l2 s) as [[|] s'|]; simpl in *; auto.
        - destruct IH' as [Hr Hc]. split; auto. apply subsumes_unit in Hr as (t&Ht). apply subsumes_unit.
          exists t. right; auto.
        - destruct IH' as [Hr Hc]. split; auto. intros H. apply Hr. apply subsumes_unit in H as (t&[Ht|Ht]).
          + exfalso. apply Hno. rewrite Hap in Ht. auto.
          + apply subsumes_unit. eauto. }
      assert (Es : subs_fact sb a (y :: l2) s = subs_fact sb a ((fst y, snd y) :: l2) s) by (destruct y; reflexivity).
      rewrite Es; clear Es. cbn [subs_fact].
      destruct (meta_is_ground (fst y)) eqn:Eg; simpl negb; cbv iota.
      2:{ split; auto. intros H. apply subsumes_unit in H as (t&Ht). rewrite Hap in Ht.
          apply in_map_iff in Ht as (z&Hz&Hin).
          assert (Hz2 : meta_is_ground (fst z) = false).
          { destruct Hin as [<-|Hin]; auto. inversion Hso as [|? ? _ Hf]; subst. rewrite Forall_forall in Hf.
            specialize (Hf _ Hin). unfold ord_ok, sort_meta_bigger in Hf. rewrite Eg in Hf.
            destruct (meta_is_ground (fst z)); auto; discriminate. }
          pose proof (Hg z Hin) as Hgz. pose proof (good_lw bh z Hgz) as Lz. rewrite Lz in Hz2.
          rewrite lw_isground in Hz2 by apply Hgz. injection Hz as _ Hz.
          rewrite Hz in Hz2. apply gnd_tvars in Ha. congruence. }
      destruct (meta_is_neg (fst y)) eqn:En.
      { apply Hstep. unfold lit_of. congruence. }
      pose proof (equal_term_spec sb a (snd y)) as He.
      destruct (equal_term sb a (snd y)); simpl in He; auto.
      + split; auto. apply subsumes_unit. exists TVar. rewrite Hap. left. unfold lit_of. congruence.
      + apply Hstep. unfold lit_of. congruence.
      + exact I.
  Qed.

  Theorem subsume_cl_ok c1 c2 s : stored bh c1 -> stored bh c2 -> clear s ->
    answer (compared one ans (lits_of c1) (lits_of c1)) (compared one ans (lits_of c1) (lits_of c2))
      (subsume_cl sb one ans c1 c2 s).
  Proof.
    intros H1 H2 Hs.
    assert (Hu : forall x L, compared one ans [x] L = L) by (intros; unfold compared; destruct one; auto).
    destruct c1 as [a1|l1], c2 as [a2|l2]; cbn [lits_of]; unfold subsume_cl.
    - rewrite !Hu. simpl in H1. assert (Hap : forall t, app t a1 = a1).
      { intros t. apply app_ground; auto. }
      pose proof (equal_term_spec sb a1 a2) as He. destruct (equal_term sb a1 a2); simpl in *; auto.
      + split; auto. apply subsumes_unit. exists TVar. rewrite Hap, He. simpl; auto.
      + split; auto. intros H. apply subsumes_unit in H as (t&[H|[]]). rewrite Hap in H. congruence.
    - rewrite !Hu. destruct H2 as (_&Hg&Hso). apply subs_fact_ok; auto.
    - destruct H1 as (Hne&Hg&_). destruct l1 as [|[m1 a1] [|y l1]]; [congruence| |].
      + cbn [map]. rewrite !Hu. change (lit_of (m1, a1)) with (meta_is_neg m1, a1). destruct (meta_is_neg m1) eqn:En.
        * split; auto. intros H. apply subsumes_unit in H as (t&[H|[]]). congruence.
        * pose proof (match_never_wrong sb a1 a2 s) as Hm.
          destruct (match_term sb a1 a2 s) as [r s'|] eqn:Em; [|exact I].
          assert (Hc : clear (clear_varstack s')).
          { apply clear_ok. eapply grown_consistent; [apply clear_consistent; eauto|eapply match_grown; eauto]. }
          destruct r; simpl; split; auto.
          -- destruct Hm as (t&_&Ht). apply subsumes_unit. exists t. rewrite Ht. simpl; auto.
          -- intros H. apply subsumes_unit in H as (t&[H|[]]). apply (Hm t (clear_agrees s t Hs)). congruence.
      + cbn [answer]. split; auto. intros (t&rest&Hp). apply Permutation_length in Hp.
        unfold compared in Hp. destruct one; simpl in Hp; lia.
    - destruct H1 as (Hne&Hg1&_). destruct H2 as (Hne2&Hg2&Hso).
      destruct l1 as [|[m1 a1] [|y l1]]; [congruence| |].
      + cbn [map]. rewrite !Hu. apply (subs_unit_ok (m1, a1)); auto. apply Hg1; simpl; auto.
      + assert (Hcmp : forall l, compared one ans (map lit_of ((m1, a1) :: y :: l1)) (map lit_of l) = map (elit one ans) l).
        { intros l. unfold compared. cbn [map]. destruct one eqn:E1.
          - rewrite map_map. apply map_ext. intros x. rewrite <- E1, elit_blank, E1. reflexivity.
          - apply map_ext. intros x. rewrite <- E1, elit_blank, E1. reflexivity. }
        rewrite !Hcmp.
        destruct (Nat.ltb _ _) eqn:El.
        * apply Nat.ltb_lt in El. split; auto. intros (t&rest&Hp). apply Permutation_length in Hp.
          rewrite app_length, !map_length in Hp. cbn [length] in *. lia.
        * pose proof (subsume_aux_ok bh sb one ans l2 Hg2 Hso _ Hne Hg1 (fun _ => false) s) as Ha.
          assert (Hav : forall l i, avail i l (fun _ => false) = l).
          { induction l as [|z l IHl]; intros i; simpl; [auto|rewrite IHl; auto]. }
          rewrite Hav in Ha. unfold aspec in Ha.
          change (list (Z * term)) with (list mlit) in *. change (Z * term)%type with mlit in *.
          destruct (subsume_aux sb one ans _ l2 (fun _ => false) s) as [[|] s'|] eqn:Er; [| |exact I].
          -- destruct Ha as [(t&rest&_&Hp) Hg]. split; [exists t, rest; auto|].
             apply clear_ok. eapply grown_consistent; [apply clear_consistent; eauto|auto].
          -- destruct Ha as [Hn Hst]. split.
             ++ intros (t&rest&Hp). apply Hn. exists t, rest. split; auto. apply clear_agrees; auto.
             ++ apply clear_ok, clear_consistent. destruct Hst as [A B], Hs as [C D].
                split; [intros; rewrite A; auto|congruence].
  Qed.

  (** No stray read when every word that is neither record nor string looks like no record. *)
  Lemma loop_nostray (rec : (nat -> bool) -> vst -> sres) last m1 a1 : (forall c, sb c = true) ->
    (forall u s, rec u s <> SStray) ->
    forall l2 i u s, subs_loop sb one ans rec last m1 a1 i l2 u s <> SStray.
  Proof.
    intros Hsb Hr. induction l2 as [|[m2 a2] l2 IH]; intros i u s; cbn [subs_loop]; [discriminate|].
    destruct (u i); auto. destruct (sort_meta_bigger m1 m2 && _ && _); [discriminate|].
    destruct (negb (negpolarities m1 m2) && _); auto.
    assert (Hm : (if ansl one ans a1 && ansl one ans a2 then MDone true s else match_aux sb a1 a2 s) <> MStray).
    { destruct (ansl one ans a1 && ansl one ans a2); [discriminate|]. apply (match_nostray sb Hsb a1 a2 s). }
    destruct (if ansl one ans a1 && ansl one ans a2 then MDone true s else match_aux sb a1 a2 s) as [[|] s'|];
      [| |congruence]; auto.
    destruct last; [discriminate|]. specialize (Hr (fun j => if Nat.eqb j i then true else u j) s').
    destruct (rec _ s') as [[|] s''|]; [discriminate| |congruence].
    destruct (Nat.eqb (length (trail s')) (length (trail s))); [discriminate|auto].
  Qed.
  Lemma aux_nostray : (forall c, sb c = true) -> forall l1 l2 u s, subsume_aux sb one ans l1 l2 u s <> SStray.
  Proof.
    intros Hsb. induction l1 as [|[m1 a1] l1 IH]; intros; cbn [subsume_aux]; [discriminate|].
    apply loop_nostray; auto.
  Qed.
  Lemma subsume_answers : (forall c, sb c = true) -> forall c1 c2 s, subsume_cl sb one ans c1 c2 s <> SStray.
  Proof.
    intros Hsb c1 c2 s. destruct c1 as [a1|l1], c2 as [a2|l2]; unfold subsume_cl.
    - pose proof (equal_term_nostray sb Hsb a1 a2). destruct (equal_term sb a1 a2); congruence.
    - induction l2 as [|[m2 a2] l2 IH]; cbn [subs_fact]; [discriminate|].
      destruct (negb (meta_is_ground m2)); [discriminate|]. destruct (meta_is_neg m2); auto.
      pose proof (equal_term_nostray sb Hsb a1 a2). destruct (equal_term sb a1 a2); congruence.
    - destruct l1 as [|[m1 a1] [|y l1]]; try discriminate. destruct (meta_is_neg m1); [discriminate|].
      pose proof (match_nostray sb Hsb a1 a2 s). unfold match_term. destruct (match_aux sb a1 a2 s); simpl; congruence.
    - destruct l1 as [|[m1 a1] [|y l1]].
      + destruct (Nat.ltb _ _); simpl; discriminate.
      + revert s. induction l2 as [|[m2 a2] l2 IH]; intros s; cbn [subs_unit]; [discriminate|].
        destruct (sort_meta_bigger m1 m2); [discriminate|].
        destruct (negb (negpolarities m1 m2) && matchable_lit_meta m1 m2); auto.
        pose proof (match_nostray sb Hsb a1 a2 s). unfold match_term.
        destruct (match_aux sb a1 a2 s) as [[|] s'|]; [discriminate|auto|congruence].
      + destruct (Nat.ltb _ _); [discriminate|].
        match goal with |- finish ?r <> _ => assert (Ha : r <> SStray) by apply aux_nostray, Hsb; destruct r end;
          simpl; congruence.
  Qed.
End S.

Lemma subsume_exact bh one ans c1 c2 s r s' : stored bh c1 -> stored bh c2 -> clear s ->
  subsume_cl (fun _ => true) one ans c1 c2 s = SDone r s' ->
  (r = true <-> subsumes (compared one ans (lits_of c1) (lits_of c1))
                         (compared one ans (lits_of c1) (lits_of c2))) /\ clear s'.
Proof.
  intros H1 H2 Hs E. pose proof (subsume_cl_ok bh (fun _ => true) one ans c1 c2 s H1 H2 Hs) as H. rewrite E in H.
  destruct r; destruct H as [A B]; split; auto; split; auto; try discriminate; tauto.
Qed.

(** Ignoring the arguments of answers only adds yes answers. *)
Lemma blank_inst ans t l : headed (snd l) -> blank ans (inst t l) = inst t (blank ans l).
Proof.
  intros H. unfold blank, inst. destruct l as [n [i|c|[|[i|c|ts'] ts]]]; simpl in *; try contradiction; auto.
  destruct (cst_eq_dec c ans); reflexivity.
Qed.
Lemma compared_weaker one ans (C D : list literal) : (forall l, In l C -> headed (snd l)) ->
  subsumes C D -> subsumes (compared one ans C C) (compared one ans C D).
Proof.
  intros Hh (t&rest&Hp). unfold compared. destruct one; [|exists t, rest; auto].
  destruct C as [|x [|y C]]; [exists t, rest; auto..|].
  exists t, (map (blank ans) rest). apply (Permutation_map (blank ans)) in Hp. rewrite map_app in Hp.
  eapply Permutation_trans; [|exact Hp]. apply Permutation_app_tail.
  rewrite !map_map. erewrite map_ext_in; [apply Permutation_refl|].
  intros l Hl. symmetry. apply blank_inst. auto.
Qed.

Lemma blank_fix ans l : ~ answer_literal ans l -> blank ans l = l.
Proof.
  intros H. unfold blank. destruct l as [n [i|c|[|[i|c|ts'] ts]]]; simpl; auto.
  destruct (cst_eq_dec c ans); auto. exfalso. apply H. exists ts. subst. reflexivity.
Qed.
Lemma blank_back ans l m : blank ans m = l -> ~ answer_literal ans l -> m = l.
Proof.
  intros H Hn. unfold blank in H. destruct m as [n [i|c|[|[i|c|ts'] ts]]]; simpl in *; auto.
  destruct (cst_eq_dec c ans); auto. exfalso. apply Hn. subst. exists []. reflexivity.
Qed.
Lemma perm_blank ans E : forall R D, (forall l, In l E -> ~ answer_literal ans l) ->
  Permutation (E ++ R) (map (blank ans) D) -> exists R', Permutation (E ++ R') D.
Proof.
  induction E as [|e E IH]; intros R D Hn Hp; [exists D; apply Permutation_refl|].
  assert (Hin : In e (map (blank ans) D)) by (eapply Permutation_in; [exact Hp|simpl; auto]).
  apply in_map_iff in Hin as (m&Hm&Hin). assert (m = e) by (eapply blank_back; eauto; apply Hn; simpl; auto).
  subst m. apply in_split in Hin as (D1&D2&->).
  destruct (IH R (D1 ++ D2)) as (R'&HR').
  - intros; apply Hn; simpl; auto.
  - rewrite map_app in *. simpl in Hp. rewrite Hm in Hp.
    apply (Permutation_cons_inv (a := e)). eapply Permutation_trans; [exact Hp|].
    apply Permutation_sym, Permutation_middle.
  - exists R'. simpl. eapply Permutation_trans; [apply perm_skip; exact HR'|]. apply Permutation_middle.
Qed.
Lemma compared_same one ans (C D : list literal) : (forall l, In l C -> headed (snd l)) ->
  (one = true -> forall l, In l C -> ~ answer_literal ans l) ->
  subsumes (compared one ans C C) (compared one ans C D) <-> subsumes C D.
Proof.
  intros Hh Hn. split; [|apply compared_weaker; auto].
  unfold compared. destruct one; auto. specialize (Hn eq_refl).
  destruct C as [|x [|y C]]; auto. intros (t&rest&Hp).
  set (L := x :: y :: C) in *.
  assert (HL : map (blank ans) L = L).
  { rewrite <- (map_id L) at 2. apply map_ext_in. intros l Hl. apply blank_fix. auto. }
  rewrite HL in Hp. destruct (perm_blank ans (map (inst t) L) rest D) as (R'&HR'); auto.
  - intros l Hl. apply in_map_iff in Hl as (m&<-&Hm). intros (ts&He).
    specialize (Hh m Hm). specialize (Hn m Hm). apply Hn. unfold inst in He. simpl in He.
    destruct m as [n [i|c|[|[i|c|ts'] ts0]]]; simpl in *; try contradiction; try discriminate.
    injection He as -> _. exists ts0. reflexivity.
  - exists t, R'. exact HR'.
Qed.

Lemma stored_headed bh c l : stored bh c -> (forall a, c = Fact a -> headed a) ->
  In l (lits_of c) -> headed (snd l).
Proof.
  destruct c as [a|ls]; simpl; intros H Hf Hl.
  - destruct Hl as [<-|[]]. simpl. apply Hf. reflexivity.
  - apply in_map_iff in Hl as (x&<-&Hx). destruct H as (_&H&_). destruct (H x Hx) as (_&_&_&Hh). exact Hh.
Qed.

Lemma subsume_exact_plain bh one ans c1 c2 s r s' : stored bh c1 -> stored bh c2 -> clear s ->
  (one = true -> forall l, In l (lits_of c1) -> ~ answer_literal ans l) ->
  subsume_cl (fun _ => true) one ans c1 c2 s = SDone r s' ->
  (r = true <-> subsumes (lits_of c1) (lits_of c2)) /\ clear s'.
Proof.
  intros H1 H2 Hs Hn E. destruct (subsume_exact bh one ans c1 c2 s r s' H1 H2 Hs E) as [A B].
  split; auto. rewrite A. apply compared_same; auto.
  intros l Hl. apply (stored_headed bh c1 l); auto. intros a ->. simpl in H1.
  destruct a as [i|c|[|[i|c|ts'] ts]]; simpl in *; try exact I; discriminate.
Qed.

Lemma stored_atoms_headed bh c l : stored bh c -> In l (lits_of c) -> headed (snd l).
Proof.
  intros H. apply (stored_headed bh c l H). intros a ->. simpl in H.
  destruct a as [i|c|[|[i|c|ts'] ts]]; simpl in *; try exact I; discriminate.
Qed.

Lemma subsume_found bh one ans c1 c2 s r s' : stored bh c1 -> stored bh c2 -> clear s ->
  subsume_cl (fun _ => true) one ans c1 c2 s = SDone r s' ->
  subsumes (lits_of c1) (lits_of c2) -> r = true.
Proof.
  intros H1 H2 Hs E Hsub. destruct (subsume_exact bh one ans c1 c2 s r s' H1 H2 Hs E) as [A _].
  apply A. apply compared_weaker; auto. intros l Hl. apply (stored_atoms_headed bh c1 l); auto.
Qed.
