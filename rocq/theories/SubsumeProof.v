(** The subsumption test is exact. *)
From Coq Require Import List ZArith Bool Lia Permutation Sorting.Sorted.
From Verif Require Import Terms UnifySpec TermsProof UnifyModel UnifyProof MatchModel MatchProof
  TrailModel TrailProof MetaModel MetaProof MetaWordProof SortProof SubsumeModel SubsumeSpec.
Import ListNotations.
Open Scope Z_scope.

Definition lit_of (x : mlit) : literal := (meta_is_neg (fst x), snd x).
Definition lits_of (c : clause) : list literal :=
  match c with Fact a => [(false, a)] | Rule l => map lit_of l end.

(** The predicate of the atom is no variable. *)
Definition headed (a : term) : Prop :=
  match a with TVar _ | TRec (TVar _ :: _) => False | _ => True end.

Section S.
  Variable bh : cst -> Z.
  Variable sb : stray_env.
  Variable one : bool.
  Variable ans : cst.

  (** What the loop compares: the literal, with an answer atom reduced to its predicate. *)
  Definition elit (x : mlit) : literal :=
    if ansl one ans (snd x) then (meta_is_neg (fst x), TRec [TCst ans]) else lit_of x.

  (** The literal carries the fingerprint the prover computes for it. *)
  Definition good_lit (x : mlit) : Prop :=
    hash_fits bh (snd x) /\ nonempty (snd x) = true /\
    fst x = litword bh (meta_is_neg (fst x)) (snd x) /\ headed (snd x).

  Lemma good_lw x : good_lit x -> fst x = lw bh (meta_is_neg (fst x)) (snd x).
  Proof. intros (A&B&C&_). rewrite C at 1. apply litword_lw; auto. Qed.

  (** A real instance passes all three tests of the loop. *)
  Lemma pass x y t : good_lit x -> good_lit y -> inst t (lit_of x) = lit_of y ->
    sort_meta_bigger (fst x) (fst y) = false /\ negpolarities (fst x) (fst y) = false /\
    matchable_lit_meta (fst x) (fst y) = true.
  Proof.
    intros Hx Hy He. unfold inst, lit_of in He; simpl in He. injection He as Hn Ha.
    pose proof (good_lw x Hx) as Ex. pose proof (good_lw y Hy) as Ey.
    destruct Hx as (Fx&_&_). destruct Hy as (Fy&Ny&_).
    destruct (filter_sound bh t (snd x) (snd y) (meta_is_neg (fst x)) Ha Ny Fy) as [A B].
    rewrite Ex, Ey, <- Hn. repeat split; auto. rewrite lw_samepol by auto. apply xorb_nilpotent.
  Qed.

  Lemma ansl_one a : ansl one ans a = true -> one = true.
  Proof. destruct a as [|c|[|[|c|] ts]]; simpl; try discriminate. destruct (cst_eq_dec c ans); auto; discriminate. Qed.

  (** Answer literals go to answer literals, others to others. *)
  Lemma elit_inst x y t : good_lit x -> inst t (elit x) = elit y ->
    (ansl one ans (snd x) = true /\ ansl one ans (snd y) = true /\ meta_is_neg (fst x) = meta_is_neg (fst y)) \/
    (ansl one ans (snd x) = false /\ ansl one ans (snd y) = false /\ inst t (lit_of x) = lit_of y).
  Proof.
    intros (_&_&_&Hh) He. unfold elit in He.
    destruct (ansl one ans (snd x)) eqn:Ex; destruct (ansl one ans (snd y)) eqn:Ey; auto.
    - left. injection He as He. auto.
    - exfalso. apply ansl_one in Ex. unfold inst, lit_of in He. simpl in He. injection He as _ He.
      rewrite <- He in Ey. simpl in Ey. destruct (cst_eq_dec ans ans); congruence.
    - exfalso. apply ansl_one in Ey. unfold inst, lit_of in He. simpl in He. injection He as _ He.
      destruct (snd x) as [|c|[|[i|c|ts'] ts]]; simpl in *; try contradiction; try discriminate.
      injection He as He _. subst c. destruct (cst_eq_dec ans ans); congruence.
  Qed.

  Lemma elit_ans x y t : ansl one ans (snd x) = true -> ansl one ans (snd y) = true ->
    meta_is_neg (fst x) = meta_is_neg (fst y) -> inst t (elit x) = elit y.
  Proof. intros A B C. unfold elit. rewrite A, B, C. reflexivity. Qed.

  Lemma elit_nonans x y t : ansl one ans (snd x) && ansl one ans (snd y) = false ->
    inst t (lit_of x) = lit_of y -> headed (snd x) -> inst t (elit x) = elit y.
  Proof.
    intros A He Hh. unfold elit.
    assert (E : ansl one ans (snd y) = ansl one ans (snd x)).
    { injection He as _ He. rewrite <- He.
      destruct (snd x) as [|c|[|[i|c|ts'] ts]]; simpl in *; try contradiction; reflexivity. }
    rewrite E in *. destruct (ansl one ans (snd x)); [discriminate|auto].
  Qed.

  Fixpoint avail (i : nat) (l : list mlit) (used : nat -> bool) : list mlit :=
    match l with
    | [] => []
    | x :: l' => if used i then avail (S i) l' used else x :: avail (S i) l' used
    end.

  Definition mark (i : nat) (used : nat -> bool) : nat -> bool := fun j => if Nat.eqb j i then true else used j.

  Lemma avail_mark_other l : forall i k used, (k < i)%nat -> avail i l (mark k used) = avail i l used.
  Proof.
    induction l as [|x l IH]; intros i k used H; cbn [avail]; auto.
    unfold mark at 1. destruct (Nat.eqb_spec i k); [lia|]. rewrite IH by lia. reflexivity.
  Qed.

  Lemma avail_mark pre x l used i0 : used (i0 + length pre)%nat = false ->
    Permutation (avail i0 (pre ++ x :: l) used) (x :: avail i0 (pre ++ x :: l) (mark (i0 + length pre) used)).
  Proof.
    revert i0; induction pre as [|y pre IH]; intros i0 Hu; cbn [List.app avail length] in *.
    - rewrite Nat.add_0_r in *. rewrite Hu. unfold mark at 1. rewrite Nat.eqb_refl.
      rewrite avail_mark_other by lia. reflexivity.
    - rewrite Nat.add_succ_r in *. specialize (IH (S i0)). simpl Nat.add in IH. specialize (IH Hu).
      unfold mark at 1. destruct (Nat.eqb_spec i0 (S (i0 + length pre))); [lia|].
      destruct (used i0); auto. rewrite IH. apply perm_swap.
  Qed.

  Lemma avail_in l : forall i used x, In x (avail i l used) -> In x l.
  Proof.
    induction l as [|y l IH]; intros i used x; cbn [avail]; auto.
    destruct (used i); simpl; intros; [right; eauto|]. destruct H; [auto|right; eauto].
  Qed.

  Definition steq (s s' : vst) : Prop := (forall i, bank s' i = bank s i) /\ trail s' = trail s.

  Lemma steq_refl s : steq s s. Proof. split; auto. Qed.
  Lemma steq_trans a b c : steq a b -> steq b c -> steq a c.
  Proof. intros [A B] [C D]. split; [intros; rewrite C; auto|congruence]. Qed.
  Lemma steq_agrees s s' t : steq s s' -> (agrees t (bank s') <-> agrees t (bank s)).
  Proof. intros [A _]. unfold agrees. split; intros H i u E; apply H; [rewrite A|rewrite A in E]; auto. Qed.
  Lemma grown_steq s s' s'' : grown s s' -> steq s' s'' -> grown s s''.
  Proof.
    intros (new&T&D&N&B) [E1 E2]. exists new. rewrite E2. repeat split; auto.
    - apply N; auto.
    - rewrite E1. apply N; auto.
    - intros. rewrite E1. auto.
  Qed.
  Lemma steq_grown s s' s'' : steq s s' -> grown s' s'' -> grown s s''.
  Proof.
    intros [E1 E2] (new&T&D&N&B). exists new. rewrite T, E2. repeat split; auto.
    - rewrite <- E1. apply N; auto.
    - apply N; auto.
    - intros. rewrite B; auto.
  Qed.

  Lemma undo_ok s s' : grown s s' -> steq s (undo_to (length (trail s)) s').
  Proof.
    intros Hg. unfold undo_to. destruct (Nat.eqb_spec (length (trail s')) (length (trail s))) as [E|E].
    - destruct Hg as (new&T&D&N&B). rewrite T, app_length in E. destruct new; [|simpl in E; lia].
      split; auto.
    - destruct (topslice_restores s s' Hg). split; auto.
  Qed.

  (** There is a way to place the literals of [l1] among the available ones. *)
  Definition placeable (l1 : list mlit) (s : vst) (A : list mlit) : Prop :=
    exists t rest, agrees t (bank s) /\ Permutation (map (inst t) (map elit l1) ++ rest) (map elit A).

  Definition aspec (l1 : list mlit) (s : vst) (A : list mlit) (r : sres) : Prop :=
    match r with
    | SStray => True
    | SDone true s' => placeable l1 s A /\ grown s s'
    | SDone false s' => ~ placeable l1 s A /\ steq s s'
    end.

  Lemma placeable_steq l1 s s' A : steq s s' -> (placeable l1 s' A <-> placeable l1 s A).
  Proof.
    intros H. unfold placeable. split; intros (t&rest&X&Y); exists t, rest; split; auto; apply (steq_agrees s s' t H); auto.
  Qed.

  Lemma loop_ok (rec : (nat -> bool) -> vst -> sres) last x l1' L2 :
    good_lit x -> (forall y, In y L2 -> good_lit y) -> StronglySorted ord_ok L2 ->
    (last = true -> l1' = []) ->
    (last = false -> forall used s, aspec l1' s (avail 0 L2 used) (rec used s)) ->
    forall l2 pre used s, L2 = pre ++ l2 ->
    match subs_loop sb one ans rec last (fst x) (snd x) (length pre) l2 used s with
    | SStray => True
    | SDone true s' => placeable (x :: l1') s (avail 0 L2 used) /\ grown s s'
    | SDone false s' => steq s s' /\
        forall t rest, agrees t (bank s) ->
          Permutation (map (inst t) (map elit (x :: l1')) ++ rest) (map elit (avail 0 L2 used)) ->
          ~ In (inst t (elit x)) (map elit (avail (length pre) l2 used))
    end.
  Proof.
    intros Hx HL2 Hso Hlast Hrec. induction l2 as [|y l2 IH]; intros pre used s HL.
    - cbn [subs_loop]. split; [apply steq_refl|]. intros; auto.
    - assert (Es : forall i, subs_loop sb one ans rec last (fst x) (snd x) i (y :: l2) used s =
        subs_loop sb one ans rec last (fst x) (snd x) i ((fst y, snd y) :: l2) used s) by (intros; destruct y; reflexivity).
      rewrite Es. cbn [subs_loop]. clear Es.
      assert (Hy : good_lit y) by (apply HL2; rewrite HL; apply in_or_app; simpl; auto).
      assert (HL' : L2 = (pre ++ [y]) ++ l2) by (rewrite <- app_assoc; auto).
      assert (Hlen : length (pre ++ [y]) = S (length pre)) by (rewrite app_length; simpl; lia).
      cbn [avail]. destruct (used (length pre)) eqn:Eu.
      { specialize (IH (pre ++ [y]) used s HL'). rewrite Hlen in IH. exact IH. }
      (* continuing the loop after y has been ruled out, from an equivalent state *)
      assert (Hcont : forall s1, steq s s1 ->
        (forall t rest, agrees t (bank s) ->
          Permutation (map (inst t) (map elit (x :: l1')) ++ rest) (map elit (avail 0 L2 used)) ->
          inst t (elit x) <> elit y) ->
        match subs_loop sb one ans rec last (fst x) (snd x) (S (length pre)) l2 used s1 with
        | SStray => True
        | SDone true s' => placeable (x :: l1') s (avail 0 L2 used) /\ grown s s'
        | SDone false s' => steq s s' /\
            forall t rest, agrees t (bank s) ->
              Permutation (map (inst t) (map elit (x :: l1')) ++ rest) (map elit (avail 0 L2 used)) ->
              ~ In (inst t (elit x)) (map elit (y :: avail (S (length pre)) l2 used))
        end).
      { intros s1 Hs1 Hno. specialize (IH (pre ++ [y]) used s1 HL'). rewrite Hlen in IH.
        destruct (subs_loop sb one ans rec last (fst x) (snd x) (S (length pre)) l2 used s1) as [[|] s'|]; auto.
        - destruct IH as [A B]. split; [apply (placeable_steq _ s s1); auto|eapply steq_grown; eauto].
        - destruct IH as [A B]. split; [eapply steq_trans; eauto|].
          intros t rest Ht Hp. simpl. intros [Hi|Hi].
          + apply (Hno t rest); auto.
          + apply (B t rest); auto. apply (steq_agrees s s1 t Hs1); auto. }
      destruct (sort_meta_bigger (fst x) (fst y) && negb (ansl one ans (snd x)) && negb (ansl one ans (snd y))) eqn:Eb.
      + apply andb_prop in Eb as [Eb _]. apply andb_prop in Eb as [Eb Enx]. apply negb_true_iff in Enx.
        split; [apply steq_refl|]. intros t rest Ht Hp Hin.
        assert (Hin' : exists z, In z (y :: l2) /\ elit z = inst t (elit x)).
        { simpl in Hin. destruct Hin as [Hi|Hi]; [exists y; simpl; auto|].
          apply in_map_iff in Hi as (z&Hz&Hi). exists z. split; auto. right. eapply avail_in; eauto. }
        destruct Hin' as (z&Hz&Hez0).
        assert (Hgz : good_lit z) by (apply HL2; rewrite HL; apply in_or_app; right; auto).
        destruct (elit_inst x z t Hx (eq_sym Hez0)) as [(A&_)|(_&_&Hez)]; [congruence|].
        destruct (pass x z t Hx Hgz Hez) as (Hb&_&_).
        assert (Hoz : sort_meta_bigger (fst z) (fst y) = false).
        { destruct Hz as [<-|Hz].
          - unfold sort_meta_bigger. destruct (meta_is_ground (fst y)); apply Z.ltb_irrefl.
          - rewrite HL in Hso. apply ss_app_inv in Hso as (_&Hso&_).
            inversion Hso as [|? ? _ Hf]; subst. rewrite Forall_forall in Hf.
            apply Hf in Hz. exact Hz. }
        rewrite (bigger_negtrans (fst y) (fst z) (fst x)) in Eb; auto. discriminate.
      + clear Eb.
        assert (Epol : negpolarities (fst x) (fst y) = false <-> meta_is_neg (fst x) = meta_is_neg (fst y)).
        { assert (Fx := proj1 Hx). assert (Fy := proj1 Hy).
          pose proof (good_lw x Hx) as Lx. pose proof (good_lw y Hy) as Ly.
          rewrite Lx, Ly. rewrite lw_samepol by auto. rewrite <- Lx, <- Ly.
          destruct (meta_is_neg (fst x)), (meta_is_neg (fst y)); simpl; intuition congruence. }
        destruct (negb (negpolarities (fst x) (fst y)) &&
          (ansl one ans (snd x) && ansl one ans (snd y) || matchable_lit_meta (fst x) (fst y))) eqn:Ef.
        2:{ apply Hcont; [apply steq_refl|]. intros t rest Ht Hp He.
            destruct (elit_inst x y t Hx He) as [(A&B&C)|(_&_&He')].
            - apply Epol in C. rewrite A, B, C in Ef. discriminate.
            - destruct (pass x y t Hx Hy He') as (_&A&B).
              rewrite A, B, orb_true_r in Ef. discriminate. }
        apply andb_prop in Ef as [Ef1 Ef2]. apply negb_true_iff in Ef1.
        assert (Hpol : meta_is_neg (fst x) = meta_is_neg (fst y)) by (apply Epol; auto).
        set (M := if ansl one ans (snd x) && ansl one ans (snd y) then MDone true s else match_aux sb (snd x) (snd y) s).
        assert (Hm : match M with
          | MStray => True
          | MDone true s' => grown s s' /\
              (forall t, agrees t (bank s') <-> agrees t (bank s) /\ inst t (elit x) = elit y)
          | MDone false s' => grown s s' /\
              (forall t, agrees t (bank s) -> inst t (elit x) <> elit y)
          end).
        { unfold M. destruct (ansl one ans (snd x) && ansl one ans (snd y)) eqn:Ea.
          - apply andb_prop in Ea as [Ea1 Ea2]. split; [apply grown_refl|]. intros t. split; [|tauto].
            intros Ht. split; auto. apply elit_ans; auto.
          - pose proof (match_spec sb (snd x) (snd y) s) as Hm0.
            destruct (match_aux sb (snd x) (snd y) s) as [[|] s'|] eqn:Em; auto.
            + destruct Hm0 as [Hnew [Hag Hbound]]. split; [eapply match_grown; exact Em|].
              intros t. rewrite Hag. split; intros [H1 H2]; split; auto.
              * apply elit_nonans; auto; [|apply Hx]. unfold inst, lit_of; simpl. congruence.
              * destruct (elit_inst x y t Hx H2) as [(A&B&_)|(_&_&He)]; [rewrite A, B in Ea; discriminate|].
                injection He; auto.
            + destruct Hm0 as [_ Hm0]. split; [eapply match_grown; exact Em|].
              intros t Ht He. apply (Hm0 t Ht).
              destruct (elit_inst x y t Hx He) as [(A&B&_)|(_&_&He')]; [rewrite A, B in Ea; discriminate|].
              injection He'; auto. }
        destruct M as [[|] s'|]; auto.
        2:{ (* match failed *)
            destruct Hm as [Hg Hm]. apply Hcont; [apply undo_ok; auto|].
            intros t rest Ht Hp He. apply (Hm t Ht He). }
        destruct Hm as [Hg Hag].
        pose proof (avail_mark pre y l2 used 0 Eu) as Hperm. simpl Nat.add in Hperm. rewrite <- HL in Hperm.
        fold (mark (length pre) used).
        assert (Hinst : forall t, agrees t (bank s') -> agrees t (bank s) /\ inst t (elit x) = elit y).
        { intros t Ht. apply Hag. auto. }
        assert (Hres : match (if last then SDone true s' else rec (mark (length pre) used) s') with
                       | SStray => True
                       | SDone true s'' => placeable l1' s' (avail 0 L2 (mark (length pre) used)) /\ grown s' s''
                       | SDone false s'' => ~ placeable l1' s' (avail 0 L2 (mark (length pre) used)) /\ steq s' s''
                       end).
        { destruct last.
          - rewrite (Hlast eq_refl). split; [|apply grown_refl].
            destruct (agrees_exists (bank s')) as [t Ht]. exists t, (map elit (avail 0 L2 (mark (length pre) used))).
            split; auto.
          - pose proof (Hrec eq_refl (mark (length pre) used) s') as Hr. unfold aspec in Hr.
            destruct (rec (mark (length pre) used) s') as [[|] s''|]; auto. }
        destruct (if last then SDone true s' else rec (mark (length pre) used) s') as [[|] s''|]; auto.
        * destruct Hres as [(t&rest&Ht&Hp) Hg2]. split; [|eapply grown_trans; eauto].
          destruct (Hinst t Ht) as [Hts Hti]. exists t, rest. split; auto.
          cbn [map]. rewrite Hti. eapply Permutation_trans; [|apply Permutation_map, Permutation_sym; exact Hperm].
          cbn [map List.app]. constructor. exact Hp.
        * destruct Hres as [Hnp Hst].
          assert (Hg3 : grown s s'') by (eapply grown_steq; eauto).
          assert (Hrule : forall t rest, agrees t (bank s') ->
             Permutation (map (inst t) (map elit (x :: l1')) ++ rest) (map elit (avail 0 L2 used)) -> False).
          { intros t rest Ht Hp. apply Hnp. exists t, rest. split; auto.
            destruct (Hinst t Ht) as [_ Hti]. cbn [map] in Hp. rewrite Hti in Hp.
            apply (Permutation_map elit) in Hperm. pose proof (Permutation_trans Hp Hperm) as Hp2.
            cbn [map List.app] in Hp2. apply Permutation_cons_inv in Hp2. exact Hp2. }
          destruct (Nat.eqb_spec (length (trail s')) (length (trail s))) as [Enb|Enb].
          -- split; [apply undo_ok; auto|]. intros t rest Ht Hp _.
             apply (Hrule t rest); auto.
             destruct Hg as (new&T&_&_&B). rewrite T, app_length in Enb.
             destruct new; [|simpl in Enb; lia]. intros i u Hi. apply Ht. rewrite <- B; auto.
          -- apply Hcont; [apply undo_ok; auto|]. intros t rest Ht Hp He.
             apply (Hrule t rest); auto. apply Hag. split; auto.
  Qed.

  Lemma subsume_aux_ok L2 : (forall y, In y L2 -> good_lit y) -> StronglySorted ord_ok L2 ->
    forall l1, l1 <> [] -> (forall x, In x l1 -> good_lit x) ->
    forall used s, aspec l1 s (avail 0 L2 used) (subsume_aux sb one ans l1 L2 used s).
  Proof.
    intros HL2 Hso. induction l1 as [|x l1 IH]; intros Hne Hg used s; [congruence|].
    cbn [subsume_aux]. destruct x as [m1 a1] eqn:Ex.
    pose proof (loop_ok (subsume_aux sb one ans l1 L2) (match l1 with [] => true | _ => false end) x l1 L2) as H.
    rewrite Ex in H. cbn [fst snd] in H.
    specialize (H (Hg _ (or_introl eq_refl)) HL2 Hso).
    assert (H1 : (match l1 with [] => true | _ => false end) = true -> l1 = []) by (destruct l1; auto; discriminate).
    assert (H2 : (match l1 with [] => true | _ => false end) = false ->
      forall used s, aspec l1 s (avail 0 L2 used) (subsume_aux sb one ans l1 L2 used s)).
    { intros Hl. apply IH; [destruct l1; [discriminate|congruence]|]. intros; apply Hg; simpl; auto. }
    specialize (H H1 H2 L2 [] used s eq_refl). cbn [length] in H. unfold aspec.
    destruct (subs_loop sb one ans (subsume_aux sb one ans l1 L2) (match l1 with [] => true | _ => false end) m1 a1 0 L2 used s) as [[|] s'|]; auto.
    destruct H as [A B]. split; auto. intros (t&rest&Ht&Hp). apply (B t rest Ht Hp).
    eapply Permutation_in; [exact Hp|]. simpl. auto.
  Qed.
End S.
