(** Candidate lists: no number twice, bounded, in order; the scan of a clause. *)
From Coq Require Import List ZArith Bool Lia Permutation Sorted.
From Verif Require Import Terms AgModel AgSpec.
Import ListNotations.
Open Scope Z_scope.

Lemma num_eqb_spec a b : reflect (a = b) (num_eqb a b).
Proof.
  destruct a, b; simpl; try (constructor; congruence); destruct (Z.eqb_spec z z0) || destruct (Z.eqb_spec r r0); constructor; congruence.
Qed.

Definition good (l : list cand) : Prop := NoDup (map cnum l) /\ (length l <= 32)%nat.
Definition ext (l l' : list cand) : Prop := (forall v r, offered v r l -> offered v r l') /\ (length l <= length l')%nat.
Lemma ext_refl l : ext l l. Proof. split; auto. Qed.
Lemma ext_trans a b c : ext a b -> ext b c -> ext a c.
Proof. intros [A B] [C D]. split; [auto|lia]. Qed.

Lemma better_some v rank : forall l l', better v rank l = Some l' ->
  map cnum l' = map cnum l /\ (forall w r, offered w r l -> offered w r l') /\ offered v rank l'.
Proof.
  induction l as [|c l IH]; intros l'; cbn [better]; [discriminate|].
  destruct (num_eqb_spec (cnum c) v) as [E|E].
  - intros X. injection X as <-. split; [reflexivity|]. split.
    + intros w r (x&[<-|Hx]&Hw&Hr); [|exists x; simpl; auto].
      eexists. split; [left; reflexivity|]. cbn [cnum crank]. split; auto. destruct (Z.ltb_spec rank (crank c)); lia.
    + eexists. split; [left; reflexivity|]. cbn [cnum crank]. split; auto. destruct (Z.ltb_spec rank (crank c)); lia.
  - destruct (better v rank l) as [m|] eqn:B; [|discriminate]. intros X. injection X as <-.
    destruct (IH m eq_refl) as (P&Q&(y&Hy&Hy2)). split; [simpl; congruence|]. split.
    + intros w r (x&[<-|Hx]&Hw&Hr); [exists c; simpl; auto|].
      destruct (Q w r) as (z&Hz&Hz2); [exists x; auto|]. exists z. split; [right; auto|auto].
    + exists y. split; [right; auto|auto].
Qed.
Lemma better_none v rank : forall l, better v rank l = None -> ~ In v (map cnum l).
Proof.
  induction l as [|c l IH]; cbn [better]; [intros _ []|]. destruct (num_eqb_spec (cnum c) v) as [E|E]; [discriminate|].
  destruct (better v rank l) eqn:B; [discriminate|]. intros _ [H|H]; [auto|]. apply IH; auto.
Qed.
Lemma map_len l l' : map cnum l' = map cnum l -> length l' = length l.
Proof. intros H. rewrite <- (map_length cnum l), <- H. symmetry. apply map_length. Qed.

Lemma add_value_ext v r l : ext l (add_value v r l).
Proof.
  unfold add_value. destruct (better v r l) as [m|] eqn:B.
  - apply better_some in B as (A&C&_). split; auto. rewrite (map_len _ _ A). lia.
  - destruct (_ <=? _); [apply ext_refl|]. split; [|rewrite app_length; simpl; lia].
    intros w q (x&Hx&H). exists x. split; auto. apply in_or_app. auto.
Qed.
Lemma add_value_good v r l : good l -> good (add_value v r l).
Proof.
  intros [A B]. unfold add_value. destruct (better v r l) as [m|] eqn:E.
  - apply better_some in E as (C&_). split; [rewrite C; auto|]. rewrite (map_len _ _ C). auto.
  - destruct (Z.leb_spec max_local (Z.of_nat (length l))) as [H|H]; [split; auto|]. split.
    + rewrite map_app. simpl. apply better_none in E. apply NoDup_Add with (a := v) (l := map cnum l).
      * rewrite <- (app_nil_r (map cnum l)) at 1. apply Add_app.
      * split; auto.
    + rewrite app_length. simpl. unfold max_local in H. lia.
Qed.
Lemma add_value_offers v r l : (length (add_value v r l) < 32)%nat -> offered v r (add_value v r l).
Proof.
  unfold add_value. destruct (better v r l) as [m|] eqn:E.
  - intros _. apply better_some in E as (_&_&E). auto.
  - destruct (Z.leb_spec max_local (Z.of_nat (length l))) as [H|H]; [unfold max_local in H; lia|].
    intros _. eexists. split; [apply in_or_app; right; left; reflexivity|]. simpl. split; auto; lia.
Qed.
Lemma add_value_opt_ext v r l : ext l (add_value_opt v r l).
Proof. destruct v; simpl; [apply add_value_ext|apply ext_refl]. Qed.
Lemma add_value_opt_good v r l : good l -> good (add_value_opt v r l).
Proof. destruct v; simpl; auto using add_value_good. Qed.

(** Sorting. *)
Definition ge (x y : cand) : Prop := cand_ltb x y = false.
Lemma lt_ge x y : cand_ltb x y = true -> ge y x.
Proof.
  unfold ge, cand_ltb. generalize (units (cnum x)) (units (cnum y)) (kind (cnum x)) (kind (cnum y)). intros a b k l.
  repeat match goal with |- context [Z.eqb ?p ?q] => destruct (Z.eqb_spec p q); simpl end;
  repeat match goal with |- context [Z.ltb ?p ?q] => destruct (Z.ltb_spec p q); simpl end; try congruence; try lia.
Qed.
Lemma ge_trans x y z : ge x y -> ge y z -> ge x z.
Proof.
  unfold ge, cand_ltb. generalize (units (cnum x)) (units (cnum y)) (units (cnum z)) (kind (cnum x)) (kind (cnum y)) (kind (cnum z)). intros a b c k l m.
  generalize (crank x) (crank y) (crank z). intros p q r.
  destruct (Z.eqb_spec p q), (Z.eqb_spec q r), (Z.eqb_spec p r); simpl; try lia;
  rewrite ?Z.ltb_ge; try lia; subst;
  destruct (Z.eqb_spec (Z.abs a) (Z.abs b)), (Z.eqb_spec (Z.abs b) (Z.abs c)), (Z.eqb_spec (Z.abs a) (Z.abs c)); simpl; try lia;
  rewrite ?Z.ltb_ge; try lia;
  destruct (Z.eqb_spec k l), (Z.eqb_spec l m), (Z.eqb_spec k m); simpl; try lia;
  rewrite ?Z.ltb_ge; try lia.
Qed.
Lemma put_back_perm x : forall l, Permutation (put_back x l) (x :: l).
Proof.
  induction l as [|y l IH]; simpl; auto. destruct (cand_ltb x y); auto.
  rewrite IH. apply perm_swap.
Qed.
Lemma put_back_sorted x : forall l, StronglySorted ge l -> StronglySorted ge (put_back x l).
Proof.
  induction l as [|y l IH]; simpl; intros H; [repeat constructor|].
  inversion H as [|? ? H1 H2]; subst. destruct (cand_ltb x y) eqn:E.
  - constructor; auto. eapply Permutation_Forall; [symmetry; apply put_back_perm|]. constructor; auto. apply lt_ge; auto.
  - constructor; auto. constructor; auto. eapply Forall_impl; [|exact H2]. intros z Hz. eapply ge_trans; eauto.
Qed.
Lemma sort_values_perm l : Permutation (sort_values l) l.
Proof.
  unfold sort_values. rewrite <- Permutation_rev.
  enough (H : forall l a, Permutation (fold_left (fun acc x => put_back x acc) l a) (l ++ a)) by (rewrite H, app_nil_r; auto).
  clear l. induction l as [|x l IH]; intros a; simpl; auto. rewrite IH, put_back_perm. symmetry. apply Permutation_middle.
Qed.
Lemma sort_values_rsorted l : StronglySorted ge (rev (sort_values l)).
Proof.
  unfold sort_values. rewrite rev_involutive.
  enough (H : forall l a, StronglySorted ge a -> StronglySorted ge (fold_left (fun acc x => put_back x acc) l a)) by (apply H; constructor).
  clear l. induction l as [|x l IH]; intros a H; simpl; auto. apply IH. apply put_back_sorted; auto.
Qed.
Definition le (x y : cand) : Prop := cand_ltb y x = false.
Lemma sorted_last : forall (l : list cand) a, StronglySorted ge (l ++ [a]) -> StronglySorted ge l /\ Forall (fun y => ge y a) l.
Proof.
  induction l as [|x l IH]; intros a H; [split; constructor|]. simpl in H. inversion H as [|? ? H1 H2]; subst.
  destruct (IH a H1) as [A B]. rewrite Forall_app in H2. destruct H2 as [H2 H3]. inversion H3; subst. split; constructor; auto.
Qed.
Lemma sorted_rev : forall l, StronglySorted ge (rev l) -> StronglySorted le l.
Proof.
  induction l as [|a l IH]; intros H; [constructor|]. simpl in H. apply sorted_last in H as [A B]. constructor; auto.
  rewrite Forall_forall in *. intros x Hx. apply B. rewrite <- in_rev. auto.
Qed.
Lemma before_ltb x y : before x y -> cand_ltb x y = true.
Proof.
  unfold before, cand_ltb. change (value (cnum x)) with (units (cnum x)). change (value (cnum y)) with (units (cnum y)).
  intros [H|(H&[G|(G&F)])].
  - destruct (Z.eqb_spec (crank x) (crank y)); [lia|]. apply Z.ltb_lt; auto.
  - rewrite H, Z.eqb_refl. cbn [negb]. destruct (Z.eqb_spec (Z.abs (units (cnum x))) (Z.abs (units (cnum y)))); [lia|].
    apply Z.ltb_lt; auto.
  - rewrite H, G, !Z.eqb_refl. cbn [negb]. destruct (cnum x), (cnum y); cbn [kind Z.eqb Pos.eqb negb Z.ltb Z.compare Pos.compare Pos.compare_cont]; try easy;
    apply Z.ltb_lt; auto.
Qed.
Lemma sorted_nth (l : list cand) : StronglySorted le l -> in_order l.
Proof.
  induction 1 as [|a l H IH F]; intros i j x y Hij Hi Hj; [destruct i; discriminate|].
  destruct j as [|j]; [lia|]. destruct i as [|i]; simpl in *.
  - injection Hi as <-. rewrite Forall_forall in F. intros B. apply before_ltb in B.
    rewrite (F y) in B; [discriminate|]. eapply nth_error_In; eauto.
  - apply (IH i j); auto. lia.
Qed.
Lemma sort_values_in_order l : in_order (sort_values l).
Proof. apply sorted_nth, sorted_rev, sort_values_rsorted. Qed.
Lemma perm_good l l' : Permutation l' l -> good l -> good l'.
Proof.
  intros P [A B]. split; [|rewrite (Permutation_length P); auto].
  eapply Permutation_NoDup; [|exact A]. apply Permutation_map. symmetry. auto.
Qed.
Lemma perm_ext l l' : Permutation l' l -> ext l l'.
Proof.
  intros P. split; [|rewrite (Permutation_length P); auto]. intros v r (x&Hx&H). exists x. split; auto.
  eapply Permutation_in; [symmetry; exact P|auto].
Qed.

Section Scan.
  Variable code : term -> comp.
  Variable numc : cst -> option num.
  Variable answer : term -> bool.
  Variable fo : fops.
  Notation scan_term := (scan_term code numc fo).
  Notation decode_arg := (decode_arg code numc).

  Definition vgrow (s s' : scan) : Prop := ext (vals s) (vals s') /\ (good (vals s) -> good (vals s')).
  Lemma vgrow_refl s : vgrow s s. Proof. split; auto using ext_refl. Qed.
  Lemma vgrow_trans a b c : vgrow a b -> vgrow b c -> vgrow a c.
  Proof. intros [A B] [C D]. split; eauto using ext_trans. Qed.
  Lemma vgrow_same s s' : vals s' = vals s -> vgrow s s'.
  Proof. intros E. unfold vgrow. rewrite E. split; auto using ext_refl. Qed.

  Lemma note_var_same v s : vals (note_var v s) = vals s /\ fronts (note_var v s) = fronts s.
  Proof. unfold note_var. destruct (_ || _); auto. Qed.

  (** What [collect] gathers. *)
  Lemma collect_spec mx : forall t vs s, NoDup vs ->
    let r := collect mx t (vs, s) in
    vals (snd r) = vals s /\ fronts (snd r) = fronts s /\ NoDup (fst r) /\ incl vs (fst r) /\
    (forall v, In v (fst r) -> In v vs \/ In v (tvars t)) /\
    (Z.of_nat (length (fst r)) < mx -> incl (tvars t) (fst r)) /\ (length vs <= length (fst r))%nat.
  Proof.
    intros t. induction t as [i|c|fs IH] using term_ind'; intros vs s Hn; cbn [collect tvars].
    - cbn [fst snd]. destruct (note_var_same i s) as [A B].
      destruct (existsb (Z.eqb i) vs) eqn:E.
      + cbn [fst snd]. rewrite A, B. do 3 (split; [auto|]). split; [apply incl_refl|]. split; [auto|]. split; [|lia].
        intros _ x [<-|[]]. apply existsb_exists in E as (y&Hy&Ey). apply Z.eqb_eq in Ey. congruence.
      + destruct (Z.ltb_spec (Z.of_nat (length vs)) mx) as [L|L]; cbn [fst snd]; rewrite A, B.
        * split; [auto|]. split; [auto|]. split; [|split; [|split; [|split]]].
          -- apply NoDup_Add with (a := i) (l := vs); [rewrite <- (app_nil_r vs) at 1; apply Add_app|]. split; auto.
             intros H. assert (X : existsb (Z.eqb i) vs = true) by (apply existsb_exists; exists i; split; auto; apply Z.eqb_refl). congruence.
          -- intros x Hx. apply in_or_app. auto.
          -- intros v Hv. apply in_app_or in Hv as [H|[<-|[]]]; simpl; auto.
          -- intros _ x [<-|[]]. apply in_or_app. simpl. auto.
          -- rewrite app_length. lia.
        * do 3 (split; [auto|]). split; [apply incl_refl|]. split; [auto|]. split; [lia|lia].
    - cbn [fst snd]. do 3 (split; [auto|]). split; [apply incl_refl|]. split; [auto|]. split; [intros _ x []|lia].
    - revert vs s Hn. induction IH as [|f fs Hf _ IH]; intros vs s Hn; cbn [fold_left flat_map].
      + cbn [fst snd]. do 3 (split; [auto|]). split; [apply incl_refl|]. split; [auto|]. split; [intros _ x []|lia].
      + specialize (Hf vs s Hn). destruct (collect mx f (vs, s)) as [vs1 s1]. cbn [fst snd] in Hf.
        destruct Hf as (A&B&C&D&E&F&G). specialize (IH vs1 s1 C). cbn [fst snd] in *.
        destruct IH as (A1&B1&C1&D1&E1&F1&G1). split; [congruence|]. split; [congruence|]. split; [auto|].
        split; [eapply incl_tran; eauto|]. split; [|split; [|lia]].
        * intros v Hv. rewrite in_app_iff. destruct (E1 v Hv) as [H|H]; auto. destruct (E v H); auto.
        * intros L. apply incl_app; auto. eapply incl_tran; [apply F; lia|auto].
  Qed.

  Definition capped (mx : Z) (l acc : list Z) : list Z :=
    fold_left (fun acc v => if existsb (Z.eqb v) acc then acc else if Z.of_nat (length acc) <? mx then acc ++ [v] else acc) l acc.
  Lemma collect_capped mx : forall t a, fst (collect mx t a) = capped mx (tvars t) (fst a).
  Proof.
    intros t. induction t as [i|c|fs IH] using term_ind'; intros a; cbn [collect tvars]; [| reflexivity|].
    - unfold capped. cbn [fold_left]. destruct (existsb _ _); auto. destruct (_ <? _); auto.
    - revert a. induction IH as [|f fs Hf _ IH]; intros a; cbn [fold_left flat_map]; [reflexivity|].
      unfold capped. rewrite fold_left_app. fold (capped mx (tvars f) (fst a)). rewrite <- Hf. apply IH.
  Qed.
  Lemma collect_once mx t s vs s1 : collect mx t ([], s) = (vs, s1) -> vs = capped mx (tvars t) [].
  Proof. intros H. change vs with (fst (vs, s1)). rewrite <- H. apply collect_capped. Qed.
  Definition uncapped (l acc : list Z) : list Z := fold_left (fun acc v => if existsb (Z.eqb v) acc then acc else acc ++ [v]) l acc.
  Lemma capped_cons mx v l acc : capped mx (v :: l) acc =
    capped mx l (if existsb (Z.eqb v) acc then acc else if Z.of_nat (length acc) <? mx then acc ++ [v] else acc).
  Proof. reflexivity. Qed.
  Lemma uncapped_cons v l acc : uncapped (v :: l) acc = uncapped l (if existsb (Z.eqb v) acc then acc else acc ++ [v]).
  Proof. reflexivity. Qed.
  Lemma capped_len mx : forall l acc, (length acc <= length (capped mx l acc))%nat.
  Proof.
    induction l as [|v l IH]; intros acc; [auto|]. rewrite capped_cons.
    eapply Nat.le_trans; [|apply IH]. destruct (existsb _ _); auto. destruct (_ <? _); auto. rewrite app_length. lia.
  Qed.
  Lemma uncapped_len : forall l acc, (length acc <= length (uncapped l acc))%nat.
  Proof.
    induction l as [|v l IH]; intros acc; [auto|]. rewrite uncapped_cons.
    eapply Nat.le_trans; [|apply IH]. destruct (existsb _ _); auto. rewrite app_length. lia.
  Qed.
  Lemma capped_eq mx : forall l acc, Z.of_nat (length (capped mx l acc)) < mx -> capped mx l acc = uncapped l acc.
  Proof.
    induction l as [|v l IH]; intros acc; [auto|]. rewrite capped_cons, uncapped_cons.
    destruct (existsb _ _); auto. destruct (Z.ltb_spec (Z.of_nat (length acc)) mx) as [L|L]; auto.
    intros H. pose proof (capped_len mx l acc). lia.
  Qed.
  Lemma uncapped_eq mx : forall l acc, Z.of_nat (length (uncapped l acc)) <= mx -> capped mx l acc = uncapped l acc.
  Proof.
    induction l as [|v l IH]; intros acc; [auto|]. rewrite capped_cons, uncapped_cons.
    destruct (existsb _ _) eqn:E; auto. intros H. pose proof (uncapped_len l (acc ++ [v])) as Hl. rewrite app_length in Hl. simpl in Hl.
    destruct (Z.ltb_spec (Z.of_nat (length acc)) mx) as [L|L]; auto. lia.
  Qed.
  Lemma capped_once mx t : Z.of_nat (length (capped mx (tvars t) [])) < mx -> capped mx (tvars t) [] = term_vars t.
  Proof. intros H. apply capped_eq in H. exact H. Qed.

  (** A frontier comes from an arithmetic term of an atom. *)
  Definition from (P : term -> Prop) (vs : list Z) : Prop :=
    NoDup vs /\ (length vs = 1 \/ length vs = 2)%nat /\
    exists u, P u /\ arith (code u) = true /\ vs = term_vars u.
  Definition fok (P : term -> Prop) (s : scan) : Prop := NoDup (fronts s) /\ (length (fronts s) <= 32)%nat /\ Forall (from P) (fronts s).
  Definition step (P : term -> Prop) (s s' : scan) : Prop := vgrow s s' /\ (fok P s -> fok P s').
  Lemma step_refl P s : step P s s. Proof. split; auto using vgrow_refl. Qed.
  Lemma step_trans P a b c : step P a b -> step P b c -> step P a c.
  Proof. intros [A B] [C D]. split; eauto using vgrow_trans. Qed.
  Lemma step_fronts P s s' : fronts s' = fronts s -> vgrow s s' -> step P s s'.
  Proof. intros E H. split; auto. unfold fok. rewrite E. auto. Qed.

  Lemma add_frontier_step (P : term -> Prop) t s : P t -> arith (code t) = true -> step P s (add_frontier t s).
  Proof.
    intros Ht Ha. unfold add_frontier. pose proof (collect_spec max_clause_vars t [] s (NoDup_nil _)) as H.
    destruct (collect max_clause_vars t ([], s)) as [vs s1] eqn:Ec. cbn [fst snd] in H. destruct H as (A&B&C&D&E&F&G).
    destruct (Z.ltb_spec (Z.of_nat (length vs)) 1) as [L1|L1]; cbn [orb]; [apply step_fronts; auto using vgrow_same|].
    destruct (Z.ltb_spec 2 (Z.of_nat (length vs))) as [L2|L2]; cbn [orb]; [apply step_fronts; auto using vgrow_same|].
    destruct (existsb (same_vars vs) (fronts s1)) eqn:X; [apply step_fronts; auto using vgrow_same|].
    destruct (Z.leb_spec max_frontiers (Z.of_nat (length (fronts s1)))) as [L3|L3]; [apply step_fronts; auto using vgrow_same|].
    split; [apply vgrow_same; simpl; auto|]. intros (N&L&Q). unfold fok. cbn [fronts]. rewrite B. split; [|split].
    - apply NoDup_Add with (a := vs) (l := fronts s); [rewrite <- (app_nil_r (fronts s)) at 1; apply Add_app|]. split; auto.
      intros H. rewrite <- B in H. assert (Y : existsb (same_vars vs) (fronts s1) = true); [|congruence].
      apply existsb_exists. exists vs. split; auto. unfold same_vars. destruct (list_eq_dec Z.eq_dec vs vs); auto.
    - rewrite app_length. simpl. rewrite B in L3. unfold max_frontiers in L3. lia.
    - apply Forall_app. split; auto. constructor; [|constructor]. split; auto. split; [lia|].
      exists t. split; auto. split; auto. apply collect_once in Ec. subst vs. apply capped_once. clear -L2. unfold max_clause_vars in *. lia.
  Qed.

  Lemma set_vals_step P s l : ext (vals s) l -> (good (vals s) -> good l) -> step P s (set_vals s l).
  Proof. intros A B. apply step_fronts; auto. split; auto. Qed.
  Lemma add_number_step P v s : step P s (add_number v s).
  Proof.
    apply set_vals_step; destruct v; eauto using ext_trans, add_value_ext, add_value_opt_ext, add_value_good, add_value_opt_good.
  Qed.
  Lemma add_boundary_step P v s : step P s (add_boundary fo v s).
  Proof.
    apply set_vals_step; destruct v; eauto using ext_trans, add_value_ext, add_value_opt_ext, add_value_good, add_value_opt_good.
  Qed.
  Lemma add_boundary_opt_step P v s : step P s (add_boundary_opt fo v s).
  Proof. destruct v; simpl; auto using add_boundary_step, step_refl. Qed.
  Lemma note_var_step P v s : step P s (note_var v s).
  Proof. destruct (note_var_same v s). apply step_fronts; auto using vgrow_same. Qed.

  Lemma scan_term_step (P : term -> Prop) : forall t s, (forall u, subterm u t -> P u) -> step P s (scan_term t s).
  Proof.
    intros t. induction t as [i|c|fs IH] using term_ind'; intros s HP; cbn [AgModel.scan_term].
    - cbn. apply note_var_step.
    - destruct (decode code numc (TCst c)); auto using add_number_step, step_refl.
    - destruct (decode code numc (TRec fs)); [apply add_number_step|].
      set (s1 := if arith (code (TRec fs)) then add_frontier (TRec fs) s else s).
      assert (H1 : step P s s1).
      { unfold s1. destruct (arith (code (TRec fs))) eqn:E; [|apply step_refl]. apply add_frontier_step; auto. apply HP. constructor. }
      set (s2 := match code (TRec fs) with CCompare => scan_comparison code numc fo (TRec fs) s1 | _ => s1 end).
      assert (H2 : step P s s2).
      { unfold s2. destruct (code (TRec fs)); auto. eapply step_trans; [exact H1|]. unfold scan_comparison.
        eapply step_trans; apply add_boundary_opt_step. }
      eapply step_trans; [exact H2|]. clearbody s2. clear s1 H1 H2.
      assert (HP' : forall f u, In f fs -> subterm u f -> P u) by (intros f u Hf Hu; apply HP; econstructor; eauto).
      clear HP. revert s2. induction IH as [|f fs Hf _ IH]; intros s2; cbn [fold_left]; [apply step_refl|].
      eapply step_trans; [apply Hf; intros u Hu; apply (HP' f); simpl; auto|]. apply IH. intros f' u H. apply HP'. simpl. auto.
  Qed.

  Lemma inverse_step P e v s : step P s (inverse code numc fo e v s).
  Proof.
    unfold inverse. destruct (code e); try apply step_refl;
    (pose proof (collect_spec 3 e [] s (NoDup_nil _)) as H; destruct (collect 3 e ([], s)) as [vs s1]; cbn [fst snd] in H;
     destruct H as (A&B&_);
     destruct (negb _); [apply step_fronts; auto using vgrow_same|];
     eapply step_trans; [apply step_fronts; [exact B|apply vgrow_same; exact A]|];
     repeat match goal with |- context [match (if ?b then _ else _) with _ => _ end] => destruct b end;
     repeat match goal with |- context [match decode_arg ?i e with _ => _ end] => destruct (decode_arg i e) end;
     try apply step_refl; apply set_vals_step; auto using add_value_opt_ext, add_value_opt_good).
  Qed.
  Lemma inverse_opt_step P e v s : step P s (inverse_opt code numc fo e v s).
  Proof. unfold inverse_opt. destruct e as [[| |fs]|]; try apply step_refl. destruct v; [apply inverse_step|apply step_refl]. Qed.
  Lemma scan_hints_step P t s : step P s (scan_hints code numc fo t s).
  Proof.
    unfold scan_hints. destruct t; try apply step_refl. destruct (code _); try apply step_refl.
    eapply step_trans; apply inverse_opt_step.
  Qed.
  Lemma mark_var_step P v s : step P s (mark_var v s).
  Proof.
    unfold mark_var. destruct (note_var_same v s) as [A B]. apply step_fronts; [simpl; auto|]. apply vgrow_same. simpl. auto.
  Qed.
  Lemma mark_step P t s : step P s (mark code answer t s).
  Proof.
    unfold mark. destruct t as [| |fs]; try apply step_refl. destruct (answer _); [apply step_refl|].
    destruct (code _); try apply step_refl. revert s. induction fs as [|f fs IH]; intros s; cbn [fold_left]; [apply step_refl|].
    eapply step_trans; [|apply IH]. destruct f; auto using step_refl, mark_var_step.
  Qed.

  Lemma scan_lits_step (P : term -> Prop) : forall ats s, (forall a u, In a ats -> subterm u a -> P u) ->
    step P s (fold_left (scan_lit code numc answer fo) ats s).
  Proof.
    induction ats as [|a ats IH]; intros s HP; cbn [fold_left]; [apply step_refl|].
    eapply step_trans; [|apply IH; intros a' u H; apply HP; simpl; auto]. unfold scan_lit.
    eapply step_trans; [apply scan_term_step; intros u; apply HP; simpl; auto|].
    eapply step_trans; [apply scan_hints_step|apply mark_step].
  Qed.
  Definition inside (ats : list term) (u : term) : Prop := exists a, In a ats /\ subterm u a.
  Lemma scan_clause_ok ats : let s := scan_clause code numc answer fo ats in good (vals s) /\ fok (inside ats) s.
  Proof.
    destruct (scan_lits_step (inside ats) ats {| fronts := []; svars := []; vals := [] |}) as [[_ A] B].
    - intros a u Ha Hu. exists a. auto.
    - split.
      + apply A. split; simpl; [constructor|lia].
      + apply B. split; [constructor|]. split; simpl; [lia|constructor].
  Qed.

  (** Bounds of comparisons are offered as long as there is room. *)
  Lemma boundary_offers v s : (length (vals (add_boundary fo v s)) < 32)%nat -> offered v 20 (vals (add_boundary fo v s)) /\
    match v with
    | NInt z => (in64 (z - 1) = true -> offered (NInt (z - 1)) 30 (vals (add_boundary fo v s))) /\
                (in64 (z + 1) = true -> offered (NInt (z + 1)) 30 (vals (add_boundary fo v s)))
    | NReal _ => True
    end.
  Proof.
    assert (O : forall v r l, (length (add_value_opt (Some v) r l) < 32)%nat -> offered v r (add_value_opt (Some v) r l))
      by (intros; apply add_value_offers; auto).
    destruct v as [z|r]; unfold add_boundary; cbn [vals set_vals].
    - set (l1 := add_value (NInt z) 20 (vals s)).
      set (l2 := add_value_opt (checked (z - 1)) 30 l1).
      pose proof (add_value_opt_ext (checked (z + 1)) 30 l2) as [A3 B3].
      pose proof (add_value_opt_ext (checked (z - 1)) 30 l1) as [A2 B2]. fold l2 in A2, B2.
      intros L. split; [|split].
      + apply A3, A2. apply add_value_offers. fold l1. lia.
      + intros H. apply A3. unfold l2, checked. rewrite H. apply O. assert (X : add_value_opt (Some (NInt (z - 1))) 30 l1 = l2)
          by (unfold l2, checked; rewrite H; reflexivity). rewrite X. lia.
      + intros H. unfold checked at 1. rewrite H. apply O. unfold checked in L at 1. rewrite H in L. auto.
    - set (l1 := add_value (NReal r) 20 (vals s)).
      set (l2 := add_value_opt (real_opt (f_sub fo r (f_one fo))) 30 l1).
      pose proof (add_value_opt_ext (real_opt (f_add fo r (f_one fo))) 30 l2) as [A3 B3].
      pose proof (add_value_opt_ext (real_opt (f_sub fo r (f_one fo))) 30 l1) as [A2 B2]. fold l2 in A2, B2.
      intros L. split; auto. apply A3, A2. apply add_value_offers. fold l1. lia.
  Qed.

  (** Every arithmetic term with one or two variables gives a frontier while there is room. *)
  Definition covers (s : scan) (u : term) : Prop :=
    arith (code u) = true -> (length (term_vars u) = 1 \/ length (term_vars u) = 2)%nat -> In (term_vars u) (fronts s) \/ (32 <= length (fronts s))%nat.
  Definition fgrow (s s' : scan) : Prop := incl (fronts s) (fronts s') /\ (length (fronts s) <= length (fronts s'))%nat.
  Lemma fgrow_refl s : fgrow s s. Proof. split; [apply incl_refl|lia]. Qed.
  Lemma fgrow_trans a b c : fgrow a b -> fgrow b c -> fgrow a c.
  Proof. intros [A B] [C D]. split; [eapply incl_tran; eauto|lia]. Qed.
  Lemma fgrow_same s s' : fronts s' = fronts s -> fgrow s s'.
  Proof. intros E. split; rewrite E; [apply incl_refl|lia]. Qed.
  Lemma covers_grow s s' u : fgrow s s' -> covers s u -> covers s' u.
  Proof. intros [A B] C H1 H2. destruct (C H1 H2); [left; auto|right; lia]. Qed.
  Lemma add_frontier_grow t s : fgrow s (add_frontier t s) /\ (covers (add_frontier t s) t).
  Proof.
    unfold add_frontier. pose proof (collect_spec max_clause_vars t [] s (NoDup_nil _)) as H.
    destruct (collect max_clause_vars t ([], s)) as [vs s1] eqn:Ec. cbn [fst snd] in H. destruct H as (A&B&_).
    apply collect_once in Ec.
    assert (Hv : (length (term_vars t) <= 2)%nat -> vs = term_vars t).
    { intros H. rewrite Ec. apply uncapped_eq. change (uncapped (tvars t) []) with (term_vars t). unfold max_clause_vars. lia. }
    unfold covers.
    destruct (Z.ltb_spec (Z.of_nat (length vs)) 1) as [L1|L1]; cbn [orb].
    { split; [apply fgrow_same; auto|]. intros _ H. rewrite <- Hv in H by lia. lia. }
    destruct (Z.ltb_spec 2 (Z.of_nat (length vs))) as [L2|L2]; cbn [orb].
    { split; [apply fgrow_same; auto|]. intros _ H. rewrite <- Hv in H by lia. lia. }
    destruct (existsb (same_vars vs) (fronts s1)) eqn:X.
    { split; [apply fgrow_same; auto|]. intros _ H. left. rewrite <- Hv by lia. apply existsb_exists in X as (y&Hy&Ey).
      unfold same_vars in Ey. destruct (list_eq_dec Z.eq_dec vs y); [subst; auto|discriminate]. }
    destruct (Z.leb_spec max_frontiers (Z.of_nat (length (fronts s1)))) as [L3|L3].
    { split; [apply fgrow_same; auto|]. intros _ _. right. unfold max_frontiers in L3. lia. }
    cbn [fronts]. rewrite B. split; [split; cbn [fronts]; [intros x Hx; apply in_or_app; auto|rewrite app_length; lia]|].
    intros _ H. left. rewrite <- Hv by lia. apply in_or_app. simpl. auto.
  Qed.
  Lemma add_boundary_opt_fronts v s : fronts (add_boundary_opt fo v s) = fronts s.
  Proof. destruct v; reflexivity. Qed.
  Lemma note_fronts v s : fronts (note_var v s) = fronts s. Proof. apply note_var_same. Qed.

  Lemma scan_term_grow : forall t s, fgrow s (scan_term t s).
  Proof.
    intros t. induction t as [i|c|fs IH] using term_ind'; intros s; cbn [AgModel.scan_term].
    - cbn. apply fgrow_same, note_fronts.
    - destruct (decode code numc (TCst c)); apply fgrow_refl || apply fgrow_same; reflexivity.
    - destruct (decode code numc (TRec fs)); [apply fgrow_same; reflexivity|].
      set (s1 := if arith (code (TRec fs)) then add_frontier (TRec fs) s else s).
      assert (H1 : fgrow s s1) by (unfold s1; destruct (arith _); [apply add_frontier_grow|apply fgrow_refl]).
      set (s2 := match code (TRec fs) with CCompare => scan_comparison code numc fo (TRec fs) s1 | _ => s1 end).
      assert (H2 : fgrow s1 s2) by (unfold s2; destruct (code (TRec fs)); apply fgrow_same; auto; unfold scan_comparison; rewrite !add_boundary_opt_fronts; auto).
      eapply fgrow_trans; [exact H1|]. eapply fgrow_trans; [exact H2|]. clearbody s2. clear -IH.
      revert s2. induction IH as [|f fs Hf _ IH]; intros s2; cbn [fold_left]; [apply fgrow_refl|].
      eapply fgrow_trans; [apply Hf|apply IH].
  Qed.
End Scan.
