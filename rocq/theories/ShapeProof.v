(** Inferences stay within a signature and within the variable range of their bank. *)
From Coq Require Import List ZArith Bool Lia.
From Verif Require Import Terms UnifySpec TermsProof UnifyModel UnifyProof MatchModel MetaModel SubsumeSpec Semantics SemProof
  BuildModel BuildProof DeriveModel DeriveSpec DeriveProof RewriteSpec.
Import ListNotations.
Open Scope Z_scope.

Lemma sig_term_rec S fs : sig_term S (TRec fs) -> exists c args, fs = TCst c :: args /\ fn S c /\ Forall (sig_term S) args.
Proof. intros H; inversion H; subst; eauto. Qed.

Lemma sig_term_fot S : forall t, sig_term S t -> fot t = true.
Proof.
  induction t as [i|c|fs IH] using term_ind'; intros H; auto.
  apply sig_term_rec in H as (c&args&->&_&H). apply Forall_inv_tail in IH. simpl.
  apply forallb_forall. intros x Hx. rewrite Forall_forall in IH, H. auto.
Qed.
Lemma sig_atom_foa S t : sig_atom S t -> foa t = true.
Proof.
  intros H; inversion H as [|c args Hc Ha]; subst; auto. simpl. apply forallb_forall. intros x Hx.
  rewrite Forall_forall in Ha. apply (sig_term_fot S). auto.
Qed.

Section Shape.
  Variable S : signature.

  Definition bank_sig (b : Z -> option term) : Prop := forall i t, b i = Some t -> sig_term S t.

  Lemma varval_sig n b i t : bank_sig b -> varval n b i = Some t -> sig_term S t.
  Proof.
    intros Hb. revert i. induction n as [|n IH]; intros i; [discriminate|]. cbn [varval].
    destruct (b i) as [[j|c|fs]|] eqn:E; [apply IH|..]; intros H; injection H as <-; try constructor. eapply Hb; eauto.
  Qed.
  Lemma deref_sig n b x t : bank_sig b -> sig_term S x -> deref n b x = Some t -> sig_term S t.
  Proof. intros Hb Hx. destruct x; simpl; intros H; [eapply varval_sig; eauto| |]; injection H as <-; auto. Qed.
  Lemma setvar_sig i t s : bank_sig (bank s) -> sig_term S t -> bank_sig (bank (setvar i t s)).
  Proof. intros Hb Ht j u. simpl. destruct (Z.eqb j i); [intros H; injection H as <-; auto|apply Hb]. Qed.

  Lemma unify_sig : forall n,
    (forall x y s r s', sig_term S x -> sig_term S y -> bank_sig (bank s) -> unify_aux n x y s = Done r s' -> bank_sig (bank s')) /\
    (forall xs ys s r s', Forall (sig_term S) xs -> Forall (sig_term S) ys -> bank_sig (bank s) ->
       unify_loop (unify_aux n) xs ys s = Done r s' -> bank_sig (bank s')).
  Proof.
    assert (HL : forall n, (forall x y s r s', sig_term S x -> sig_term S y -> bank_sig (bank s) -> unify_aux n x y s = Done r s' -> bank_sig (bank s')) ->
      forall xs ys s r s', Forall (sig_term S) xs -> Forall (sig_term S) ys -> bank_sig (bank s) ->
       unify_loop (unify_aux n) xs ys s = Done r s' -> bank_sig (bank s')).
    { intros n IH. induction xs as [|a xs IHl]; intros [|b ys] s r s' Hx Hy Hb; cbn [unify_loop];
        try (intros H; injection H as <- <-; auto).
      inversion Hx; inversion Hy; subst.
      destruct (unify_aux n a b s) as [q s1|] eqn:E; [|discriminate].
      apply IH in E; auto. destruct q.
      + apply IHl; auto.
      + intros H; injection H as <- <-; auto. }
    induction n as [|n [IH IHl]]; (split; [|apply HL]); intros x y s r s' Hx Hy Hb; try discriminate;
      assert (Hset : forall i t, sig_term S t -> bank_sig (bank (setvar i t s))) by (intros; apply setvar_sig; auto);
      cbn [unify_aux];
      (destruct (deref n (bank s) x) as [x'|] eqn:Ex; [|discriminate]);
      (destruct (deref n (bank s) y) as [y'|] eqn:Ey; [|discriminate]);
      pose proof (deref_sig _ _ _ _ Hb Hx Ex) as Hx';
      pose proof (deref_sig _ _ _ _ Hb Hy Ey) as Hy';
      (destruct x' as [i|c|xs], y' as [j|d|ys];
       [ destruct (Z.eqb i j); intros H; injection H as <- <-; auto
       | intros H; injection H as <- <-; auto
       | destruct (occurs_in n (bank s) i ys) as [[|]|]; [| |discriminate]; intros H; injection H as <- <-; auto
       | intros H; injection H as <- <-; auto
       | destruct (cst_same_word c d); intros H; injection H as <- <-; auto
       | intros H; injection H as <- <-; auto
       | destruct (occurs_in n (bank s) j xs) as [[|]|]; [| |discriminate]; intros H; injection H as <- <-; auto
       | intros H; injection H as <- <-; auto
       | destruct (Nat.eqb _ _); [|intros H; injection H as <- <-; auto];
         apply sig_term_rec in Hx' as (c&xa&->&_&Hxa); apply sig_term_rec in Hy' as (d&ya&->&_&Hya);
         apply IHl; auto; constructor; auto; constructor ]).
  Qed.

  (** Atoms: no variable is bound to an atom. *)
  Lemma unify_atom_sig n x y s r s' : sig_atom S x -> sig_atom S y -> bank_sig (bank s) ->
    unify_term n x y s = Done r s' -> bank_sig (bank s').
  Proof.
    intros Hx Hy Hb. unfold unify_term. destruct n as [|n]; [discriminate|]. cbn [unify_aux].
    inversion Hx as [c Hc|c xa Hc Hxa]; inversion Hy as [d Hd|d ya Hd Hya]; subst; cbn [deref].
    - destruct (cst_same_word c d); intros H; injection H as <- <-; auto.
    - intros H; injection H as <- <-; auto.
    - intros H; injection H as <- <-; auto.
    - destruct (Nat.eqb _ _); [|intros H; injection H as <- <-; auto].
      apply unify_sig; auto; constructor; auto; constructor.
  Qed.
  Lemma unify_term_sig n x y s r s' : sig_term S x -> sig_term S y -> bank_sig (bank s) ->
    unify_term n x y s = Done r s' -> bank_sig (bank s').
  Proof. apply unify_sig. Qed.

  Section Build.
    Variable comp : term -> option term.
    Variable bk : Z.
    Hypothesis Htame : comp_tame S comp.

    Definition below (k : Z) (t : term) : Prop := forall j, In j (tvars t) -> j < first_unreal + k.
    Definition in_bank (t : term) : Prop := forall j, In j (tvars t) -> bk * varsinbank <= j < bk * varsinbank + varsinbank.
    Definition fine (s : bst) : Prop :=
      0 <= vc s <= varsinbank /\ forall i t, bank (vars s) i = Some t -> sig_term S t /\ below varsinbank t.

    Lemma below_mono k k' t : k <= k' -> below k t -> below k' t.
    Proof. intros H Hb j Hj. specialize (Hb j Hj). lia. Qed.

    Lemma varval_below n s i t : fine s -> i < first_unreal + varsinbank -> varval n (bank (vars s)) i = Some t -> below varsinbank t.
    Proof.
      intros [Hv Hf]. revert i. induction n as [|n IH]; intros i Hi; [discriminate|]. cbn [varval].
      destruct (bank (vars s) i) as [[j|c|fs]|] eqn:E.
      - apply IH. destruct (Hf _ _ E) as [_ B]. apply B. simpl. auto.
      - intros H; injection H as <-. intros j [].
      - intros H; injection H as <-. apply (Hf _ _ E).
      - intros H; injection H as <-. intros j [<-|[]]. auto.
    Qed.
    Lemma deref_below n s x t : fine s -> below varsinbank x -> deref n (bank (vars s)) x = Some t -> below varsinbank t.
    Proof.
      intros Hf Hx. destruct x as [i|c|fs]; simpl.
      - apply varval_below; auto. apply Hx. simpl. auto.
      - intros H; injection H as <-; auto.
      - intros H; injection H as <-; auto.
    Qed.
    Lemma fine_bank s : fine s -> bank_sig (bank (vars s)).
    Proof. intros [_ H] i t E. apply (H i t E). Qed.

    (** What a build step must give. *)
    Definition step_ok (s s' : bst) (Q : Prop) : Prop := fine s' /\ vc s <= vc s' /\ Q.

    Lemma build_var_fine i s t s' : fine s -> i < first_unreal + varsinbank -> build_var bk i s = BOk t s' ->
      step_ok s s' (sig_term S t /\ in_bank t).
    Proof.
      intros Hf Hi. unfold build_var. destruct (Z.ltb_spec i first_unreal).
      - destruct (Z.leb_spec varsinbank (vc s)); [discriminate|]. intros E; injection E as <- <-.
        destruct Hf as [Hv Hf]. split; [split; [simpl; lia|]|split; [simpl; lia|]].
        + intros j t. simpl. destruct (Z.eqb j i).
          * intros E; injection E as <-. split; [constructor|]. intros k [<-|[]]. lia.
          * intros E. destruct (Hf _ _ E) as [A B]. split; auto.
        + split; [constructor|]. intros j [<-|[]]. lia.
      - intros E; injection E as <- <-. split; auto. split; [lia|]. split; [constructor|].
        intros j [<-|[]]. destruct Hf. lia.
    Qed.

    Lemma in_bank_rec ts : (forall t, In t ts -> in_bank t) -> in_bank (TRec ts).
    Proof. intros H j Hj. simpl in Hj. apply in_flat_map in Hj as (t&Ht&Hj). eapply H; eauto. Qed.
    Lemma below_fields k fs : below k (TRec fs) -> forall x, In x fs -> below k x.
    Proof. intros H x Hx j Hj. apply H. simpl. apply in_flat_map. eauto. Qed.

    Lemma computed_fine ts s t s' : computed comp ts s = BOk t s' -> in_bank (TRec ts) ->
      s' = s /\ in_bank t /\ (sig_term S (TRec ts) -> sig_term S t) /\
      (sig_atom S (TRec ts) -> t = TCst atrue \/ t = TCst afalse \/ sig_atom S t).
    Proof.
      unfold computed. destruct (comp (TRec ts)) as [u|] eqn:E; [|discriminate]. intros H; injection H as <- <-.
      intros Hb. destruct (Htame _ _ E) as (A&B&C). split; auto. split; [intros j Hj; auto|]. split; auto.
      intros H. destruct (C H) as [|[|(gs&->&D)]]; auto.
    Qed.

    Definition builds (n : nat) := forall x s t s', fine s -> sig_term S x -> below varsinbank x ->
      build comp bk n x s = BOk t s' -> step_ok s s' (sig_term S t /\ in_bank t).

    Lemma build_loop_fine n : builds n -> forall xs s ts s', fine s -> Forall (sig_term S) xs ->
      (forall x, In x xs -> below varsinbank x) -> build_loop (build comp bk n) xs s = BsOk ts s' ->
      step_ok s s' (Forall (sig_term S) ts /\ (forall t, In t ts -> in_bank t) /\ length ts = length xs).
    Proof.
      intros IH. induction xs as [|x xs IHl]; intros s ts s' Hf Hs Hb; cbn [build_loop].
      - intros E; injection E as <- <-. split; auto. split; [lia|]. split; [constructor|]. split; [intros t []|auto].
      - inversion Hs; subst. destruct (build comp bk n x s) as [t s1|s1|] eqn:E1; try discriminate.
        destruct (build_loop (build comp bk n) xs s1) as [ts' s2|s2|] eqn:E2; try discriminate.
        intros E; injection E as <- <-.
        destruct (IH _ _ _ _ Hf H1 (Hb x (or_introl eq_refl)) E1) as (A1&A2&A3&A4).
        destruct (IHl s1 ts' s2 A1 H2 ltac:(intros; apply Hb; simpl; auto) E2) as (B1&B2&B3&B4&B5).
        split; auto. split; [lia|]. split; [constructor; auto|]. split; [|simpl; congruence].
        intros u [<-|Hu]; auto.
    Qed.

    Lemma build_fields n c args s ts s' : builds n -> fine s -> Forall (sig_term S) args ->
      below varsinbank (TRec (TCst c :: args)) -> build_loop (build comp bk n) (TCst c :: args) s = BsOk ts s' ->
      exists args', ts = TCst c :: args' /\
        step_ok s s' (Forall (sig_term S) args' /\ in_bank (TRec ts) /\ length args' = length args).
    Proof.
      intros IH Hf Hs Hb E. pose proof E as E'. apply build_loop_head in E' as [args' ->].
      apply build_loop_fine in E; auto.
      - destruct E as (A&B&C&D&L). exists args'. split; auto. split; auto. split; auto.
        inversion C; subst. split; auto. split; [apply in_bank_rec; auto|]. simpl in L. congruence.
      - constructor; [constructor|auto].
      - apply below_fields. auto.
    Qed.

    Lemma build_fine : forall n, builds n.
    Proof.
      induction n as [|n IH]; intros x s t s' Hf Hx Hb; [discriminate|]. cbn [build].
      destruct (deref n (bank (vars s)) x) as [x'|] eqn:Ed; [|discriminate].
      pose proof (deref_sig _ _ _ _ (fine_bank _ Hf) Hx Ed) as Hx'.
      pose proof (deref_below _ _ _ _ Hf Hb Ed) as Hb'.
      destruct x' as [i|c|fs].
      - apply build_var_fine; auto. apply Hb'. simpl. auto.
      - intros E; injection E as <- <-. split; auto. split; [lia|]. split; [constructor|intros j []].
      - apply sig_term_rec in Hx' as (c&args&->&Hc&Ha).
        destruct (build_loop (build comp bk n) (TCst c :: args) s) as [ts s1|s1|] eqn:E1; try discriminate.
        apply build_fields in E1 as (args'&->&A&B&C&D&L); auto.
        intros E. apply computed_fine in E as (->&E1&E2&_); auto.
        split; auto. split; auto. split; auto. apply E2. constructor; auto.
    Qed.

    Definition good_atom (t : term) : Prop := (t = TCst atrue \/ t = TCst afalse \/ sig_atom S t) /\ in_bank t.

    Lemma build_atom_fine n a s t s' : fine s -> sig_atom S a -> below varsinbank a ->
      build comp bk n a s = BOk t s' -> step_ok s s' (good_atom t).
    Proof.
      intros Hf Ha Hb. destruct n as [|n]; [discriminate|].
      inversion Ha as [c Hc|c args Hc Hargs]; subst a; cbn [build deref].
      - intros E; injection E as <- <-. split; auto. split; [lia|]. split; [auto|intros j []].
      - destruct (build_loop (build comp bk n) (TCst c :: args) s) as [ts s1|s1|] eqn:E1; try discriminate.
        apply build_fields in E1 as (args'&->&A&B&C&D&L); auto using build_fine.
        intros E. apply computed_fine in E as (->&E1&_&E2); auto.
        split; auto. split; auto. split; auto. apply E2. constructor; auto. rewrite L. auto.
    Qed.

    (** Replacement. *)
    Definition replaces (n : nat) := forall rpos rt x path s t p s', fine s -> sig_term S x -> sig_term S rt ->
      below varsinbank x -> below varsinbank rt ->
      breplace comp bk n rpos rt x path s = RpOk t p s' -> step_ok s s' (sig_term S t /\ in_bank t).

    Lemma replace_loop_fine n rpos rt inc : replaces n -> sig_term S rt -> forall xs path s ts p s', fine s ->
      Forall (sig_term S) xs -> (forall x, In x xs -> below varsinbank x) -> below varsinbank rt ->
      replace_loop (breplace comp bk n rpos rt) (build comp bk n) rpos inc xs path s = RsOk ts p s' ->
      step_ok s s' (Forall (sig_term S) ts /\ (forall t, In t ts -> in_bank t) /\ length ts = length xs).
    Proof.
      intros IH Hrt. induction xs as [|x xs IHl]; intros path s ts p s' Hf Hs Hb Hbr; cbn [replace_loop].
      - intros E; injection E as <- <- <-. split; auto. split; [lia|]. split; [constructor|]. split; [intros t []|auto].
      - inversion Hs; subst. set (path1 := if inc then path + 1 else path).
        destruct (if path1 <=? rpos then if inc then breplace comp bk n rpos rt x path1 s else of_bres path1 (build comp bk n x s)
                  else of_bres path1 (build comp bk n x s)) as [t q s1|s1|] eqn:E1; try discriminate.
        destruct (replace_loop (breplace comp bk n rpos rt) (build comp bk n) rpos inc xs q s1) as [ts' q2 s2|s2|] eqn:E2; try discriminate.
        intros E; injection E as <- <- <-.
        assert (Hst : step_ok s s1 (sig_term S t /\ in_bank t)).
        { assert (Hbld : of_bres path1 (build comp bk n x s) = RpOk t q s1 -> step_ok s s1 (sig_term S t /\ in_bank t)).
          { intros E. apply of_bres_inv in E as [E _]. apply build_fine in E; auto. apply Hb. simpl. auto. }
          destruct (path1 <=? rpos); auto. destruct inc; auto.
          apply IH in E1; auto. apply Hb. simpl. auto. }
        destruct Hst as (A1&A2&A3&A4).
        destruct (IHl q s1 ts' q2 s2 A1 H2 ltac:(intros; apply Hb; simpl; auto)
                    Hbr E2) as (B1&B2&B3&B4&B5).
        split; auto. split; [lia|]. split; [constructor; auto|]. split; [|simpl; congruence].
        intros u [<-|Hu]; auto.
    Qed.

    Lemma head_bank c args' : (forall t, In t args' -> in_bank t) -> in_bank (TRec (TCst c :: args')).
    Proof. intros H. apply in_bank_rec. intros t [<-|Ht]; auto. intros j []. Qed.

    Lemma replace_fine : forall n, replaces n.
    Proof.
      induction n as [|n IH]; intros rpos rt x path s t p s' Hf Hx Hrt Hb Hbr; [discriminate|]. cbn [breplace].
      destruct (path =? rpos).
      - intros E. apply of_bres_inv in E as [E _]. apply build_fine in E; auto.
      - destruct (deref n (bank (vars s)) x) as [x'|] eqn:Ed; [|discriminate].
        pose proof (deref_sig _ _ _ _ (fine_bank _ Hf) Hx Ed) as Hx'.
        pose proof (deref_below _ _ _ _ Hf Hb Ed) as Hb'.
        destruct x' as [i|c|fs].
        + intros E. apply of_bres_inv in E as [E _]. apply build_var_fine in E; auto. apply Hb'. simpl. auto.
        + intros E; injection E as <- <- <-. split; auto. split; [lia|]. split; [constructor|intros j []].
        + apply sig_term_rec in Hx' as (c&args&->&Hc&Ha).
          destruct (replace_loop _ _ _ _ args path s) as [ts q s1|s1|] eqn:E1; try discriminate.
          apply replace_loop_fine in E1 as (A&B&C&D&L); auto.
          * intros E. apply of_bres_inv in E as [E _]. apply computed_fine in E as (->&E1&E2&_); [|apply head_bank; auto].
            split; auto. split; auto. split; auto. apply E2. constructor; auto.
          * intros y Hy. apply (below_fields _ _ Hb'). simpl. auto.
    Qed.

    Lemma replace_atom_fine n rpos rt a s t p s' : fine s -> sig_atom S a -> sig_term S rt -> 0 < rpos ->
      below varsinbank a -> below varsinbank rt -> breplace comp bk n rpos rt a 0 s = RpOk t p s' -> step_ok s s' (good_atom t).
    Proof.
      intros Hf Ha Hrt Hp Hb Hbr. destruct n as [|n]; [discriminate|]. cbn [breplace].
      destruct (Z.eqb_spec 0 rpos); [lia|].
      inversion Ha as [c Hc|c args Hc Hargs]; subst a; cbn [deref is_var negb].
      - intros E; injection E as <- <- <-. split; auto. split; [lia|]. split; [auto|intros j []].
      - destruct (replace_loop _ _ _ _ args 0 s) as [ts q s1|s1|] eqn:E1; try discriminate.
        apply replace_loop_fine in E1 as (A&B&C&D&L); auto using replace_fine.
        + intros E. apply of_bres_inv in E as [E _]. apply computed_fine in E as (->&E1&_&E2); [|apply head_bank; auto].
          split; auto. split; auto. split; auto. apply E2. constructor; auto. rewrite L. auto.
        + intros y Hy. apply (below_fields _ _ Hb). simpl. auto.
    Qed.

    Variable sb : stray_env.
    Variable nb : nat.

    (** A derived literal list within the signature and the bank, with meta words. *)
    Definition neat (r : list mlit) : Prop :=
      forall x : mlit, In x r -> sig_atom S (snd x) /\ in_bank (snd x) /\ fst x <> 0.

    Lemma add_literal_neat m t r s r' s' : neat r -> good_atom t -> m <> 0 ->
      add_literal sb m t r s = AOk r' s' -> s' = s /\ neat r'.
    Proof.
      intros Hr [Ht Hb] Hm. unfold add_literal.
      assert (Hd : sig_atom S t -> match find_equal sb m t r with FSame => AOk r s
          | FOpposite => ADrop Tautology s | FNone => AOk (r ++ [(m, t)]) s | FStray => AStray end = AOk r' s' -> s' = s /\ neat r').
      { intros Hs. destruct (find_equal sb m t r); intros E; try discriminate; injection E as <- <-; split; auto.
        intros x Hx. apply in_app_or in Hx as [|[<-|[]]]; auto. }
      destruct Ht as [->|[->|Ht]].
      - cbn. destruct (meta_is_neg m); intros E; [injection E as <- <-; auto|discriminate].
      - cbn. destruct (meta_is_neg m); intros E; [discriminate|injection E as <- <-; auto].
      - destruct t as [|[w| | | |]|]; auto.
        destruct (w =? w_true); [|destruct (w =? w_false); auto]; destruct (meta_is_neg m);
          intros E; try discriminate; injection E as <- <-; auto.
    Qed.

    Definition lits_fine (k : Z) (ls : list clit) : Prop :=
      forall l, In l ls -> sig_atom S (latom l) /\ below k (latom l) /\ lmeta l <> 0.
    Definition repl_fine (k : Z) (repl : option (Z * term)) : Prop :=
      match repl with None => True | Some (path, rt) => sig_term S rt /\ below k rt /\ 0 < decode_pos path end.

    Lemma lits_fine_mono k k' ls : k <= k' -> lits_fine k ls -> lits_fine k' ls.
    Proof. intros H Hl l Hin. destruct (Hl l Hin) as (A&B&C). split; auto. split; auto. eapply below_mono; eauto. Qed.
    Lemma repl_fine_mono k k' r : k <= k' -> repl_fine k r -> repl_fine k' r.
    Proof. destruct r as [[p t]|]; simpl; auto. intros H (A&B&C). split; auto. split; auto. eapply below_mono; eauto. Qed.

    Lemma result_aux_fine : forall lits i cut repl r s r' s', fine s -> lits_fine varsinbank lits -> repl_fine varsinbank repl -> neat r ->
      result_aux sb comp bk nb i lits cut repl r s = AOk r' s' -> step_ok s s' (neat r').
    Proof.
      induction lits as [|l lits IH]; intros i cut repl r s r' s' Hf Hl Hr Hn; cbn [result_aux].
      - intros E; injection E as <- <-. split; auto. split; [lia|auto].
      - fold (is_cut cut l). destruct (is_cut cut l).
        + apply IH; auto. intros x Hx. apply Hl. simpl. auto.
        + fold (built comp bk nb i l repl s). destruct (built comp bk nb i l repl s) as [t s1|s1|] eqn:Eb; try discriminate.
          destruct (Hl l (or_introl eq_refl)) as (L1&L2&L3).
          assert (Hb : step_ok s s1 (good_atom t)).
          { unfold built in Eb. destruct repl as [[path rt]|].
            - destruct (i =? decode_litnr path).
              + destruct (breplace _ _ _ _ _ _ _ _) as [t1 p s2|s2|] eqn:E1; try discriminate.
                injection Eb as -> ->. destruct Hr as (R1&R2&R3). apply replace_atom_fine in E1; auto.
              + apply build_atom_fine in Eb; auto.
            - apply build_atom_fine in Eb; auto. }
          destruct Hb as (B1&B2&B3).
          destruct (add_literal sb (lmeta l) t r s1) as [r1 s2|why s2| |] eqn:Ea; try discriminate.
          destruct (add_literal_neat _ _ _ _ _ _ Hn B3 L3 Ea) as [-> Hn1].
          intros E. apply IH in E; auto.
          * destruct E as (A&B&C). split; auto. split; [lia|auto].
          * intros y Hy. apply Hl. simpl. auto.
    Qed.

    (** ** The four rules *)
    Definition neat_clause (c : scl) : Prop := lits_fine 0 (cl_lits c).

    (** A derived clause and the bindings left behind. *)
    Definition neat_res (d : dres) : Prop :=
      match d with DClause r s => neat r /\ acyclic (bank (vars s)) /\ bank_fot (bank (vars s)) | _ => True end.

    Lemma neat_nil : neat []. Proof. intros x []. Qed.
    Lemma below_real t : (forall j, In j (tvars t) -> j < first_unreal) <-> below 0 t.
    Proof. unfold below. split; intros H j Hj; specialize (H j Hj); lia. Qed.

    (** States after unification. *)
    Lemma start_fine s : vgood s -> bank_sig (bank s) -> fine (start_build s).
    Proof.
      intros (_&_&_&H) Hs. split; [simpl; unfold varsinbank; lia|]. intros i t E. split; [eapply Hs; eauto|].
      apply (below_mono 0); [unfold varsinbank; lia|]. apply below_real. eapply H; eauto.
    Qed.

    Variable eqc : cst.
    Variable M : interp.
    Hypothesis Hcomp : agrees_with eqc comp M.

    Lemma neat_proper c : neat_clause c -> proper c.
    Proof.
      intros H. split.
      - intros l Hl. apply in_map_iff in Hl as (x&<-&Hx). simpl. destruct (H x Hx) as (A&_). eapply sig_atom_foa; eauto.
      - intros l i Hl Hi. destruct (H l Hl) as (_&B&_). specialize (B i Hi). unfold first_unreal in B. lia.
    Qed.

    Lemma aux_both lits i cut repl r s r' s' : bgood s -> fine s -> lits_fine varsinbank lits -> repl_fine varsinbank repl -> neat r ->
      result_aux sb comp bk nb i lits cut repl r s = AOk r' s' -> bgood s' /\ step_ok s s' (neat r').
    Proof.
      intros Hg Hf Hl Hr Hn E. split; [|apply result_aux_fine in E; auto].
      pose proof (result_aux_ok sb comp bk nb eqc M Hcomp lits i cut repl r s Hg) as H.
      rewrite E in H. apply H.
      - intros l Hin. destruct (Hl l Hin) as (A&_). eapply sig_atom_foa; eauto.
      - destruct repl as [[p t]|]; simpl in *; auto. destruct Hr as (A&_&B). split; auto. eapply sig_term_fot; eauto.
    Qed.

    Lemma finish_neat x : (forall r s, x = AOk r s -> neat r /\ bgood s) -> neat_res (finish x).
    Proof.
      destruct x as [[|a r] s|w s| |]; simpl; auto. intros H. destruct (H _ _ eq_refl) as [A B].
      split; auto. split; apply B.
    Qed.

    Lemma part_both c w r s r' s' : neat_clause c -> bgood s -> fine s -> neat r ->
      (if many c then result_aux sb comp bk nb 0 (cl_lits c) (Some w) None r s else AOk r s) = AOk r' s' ->
      bgood s' /\ step_ok s s' (neat r').
    Proof.
      intros Hc Hg Hf Hn. destruct (many c).
      - intros E. apply aux_both in E; auto.
        + eapply lits_fine_mono; [|exact Hc]. unfold varsinbank; lia.
        + exact I.
      - intros E; injection E as <- <-. split; auto. split; auto. split; [lia|auto].
    Qed.

    Definition blank (s : vst) : Prop := forall v, bank s v = None.
    Lemma blank_sig s : blank s -> bank_sig (bank s).
    Proof. intros H i t E. rewrite H in E. discriminate. Qed.
    Lemma blank_vgood s : blank s -> vgood s.
    Proof.
      intros H. split; [exists (fun _ => 0%nat); intros i t j E; rewrite H in E; discriminate|].
      split; [auto|]. split; intros i t E; rewrite H in E; discriminate.
    Qed.

    Lemma unify_atoms_state nu x y s r s' : blank s -> sig_atom S x -> sig_atom S y -> below 0 x -> below 0 y ->
      unify_term nu x y s = Done r s' -> bgood (start_build s') /\ fine (start_build s').
    Proof.
      intros Hs Hx Hy Bx By E.
      assert (Hv : vgood s').
      { eapply unify_vgood; [apply blank_vgood; exact Hs| | | | |exact E].
        - apply sig_atom_foa in Hx. destruct x; auto; discriminate.
        - apply sig_atom_foa in Hy. destruct y; auto; discriminate.
        - apply below_real; auto.
        - apply below_real; auto. }
      split; [apply vgood_start; auto|]. apply start_fine; auto.
      apply unify_atom_sig in E; auto. apply blank_sig; auto.
    Qed.
    Lemma unify_terms_state nu x y s r s' : blank s -> sig_term S x -> sig_term S y -> below 0 x -> below 0 y ->
      unify_term nu x y s = Done r s' -> bgood (start_build s') /\ fine (start_build s').
    Proof.
      intros Hs Hx Hy Bx By E.
      assert (Hv : vgood s').
      { eapply unify_vgood; [apply blank_vgood; exact Hs| | | | |exact E].
        - eapply sig_term_fot; eauto.
        - eapply sig_term_fot; eauto.
        - apply below_real; auto.
        - apply below_real; auto. }
      split; [apply vgood_start; auto|]. apply start_fine; auto.
      apply unify_term_sig in E; auto. apply blank_sig; auto.
    Qed.

    Lemma resolve_neat nu x i y j s : blank s -> neat_clause x -> neat_clause y -> neat_res (resolve sb comp bk nb nu x i y j s).
    Proof.
      intros Hs Hx Hy. unfold resolve.
      destruct (nth_error (cl_lits x) i) as [xl|] eqn:Ex; [|exact I].
      destruct (nth_error (cl_lits y) j) as [yl|] eqn:Ey; [|exact I].
      apply nth_error_In in Ex. apply nth_error_In in Ey.
      destruct (negpolarities _ _); [|exact I].
      destruct (unify_term _ _ _ _) as [[|] s1|] eqn:Eu; try exact I.
      destruct (Hx _ Ex) as (X1&X2&_). destruct (Hy _ Ey) as (Y1&Y2&_).
      destruct (unify_atoms_state _ _ _ _ _ _ Hs X1 Y1 X2 Y2 Eu) as [G F].
      unfold resolve_result. destruct (Nat.eqb _ 0); [exact I|].
      destruct (if many x then _ else _) as [r1 s2|w s2| |] eqn:E1; try exact I.
      destruct (part_both _ _ _ _ _ _ Hx G F neat_nil E1) as (G2&F2&_&N2).
      apply finish_neat. intros r s3 E. destruct (part_both _ _ _ _ _ _ Hy G2 F2 N2 E) as (G3&_&_&N3). auto.
    Qed.

    Lemma factor_result_neat lits w s : bgood (start_build s) -> fine (start_build s) -> lits_fine 0 lits ->
      neat_res (factor_result sb comp bk nb lits w s).
    Proof.
      intros G F Hl. unfold factor_result. destruct (Nat.eqb _ 0); [exact I|].
      apply finish_neat. intros r s3 E. apply aux_both in E; auto using neat_nil.
      - destruct E as (G3&_&_&N3). auto.
      - eapply lits_fine_mono; [|exact Hl]. unfold varsinbank; lia.
      - exact I.
    Qed.

    Lemma factor_neat nu c i j s : blank s -> neat_clause c -> neat_res (factor sb comp bk nb nu c i j s).
    Proof.
      intros Hs Hc. unfold factor. destruct c as [|lits]; [exact I|]. unfold neat_clause in Hc. cbn [cl_lits] in Hc.
      destruct (i <? j)%nat; [|exact I].
      destruct (nth_error lits i) as [xl|] eqn:Ex; [|exact I].
      destruct (nth_error lits j) as [yl|] eqn:Ey; [|exact I].
      apply nth_error_In in Ex. apply nth_error_In in Ey.
      destruct (negpolarities _ _); [exact I|]. destruct (is_rec (latom xl) && is_rec (latom yl)); [|exact I].
      destruct (unify_term _ _ _ _) as [[|] s1|] eqn:Eu; try exact I.
      destruct (Hc _ Ex) as (X1&X2&_). destruct (Hc _ Ey) as (Y1&Y2&_).
      destruct (unify_atoms_state _ _ _ _ _ _ Hs X1 Y1 X2 Y2 Eu) as [G F].
      apply factor_result_neat; auto.
    Qed.

    Lemma eq_sides_fine k t a b : sig_atom S t -> below k t -> eq_sides t = Some (a, b) ->
      sig_term S a /\ sig_term S b /\ below k a /\ below k b.
    Proof.
      intros Hs Hb. unfold eq_sides. destruct t as [|c|[|h [|x [|y fs]]]]; try discriminate.
      intros E; injection E as <- <-. inversion Hs as [|c args Hc Ha]; subst.
      inversion Ha as [|? ? A1 A2]; subst. inversion A2; subst. split; auto. split; auto.
      split; apply (below_fields _ _ Hb); simpl; auto.
    Qed.

    Lemma reflexive_neat nu c i s : blank s -> neat_clause c -> neat_res (reflexive sb comp bk nb eqc nu c i s).
    Proof.
      intros Hs Hc. unfold reflexive. destruct c as [|lits]; [exact I|]. unfold neat_clause in Hc. cbn [cl_lits] in Hc.
      destruct (nth_error lits i) as [xl|] eqn:Ex; [|exact I]. apply nth_error_In in Ex.
      destruct (meta_is_neg _); [|exact I]. destruct (equality_atom _ _) as [[|]|]; try exact I.
      destruct (eq_sides (latom xl)) as [[a b]|] eqn:Es; [|exact I].
      destruct (unify_term _ _ _ _) as [[|] s1|] eqn:Eu; try exact I.
      destruct (Hc _ Ex) as (X1&X2&_). destruct (eq_sides_fine 0 _ _ _ X1 X2 Es) as (A&B&C&D).
      destruct (unify_terms_state _ _ _ _ _ _ Hs A B C D Eu) as [G F].
      apply factor_result_neat; auto.
    Qed.

    Lemma preorder_sig : forall x, sig_term S x -> forall u, In u (preorder x) -> sig_term S u.
    Proof.
      induction x as [i|c|fs IH] using term_ind'; intros Hx u; try (intros [<-|[]]; auto; fail).
      apply sig_term_rec in Hx as (c&args&->&Hc&Ha). intros [<-|Hu]; [constructor; auto|].
      apply in_flat_map in Hu as (y&Hy&Hu). apply Forall_inv_tail in IH. rewrite Forall_forall in IH, Ha. eauto.
    Qed.

    Lemma inner_sig a k u : sig_atom S a -> nth_error (preorder a) k = Some u -> k <> 0%nat -> sig_term S u.
    Proof.
      intros Ha E Hk. destruct k as [|k]; [congruence|]. inversion Ha as [c Hc|c args Hc Hargs]; subst a; cbn in E.
      - destruct k; discriminate.
      - apply nth_error_In in E. apply in_flat_map in E as (y&Hy&Hu). rewrite Forall_forall in Hargs.
        eapply preorder_sig; eauto.
    Qed.

    Lemma paramodulate_neat deep nu x i left from y k s : blank s -> neat_clause x -> neat_clause y ->
      neat_res (paramodulate sb comp bk nb eqc deep nu x i left from y k s).
    Proof.
      intros Hs Hx Hy. unfold paramodulate.
      destruct (nth_error (cl_lits x) i) as [xl|] eqn:Ex; [|exact I]. apply nth_error_In in Ex.
      destruct (nth_error (para_subterms deep 0 (cl_lits y)) k) as [[path u]|] eqn:Ek; [|exact I].
      apply nth_error_In in Ek. pose proof (neat_proper _ Hy) as Py.
      destruct (para_subterms_ok bk deep _ 0 path u ltac:(lia) (fun l Hl => proj1 (proj2 (proper_lit _ l Py Hl))) Ek)
        as (Hpos&k0&yl&Hk0&Hk1&Hk2).
      assert (Hyl := nth_error_In _ _ Hk0). destruct (proper_lit _ _ Py Hyl) as (Fy&Ty&Vy).
      destruct (preorder_sub _ Ty u (nth_error_In _ _ Hk2)) as [Fu Vu].
      destruct (Hx _ Ex) as (X1&X2&_). destruct (Hy _ Hyl) as (Y1&Y2&_).
      assert (Su : sig_term S u) by (eapply inner_sig; [exact Y1|exact Hk2|lia]).
      assert (Bu : below 0 u) by (apply below_real; auto).
      destruct (meta_is_neg _); [exact I|]. destruct (negb _); [exact I|].
      destruct (equality_atom _ _) as [[|]|]; try exact I.
      destruct (eq_sides (latom xl)) as [[a0 b0]|] eqn:Es; [|exact I].
      destruct (eq_sides_fine 0 _ _ _ X1 X2 Es) as (A&B&C&D).
      set (a := if left then a0 else b0). set (b := if left then b0 else a0). cbn zeta.
      assert (Ha : sig_term S a /\ below 0 a) by (unfold a; destruct left; auto).
      assert (Hb : sig_term S b /\ below 0 b) by (unfold b; destruct left; auto).
      destruct Ha as [Ha1 Ha2]. destruct Hb as [Hb1 Hb2].
      destruct (is_var a); [exact I|].
      destruct (if from then unify_term nu a u s else unify_term nu u a s) as [[|] s'|] eqn:Eu; try exact I.
      assert (Hst : bgood (start_build s') /\ fine (start_build s')).
      { destruct from; eapply unify_terms_state; [exact Hs|exact Ha1|exact Su|auto|auto|exact Eu|
          exact Hs|exact Su|exact Ha1|auto|auto|exact Eu]. }
      destruct Hst as [G F]. unfold para_result.
      destruct (if many x then _ else _) as [r1 s2|w s2| |] eqn:E1; try exact I.
      destruct (part_both _ _ _ _ _ _ Hx G F neat_nil E1) as (G2&F2&L2&N2). cbn in L2.
      apply finish_neat. intros r s3 E. apply aux_both in E; auto.
      - destruct E as (G3&_&_&N3). auto.
      - eapply lits_fine_mono; [|exact Hy]. unfold varsinbank; lia.
      - split; auto. split; auto. eapply below_mono; [|exact Hb2]. unfold varsinbank; lia.
    Qed.
  End Build.
End Shape.
