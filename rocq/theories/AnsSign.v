(** Inferences and simplification keep the sign of answer literals; reported answers are
    correct. *)
From Coq Require Import List ZArith Bool Lia Classical_Prop.
From Verif Require Import Terms UnifySpec TermsProof UnifyModel UnifyProof MatchModel MatchProof MetaModel SubsumeSpec Semantics SemProof
  BuildModel BuildProof DeriveModel DeriveSpec DeriveProof TautProof CutModel CutSpec CutProof DupModel DupProof
  SimpModel SimpSpec SimpProof RewriteModel RewriteSpec RewriteProof ShapeProof InstModel InstProof SearchModel SearchProof AnsModel AnsSpec.
Import ListNotations.
Open Scope Z_scope.

Section Sign.
  Variable sb : stray_env.
  Variable comp : term -> option term.
  Variable ans : cst.
  Hypothesis Hne : not_evaluated ans comp.

  (** No negative answer literal. *)
  Definition nn (r : list mlit) : Prop :=
    forall x : mlit, In x r -> meta_is_neg (fst x) = true -> pred_of (snd x) <> Some ans.
  Definition nnl (ls : list clit) : Prop :=
    forall l, In l ls -> meta_is_neg (lmeta l) = true -> pred_of (latom l) <> Some ans.

  Lemma comp_pred c args t : comp (TRec (TCst c :: args)) = Some t -> pred_of t = Some ans -> c = ans.
  Proof.
    intros E H. pose proof (Hne _ _ E (or_intror H)) as E1. rewrite E1 in H. simpl in H. congruence.
  Qed.

  Section Build.
    Variable bk : Z.
    Variable nb : nat.

    Lemma deref_stay n b t : is_var t = false -> deref n b t = None \/ deref n b t = Some t.
    Proof. destruct t; try discriminate; intros _; destruct n; cbn; auto. Qed.

    Lemma build_pred a s t s' : foa a = true -> build comp bk nb a s = BOk t s' -> pred_of t = Some ans -> pred_of a = Some ans.
    Proof.
      intros Hf. destruct nb as [|n]; cbn [build]; [discriminate|].
      destruct a as [i|c|fs]; [discriminate| |].
      - destruct (deref_stay n (bank (vars s)) (TCst c) eq_refl) as [->| ->]; [discriminate|].
        intros E; injection E as <- <-. discriminate.
      - apply fot_rec in Hf as (c&args&->&_).
        destruct (deref_stay n (bank (vars s)) (TRec (TCst c :: args)) eq_refl) as [->| ->]; [discriminate|].
        cbn [build_loop]. destruct n as [|n]; cbn [build]; [discriminate|].
        destruct (deref_stay n (bank (vars s)) (TCst c) eq_refl) as [->| ->]; [discriminate|].
        destruct (build_loop _ args s) as [ts s1|s1|]; try discriminate.
        unfold computed. destruct (comp _) as [t0|] eqn:Ec; [|discriminate]. intros E; injection E as <- <-.
        intros Hp. apply comp_pred in Ec as ->; auto.
    Qed.

    Lemma replace_pred rpos rt a s t p s' : foa a = true -> 0 < rpos ->
      breplace comp bk nb rpos rt a 0 s = RpOk t p s' -> pred_of t = Some ans -> pred_of a = Some ans.
    Proof.
      intros Hf Hp. destruct nb as [|n]; cbn [breplace]; [discriminate|].
      destruct (Z.eqb_spec 0 rpos); [lia|].
      destruct a as [i|c|fs]; [discriminate| |].
      - destruct (deref_stay n (bank (vars s)) (TCst c) eq_refl) as [->| ->]; [discriminate|].
        intros E; injection E as <- <- <-. discriminate.
      - apply fot_rec in Hf as (c&args&->&_).
        destruct (deref_stay n (bank (vars s)) (TRec (TCst c :: args)) eq_refl) as [->| ->]; [discriminate|].
        destruct (replace_loop _ _ _ _ args 0 s) as [ts q s1|s1|]; try discriminate.
        intros E. apply of_bres_inv in E as [E _]. revert E.
        unfold computed. destruct (comp _) as [t0|] eqn:Ec; [|discriminate]. intros E; injection E as <- <-.
        intros Hpr. apply comp_pred in Ec as ->; auto.
    Qed.

    Lemma add_literal_nn m t r s r' s' : nn r -> (meta_is_neg m = true -> pred_of t <> Some ans) ->
      add_literal sb m t r s = AOk r' s' -> nn r'.
    Proof.
      intros Hr Ht. unfold add_literal.
      assert (Hd : match find_equal sb m t r with FSame => AOk r s
          | FOpposite => ADrop Tautology s | FNone => AOk (r ++ [(m, t)]) s | FStray => AStray end = AOk r' s' -> nn r').
      { destruct (find_equal sb m t r); intros E; try discriminate; injection E as <- <-; auto.
        intros x Hx. apply in_app_or in Hx as [|[<-|[]]]; auto. }
      destruct t as [|[w| | | |]|]; auto.
      destruct (w =? w_true); [|destruct (w =? w_false); auto]; destruct (meta_is_neg m);
        intros E; try discriminate; injection E as <- <-; auto.
    Qed.

    Lemma result_aux_nn : forall lits i cut repl r s r' s', nnl lits -> (forall l, In l lits -> foa (latom l) = true) ->
      match repl with Some (path, _) => 0 < decode_pos path | None => True end -> nn r ->
      result_aux sb comp bk nb i lits cut repl r s = AOk r' s' -> nn r'.
    Proof.
      induction lits as [|l lits IH]; intros i cut repl r s r' s' Hl Hf Hp Hr; cbn [result_aux].
      - intros E; injection E as <- <-. auto.
      - assert (Hl' : nnl lits) by (intros x Hx; apply Hl; simpl; auto).
        assert (Hf' : forall l, In l lits -> foa (latom l) = true) by (intros x Hx; apply Hf; simpl; auto).
        fold (is_cut cut l). destruct (is_cut cut l); [apply IH; auto|].
        fold (built comp bk nb i l repl s). destruct (built comp bk nb i l repl s) as [t s1|s1|] eqn:Eb; try discriminate.
        assert (Hb : pred_of t = Some ans -> pred_of (latom l) = Some ans).
        { unfold built in Eb. pose proof (Hf l (or_introl eq_refl)) as F.
          destruct repl as [[path rt]|]; [|eapply build_pred; eauto].
          destruct (i =? decode_litnr path); [|eapply build_pred; eauto].
          destruct (breplace _ _ _ _ _ _ _ _) as [t1 p s2|s2|] eqn:E1; try discriminate.
          injection Eb as -> ->. eapply replace_pred; eauto. }
        destruct (add_literal sb (lmeta l) t r s1) as [r1 s2|why s2| |] eqn:Ea; try discriminate.
        apply IH; auto. eapply add_literal_nn; [exact Hr| |exact Ea].
        intros N E. apply (Hl l (or_introl eq_refl) N). auto.
    Qed.

    Definition nn_res (d : dres) : Prop := match d with DClause r _ => nn r | _ => True end.
    Lemma nn_nil : nn []. Proof. intros x []. Qed.
    Lemma finish_nn x : (forall r s, x = AOk r s -> nn r) -> nn_res (finish x).
    Proof. destruct x as [[|a r] s|w s| |]; simpl; eauto. Qed.
    Definition tame_cl (c : scl) : Prop := nnl (cl_lits c) /\ forall l, In l (cl_lits c) -> foa (latom l) = true.
    Lemma part_nn c w r s r' s' : tame_cl c -> nn r ->
      (if many c then result_aux sb comp bk nb 0 (cl_lits c) (Some w) None r s else AOk r s) = AOk r' s' -> nn r'.
    Proof.
      intros [A B] Hr. destruct (many c); [|intros E; injection E as <- <-; auto].
      intros E. eapply result_aux_nn; [exact A|exact B| |exact Hr|exact E]. exact I.
    Qed.

    Lemma resolve_nn nu x i y j s : tame_cl x -> tame_cl y -> nn_res (resolve sb comp bk nb nu x i y j s).
    Proof.
      intros Hx Hy. unfold resolve.
      destruct (nth_error (cl_lits x) i) as [xl|]; [|exact I]. destruct (nth_error (cl_lits y) j) as [yl|]; [|exact I].
      destruct (negpolarities _ _); [|exact I]. destruct (unify_term _ _ _ _) as [[|] s1|]; try exact I.
      unfold resolve_result. destruct (Nat.eqb _ 0); [exact I|].
      destruct (if many x then _ else _) as [r1 s2|w s2| |] eqn:E1; try exact I.
      pose proof (part_nn _ _ _ _ _ _ Hx nn_nil E1) as N. apply finish_nn. intros r s3 E. eapply part_nn; [exact Hy|exact N|exact E].
    Qed.
    Lemma factor_result_nn lits w s : nnl lits -> (forall l, In l lits -> foa (latom l) = true) ->
      nn_res (factor_result sb comp bk nb lits w s).
    Proof.
      intros A B. unfold factor_result. destruct (Nat.eqb _ 0); [exact I|]. apply finish_nn. intros r s3 E.
      eapply result_aux_nn; [exact A|exact B| |apply nn_nil|exact E]. exact I.
    Qed.
    Lemma factor_nn nu c i j s : tame_cl c -> nn_res (factor sb comp bk nb nu c i j s).
    Proof.
      intros [A B]. unfold factor. destruct c as [|lits]; [exact I|]. cbn [cl_lits] in *.
      destruct (i <? j)%nat; [|exact I]. destruct (nth_error lits i) as [xl|]; [|exact I].
      destruct (nth_error lits j) as [yl|]; [|exact I]. destruct (negpolarities _ _); [exact I|].
      destruct (_ && _); [|exact I]. destruct (unify_term _ _ _ _) as [[|] s1|]; try exact I. apply factor_result_nn; auto.
    Qed.
    Lemma reflexive_nn eqc nu c i s : tame_cl c -> nn_res (reflexive sb comp bk nb eqc nu c i s).
    Proof.
      intros [A B]. unfold reflexive. destruct c as [|lits]; [exact I|]. cbn [cl_lits] in *.
      destruct (nth_error lits i) as [xl|]; [|exact I]. destruct (meta_is_neg _); [|exact I].
      destruct (equality_atom _ _) as [[|]|]; try exact I. destruct (eq_sides _) as [[a b]|]; [|exact I].
      destruct (unify_term _ _ _ _) as [[|] s1|]; try exact I. apply factor_result_nn; auto.
    Qed.
    Lemma instance_nn c s : tame_cl c -> nn_res (instance sb comp bk nb c s).
    Proof.
      intros [A B]. apply finish_nn. intros r s1 E. eapply result_aux_nn; [exact A|exact B| |apply nn_nil|exact E]. exact I.
    Qed.
    Lemma instgen_nn nu x i y j usex s s2 d : tame_cl x -> tame_cl y -> instgen sb comp bk nb nu x i y j usex s s2 d -> nn_res d.
    Proof. intros Hx Hy (xl&yl&s'&_&_&_&_&_&_&->). apply instance_nn. destruct usex; auto. Qed.
    Lemma probe_nn c bs : tame_cl c -> nn_res (probe sb comp bk nb c bs).
    Proof.
      intros Hc. unfold probe. destruct (_ || _); [exact I|]. destruct (bind_numbers bs empty_vst) as [s|]; [|exact I].
      pose proof (instance_nn c s Hc) as H. destruct (instance sb comp bk nb c s); auto.
    Qed.
    Lemma paramodulate_nn eqc deep nu x i left from y k s : tame_cl x -> tame_cl y ->
      nn_res (paramodulate sb comp bk nb eqc deep nu x i left from y k s).
    Proof.
      intros Hx [Y1 Y2]. unfold paramodulate.
      destruct (nth_error (cl_lits x) i) as [xl|]; [|exact I].
      destruct (nth_error (para_subterms deep 0 (cl_lits y)) k) as [[path u]|] eqn:Ek; [|exact I].
      apply nth_error_In in Ek.
      assert (F : forall l, In l (cl_lits y) -> fot (latom l) = true).
      { intros l Hl. specialize (Y2 l Hl). destruct (latom l); auto. }
      destruct (para_subterms_ok bk deep _ 0 path u ltac:(lia) F Ek) as (Hpos&_).
      destruct (meta_is_neg _); [exact I|]. destruct (negb _); [exact I|].
      destruct (equality_atom _ _) as [[|]|]; try exact I. destruct (eq_sides _) as [[a0 b0]|]; [|exact I]. cbn zeta.
      destruct (is_var _); [exact I|].
      match goal with |- context [match ?e with Done _ _ => _ | OutOfFuel => _ end] => destruct e as [[|] s'|] end; try exact I.
      unfold para_result. destruct (if many x then _ else _) as [r1 s2|w s2| |] eqn:E1; try exact I.
      pose proof (part_nn _ _ _ _ _ _ Hx nn_nil E1) as N. apply finish_nn. intros r s3 E.
      eapply result_aux_nn; [exact Y1|exact Y2| |exact N|exact E]. exact Hpos.
    Qed.
  End Build.

  (** Simplification. *)
  Section Simp.
    Variable loc : ustore.
    Variable kb : option ustore.
    Variable rw : clit -> rwres.
    Variable dbl : Z -> term -> list (clit * clit).
    Definition rwh (ls : list clit) : Prop :=
      forall l w t ch, In l ls -> rw l = RwTo w t ch -> pred_of t = Some ans -> pred_of (latom l) = Some ans.
    Definition sl_nn (k : slres) : Prop := match k with SlOk r _ _ => nn r | _ => True end.
    Lemma sl_cut_nn k : sl_nn k -> sl_nn (sl_cut k). Proof. destruct k; auto. Qed.
    Lemma sl_keep_nn m t ch k : (meta_is_neg m = true -> pred_of t <> Some ans) -> sl_nn k -> sl_nn (sl_keep (m, t) ch k).
    Proof. destruct k; simpl; auto. intros H Hk x [<-|Hx]; auto. Qed.
    Lemma simp_lit_nn xcl many dc ch m w t go : (meta_is_neg m = true -> pred_of t <> Some ans) -> (forall dc, sl_nn (go dc)) ->
      sl_nn (simp_lit sb loc kb dbl xcl many dc ch m w t go).
    Proof.
      intros Ht Hgo. unfold simp_lit. destruct (cut_lit _ _ _ _ _ _); try exact I; [|apply sl_cut_nn; auto].
      destruct (if negb dc && many then _ else _); try exact I; [apply sl_cut_nn; auto|apply sl_keep_nn; auto].
    Qed.
    Lemma simp_loop_nn xcl many : forall ls dc, nnl ls -> rwh ls -> sl_nn (simp_loop sb loc kb rw dbl xcl many ls dc).
    Proof.
      induction ls as [|l ls IH]; intros dc Hn Hr; cbn [simp_loop]; [intros x []|]. cbv zeta.
      assert (Hn' : nnl ls) by (intros x Hx; apply Hn; simpl; auto).
      assert (Hr' : rwh ls) by (intros x w t ch Hx; apply Hr; simpl; auto).
      destruct (rw l) as [| |w t ch] eqn:Er; [|exact I|].
      - apply simp_lit_nn; auto. apply Hn. simpl. auto.
      - destruct (term_eq_dec t (TCst atrue)). { destruct (meta_is_neg _); [apply sl_cut_nn; auto|exact I]. }
        destruct (term_eq_dec t (TCst afalse)). { destruct (meta_is_neg _); [exact I|apply sl_cut_nn; auto]. }
        apply simp_lit_nn; auto. intros N E. apply (Hn l (or_introl eq_refl) N). eapply Hr; [left; reflexivity|exact Er|exact E].
    Qed.
    Lemma dc_loop_nn xcl : forall ls dc, nnl ls -> sl_nn (dc_loop sb dbl xcl ls dc).
    Proof.
      induction ls as [|l ls IH]; intros dc Hn; cbn [dc_loop]; [intros x []|].
      assert (Hn' : nnl ls) by (intros x Hx; apply Hn; simpl; auto).
      destruct (if dc then ENo else _); try exact I; [apply sl_cut_nn; auto|apply sl_keep_nn; auto]. apply Hn. simpl. auto.
    Qed.
    Lemma simplify_nn c r : nnl (cl_lits c) -> rwh (cl_lits c) -> simplify sb loc kb rw dbl c = SmClause r -> nn r.
    Proof.
      intros Hn Hr. destruct c as [w a|ls]; cbn [simplify].
      - destruct (rw _) as [| |w' t ch] eqn:Er; try discriminate.
        destruct (term_eq_dec t (TCst atrue)); [discriminate|]. destruct (term_eq_dec t (TCst afalse)); [discriminate|].
        destruct ch; [|discriminate]. intros E; injection E as <-. intros x [<-|[]]. discriminate.
      - pose proof (simp_loop_nn ls (1 <? length ls)%nat ls false Hn Hr) as H.
        destruct (simp_loop _ _ _ _ _ _ _ _ _) as [| | |r0 cuts ch]; try discriminate.
        destruct (cuts || ch); [|discriminate]. destruct r0 as [|y r0]; [discriminate|]. intros E; injection E as <-. exact H.
    Qed.
    Lemma doublecut_nn c r : nnl (cl_lits c) -> simplify_doublecut sb dbl c = SmClause r -> nn r.
    Proof.
      intros Hn. destruct c as [w a|ls]; cbn [simplify_doublecut]; [discriminate|].
      destruct (length ls <? 2)%nat; [discriminate|].
      pose proof (dc_loop_nn ls ls false Hn) as H. destruct (dc_loop _ _ _ _ _) as [| | |r0 cuts ch]; try discriminate.
      destruct cuts; [|discriminate]. destruct r0 as [|y r0]; [discriminate|]. intros E; injection E as <-. exact H.
    Qed.
  End Simp.

  (** Rewriting keeps the predicate symbol, unless the atom is evaluated. *)
  Section Rw.
    Variable eqc : cst.
    Variable rules : term -> list (term * term).
    Variable M : interp.
    Variable S : signature.
    Variable rv : Z -> Prop.
    Hypothesis Hrules : forall k rule, In rule (rules k) -> usable S rv rule.
    Hypothesis Htrue : forall k rule, In rule (rules k) -> rule_true M rule.
    Hypothesis Hcomp : agrees_with eqc comp M.
    Hypothesis Htame : comp_tame S comp.

    Lemma build_rw_pred n x s t s' : clean s -> sig_atom S x -> apart rv x -> build_rw sb comp rules n x s = WOk t s' ->
      pred_of t = Some ans -> pred_of x = Some ans.
    Proof.
      intros Hs Hx Ha. destruct n as [|n]; cbn [build_rw]; [discriminate|].
      inversion Hx as [c Hc E|c args Hc Hargs E]; subst x.
      - intros H. apply (rewrite_symbol sb rules S rv) in H as [-> ->]; eauto. 
      - destruct (w_loop (build_rw sb comp rules n) (TCst c :: args) s) as [ts s1| | |] eqn:El; try discriminate.
        apply (goes_loop M S rv) in El; eauto using build_rw_goes.
        + destruct El as (args'&->&Hs1&Hsame). assert (Hlen : length args = length args') by (clear -Hsame; induction Hsame; simpl; congruence).
          apply (Forall2_same M S) in Hsame as (S1&S2&S3).
          assert (Hst : sig_atom S (TRec (TCst c :: args'))) by (constructor; auto; rewrite <- Hlen; auto).
          unfold w_computed. destruct (comp (TRec (TCst c :: args'))) as [t0|] eqn:Ec; [|discriminate].
          destruct (Htame _ _ Ec) as (_&_&T2). specialize (T2 Hst).
          destruct (is_truth t0) eqn:Eq.
          * intros H; injection H as <- <-. intros P. apply comp_pred in Ec as ->; auto.
          * destruct T2 as [->|[->|(gs&->&A)]]; try discriminate.
            inversion A as [|c' args0 Hc' Hargs0 E']; subst gs.
            intros H. apply (no_rule_for_atom sb comp S rv) with (k := length args0) in H as [B ->]; auto.
            -- intros P. apply comp_pred in Ec as ->; auto.
            -- intros rule Hr. eapply Hrules; eauto.
        + intros u t0 u' Hu. destruct n; cbn [build_rw] in Hu; [discriminate|]. apply (rewrite_symbol sb rules S rv) in Hu; eauto.
        + intros y Hy. rewrite Forall_forall in Hargs. split; auto. eapply apart_args; eauto.
    Qed.
  End Rw.
End Sign.
