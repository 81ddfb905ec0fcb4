(** Reported answers are correct. *)
From Coq Require Import List ZArith Bool Lia Classical_Prop.
From Verif Require Import Terms UnifySpec TermsProof UnifyModel MatchModel MatchProof MetaModel SubsumeSpec Semantics SemProof
  BuildModel DeriveModel DeriveSpec CutModel CutSpec DupModel SimpModel SimpSpec SimpProof RewriteModel RewriteSpec RewriteProof
  ShapeProof InstModel InstProof SearchModel SearchProof AnsModel AnsSpec AnsSign.
Import ListNotations.
Open Scope Z_scope.

Lemma pred_rename sg t : (forall i, exists j, sg i = TVar j) -> pred_of (app sg t) = pred_of t.
Proof.
  intros H. destruct t as [i|c|[|[i|c|gs] fs]]; cbn; auto; destruct (H i) as [j ->]; reflexivity.
Qed.
Lemma variant_positive ans c d : variant c d -> ans_positive ans c -> ans_positive ans d.
Proof.
  intros (sg&Hsg&->) Hc l Hl. apply in_map_iff in Hl as (k&<-&Hk). unfold is_ans, inst; cbn [fst snd].
  rewrite pred_rename by auto. intros E. apply (Hc k Hk E).
Qed.
Lemma positive_nnl ans c : ans_positive ans (clause_of c) -> nnl ans (cl_lits c).
Proof.
  intros H l Hl N E. specialize (H (lit_of_clit l) (in_map _ _ _ Hl) E). cbn in H. congruence.
Qed.
Lemma nn_positive ans r : nn ans r -> ans_positive ans (derived r).
Proof.
  intros H l Hl E. apply in_map_iff in Hl as (x&<-&Hx). cbn in *.
  destruct (meta_is_neg (fst x)) eqn:N; auto. exfalso. apply (H x Hx N). exact E.
Qed.

Section Run.
  Variable sb : stray_env.
  Variable comp : term -> option term.
  Variable eqc ans : cst.
  Variable S : signature.
  Variable rv : Z -> Prop.
  Hypothesis Htame : comp_tame S comp.
  Hypothesis Heq : forall n, pr S eqc n -> n = 2%nat.
  Hypothesis Hne : not_evaluated ans comp.
  Variable M : interp.
  Hypothesis Hcomp : agrees_with eqc comp M.

  Definition positive (K : list scl) : Prop := forall c, In c K -> ans_positive ans (clause_of c).

  Lemma known_positive K c : positive K -> known K c -> ans_positive ans c.
  Proof. intros Hp (k&Hk&Hv). eapply variant_positive; eauto. Qed.
  Lemma parent_tame K x : good eqc S M K -> positive K -> parent sb K x -> tame_cl ans x.
  Proof.
    intros Hg Hp (Hk&_&_). split; [apply positive_nnl; eapply known_positive; eauto|].
    intros l Hl. destruct (known_good _ _ _ _ _ Hg Hk) as [A _]. eapply sig_atom_foa, sig_lit; eauto.
  Qed.
  Lemma infers_nn K r s : good eqc S M K -> positive K -> infers sb comp eqc K (DClause r s) -> nn ans r.
  Proof.
    intros Hg Hp H. remember (DClause r s) as d. assert (N : nn_res ans d); [|subst d; exact N]. clear Heqd.
    destruct H; try apply resolve_nn; try apply factor_nn; try apply reflexive_nn; try apply paramodulate_nn; try apply probe_nn;
      try (eapply instgen_nn; [exact Hne| | |eassumption]); eauto using parent_tame.
  Qed.
  Lemma stored_positive r c : stored r c -> nn ans r -> ans_positive ans (clause_of c).
  Proof. intros [Hv _] Hn. eapply variant_positive; [exact Hv|]. apply nn_positive. auto. Qed.

  Lemma learn_positive K c : good eqc S M K -> positive K -> step sb comp eqc S rv K (Learn c) -> ans_positive ans (clause_of c).
  Proof.
    intros Hg Hp H. inversion H as [|?|r s loc kb fwd strong dups cands nu r' c0 Hi Hu Hk Hc Hpo Hst|
      |dbl c0 r c' Hk Hs Hd E Hst| |loc kb rw dbl c0 r c' Hk Hs Hu Hkb Hd Hrw E Hst]; subst.
    - destruct (infers_good sb comp eqc S Htame Heq M Hcomp _ _ Hg Hi) as [_ B]. destruct (B r s eq_refl) as (N&Ac&Bf).
      pose proof (post_ok sb eqc M loc kb (units_good _ _ _ _ _ Hg Hu) (kb_good _ _ _ _ _ Hg Hk) fwd strong dups cands nu r (vars s)
        (cands_good _ _ _ _ _ Hg Hc) (conj Ac Bf) (fun x Hx => sig_atom_foa S _ (proj1 (N x Hx))) (fun x Hx => proj2 (proj2 (N x Hx)))) as G.
      rewrite Hpo in G. destruct G as (_&Hsub&_). eapply stored_positive; [exact Hst|].
      pose proof (infers_nn _ _ _ Hg Hp Hi) as G. intros x Hx. apply G. auto.
    - eapply stored_positive; [exact Hst|]. eapply doublecut_nn; [|exact E]. apply positive_nnl. eapply known_positive; eauto.
    - eapply stored_positive; [exact Hst|]. eapply simplify_nn; [| |exact E].
      + apply positive_nnl. eapply known_positive; eauto.
      + destruct (known_good _ _ _ _ _ Hg Hk) as [A _]. destruct Hrw as (rules&Hr&Hw). intros l w t ch Hl Er.
        destruct (Hw l w t ch Hl Er) as (Ha&(n&s&s'&Hc&Hb)&_).
        eapply (build_rw_pred sb comp ans Hne eqc rules M S rv (fun k rule Hk => proj1 (Hr k rule Hk))
          (rules_good _ _ _ _ _ _ Hg Hr) Hcomp Htame); eauto using sig_lit.
  Qed.

  Lemma reach_positive K0 K : good eqc S M K0 -> positive K0 -> reach sb comp eqc S rv K0 K -> positive K.
  Proof.
    intros H0 P0 H. induction H as [|K c H IH Hs|K K' H IH Hi]; auto.
    - intros x [<-|Hx]; auto. apply (learn_positive K c); auto. apply (reach_good sb comp eqc S rv Htame Heq M Hcomp K0 K); auto.
    - intros x Hx. auto.
  Qed.
End Run.

(** ** The interpretation in which the answer predicate holds of the correct answers *)
Section Reinterpret.
  Variable eqc ans : cst.
  Hypothesis Hae : ans <> eqc.
  Variable M : interp.
  Variable R : list (dom M) -> Prop.
  Definition with_ans : interp :=
    {| dom := dom M; icst := icst M; ifun := ifun M;
       ipred := fun c ds => if cst_eq_dec c ans then R ds else ipred M c ds; iprop := iprop M; iodd := iodd M |}.
  Lemma eval_with : forall t (v : Z -> dom M), eval with_ans v t = eval M v t.
  Proof. reflexivity. Qed.
  Lemma map_eval_with l (v : Z -> dom M) : map (eval with_ans v) l = map (eval M v) l.
  Proof. apply map_ext. intros x. apply eval_with. Qed.
  Lemma holds_with a (v : Z -> dom M) : pred_of a <> Some ans -> (holds eqc with_ans v a <-> holds eqc M v a).
  Proof.
    intros H. destruct a as [i|c|[|[i|c|gs] fs]]; cbn [holds]; try tauto.
    assert (N : c <> ans) by (simpl in H; congruence).
    assert (E : ipred with_ans c (map (eval with_ans v) fs) <-> ipred M c (map (eval M v) fs)).
    { rewrite map_eval_with. cbn [with_ans ipred]. destruct (cst_eq_dec c ans); [contradiction|]. tauto. }
    destruct (cst_eq_dec c eqc); [|exact E].
    destruct fs as [|x [|y [|z fs]]]; try exact E. rewrite !eval_with. tauto.
  Qed.
  Lemma holds_ans a (v : Z -> dom M) : pred_of a = Some ans -> (holds eqc with_ans v a <-> R (map (eval M v) (args_of a))).
  Proof.
    destruct a as [i|c|[|[i|c|gs] fs]]; try discriminate. intros E; injection E as ->. cbn [holds args_of].
    destruct (cst_eq_dec ans eqc); [contradiction|]. rewrite map_eval_with. cbn [with_ans ipred].
    destruct (cst_eq_dec ans ans); [tauto|contradiction].
  Qed.
  Lemma lit_with l (v : Z -> dom M) : ~ is_ans ans l -> (lit_holds eqc with_ans v l <-> lit_holds eqc M v l).
  Proof. intros H. unfold lit_holds. destruct (fst l); rewrite holds_with by exact H; tauto. Qed.

  Lemma agrees_with_ans comp : not_evaluated ans comp -> agrees_with eqc comp M -> agrees_with eqc comp with_ans.
  Proof.
    intros Hn Ha fs t E v. destruct (Ha fs t E v) as [A B]. split; [rewrite !eval_with; exact A|].
    assert (D : forall u, pred_of u = Some ans \/ pred_of u <> Some ans).
    { intros u. destruct (pred_of u) as [c|]; [|right; discriminate]. destruct (cst_eq_dec c ans); [left|right]; congruence. }
    destruct (D (TRec fs)) as [P|P]; [rewrite (Hn fs t E (or_introl P)); tauto|].
    destruct (D t) as [Q|Q]; [rewrite (Hn fs t E (or_intror Q)); tauto|].
    rewrite (holds_with t) by exact Q. rewrite (holds_with (TRec fs)) by exact P. exact B.
  Qed.
End Reinterpret.

(** ** What the clause test says *)
Lemma answer_lit_spec ans a : answer_lit ans a = Some true -> pred_of a = Some ans.
Proof.
  destruct a as [i|c|[|[i|c|gs] fs]]; cbn; try discriminate. destruct (cst_eq_dec c ans); [congruence|discriminate].
Qed.
Lemma count_bound ans : forall ls n, count_answers ans ls = Some n -> 0 <= n <= Z.of_nat (length ls) /\
  (n = Z.of_nat (length ls) -> forall l, In l ls -> pred_of (latom l) = Some ans).
Proof.
  induction ls as [|l ls IH]; intros n; cbn [count_answers length].
  - intros E; injection E as <-. split; [lia|]. intros _ l [].
  - destruct (answer_lit ans (latom l)) as [b|] eqn:Ea; [|discriminate].
    destruct (count_answers ans ls) as [k|] eqn:Ek; [|discriminate]. destruct (IH k eq_refl) as [B C].
    intros E; injection E as <-. destruct b; (split; [lia|]); intros Hn x [<-|Hx]; try lia.
    + apply answer_lit_spec. auto.
    + apply C; auto. lia.
Qed.
Lemma derived_is_answer_spec ans c n : derived_is_answer ans c = Some n -> 0 < n ->
  n = Z.of_nat (length (clause_of c)) /\ clause_of c <> [] /\ forall l, In l (clause_of c) -> is_ans ans l.
Proof.
  unfold derived_is_answer. destruct c as [w a|ls].
  - destruct (answer_lit ans a) as [[|]|] eqn:Ea; try discriminate; cbn; intros E; injection E as <-; [|lia].
    intros _. split; auto. split; [discriminate|]. intros l [<-|[]]. apply answer_lit_spec. auto.
  - destruct (count_answers ans ls) as [k|] eqn:Ek; [|discriminate]. destruct (count_bound _ _ _ Ek) as [B C].
    destruct (Z.eqb_spec k (Z.of_nat (length ls))) as [E|]; intros H; injection H as <-; [|lia].
    intros Hk. unfold clause_of. rewrite map_length. cbn [cl_lits]. split; auto. split.
    + destruct ls; [cbn in E; lia|discriminate].
    + intros l Hl. apply in_map_iff in Hl as (x&<-&Hx). apply (C E x Hx).
Qed.
Lemma answer_lit_total ans c : (forall l, In l (clause_of c) -> foa (snd l) = true /\ exists fs, snd l = TRec fs) ->
  exists n, derived_is_answer ans c = Some n /\
    (0 < n <-> (clause_of c <> [] /\ forall l, In l (clause_of c) -> is_ans ans l)) /\
    (n = -1 \/ n = Z.of_nat (length (clause_of c))).
Proof.
  intros H.
  assert (T : forall a, foa a = true -> (exists fs, a = TRec fs) ->
    exists b, answer_lit ans a = Some b /\ (b = true <-> pred_of a = Some ans)).
  { intros a Fa (fs&->). cbn [foa] in Fa. apply fot_rec in Fa as (d&args&->&_). cbn [answer_lit]. eexists. split; [reflexivity|].
    cbn. destruct (cst_eq_dec d ans); split; congruence. }
  destruct c as [w a|ls].
  - destruct (H (false, a) (or_introl eq_refl)) as (A&B). destruct (T a A B) as (b&E&Hb).
    unfold derived_is_answer. rewrite E. eexists. split; [reflexivity|]. split.
    + destruct b; cbn.
      * split; [|lia]. intros _. split; [discriminate|]. intros l [<-|[]]. apply Hb. auto.
      * split; [lia|]. intros [_ X]. specialize (X _ (or_introl eq_refl)). apply Hb in X. discriminate.
    + destruct b; auto.
  - assert (G : forall xs, (forall l, In l (map lit_of_clit xs) -> foa (snd l) = true /\ exists fs, snd l = TRec fs) ->
      exists k, count_answers ans xs = Some k /\
       (k = Z.of_nat (length xs) <-> forall l, In l (map lit_of_clit xs) -> is_ans ans l)).
    { induction xs as [|x xs IH]; intros Hx.
      - exists 0. split; auto. split; auto. intros _ l [].
      - destruct IH as (k&Ek&Hk); [intros l Hl; apply Hx; right; auto|].
        destruct (Hx _ (or_introl eq_refl)) as (A&B). destruct (T (latom x) A B) as (b&E&Hb).
        cbn [count_answers]. rewrite E, Ek. eexists. split; [reflexivity|]. pose proof (proj1 (count_bound _ _ _ Ek)).
        cbn [length]. destruct b.
        + split.
          * intros X l [<-|Hl]; [apply Hb; auto|]. apply Hk; auto. lia.
          * intros X. assert (k = Z.of_nat (length xs)) by (apply Hk; intros l Hl; apply X; right; auto). lia.
        + split; [lia|]. intros X. specialize (X _ (or_introl eq_refl)). apply Hb in X. discriminate. }
    destruct (G ls H) as (k&Ek&Hk). pose proof (proj1 (count_bound _ _ _ Ek)).
    unfold derived_is_answer. rewrite Ek. eexists. split; [reflexivity|]. unfold clause_of. rewrite map_length. cbn [cl_lits].
    destruct (Z.eqb_spec k (Z.of_nat (length ls))) as [E|E]; (split; [|auto]).
    + split; [|intros [X _]; destruct ls; [contradiction|cbn [length] in *; lia]].
      intros Hp. split; [destruct ls; [cbn in *; lia|discriminate]|]. apply Hk. auto.
    + split; [lia|]. intros [_ X]. apply Hk in X. contradiction.
Qed.

(** ** Correctness *)
Lemma answers_correct sb comp eqc ans S rv K0 K c n :
  comp_tame S comp -> (forall n, pr S eqc n -> n = 2%nat) -> (forall k, In k K0 -> sig_clause S (clause_of k)) ->
  ans <> eqc -> not_evaluated ans comp -> (forall k, In k K0 -> ans_positive ans (clause_of k)) ->
  reach sb comp eqc S rv K0 K -> In c K -> derived_is_answer ans c = Some n -> 0 < n ->
  forall M, agrees_with eqc comp M ->
  (forall k, In k K0 -> (forall l, In l (clause_of k) -> ~ is_ans ans l) -> valid_in eqc M (clause_of k)) ->
  pure_answer ans (clause_of c) /\
  forall v, exists l, In l (clause_of c) /\
    correct_answer eqc ans (map clause_of K0) M (map (eval M v) (args_of (snd l))).
Proof.
  intros Ht He Hs Hae Hne Hp Hr Hc Hd Hn M Ha HM.
  set (R := correct_answer eqc ans (map clause_of K0) M).
  set (M' := with_ans ans M R).
  assert (Ha' : agrees_with eqc comp M') by (apply agrees_with_ans; auto).
  assert (HM' : forall k, In k K0 -> valid_in eqc M' (clause_of k)).
  { intros k Hk v. cbn [M' with_ans dom] in v.
    destruct (classic (exists l, In l (clause_of k) /\ ~ is_ans ans l /\ lit_holds eqc M v l)) as [(l&Hl&Hna&Hh)|No].
    - exists l. split; auto. apply lit_with; auto.
    - destruct (classic (exists l, In l (clause_of k) /\ is_ans ans l)) as [(l&Hl&Hia)|NoA].
      + exists l. split; auto. unfold lit_holds. rewrite (Hp k Hk l Hl Hia). apply holds_ans; auto.
        exists (clause_of k), v, l. split; [apply in_map; auto|]. split; auto. split; auto. split; auto.
        intros l' Hl' Hna Hh. apply No. eauto.
      + exfalso. apply No. destruct (HM k Hk) with (v := v) as (l&Hl&Hh).
        * intros l Hl Hia. apply NoA. eauto.
        * exists l. split; auto. split; auto. intros Hia. apply NoA. eauto. }
  assert (Hg : good eqc S M' K0) by (intros k Hk; split; auto).
  pose proof (reach_positive sb comp eqc ans S rv Ht He Hne M' Ha' K0 K Hg Hp Hr c Hc) as Pc.
  destruct (derived_is_answer_spec _ _ _ Hd Hn) as (_&Hnil&Hall).
  split; [split; auto|].
  intros v. destruct (reach_good sb comp eqc S rv Ht He M' Ha' K0 K Hg Hr c Hc) as [_ Hv].
  destruct (Hv v) as (l&Hl&Hh). exists l. split; auto. unfold lit_holds in Hh. rewrite (Pc l Hl (Hall l Hl)) in Hh.
  apply (holds_ans eqc ans Hae M R) in Hh; [exact Hh|]. apply Hall. auto.
Qed.
