(** C66: the recorded parents justify simplified and cut clauses. *)
From Coq Require Import List ZArith Bool Lia.
From Verif Require Import Terms UnifySpec TermsProof UnifyModel MatchModel MatchProof MetaModel SubsumeSpec Semantics SemProof
  BuildModel DeriveModel DeriveSpec CutModel CutSpec CutProof DupModel SimpModel SimpSpec RewriteModel RewriteSpec
  LogModel LogSpec LogRw LogProof LogStrong LogUsed PropDeriveEx PropCutEx PropRewriteEx.
Import ListNotations.
Open Scope Z_scope.

(** The searches that record are those of the other properties. *)
Theorem C66_same_rewriting : forall sb comp rules n x s g, fst (build_rec sb comp rules n x s g) = build_rw sb comp rules n x s.
Proof. exact build_erases. Qed.
Print Assumptions C66_same_rewriting.
Theorem C66_same_simplification : forall sb loc kb rw rw0 dbl c, (forall l g, fst (rw l g) = rw0 l) ->
  fst (simplify_rec sb loc kb rw dbl c) = simplify sb loc kb rw0 dbl c.
Proof. intros. apply simplify_erase. assumption. Qed.
Print Assumptions C66_same_simplification.
Theorem C66_same_cutting : forall sb loc kb cands fwd strong dups nu r s,
  fst (post_rec sb loc kb cands fwd strong dups nu r s) = post sb loc kb fwd strong dups cands nu r s.
Proof. intros. apply post_erase. Qed.
Print Assumptions C66_same_cutting.

(** C66.  Rewriting: wherever the recorded equations are true, the term keeps its value - whichever other
    equations there are, unless the vector got full. *)
Theorem C66_rewriting_partial : forall sb eqc comp rules S rv n x s t s' g',
  (forall k rule, In rule (rules k) -> usable S rv rule) -> comp_tame S comp ->
  clean s -> sig_term S x -> apart rv x -> build_rec sb comp rules n x s [] = (WOk t s', g') -> Z.of_nat (length g') < 9994 ->
  forall M, agrees_with eqc comp M -> (forall q, In q g' -> rule_true M q) -> forall v, eval M v t = eval M v x.
Proof.
  intros sb eqc comp rules S rv n x s t s' g' Hr Ht Hs Hx Ha E Hl M Hc Hq v.
  destruct (build_goes sb eqc comp rules M S rv Hr Hc Ht n x s [] t s' g' Hs Hx Ha E (conj Hl Hq)) as (_&_&_&H). apply H.
Qed.
Print Assumptions C66_rewriting_partial.

Lemma by_recorded sb eqc comp rules S rv rw ls : (forall k rule, In rule (rules k) -> usable S rv rule) -> comp_tame S comp ->
  lits_fit S rv ls -> new_words rw ls -> rw_by sb comp rules rw -> rw_recorded rw (agrees_with eqc comp) eqc ls.
Proof.
  intros Hr Ht Hf Hn Hb l g r g' Hl E. specialize (Hb l g r g' E). destruct (Hf l Hl) as [F1 F2].
  assert (Hpre : prefix g g').
  { destruct r as [| |w t ch].
    - subst. apply prefix_refl.
    - destruct Hb as (n&s&k&_&Hb). pose proof (build_grows sb comp rules n (latom l) s g) as H. rewrite Hb in H. exact H.
    - destruct Hb as (n&s&s'&_&Hb). pose proof (build_grows sb comp rules n (latom l) s g) as H. rewrite Hb in H. exact H. }
  split; [apply prefix_incl; exact Hpre|]. split; [apply prefix_length; exact Hpre|].
  intros w t ch ->. split; [exact (Hn l g w t ch g' Hl E)|].
  destruct Hb as (n&s&s'&Hs&Hb). intros Hlen M Hc Hq v.
  exact (build_atom sb eqc comp rules M S rv Hr Hc Ht n (latom l) s g t s' g' Hs F1 F2 Hb (conj Hlen Hq) v).
Qed.

(** Simplification of a clause: the clause put in its place says the same wherever the recorded parents are true, and
    after a reported proof the clause is false there. *)
Theorem C66_simplified_follows_partial : forall sb eqc loc kb dbl comp rules S rv rw c r p,
  (forall k rule, In rule (rules k) -> usable S rv rule) -> comp_tame S comp ->
  lits_fit S rv (cl_lits c) -> words_ok (cl_lits c) -> new_words rw (cl_lits c) -> rw_by sb comp rules rw ->
  simplify_rec sb loc kb rw dbl c = (r, p) -> (length (p_cutters p) < 97)%nat -> Z.of_nat (length (p_rewriters p)) < 9994 ->
  forall M, agrees_with eqc comp M -> parents_true eqc M p -> forall v,
  match r with
  | SmProof => ~ clause_holds eqc M v (clause_of c)
  | SmClause r' => r' <> [] /\ (clause_holds eqc M v (derived r') <-> clause_holds eqc M v (clause_of c))
  | _ => True
  end.
Proof.
  intros sb eqc loc kb dbl comp rules S rv rw c r p Hr Ht Hf Hw Hn Hb E Hc Hg M Ha Hp v.
  exact (simplify_follows sb loc kb eqc M rw dbl (agrees_with eqc comp) Ha c v p r Hw
    (by_recorded sb eqc comp rules S rv rw (cl_lits c) Hr Ht Hf Hn Hb) E Hc Hg Hp).
Qed.
Print Assumptions C66_simplified_follows_partial.

(** Cutting of a derived clause, also with the strong cut: what is kept follows from the derived clause and the recorded
    cutters; so does the contradiction of a reported proof. *)
Theorem C66_cut_follows_partial : forall sb eqc loc kb cands fwd strong dups nu r s k p,
  (forall neg a y, In y (cands neg a) -> foa y = true) -> acyclic (bank s) -> (forall i t, bank s i = Some t -> fot t = true) ->
  (forall x, In x r -> foa (snd x) = true) -> with_metas r ->
  post_rec sb loc kb cands fwd strong dups nu r s = (k, p) -> (length p < 98)%nat ->
  forall M, (forall c, In c p -> valid_in eqc M (cutter_clause c)) -> valid_in eqc M (derived r) ->
  match k with PProof => False | PClause r' => valid_in eqc M (derived r') | _ => True end.
Proof.
  intros sb eqc loc kb cands fwd strong dups nu r s k p Hc Ha Hb Hf Hm E Hl M Hp Hv.
  pose proof (post_follows sb eqc M cands Hc loc kb fwd strong dups nu r s k p (conj Ha Hb) Hf Hm E Hl Hp Hv) as H.
  destruct k; auto. destruct (H (fun _ => icst M atrue)) as (l&[]&_).
Qed.
Print Assumptions C66_cut_follows_partial.

(** Only clauses that are there are recorded, however many. *)
Theorem C66_parents_there : forall sb loc kb dbl comp rules rw c r p, rw_by sb comp rules rw ->
  simplify_rec sb loc kb rw dbl c = (r, p) ->
  (forall k, In k (p_cutters p) -> is_there loc kb dbl (fun _ _ => []) k) /\
  (forall q, In q (p_rewriters p) -> exists x, In q (rules x)).
Proof.
  intros sb loc kb dbl comp rules rw c r p Hb E.
  refine (simplify_there sb loc kb dbl _ rules rw _ c r p E). intros l g Hg. specialize (Hb l g). destruct (rw l g) as [k g'] eqn:El.
  specialize (Hb k g' eq_refl). cbn [snd]. destruct k as [| |w t ch].
  - subst. exact Hg.
  - destruct Hb as (n&s&k&_&Hb). pose proof (build_stays sb comp rules n (latom l) s g Hg) as H. rewrite Hb in H. exact H.
  - destruct Hb as (n&s&s'&_&Hb). pose proof (build_stays sb comp rules n (latom l) s g Hg) as H. rewrite Hb in H. exact H.
Qed.
Print Assumptions C66_parents_there.
Theorem C66_cutters_there : forall sb loc kb cands fwd strong dups nu r s k p,
  post_rec sb loc kb cands fwd strong dups nu r s = (k, p) -> forall c, In c p -> is_there loc kb (fun _ _ => []) cands c.
Proof. intros sb loc kb cands fwd strong dups nu r s k p. exact (post_there sb loc kb (fun _ _ => []) cands fwd strong dups nu r s k p). Qed.
Print Assumptions C66_cutters_there.

(** P(F(F(R(a,X)))) | P(b) | Q(X) | ~P(X): the first literal is rewritten with three uses of equations, the second cut with
    the unit ~P(b), the last with the clause Q(X) | P(X). *)
Definition sb1 : stray_env := fun _ => true.
Definition rwl (l : clit) (g : rlog) : rwres * rlog :=
  match build_rec sb1 comp0 rules0 40 (latom l) empty_vst g with
  | (WOk t _, g') => (RwTo (if term_eq_dec t (latom l) then lword l else 900) t (negb (length g =? length g')%nat), g')
  | (_, g') => (RwIllegal, g')
  end.
Definition cll := SRule [pl 801 t0; pl 802 (P b); pl 803 (Q X3); nl 804 (P X3)].
Definition ul : ustore := {| pos_units := []; neg_units := [P a; P b] |}.
Definition dbll (m : Z) (x : term) : list (clit * clit) := [(pl 905 (Q X3), pl 906 (P X3))].
Definition parl : parents :=
  {| p_cutters := [KUnit true (P b); KDouble (pl 905 (Q X3)) (pl 906 (P X3))]; p_rewriters := [rule2; rule1; rule1] |}.
Lemma rwl_shape l g : exists t s' k g', build_rec sb1 comp0 rules0 40 (latom l) empty_vst g = (k, g') /\ (k = WOk t s' /\
    rwl l g = (RwTo (if term_eq_dec t (latom l) then lword l else 900) t (negb (length g =? length g')%nat), g') \/ rwl l g = (RwIllegal, g')).
Proof.
  unfold rwl. destruct (build_rec sb1 comp0 rules0 40 (latom l) empty_vst g) as [k g'].
  destruct k as [t s'| | |]; [exists t, s'|exists t0, empty_vst|exists t0, empty_vst|exists t0, empty_vst]; do 2 eexists; (split; [reflexivity|]); auto.
Qed.
Lemma cll_words : forall x y, In x (cl_lits cll) -> In y (cl_lits cll) -> lword x = lword y -> latom x = latom y.
Proof.
  intros x y Hx Hy. simpl in Hx, Hy.
  repeat (destruct Hx as [<-|Hx]; [repeat (destruct Hy as [<-|Hy]; [cbn [lword latom pl nl]; intros; first [reflexivity|lia]|]); destruct Hy|]); destruct Hx.
Qed.
Lemma rwl_words : new_words rwl (cl_lits cll).
Proof.
  intros l g w t ch g' Hl E l' Hl' Hw. destruct (rwl_shape l g) as (u&s'&k&g2&_&[[_ H]|H]); rewrite H in E; [|discriminate].
  injection E as Ew Et _ _. subst u. destruct (term_eq_dec t (latom l)) as [->|_].
  - subst w. apply cll_words; auto.
  - exfalso. assert (H9 : lword l' = 900) by congruence. clear -Hl' H9. simpl in Hl'. repeat (destruct Hl' as [<-|Hl']; [cbn [lword pl nl] in H9; lia|]). destruct Hl'.
Qed.
Lemma rwl_by : rw_by sb1 comp0 rules0 rwl.
Proof.
  intros l g r g' E. destruct (rwl_shape l g) as (u&s'&k&g2&Eb&[[Ek H]|H]); rewrite H in E; injection E as <- <-.
  - subst k. exists 40%nat, empty_vst, s'. split; [|exact Eb]. split; [intros i; reflexivity|reflexivity].
  - exists 40%nat, empty_vst, k. split; [|exact Eb]. split; [intros i; reflexivity|reflexivity].
Qed.
Lemma cll_fit : lits_fit sig0 rv0 (cl_lits cll).
Proof.
  intros l [<-|[<-|[<-|[<-|[]]]]].
  - exact t0_atom.
  - split; [apply sa_rec; [simpl; auto|]; constructor; [constructor|constructor]|intros i []].
  - split; [apply sa_rec; [simpl; auto|]; constructor; [constructor|constructor]|intros i [<-|[]]; unfold rv0; lia].
  - split; [apply sa_rec; [simpl; auto|]; constructor; [constructor|constructor]|intros i [<-|[]]; unfold rv0; lia].
Qed.
Example C66_nonvacuous :
  (forall k rule, In rule (rules0 k) -> usable sig0 rv0 rule) /\ comp_tame sig0 comp0 /\
  lits_fit sig0 rv0 (cl_lits cll) /\ words_ok (cl_lits cll) /\ new_words rwl (cl_lits cll) /\ rw_by sb1 comp0 rules0 rwl /\
  simplify_rec sb1 ul None rwl dbll cll = (SmClause [(4, P (R (F (F b)) (F b))); (4, Q X3)], parl).
Proof.
  split; [exact rules0_usable|]. split; [exact comp0_tame|]. split; [exact cll_fit|]. split; [exact cll_words|].
  split; [exact rwl_words|]. split; [exact rwl_by|]. vm_compute. reflexivity.
Qed.
(** Cutting: P(a) with a unit, ~Q(Y) with the strong cut. *)
Example C66_nonvacuous_cut :
  post_rec sb0 u0 None cands0 true true true 20 [(npl, P a); (nng, Q Y3)] empty_vst = (PProof, [KUnit true (P a); KUnit false (Q (TVar 0))]) /\
  exists p, post_rec sb0 u0 None cands0 true true true 20 [(npl, P a); (npl, R X3 Y3); (npl, R X3 Z3)] empty_vst = (PClause [(npl, R X3 Z3)], p).
Proof. split; [vm_compute; reflexivity|]. eexists. vm_compute. reflexivity. Qed.

(* ---- full vectors ---- *)
Definition num (i : Z) : term := TCst (CImm i).
Fixpoint span (i : Z) (n : nat) : list Z := match n with O => [] | S n' => i :: span (i + 1) n' end.
Lemma span_in n : forall i x, In x (span i n) -> i <= x < i + Z.of_nat n.
Proof. induction n as [|n IH]; intros i x; cbn [span]; [intros []|]. intros [<-|H]; [lia|]. apply IH in H. lia. Qed.

(** 98 literals, each cut by a unit of its own: a proof is reported; one of the units is not recorded, and the recorded
    ones do not contradict the clause. *)
Definition many_lits : scl := SRule (map (fun i => pl i (num i)) (span 1000 98)).
Definition many_units : ustore := {| pos_units := []; neg_units := map num (span 1000 98) |}.
Definition last_true : interp :=
  {| dom := unit; icst := fun _ => tt; ifun := fun _ _ => tt; ipred := fun _ _ => False; iprop := fun c => c = CImm 1097; iodd := fun _ => tt |}.
Theorem C66_cutters_refuted : exists loc c p M v,
  simplify_rec sb0 loc None (fun _ g => (RwKeep, g)) (fun _ _ => []) c = (SmProof, p) /\ (length (p_cutters p) = 97)%nat /\
  parents_true EQ M p /\ clause_holds EQ M v (clause_of c).
Proof.
  exists many_units, many_lits, {| p_cutters := map (fun i => KUnit true (num i)) (span 1000 97); p_rewriters := [] |}, last_true, (fun _ => tt).
  split; [vm_compute; reflexivity|]. split; [reflexivity|]. split; [split; [|intros q []]|].
  - intros k Hk. cbn [p_cutters] in Hk. apply in_map_iff in Hk as (i&<-&Hi). apply span_in in Hi. intros v. exists (true, num i). split; [left; reflexivity|].
    unfold lit_holds, num. cbn [fst snd holds].
    destruct (cst_eq_dec (CImm i) atrue) as [E|_]; [unfold atrue in E; injection E; lia|].
    destruct (cst_eq_dec (CImm i) afalse) as [E|_]; [tauto|]. cbn [iprop last_true]. intros E. injection E. lia.
  - exists (false, num 1097). split; [|vm_compute; reflexivity].
    change (false, num 1097) with (lit_of_clit (pl 1097 (num 1097))). apply in_map.
    apply (in_map (fun i => pl i (num i))). vm_compute. repeat (first [left; reflexivity|right]).
Qed.
Print Assumptions C66_cutters_refuted.

(** A chain of 9995 equations between constants: the last one used is not recorded, and the recorded ones do not make
    the two ends equal. *)
Definition chain (x : term) : list (term * term) :=
  match x with TCst (CImm i) => if (1000 <=? i) && (i <? 10995) then [(num i, num (i + 1))] else [] | _ => [] end.
Definition ends_apart : interp :=
  {| dom := bool; icst := fun c => match c with CImm i => 10994 <? i | _ => false end; ifun := fun _ _ => false; ipred := fun _ _ => False;
     iprop := fun _ => False; iodd := fun _ => false |}.
Definition early (g : rlog) : Prop := forall q, In q g -> exists j, 1000 <= j < 10994 /\ q = (num j, num (j + 1)).
Lemma chain_run s : forall k g, (k <= Z.to_nat 9995)%nat -> early g -> Z.of_nat (length g) = Z.min (9995 - Z.of_nat k) 9994 ->
  exists g', constant_rec sb0 chain (S k) (num (10995 - Z.of_nat k)) s g = (WOk (num 10995) s, g') /\ early g'.
Proof.
  assert (Eq : forall i, equal_term sb0 (num i) (num i) = EYes).
  { intros i. unfold num. cbn. rewrite (proj2 (equal_cst_exact (CImm i) (CImm i)) eq_refl). reflexivity. }
  induction k as [|k IH]; intros g Hk Hg Hl.
  - exists g. split; [|exact Hg]. change (10995 - Z.of_nat 0) with 10995. reflexivity.
  - set (i := 10995 - Z.of_nat (S k)) in *. cbn [constant_rec].
    assert (Ec : chain (num i) = [(num i, num (i + 1))]).
    { unfold chain, num. assert (H1 : (1000 <=? i) = true) by (apply Z.leb_le; lia). assert (H2 : (i <? 10995) = true) by (apply Z.ltb_lt; lia).
      rewrite H1, H2. reflexivity. }
    rewrite Ec. cbn [find_rec]. rewrite Eq. cbn [snd]. replace (i + 1) with (10995 - Z.of_nat k) by lia.
    apply (IH (add_rewriter (num i, num (10995 - Z.of_nat k)) g)); [lia| |].
    + intros q. unfold add_rewriter. rewrite nrofs. destruct (Z.ltb_spec (2 + Z.of_nat (length g)) 9996); [|apply Hg].
      intros Hq. apply in_app_or in Hq as [Hq|[<-|[]]]; [apply Hg; exact Hq|]. exists i. split; [lia|]. f_equal. f_equal. lia.
    + unfold add_rewriter. rewrite nrofs. destruct (Z.ltb_spec (2 + Z.of_nat (length g)) 9996).
      * rewrite app_length. change (length [(num i, num (10995 - Z.of_nat k))]) with 1%nat. lia.
      * lia.
Qed.
Theorem C66_rewriters_refuted : exists sb comp rules S rv n x s t s' g M v,
  (forall k rule, In rule (rules k) -> usable S rv rule) /\ comp_tame S comp /\ agrees_with EQ comp M /\
  clean s /\ sig_term S x /\ build_rec sb comp rules n x s [] = (WOk t s', g) /\
  (forall q, In q g -> rule_true M q) /\ eval M v t <> eval M v x.
Proof.
  destruct (chain_run empty_vst (Z.to_nat 9995) [] ltac:(lia) ltac:(intros q []) ltac:(cbn [length]; lia)) as (g&E&Hg).
  replace (10995 - Z.of_nat (Z.to_nat 9995)) with 1000 in E by lia.
  exists sb0, comp0, chain, {| fn := fun _ => False; pr := fun _ _ => False |}, (fun _ => False), (S (S (Z.to_nat 9995))), (num 1000), empty_vst, (num 10995), empty_vst, g,
    ends_apart, (fun _ => false).
  split; [|split; [|split; [|split; [|split; [|split; [|split]]]]]].
  - intros k rule. unfold chain. destruct k as [j|c|fs]; try (intros []). destruct c; try (intros []).
    match goal with |- context [1000 <=? ?a] => rename a into i end.
    destruct ((1000 <=? i) && (i <? 10995)); [|intros []]. intros [<-|[]]. unfold usable, num.
    split; [constructor|]. split; [constructor|]. split; [auto|]. split; [intros j []|]. split; auto.
  - intros fs t H. injection H as <-. split; auto. split; auto. intros H. inversion H; contradiction.
  - intros x t H. injection H as <-. split; reflexivity.
  - split; [intros i; reflexivity|reflexivity].
  - constructor.
  - exact E.
  - intros q Hq v. destruct (Hg q Hq) as (j&Hj&->). cbn [fst snd num eval ends_apart icst].
    rewrite (proj2 (Z.ltb_ge 10994 j)), (proj2 (Z.ltb_ge 10994 (j + 1))) by lia. reflexivity.
  - discriminate.
Qed.
Print Assumptions C66_rewriters_refuted.
