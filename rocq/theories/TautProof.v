(** Building a clause keeps its meaning: duplicates, constant literals, tautologies. *)
From Coq Require Import List ZArith Bool Lia.
From Verif Require Import Terms UnifySpec TermsProof UnifyModel UnifyProof TrailProof MatchModel MatchProof MetaModel
  SubsumeSpec Semantics SemProof RenameSpec RenameProof BuildModel BuildProof DeriveModel DeriveSpec DeriveProof.
Import ListNotations.
Open Scope Z_scope.

Section Taut.
  Variable sb : stray_env.
  Variable comp : term -> option term.
  Variable bk : Z.
  Variable nb : nat.
  Variable eqc : cst.
  Variable M : interp.
  Hypothesis Hcomp : agrees_with eqc comp M.

  Lemma respects_exhaustive w b sg : acyclic b -> bank_fot b -> exhaustive b sg -> respects M w b ->
    forall i, eval M w (sg i) = w i.
  Proof.
    intros [rk Hrk] Hf [Hs Hn] Hr.
    assert (H : forall m i, (rk i < m)%nat -> eval M w (sg i) = w i).
    { induction m as [|m IH]; intros i Hm; [lia|].
      destruct (b i) as [t|] eqn:E.
      - rewrite (Hs i t E). rewrite eval_app by (eapply Hf; eauto). rewrite (Hr i t E).
        apply eval_ext. intros j Hj. apply IH. specialize (Hrk i t j E Hj). lia.
      - rewrite (Hn i E). reflexivity. }
    intros i. apply (H (S (rk i))). lia.
  Qed.

  Lemma result_aux_rinv b0 sg : exhaustive b0 sg -> (forall i, first_unreal <= i -> b0 i = None) ->
    (forall i t, b0 i = Some t -> real t) ->
    forall lits i cut r s, rinv b0 s -> (forall l, In l lits -> real (latom l)) ->
    match result_aux sb comp bk nb i lits cut None r s with
    | AOk _ s' | ADrop Tautology s' => rinv b0 s' /\ grows (fun _ => True) (vars s) (vars s')
    | _ => True
    end.
  Proof.
    intros He Hu Hr. induction lits as [|l lits IH]; intros i cut r s Hi Hl; cbn [result_aux].
    - split; [auto|constructor].
    - destruct (match cut with Some w => lword l =? w | None => false end); [apply IH; auto; intros; apply Hl; simpl; auto|].
      destruct (build comp bk nb (latom l) s) as [t s1|s1|] eqn:Eb; auto.
      destruct (build_renames comp bk b0 sg He Hu Hr nb (latom l) s t s1 Hi (Hl l (or_introl eq_refl)) Eb) as (A&[_ B]&_&_).
      assert (Hadd : match add_literal sb (lmeta l) t r s1 with AOk _ s2 | ADrop _ s2 => s2 = s1 | _ => True end).
      { unfold add_literal. assert (Hd : match match find_equal sb (lmeta l) t r with FSame => AOk r s1
          | FOpposite => ADrop Tautology s1 | FNone => AOk (r ++ [(lmeta l, t)]) s1 | FStray => AStray end with
          AOk _ s2 | ADrop _ s2 => s2 = s1 | _ => True end) by (destruct (find_equal sb (lmeta l) t r); auto).
        destruct t as [|[w| | | |]|]; auto.
        destruct (w =? w_true); [destruct (meta_is_neg (lmeta l)); auto|].
        destruct (w =? w_false); [destruct (meta_is_neg (lmeta l)); auto|auto]. }
      destruct (add_literal sb (lmeta l) t r s1) as [r2 s2|why s2| |]; auto.
      + subst s2. specialize (IH (i + 1) cut r2 s1 A ltac:(intros; apply Hl; simpl; auto)).
        destruct (result_aux sb comp bk nb (i + 1) lits cut None r2 s1) as [r' s'|[|] s'| |]; auto;
          destruct IH as [C D]; (split; [auto|eapply grows_trans; eauto]).
      + subst s2. destruct why; auto.
  Qed.

  Definition inv_of (b0 : Z -> option term) (s : bst) (k : Z) : option Z :=
    find (fun i => match b0 i with Some _ => false | None => true end && (i <? first_unreal) &&
                   match bank (vars s) i with Some (TVar j) => j =? k + first_unreal | _ => false end) (trail (vars s)).

  (** Every valuation of the instance comes from one of the result. *)
  Lemma valuation_back s0 s sg u : acyclic (bank s0) -> exhaustive (bank s0) sg ->
    (forall i, first_unreal <= i -> bank s0 i = None) ->
    (forall i t, bank s0 i = Some t -> real t) -> bank_fot (bank s0) ->
    rinv (bank s0) s -> grows (fun _ => True) s0 (vars s) ->
    exists w v, respects M w (bank (vars s)) /\ tied bk M w v /\
      forall i, i < first_unreal -> w i = eval M u (sg i).
  Proof.
    intros Ha He Hu Hr Hf Hi Hg.
    set (w := fun i => if i <? first_unreal then eval M u (sg i)
                       else match inv_of (bank s0) s (i - first_unreal) with Some j => u j | None => u i end).
    exists w, (fun j => w (j - bk * varsinbank + first_unreal)). split; [|split].
    - intros i t E. destruct (grows_trail _ _ _ Hg) as (new&T&_&_&N2).
      destruct (ri_cases _ _ Hi i) as [E0|(k&K)].
      + rewrite E in E0. symmetry in E0.
        assert (Hlt : i < first_unreal).
        { destruct (Z.lt_ge_cases i first_unreal); auto. rewrite Hu in E0 by auto. discriminate. }
        unfold w at 1. destruct (Z.ltb_spec i first_unreal); [|lia].
        destruct He as [Hs _]. rewrite (Hs i t E0). rewrite eval_app by (eapply Hf; eauto).
        apply eval_ext. intros j Hj. unfold w. destruct (Z.ltb_spec j first_unreal); auto.
        specialize (Hr i t E0 j Hj). lia.
      + pose proof K as (K1&K2&K3&K4). rewrite E in K4. injection K4 as ->. simpl.
        unfold w. destruct (Z.ltb_spec i first_unreal); [|lia].
        destruct (Z.ltb_spec (k + first_unreal) first_unreal); [lia|].
        replace (k + first_unreal - first_unreal) with k by lia.
        destruct He as [_ Hn]. rewrite (Hn i K1). simpl.
        destruct (inv_of (bank s0) s k) as [j|] eqn:Ej.
        * unfold inv_of in Ej. apply find_some in Ej as [_ Ej].
          apply andb_prop in Ej as [Ej1 Ej3]. apply andb_prop in Ej1 as [Ej1 Ej2].
          destruct (bank s0 j) eqn:Eb; [discriminate|]. apply Z.ltb_lt in Ej2.
          destruct (bank (vars s) j) as [[m| |]|] eqn:Em; try discriminate. apply Z.eqb_eq in Ej3. subst m.
          f_equal. eapply (ri_inj _ _ Hi i j k); [exact K|]. split; auto.
        * exfalso. unfold inv_of in Ej.
          assert (Hin : In i (trail (vars s))).
          { rewrite T. apply in_or_app. left. destruct (in_dec Z.eq_dec i new) as [|Hni]; auto.
            exfalso. rewrite (N2 i Hni) in E. congruence. }
          pose proof (find_none _ _ Ej i Hin) as Hno. cbn beta in Hno. rewrite K1, E in Hno.
          destruct (Z.ltb_spec i first_unreal); [|lia]. rewrite Z.eqb_refl in Hno. discriminate.
    - intros i Hle. f_equal. lia.
    - intros i Hlt. unfold w. destruct (Z.ltb_spec i first_unreal); [auto|lia].
  Qed.

  Lemma kept_rest cut lits w : clause_holds eqc M w (kept cut lits) <-> rest_holds eqc M cut lits w.
  Proof.
    unfold clause_holds, kept, rest_holds. split.
    - intros (k&Hk&H). apply in_map_iff in Hk as (l&<-&Hl). apply filter_In in Hl as [Hl1 Hl2].
      exists l. split; auto. split; auto. destruct (is_cut cut l); [discriminate|auto].
    - intros (l&Hl&Hc&H). exists (lit_of_clit l). split; auto. apply in_map. apply filter_In. split; auto.
      rewrite Hc. reflexivity.
  Qed.

  Lemma inst_holds u sg w cut lits : (forall l, In l lits -> foa (latom l) = true) -> (forall l, In l lits -> real (latom l)) ->
    (forall i, i < first_unreal -> w i = eval M u (sg i)) ->
    (clause_holds eqc M u (map (inst sg) (kept cut lits)) <-> clause_holds eqc M w (kept cut lits)).
  Proof.
    intros Hf Hr Hw.
    assert (Hk : forall k, In k (kept cut lits) -> (lit_holds eqc M u (inst sg k) <-> lit_holds eqc M w k)).
    { intros k Hk. unfold kept in Hk. apply in_map_iff in Hk as (l&<-&Hl). apply filter_In in Hl as [Hl _].
      rewrite lit_holds_app by (apply Hf; auto).
      assert (Hh : holds eqc M (fun i => eval M u (sg i)) (latom l) <-> holds eqc M w (latom l)).
      { apply holds_ext. intros i Hi. symmetry. apply Hw. apply (Hr l Hl i Hi). }
      unfold lit_holds, lit_of_clit. cbn [fst snd]. destruct (meta_is_neg (lmeta l)); tauto. }
    unfold clause_holds. split.
    - intros (k&Hk1&H). apply in_map_iff in Hk1 as (k'&<-&Hk'). exists k'. split; auto. apply Hk; auto.
    - intros (k&Hk1&H). exists (inst sg k). split; [apply in_map; auto|]. apply Hk; auto.
  Qed.

  Lemma build_clause_equiv lits cut s sg r s' :
    vgood s -> exhaustive (bank s) sg ->
    (forall l, In l lits -> foa (latom l) = true) -> (forall l, In l lits -> real (latom l)) ->
    result_aux sb comp bk nb 0 lits cut None [] (start_build s) = AOk r s' ->
    (valid_in eqc M (derived r) <-> valid_in eqc M (map (inst sg) (kept cut lits))).
  Proof.
    intros Hs He Hf Hr E. pose proof Hs as (A&B&C&D).
    pose proof (result_aux_ok sb comp bk nb eqc M Hcomp lits 0 cut None [] (start_build s) (vgood_start _ Hs) Hf I) as H.
    pose proof (result_aux_rinv (bank s) sg He B D lits 0 cut [] (start_build s) (rinv_start _ s eq_refl D) Hr) as H2.
    rewrite E in H, H2. destruct H as (G1&G2&H). destruct H2 as (R1&R2).
    split.
    - intros Hv u. destruct (valuation_back s s' sg u A He B D C R1 R2) as (w&v&W1&W2&W3).
      apply (inst_holds u sg w); auto. apply kept_rest.
      destruct (proj1 (H w v W1 W2 I) (Hv v)) as [(x&[]&_)|]; auto.
    - intros Hv v. destruct (valuation_exists bk M s' v G2) as (sg'&w&_&W1&W2&_).
      apply (H w v W1 W2 I). right. apply kept_rest. apply (inst_holds w sg w); auto.
      intros i _. symmetry. apply (respects_exhaustive w (bank s) sg); auto.
      eapply respects_mono; [|exact W1]. apply bgrows_ext in G1. exact G1.
  Qed.

  Lemma build_clause_taut lits cut s sg s' : (forall P : Prop, P \/ ~ P) ->
    vgood s -> exhaustive (bank s) sg ->
    (forall l, In l lits -> foa (latom l) = true) -> (forall l, In l lits -> real (latom l)) ->
    result_aux sb comp bk nb 0 lits cut None [] (start_build s) = ADrop Tautology s' ->
    valid_in eqc M (map (inst sg) (kept cut lits)).
  Proof.
    intros LEM Hs He Hf Hr E u. pose proof Hs as (A&B&C&D).
    pose proof (result_aux_ok sb comp bk nb eqc M Hcomp lits 0 cut None [] (start_build s) (vgood_start _ Hs) Hf I) as H.
    pose proof (result_aux_rinv (bank s) sg He B D lits 0 cut [] (start_build s) (rinv_start _ s eq_refl D) Hr) as H2.
    rewrite E in H, H2. destruct H as (G1&G2&H). destruct H2 as (R1&R2).
    destruct (valuation_back s s' sg u A He B D C R1 R2) as (w&v&W1&W2&W3).
    apply (inst_holds u sg w); auto. apply kept_rest.
    destruct (H w v W1 W2 I LEM) as [(x&[]&_)|]; auto.
  Qed.
End Taut.

Lemma taut_clause_valid sb eqc M c : (forall P : Prop, P \/ ~ P) -> tautology_cl sb c = Some true ->
  valid_in eqc M (clause_of c).
Proof.
  intros LEM. destruct c as [|l]; [discriminate|]. cbn [tautology_cl]. intros H v.
  apply taut_outer_ok in H as (x&y&Hx&Hy&E&Hne).
  unfold clause_holds, clause_of. cbn [cl_lits].
  destruct (LEM (holds eqc M v (latom x))) as [Hh|Hh];
    destruct (meta_is_neg (lmeta x)) eqn:Ex, (meta_is_neg (lmeta y)) eqn:Ey; try congruence.
  - exists (lit_of_clit y). split; [apply in_map; auto|]. unfold lit_holds, lit_of_clit; cbn [fst snd]. rewrite Ey, <- E. auto.
  - exists (lit_of_clit x). split; [apply in_map; auto|]. unfold lit_holds, lit_of_clit; cbn [fst snd]. rewrite Ex. auto.
  - exists (lit_of_clit x). split; [apply in_map; auto|]. unfold lit_holds, lit_of_clit; cbn [fst snd]. rewrite Ex. auto.
  - exists (lit_of_clit y). split; [apply in_map; auto|]. unfold lit_holds, lit_of_clit; cbn [fst snd]. rewrite Ey, <- E. auto.
Qed.

(** The other direction: a clause that passes has no complementary pair. *)
Lemma taut_inner_false sb x ys : taut_inner sb x ys = Some false ->
  (forall y, In y ys -> latom x = latom y -> Z.land (lmeta x) cansubs_raw = Z.land (lmeta y) cansubs_raw) ->
  forall y, In y ys -> latom x = latom y -> meta_is_neg (lmeta x) = meta_is_neg (lmeta y).
Proof.
  induction ys as [|z ys IH]; cbn [taut_inner]; [intros _ _ y []|].
  intros H Hm y Hy E.
  assert (Hm' : forall y, In y ys -> latom x = latom y -> Z.land (lmeta x) cansubs_raw = Z.land (lmeta y) cansubs_raw)
    by (intros; apply Hm; simpl; auto).
  destruct (Z.eqb_spec (Z.land (lmeta x) cansubs_raw) (Z.land (lmeta z) cansubs_raw)) as [Em|Hn]; cbn [negb] in H.
  - destruct (Bool.eqb (meta_is_neg (lmeta x)) (meta_is_neg (lmeta z))) eqn:Eb.
    + apply Bool.eqb_prop in Eb. destruct Hy as [<-|Hy]; auto.
    + pose proof (equal_term_spec sb (latom x) (latom z)) as He.
      destruct (equal_term sb (latom x) (latom z)); try discriminate.
      destruct Hy as [<-|Hy]; [contradiction|auto].
  - destruct Hy as [<-|Hy]; [exfalso; apply Hn; apply Hm; simpl; auto|auto].
Qed.

Lemma taut_outer_false sb l : taut_outer sb l = Some false ->
  (forall x y, In x l -> In y l -> latom x = latom y -> Z.land (lmeta x) cansubs_raw = Z.land (lmeta y) cansubs_raw) ->
  forall x y, In x l -> In y l -> latom x = latom y -> meta_is_neg (lmeta x) = meta_is_neg (lmeta y).
Proof.
  induction l as [|z l IH]; cbn [taut_outer]; [intros _ _ x y []|].
  destruct (taut_inner sb z l) as [[|]|] eqn:E; try discriminate. intros H Hm x y Hx Hy Exy.
  pose proof (taut_inner_false sb z l E ltac:(intros; apply Hm; simpl; auto)) as Hz.
  destruct Hx as [<-|Hx], Hy as [<-|Hy]; auto.
  - symmetry. apply Hz; auto.
  - apply IH; auto. intros; apply Hm; simpl; auto.
Qed.

Lemma taut_exact sb l b : tautology_cl sb (SRule l) = Some b ->
  (forall x y, In x l -> In y l -> latom x = latom y -> Z.land (lmeta x) cansubs_raw = Z.land (lmeta y) cansubs_raw) ->
  (b = true <-> exists at_, In (true, at_) (clause_of (SRule l)) /\ In (false, at_) (clause_of (SRule l))).
Proof.
  cbn [tautology_cl]. intros E Hm. unfold clause_of. cbn [cl_lits]. split.
  - intros ->. apply taut_outer_ok in E as (x&y&Hx&Hy&Ea&Hne). exists (latom x).
    assert (H1 : In (lit_of_clit x) (map lit_of_clit l)) by (apply in_map; auto).
    assert (H2 : In (lit_of_clit y) (map lit_of_clit l)) by (apply in_map; auto).
    unfold lit_of_clit in H1 at 1. unfold lit_of_clit in H2 at 1. rewrite <- Ea in H2.
    destruct (meta_is_neg (lmeta x)), (meta_is_neg (lmeta y)); auto; congruence.
  - intros (t&H1&H2). apply in_map_iff in H1 as (x&Ex&Hx). apply in_map_iff in H2 as (y&Ey&Hy).
    destruct b; auto. unfold lit_of_clit in Ex, Ey. injection Ex as Ex1 Ex2. injection Ey as Ey1 Ey2.
    pose proof (taut_outer_false sb l E Hm x y Hx Hy ltac:(congruence)). congruence.
Qed.

(** ... so the parent condition of resolution holds for it. *)
Lemma passed_coherent sb l : tautology_cl sb (SRule l) = Some false ->
  (forall x y, In x l -> In y l -> latom x = latom y -> Z.land (lmeta x) cansubs_raw = Z.land (lmeta y) cansubs_raw) ->
  (forall x y, In x l -> In y l -> lword x = lword y -> latom x = latom y) ->
  coherent (SRule l).
Proof.
  cbn [tautology_cl]. intros E Hm Hw x y Hx Hy Ew. cbn [cl_lits] in *. unfold lit_of_clit.
  pose proof (Hw x y Hx Hy Ew) as Ea. rewrite (taut_outer_false sb l E Hm x y Hx Hy Ea), Ea. reflexivity.
Qed.
