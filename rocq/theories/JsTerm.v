(** Reading of terms *)
From Coq Require Import ZArith Lia Arith String Ascii Bool List.
From Verif Require Import ClausModel ClausSpec JsModel JsSpec JsBase.
Import ListNotations.
Open Scope string_scope.
Open Scope list_scope.

Definition quiet_first (r : list sx) : Prop := match r with [] => True | x :: _ => quiet x end.
Definition each_term n bd := each (fun k y f => term n false k bd y f).

Lemma term_generic n lvl pos bd a r1 fv : quiet_first r1 -> is_uri a || is_anon a = true -> astr a <> "" ->
  (lvl = true -> neg_char (astr a) = false /\ ~ In (astr a) ["="; "!="; "-="; "~="]) ->
  ~ In (astr a) ["exists"; "all"] ->
  term (S n) lvl pos bd (Sl (Sa a :: r1)) fv =
  bind (each_term n bd 0 (Sa a :: r1) fv) (fun '(ys, fv') => Done (Sl ys, fv')).
Proof.
  intros Q U N L E. cbn [term].
  assert (Q1 : match r1 with x1 :: _ => nul_atom x1 | [] => false end = false) by (destruct r1; [reflexivity|apply Q]).
  assert (Q2 : match r1 with x1 :: _ => is_one x1 ["="; "!="] | [] => false end = false) by (destruct r1; [reflexivity|apply Q]).
  assert (Q3 : match r1 with x1 :: _ => is_one x1 ["+"; "*"; "-"; "/"] | [] => false end = false) by (destruct r1; [reflexivity|apply Q]).
  rewrite Q1, Q2, Q3, !andb_false_r.
  assert (Z : nul_atom (Sa a) = false) by (cbn; unfold nul; now apply eqb_out).
  rewrite Z, andb_false_r. cbn [nul_atom] in Z. rewrite Z.
  assert (M : lvl && is_one (Sa a) ["="; "!="; "-="; "~="] = false).
  { destruct lvl; [|reflexivity]. cbn [andb]. rewrite is_one_sa. apply mems_out. now apply L. }
  rewrite M.
  assert (V : negb (is_uri a) && negb (is_anon a) = false) by (destruct (is_uri a), (is_anon a); try reflexivity; discriminate).
  rewrite V.
  assert (W : lvl && neg_char (astr a) = false) by (destruct lvl; [now apply L|reflexivity]).
  rewrite W, is_one_sa, mems_out by exact E. reflexivity.
Qed.

Definition term_good bd t x : Prop := forall fv pos, pos <> 0 ->
  exists u fv', runs (fun n => term n false pos bd x fv) (u, fv') /\ outT t u /\ fvspec bd (tvars t) fv fv'.
Lemma each_good bd ts xs : Forall2 (term_good bd) ts xs -> forall k fv, k <> 0 ->
  exists us fv', runs (fun n => each_term n bd k xs fv) (us, fv') /\ Forall2 outT ts us /\
    fvspec bd (flat_map tvars ts) fv fv'.
Proof.
  induction 1 as [|t x ts xs H _ IH]; intros k fv K.
  - exists [], fv. split; [apply runs_done|]. split; [constructor|apply fvspec_nil].
  - destruct (H fv k K) as (u & f1 & R1 & O1 & F1).
    destruct (IH (S k) f1 ltac:(lia)) as (us & f2 & R2 & O2 & F2).
    exists (u :: us), f2. split; [|split].
    + unfold each_term in *. cbn [each].
      eapply runs_bind; [exact R1|]. cbn. eapply runs_bind; [exact R2|]. apply runs_done.
    + now constructor.
    + cbn. eapply fvspec_app; eassumption.
Qed.
Lemma each_head bd a b xs us fv fv' : tatom 0 bd a fv = Done (Sa b, fv) ->
  runs (fun n => each_term n bd 1 xs fv) (us, fv') -> runs (fun n => each_term n bd 0 (Sa a :: xs) fv) (Sa b :: us, fv').
Proof.
  intros T [n0 R]. exists (S n0). intros [|n] L; [lia|]. specialize (R (S n) ltac:(lia)).
  unfold each_term in *. cbn [each].
  replace (term (S n) false 0 bd (Sa a) fv) with (tatom 0 bd a fv) by reflexivity.
  rewrite T. cbn [bind]. rewrite R. reflexivity.
Qed.
Lemma head_in_str f a : head_in f a -> astr a = f /\ is_uri a || is_anon a = true.
Proof. intros [->| ->]; split; reflexivity. Qed.
Lemma op_same f : In f ["+"; "-"; "*"; "/"; "="] -> same_key f.
Proof. intros H. cbn in H. repeat (destruct H as [<-|H]; [reflexivity|]). contradiction. Qed.

Lemma term_reads : forall k bd t x, tsize t <= k -> legalT bd t -> inT t x -> term_good bd t x.
Proof.
  induction k as [|k IH]; intros bd t x L G H; [destruct t; cbn in L; lia|].
  intros fv pos P. inversion H; subst.
  - destruct (tatom_var bd fv x0 pos G) as (fv' & E & F).
    exists (Sa (Sym TUri x0)), fv'. split; [|split; [constructor|exact F]].
    apply runs_S with (h := fun _ => tatom pos bd (Sym TUri x0) fv); [reflexivity|]. rewrite E. apply runs_done.
  - destruct G as [G1 G2].
    exists (Sa (Sym TAnon c)), fv. split; [|split; [constructor|apply fvspec_nil]].
    apply runs_S with (h := fun _ => tatom pos bd a fv); [reflexivity|].
    rewrite (tatom_calm bd fv a c pos) by assumption. apply runs_done.
  - exists (Sa (Sym TOther (zdec z))), fv. split; [|split; [constructor|apply fvspec_nil]].
    apply runs_S with (h := fun _ => tatom pos bd (Sym TOther (zdec z)) fv); [reflexivity|].
    unfold tatom, nul. cbn [astr is_uri is_anon negb andb].
    rewrite eqb_out by (intros E; apply (zdec_out z); rewrite E; cbn; auto 10).
    destruct pos; [contradiction|]. apply runs_done.
  - destruct G as (G1 & G2 & G3). destruct (head_in_str f a H0) as [SA UA].
    assert (F : Forall2 (term_good bd) ts xs).
    { eapply Forall2_mono; [|exact H1]. intros t y I R. apply IH; [|eapply legal_all; eassumption|exact R].
      apply tsize_in in I. cbn in L. lia. }
    assert (Q : quiet_first xs).
    { destruct H1; cbn; [exact Logic.I|]. apply (quiet_term bd x); [|assumption]. apply G3. }
    assert (T : forall g, tatom 0 bd a g = Done (Sa (Sym TAnon f), g)).
    { intros g. destruct G1 as [G1|G1].
      - apply tatom_calm; assumption.
      - apply tatom_op; try assumption. cbn in *. tauto. }
    destruct (each_good bd ts xs F 1 fv ltac:(lia)) as (us & fv' & R & O & V).
    exists (Sl (Sa (Sym TAnon f) :: us)), fv'. split; [|split; [apply OT_app; [left; reflexivity|exact O]|exact V]].
    eapply runs_S.
    + intros n. apply term_generic; try assumption.
      * rewrite SA. destruct G1 as [[N _]|G1]; [exact N|]. intros ->. cbn in G1. intuition discriminate.
      * discriminate.
      * rewrite SA. intros I. destruct G1 as [G1|G1].
        -- apply name_calm in G1 as [_ G1]. apply G1. cbn in *. intuition (subst; auto 40).
        -- cbn in *. intuition congruence.
    + eapply runs_bind with (a := (Sa (Sym TAnon f) :: us, fv')).
      * apply each_head; [apply T|exact R].
      * apply runs_done.
  - cbn in G, L. destruct G as (G1 & G2 & G3 & G4 & _).
    destruct (IH bd a x0 ltac:(lia) G3 H1 fv 1 ltac:(lia)) as (u1 & f1 & R1 & O1 & V1).
    destruct (IH bd b y ltac:(lia) G4 H2 f1 2 ltac:(lia)) as (u2 & f2 & R2 & O2 & V2).
    exists (Sl [Sa (Sym TUri f); u1; u2]), f2. split; [|split].
    + eapply runs_S.
      * intros n. cbn [term andb]. rewrite is_one_sa. cbn [astr negb andb].
        rewrite (proj2 (mems_in f ["+"; "*"; "-"; "/"])) by (cbn in *; tauto). reflexivity.
      * cbn beta. eapply runs_bind with (a := (u1, u2, f2)); [|apply runs_done].
        eapply runs_bind; [exact R1|]. cbn. eapply runs_bind; [exact R2|]. apply runs_done.
    + apply OT_app; [right; split; [reflexivity|apply op_same; cbn in *; tauto]|].
      repeat constructor; assumption.
    + cbn. rewrite app_nil_r. eapply fvspec_app; eassumption.
Qed.
Lemma term_read bd t x : legalT bd t -> inT t x -> term_good bd t x.
Proof. apply term_reads with (k := tsize t). lia. Qed.
Lemma terms_read bd ts xs : fold_right and True (map (legalT bd) ts) -> Forall2 inT ts xs -> Forall2 (term_good bd) ts xs.
Proof.
  intros L F. eapply Forall2_mono; [|exact F]. intros t x I R. apply term_read; [eapply legal_all; eassumption|exact R].
Qed.
