(** Bounds of comparisons and solutions of equations are offered. *)
From Coq Require Import List ZArith Bool Lia Permutation.
From Verif Require Import Terms AgModel AgSpec AgBase AgProof AgEnd.
Import ListNotations.
Open Scope Z_scope.

Lemma bounds_ext v l l' : ext l l' -> bounds v l -> bounds v l'.
Proof. intros [E _] [A B]. split; auto. destruct v; auto. destruct B; split; auto. Qed.

Section Hint.
  Variable code : term -> comp.
  Variable numc : cst -> option num.
  Variable answer : term -> bool.
  Variable fo : fops.
  Notation scan_term := (scan_term code numc fo).
  Notation scan_lit := (scan_lit code numc answer fo).
  Notation anyt := (fun _ : term => True).

  Lemma step_ext s s' : step code anyt s s' -> ext (vals s) (vals s').
  Proof. intros [[A _] _]. auto. Qed.
  Lemma scan_term_ext t s : ext (vals s) (vals (scan_term t s)).
  Proof. apply step_ext, scan_term_step. auto. Qed.
  Lemma fold_ext : forall fs s, ext (vals s) (vals (fold_left (fun s f => scan_term f s) fs s)).
  Proof. induction fs as [|f fs IH]; intros s; cbn [fold_left]; [apply ext_refl|]. eapply ext_trans; [apply scan_term_ext|apply IH]. Qed.
  Lemma lits_ext : forall ats s, ext (vals s) (vals (fold_left scan_lit ats s)).
  Proof. intros. apply step_ext, scan_lits_step. auto. Qed.
  Lemma scan_lit_ext a s : ext (vals s) (vals (scan_lit s a)).
  Proof. apply (lits_ext [a] s). Qed.

  Lemma comparison_offers t i v s : i = 1%nat \/ i = 2%nat -> decode_arg code numc i t = Some v ->
    let s' := scan_comparison code numc fo t s in (length (vals s') < 32)%nat -> bounds v (vals s').
  Proof.
    intros Hi Hd s'. unfold s', scan_comparison.
    pose proof (step_ext _ _ (add_boundary_opt_step code fo anyt (decode_arg code numc 2 t) (add_boundary_opt fo (decode_arg code numc 1 t) s))) as E.
    intros L. destruct Hi as [-> | ->]; rewrite Hd in *.
    - eapply bounds_ext; [exact E|]. apply boundary_offers. destruct E as [_ E]. cbn [add_boundary_opt] in *. lia.
    - apply boundary_offers. exact L.
  Qed.

  Lemma scan_term_offers us i v : code (TRec us) = CCompare -> i = 1%nat \/ i = 2%nat -> decode_arg code numc i (TRec us) = Some v ->
    forall t s, visible code numc (TRec us) t -> (length (vals (scan_term t s)) < 32)%nat -> bounds v (vals (scan_term t s)).
  Proof.
    intros Hc Hi Hd t. induction t as [j|c|fs IH] using term_ind'; intros s Hu; [inversion Hu|inversion Hu|].
    assert (D : decode code numc (TRec fs) = None) by (inversion Hu; auto).
    cbn [AgModel.scan_term]. rewrite D.
    set (s1 := if arith (code (TRec fs)) then add_frontier (TRec fs) s else s).
    set (s2 := match code (TRec fs) with CCompare => scan_comparison code numc fo (TRec fs) s1 | _ => s1 end).
    inversion Hu as [D0 E0|fs' f D' Hf Hv E']; subst.
    - intros L. pose proof (fold_ext fs s2) as E. eapply bounds_ext; [exact E|].
      unfold s2 in *. rewrite Hc in *. apply (comparison_offers (TRec fs) i v s1); auto. destruct E as [_ E]. lia.
    - clear Hu D D'. clearbody s2. clear s1 s. revert s2. revert Hf. induction IH as [|x fs Hx _ IH]; intros Hf s2; [destruct Hf|].
      cbn [fold_left]. destruct Hf as [->|Hf]; [|apply IH; auto].
      intros L. pose proof (fold_ext fs (scan_term f s2)) as E. eapply bounds_ext; [exact E|]. apply Hx; auto. destruct E as [_ E]. lia.
  Qed.

  Lemma scan_clause_offers us i v ats a : code (TRec us) = CCompare -> i = 1%nat \/ i = 2%nat -> decode_arg code numc i (TRec us) = Some v ->
    In a ats -> visible code numc (TRec us) a ->
    (length (vals (scan_clause code numc answer fo ats)) < 32)%nat -> bounds v (vals (scan_clause code numc answer fo ats)).
  Proof.
    intros Hc Hi Hd Ha Hv. unfold scan_clause. generalize {| fronts := []; svars := []; vals := [] |} as s. revert Ha.
    induction ats as [|x ats IH]; intros Ha s; [destruct Ha|]. cbn [fold_left]. destruct Ha as [->|Ha]; [|apply IH; auto].
    intros L. pose proof (lits_ext ats (scan_lit s a)) as E. eapply bounds_ext; [exact E|]. destruct E as [_ E].
    assert (E2 : ext (vals (scan_term a s)) (vals (scan_lit s a))).
    { unfold AgModel.scan_lit. eapply ext_trans; [apply step_ext, (scan_hints_step code numc fo anyt)|apply step_ext, (mark_step code answer anyt)]. }
    eapply bounds_ext; [exact E2|]. eapply scan_term_offers; eauto. destruct E2 as [_ E2]. lia.
  Qed.

  (** Solutions of equations. *)
  Lemma inverse_int_solves op sw n k t : solves op sw n k t -> in64 n = true -> inverse_int op sw t k = Some (NInt n).
  Proof.
    intros H Hn. unfold inverse_int, checked. destruct op; cbn [solves] in H; try contradiction.
    - replace (t - k) with n by (destruct sw; lia). rewrite Hn. auto.
    - destruct sw; [replace (k - t) with n by lia|replace (t + k) with n by lia]; rewrite Hn; auto.
    - assert (X : n * k = t /\ k <> 0) by (destruct sw; auto). clear H. destruct X as [X K]. subst t.
      destruct (Z.eqb_spec k 0); [contradiction|]. cbn [negb andb].
      rewrite Z.rem_mul by auto. rewrite Z.quot_mul by auto.
      destruct (Z.eqb_spec (n * k) (- 2 ^ 63)) as [E1|E1]; cbn [andb negb]; [|auto].
      destruct (Z.eqb_spec k (-1)) as [E2|E2]; cbn [andb negb]; [|auto].
      subst k. exfalso. unfold in64 in Hn. assert (n = 2 ^ 63) by lia. subst n. discriminate.
  Qed.

  Notation linear := (linear code numc).
  Lemma inverse_offers e sw n k t s : linear e sw k -> solves (code e) sw n k t -> in64 n = true ->
    (length (vals (inverse code numc fo e (NInt t) s)) < 32)%nat -> offered (NInt n) 10 (vals (inverse code numc fo e (NInt t) s)).
  Proof.
    intros (x&Hx&Hk) Hs Hn. unfold inverse.
    pose proof (inverse_int_solves _ _ _ _ _ Hs Hn) as Hi.
    assert (Hop : code e = CPlus \/ code e = CMinus \/ code e = CMult).
    { unfold solves in Hs. destruct (code e), sw; auto; contradiction. }
    destruct (collect 3 e ([], s)) as [vs s1] eqn:Ec.
    assert (Hv : length vs = 1%nat).
    { apply collect_once in Ec. rewrite Ec, uncapped_eq; change (uncapped (tvars e) []) with (term_vars e); rewrite Hx; simpl; lia. }
    assert (G : forall r, (length (vals (set_vals s1 (add_value_opt (Some (NInt n)) r (vals s1)))) < 32)%nat ->
               offered (NInt n) r (vals (set_vals s1 (add_value_opt (Some (NInt n)) r (vals s1))))).
    { intros r. cbn [vals set_vals add_value_opt]. apply add_value_offers. }
    assert (T1 : (if is_tvar (arg 1 e) then decode_arg code numc 2 e else None) = (if sw then None else Some (NInt k))).
    { destruct sw, Hk as [K1 K2]; [|rewrite K1; exact K2]. unfold decode_arg in K1. destruct (arg 1 e) as [[]|]; cbn in *; congruence. }
    assert (T2 : sw = true -> (if is_tvar (arg 2 e) then decode_arg code numc 1 e else None) = Some (NInt k)).
    { intros ->. destruct Hk as [K1 K2]. rewrite K2. exact K1. }
    rewrite T1, Hv. destruct sw; [rewrite T2 by auto|];
    (destruct Hop as [Hop|[Hop|Hop]]; rewrite Hop in *; change (negb (Z.of_nat 1 =? 1)) with false; cbv iota beta zeta;
     rewrite Hi; apply G).
  Qed.

  Lemma hints_offers a es eqs sw n k t s (left : bool) : a = TRec eqs -> code a = CEqual ->
    (if left then arg 1 a = Some (TRec es) /\ decode_arg code numc 2 a = Some (NInt t)
     else decode_arg code numc 1 a = Some (NInt t) /\ arg 2 a = Some (TRec es)) ->
    linear (TRec es) sw k -> solves (code (TRec es)) sw n k t -> in64 n = true ->
    (length (vals (scan_hints code numc fo a s)) < 32)%nat -> offered (NInt n) 10 (vals (scan_hints code numc fo a s)).
  Proof.
    intros -> Hc Hl Hlin Hs Hn. cbn [scan_hints]. rewrite Hc.
    set (s1 := inverse_opt code numc fo (arg 1 (TRec eqs)) (decode_arg code numc 2 (TRec eqs)) s).
    intros L.
    pose proof (step_ext _ _ (inverse_opt_step code numc fo anyt (arg 2 (TRec eqs)) (decode_arg code numc 1 (TRec eqs)) s1)) as [E1 E2].
    destruct left, Hl as [A B].
    - apply E1. unfold s1 in *. rewrite A, B in *. cbn [inverse_opt] in *. eapply inverse_offers; eauto. lia.
    - rewrite A, B in *. cbn [inverse_opt] in *. eapply inverse_offers; eauto.
  Qed.

  Lemma scan_clause_solutions ats a es eqs sw n k t (left : bool) : In a ats -> a = TRec eqs -> code a = CEqual ->
    (if left then arg 1 a = Some (TRec es) /\ decode_arg code numc 2 a = Some (NInt t)
     else decode_arg code numc 1 a = Some (NInt t) /\ arg 2 a = Some (TRec es)) ->
    linear (TRec es) sw k -> solves (code (TRec es)) sw n k t -> in64 n = true ->
    (length (vals (scan_clause code numc answer fo ats)) < 32)%nat -> offered (NInt n) 10 (vals (scan_clause code numc answer fo ats)).
  Proof.
    intros Ha Ea Hc Hl Hlin Hs Hn. unfold scan_clause. generalize {| fronts := []; svars := []; vals := [] |} as s. revert Ha.
    induction ats as [|x ats IH]; intros Ha s; [destruct Ha|]. cbn [fold_left]. destruct Ha as [->|Ha]; [|apply IH; auto].
    intros L. pose proof (lits_ext ats (scan_lit s a)) as [E1 E2]. apply E1. unfold AgModel.scan_lit in *.
    pose proof (step_ext _ _ (mark_step code answer anyt a (scan_hints code numc fo a (scan_term a s)))) as [M1 M2]. apply M1.
    eapply hints_offers; eauto. lia.
  Qed.
End Hint.
