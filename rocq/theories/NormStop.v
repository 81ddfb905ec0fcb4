(** Rewriting makes terms smaller, so it ends. *)
From Coq Require Import List ZArith Bool Lia.
From Verif Require Import Terms UnifySpec TermsProof UnifyModel UnifyProof MatchModel MatchProof TrailProof RewriteModel RewriteSpec RewriteProof
  OrdModel OrdSpec OrdProof OrdThm OrdEnd NormModel NormSpec NormProof NormEnd.
Import ListNotations.
Open Scope Z_scope.

Lemma walk_short b x : (forall i t, b i = Some t -> match t with TVar j => b j = None | _ => True end) -> forall n, (3 <= n)%nat -> deref n b x <> None.
Proof.
  intros H n L. destruct n as [|[|[|n]]]; try lia. unfold deref. destruct x as [i|c|fs]; cbn; try discriminate. destruct (b i) as [t|] eqn:E; [|discriminate]. specialize (H i t E).
  destruct t as [j|c|fs]; cbn; try discriminate. rewrite H. discriminate.
Qed.

Section S.
  Variable word : cst -> Z.
  Variable C : list cst.
  Notation kbo := (kbo word). Notation good := (good C). Notation le := (le word).
  Variable sb : stray_env.
  Variable comp : term -> option term.
  Variable rules : term -> list (term * term).
  Variable rv : Z -> Prop.
  Hypothesis Hr : forall k l r, In (l, r) (rules k) -> kbo l r /\ good l /\ good r /\ (forall i, In i (tvars l) -> rv i).
  Hypothesis Hc : computes_simply comp (fun c => In c C).

  Lemma comp_le ts t : good (TRec ts) -> comp (TRec ts) = Some t -> good t /\ le (TRec ts) t.
  Proof.
    intros G E. destruct (Hc _ _ E) as [->|[I|(c&I&->)]].
    - split; [exact G|apply le_refl].
    - split; [eapply good_inside; eauto|right; apply kbo_sub; [apply G|exact I]].
    - split; [split; [exact Logic.I|]; intros d [<-|[]]; exact I|right; apply kbo_rec_cst, G].
  Qed.

  (** What a match binds *)
  Section M.
    Variables (lhs x : term) (s s1 : vst).
    Hypothesis Hs : clean s.
    Hypothesis Hl : forall i, In i (tvars lhs) -> rv i.
    Hypothesis Hx : good x.
    Hypothesis Ha : apart rv x.
    Hypothesis Em : match_term sb lhs x s = MDone true s1.
    Let tau : subst := fun i => match bank s1 i with Some u => u | None => TVar i end.
    Lemma tau_lhs : app tau lhs = x.
    Proof. destruct (match_bindings sb lhs x s s1 Em) as (_&_&B). apply B. intros i u E. unfold tau. rewrite E. reflexivity. Qed.
    Lemma bound_lhs i u : bank s1 i = Some u -> In i (tvars lhs).
    Proof.
      intros E. destruct (in_dec Z.eq_dec i (tvars lhs)) as [Hi|Hi]; [exact Hi|]. destruct (match_bindings sb lhs x s s1 Em) as (_&B&_). rewrite B, (proj1 Hs) in E by exact Hi. discriminate.
    Qed.
    Lemma bound_part i u : bank s1 i = Some u -> part_of u x.
    Proof.
      intros E. pose proof (bound_lhs i u E) as I. rewrite <- tau_lhs. assert (U : tau i = u) by (unfold tau; rewrite E; reflexivity). rewrite <- U. clear - I.
      induction lhs as [k|c|fs IH] using term_ind'; [destruct I as [<-|[]]; left; reflexivity|destruct I|]. cbn [tvars] in I. apply in_flat_map in I. destruct I as (f&F&I). rewrite Forall_forall in IH.
      right. cbn [app]. destruct (IH f F I) as [->|P]; [apply in_here|eapply in_deep; [|exact P]]; apply in_map; exact F.
    Qed.
    Lemma part_vars u : part_of u x -> incl (tvars u) (tvars x).
    Proof. intros [->|P]; [apply incl_refl|eapply inside_vars; eauto]. Qed.
    Lemma unbound_x i : In i (tvars x) -> bank s1 i = None.
    Proof. intros I. destruct (bank s1 i) as [u|] eqn:E; [|reflexivity]. exfalso. apply (Ha i I), Hl. eapply bound_lhs; eauto. Qed.
    Lemma tau_part u : incl (tvars u) (tvars x) -> app tau u = u.
    Proof. intros I. rewrite <- (app_ids u) at 2. apply app_ext. intros i V. unfold tau. rewrite (unbound_x i (I i V)). reflexivity. Qed.
    Lemma tau_ex : exhaustive (bank s1) tau.
    Proof.
      split; [|intros i E; unfold tau; rewrite E; reflexivity]. intros i u E. rewrite (tau_part u) by (apply part_vars; eapply bound_part; eauto). unfold tau. rewrite E. reflexivity.
    Qed.
    Lemma tau_good i : headed (tau i) /\ incl (tcsts (tau i)) C \/ tau i = TVar i.
    Proof.
      unfold tau. destruct (bank s1 i) as [u|] eqn:E; [|right; reflexivity]. left. destruct (bound_part i u E) as [->|P]; [exact Hx|exact (good_inside C _ _ P Hx)].
    Qed.
    Lemma tau_headed i : headed (tau i).
    Proof. destruct (tau_good i) as [[H _]| ->]; [exact H|exact Logic.I]. Qed.
    Lemma tcsts_app t c : In c (tcsts (app tau t)) -> In c (tcsts t) \/ In c C.
    Proof.
      induction t as [i|d|fs IH] using term_ind'; cbn [app]; intros H.
      - destruct (tau_good i) as [[_ I]|E]; [right; auto|rewrite E in H; destruct H].
      - auto.
      - cbn [tcsts] in *. apply in_flat_map in H. destruct H as (g&G&H). apply in_map_iff in G. destruct G as (f&<-&F). rewrite Forall_forall in IH. destruct (IH f F H) as [Q|Q]; [left; apply in_flat_map; eauto|auto].
    Qed.
    Lemma good_app t : good t -> good (app tau t).
    Proof. intros [H I]. split; [apply headed_app; [exact tau_headed|exact H]|]. intros c X. destruct (tcsts_app t c X); auto. Qed.

    Lemma sub_le n : forall y t s', good (app tau y) -> build_sub comp n y s1 = WOk t s' -> good t /\ le (app tau y) t.
    Proof.
      induction n as [|n IH]; intros y t s' G; cbn [build_sub]; [discriminate|]. destruct (deref n (bank s1) y) as [u|] eqn:D; [|discriminate].
      destruct (der _ _ tau_ex n y u D) as [D1 D2]. rewrite D1 in *. destruct u as [i|c|fs].
      - intros [= <- <-]. cbn [app] in *. rewrite (D2 i eq_refl) in *. split; [exact G|apply le_refl].
      - intros [= <- <-]. split; [exact G|apply le_refl].
      - assert (L : forall ys ts s2, Forall good (map (app tau) ys) -> w_loop (build_sub comp n) ys s1 = WsOk ts s2 -> s2 = s1 /\ Forall good ts /\ Forall2 le (map (app tau) ys) ts).
        { induction ys as [|z ys IHy]; intros ts s2 F; cbn [w_loop]; [intros X; injection X as E1 E2; subst ts s2; split; [reflexivity|split; constructor]|]. destruct (build_sub comp n z s1) as [t0 s3| | |] eqn:E; try discriminate.
          apply sub_state in E as Es. subst s3. inversion F; subst. apply IH in E; [|assumption]. destruct (w_loop (build_sub comp n) ys s1) as [ts' s4| | |] eqn:El; try discriminate. intros [= <- <-].
          assert (El2 := IHy _ _ ltac:(eassumption) eq_refl). destruct E as [E1 E2], El2 as (->&L1&L2). split; [reflexivity|]. split; constructor; auto. }
        destruct (w_loop (build_sub comp n) fs s1) as [ts s2| | |] eqn:El; try discriminate. apply L in El; [|apply Forall_forall; intros q Q; eapply good_field; eauto].
        destruct El as (->&F1&F2). unfold w_computed. destruct (comp (TRec ts)) as [t0|] eqn:Ec; [|discriminate]. intros [= <- <-].
        destruct (good_fields word C _ _ G F2 F1) as [G1 L1]. destruct (comp_le _ _ G1 Ec) as [G2 L2]. split; [exact G2|eapply le_trans; eauto].
    Qed.
    Lemma sub_fuel n : forall y, (tsize (app tau y) + 3 <= n)%nat -> build_sub comp n y s1 <> WFuel.
    Proof.
      induction n as [|n IH]; intros y L; [lia|]. cbn [build_sub]. pose proof (tsize_pos (app tau y)).
      assert (W : deref n (bank s1) y <> None).
      { apply walk_short; [|lia]. intros i t E. destruct t as [j| |]; try exact Logic.I. apply unbound_x. apply (part_vars (TVar j)); [eapply bound_part; eauto|left; reflexivity]. }
      destruct (deref n (bank s1) y) as [u|] eqn:D; [|congruence]. destruct (der _ _ tau_ex n y u D) as [D1 _]. rewrite D1 in L. destruct u as [i|c|fs]; try discriminate.
      assert (F : w_loop (build_sub comp n) fs s1 <> WsFuel).
      { assert (FL : forall f, In f fs -> build_sub comp n f s1 <> WFuel).
        { intros f I. apply IH. cbn [app tsize] in L. pose proof (list_sum_in _ _ (in_map tsize _ _ (in_map (app tau) _ _ I))). lia. }
        clear - FL. induction fs as [|f fs IHf]; cbn [w_loop]; [discriminate|]. destruct (build_sub comp n f s1) as [t0 s2| | |] eqn:E; try discriminate; [|exfalso; apply (FL f (or_introl eq_refl)), E].
        apply sub_state in E. subst s2. assert (X : w_loop (build_sub comp n) fs s1 <> WsFuel) by (apply IHf; intros g G; apply FL; right; exact G). destruct (w_loop (build_sub comp n) fs s1); try discriminate. congruence. }
      destruct (w_loop (build_sub comp n) fs s1) as [ts s2| | |]; try discriminate; [|congruence]. unfold w_computed. destruct (comp (TRec ts)); discriminate.
    Qed.
    (** The instance of the right side is smaller; what is rewritten next is no larger. *)
    Variables (rhs : term).
    Hypothesis Hk : kbo lhs rhs.
    Hypothesis Hg : good rhs.
    Lemma rhs_smaller : kbo x (app tau rhs) /\ good (app tau rhs).
    Proof. split; [rewrite <- tau_lhs at 1; apply kbo_stable; [exact tau_headed|exact Hk]|apply good_app, Hg]. Qed.
    Lemma next_smaller n v : match rhs with
        | TVar i => bank s1 i = Some v
        | TCst _ => v = rhs
        | TRec _ => exists s2, build_sub comp n rhs s1 = WOk v s2 end -> kbo x v /\ good v.
    Proof.
      destruct rhs_smaller as [K G]. intros H. destruct rhs as [i|c|fs].
      - cbn [app] in K, G. unfold tau in K, G. rewrite H in K, G. auto.
      - subst v. auto.
      - destruct H as (s2&H). apply sub_le in H; [|exact G]. destruct H as [H1 H2]. split; [eapply kbo_le; eauto|exact H1].
    Qed.
  End M.

  Definition shrinks (f : term -> vst -> wres) : Prop :=
    forall x s t s', clean s -> good x -> apart rv x -> f x s = WOk t s' -> clean s' /\ good t /\ le x t.
  Lemma rc_shrinks n : shrinks (rewrite_constant sb rules n).
  Proof.
    induction n as [|n IH]; intros x s t s' Cl G A; cbn [rewrite_constant]; [discriminate|]. destruct (find_rule sb x (rules x)) as [b| |] eqn:E; [| |discriminate].
    - apply find_rule_ok in E. destruct (Hr _ _ _ E) as (K&_&Gb&_). intros H. apply IH in H; [|exact Cl|exact Gb|].
      + destruct H as (H1&H2&H3). split; [exact H1|]. split; [exact H2|]. right. eapply kbo_le; eauto.
      + intros i I. apply A. apply (le_vars word x b (or_intror K) i I).
    - intros [= <- <-]. split; [exact Cl|]. split; [exact G|apply le_refl].
  Qed.
  Lemma apart_le x t : apart rv x -> le x t -> apart rv t.
  Proof. intros A L i I. apply A. apply (le_vars word x t L i I). Qed.
  Lemma try_shrinks down rc n : shrinks down -> shrinks rc -> forall x l, (forall q, In q l -> In q (rules (head_of x))) -> forall s t s', clean s -> good x -> apart rv x ->
    try_rules sb comp down rc n x l s = WOk t s' -> clean s' /\ good t /\ le x t.
  Proof.
    intros D R x. induction l as [|[lhs rhs] l IH]; intros HL s t s' Cl G A; cbn [try_rules].
    - intros [= <- <-]. split; [exact Cl|]. split; [exact G|apply le_refl].
    - destruct (match_term sb lhs x s) as [[|] s1|] eqn:E; try discriminate.
      2:{ apply IH; auto; [intros q Q; apply HL; right; exact Q|eapply clean_match; eauto]. }
      destruct (Hr _ _ _ (HL _ (or_introl eq_refl))) as (K&_&Gr&V).
      assert (F : forall v, kbo x v /\ good v -> match v with TVar _ => WOk v (clear_varstack s1) | TRec _ => down v (clear_varstack s1) | TCst _ => rc v (clear_varstack s1) end = WOk t s' -> clean s' /\ good t /\ le x t).
      { intros v [K1 G1] H. assert (Av : apart rv v) by (eapply apart_le; [exact A|right; exact K1]). assert (C1 : clean (clear_varstack s1)) by (eapply clean_match; eauto).
        assert (X : clean s' /\ good t /\ le v t).
        { destruct v as [i|c|fs]; [injection H as <- <-; split; [exact C1|]; split; [exact G1|apply le_refl]|apply (R _ _ _ _ C1 G1 Av H)|apply (D _ _ _ _ C1 G1 Av H)]. }
        destruct X as (X1&X2&X3). split; [exact X1|]. split; [exact X2|]. right. eapply kbo_le; eauto. }
      pose proof (next_smaller lhs x s s1 Cl V G A E rhs K Gr n) as NS. destruct rhs as [i|c|fs]; cbn [apply_rule].
      + destruct (bank s1 i) as [v|] eqn:B; [|discriminate]. apply F. apply NS. reflexivity.
      + apply (F (TCst c)). apply NS. reflexivity.
      + destruct (build_sub comp n (TRec fs) s1) as [v s2| | |] eqn:B; try discriminate. pose proof (sub_state comp n _ _ _ _ B) as ->. apply F. apply NS. exists s1. reflexivity.
  Qed.
  Lemma loop_shrinks f : shrinks f -> forall xs s ts s', clean s -> (forall x, In x xs -> good x /\ apart rv x) -> w_loop f xs s = WsOk ts s' -> clean s' /\ Forall good ts /\ Forall2 le xs ts.
  Proof.
    intros Hf. induction xs as [|y ys IHy]; intros s0 ts s1 C0 G; cbn [w_loop]; [intros [= <- <-]; auto|]. destruct (f y s0) as [t0 s2| | |] eqn:E; try discriminate.
    destruct (G y (or_introl eq_refl)) as [G1 A1]. apply Hf in E; auto. destruct E as (C2&G2&L2). destruct (w_loop f ys s2) as [ts' s3| | |] eqn:El; try discriminate. intros [= <- <-].
    apply IHy in El; [|exact C2|intros x X; apply G; right; exact X]. destruct El as (C3&G3&L3). split; [exact C3|]. split; constructor; auto.
  Qed.
  Lemma fields_ok fs : good (TRec fs) -> apart rv (TRec fs) -> forall x, In x fs -> good x /\ apart rv x.
  Proof. intros G A x X. split; [eapply good_field; eauto|]. intros i I. apply A. cbn [tvars]. apply in_flat_map. eauto. Qed.
  Lemma build_shrinks n : shrinks (build_rw sb comp rules n).
  Proof.
    induction n as [|n IH]; intros x s t s' Cl G A; cbn [build_rw]; [discriminate|]. destruct x as [i|c|fs].
    - intros [= <- <-]. split; [exact Cl|]. split; [exact G|apply le_refl].
    - apply rc_shrinks; assumption.
    - destruct (w_loop (build_rw sb comp rules n) fs s) as [ts s1| | |] eqn:El; try discriminate. apply (loop_shrinks _ IH) in El; [|exact Cl|apply fields_ok; assumption]. destruct El as (C1&G1&L1).
      destruct (good_fields word C _ _ G L1 G1) as [G2 L2]. unfold w_computed. destruct (comp (TRec ts)) as [t0|] eqn:Ec; [|discriminate]. destruct (comp_le _ _ G2 Ec) as [G3 L3].
      assert (L4 : le (TRec fs) t0) by (eapply le_trans; eauto). destruct (is_truth t0); [intros [= <- <-]; auto|]. intros H.
      apply (try_shrinks _ _ n IH (rc_shrinks n)) in H; [|auto|exact C1|exact G3|eapply apart_le; eauto]. destruct H as (H1&H2&H3). split; [exact H1|]. split; [exact H2|]. eapply le_trans; eauto.
  Qed.

  Definition halts (x : term) (n : nat) : Prop := forall s, clean s -> build_rw sb comp rules n x s <> WFuel.
  Lemma rc_halts n c s : halts (TCst c) (S n) -> clean s -> rewrite_constant sb rules n (TCst c) s <> WFuel.
  Proof. intros H Cl. apply (H s Cl). Qed.
  Lemma try_halts n x x0 : le x0 x -> (wt x0 <= Z.of_nat n) -> good x -> apart rv x -> (forall y, kbo x0 y -> good y -> halts y n /\ halts y (S n)) ->
    forall l, (forall q, In q l -> In q (rules (head_of x))) -> forall s, clean s -> try_rules sb comp (build_rw sb comp rules n) (rewrite_constant sb rules n) n x l s <> WFuel.
  Proof.
    intros L0 W G A H. induction l as [|[lhs rhs] l IH]; intros HL s Cl; cbn [try_rules]; [discriminate|].
    destruct (match_term sb lhs x s) as [[|] s1|] eqn:E; try discriminate.
    2:{ apply IH; [intros q Q; apply HL; right; exact Q|eapply clean_match; eauto]. }
    destruct (Hr _ _ _ (HL _ (or_introl eq_refl))) as (K&_&Gr&V). assert (C1 : clean (clear_varstack s1)) by (eapply clean_match; eauto).
    assert (F : forall v, kbo x v /\ good v -> match v with TVar _ => WOk v (clear_varstack s1) | TRec _ => build_rw sb comp rules n v (clear_varstack s1) | TCst _ => rewrite_constant sb rules n v (clear_varstack s1) end <> WFuel).
    { intros v [K1 G1]. assert (K2 : kbo x0 v) by (eapply le_kbo; eauto). destruct (H v K2 G1) as [H1 H2]. destruct v as [i|c|fs]; [discriminate|apply rc_halts; assumption|apply H1; exact C1]. }
    pose proof (next_smaller lhs x s s1 Cl V G A E rhs K Gr n) as NS. destruct rhs as [i|c|fs]; cbn [apply_rule].
    - destruct (bank s1 i) as [v|] eqn:B; [|discriminate]. apply F. apply NS. reflexivity.
    - apply (F (TCst c)). apply NS. reflexivity.
    - assert (SF : build_sub comp n (TRec fs) s1 <> WFuel).
      { apply (sub_fuel lhs x s s1 Cl V A E n). destruct (rhs_smaller lhs x s s1 Cl G E (TRec fs) K Gr) as [K1 [G1 _]]. pose proof (size_wt _ G1). assert (K2 := le_kbo word _ _ _ L0 K1). destruct K2 as [_ K2]. lia. }
      destruct (build_sub comp n (TRec fs) s1) as [v s2| | |] eqn:B; try discriminate; [|congruence]. pose proof (sub_state comp n _ _ _ _ B) as ->. apply F. apply NS. exists s1. reflexivity.
  Qed.
  Lemma build_halts x : good x -> apart rv x -> ev (halts x).
  Proof.
    intros G. induction (kbo_acc word C x G) as [x _ IH]. intros A.
    assert (B : ev (fun n => forall y, In y (below C x) -> kbo x y /\ good y -> halts y n)).
    { apply ev_list.
      - intros y. destruct (kbo_dec word x y) as [K|K]; [|tauto]. destruct (good_dec C y); tauto.
      - intros y _ [K Gy]. apply IH; [auto|exact Gy|]. eapply apart_le; [exact A|right; exact K]. }
    destruct B as (n0&B). exists (S (n0 + Z.to_nat (wt x)))%nat. intros [|n] L; [lia|].
    assert (B1 : forall y, kbo x y -> good y -> halts y n /\ halts y (S n)) by (intros y K Gy; split; (apply B; [lia|apply (below_in word); assumption|auto])).
    intros s Cl. destruct x as [i|c|fs]; cbn [build_rw]; [discriminate| |].
    - destruct n as [|n]; [pose proof (wt_pos _ (proj1 G)); cbn [Z.to_nat] in L; change (wt (TCst c)) with 10 in *; lia|]. cbn [rewrite_constant]. destruct (find_rule sb (TCst c) (rules (TCst c))) as [b| |] eqn:E; try discriminate.
      apply find_rule_ok in E. destruct (Hr _ _ _ E) as (K&_&Gb&_). destruct (le_cst word c b (proj1 Gb) (or_intror K)) as (d&->). apply rc_halts; [|exact Cl]. apply (B1 _ K Gb).
    - assert (F : w_loop (build_rw sb comp rules n) fs s <> WsFuel).
      { assert (FO : forall f, In f fs -> (good f /\ apart rv f) /\ halts f n).
        { intros f F. split; [apply (fields_ok fs); assumption|]. apply B1; [apply kbo_sub; [apply G|apply in_here; exact F]|eapply good_field; eauto]. }
        clear - FO Cl Hr Hc. revert s Cl. induction fs as [|f fs IHf]; intros s Cl; cbn [w_loop]; [discriminate|]. destruct (FO f (or_introl eq_refl)) as [[G1 A1] H1].
        destruct (build_rw sb comp rules n f s) as [t0 s2| | |] eqn:E; try discriminate; [|exfalso; apply (H1 s Cl), E]. apply build_shrinks in E; auto. destruct E as [C2 _].
        assert (X : w_loop (build_rw sb comp rules n) fs s2 <> WsFuel) by (apply IHf; [intros g Q; apply FO; right; exact Q|exact C2]). destruct (w_loop (build_rw sb comp rules n) fs s2); try discriminate. congruence. }
      destruct (w_loop (build_rw sb comp rules n) fs s) as [ts s1| | |] eqn:El; try discriminate; [|congruence]. apply (loop_shrinks _ (build_shrinks n)) in El; [|exact Cl|apply fields_ok; assumption]. destruct El as (C1&G1&L1).
      destruct (good_fields word C _ _ G L1 G1) as [G2 L2]. unfold w_computed. destruct (comp (TRec ts)) as [t0|] eqn:Ec; [|discriminate]. destruct (comp_le _ _ G2 Ec) as [G3 L3].
      assert (L4 : le (TRec fs) t0) by (eapply le_trans; eauto). destruct (is_truth t0); [discriminate|].
      apply (try_halts n t0 (TRec fs)); auto; [lia|eapply apart_le; eauto].
  Qed.
End S.

(* ---- an answer is always given ---- *)
Section A.
  Variable comp : term -> option term.
  Variable rules : term -> list (term * term).
  Hypothesis Hcov : forall k l r i, In (l, r) (rules k) -> In i (tvars r) -> In i (tvars l).
  Hypothesis Hc : forall fs, comp (TRec fs) <> None.
  Notation sb := (fun _ : cst => true).
  Definition plain (r : wres) : Prop := match r with WOk _ _ | WFuel => True | _ => False end.
  Definition plains (r : wsres) : Prop := match r with WsOk _ _ | WsFuel => True | _ => False end.
  Lemma loop_plain f : (forall x s, plain (f x s)) -> forall xs s, plains (w_loop f xs s).
  Proof.
    intros H. induction xs as [|x xs IH]; intros s; cbn [w_loop]; [exact Logic.I|]. specialize (H x s). destruct (f x s) as [t s1| | |]; try contradiction; [|exact Logic.I].
    specialize (IH s1). destruct (w_loop f xs s1); try contradiction; exact Logic.I.
  Qed.
  Lemma find_plain x : forall l, find_rule sb x l <> LStray.
  Proof.
    induction l as [|[a b] l IH]; cbn; [discriminate|]. pose proof (equal_term_nostray sb (fun _ => eq_refl) a x) as E. destruct (equal_term sb a x); [discriminate|exact IH|congruence].
  Qed.
  Lemma rc_plain n : forall x s, plain (rewrite_constant sb rules n x s).
  Proof.
    induction n as [|n IH]; intros x s; cbn [rewrite_constant]; [exact Logic.I|]. pose proof (find_plain x (rules x)) as F. destruct (find_rule sb x (rules x)); [apply IH|exact Logic.I|congruence].
  Qed.
  Lemma sub_plain n : forall x s, plain (build_sub comp n x s).
  Proof.
    induction n as [|n IH]; intros x s; cbn [build_sub]; [exact Logic.I|]. destruct (deref n (bank s) x) as [[i|c|fs]|]; try exact Logic.I. pose proof (loop_plain _ IH fs s) as L.
    destruct (w_loop (build_sub comp n) fs s) as [ts s1| | |]; try contradiction; [|exact Logic.I]. unfold w_computed. pose proof (Hc ts). destruct (comp (TRec ts)); [exact Logic.I|congruence].
  Qed.
  Lemma try_plain down rc n x : (forall y s, plain (down y s)) -> (forall y s, plain (rc y s)) -> forall l, (forall q, In q l -> exists k, In q (rules k)) -> forall s, plain (try_rules sb comp down rc n x l s).
  Proof.
    intros D R. induction l as [|[lhs rhs] l IH]; intros HL s; cbn [try_rules]; [exact Logic.I|]. pose proof (match_answers lhs x s) as M. destruct (match_term sb lhs x s) as [[|] s1|] eqn:E; [| |congruence].
    2:{ apply IH. intros q Q. apply HL. right. exact Q. }
    destruct (match_bindings _ _ _ _ _ E) as (B&_&_).
    assert (F : forall v, plain (match v with TVar _ => WOk v (clear_varstack s1) | TRec _ => down v (clear_varstack s1) | TCst _ => rc v (clear_varstack s1) end)) by (intros [i|c|fs]; [exact Logic.I|apply R|apply D]).
    destruct rhs as [i|c|fs]; cbn [apply_rule].
    - destruct (HL _ (or_introl eq_refl)) as (k&K). specialize (B i (Hcov _ _ _ i K (or_introl eq_refl))). destruct (bank s1 i); [apply F|congruence].
    - apply R.
    - pose proof (sub_plain n (TRec fs) s1) as P. destruct (build_sub comp n (TRec fs) s1) as [v s2| | |] eqn:Eb; try contradiction; [|exact Logic.I]. apply sub_state in Eb. subst s2. apply F.
  Qed.
  Lemma build_plain n : forall x s, plain (build_rw sb comp rules n x s).
  Proof.
    induction n as [|n IH]; intros x s; cbn [build_rw]; [exact Logic.I|]. destruct x as [i|c|fs]; [exact Logic.I|apply rc_plain|]. pose proof (loop_plain _ IH fs s) as L.
    destruct (w_loop (build_rw sb comp rules n) fs s) as [ts s1| | |]; try contradiction; [|exact Logic.I]. unfold w_computed. pose proof (Hc ts). destruct (comp (TRec ts)) as [t0|]; [|congruence].
    destruct (is_truth t0); [exact Logic.I|]. apply try_plain; [exact IH|apply rc_plain|intros q Q; eauto].
  Qed.
End A.
