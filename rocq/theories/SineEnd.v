(** The relevance filter from the counts to the clauses loaded. *)
From Coq Require Import List ZArith Bool Lia.
From Verif Require Import SineModel SineSpec SineProof SineLoop.
Import ListNotations.
Open Scope Z_scope.

Section End.
Variables (cls : list clause) (p : params).
Hypothesis Hfit : fits cls.

Record first (pre : list clause) (s : (Z -> Z) * list Z * Z) : Prop := {
  f_goal : forall c, In c pre -> goal c = true -> get_cl (fst (fst s)) c = 1;
  f_other : forall c, In c cls -> goal c = false \/ ~ In c pre -> get_cl (fst (fst s)) c = 0 \/
    (get_cl (fst (fst s)) c = 121 /\ all_common (p_common p) cls c);
  f_rest : forall c, In c cls -> ~ In c pre -> get_cl (fst (fst s)) c = 0;
  f_all : snd s < p_maxcommon p -> forall c, In c pre -> all_common (p_common p) cls c -> get_cl (fst (fst s)) c <> 0;
  f_syms : forall u, In u (snd (fst s)) <-> exists c, In c pre /\ goal c = true /\ has u c = true;
  f_found : 0 <= snd s <= Z.of_nat (length pre) }.

Lemma first_step pre s c : first pre s -> In c cls -> ~ In c pre -> (forall d, In d pre -> In d cls) ->
  first (pre ++ [c]) (init_step p (scount (analyze cls)) s c).
Proof.
  intros F Hc Nc Hp. destruct s as [[k us] found]. destruct F as [F1 F2 F3 F4 F5 F6]. cbn [fst snd] in *.
  assert (In2 : forall d, In d (pre ++ [c]) <-> In d pre \/ d = c) by (intros d; rewrite in_app_iff; cbn; intuition).
  assert (Kc : get_cl k c = 0) by (apply F3; assumption).
  assert (skip : goal c = false -> (found < p_maxcommon p -> ~ all_common (p_common p) cls c) -> first (pre ++ [c]) (k, us, found)).
  { intros Gc Nac. constructor; cbn [fst snd].
    - intros d Hd Gd. apply In2 in Hd. destruct Hd as [Hd| ->]; [exact (F1 d Hd Gd)|congruence].
    - intros d Hd Od. destruct Od as [Od|Od]; [apply F2; auto|]. left. apply F3; [exact Hd|]. intros Hd2. apply Od. apply In2. left. exact Hd2.
    - intros d Hd Nd. apply F3; [exact Hd|]. intros Hd2. apply Nd. apply In2. left. exact Hd2.
    - intros L d Hd Ad. apply In2 in Hd. destruct Hd as [Hd| ->]; [exact (F4 L d Hd Ad)|]. exfalso. exact (Nac L Ad).
    - intros u. rewrite F5. split; intros [d [Hd [Gd Hu]]]; exists d; (split; [|auto]).
      + apply In2. left. exact Hd.
      + apply In2 in Hd. destruct Hd as [Hd| ->]; [exact Hd|congruence].
    - rewrite app_length. cbn [length]. lia. }
  unfold init_step. destruct (goal c) eqn:Gc.
  - constructor; cbn [fst snd].
    + intros d Hd Gd. assert (Hd' : In d cls) by (apply In2 in Hd; destruct Hd as [Hd| ->]; auto).
      destruct (get_set_cl cls Hfit k c 1 d Hc Hd') as [[-> E]|[Nd E]]; rewrite E; [reflexivity|].
      apply In2 in Hd. destruct Hd as [Hd| ->]; [exact (F1 d Hd Gd)|contradiction].
    + intros d Hd Od. destruct (get_set_cl cls Hfit k c 1 d Hc Hd) as [[-> E]|[Nd E]].
      * exfalso. destruct Od as [Od|Od]; [congruence|]. apply Od. apply In2. right. reflexivity.
      * rewrite E. apply F2; [exact Hd|]. destruct Od as [Od|Od]; [left; exact Od|right]. intros Hd2. apply Od. apply In2. left. exact Hd2.
    + intros d Hd Nd. destruct (get_set_cl cls Hfit k c 1 d Hc Hd) as [[-> E]|[Ne E]].
      * exfalso. apply Nd. apply In2. right. reflexivity.
      * rewrite E. apply F3; [exact Hd|]. intros Hd2. apply Nd. apply In2. left. exact Hd2.
    + intros L d Hd Ad. assert (Hd' : In d cls) by (apply In2 in Hd; destruct Hd as [Hd| ->]; auto).
      destruct (get_set_cl cls Hfit k c 1 d Hc Hd') as [[-> E]|[Nd E]]; rewrite E; [lia|].
      apply In2 in Hd. destruct Hd as [Hd| ->]; [exact (F4 L d Hd Ad)|contradiction].
    + intros u. rewrite clause_in, F5. split.
      * intros [[d [Hd [Gd Hu]]]|Hu]; [exists d|exists c]; (split; [apply In2; auto|auto]).
      * intros [d [Hd [Gd Hu]]]. apply In2 in Hd. destruct Hd as [Hd| ->]; [left; exists d; auto|right; exact Hu].
    + rewrite app_length. cbn [length]. lia.
  - destruct (negb (p_common p =? 0) && (found <? p_maxcommon p)) eqn:E.
    + apply andb_true_iff in E. destruct E as [E1 E2]. apply negb_true_iff, Z.eqb_neq in E1. apply Z.ltb_lt in E2.
      destruct (check_cl (scount (analyze cls)) c 1 4 (p_common p)) eqn:Ec.
      * apply (check_common cls c 1 4 (p_common p) E1) in Ec. constructor; cbn [fst snd].
        -- intros d Hd Gd. assert (Hd' : In d cls) by (apply In2 in Hd; destruct Hd as [Hd| ->]; auto).
           destruct (get_set_cl cls Hfit k c (maxk + 1) d Hc Hd') as [[-> _]|[Nd E]]; [congruence|]. rewrite E.
           apply In2 in Hd. destruct Hd as [Hd| ->]; [exact (F1 d Hd Gd)|contradiction].
        -- intros d Hd Od. destruct (get_set_cl cls Hfit k c (maxk + 1) d Hc Hd) as [[-> E]|[Nd E]]; rewrite E.
           ++ right. split; [reflexivity|exact Ec].
           ++ apply F2; [exact Hd|]. destruct Od as [Od|Od]; [left; exact Od|right]. intros Hd2. apply Od. apply In2. left. exact Hd2.
        -- intros d Hd Nd. destruct (get_set_cl cls Hfit k c (maxk + 1) d Hc Hd) as [[-> E]|[Ne E]].
           ++ exfalso. apply Nd. apply In2. right. reflexivity.
           ++ rewrite E. apply F3; [exact Hd|]. intros Hd2. apply Nd. apply In2. left. exact Hd2.
        -- intros L d Hd Ad. assert (Hd' : In d cls) by (apply In2 in Hd; destruct Hd as [Hd| ->]; auto).
           destruct (get_set_cl cls Hfit k c (maxk + 1) d Hc Hd') as [[-> E]|[Nd E]]; rewrite E; [unfold maxk; lia|].
           apply In2 in Hd. destruct Hd as [Hd| ->]; [exact (F4 ltac:(lia) d Hd Ad)|contradiction].
        -- intros u. rewrite F5. split; intros [d [Hd [Gd Hu]]]; exists d; (split; [|auto]).
           ++ apply In2. left. exact Hd.
           ++ apply In2 in Hd. destruct Hd as [Hd| ->]; [exact Hd|congruence].
        -- rewrite app_length. cbn [length]. lia.
      * apply skip; [reflexivity|]. intros _ Ac. apply (check_common cls c 1 4 (p_common p) E1) in Ac. congruence.
    + apply skip; [reflexivity|]. intros L [M _]. apply andb_false_iff in E. destruct E as [E|E].
      * apply negb_false_iff, Z.eqb_eq in E. contradiction.
      * apply Z.ltb_ge in E. lia.
Qed.
Lemma first_all : forall rest pre s, cls = pre ++ rest -> first pre s ->
  first cls (fold_left (init_step p (scount (analyze cls))) rest s).
Proof.
  induction rest as [|c rest IH]; intros pre s E F.
  - rewrite app_nil_r in E. rewrite E at 1. exact F.
  - cbn [fold_left]. assert (Hc : In c cls) by (rewrite E; apply in_or_app; right; left; reflexivity).
    apply (IH (pre ++ [c])); [rewrite <- app_assoc; exact E|]. apply first_step; [exact F|exact Hc| |].
    + intros Hp. pose proof (cls_nodup cls Hfit) as N. rewrite E in N. apply NoDup_remove_2 in N. apply N. apply in_or_app. left. exact Hp.
    + intros d Hd. rewrite E. apply in_or_app. left. exact Hd.
Qed.
Lemma first_ok : first cls (fold_left (init_step p (scount (analyze cls))) cls (fun _ => 0, [], 0)).
Proof.
  apply (first_all cls []); [reflexivity|]. constructor; cbn.
  - intros c [].
  - intros c Hc _. left. unfold get_cl. rewrite (cl_range cls Hfit c Hc). reflexivity.
  - intros c Hc _. unfold get_cl. rewrite (cl_range cls Hfit c Hc). reflexivity.
  - intros _ c [].
  - intros u. split; [intros []|]. intros [c [[] _]].
  - lia.
Qed.
Lemma goal_uris_ok us : (forall u, In u us -> sy cls u) -> forall u, sy cls u -> get_uri (goal_uris us) u = if existsb (Z.eqb u) us then 1 else 0.
Proof.
  intros Hus u Su. unfold goal_uris.
  assert (G : forall l f, (forall v, In v l -> sy cls v) -> get_uri (fold_left (fun t v => set_uri t v 1) l f) u = if existsb (Z.eqb u) l then 1 else get_uri f u).
  { induction l as [|v l IH]; intros f Hl; cbn; [reflexivity|]. rewrite IH by (intros w Hw; apply Hl; right; exact Hw).
    destruct (get_set_uri cls Hfit f v 1 u (Hl v (or_introl eq_refl)) Su) as [[-> E]|[N E]]; rewrite E.
    - rewrite Z.eqb_refl. cbn. destruct (existsb (Z.eqb v) l); reflexivity.
    - apply Z.eqb_neq in N. rewrite N. reflexivity. }
  rewrite (G us (fun _ => 0) Hus). unfold get_uri. rewrite (sy_range cls Hfit u Su). reflexivity.
Qed.

Lemma loop_ok : exists K0 s m, let '(k, us, found) := fold_left (init_step p (scount (analyze cls))) cls (fun _ => 0, [], 0) in
  main_loop p (analyze cls) (S (length us + length (flat_map (fun c => clause_symbols c []) cls)))
    {| clk := k; urk := goal_uris us; trig := 0; queue := us |} = Some s /\
  outcome cls p K0 m s /\ (121 <= m \/ p_maxtriggers p <= trig s) /\
  (forall c, In c cls -> K0 c = 0 \/ K0 c = 1 \/ K0 c = 121) /\
  (forall c, In c cls -> goal c = true -> K0 c = 1) /\
  (forall c, In c cls -> K0 c = 121 -> all_common (p_common p) cls c) /\
  (Z.of_nat (length cls) < p_maxcommon p -> forall c, In c cls -> all_common (p_common p) cls c -> K0 c <> 0).
Proof.
  pose proof first_ok as F. destruct (fold_left (init_step p (scount (analyze cls))) cls (fun _ => 0, [], 0)) as [[k us] found].
  destruct F as [F1 F2 _ F4 F5 F6]. cbn [fst snd] in *.
  assert (Hus : forall u, In u us -> sy cls u) by (intros u Hu; apply F5 in Hu; destruct Hu as [c [H1 [_ H2]]]; exists c; auto).
  assert (V : forall c, In c cls -> get_cl k c = 0 \/ (get_cl k c = 1 /\ goal c = true) \/ (get_cl k c = 121 /\ all_common (p_common p) cls c)).
  { intros c Hc. destruct (goal c) eqn:G; [right; left; split; [exact (F1 c Hc G)|reflexivity]|].
    destruct (F2 c Hc (or_introl G)) as [Z|Z]; auto. }
  set (s0 := {| clk := k; urk := goal_uris us; trig := 0; queue := us |}).
  assert (ER : forall u, sy cls u -> (R s0 u = 1 /\ In u us) \/ (R s0 u = 0 /\ ~ In u us)).
  { intros u Su. unfold R, s0. cbn [urk]. rewrite (goal_uris_ok us Hus u Su). destruct (existsb (Z.eqb u) us) eqn:E.
    - left. split; [reflexivity|apply existsb_eqb; exact E].
    - right. split; [reflexivity|]. intros H. apply existsb_eqb in H. congruence. }
  assert (I : inv cls p (get_cl k) (fun _ => False) none 1 s0).
  { constructor.
    - intros c Hc. change (K s0 c) with (get_cl k c). destruct (V c Hc) as [Z|[[Z G]|[Z A]]]; [left; exact Z| |right; right; auto].
      right. left. rewrite Z. split; [lia|]. apply near_goal; assumption.
    - intros u Su Ru. destruct (ER u Su) as [[E Hu]|[E _]]; [|contradiction]. rewrite E. split; [lia|].
      apply F5 in Hu. destruct Hu as [c [H1 [H2 H3]]]. exists c. split; [apply near_goal; assumption|exact H3].
    - intros c u Hc Kc Hu. left. change (K s0 c) with (get_cl k c) in *. assert (Su : sy cls u) by (exists c; auto).
      destruct (V c Hc) as [Z|[[Z G]|[Z A]]]; [lia| |lia].
      destruct (ER u Su) as [[E _]|[_ N]]; [lia|]. exfalso. apply N. apply F5. exists c. auto.
    - intros u Su Ru. destruct (ER u Su) as [[_ Hu]|[E _]]; [left; exact Hu|contradiction].
    - exists us, []. split; [cbn; rewrite app_nil_r; reflexivity|]. split; [|intros u []].
      intros u Hu. destruct (ER u (Hus u Hu)) as [[E _]|[_ N]]; [exact E|contradiction].
    - intros u Su. destruct (ER u Su) as [[E _]|[E _]]; lia.
    - intros c Hc. change (K s0 c) with (get_cl k c). destruct (V c Hc) as [Z|[[Z G]|[Z A]]]; [left; lia|left; lia|right; auto].
    - intros c Hc H. exact H.
    - intros c Hc G. exact (F1 c Hc G).
    - cbn [trig s0]. rewrite (filter_same _ (fun _ => false)).
      + induction cls as [|a l IH]; [reflexivity|]. clear. induction l; auto.
      + intros c Hc. change (K s0 c) with (get_cl k c). rewrite Z.eqb_refl. reflexivity.
    - exact Hus.
    - lia. }
  destruct (main_ok cls p (get_cl k) Hfit) with (fuel := S (length us + length (flat_map (fun c => clause_symbols c []) cls))) (k := 1) (s := s0) as [s [m [E1 [E2 E3]]]].
  - intros c Hc. destruct (V c Hc) as [Z|[[Z _]|[Z _]]]; auto.
  - exact I.
  - unfold size, M. cbn [queue s0].
    assert (L1 : (length (filter (fun u => (R s0 u =? 0)%Z) (U cls)) <= length (U cls))%nat).
    { generalize (U cls). induction l as [|a l IH]; cbn; [lia|]. destruct (R s0 a =? 0); cbn; lia. }
    assert (L2 : (length (U cls) <= length (flat_map (fun c => clause_symbols c []) cls))%nat).
    { apply NoDup_incl_length; [apply NoDup_nodup|]. intros u Hu. unfold U in Hu. apply nodup_In in Hu. exact Hu. }
    lia.
  - exists (get_cl k), s, m. split; [exact E1|]. split; [exact E2|]. split; [exact E3|]. split; [|split; [|split]].
    + intros c Hc. destruct (V c Hc) as [Z|[[Z _]|[Z _]]]; auto.
    + exact F1.
    + intros c Hc Z. destruct (V c Hc) as [Z'|[[Z' _]|[_ A]]]; [lia|lia|exact A].
    + intros L c Hc A. apply (F4 ltac:(lia) c Hc A).
Qed.
End End.

Lemma maxcount_ok cls uris mc : (forall c u, In c cls -> has u c = true -> In u uris) -> is_largest_count cls mc ->
  fold_left (fun m u => Z.max m (scount (analyze cls) u)) uris 0 = mc.
Proof.
  intros Hu [L1 L2].
  assert (G : forall l m, (forall u, In u l -> count cls u <= mc) -> m <= mc ->
    m <= fold_left (fun m u => Z.max m (scount (analyze cls) u)) l m <= mc /\ forall u, In u l -> count cls u <= fold_left (fun m u => Z.max m (scount (analyze cls) u)) l m).
  { induction l as [|v l IH]; intros m Hl Hm; cbn [fold_left]; [split; [lia|intros u []]|].
    rewrite (proj1 (analyze_ok cls v)). pose proof (Hl v (or_introl eq_refl)) as Lv.
    destruct (IH (Z.max m (count cls v)) (fun w Hw => Hl w (or_intror Hw)) ltac:(lia)) as [A B]. split; [lia|].
    intros u [->|Hi]; [lia|exact (B u Hi)]. }
  assert (P : 0 <= mc) by (pose proof (L1 0) as Q; unfold count in Q; lia).
  destruct (G uris 0 (fun u _ => L1 u) P) as [A B]. destruct L2 as [->|[u E]]; [lia|].
  destruct (Z.eq_dec mc 0) as [->|N]; [lia|].
  assert (In u uris).
  { unfold count in E. destruct (filter (has u) cls) as [|c r] eqn:Ef; [cbn in E; lia|].
    assert (Hc : In c (filter (has u) cls)) by (rewrite Ef; left; reflexivity). apply filter_In in Hc. exact (Hu c u (proj1 Hc) (proj2 Hc)). }
  specialize (B u H). lia.
Qed.

(** All together. *)
Lemma sine_ok strat uris cls mc : fits cls -> (forall c u, In c cls -> has u c = true -> In u uris) -> is_largest_count cls mc ->
  let p := params_for strat (Z.of_nat (length uris)) (Z.of_nat (length cls)) mc in
  exists s K0 m, sine strat uris cls = Some s /\
  outcome cls p K0 m s /\ (121 <= m \/ p_maxtriggers p <= trig s) /\
  (forall c, In c cls -> K0 c = 0 \/ K0 c = 1 \/ K0 c = 121) /\
  (forall c, In c cls -> goal c = true -> K0 c = 1) /\
  (forall c, In c cls -> K0 c = 121 -> all_common (p_common p) cls c) /\
  (Z.of_nat (length cls) < p_maxcommon p -> forall c, In c cls -> all_common (p_common p) cls c -> K0 c <> 0).
Proof.
  intros Hf Hu Hm p. destruct (loop_ok cls p Hf) as [K0 [s [m H]]]. exists s, K0, m. unfold sine.
  rewrite (maxcount_ok cls uris mc Hu Hm). fold p.
  destruct (fold_left (init_step p (scount (analyze cls))) cls (fun _ => 0, [], 0)) as [[k us] found]. exact H.
Qed.
Lemma loaded_in s cls c : In c (loaded s cls) <-> In c cls /\ K s c <> 0.
Proof. unfold loaded. rewrite filter_In. fold (K s c). rewrite negb_true_iff, Z.eqb_neq. reflexivity. Qed.
