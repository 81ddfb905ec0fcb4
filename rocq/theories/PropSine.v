(** C68: the relevance filter. *)
From Coq Require Import List ZArith Bool Lia.
From Verif Require Import SineModel SineSpec SineProof SineLoop SineEnd.
Import ListNotations.
Open Scope Z_scope.

(* ---- an example ---- *)
(** A goal p(a), clauses reached over a and p, clauses of p with rare symbols, and unrelated ones. *)
Definition cl (i : Z) (g : bool) (l : list tm) : clause := {| cid := i; goal := g; atoms := l |}.
Definition e1 := cl 1 true [App [Sym 1; Sym 10]].
Definition e2 := cl 2 false [App [Sym 1; Sym 11]; App [Sym 12; Other]].
Definition e3 := cl 3 false [App [Sym 1; App [Sym 10; Sym 10]]].
Definition e4 := cl 4 false [App [Sym 1; Sym 13]].
Definition e5 := cl 5 false [App [Sym 1; Other]].
Definition e6 := cl 6 false [App [Sym 20; Sym 21]].
Definition e7 := cl 7 false [App [Sym 20; Other]].
Definition ecls := [e1; e2; e3; e4; e5; e6; e7].
Definition euris := [21; 20; 13; 12; 11; 10; 1; 99].
Lemma e_fits : fits ecls.
Proof.
  split; [|split].
  - repeat (constructor; [cbn; intuition discriminate|]). constructor.
  - intros c Hc. unfold table_size. cbn in Hc. repeat (destruct Hc as [<-|Hc]; [cbn; lia|]). destruct Hc.
  - intros c u Hc Hu. unfold table_size. cbn in Hc.
    repeat (destruct Hc as [<-|Hc]; [cbn in Hu; repeat (apply orb_true_iff in Hu; destruct Hu as [Hu|Hu]); try discriminate; try (apply Z.eqb_eq in Hu; lia)|]). destruct Hc.
Qed.
Lemma e_uris : forall c u, In c ecls -> has u c = true -> In u euris.
Proof.
  intros c u Hc Hu. cbn in Hc.
  repeat (destruct Hc as [<-|Hc]; [cbn in Hu; repeat (apply orb_true_iff in Hu; destruct Hu as [Hu|Hu]); try discriminate; try (apply Z.eqb_eq in Hu; subst u; cbn; tauto)|]). destruct Hc.
Qed.
Lemma e_largest : is_largest_count ecls 5.
Proof.
  split; [|right; exists 1; vm_compute; reflexivity]. intros u. unfold count. cbn.
  destruct (u =? 1) eqn:E1, (u =? 10) eqn:E2, (u =? 11) eqn:E3, (u =? 12) eqn:E4, (u =? 13) eqn:E5, (u =? 20) eqn:E6, (u =? 21) eqn:E7;
    cbn; try lia; repeat match goal with E : (_ =? _) = true |- _ => apply Z.eqb_eq in E end; lia.
Qed.
Definition ids (o : option st) : option (list (Z * Z) * Z) :=
  match o with Some s => Some (map (fun c => (cid c, get_cl (clk s) c)) (loaded s ecls), trig s) | None => None end.

(** The premises of the theorems: the clauses fit the tables, the list of symbols of the database has
    all their symbols, and [mc] is the largest count. *)
Definition given (uris : list Z) (cls : list clause) (mc : Z) : Prop :=
  fits cls /\ (forall c u, In c cls -> has u c = true -> In u uris) /\ is_largest_count cls mc.
Definition consts (strat : Z) (uris : list Z) (cls : list clause) (mc : Z) : params :=
  params_for strat (Z.of_nat (length uris)) (Z.of_nat (length cls)) mc.
Example C68_nonvacuous : given euris ecls 5 /\
  ids (sine 1 euris ecls) = Some ([(1, 1); (3, 2); (5, 2)], 2) /\
  ids (sine 2 euris ecls) = Some ([(1, 1); (3, 2); (5, 2)], 2) /\
  ids (sine 5 euris ecls) = Some ([(1, 1); (3, 2); (5, 2)], 2).
Proof. split; [exact (conj e_fits (conj e_uris e_largest))|]. repeat split; vm_compute; reflexivity. Qed.

(** C68.  The filter ends.  Every clause loaded is one of the clauses given; it is reached from a goal
    by a chain of at most 121 clauses, or has common symbols only.  Every goal is loaded. *)
Theorem C68_kept : forall strat uris cls mc, given uris cls mc -> let p := consts strat uris cls mc in
  exists s, sine strat uris cls = Some s /\
  (forall c, In c (loaded s cls) -> In c cls /\
     ((exists n, 1 <= n <= 121 /\ near (p_g p) (p_tol2 p) cls n c) \/ all_common (p_common p) cls c)) /\
  (forall c, In c cls -> goal c = true -> In c (loaded s cls)).
Proof.
  intros strat uris cls mc [Hf [Hu Hm]] p. destruct (sine_ok strat uris cls mc Hf Hu Hm) as [s [K0 [m [E [O [_ [V [Vg [V1 _]]]]]]]]].
  exists s. split; [exact E|]. split.
  - intros c Hc. apply loaded_in in Hc. destruct Hc as [Hc Kc]. split; [exact Hc|].
    destruct (wA _ _ _ _ _ O c Hc) as [Z|[[L N]|[_ Z]]]; [contradiction| |right; exact (V1 c Hc Z)].
    left. exists (K s c). split; [exact L|exact N].
  - intros c Hc G. apply loaded_in. split; [exact Hc|]. rewrite (wFg _ _ _ _ _ O c Hc G). discriminate.
Qed.
Print Assumptions C68_kept.

(** The level given to a loaded clause not of common symbols only is the length of a shortest chain
    from a goal; and no clause nearer to the goals than a loaded one is left out. *)
Theorem C68_nearest : forall strat uris cls mc, given uris cls mc -> let p := consts strat uris cls mc in
  exists s, sine strat uris cls = Some s /\
  forall c, In c (loaded s cls) -> ~ all_common (p_common p) cls c ->
    near (p_g p) (p_tol2 p) cls (get_cl (clk s) c) c /\
    (forall n, near (p_g p) (p_tol2 p) cls n c -> get_cl (clk s) c <= n) /\
    (forall n d, near (p_g p) (p_tol2 p) cls n d -> n < get_cl (clk s) c -> In d (loaded s cls)).
Proof.
  intros strat uris cls mc [Hf [Hu Hm]] p. destruct (sine_ok strat uris cls mc Hf Hu Hm) as [s [K0 [m [E [O [_ [V [Vg [V1 _]]]]]]]]].
  exists s. split; [exact E|]. intros c Hc Nc. apply loaded_in in Hc. destruct Hc as [Hc Kc]. fold (K s c).
  destruct (wA _ _ _ _ _ O c Hc) as [Z|[[L N]|[_ Z]]]; [contradiction| |exfalso; apply Nc; exact (V1 c Hc Z)].
  destruct (wE _ _ _ _ _ O c Hc) as [Lm|[_ Z]]; [|exfalso; apply Nc; exact (V1 c Hc Z)].
  split; [exact N|]. split.
  - intros n Nn. destruct (Z_lt_le_dec n (K s c)) as [Ln|Ln]; [|exact Ln].
    pose proof (wN _ _ _ _ _ O n c Nn ltac:(lia) ltac:(lia)). lia.
  - intros n d Nd Ln. apply loaded_in. split; [exact (near_in cls p n d Nd)|].
    pose proof (wN _ _ _ _ _ O n d Nd ltac:(lia) ltac:(lia)). lia.
Qed.
Print Assumptions C68_nearest.
Example C68_nonvacuous_nearest : exists s, sine 1 euris ecls = Some s /\ In e3 (loaded s ecls) /\ ~ all_common (p_common (consts 1 euris ecls 5)) ecls e3.
Proof.
  destruct (sine 1 euris ecls) as [s|] eqn:E; [|vm_compute in E; discriminate]. exists s. split; [reflexivity|].
  assert (Q : match sine 1 euris ecls with Some s => negb (K s e3 =? 0) | None => false end = true) by (vm_compute; reflexivity).
  rewrite E in Q. split.
  - apply loaded_in. split; [cbn; tauto|]. apply Z.eqb_neq, negb_true_iff. exact Q.
  - intros [_ H]. specialize (H 10 eq_refl). vm_compute in H. apply H. reflexivity.
Qed.

(** If fewer clauses that are not goals are loaded than the strategy allows to trigger, every clause
    reached by a chain of at most 121 clauses is loaded. *)
Theorem C68_complete : forall strat uris cls mc, given uris cls mc -> let p := consts strat uris cls mc in
  exists s, sine strat uris cls = Some s /\
  (Z.of_nat (length (filter (fun c => negb (goal c)) (loaded s cls))) < p_maxtriggers p ->
   forall n c, near (p_g p) (p_tol2 p) cls n c -> n <= 121 -> In c (loaded s cls)).
Proof.
  intros strat uris cls mc [Hf [Hu Hm]] p. destruct (sine_ok strat uris cls mc Hf Hu Hm) as [s [K0 [m [E [O [B [V [Vg [V1 _]]]]]]]]].
  exists s. split; [exact E|]. intros L n c Nc Ln. apply loaded_in. split; [exact (near_in cls p n c Nc)|].
  destruct B as [B|B]; [pose proof (wN _ _ _ _ _ O n c Nc ltac:(lia) Ln); lia|]. exfalso. fold (consts strat uris cls mc) in B. fold p in B.
  rewrite (wG _ _ _ _ _ O) in B.
  assert (G : (length (filter (fun c => negb (K s c =? K0 c)%Z) cls) <= length (filter (fun c => negb (goal c)) (loaded s cls)))%nat).
  { apply NoDup_incl_length; [apply NoDup_filter; exact (cls_nodup cls Hf)|]. intros d Hd. apply filter_In in Hd. destruct Hd as [Hd Kd].
    apply negb_true_iff, Z.eqb_neq in Kd. apply filter_In. split.
    - apply loaded_in. split; [exact Hd|]. intros Z. destruct (Z.eq_dec (K0 d) 0) as [Z0|Z0]; [lia|]. exact (wF _ _ _ _ _ O d Hd Z0 Z).
    - apply negb_true_iff. destruct (goal d) eqn:Gd; [|reflexivity]. rewrite (wFg _ _ _ _ _ O d Hd Gd), (Vg d Hd Gd) in Kd. contradiction. }
  lia.
Qed.
Print Assumptions C68_complete.
Example C68_nonvacuous_complete : exists s, sine 2 euris ecls = Some s /\
  Z.of_nat (length (filter (fun c => negb (goal c)) (loaded s ecls))) < p_maxtriggers (consts 2 euris ecls 5).
Proof.
  destruct (sine 2 euris ecls) as [s|] eqn:E; [|vm_compute in E; discriminate]. exists s. split; [reflexivity|].
  assert (Q : match sine 2 euris ecls with Some s => Z.of_nat (length (filter (fun c => negb (goal c)) (loaded s ecls))) <? p_maxtriggers (consts 2 euris ecls 5) | None => false end = true) by (vm_compute; reflexivity).
  rewrite E in Q. apply Z.ltb_lt. exact Q.
Qed.

(** With the value 1 and fewer than a million clauses, exactly the clauses reached by a chain of at
    most 121 clauses and the clauses of common symbols only are loaded. *)
Theorem C68_weak : forall uris cls mc, given uris cls mc -> Z.of_nat (length cls) < 1000000 -> let p := consts 1 uris cls mc in
  exists s, sine 1 uris cls = Some s /\
  forall c, In c (loaded s cls) <-> In c cls /\
    ((exists n, 1 <= n <= 121 /\ near (p_g p) (p_tol2 p) cls n c) \/ all_common (p_common p) cls c).
Proof.
  intros uris cls mc Hg Hl p. destruct (C68_kept 1 uris cls mc Hg) as [s [E [H1 _]]]. destruct (C68_complete 1 uris cls mc Hg) as [s2 [E2 H2]].
  rewrite E in E2. injection E2 as <-. destruct Hg as [Hf [Hu Hm]].
  destruct (sine_ok 1 uris cls mc Hf Hu Hm) as [s3 [K0 [m [E3 [O [B [V [Vg [V1 V2]]]]]]]]]. rewrite E in E3. injection E3 as <-.
  exists s. split; [exact E|]. intros c. split; [exact (H1 c)|]. intros [Hc [[n [Ln Nn]]|Ac]].
  - apply (H2) with (n := n); [|exact Nn|lia]. cbn [p_maxtriggers consts params_for Z.eqb Pos.eqb].
    assert (L : (length (filter (fun c => negb (goal c)) (loaded s cls)) <= length cls)%nat).
    { apply NoDup_incl_length; [apply NoDup_filter, NoDup_filter; exact (cls_nodup cls Hf)|]. intros d Hd. apply filter_In in Hd. apply (loaded_in s cls d). exact (proj1 Hd). }
    lia.
  - apply loaded_in. split; [exact Hc|]. apply (wF _ _ _ _ _ O c Hc). apply V2; [|exact Hc|exact Ac].
    cbn [p_maxcommon params_for Z.eqb Pos.eqb]. exact Hl.
Qed.
Print Assumptions C68_weak.

(** Without the premise on the numbers of the clauses a goal may be left out: the table of levels has
    room for ten million clauses, and a clause numbered beyond it never gets a level. *)
Theorem C68_refuted : exists uris cls c s, In c cls /\ goal c = true /\ (forall c d, In c cls -> In d cls -> cid c = cid d -> c = d) /\
  (forall c u, In c cls -> has u c = true -> In u uris) /\ sine 1 uris cls = Some s /\ ~ In c (loaded s cls).
Proof.
  pose (c := cl 10000000 true [App [Sym 1; Sym 2]]). exists [1; 2], [c], c.
  destruct (sine 1 [1; 2] [c]) as [s|] eqn:E; [|vm_compute in E; discriminate]. exists s.
  split; [left; reflexivity|]. split; [reflexivity|]. split; [intros a b [<-|[]] [<-|[]] _; reflexivity|]. split.
  { intros d u [<-|[]] Hu. cbn in Hu. repeat (apply orb_true_iff in Hu; destruct Hu as [Hu|Hu]); try discriminate; apply Z.eqb_eq in Hu; subst u; cbn; tauto. }
  split; [reflexivity|]. intros H. apply loaded_in in H. destruct H as [_ H]. apply H. reflexivity.
Qed.
Print Assumptions C68_refuted.
