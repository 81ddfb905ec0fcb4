(** C60: The runs of a strategy are dealt out to the worker processes, each run is done once, the program
    ends, and a proof that some worker comes to is the result, under every schedule of the processes. *)
From Coq Require Import ZArith Arith List Bool Lia.
From Verif Require Import FkModel FkSpec FkProof.
Import ListNotations.

Lemma made : forall p ok, 0 < workers p ok -> 0 < max_forks p.
Proof. intros p ok H. pose proof (forks_made_le ok (max_forks p) 0). unfold workers in H. lia. Qed.

Lemma up_inv : forall ltb st p ok act s, comes_up ltb st p ok act s ->
  Inv ltb st (max_forks p) act (workers p ok) s.
Proof. intros ltb st p ok act s (H & R). exact (inv_reaches _ _ _ _ (made p ok H) _ _ H R). Qed.

Lemma over_is_exit : forall ltb st p act s, over ltb st p act s -> exists c, par s = Exit c.
Proof.
  intros ltb st p act s O. destruct (par s) as [live stat pids|c] eqn:P; [|eauto].
  destruct (waiting_steps ltb st (max_forks p) act s live stat pids P) as (t & S). exfalso. exact (O t S).
Qed.

(** No run is started twice, and run [i] is started only by the worker whose turn it is. *)
Theorem C60_once : forall ltb st p ok act s, comes_up ltb st p ok act s ->
  NoDup (started (out s)) /\
  forall k i, In (Start k i) (out s) -> k < workers p ok /\ i mod max_forks p = k.
Proof.
  intros ltb st p ok act s H. pose proof (up_inv _ _ _ _ _ _ H) as I. split; [exact (inv_nodup _ _ _ _ _ _ I)|].
  intros k i E. destruct (inv_start _ _ _ _ _ _ I k i E) as (A & B & _). auto.
Qed.
Print Assumptions C60_once.

(** A result that is shown comes from a run that found a proof or answers. *)
Theorem C60_shown : forall ltb st p ok act s k i, comes_up ltb st p ok act s ->
  In (Shown k i) (out s) ->
  In (Start k i) (out s) /\ exists r a, act k i = Ran r a /\ (r = 0%Z \/ r = 1%Z /\ a = true).
Proof.
  intros ltb st p ok act s k i H E. exact (inv_shown _ _ _ _ _ _ (up_inv _ _ _ _ _ _ H) k i E).
Qed.
Print Assumptions C60_shown.

(** The program ends under every schedule, and leaves no worker behind.  Missing: a run may be ended by
    a signal, see [C60_crash_refuted]. *)
Theorem C60_ends_partial : forall ltb st p ok act s, calm act -> comes_up ltb st p ok act s ->
  (exists n, forall j t, steps ltb st p act j s t -> j <= n) /\
  (over ltb st p act s -> (exists c, par s = Exit c) /\ forall x, In x (kids s) -> x = Gone).
Proof.
  intros ltb st p ok act s C H. pose proof (up_inv _ _ _ _ _ _ H) as I. destruct H as (H & R). split.
  - pose proof (forks_made_le ok (max_forks p) 0) as L. fold (workers p ok) in L.
    pose proof (calm_reaches _ _ _ _ (made p ok H) _ _ H L C R) as CS.
    exists (total st (max_forks p) (kids s)). intros j t S. clear R.
    induction S as [s|n s t u S SS IH]; [lia|].
    destruct (calm_step _ _ _ _ (made p ok H) _ _ _ L C I CS S) as (CT & D).
    specialize (IH (inv_step _ _ _ _ (made p ok H) _ _ _ I S) CT). lia.
  - intros O. destruct (over_is_exit _ _ _ _ _ O) as (c & E). split; [eauto|].
    pose proof (inv_par _ _ _ _ _ _ I) as P. rewrite E in P. apply P.
Qed.
Print Assumptions C60_ends_partial.

(** In the mode in which a worker's exit status tells whether it found a proof (-strategytext LTBSPECIAL):
    a proof that a worker comes to is shown, and the program ends with status 0. Missing: the default mode,
    see [C60_killed_refuted], and workers that could not be made, see [C60_fork_refuted]. *)
Theorem C60_proof_partial : forall st p ok act s k i, plain st -> small_codes act ->
  comes_up true st p ok act s -> over true st p act s ->
  k < workers p ok -> finds st (max_forks p) act k i ->
  par s = Exit 0 /\ proof_shown act (out s).
Proof.
  intros st p ok act s k i P SC H O Hk F. pose proof (up_inv _ _ _ _ _ _ H) as I.
  destruct (over_is_exit _ _ _ _ _ O) as (c & E). pose proof (inv_par _ _ _ _ _ _ I) as Q. rewrite E in Q.
  destruct Q as (_ & [(-> & k' & Hk' & (j & res & e & B1 & B2 & B3 & B4 & B5))|(_ & _ & Q)]).
  - split; [exact E|]. destruct (exited0 true st (max_forks p) act (made p ok (proj1 H)) k' j res e eq_refl SC B3 B1 B4) as (a & A & S).
    exists k', j. split; [apply B5; exact S|exists a; exact A].
  - destruct (Q k Hk) as (w & D & N). exfalso. apply N. exact (finds_done _ _ _ _ (made p ok (proj1 H)) _ _ _ _ P F D).
Qed.
Print Assumptions C60_proof_partial.

(** In that mode the exit status tells, under every schedule and whatever the workers meet: 0 when a proof
    was shown, 1 when none was. *)
Theorem C60_status_partial : forall st p ok act s, small_codes act ->
  comes_up true st p ok act s -> over true st p act s ->
  (par s = Exit 0 /\ proof_shown act (out s)) \/
  (par s = Exit 1 /\ ~ proof_shown act (out s) /\ In NotFound (out s)).
Proof.
  intros st p ok act s SC H O. pose proof (up_inv _ _ _ _ _ _ H) as I.
  destruct (over_is_exit _ _ _ _ _ O) as (c & E). pose proof (inv_par _ _ _ _ _ _ I) as Q. rewrite E in Q.
  destruct Q as (_ & [(-> & k' & Hk' & (j & res & e & B1 & B2 & B3 & B4 & B5))|(-> & NF & Q)]).
  - left. split; [exact E|]. destruct (exited0 true st (max_forks p) act (made p ok (proj1 H)) k' j res e eq_refl SC B3 B1 B4) as (a & A & S).
    exists k', j. split; [apply B5; exact S|exists a; exact A].
  - right. split; [exact E|]. split; [|exact NF]. intros (k & i & S & (a & A)).
    destruct (inv_shown _ _ _ _ _ _ I k i S) as (S' & _).
    destruct (inv_start _ _ _ _ _ _ I k i S') as (Hk & M & Pr & _).
    destruct (Q k Hk) as (w & D & N). exact (done_no_proof _ _ _ _ (made p ok (proj1 H)) _ _ _ _ _ D N M A Pr).
Qed.
Print Assumptions C60_status_partial.

(** In that mode, when no run has a proof and all workers could be made, every run of the strategy is
    done before the program gives up. *)
Theorem C60_all_runs_partial : forall st p ok act s, plain st -> small_codes act ->
  workers p ok = max_forks p -> (forall k i, fruitless (act k i)) ->
  comes_up true st p ok act s -> over true st p act s ->
  par s = Exit 1 /\ In NotFound (out s) /\ forall i, i < length st -> In i (started (out s)).
Proof.
  intros st p ok act s P SC WM F H O. pose proof (up_inv _ _ _ _ _ _ H) as I.
  pose proof (made p ok (proj1 H)) as M.
  destruct (over_is_exit _ _ _ _ _ O) as (c & E). pose proof (inv_par _ _ _ _ _ _ I) as Q. rewrite E in Q.
  destruct Q as (_ & [(-> & k' & Hk' & (j & res & e & B1 & B2 & B3 & B4 & B5))|(-> & NF & Q)]).
  - destruct (exited0 true st (max_forks p) act (made p ok (proj1 H)) k' j res e eq_refl SC B3 B1 B4) as (a & A & _).
    destruct (F k' j) as (r & a' & A' & N). rewrite A in A'. injection A' as A' _. congruence.
  - split; [exact E|]. split; [exact NF|]. intros i Hi.
    assert (Hk : i mod max_forks p < workers p ok) by (rewrite WM; apply Nat.mod_upper_bound; lia).
    destruct (Q _ Hk) as (w & D & _). apply started_in. exists (i mod max_forks p).
    apply (done_all _ _ _ _ (made p ok (proj1 H)) _ _ _ P D); auto.
Qed.
Print Assumptions C60_all_runs_partial.

(** In the default mode less holds: the program goes on until some worker has shown a proof or has done all
    of its own runs.  Missing: the other workers' runs, see [C60_killed_refuted]. *)
Theorem C60_default_partial : forall st p ok act s, plain st ->
  (forall k i, fruitless (act k i) \/ proof (act k i)) ->
  comes_up false st p ok act s -> over false st p act s ->
  par s = Exit 0 /\ exists k, k < workers p ok /\
    ((exists i, In (Shown k i) (out s) /\ proof (act k i)) \/
     (In NotFound (out s) /\ forall i, i < length st -> i mod max_forks p = k -> In (Start k i) (out s))).
Proof.
  intros st p ok act s P F H O. pose proof (up_inv _ _ _ _ _ _ H) as I.
  assert (C : calm act).
  { intros k i X. destruct (F k i) as [(r & a & A & _)|(a & A)]; rewrite X in A; discriminate. }
  destruct (over_is_exit _ _ _ _ _ O) as (c & E). pose proof (inv_par _ _ _ _ _ _ I) as Q. rewrite E in Q.
  assert (G : exists k, k < workers p ok /\ c = 0 /\ exists w, done false st (max_forks p) act (out s) k w).
  { destruct Q as (_ & [(-> & k & Hk & D)|(-> & _ & Q)]).
    - exists k. split; [exact Hk|]. split; [reflexivity|]. exists (Exited 0). exact D.
    - exists 0. split; [exact (proj1 H)|]. split; [reflexivity|]. destruct (Q 0 (proj1 H)) as (w & D & _). eauto. }
  destruct G as (k & Hk & -> & w & D). split; [exact E|]. exists k. split; [exact Hk|].
  destruct D as (j & res & e & B1 & B2 & B3 & B4 & B5).
  destruct (F k j) as [(r & a & A & N)|(a & A)].
  - right. unfold turn_step in B4. rewrite B1, Nat.eqb_refl, A in B4. simpl in B4.
    destruct (Z.eqb_spec r 0) as [|Nz]; [contradiction|]. simpl in B4. rewrite (plain_result _ P) in B4.
    destruct (Nat.leb_spec (length st) (S j)) as [L|L]; [|discriminate]. unfold finish in B4.
    destruct (Z.eqb_spec r 0); [contradiction|]. injection B4 as B4 B6. subst e. split.
    + apply B5. right. apply in_or_app. right. left. reflexivity.
    + intros i Hi Ei. destruct (Nat.eq_dec i j) as [->|Nj]; [apply B5; left; reflexivity|].
      assert (Lj : i < j) by lia. destruct (B2 i Lj Ei) as (_ & _ & _ & _ & _ & Q1). exact Q1.
  - left. exists j. split; [|exists a; exact A]. apply B5.
    unfold turn_step in B4. rewrite B1, Nat.eqb_refl, A in B4. simpl in B4. injection B4 as _ B4. subst e.
    right. left. reflexivity.
Qed.
Print Assumptions C60_default_partial.

(** With no workers (-parallel 0 or 1, or the first fork fails) the runs are done in order up to the first
    proof, which is shown; the program ends. *)
Theorem C60_alone_proof : forall ltb st p ok act i, plain st -> workers p ok = 0 ->
  i < length st -> proof (act 0 i) -> (forall j, j < i -> fruitless (act 0 j)) ->
  (exists out w, alone_run ltb st p ok act out w) /\
  forall out w, alone_run ltb st p ok act out w ->
    w = Exited 0 /\ started out = seq 0 (S i) /\ In (Shown 0 i) out /\ ~ In NotFound out.
Proof.
  intros ltb st p ok act i P W0 Hi (a & A) F.
  destruct (alone_fruitless ltb st (max_forks p) act i 0 1 P) as (e & r & B1 & B2 & B3 & B4 & _);
    [intros j Hj; apply F; lia|exact Hi|].
  assert (T : turn_step ltb st (max_forks p) act false 0 (0 + i) r = (Ended (Exited 0), [Start 0 i; Shown 0 i])).
  { unfold turn_step. simpl. rewrite A. reflexivity. }
  pose proof (alone_app _ _ _ _ _ _ _ _ _ B1 (alone_turn _ _ _ _ _ _ _ _ _ _ T (alone_end _ _ _ _ _))) as R.
  simpl in R. split; [exists (e ++ [Start 0 i; Shown 0 i]), (Exited 0); split; [exact W0|exact R]|].
  intros out w (_ & R').
  destruct (alone_det _ _ _ _ _ _ _ _ _ R' R ltac:(eauto) ltac:(eauto)) as (-> & E).
  injection E as ->. split; [reflexivity|]. split; [|split].
  - rewrite starts_app, B2. replace (S i) with (i + 1) by lia. rewrite seq_app. reflexivity.
  - apply in_or_app. right. right. left. reflexivity.
  - intros X. apply in_app_or in X. destruct X as [X|[X|[X|[]]]]; [exact (B3 X)|discriminate|discriminate].
Qed.
Print Assumptions C60_alone_proof.

(** With no workers and no proof in any run, all runs are done, in order, and "proof not found" is said at
    the end and nowhere before. *)
Theorem C60_alone_none : forall ltb st p ok act, plain st -> workers p ok = 0 -> 0 < length st ->
  (forall i, i < length st -> fruitless (act 0 i)) ->
  (exists out w, alone_run ltb st p ok act out w) /\
  forall out w, alone_run ltb st p ok act out w ->
    started out = seq 0 (length st) /\ ~ proof_shown act out /\
    exists l, out = l ++ [NotFound] /\ ~ In NotFound l.
Proof.
  intros ltb st p ok act P W0 Hl F.
  destruct (alone_fruitless ltb st (max_forks p) act (length st - 1) 0 1 P) as (e & r & B1 & B2 & B3 & B4 & _);
    [intros j Hj; apply F; lia|lia|]. simpl in B1.
  destruct (F (length st - 1) ltac:(lia)) as (r' & a & A & N).
  set (sh := if (r' =? 0)%Z || (r' =? 1)%Z && a then [Shown 0 (length st - 1)] else []).
  assert (T : turn_step ltb st (max_forks p) act false 0 (length st - 1) r =
    (Ended (Exited (if ltb then low8 r' else 0)), Start 0 (length st - 1) :: sh ++ [NotFound])).
  { unfold turn_step. simpl. rewrite A. fold sh. unfold finish. destruct (Z.eqb_spec r' 0); [contradiction|].
    rewrite (plain_result _ P). destruct (Nat.leb_spec (length st) (S (length st - 1))); [|lia]. reflexivity. }
  pose proof (alone_app _ _ _ _ _ _ _ _ _ B1 (alone_turn _ _ _ _ _ _ _ _ _ _ T (alone_end _ _ _ _ _))) as R.
  rewrite app_nil_r in R.
  split; [eexists; eexists; split; [exact W0|exact R]|]. intros out w (_ & R').
  destruct (alone_det _ _ _ _ _ _ _ _ _ R' R ltac:(eauto) ltac:(eauto)) as (-> & E).
  assert (SH : sh = nil \/ sh = [Shown 0 (length st - 1)])
    by (unfold sh; destruct ((r' =? 0)%Z || (r' =? 1)%Z && a); auto).
  split; [|split].
  - rewrite starts_app, B2.
    replace (started (Start 0 (length st - 1) :: sh ++ [NotFound])) with [length st - 1]
      by (destruct SH as [->| ->]; reflexivity).
    replace (length st) with (length st - 1 + 1) at 3 by lia. rewrite seq_app. reflexivity.
  - intros (k & j & S & (a' & A')). apply in_app_or in S. destruct S as [S|[S|S]].
    + destruct (B4 k j S) as (r0 & a0 & A0 & N0). rewrite A' in A0. injection A0 as A0 _. congruence.
    + discriminate.
    + apply in_app_or in S. destruct S as [S|[S|[]]]; [|discriminate].
      destruct SH as [SH|SH]; rewrite SH in S; [contradiction|]. destruct S as [S|[]].
      injection S as <- <-. rewrite A in A'. injection A' as A' _. congruence.
  - exists (e ++ Start 0 (length st - 1) :: sh). split; [rewrite <- app_assoc; reflexivity|].
    intros X. apply in_app_or in X. destruct X as [X|[X|X]]; [exact (B3 X)|discriminate|].
    destruct SH as [SH|SH]; rewrite SH in X; [contradiction|]. destruct X as [X|[]]. discriminate.
Qed.
Print Assumptions C60_alone_none.

(** ** Cases in which the full statement is false of the code *)

Definition always : nat -> bool := fun _ => true.
Definition nothing : turn := Ran 1 false.

(** Four runs, two workers; the third run, done by worker 0, has the proof.  In the default mode worker 1,
    done with the second and fourth runs, ends with exit status 0, as if it had found a proof, and worker 0 is killed. *)
Definition act_killed (k i : nat) : turn := if Nat.eqb i 2 then Ran 0 false else nothing.

Theorem C60_killed_refuted : exists s, comes_up false [false; false; false; false] 2 always act_killed s /\
  over false [false; false; false; false] 2 act_killed s /\
  finds [false; false; false; false] (max_forks 2) act_killed 0 2 /\
  par s = Exit 0 /\ ~ result_shown (out s).
Proof.
  destruct (exec false [false; false; false; false] 2 act_killed [K 1; K 1; K 1; K 1; K 0; W 1] (forked 2)) as [s|] eqn:E;
    [|vm_compute in E; discriminate].
  exists s. split; [split; [apply Nat.ltb_lt; reflexivity|exact (exec_reaches _ _ _ _ _ _ _ E)]|].
  vm_compute in E. injection E as <-. split; [apply over_exit with (c := 0); reflexivity|].
  split; [|split; [reflexivity|]].
  - split; [simpl; lia|]. split; [reflexivity|]. split; [exists false; reflexivity|].
    intros j Hj _. exists 1%Z, false. split; [|discriminate].
    destruct j as [|[|j]]; [reflexivity|reflexivity|lia].
  - intros (k & i & H). simpl in H. repeat (destruct H as [H|H]; [discriminate|]). contradiction.
Qed.
Print Assumptions C60_killed_refuted.

(** When the workers are ended by a signal (a crash, or the kernel out of memory) the parent never ends. *)
Theorem C60_crash_refuted : forall ltb, exists s,
  comes_up ltb [false; false] 2 always (fun _ _ => Crash) s /\
  (forall x, In x (kids s) -> x = Gone) /\
  forall t, reaches ltb [false; false] (max_forks 2) (fun _ _ => Crash) s t -> par t = par s /\ forall c, par t <> Exit c.
Proof.
  intros ltb. set (s := System [Gone; Gone] (Waiting 2 (Some Signaled) [true; true]) [Start 0 0; Start 1 1]).
  exists s. split; [|split].
  - split; [apply Nat.ltb_lt; reflexivity|].
    apply exec_reaches with (l := [K 0; K 1; K 1; W 0; W 1]). destruct ltb; reflexivity.
  - intros x [<-|[<-|[]]]; reflexivity.
  - intros t R. remember s as s0 eqn:E0.
    assert (X : t = s).
    { induction R as [u|u v w R IH S].
      - exact E0.
      - specialize (IH E0). subst v. clear R E0.
        remember s as v eqn:Ev.
        destruct S as [v k i res x e Kd T|v k w live stat pids W Kd|v live stat pids W _]; subst v.
        + simpl in Kd. destruct k as [|[|[|k]]]; discriminate.
        + simpl in Kd. destruct k as [|[|[|k]]]; discriminate.
        + simpl in W. injection W as <- <- <-. reflexivity. }
    subst t s0. split; [reflexivity|]. intros c X. discriminate.
Qed.
Print Assumptions C60_crash_refuted.

(** When the second of two workers cannot be made, its runs are done by nobody. *)
Definition act_second (k i : nat) : turn := if Nat.eqb i 1 then Ran 0 false else nothing.

Theorem C60_fork_refuted : forall ltb, exists s,
  comes_up ltb [false; false; false] 2 (fun k => Nat.eqb k 0) act_second s /\
  over ltb [false; false; false] 2 act_second s /\ (forall k, proof (act_second k 1)) /\
  started (out s) = [0; 2] /\ ~ result_shown (out s).
Proof.
  intros ltb.
  destruct (exec ltb [false; false; false] 2 act_second [K 0; K 0; K 0; W 0] (forked 1)) as [s|] eqn:E;
    [|destruct ltb; vm_compute in E; discriminate].
  exists s. split; [split; [apply Nat.ltb_lt; reflexivity|exact (exec_reaches _ _ _ _ _ _ _ E)]|].
  destruct ltb; vm_compute in E; injection E as <-; (split; [eapply over_exit; reflexivity|]);
    (split; [intros k; exists false; reflexivity|]); (split; [reflexivity|]);
    intros (k & i & H); simpl in H; repeat (destruct H as [H|H]; [discriminate|]); contradiction.
Qed.
Print Assumptions C60_fork_refuted.

(** Two workers may both show a proof. *)
Theorem C60_two_refuted : forall ltb, exists s,
  comes_up ltb [false; false] 2 always (fun _ _ => Ran 0 false) s /\ par s = Exit 0 /\
  In (Shown 0 0) (out s) /\ In (Shown 1 1) (out s).
Proof.
  intros ltb.
  destruct (exec ltb [false; false] 2 (fun _ _ => Ran 0 false) [K 0; K 1; K 1; W 0] (forked 2)) as [s|] eqn:E;
    [|destruct ltb; vm_compute in E; discriminate].
  exists s. split; [split; [apply Nat.ltb_lt; reflexivity|exact (exec_reaches _ _ _ _ _ _ _ E)]|].
  destruct ltb; vm_compute in E; injection E as <-; simpl; auto 10.
Qed.
Print Assumptions C60_two_refuted.

(** A strategy of one run makes the second worker do a run that is not in the strategy. *)
Theorem C60_extra_refuted : forall ltb, exists s,
  comes_up ltb [false] 2 always (fun _ _ => nothing) s /\ In (Start 1 1) (out s).
Proof.
  intros ltb.
  destruct (exec ltb [false] 2 (fun _ _ => nothing) [K 1; K 1] (forked 2)) as [s|] eqn:E;
    [|destruct ltb; vm_compute in E; discriminate].
  exists s. split; [split; [apply Nat.ltb_lt; reflexivity|exact (exec_reaches _ _ _ _ _ _ _ E)]|].
  destruct ltb; vm_compute in E; injection E as <-; simpl; auto.
Qed.
Print Assumptions C60_extra_refuted.

(** A run that is an array, at place ten of the list or later, ends the list: later runs are not done. *)
Definition act_late (k i : nat) : turn := if Nat.eqb i 10 then Ran 0 false else nothing.
Definition with_array : strategy := repeat false 9 ++ [true; false].

Theorem C60_array_refuted : forall ltb, exists out w,
  alone_run ltb with_array 0 always act_late out w /\
  (forall i, i < 10 -> fruitless (act_late 0 i)) /\ proof (act_late 0 10) /\ 10 < length with_array /\
  started out = seq 0 10 /\ ~ result_shown out.
Proof.
  intros ltb. eexists. exists (Exited (if ltb then 1 else 0)).
  split; [|split; [|split; [|split]]].
  - split; [reflexivity|].
    do 10 (eapply alone_turn; [reflexivity|]). destruct ltb; apply alone_end.
  - intros i Hi. exists 1%Z, false. split; [|discriminate]. unfold act_late.
    destruct (Nat.eqb_spec i 10); [lia|reflexivity].
  - exists false. reflexivity.
  - apply Nat.ltb_lt. reflexivity.
  - split; [reflexivity|]. intros (k & i & H). simpl in H.
    repeat (destruct H as [H|H]; [discriminate|]). contradiction.
Qed.
Print Assumptions C60_array_refuted.

(** A search that runs out of clauses with fewer answers than were asked for shows the answers and then says
    that no proof was found. *)
Theorem C60_answers_refuted : forall ltb, exists w,
  alone_run ltb [false] 0 always (fun _ _ => Ran 1 true) [Start 0 0; Shown 0 0; NotFound] w.
Proof.
  intros ltb. exists (Exited (if ltb then 1 else 0)). split; [reflexivity|].
  apply (alone_turn ltb [false] 0 (fun _ _ => Ran 1 true) 0 1 (Ended (Exited (if ltb then 1 else 0))) [Start 0 0; Shown 0 0; NotFound] _ nil).
  - destruct ltb; reflexivity.
  - apply alone_end.
Qed.
Print Assumptions C60_answers_refuted.

(** ** The hypotheses can be met *)

(** Five runs, three workers, the proof in the last run (worker 1), run 3 runs out of memory (-1). *)
Definition five : strategy := repeat false 5.
Definition act_five (k i : nat) : turn :=
  match i with 4 => Ran 0 false | 3 => Ran (-1) false | 2 => Ran 2 false | _ => nothing end.

Example C60_five : plain five /\ small_codes act_five /\ calm act_five /\ 1 < workers 3 always /\
  workers 3 always = max_forks 3 /\ finds five (max_forks 3) act_five 1 4.
Proof.
  split; [unfold plain, five; simpl; auto 10|].
  split; [intros k i r a H; unfold act_five, nothing in H; do 5 (destruct i as [|i]; [injection H as <- _; lia|]); injection H as <- _; lia|].
  split; [intros k i; unfold act_five, nothing; do 5 (destruct i as [|i]; [discriminate|]); discriminate|].
  split; [apply Nat.ltb_lt; reflexivity|]. split; [reflexivity|].
  split; [apply Nat.ltb_lt; reflexivity|]. split; [reflexivity|]. split; [exists false; reflexivity|].
  intros j Hj _. do 4 (destruct j as [|j]; [eexists; eexists; split; [reflexivity|discriminate]|]). lia.
Qed.

(** One of its schedules: workers 0 and 2 end first and are waited for, then worker 1 shows the proof. *)
Example C60_five_runs : exists s, comes_up true five 3 always act_five s /\ over true five 3 act_five s /\
  par s = Exit 0 /\ out s = [Start 0 0; Start 2 2; Start 1 1; Start 0 3; Start 2 5; NotFound; Start 0 6; NotFound; Start 1 4; Shown 1 4].
Proof.
  destruct (exec true five 3 act_five
    [K 0; K 2; K 2; K 2; K 1; K 1; K 0; K 0; K 0; K 2; K 2; K 2; W 2; K 0; K 0; K 0; W 0; K 1; K 1; K 1; W 1] (forked 3)) as [s|] eqn:E;
    [|vm_compute in E; discriminate].
  exists s. split; [split; [apply Nat.ltb_lt; reflexivity|exact (exec_reaches _ _ _ _ _ _ _ E)]|].
  vm_compute in E. injection E as <-. split; [apply over_exit with (c := 0); reflexivity|]. split; reflexivity.
Qed.
