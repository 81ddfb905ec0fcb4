(** C61: fields read and changed by several processes at once, without a write lock. *)
From Coq Require Import List ZArith Lia Bool.
From Verif Require Import Word64 EncModel AtModel AtSpec AtProof.
Import ListNotations.
Open Scope Z_scope.

(** Whatever the interleaving, the values returned and the fields left are those of doing the calls that have
    returned at once, one after another in the order they returned: when no field holds, and no call stores, an
    integer near 2^31 ([tame]), with sums refused outside 29 bits. *)
Theorem C61_one_by_one_partial : forall indexed m programs s,
  tame m programs -> reaches indexed (start m programs) s ->
  one_by_one indexed short m (log s) (mem s).
Proof.
  intros indexed m programs s T R. exact (proj2 (proj2 (reaches_ok indexed m programs s T R))).
Qed.

(** The calls of each process return in the order of its program. *)
Theorem C61_order : forall indexed m programs s k program,
  reaches indexed (start m programs) s -> nth_error programs k = Some program ->
  exists rest, program = of_process k (log s) ++ rest.
Proof.
  intros indexed m programs s k program R K.
  destruct (nth_error (procs s) k) as [p|] eqn:P.
  - pose proof (reaches_order indexed m programs s R k p P) as Q. exists (pending p). congruence.
  - exfalso. apply nth_error_None in P. rewrite (procs_length indexed m programs s R) in P. apply nth_error_None in P. congruence.
Qed.

(** A counter: when the calls on a field only read it or add to it, it holds the start value plus all the numbers
    whose addition returned 0, and no addition is lost. *)
Theorem C61_counter_partial : forall indexed m programs s f v,
  tame m programs -> m f = int_word v ->
  (forall program c, In program programs -> In c program -> field_of c = f ->
     match c with Get _ | Add _ _ => True | _ => False end) ->
  reaches indexed (start m programs) s ->
  mem s f = int_word (v + added f (log s)).
Proof.
  intros indexed m programs s f v T E H R.
  apply (counter indexed m (log s) (mem s) f v (C61_one_by_one_partial indexed m programs s T R) E).
  intros k c r I FC.
  destruct (log_program indexed m programs s R k c r I) as (program & IP & IC).
  exact (H program c IP IC FC).
Qed.

(** A call that is not a plain read gives up only after other processes changed its field 1002 times. *)
Theorem C61_tries : forall indexed m programs s l k c l',
  reaches indexed (start m programs) s -> log s = l ++ (k, c, -17) :: l' -> (forall f, c <> Get f) ->
  (1002 <= changes k (field_of c) l)%nat.
Proof.
  intros indexed m programs s l k c l' R E NG.
  exact (proj2 (tries_reaches indexed m programs s R) l k c l' E NG).
Qed.

(** All calls return: no run is longer than 3000 steps for each call, and when no process can go on, every call of
    every program has returned. *)
Theorem C61_ends : forall indexed m programs,
  (forall n s, steps indexed n (start m programs) s ->
     Z.of_nat n <= 3000 * Z.of_nat (length (concat programs))) /\
  (forall s k program, reaches indexed (start m programs) s -> (forall t, ~ step indexed s t) ->
     nth_error programs k = Some program -> of_process k (log s) = program).
Proof.
  intros indexed m programs. split.
  - intros n s H. pose proof (steps_bound indexed n _ _ H) as B. rewrite total_start in B. exact B.
  - exact (stuck_done indexed m programs).
Qed.

(** An addition to a field that holds a larger integer returns 0 and destroys it: the sum is kept in 32 bits. *)
Theorem C61_wrap_refuted : forall indexed, indexed 0%nat = false ->
  ~ forall m programs s,
      (forall f, is_int (m f) -> exists v, m f = int_word v /\ small v) ->
      reaches indexed (start m programs) s -> one_by_one indexed small m (log s) (mem s).
Proof.
  intros indexed I H.
  set (m := fun _ : nat => int_word (2 ^ 32)).
  assert (R : reaches indexed (start m [[Add 0 1]])
    (System (write m 0 (int_word 1)) [Process nil Between] [(0%nat, Add 0 1, 0)])).
  { apply reaches_step with (t := System m [Process nil (Swap (Add 0 1) 0 0 (int_word (2 ^ 32)) (int_word 1))] nil).
    - apply reaches_step with (t := System m [Process nil (Round (Add 0 1) 0)] nil).
      + apply reaches_step with (t := start m [[Add 0 1]]); [constructor|].
        apply (step_move indexed (start m [[Add 0 1]]) 0 (Process [Add 0 1] Between) m (Process nil (Round (Add 0 1) 0)) None);
          reflexivity.
      + apply (step_move indexed (System m [Process nil (Round (Add 0 1) 0)] nil) 0 (Process nil (Round (Add 0 1) 0)) m
          (Process nil (Swap (Add 0 1) 0 0 (int_word (2 ^ 32)) (int_word 1))) None); [reflexivity|].
        unfold move, update_tests. simpl. rewrite I. reflexivity.
    - apply (step_move indexed (System m [Process nil (Swap (Add 0 1) 0 0 (int_word (2 ^ 32)) (int_word 1))] nil) 0
          (Process nil (Swap (Add 0 1) 0 0 (int_word (2 ^ 32)) (int_word 1))) (write m 0 (int_word 1)) (Process nil Between)
          (Some (Add 0 1, 0))); reflexivity. }
  assert (IN : forall f, is_int (m f) -> exists v, m f = int_word v /\ small v).
  { intros f _. exists (2 ^ 32). split; [reflexivity|]. unfold small. lia. }
  specialize (H m _ _ IN R). simpl in H.
  inversion H as [|l m1 k c r m2 O D E1 E2].
  change [(0%nat, Add 0 1, 0)] with (nil ++ [(0%nat, Add 0 1, 0)]) in E1. apply app_inj_tail in E1.
  destruct E1 as (-> & E1). injection E1 as -> -> ->. inversion O; subst.
  - inversion D; subst.
    match goal with X : m 0%nat = int_word ?w |- _ => apply int_word_inj in X; subst w end.
    match goal with X : stored _ _ _ _ |- _ => destruct X as (X & _) end.
    discriminate.
  - destruct l; discriminate.
Qed.

(** An addition whose sum is an integer that fields store inline is refused, already in a run of one call. *)
Theorem C61_range_refuted : forall indexed,
  ~ forall m programs s, tame m programs ->
      reaches indexed (start m programs) s -> one_by_one indexed small m (log s) (mem s).
Proof.
  intros indexed H.
  set (m := fun _ : nat => int_word (2 ^ 28 - 1)).
  assert (R : reaches indexed (start m [[Add 0 1]]) (System m [Process nil Between] [(0%nat, Add 0 1, -16)])).
  { apply reaches_step with (t := System m [Process nil (Round (Add 0 1) 0)] nil).
    - apply reaches_step with (t := start m [[Add 0 1]]); [constructor|].
      apply (step_move indexed (start m [[Add 0 1]]) 0 (Process [Add 0 1] Between) m (Process nil (Round (Add 0 1) 0)) None);
        reflexivity.
    - apply (step_move indexed (System m [Process nil (Round (Add 0 1) 0)] nil) 0 (Process nil (Round (Add 0 1) 0)) m
        (Process nil Between) (Some (Add 0 1, -16))); reflexivity. }
  assert (T : tame m [[Add 0 1]]).
  { split; [intros f v E; unfold m in E; apply int_word_inj in E; lia|].
    constructor; [|constructor]. constructor; [|constructor]. simpl. lia. }
  specialize (H m _ _ T R). simpl in H.
  inversion H as [|l m1 k c r m2 O D E1 E2].
  change [(0%nat, Add 0 1, -16)] with (nil ++ [(0%nat, Add 0 1, -16)]) in E1. apply app_inj_tail in E1.
  destruct E1 as (-> & E1). injection E1 as -> -> ->. inversion O; subst.
  - inversion D; subst.
    match goal with X : m 0%nat = int_word ?w |- _ => apply int_word_inj in X; subst w end.
    match goal with X : ~ small _ |- _ => apply X end. unfold small. lia.
  - destruct l; discriminate.
Qed.

(** Two processes add 1 and 10 to a field holding 5; the second reads before the first writes, and tries again. *)
Definition m5 : memory := fun _ => int_word 5.
Definition two : list (list call) := [[Add 0 1; Get 0]; [Add 0 10]].
Example two_tame : tame m5 two.
Proof.
  split; [intros f v E; unfold m5 in E; apply int_word_inj in E; lia|].
  constructor; [|constructor; [|constructor]]; repeat (constructor; try (simpl; lia)).
Qed.
Example two_run : exists s, reaches (fun _ => false) (start m5 two) s /\
  log s = [(0%nat, Add 0 1, 0); (1%nat, Add 0 10, 0); (0%nat, Get 0, int_word 16)] /\
  mem s 0%nat = int_word 16 /\ forall t, ~ step (fun _ => false) s t.
Proof.
  set (i := fun _ : nat => false).
  assert (STEP : forall s t k, reaches i (start m5 two) s ->
    match nth_error (procs s) k with
    | Some p => match move i (mem s) p with
                | Some (m', p', e) => t = System m' (set_nth k p' (procs s))
                    (log s ++ match e with Some (c, r) => [(k, c, r)] | None => nil end)
                | None => False end
    | None => False end -> reaches i (start m5 two) t).
  { intros s t k R X. destruct (nth_error (procs s) k) as [p|] eqn:E; [|contradiction].
    destruct (move i (mem s) p) as [[[m' p'] e]|] eqn:M; [|contradiction]. subst t.
    apply reaches_step with (t := s); [exact R|]. exact (step_move i s k p m' p' e E M). }
  assert (R0 : reaches i (start m5 two) (start m5 two)) by constructor.
  (* both begin; both read; 0 swaps; 1 fails, reads again and swaps; 0 reads *)
  eassert (R1 : reaches i (start m5 two) _) by (apply (STEP _ _ 0%nat R0); vm_compute; reflexivity). clear R0.
  eassert (R2 : reaches i (start m5 two) _) by (apply (STEP _ _ 1%nat R1); vm_compute; reflexivity). clear R1.
  eassert (R3 : reaches i (start m5 two) _) by (apply (STEP _ _ 0%nat R2); vm_compute; reflexivity). clear R2.
  eassert (R4 : reaches i (start m5 two) _) by (apply (STEP _ _ 1%nat R3); vm_compute; reflexivity). clear R3.
  eassert (R5 : reaches i (start m5 two) _) by (apply (STEP _ _ 0%nat R4); vm_compute; reflexivity). clear R4.
  eassert (R6 : reaches i (start m5 two) _) by (apply (STEP _ _ 1%nat R5); vm_compute; reflexivity). clear R5.
  eassert (R7 : reaches i (start m5 two) _) by (apply (STEP _ _ 1%nat R6); vm_compute; reflexivity). clear R6.
  eassert (R8 : reaches i (start m5 two) _) by (apply (STEP _ _ 1%nat R7); vm_compute; reflexivity). clear R7.
  eassert (R9 : reaches i (start m5 two) _) by (apply (STEP _ _ 0%nat R8); vm_compute; reflexivity). clear R8.
  eexists. split; [exact R9|]. split; [reflexivity|]. split; [reflexivity|].
  intros t S. inversion S as [s k p m' p' e K M]; subst. simpl in K.
  destruct k as [|[|k]]; simpl in K; [injection K as <-; discriminate|injection K as <-; discriminate|].
  destruct k; discriminate.
Qed.

(** A process that always meets a change gives up: the other one changes the field between each of its reads and
    the swap that follows. *)
Definition bumps (i n : nat) : list call :=
  map (fun j => Update 0 (int_word (Z.of_nat j + 1)) (int_word (Z.of_nat j))) (seq i n).
Definition m0 : memory := fun _ => int_word 0.
Definition starving : list (list call) := [[Set_ 0 (int_word 7)]; bumps 0 1002].
Example starving_tame : tame m0 starving.
Proof.
  split; [intros f v E; unfold m0 in E; apply int_word_inj in E; lia|].
  constructor; [constructor; [intros v E; apply int_word_inj in E; lia|constructor]|]. constructor; [|constructor].
  apply Forall_forall. intros c I. unfold bumps in I. apply in_map_iff in I. destruct I as (j & <- & I).
  apply in_seq in I. intros v E. apply int_word_inj in E. lia.
Qed.
Lemma tests_int : forall a b, update_tests (fun _ => false) 0 (int_word a) (int_word b) = None.
Proof.
  intros a b. unfold update_tests.
  rewrite (proj2 (imm_iff _) (int_word_imm a)), (proj2 (imm_iff _) (int_word_imm b)). reflexivity.
Qed.
Lemma starve : forall n i m l, (i + n = 1002)%nat -> (1 <= n)%nat -> m 0%nat = int_word (Z.of_nat i) ->
  forall s0, reaches (fun _ => false) s0
    (System m [Process nil (Round (Set_ 0 (int_word 7)) i); Process (bumps i n) Between] l) ->
  exists s l', reaches (fun _ => false) s0 s /\ log s = l' ++ [(0%nat, Set_ 0 (int_word 7), -17)].
Proof.
  set (c := Set_ 0 (int_word 7)). set (ix := fun _ : nat => false).
  induction n as [|n IH]; intros i m l E N MI s0 R; [lia|]. clear N.
  (* the read *)
  assert (R1 : reaches ix s0
    (System m [Process nil (Swap c i 0 (int_word (Z.of_nat i)) (int_word 7)); Process (bumps i (S n)) Between] l)).
  { eapply reaches_step; [exact R|].
    pose proof (step_move ix (System m [Process nil (Round c i); Process (bumps i (S n)) Between] l) 0
      (Process nil (Round c i)) m (Process nil (Swap c i 0 (int_word (Z.of_nat i)) (int_word 7))) None eq_refl) as ST.
    simpl in ST. rewrite app_nil_r in ST. apply ST. unfold move. cbn [at_ todo c]. rewrite MI.
    unfold ix. rewrite tests_int. reflexivity. }
  (* the change by the other process *)
  set (m' := write m 0 (int_word (Z.of_nat i + 1))).
  assert (R2 : reaches ix s0
    (System m' [Process nil (Swap c i 0 (int_word (Z.of_nat i)) (int_word 7)); Process (bumps (S i) n) Between]
       (l ++ [(1%nat, Update 0 (int_word (Z.of_nat i + 1)) (int_word (Z.of_nat i)), 0)]))).
  { eapply reaches_step; [exact R1|].
    apply (step_move ix (System m [Process nil (Swap c i 0 (int_word (Z.of_nat i)) (int_word 7)); Process (bumps i (S n)) Between] l) 1
      (Process (bumps i (S n)) Between) m' (Process (bumps (S i) n) Between)
      (Some (Update 0 (int_word (Z.of_nat i + 1)) (int_word (Z.of_nat i)), 0)) eq_refl).
    unfold bumps. cbn [seq map]. unfold move. cbn [at_ todo mem]. unfold ix. rewrite tests_int, MI, Z.eqb_refl. reflexivity. }
  assert (M' : m' 0%nat = int_word (Z.of_nat (S i))) by (unfold m', write; simpl; f_equal; lia).
  assert (NE : (m' 0%nat =? int_word (Z.of_nat i)) = false).
  { apply Z.eqb_neq. rewrite M'. intros X. apply int_word_inj in X. lia. }
  destruct (Nat.eq_dec n 0) as [->|NZ].
  - eexists. eexists. split.
    + eapply reaches_step; [exact R2|].
      eapply (step_move ix _ 0 (Process nil (Swap c i 0 (int_word (Z.of_nat i)) (int_word 7))) m' (Process nil Between)
        (Some (c, -17))); [reflexivity|].
      unfold move. cbn [at_ todo mem]. rewrite NE. replace (Nat.ltb 1000 i) with true; [reflexivity|].
      symmetry. apply Nat.ltb_lt. lia.
    + reflexivity.
  - apply (IH (S i) m' (l ++ [(1%nat, Update 0 (int_word (Z.of_nat i + 1)) (int_word (Z.of_nat i)), 0)]));
      [lia|lia|exact M'|].
    eapply reaches_step; [exact R2|].
    pose proof (step_move ix (System m' [Process nil (Swap c i 0 (int_word (Z.of_nat i)) (int_word 7)); Process (bumps (S i) n) Between]
       (l ++ [(1%nat, Update 0 (int_word (Z.of_nat i + 1)) (int_word (Z.of_nat i)), 0)])) 0
      (Process nil (Swap c i 0 (int_word (Z.of_nat i)) (int_word 7))) m' (Process nil (Round c (S i))) None eq_refl) as ST.
    cbn [log procs set_nth] in ST. rewrite app_nil_r in ST. apply ST.
    unfold move. cbn [at_ todo mem]. rewrite NE. replace (Nat.ltb 1000 i) with false; [reflexivity|].
    symmetry. apply Nat.ltb_ge. lia.
Qed.
Example starving_gives_up : exists s l', reaches (fun _ => false) (start m0 starving) s /\
  log s = l' ++ [(0%nat, Set_ 0 (int_word 7), -17)].
Proof.
  apply (starve 1002 0 m0 nil); [reflexivity|lia|reflexivity|].
  apply reaches_step with (t := start m0 starving); [constructor|].
  exact (step_move (fun _ => false) (start m0 starving) 0 (Process [Set_ 0 (int_word 7)] Between) m0
    (Process nil (Round (Set_ 0 (int_word 7)) 0)) None eq_refl eq_refl).
Qed.

Print Assumptions C61_one_by_one_partial.
Print Assumptions C61_order.
Print Assumptions C61_counter_partial.
Print Assumptions C61_tries.
Print Assumptions C61_ends.
Print Assumptions C61_wrap_refuted.
Print Assumptions C61_range_refuted.
