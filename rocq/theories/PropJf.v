(** C75: what is logged by any process is in the journal, and backups are not touched. *)
From Coq Require Import ZArith Lia List Bool Arith.
From Verif Require Import JfModel.
Import ListNotations.
Open Scope Z_scope.

(** ** Specification: the log as the user sees it *)
Record view := mkV { von : bool; vdirty : bool; vstarted : bool; vlog : list Z }.
Definition restart (v : view) : view := mkV true false true [].
Definition vstep (v : view) (o : op) : view :=
  match o with
  | Start _ => if von v then v else if vdirty v then mkV true true (vstarted v) (vlog v) else restart v
  | Stop => mkV false (vdirty v) (vstarted v) (vlog v)
  | Log _ buf _ => if von v then mkV true true (vstarted v) (vlog v ++ buf) else v
  | Dump _ => if von v then restart v else v
  | Replay _ => if von v then restart v else mkV false false (vstarted v) (vlog v)
  | Import _ _ => if von v then restart v else mkV false false (vstarted v) (vlog v)
  end.
Definition no_import (o : op) : Prop := match o with Import _ _ => False | _ => True end.
Definition run (s : st) (ops : list op) : st := fold_left step ops s.
Definition view_of (ops : list op) : view := fold_left vstep ops (mkV false false false []).
(** The bytes in the journal, and in a backup *)
Definition journal_bytes (s : st) : option (list Z) := option_map (data s) (jr s).
Definition backup_bytes (s : st) (b : nat) : option (list Z) := option_map (data s) (bk s b).

(** ** Invariant *)
Record Inv (s : st) (v : view) : Prop := {
  vA : active s = von v; vD : dirty s = vdirty v;
  vS : von v = true \/ vdirty v = true -> vstarted v = true;
  vC : vstarted v = true -> exists i, jr s = Some i /\ data s i = MAGIC ++ vlog v;
  vH : forall p i k, hnd s p = Some (i, k) -> k <= serial s /\ (k = serial s -> jr s = Some i);
  vN : forall i, jr s = Some i -> (i < nexti s)%nat;
  vB : forall b i, bk s b = Some i -> (i < nexti s)%nat /\ jr s <> Some i
}.
Lemma upn_same {A} (f : nat -> A) k x : upn f k x k = x.
Proof. unfold upn. rewrite Nat.eqb_refl. reflexivity. Qed.
Lemma upn_other {A} (f : nat -> A) k x j : j <> k -> upn f k x j = f j.
Proof. intros N. unfold upn. destruct (Nat.eqb_spec j k); [contradiction|reflexivity]. Qed.
Lemma check_magic s i l : data s i = MAGIC ++ l -> check_journal s i = true.
Proof. intros E. unfold check_journal. rewrite E. cbn [MAGIC app firstn]. destruct (list_eq_dec Z.eq_dec _ _) as [_|N]; [reflexivity|destruct N; reflexivity]. Qed.

(** A clean start *)
Lemma start_clean s v tm : Inv s v -> active s = false -> dirty s = false -> Inv (start_logging s tm) (restart v).
Proof.
  intros I A D. unfold start_logging, create_journal. rewrite A, D. destruct (jr s) as [j|] eqn:Q.
  - cbn [backup_journal jr nexti bk data mtime active dirty serial hnd]. rewrite D. cbn [negb].
    constructor; cbn [set_flags set_data jr nexti bk data mtime active dirty serial hnd restart von vdirty vstarted vlog].
    + reflexivity.
    + reflexivity.
    + reflexivity.
    + intros _. exists (nexti s). split; [reflexivity|]. rewrite upn_same, app_nil_r. reflexivity.
    + intros p i k H. destruct (vH _ _ I p i k H) as [X _]. split; [lia|]. intros; lia.
    + intros i H. injection H as <-. lia.
    + intros b i H. unfold upn in H. destruct (Nat.eqb b (backup_index s)).
      * injection H as <-. pose proof (vN _ _ I j Q). split; [lia|]. intros X. injection X as X. lia.
      * destruct (vB _ _ I b i H) as [X _]. split; [lia|]. intros Y. injection Y as Y. lia.
  - rewrite Q. cbn [dirty]. rewrite D. cbn [negb].
    constructor; cbn [set_flags set_data jr nexti bk data mtime active dirty serial hnd restart von vdirty vstarted vlog].
    + reflexivity.
    + reflexivity.
    + reflexivity.
    + intros _. exists (nexti s). split; [reflexivity|]. rewrite upn_same, app_nil_r. reflexivity.
    + intros p i k H. destruct (vH _ _ I p i k H) as [X Y]. split; [exact X|]. intros Z1. specialize (Y Z1). rewrite Q in Y. discriminate.
    + intros i H. injection H as <-. lia.
    + intros b i H. destruct (vB _ _ I b i H) as [X _]. split; [lia|]. intros Y. injection Y as Y. lia.
Qed.
Lemma flags_inv s v a d : Inv s v -> (a = true \/ d = true -> vstarted v = true) -> Inv (set_flags s a d) (mkV a d (vstarted v) (vlog v)).
Proof.
  intros I P. destruct I. constructor; cbn [set_flags jr nexti bk data mtime active dirty serial hnd von vdirty vstarted vlog]; auto.
Qed.
Lemma step_inv s v o : Inv s v -> no_import o -> Inv (step s o) (vstep v o).
Proof.
  intros I N. destruct o as [tm| |p buf tm|tm|tm|k tm]; cbn [step vstep]; [| | | | |destruct N].
  - rewrite <- (vA _ _ I), <- (vD _ _ I). destruct (active s) eqn:A; [unfold start_logging; rewrite A; exact I|]. destruct (dirty s) eqn:D; [|apply start_clean; assumption].
    assert (S1 : vstarted v = true) by (apply (vS _ _ I); right; rewrite <- (vD _ _ I); exact D). destruct (vC _ _ I S1) as (j & J & Dj).
    unfold start_logging, create_journal. rewrite A, J, D, J, D. cbn [negb]. rewrite (check_magic _ _ _ Dj). apply flags_inv; [exact I|]. intros _. exact S1.
  - pose proof (vD _ _ I) as D. destruct (active s) eqn:A.
    + unfold stop_logging. rewrite D. apply flags_inv; [exact I|]. intros [X|X]; [discriminate|]. apply (vS _ _ I). right. exact X.
    + destruct v as [a d b l]. pose proof (vA _ _ I) as X. cbn in X. rewrite A in X. subst a. exact I.
  - rewrite <- (vA _ _ I). destruct (active s) eqn:A; [|exact I].
    assert (S1 : vstarted v = true) by (apply (vS _ _ I); left; rewrite <- (vA _ _ I); exact A). destruct (vC _ _ I S1) as (j & J & Dj).
    unfold write_log.
    set (s1 := match hnd s p with Some (_, k) => if k =? serial s then s else set_hnd s p None | None => s end).
    assert (P1 : hnd s1 p = None \/ exists k, hnd s1 p = Some (j, k)).
    { unfold s1. destruct (hnd s p) as [[i k]|] eqn:Q; [|left; exact Q]. destruct (Z.eqb_spec k (serial s)) as [E|E].
      - right. exists k. destruct (vH _ _ I p i k Q) as [_ X]. rewrite (X E) in J. injection J as ->. exact Q.
      - left. cbn. apply upn_same. }
    assert (I1 : Inv s1 v /\ active s1 = true /\ jr s1 = Some j /\ data s1 = data s /\ serial s1 = serial s).
    { unfold s1. destruct (hnd s p) as [[i k]|]; [|exact (conj I (conj A (conj J (conj eq_refl eq_refl))))]. destruct (k =? serial s); [exact (conj I (conj A (conj J (conj eq_refl eq_refl))))|].
      refine (conj _ (conj A (conj J (conj eq_refl eq_refl)))). destruct I. constructor; cbn [set_hnd jr nexti bk data mtime active dirty serial hnd]; auto.
      intros q i' k' H. unfold upn in H. destruct (Nat.eqb q p); [discriminate|]. apply (vH0 q i' k' H). }
    destruct I1 as (I1 & A1 & J1 & D1 & S2). clearbody s1.
    set (s2 := match hnd s1 p with Some _ => s1 | None => match jr s1 with Some i => if check_journal s1 i then set_hnd s1 p (Some (i, serial s1)) else s1 | None => s1 end end).
    assert (P2 : (exists k, hnd s2 p = Some (j, k)) /\ Inv s2 v /\ jr s2 = Some j /\ data s2 j = MAGIC ++ vlog v).
    { unfold s2. destruct P1 as [P1|(k & P1)]; rewrite P1.
      - rewrite J1, (check_magic s1 j (vlog v)) by (rewrite D1; exact Dj). split; [exists (serial s1); cbn; apply upn_same|]. split; [|split; [exact J1|cbn; rewrite D1; exact Dj]].
        destruct I1. constructor; cbn [set_hnd jr nexti bk data mtime active dirty serial hnd]; auto.
        intros q i' k' H. unfold upn in H. destruct (Nat.eqb q p); [|apply (vH0 q i' k' H)]. injection H as <- <-. split; [lia|]. intros _. exact J1.
      - split; [exists k; exact P1|]. split; [exact I1|]. split; [exact J1|rewrite D1; exact Dj]. }
    destruct P2 as ((k & P2) & I2 & J2 & Dj2). clearbody s2. rewrite P2. destruct I2.
    constructor; cbn [set_flags set_data jr nexti bk data mtime active dirty serial hnd von vdirty vstarted vlog]; auto.
    + rewrite vA0, <- (vA _ _ I). exact A.
    + intros _. exists j. split; [exact J2|]. rewrite upn_same, Dj2, app_assoc. reflexivity.
  - unfold dump. rewrite <- (vA _ _ I). destruct (active s) eqn:A; [|exact I].
    change (set_flags (stop_logging s) false false) with (set_flags s false false).
    apply (start_clean _ (mkV false false (vstarted v) (vlog v))); [|reflexivity|reflexivity]. apply flags_inv; [exact I|]. intros [X|X]; discriminate.
  - unfold replay_log. rewrite <- (vA _ _ I).
    assert (X : Inv (set_flags s false false) (mkV false false (vstarted v) (vlog v))) by (apply flags_inv; [exact I|]; intros [X|X]; discriminate).
    destruct (active s); [|exact X]. apply (start_clean _ _ tm X); reflexivity.
Qed.
Lemma run_inv s ops : fresh s -> Forall no_import ops -> Inv (run s ops) (view_of ops).
Proof.
  intros (A & B & C & D & E & F) N. unfold run, view_of.
  assert (I : Inv s (mkV false false false [])).
  { constructor; cbn; auto; [intros [X|X]; discriminate|discriminate|]. intros p i k H. rewrite D in H. discriminate. }
  clear A B C D E F. revert s I. generalize (mkV false false false []). induction N as [|o ops No N IH]; intros v s I; [exact I|].
  cbn [fold_left]. apply IH. apply step_inv; assumption.
Qed.

(** For every sequence of starts, stops, dumps, replays and entries logged by any processes: once logging
    was started, the journal holds its magic bytes and just what was logged since it was last set up
    clean, in order; logging is on when the user turned it on.
    Missing: the import of a dump (refuted below). *)
Theorem C75_journal_partial : forall s ops, fresh s -> Forall no_import ops ->
  active (run s ops) = von (view_of ops) /\
  (vstarted (view_of ops) = true -> journal_bytes (run s ops) = Some (MAGIC ++ vlog (view_of ops))).
Proof.
  intros s ops F N. pose proof (run_inv s ops F N) as I. split; [apply (vA _ _ I)|]. intros S. destruct (vC _ _ I S) as (i & J & D).
  unfold journal_bytes. rewrite J. cbn. rewrite D. reflexivity.
Qed.

(** ** Backups *)
Lemma pick_spec : forall l i oldest idx, 0 <= oldest -> (forall t, In (Some t) l -> 0 < t) ->
  let r := pick_backup l i oldest idx in
  (exists k, r = (i + k)%nat /\ nth_error l k = Some None) \/
  (~ In None l /\
   ((exists k t, r = (i + k)%nat /\ nth_error l k = Some (Some t) /\ (oldest <> 0 -> t < oldest) /\ forall t', In (Some t') l -> t <= t') \/
    (r = idx /\ (l = [] \/ oldest <> 0) /\ forall t', In (Some t') l -> oldest <= t'))).
Proof.
  induction l as [|[t|] l IH]; intros i oldest idx O P; cbn [pick_backup].
  - right. split; [intros []|]. right. split; [reflexivity|]. split; [left; reflexivity|]. intros t' [].
  - assert (P' : forall x, In (Some x) l -> 0 < x) by (intros x H; apply P; right; exact H). pose proof (P t (or_introl eq_refl)) as Pt.
    assert (Q : ((oldest =? 0) || (oldest >? t)) = true <-> (oldest = 0 \/ t < oldest)).
    { rewrite orb_true_iff, Z.eqb_eq, Z.gtb_lt. tauto. }
    destruct ((oldest =? 0) || (oldest >? t)) eqn:E.
    + destruct (IH (S i) t i ltac:(lia) P') as [(k & A & B)|[A [(k & x & B & C & D & G)|(B & C & D)]]].
      * left. exists (S k). split; [lia|exact B].
      * right. split; [intros [X|X]; [discriminate|contradiction]|]. left. exists (S k), x. split; [lia|]. split; [exact C|].
        specialize (D ltac:(lia)). split; [intros; destruct (proj1 Q eq_refl); lia|]. intros t' [X|X]; [injection X as <-; lia|apply G, X].
      * right. split; [intros [X|X]; [discriminate|contradiction]|]. left. exists 0%nat, t. split; [lia|]. split; [reflexivity|].
        split; [intros; destruct (proj1 Q eq_refl); lia|]. intros t' [X|X]; [injection X as <-; lia|apply D, X].
    + assert (O1 : oldest <> 0 /\ oldest <= t) by (split; [intros X; assert (false = true) by (apply Q; left; exact X); discriminate|]; destruct (Z.le_gt_cases oldest t) as [X|X]; [exact X|assert (false = true) by (apply Q; right; exact X); discriminate]).
      destruct (IH (S i) oldest idx O P') as [(k & A & B)|[A [(k & x & B & C & D & G)|(B & C & D)]]].
      * left. exists (S k). split; [lia|exact B].
      * right. split; [intros [X|X]; [discriminate|contradiction]|]. left. exists (S k), x. split; [lia|]. split; [exact C|].
        split; [exact D|]. specialize (D (proj1 O1)). intros t' [X|X]; [injection X as <-; lia|apply G, X].
      * right. split; [intros [X|X]; [discriminate|contradiction]|]. right. split; [exact B|]. split; [right; apply O1|]. intros t' [X|X]; [injection X as <-; lia|apply D, X].
  - left. exists 0%nat. split; [lia|reflexivity].
Qed.
(** The place of a new backup: one that is free, or, when all ten are there, one of the oldest *)
Definition good_place (s : st) (b : nat) : Prop :=
  (b < MAX_BACKUPS)%nat /\
  (bk s b = None \/
   exists i, bk s b = Some i /\ forall b', (b' < MAX_BACKUPS)%nat -> exists i', bk s b' = Some i' /\ mtime s i <= mtime s i').
Lemma index_good s : (forall i, 0 < mtime s i) -> good_place s (backup_index s).
Proof.
  intros P. unfold backup_index. set (g := fun i => option_map (mtime s) (bk s i)).
  assert (NT : forall k x, nth_error (map g (seq 0 MAX_BACKUPS)) k = Some x -> (k < MAX_BACKUPS)%nat /\ x = g k).
  { intros k x H. assert (L : (k < MAX_BACKUPS)%nat) by (assert (X : nth_error (map g (seq 0 MAX_BACKUPS)) k <> None) by congruence; apply nth_error_Some in X; rewrite map_length, seq_length in X; exact X).
    split; [exact L|]. rewrite nth_error_map in H. rewrite (nth_error_nth' _ 0%nat) in H by (rewrite seq_length; exact L). rewrite seq_nth in H by exact L. injection H as <-. reflexivity. }
  assert (IN : forall b, (b < MAX_BACKUPS)%nat -> In (g b) (map g (seq 0 MAX_BACKUPS))) by (intros b L; apply in_map, in_seq; lia).
  destruct (pick_spec (map g (seq 0 MAX_BACKUPS)) 0 0 0 ltac:(lia)) as [(k & A & B)|[A [(k & t & B & C & _ & D)|(_ & [C|C] & _)]]].
  - intros t H. apply in_map_iff in H as (b & H & _). unfold g in H. destruct (bk s b) as [i|]; [|discriminate]. injection H as <-. apply P.
  - rewrite A. cbn [Nat.add]. destruct (NT k _ B) as [L X]. split; [exact L|]. left. unfold g in X. destruct (bk s k); [discriminate|reflexivity].
  - rewrite B. cbn [Nat.add]. destruct (NT k _ C) as [L X]. split; [exact L|]. right. unfold g in X. destruct (bk s k) as [i|] eqn:Q; [|discriminate]. exists i. split; [reflexivity|].
    injection X as ->. intros b' L'. pose proof (IN b' L') as Y. unfold g at 1 in Y. destruct (bk s b') as [i'|]; [|contradiction]. exists i'. split; [reflexivity|]. apply D, Y.
  - discriminate.
  - contradiction.
Qed.
Lemma start_backups s v tm : Inv s v -> (forall i, 0 < mtime s i) ->
  let s' := start_logging s tm in
  (forall b, backup_bytes s' b = backup_bytes s b) \/
  (exists b, good_place s b /\ journal_bytes s <> None /\ backup_bytes s' b = journal_bytes s /\ forall b', b' <> b -> backup_bytes s' b' = backup_bytes s b').
Proof.
  intros I P. cbn zeta. unfold start_logging. destruct (active s); [left; reflexivity|]. unfold create_journal. destruct (jr s) as [j|] eqn:Q.
  - destruct (dirty s) eqn:D.
    + rewrite Q, D. cbn [negb]. destruct (check_journal s j); left; reflexivity.
    + right. exists (backup_index s). split; [apply index_good, P|]. unfold journal_bytes, backup_bytes. rewrite Q. split; [discriminate|].
      cbn [backup_journal jr nexti bk data mtime active dirty serial hnd]. rewrite D. cbn [negb set_flags set_data jr nexti bk data mtime active dirty serial hnd].
      pose proof (vN _ _ I j Q) as Lj. split.
      * rewrite upn_same. cbn. rewrite !upn_other by lia. reflexivity.
      * intros b' Nb. rewrite upn_other by exact Nb. destruct (bk s b') as [i|] eqn:E; [|reflexivity]. destruct (vB _ _ I b' i E) as [L _]. cbn. rewrite !upn_other by lia. reflexivity.
  - left. intros b. rewrite Q. cbn [dirty]. unfold backup_bytes. destruct (dirty s) eqn:D; cbn [negb].
    + match goal with |- context [check_journal ?a ?b] => destruct (check_journal a b) end; cbn [set_flags jr nexti bk data]; (destruct (bk s b) as [i|] eqn:E; [|reflexivity]);
      destruct (vB _ _ I b i E) as [L _]; cbn; rewrite !upn_other by lia; reflexivity.
    + cbn [set_flags set_data jr nexti bk data]. destruct (bk s b) as [i|] eqn:E; [|reflexivity]. destruct (vB _ _ I b i E) as [L _]. cbn. rewrite !upn_other by lia. reflexivity.
Qed.
(** After any history, an operation either leaves all backups as they are, or puts the bytes of the
    journal in one that is free or the oldest, and leaves the others; logging never changes a backup.
    Missing: the import of a dump (refuted below). *)
Theorem C75_backups_partial : forall s0 ops o, fresh s0 -> Forall no_import ops -> no_import o ->
  let s := run s0 ops in let s' := step s o in
  (forall i, 0 < mtime s i) ->
  (forall b, backup_bytes s' b = backup_bytes s b) \/
  ((forall p buf tm, o <> Log p buf tm) /\
   exists b, good_place s b /\ journal_bytes s <> None /\ backup_bytes s' b = journal_bytes s /\ forall b', b' <> b -> backup_bytes s' b' = backup_bytes s b').
Proof.
  intros s0 ops o F N No s s' P. pose proof (run_inv s0 ops F N) as I. fold s in I. clearbody s. unfold s'. clear s' F N s0. set (v := view_of ops) in *. clearbody v. clear ops.
  destruct o as [tm| |p buf tm|tm|tm|k tm]; cbn [step]; [| | | | |destruct No].
  - destruct (start_backups s _ tm I P) as [X|X]; [left; exact X|right; split; [intros; discriminate|exact X]].
  - left. intros b. destruct (active s); reflexivity.
  - left. intros b. destruct (active s) eqn:A; [|reflexivity].
    assert (S1 : vstarted v = true) by (apply (vS _ _ I); left; rewrite <- (vA _ _ I); exact A). destruct (vC _ _ I S1) as (j & J & _).
    assert (W : forall mm, (forall i, i <> j -> mm i = data s i) -> option_map mm (bk s b) = option_map (data s) (bk s b)).
    { intros mm H. destruct (bk s b) as [i|] eqn:E; [|reflexivity]. cbn. rewrite H; [reflexivity|]. intros ->. destruct (vB _ _ I b j E) as [_ X]. contradiction. }
    unfold backup_bytes, write_log. destruct (hnd s p) as [[i k]|] eqn:Q.
    + destruct (Z.eqb_spec k (serial s)) as [E|E].
      * rewrite Q, Q. destruct (vH _ _ I p i k Q) as [_ X]. rewrite (X E) in J. injection J as ->. cbn. apply W. intros x Nx. apply upn_other, Nx.
      * cbn [set_hnd hnd jr]. rewrite upn_same, J. destruct (check_journal _ j); cbn [set_hnd hnd]; rewrite upn_same; [|reflexivity]. cbn. apply W. intros x Nx. apply upn_other, Nx.
    + rewrite Q, J. destruct (check_journal s j); cbn [set_hnd hnd]; [rewrite upn_same|rewrite Q; reflexivity]. cbn. apply W. intros x Nx. apply upn_other, Nx.
  - unfold dump. destruct (active s); [|left; reflexivity]. change (set_flags (stop_logging s) false false) with (set_flags s false false).
    assert (X : Inv (set_flags s false false) (mkV false false (vstarted v) (vlog v))) by (apply flags_inv; [exact I|]; intros [X|X]; discriminate).
    destruct (start_backups _ _ tm X P) as [Y|Y]; [left; exact Y|right; split; [intros; discriminate|exact Y]].
  - unfold replay_log. destruct (active s); [|left; reflexivity].
    assert (X : Inv (set_flags s false false) (mkV false false (vstarted v) (vlog v))) by (apply flags_inv; [exact I|]; intros [X|X]; discriminate).
    destruct (start_backups _ _ tm X P) as [Y|Y]; [left; exact Y|right; split; [intros; discriminate|exact Y]].
Qed.

(** The import of a dump brings back the serial number in the dump, and the next start counts it up to
    one that a process still holds for a file that is a backup by then: what it logs is not in the journal. *)
Definition none : st := mkS None (fun _ => None) (fun _ => []) (fun _ => 1) 0 false false 1 (fun _ => None).
Example none_fresh : fresh none.
Proof. repeat split; cbn; intros; discriminate. Qed.
Theorem C75_import_refuted :
  let ops := [Start 10; Dump 20; Log 1 [64] 30; Import 1 40; Log 1 [65] 50] in
  serial (run none [Start 10]) = 1 /\
  vlog (view_of ops) = [65] /\ journal_bytes (run none ops) = Some MAGIC /\ backup_bytes (run none ops) 1 = Some (MAGIC ++ [64; 65]).
Proof. vm_compute. repeat split; reflexivity. Qed.
(** Two processes, a dump and a replay: the journal has what was logged since, the backups the rest *)
Example sample_run :
  let ops := [Start 10; Log 1 [64; 1] 11; Log 2 [128] 12; Dump 20; Log 2 [192] 21; Stop; Log 1 [7] 22; Start 23; Log 1 [32] 24; Replay 30; Log 1 [65] 31] in
  Forall no_import ops /\ journal_bytes (run none ops) = Some (MAGIC ++ [65]) /\
  backup_bytes (run none ops) 0 = Some (MAGIC ++ [64; 1; 128]) /\ backup_bytes (run none ops) 1 = Some (MAGIC ++ [192; 32]).
Proof. split; [repeat constructor|]. vm_compute. repeat split; reflexivity. Qed.

Print Assumptions C75_journal_partial.
Print Assumptions C75_backups_partial.
Print Assumptions C75_import_refuted.
