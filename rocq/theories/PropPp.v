(** C62: propositional instances of clauses, and the external solver. *)
From Coq Require Import String Ascii List ZArith Bool Lia.
From Verif Require Import PtModel Word64 Terms MatchModel HashModel SubsumeSpec Semantics SemProof
  PpModel PpSpec PpProof DimModel DimProof.
Import ListNotations.
Open Scope Z_scope.
Open Scope list_scope.

(** The clauses of numbers made for some clauses can be true together exactly when the instances of the clauses, with
    the constant for all variables, can. *)
Theorem C62_exact : forall dhash ltext cap g cls st,
  run dhash ltext cap g pinit cls = Going st ->
  (nums_satisfiable (map plits (pclauses st)) <-> ground_satisfiable (map (ground_with g) cls)).
Proof.
  intros dhash ltext cap g cls st R. pose proof (run_ok dhash ltext cap g cls pinit nil (whole_init dhash ltext g)) as W.
  rewrite R in W. simpl in W. split.
  - intros (P & H). exists (fun a => P (num g st a)). intros c C. apply in_map_iff in C. destruct C as (d & <- & D).
    apply (back_true dhash ltext g st cls P W); [|exact D]. intros pc X. apply H. apply in_map. exact X.
  - intros (V & H).
    exists (fun p => existsb (fun e => (e_var e =? p) && V (gr g (e_atom e))) (entries st)).
    intros c C. apply in_map_iff in C. destruct C as (pc & <- & C). apply In_nth_error in C. destruct C as (k & C).
    destruct (all_true dhash ltext g st cls (is_true_of V) W) with (k := k) (pc := pc) as (z & Z & T).
    { intros d D. apply H. apply in_map. exact D. }
    { exact C. }
    exists z. split; [exact Z|].
    assert (E : forall p, on_nums g st (is_true_of V) p <->
      is_true_of (fun p => existsb (fun e => (e_var e =? p) && V (gr g (e_atom e))) (entries st)) p).
    { intros p. unfold on_nums, named, is_true_of. rewrite existsb_exists. split.
      - intros (a & (e & I & A & B) & X). exists e. split; [exact I|]. rewrite A, X, B, Z.eqb_refl. reflexivity.
      - intros (e & I & X). apply andb_true_iff in X. destruct X as (X & Y). apply Z.eqb_eq in X.
        exists (gr g (e_atom e)). split; [exists e; auto|exact Y]. }
    unfold num_true in *. rewrite <- !E. exact T.
Qed.

(** If the empty clause is met, the instances cannot be true together. *)
Theorem C62_refutation : forall dhash ltext cap g cls st c cuts,
  run dhash ltext cap g pinit cls = Refuted st c cuts ->
  ~ exists V : term -> Prop, forall d, In d cls -> clause_true V (ground_with g d).
Proof.
  intros dhash ltext cap g cls st c cuts R (V & H).
  pose proof (run_ok dhash ltext cap g cls pinit nil (whole_init dhash ltext g)) as W.
  rewrite R in W. simpl in W. destruct W as (some & W & I & C & F & _).
  apply (refuted_false dhash ltext g st some V c cuts W F).
  - intros d D. apply H. exact (I d D).
  - exact (H c C).
Qed.

(** Choosing truth values for finitely many numbers. *)
Lemma decided : forall (P : Z -> Prop) l, ~ ~ exists f : Z -> bool, forall z, In z l -> (f z = true <-> P z).
Proof.
  intros P. induction l as [|z l IH]; intros H.
  - apply H. exists (fun _ => true). intros z [].
  - apply IH. intros (f & F). assert (E : ~ ~ (P z \/ ~ P z)) by tauto. apply E. intros D. apply H. destruct D as [D|D].
    + exists (fun y => if y =? z then true else f y). intros y [->|Y].
      * rewrite Z.eqb_refl. tauto.
      * destruct (Z.eqb_spec y z) as [->|_]; [tauto|exact (F y Y)].
    + exists (fun y => if y =? z then false else f y). intros y [->|Y].
      * rewrite Z.eqb_refl. split; [discriminate|tauto].
      * destruct (Z.eqb_spec y z) as [->|_]; [split; [discriminate|tauto]|exact (F y Y)].
Qed.

(** If the empty clause is met, or the clauses of numbers cannot be true together, the clauses have no model. *)
Theorem C62_no_model : forall dhash ltext cap g cls eqc M,
  ((exists st c cuts, run dhash ltext cap g pinit cls = Refuted st c cuts) \/
   (exists st, run dhash ltext cap g pinit cls = Going st /\ ~ nums_satisfiable (map plits (pclauses st)))) ->
  (forall c, In c cls -> focl c) -> ~ (forall c, In c cls -> valid_in eqc M c).
Proof.
  intros dhash ltext cap g cls eqc M H F V. set (v := fun _ : Z => icst M g).
  assert (T : forall c, In c cls -> clause_true (holds eqc M v) (ground_with g c)).
  { intros c C. destruct (valid_inst eqc M c (fun _ => TCst g) (F c C) (V c C) v) as (l & L & X). exists l. split; [exact L|exact X]. }
  destruct H as [(st & c & cuts & R)|(st & R & U)].
  - apply (C62_refutation dhash ltext cap g cls st c cuts R). exists (holds eqc M v). exact T.
  - pose proof (run_ok dhash ltext cap g cls pinit nil (whole_init dhash ltext g)) as W. rewrite R in W. simpl in W.
    set (Q := on_nums g st (holds eqc M v)).
    apply (decided Q (map Z.abs (concat (map plits (pclauses st))))). intros (f & E). apply U. exists f.
    intros c C. apply in_map_iff in C. destruct C as (pc & <- & C). pose proof C as C0. apply In_nth_error in C. destruct C as (k & C).
    destruct (all_true dhash ltext g st cls (holds eqc M v) W T k pc C) as (z & Z & X). exists z. split; [exact Z|].
    assert (A : In (Z.abs z) (map Z.abs (concat (map plits (pclauses st))))).
    { apply in_map. apply in_concat. exists (plits pc). split; [apply in_map; exact C0|exact Z]. }
    specialize (E _ A). unfold num_true, is_true_of in *. fold Q in X. destruct X as [(S1 & S2)|(S1 & S2)].
    + left. split; [exact S1|]. rewrite Z.abs_eq in E by lia. apply E. exact S2.
    + right. split; [exact S1|]. rewrite Z.abs_neq in E by lia. intros Y. apply S2. apply E. exact Y.
Qed.

(** The steps of the history: the clauses of numbers, and the empty clause last if it was met. *)
Definition steps (o : outcome) : list pclause :=
  match o with
  | Going st => pclauses st
  | Refuted st c cuts => pclauses st ++ [PClause nil c cuts]
  | Broken => nil
  end.

(** Each step is right: there is one numbering of ground atoms, with different numbers for different atoms, such that
    every clause of numbers follows from the instance of its parent and the earlier clauses it names - when the
    parent has at most 98 literals. *)
Theorem C62_steps_partial : forall dhash ltext cap g cls,
  let h := steps (run dhash ltext cap g pinit cls) in
  exists num : term -> Z,
    (forall a, 0 < num a) /\
    (forall s s' l l', In s h -> In s' h -> In l (ground_with g (parent s)) -> In l' (ground_with g (parent s')) ->
       num (snd l) = num (snd l') -> snd l = snd l') /\
    (forall k s, nth_error h k = Some s ->
       In (parent s) cls /\ (forall j, In j (cutters s) -> (j < k)%nat) /\
       ((length (parent s) <= 98)%nat -> forall P : Z -> Prop,
          clause_true (fun a => P (num a)) (ground_with g (parent s)) ->
          (forall j, In j (cutters s) -> exists q, nth_error h j = Some q /\ nums_true P (plits q)) ->
          nums_true P (plits s))).
Proof.
  intros dhash ltext cap g cls.
  pose proof (run_ok dhash ltext cap g cls pinit nil (whole_init dhash ltext g)) as W.
  assert (K : forall st done (h : list pclause), whole dhash ltext g st done -> incl done cls ->
     (exists more, h = pclauses st ++ more) ->
     (forall k s, nth_error h k = Some s -> In (parent s) cls /\ from g st k (parent s) (plits s) (cutters s) /\
        (forall j, In j (cutters s) -> (j < k)%nat) /\ (k <= length (pclauses st))%nat) ->
     exists num : term -> Z,
    (forall a, 0 < num a) /\
    (forall s s' l l', In s h -> In s' h -> In l (ground_with g (parent s)) -> In l' (ground_with g (parent s')) ->
       num (snd l) = num (snd l') -> snd l = snd l') /\
    (forall k s, nth_error h k = Some s ->
       In (parent s) cls /\ (forall j, In j (cutters s) -> (j < k)%nat) /\
       ((length (parent s) <= 98)%nat -> forall P : Z -> Prop,
          clause_true (fun a => P (num a)) (ground_with g (parent s)) ->
          (forall j, In j (cutters s) -> exists q, nth_error h j = Some q /\ nums_true P (plits q)) ->
          nums_true P (plits s)))).
  { intros st done h WH I (more & HE) HF. exists (num g st). split; [intros a; apply (num_pos dhash ltext g st a (w_inv _ _ _ _ _ WH))|]. split.
    - intros s s' l l' S S' L L' E. apply In_nth_error in S. destruct S as (k & S). apply In_nth_error in S'. destruct S' as (k' & S').
      destruct (HF k s S) as (_ & A & _). destruct (HF k' s' S') as (_ & A' & _).
      unfold ground_with in L, L'. apply in_map_iff in L. destruct L as (l0 & <- & L). apply in_map_iff in L'. destruct L' as (l1 & <- & L').
      exact (num_injective dhash ltext g st k _ _ _ k' _ _ _ l0 l1 (w_inv _ _ _ _ _ WH) A A' L L' E).
    - intros k s S. destruct (HF k s S) as (A & B & C & D). split; [exact A|]. split; [exact C|]. intros LN P T J.
      apply (step_true dhash ltext g st P k (parent s) (plits s) (cutters s) (w_inv _ _ _ _ _ WH) B LN); [|exact T].
      intros j JI. destruct (J j JI) as (q & Q & X). exists q. split; [|exact X]. rewrite HE, nth_error_app1 in Q; [exact Q|].
      specialize (C j JI). lia. }
  destruct (run dhash ltext cap g pinit cls) as [st|st c cuts|]; cbn [steps].
  - simpl in W. apply (K st cls (pclauses st) W); [intros x X; exact X|exists nil; rewrite app_nil_r; reflexivity|].
    intros k s S. destruct (w_from _ _ _ _ _ W k s S) as (A & B & C). split; [exact A|]. split; [exact B|]. split; [exact C|].
    apply Nat.lt_le_incl. apply nth_error_Some. congruence.
  - simpl in W. destruct W as (some & W & I & C & F & J).
    apply (K st some (pclauses st ++ [PClause nil c cuts]) W I); [exists [PClause nil c cuts]; reflexivity|].
    intros k s S. destruct (Nat.lt_ge_cases k (length (pclauses st))) as [L|L].
    + rewrite nth_error_app1 in S by exact L. destruct (w_from _ _ _ _ _ W k s S) as (A & B & D).
      split; [exact (I _ A)|]. split; [exact B|]. split; [exact D|lia].
    + rewrite nth_error_app2 in S by exact L. destruct (k - length (pclauses st))%nat as [|x] eqn:KE; [|destruct x; discriminate S].
      injection S as <-. assert (k = length (pclauses st)) as -> by lia. cbn [parent plits cutters].
      split; [exact C|]. split; [exact F|]. split; [exact J|lia].
  - exists (fun _ => 1). split; [intros; lia|]. split; [intros s s' l l' []|]. intros [|k] s S; discriminate S.
Qed.

(** With more literals removed, units are missing from the history: here the clauses named for the empty clause, each
    of them an instance as it is, can all be true. *)
Theorem C62_cuts_refuted : forall dhash ltext g, exists cls st c cuts,
  run dhash ltext 1000000 g pinit cls = Refuted st c cuts /\
  exists V : term -> bool, clause_true (is_true_of V) (ground_with g c) /\
    forall j, In j cuts -> exists pc, nth_error (pclauses st) j = Some pc /\ cutters pc = nil /\
      clause_true (is_true_of V) (ground_with g (parent pc)).
Proof.
  intros dhash ltext g.
  set (neg := map (fun k => (true, TRec [TCst (CImm (Z.of_nat k))])) (seq 0 99)).
  set (cls := map kth (seq 0 99) ++ [neg]).
  assert (E : match run dhash ltext 1000000 g pinit cls with
    | Refuted st c cuts => c = neg /\
        map (fun j => nth_error (pclauses st) j) cuts = map (fun i => Some (PClause [2 + Z.of_nat i] (kth i) nil)) (seq 0 98)
    | _ => False end) by (vm_compute; split; reflexivity).
  destruct (run dhash ltext 1000000 g pinit cls) as [|st c cuts|] eqn:R; [contradiction| |contradiction].
  destruct E as (-> & E). exists cls, st, neg, cuts. split; [exact R|].
  exists (fun a => match a with TRec [TCst (CImm z)] => negb (z =? 98) | _ => false end). split.
  - exists (true, TRec [TCst (CImm 98)]). split; [|discriminate]. unfold ground_with. apply in_map_iff.
    exists (true, TRec [TCst (CImm 98)]). split; [reflexivity|]. unfold neg. apply in_map_iff. exists 98%nat. split; [reflexivity|].
    apply in_seq. lia.
  - intros j J. assert (X : In (nth_error (pclauses st) j) (map (fun j => nth_error (pclauses st) j) cuts)) by (apply in_map_iff; exists j; auto).
    rewrite E in X. apply in_map_iff in X. destruct X as (i & X & I). apply in_seq in I. eexists. split; [symmetry; exact X|].
    split; [reflexivity|]. exists (false, TRec [TCst (CImm (Z.of_nat i))]). split; [left; reflexivity|].
    unfold lit_true, is_true_of. cbn [fst snd]. destruct (Z.eqb_spec (Z.of_nat i) 98); [lia|reflexivity].
Qed.

(** With few literals all goes well: no freed vector is used. *)
Theorem C62_within : forall dhash ltext cap g cls,
  2 + Z.of_nat (length (concat cls)) <= cap -> run dhash ltext cap g pinit cls <> Broken.
Proof.
  intros dhash ltext cap g cls L. apply (run_room dhash ltext cap g cls pinit nil (whole_init dhash ltext g)). exact L.
Qed.

(** With as many different atoms as the vectors first have places, a freed vector is used. *)
Theorem C62_growth_refuted : forall dhash ltext cap g, 2 <= cap ->
  exists cls, Z.of_nat (length (concat cls)) = cap - 1 /\ run dhash ltext cap g pinit cls = Broken.
Proof.
  intros dhash ltext cap g L. exists (map kth (seq 0 (S (Z.to_nat (cap - 2))))). split.
  - assert (X : forall l : list nat, length (concat (map kth l)) = length l).
    { induction l as [|x l IH]; [reflexivity|]. cbn [map concat]. rewrite app_length, IH. reflexivity. }
    rewrite X, seq_length. lia.
  - apply (run_kth dhash ltext cap g _ 0 pinit nil (whole_init dhash ltext g)); [reflexivity|intros e []|rewrite Nat.add_0_l; lia].
Qed.

(** * The file and the answer *)
(** The file read by the rules of its format holds the clauses, and is well-formed. *)
Theorem C62_file : forall dhash ltext cap g cls st,
  run dhash ltext cap g pinit cls = Going st ->
  2 + Z.of_nat (length (concat cls)) < 2 ^ 31 -> Z.of_nat (length cls) < 2 ^ 31 ->
  exists v n, read_dimacs (prop_file (counter st) (map plits (pclauses st))) = Some (v, n, map plits (pclauses st)) /\
    well_formed v n (map plits (pclauses st)).
Proof.
  intros dhash ltext cap g cls st R L N.
  pose proof (run_ok dhash ltext cap g cls pinit nil (whole_init dhash ltext g)) as W. rewrite R in W. simpl in W.
  destruct (run_size dhash ltext cap g cls pinit nil st (whole_init dhash ltext g) R) as (C & P).
  change (counter pinit) with 2 in C. change (length (pclauses pinit)) with 0%nat in P.
  pose proof (i_count _ _ _ _ (w_inv _ _ _ _ _ W)) as C2.
  assert (B : forall c z, In c (map plits (pclauses st)) -> In z c -> 2 <= Z.abs z < counter st).
  { intros c z I Z. apply in_map_iff in I. destruct I as (pc & <- & I). exact (i_lits _ _ _ _ (w_inv _ _ _ _ _ W) pc z I Z). }
  exists (counter st), (Z.of_nat (length (map plits (pclauses st)))). split.
  - apply file_reads.
    + intros c z I Z. specialize (B c z I Z). split; [lia|]. assert (2 ^ 31 < 10 ^ 20) by reflexivity. lia.
    + lia.
    + rewrite map_length. lia.
  - split; [reflexivity|]. intros c z I Z. specialize (B c z I Z). lia.
Qed.

(** The verdict line is found wherever it is; and if its words are written nowhere else, nothing else is taken
    for it. *)
Theorem C62_verdict : forall output, says_unsat output -> proved output = true.
Proof. intros output H. apply proved_complete; [apply le_n|exact H]. Qed.
Theorem C62_verdict_partial : forall output, verdict_only output -> proved output = true -> says_unsat output.
Proof.
  intros output V H. destruct (proved_sound _ _ H) as (l & x & y & I & E). unfold says_unsat.
  rewrite <- (V l x y I E). exact I.
Qed.
Theorem C62_verdict_refuted : exists output, proved output = true /\ ~ says_unsat output /\
  In (list_ascii_of_string "s SATISFIABLE") (lines output).
Proof.
  exists (list_ascii_of_string "c neither s UNSATISFIABLE nor s UNKNOWN" ++ NL :: list_ascii_of_string "s SATISFIABLE" ++ [NL]).
  split; [vm_compute; reflexivity|]. split.
  - unfold says_unsat. vm_compute. intros [H|[H|[H|H]]]; try discriminate H. exact H.
  - vm_compute. right. left. reflexivity.
Qed.

(** One search at a time, with a right solver: a proof is reported only if the clauses have no model. *)
Theorem C62_alone : forall dhash ltext cap g cls st solver d w eqc M,
  run dhash ltext cap g pinit cls = Going st ->
  2 + Z.of_nat (length (concat cls)) < 2 ^ 31 -> Z.of_nat (length cls) < 2 ^ 31 ->
  right_solver solver ->
  wreach solver (fun _ => prop_file (counter st) (map plits (pclauses st))) (World d [AtWrite]) w ->
  stages w = [Over 2] ->
  (forall c, In c cls -> focl c) -> ~ (forall c, In c cls -> valid_in eqc M c).
Proof.
  intros dhash ltext cap g cls st solver d w eqc M R L N RS WR S F.
  pose proof (solo_reach _ _ _ _ WR) as X.
  destruct X as (s & E & H). { exists AtWrite. split; [reflexivity|exact Logic.I]. }
  rewrite S in E. injection E as <-. destruct H as [(_ & H)|(H & _)]; [|discriminate H].
  destruct (RS (Some (prop_file (counter st) (map plits (pclauses st))))) as (V & U).
  destruct (U (C62_verdict_partial _ V H)) as (v & n & cs & content & E & D & NS). injection E as <-.
  destruct (C62_file dhash ltext cap g cls st R L N) as (v' & n' & D' & _). rewrite D' in D. injection D as _ _ <-.
  apply (C62_no_model dhash ltext cap g cls eqc M); [|exact F]. right. exists st. auto.
Qed.

(** Several searches at once: a proof is reported to any of them only if the solver finds the clauses of some of them
    to be contradictory - not always its own. *)
Theorem C62_together_partial : forall solver text n w k,
  right_solver solver ->
  wreach solver text (World (Files None None) (repeat AtWrite n)) w ->
  nth_error (stages w) k = Some (Over 2) ->
  exists j v m cs, (j < n)%nat /\ read_dimacs (text j) = Some (v, m, cs) /\ ~ nums_satisfiable cs.
Proof.
  intros solver text n w k RS WR S.
  assert (K : kept solver text n (World (Files None None) (repeat AtWrite n))).
  { split; [discriminate|]. split; [discriminate|]. split; [|apply repeat_length].
    intros j H. apply nth_error_In in H. apply repeat_spec in H. discriminate H. }
  destruct (kept_reach _ _ _ _ _ WR K) as (_ & _ & T & _). destruct (T k S) as [P|(j & J & P)].
  - destruct (RS None) as (V & U). destruct (U (C62_verdict_partial _ V P)) as (v & m & cs & content & E & _). discriminate E.
  - destruct (RS (Some (text j))) as (V & U). destruct (U (C62_verdict_partial _ V P)) as (v & m & cs & content & E & D & NS).
    injection E as <-. exists j, v, m, cs. auto.
Qed.

Definition easy_cls : list (list Z) := [[2]].
Definition hard_cls : list (list Z) := [[2]; [-2]].
Definition hard_file : str := prop_file 3 hard_cls.
Definition fine_solver (f : option str) : str :=
  match f with
  | Some c => if list_eq_dec ascii_dec c hard_file then S_ "s UNSATISFIABLE" ++ [NL] else S_ "s SATISFIABLE" ++ [NL]
  | None => S_ "cannot open file" ++ [NL]
  end.
Lemma hard_unsat : ~ nums_satisfiable hard_cls.
Proof.
  intros (P & H). destruct (H [2] (or_introl eq_refl)) as (z & [<-|[]] & T).
  destruct (H [-2] (or_intror (or_introl eq_refl))) as (y & [<-|[]] & U). exact (num_true_opp _ 2 T U).
Qed.
Lemma fine_solver_right : right_solver fine_solver.
Proof.
  assert (LEN : forall t : str, (length t < 15)%nat -> forall a b, t = a ++ list_ascii_of_string "s UNSATISFIABLE" ++ b -> False).
  { intros t L a b E. apply (f_equal (@length ascii)) in E. rewrite !app_length in E. simpl in E. lia. }
  intros f. unfold fine_solver. destruct f as [c|].
  - destruct (list_eq_dec ascii_dec c hard_file) as [->|N].
    + split.
      * intros l a b I E. vm_compute in I. destruct I as [<-|[<-|[]]].
        -- reflexivity.
        -- exfalso. refine (LEN nil _ a b E). simpl. lia.
      * intros _. exists 3, 2, hard_cls, hard_file. split; [reflexivity|]. split; [|exact hard_unsat].
        unfold hard_file. rewrite file_reads; [reflexivity| |lia|reflexivity].
        intros c z C Z. destruct C as [<-|[<-|[]]]; destruct Z as [<-|[]]; split; try discriminate; reflexivity.
    + split.
      * intros l a b I E. vm_compute in I. destruct I as [I|[I|[]]]; rewrite <- I in E; exfalso; refine (LEN _ _ a b E); simpl; lia.
      * intros H. exfalso. vm_compute in H. destruct H as [H|[H|[]]]; discriminate H.
  - split.
    + intros l a b I E. exfalso. vm_compute in I. destruct I as [I|[I|[]]].
      * subst l. clear -E. apply (f_equal (@length ascii)) in E as L. rewrite !app_length in L. simpl in L.
        destruct a as [|x [|y a]]; [discriminate E|discriminate E|simpl in L; lia].
      * subst l. exact (LEN nil ltac:(simpl; lia) a b E).
    + intros H. exfalso. vm_compute in H. destruct H as [H|[H|[]]]; discriminate H.
Qed.

(** Two searches at once, one with clauses that can be true: a proof is reported to it too. *)
Theorem C62_shared_refuted : exists solver text w v n cs,
  right_solver solver /\
  wreach solver text (World (Files None None) [AtWrite; AtWrite]) w /\ nth_error (stages w) 0 = Some (Over 2) /\
  read_dimacs (text 0%nat) = Some (v, n, cs) /\ nums_satisfiable cs.
Proof.
  exists fine_solver, (fun k => match k with O => prop_file 3 easy_cls | _ => hard_file end),
    (World (Files (Some hard_file) (Some (S_ "s UNSATISFIABLE" ++ [NL]))) [Over 2; AtSolve]), 3, 1, easy_cls.
  split; [exact fine_solver_right|]. split.
  - set (text := fun k : nat => match k with O => prop_file 3 easy_cls | _ => hard_file end).
    assert (E : fine_solver (Some hard_file) = S_ "s UNSATISFIABLE" ++ [NL]).
    { unfold fine_solver. destruct (list_eq_dec ascii_dec hard_file hard_file) as [_|N]; [reflexivity|congruence]. }
    assert (A1 : wstep fine_solver text (World (Files None None) [AtWrite; AtWrite])
                   (World (Files (Some (prop_file 3 easy_cls)) None) [AtSolve; AtWrite])).
    { exact (wstep_act fine_solver text (World (Files None None) [AtWrite; AtWrite]) 0 AtWrite _ AtSolve eq_refl eq_refl). }
    assert (A2 : wstep fine_solver text (World (Files (Some (prop_file 3 easy_cls)) None) [AtSolve; AtWrite])
                   (World (Files (Some hard_file) None) [AtSolve; AtSolve])).
    { exact (wstep_act fine_solver text (World (Files (Some (prop_file 3 easy_cls)) None) [AtSolve; AtWrite]) 1 AtWrite _ AtSolve eq_refl eq_refl). }
    assert (A3 : wstep fine_solver text (World (Files (Some hard_file) None) [AtSolve; AtSolve])
                   (World (Files (Some hard_file) (Some (S_ "s UNSATISFIABLE" ++ [NL]))) [AtRead; AtSolve])).
    { rewrite <- E.
      exact (wstep_act fine_solver text (World (Files (Some hard_file) None) [AtSolve; AtSolve]) 0 AtSolve _ AtRead eq_refl eq_refl). }
    assert (A4 : wstep fine_solver text (World (Files (Some hard_file) (Some (S_ "s UNSATISFIABLE" ++ [NL]))) [AtRead; AtSolve])
                   (World (Files (Some hard_file) (Some (S_ "s UNSATISFIABLE" ++ [NL]))) [Over 2; AtSolve])).
    { refine (wstep_act fine_solver text (World (Files (Some hard_file) (Some (S_ "s UNSATISFIABLE" ++ [NL]))) [AtRead; AtSolve]) 0
               AtRead (Files (Some hard_file) (Some (S_ "s UNSATISFIABLE" ++ [NL]))) (Over 2) eq_refl _).
      cbn [act disk fout]. replace (proved (S_ "s UNSATISFIABLE" ++ [NL])) with true by (vm_compute; reflexivity). reflexivity. }
    exact (wreach_step _ _ _ _ _ (wreach_step _ _ _ _ _ (wreach_step _ _ _ _ _ (wreach_step _ _ _ _ _ (wreach_refl _ _ _) A1) A2) A3) A4).
  - split; [reflexivity|]. split.
    + rewrite file_reads; [reflexivity| |lia|reflexivity].
      intros c z C Z. destruct C as [<-|[]]. destruct Z as [<-|[]]. split; [discriminate|reflexivity].
    + exists (fun _ => true). intros c [<-|[]]. exists 2. split; [left; reflexivity|]. left. split; [lia|reflexivity].
Qed.

(** * The hypotheses are met *)
Definition pX : literal := (false, TRec [TCst (CImm 7); TVar 0]).
Definition npA : literal := (true, TRec [TCst (CImm 7); TCst (CImm 9)]).
Definition qXY : literal := (false, TRec [TCst (CImm 15); TVar 0; TVar 1]).
Definition nqXX : literal := (true, TRec [TCst (CImm 15); TVar 3; TVar 3]).
Definition no_hash (_ : dblv) : Z := 0.
Definition no_text (_ : Z) : list Z := nil.

(** p(X) or q(X,Y); not p(a) or q(X,Y): the variables and the constant a are one, so three clauses of two numbers. *)
Example C62_going : match run no_hash no_text 1000000 (CImm 9) pinit [[pX; qXY]; [npA; qXY]; [npA; nqXX]; [npA; pX]] with
  | Going st => map plits (pclauses st) = [[2; 3]; [-2; 3]; [-2; -3]] | _ => False end.
Proof. vm_compute. reflexivity. Qed.
(** With another constant p(X) and p(a) are different. *)
Example C62_other : match run no_hash no_text 1000000 (CImm 17) pinit [[pX]; [npA; qXY]] with
  | Going st => map plits (pclauses st) = [[2]; [-3; 4]] | _ => False end.
Proof. vm_compute. reflexivity. Qed.
(** Units remove literals, with a history. *)
Example C62_empty : match run no_hash no_text 1000000 (CImm 9) pinit [[pX]; [npA; qXY]; [npA; nqXX]] with
  | Refuted st c cuts => c = [npA; nqXX] /\ cuts = [0; 1]%nat /\ map plits (pclauses st) = [[2]; [3]] | _ => False end.
Proof. vm_compute. repeat split. Qed.
Example C62_text : prop_file 4 [[2; -3]; [3]] =
  S_ "c generated by gkc" ++ [NL] ++ S_ "p cnf 4 2" ++ [NL] ++ S_ "2 -3 0" ++ [NL] ++ S_ "3 0" ++ [NL].
Proof. reflexivity. Qed.

Print Assumptions C62_exact.
Print Assumptions C62_refutation.
Print Assumptions C62_no_model.
Print Assumptions C62_steps_partial.
Print Assumptions C62_cuts_refuted.
Print Assumptions C62_within.
Print Assumptions C62_growth_refuted.
Print Assumptions C62_file.
Print Assumptions C62_verdict.
Print Assumptions C62_verdict_partial.
Print Assumptions C62_verdict_refuted.
Print Assumptions C62_alone.
Print Assumptions C62_together_partial.
Print Assumptions C62_shared_refuted.
