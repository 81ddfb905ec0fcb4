(** C59: a formula written in JSON means what the documentation says. *)
From Coq Require Import ZArith Lia Arith String Ascii Bool List.
From Verif Require Import ClausModel ClausSpec JsModel JsSpec JsBase JsCore JsRead JsMain.
Import ListNotations.
Open Scope string_scope.
Open Scope list_scope.

(** A formula F of the documented forms, nested in any way, is read as a formula true in the same
    interpretations.  Missing: the names excluded by [legal] (refuted below), JSON objects and lists. *)
Theorem C59_formula_partial : forall f j, legal [] f -> spells f j -> exists out,
  (exists n0, forall n, n0 <= n -> read n RAx j = Done out /\ read n RNegConj j = Done out) /\
  forall D (J : stint D), inhabited D -> (sem (int_of J) none out <-> true_in (world_of J) f).
Proof.
  intros f j L S. destruct (read_runs f j L S) as (k & p & fv & Q & K & V & (n1 & R1) & _ & (n2 & R2) & _).
  exists (close fv p). split; [exists (n1 + n2); intros n H; split; [apply R1; lia|apply R2; lia]|].
  intros D J [d]. apply (close_none J d f k p fv Q K V).
Qed.
(** A conjecture is read as its negation, free variables being quantified inside. *)
Theorem C59_conjecture_partial : forall f j, legal [] f -> spells f j -> exists out,
  (exists n0, forall n, n0 <= n -> read n RConj j = Done out) /\
  forall D (J : stint D), inhabited D -> (sem (int_of J) none out <-> ~ true_in (world_of J) f).
Proof.
  intros f j L S. destruct (read_runs f j L S) as (k & p & fv & Q & K & V & _ & R & _).
  exists (mk_not (close fv p)). split; [exact R|].
  intros D J [d]. cbn [mk_not sem]. rewrite (close_none J d f k p fv Q K V). reflexivity.
Qed.
(** A question without free variables is a conjecture; with free variables, the values for which it
    is true are answers. *)
Theorem C59_question_partial : forall f j, legal [] f -> spells f j -> exists out vs,
  (exists n0, forall n, n0 <= n -> read n RQuest j = Done out) /\ (forall x, In x vs <-> In x (fvars f)) /\
  forall D (J : stint D), inhabited D ->
    (sem (int_of J) none out <->
     match vs with
     | [] => ~ true_in (world_of J) f
     | _ => forall v, truth (world_of J) v f -> wp (world_of J) "$ans" (map v vs)
     end).
Proof.
  intros f j L S. destruct (read_runs f j L S) as (k & p & fv & Q & K & V & _ & _ & _ & R).
  eexists. exists fv. split; [exact R|]. split; [exact V|]. intros D J [d]. destruct fv as [|x fv].
  - cbn [mk_not sem]. pose proof (close_none J d f k p [] Q K V) as X. cbn [close] in X. rewrite X. reflexivity.
  - apply (question_sem J d f k p (x :: fv) Q K V).
Qed.
(** Names are kept apart: every interpretation of the names comes from one of the stored symbols, so
    that a file is satisfiable, over any domain, just when its formulas are. *)
Theorem C59_names_apart : forall D (w : world D), respects w -> exists J : stint D,
  forall f v, truth (world_of J) v f <-> truth w v f.
Proof. intros D w R. exists (world_back w). intros f v. apply back_truth with (n := fsize f); [exact R|lia]. Qed.
Theorem C59_document_partial : forall fs js, Forall2 (fun f j => legal [] f /\ spells f j) fs js -> exists outs,
  (exists n0, forall n, n0 <= n -> read_all n js = Done outs) /\
  (forall D (J : stint D), inhabited D -> (Forall (sem (int_of J) none) outs <-> Forall (true_in (world_of J)) fs)) /\
  (forall D, inhabited D -> ((exists J : stint D, Forall (sem (int_of J) none) outs) <->
                             (exists w : world D, respects w /\ Forall (true_in w) fs))).
Proof.
  intros fs js F. destruct (doc_reads fs js F) as (outs & R & H). exists outs. split; [exact R|].
  split; [intros D J [d]; exact (H D J d)|]. intros D [d]. split.
  - intros (J & X). exists (world_of J). split; [|apply (H D J d), X]. unfold respects.
    repeat (apply Forall_cons; [split; reflexivity|]). apply Forall_nil.
  - intros (w & Rw & X). destruct (C59_names_apart D w Rw) as (J & T). exists J. apply (H D J d).
    eapply Forall_impl; [|exact X]. intros f Y v. apply T, Y.
Qed.

(** ** Where the full statement fails *)
(** Bird(a) and not Bird(a): the negated name is another symbol *)
Theorem C59_capital_refuted : exists outs (J : stint unit),
  read_all 10 [JArr [JStr "Bird"; JStr "a"]; JArr [JStr "-Bird"; JStr "a"]] = Done outs /\
  spells (FAtom "Bird" [TC "a"]) (JArr [JStr "Bird"; JStr "a"]) /\
  spells (FNeg "Bird" [TC "a"]) (JArr [JStr "-Bird"; JStr "a"]) /\
  Forall (sem (int_of J) none) outs /\
  forall D (w : world D), D -> ~ (true_in w (FAtom "Bird" [TC "a"]) /\ true_in w (FNeg "Bird" [TC "a"])).
Proof.
  eexists. exists (mkJ (fun _ => tt) (fun _ _ => tt) (fun k _ => k = KName (Some "c") "Bird")).
  split; [vm_compute; reflexivity|].
  split; [apply S_atom; repeat constructor|]. split; [apply S_neg; repeat constructor|].
  split; [|intros D w d [A B]; exact (B (fun _ => d) (A (fun _ => d)))].
  constructor; [reflexivity|]. constructor; [|constructor]. cbn. discriminate.
Qed.
(** A name that has a dash or other special character, also: ["-part_of","a"] is fine, ["-part-of","a"] not *)
Theorem C59_dash_refuted : exists outs (J : stint unit),
  read_all 10 [JArr [JStr "part-of"; JStr "a"]; JArr [JStr "-part-of"; JStr "a"]] = Done outs /\
  Forall (sem (int_of J) none) outs /\
  forall D (w : world D), D -> ~ (true_in w (FAtom "part-of" [TC "a"]) /\ true_in w (FNeg "part-of" [TC "a"])).
Proof.
  eexists. exists (mkJ (fun _ => tt) (fun _ _ => tt) (fun k _ => k = KName (Some "c") "part-of")).
  split; [vm_compute; reflexivity|].
  split; [|intros D w d [A B]; exact (B (fun _ => d) (A (fun _ => d)))].
  constructor; [reflexivity|]. constructor; [|constructor]. cbn. discriminate.
Qed.
(** Words that the documentation does not reserve: ["imp","a","b"] is an implication *)
Theorem C59_words_refuted : exists out (J : stint unit), spells (FAtom "imp" [TC "a"; TC "b"]) (JArr [JStr "imp"; JStr "a"; JStr "b"]) /\
  read 10 RAx (JArr [JStr "imp"; JStr "a"; JStr "b"]) = Done out /\ read 10 RAx (JArr [JStr "all"; JStr "a"; JStr "b"]) = Err /\
  sem (int_of J) none out /\ ~ true_in (world_of J) (FAtom "imp" [TC "a"; TC "b"]).
Proof.
  eexists. exists (mkJ (fun _ => tt) (fun _ _ => tt) (fun _ _ => False)).
  split; [apply S_atom; repeat constructor|]. split; [vm_compute; reflexivity|]. split; [vm_compute; reflexivity|].
  split; [cbn; tauto|]. intros X. exact (X (fun _ => tt)).
Qed.
(** An operator name as a constant turns the atom into a formula: likes(john,or) is a disjunction *)
Theorem C59_operator_refuted : exists out (J : stint unit),
  spells (FAtom "likes" [TC "john"; TC "or"]) (JArr [JStr "likes"; JStr "john"; JStr "or"]) /\
  read 10 RAx (JArr [JStr "likes"; JStr "john"; JStr "or"]) = Done out /\
  sem (int_of J) none out /\ ~ true_in (world_of J) (FAtom "likes" [TC "john"; TC "or"]).
Proof.
  eexists. exists (mkJ (fun _ => tt) (fun _ _ => tt) (fun k _ => k = KName None "john")).
  split; [apply S_atom; repeat constructor|]. split; [vm_compute; reflexivity|].
  split; [right; left; reflexivity|]. intros X. specialize (X (fun _ => tt)). vm_compute in X. discriminate.
Qed.
(** What follows an equation is dropped: "a = b & q" is read as "a = b" *)
Theorem C59_dropped_refuted :
  read 10 RAx (JArr [JStr "a"; JStr "="; JStr "b"; JStr "&"; JArr [JStr "q"]]) = read 10 RAx (JArr [JStr "a"; JStr "="; JStr "b"]) /\
  exists out, read 10 RAx (JArr [JStr "a"; JStr "="; JStr "b"]) = Done out.
Proof. split; [vm_compute; reflexivity|]. eexists. vm_compute. reflexivity. Qed.
(** The empty string ends the program *)
Theorem C59_empty_string_refuted : spells (FAtom "p" [TC ""]) (JArr [JStr "p"; JStr ""]) /\
  forall n, read (S (S n)) RAx (JArr [JStr "p"; JStr ""]) = Crash.
Proof. split; [apply S_atom; repeat constructor|]. intros n. reflexivity. Qed.
(** The list notation of the documentation is an error *)
Theorem C59_list_refuted : forall n, read (S (S (S n))) RAx (JArr [JStr "p"; JArr [JInt 1; JInt 2; JInt 3]]) = Err.
Proof. intros n. vm_compute. reflexivity. Qed.
(** Integers are cut to 32 bits: p(1) and not p(4294967297) contradict each other *)
Theorem C59_integer_refuted : exists outs,
  read_all 10 [JArr [JStr "p"; JInt 1]; JArr [JStr "-p"; JInt 4294967297]] = Done outs /\
  (forall D (J : stint D), ~ Forall (sem (int_of J) none) outs) /\
  exists w : world Z, respects w /\ true_in w (FAtom "p" [TN 1]) /\ true_in w (FNeg "p" [TN 4294967297]).
Proof.
  eexists. split; [vm_compute; reflexivity|]. split.
  - intros D J X. inversion X as [|? ? X1 X2]; subst. inversion X2 as [|? ? X3 _]; subst.
    cbn in X1, X3. apply X3. exact X1.
  - exists (mkW (fun _ => 0%Z) (fun z => z) (fun _ _ => 0%Z) (fun _ l => l = [1%Z])). split; [|split].
    + repeat (apply Forall_cons; [split; reflexivity|]). apply Forall_nil.
    + intros v. reflexivity.
    + intros v X. cbn in X. discriminate.
Qed.

Print Assumptions C59_formula_partial.
Print Assumptions C59_conjecture_partial.
Print Assumptions C59_question_partial.
Print Assumptions C59_names_apart.
Print Assumptions C59_document_partial.
Print Assumptions C59_capital_refuted.
Print Assumptions C59_dash_refuted.
Print Assumptions C59_words_refuted.
Print Assumptions C59_operator_refuted.
Print Assumptions C59_dropped_refuted.
Print Assumptions C59_empty_string_refuted.
Print Assumptions C59_list_refuted.
Print Assumptions C59_integer_refuted.

(** ** The hypotheses are met by an ordinary file: a rule with conditions, a nested quantifier, an
    equation with arithmetic, a clause and a fact *)
Definition ex_rule : form :=
  FIf [FAtom "bird" [TV "?:X"]; FForall ["Y"] (FBin BImp (FNeg "small" [TV "?:X"]) (FAtom "q" [TV "Y"; TC "Tweety"]))]
      [FAtom "canary" [TV "?:X"]; FNeq (TC "a") (TF "+" [TV "?:X"; TN 1])].
Definition ex_rule_j : json :=
  JArr [JStr "if"; JArr [JStr "bird"; JStr "?:X"];
        JArr [JStr "forall"; JArr [JStr "Y"]; JArr [JArr [JStr "-small"; JStr "?:X"]; JStr "=>"; JArr [JStr "q"; JStr "Y"; JStr "Tweety"]]];
        JStr "then"; JArr [JStr "canary"; JStr "?:X"]; JArr [JStr "a"; JStr "!="; JArr [JStr "?:X"; JStr "+"; JInt 1]]].
Definition ex_clause : form := FOr [FNeg "bird" [TV "?:X"]; FNot (FAtom "flies" [TV "?:X"]); FAnd [FTruth true; FAtom "r" []; FAtom "s" []]].
Definition ex_clause_j : json :=
  JArr [JArr [JStr "-bird"; JStr "?:X"]; JArr [JStr "~"; JArr [JStr "flies"; JStr "?:X"]];
        JArr [JBool true; JStr "and"; JArr [JStr "r"]; JStr "and"; JArr [JStr "s"]]].
Example C59_ex_rule : legal [] ex_rule /\ spells ex_rule ex_rule_j.
Proof.
  split.
  - cbn. unfold name_ok, plain, int32. repeat split; try discriminate; try reflexivity; try (cbn; intuition discriminate); try lia; auto.
    constructor; [right; reflexivity|constructor].
  - apply (S_if [_; _] [_; _] [_; _] [_; _]); try discriminate.
    + constructor; [apply S_atom; repeat constructor|]. constructor; [|constructor].
      apply (S_forall ["Y"]). apply (S_bin BImp); [apply S_neg; repeat constructor|apply S_atom; repeat constructor].
    + constructor; [apply S_atom; repeat constructor|]. constructor; [|constructor].
      apply S_neq; [cbn; auto|constructor|]. apply ST_op; [cbn; auto|constructor|constructor].
Qed.
Example C59_ex_clause : legal [] ex_clause /\ spells ex_clause ex_clause_j.
Proof.
  split.
  - cbn. unfold name_ok, plain. repeat split; try discriminate; try reflexivity; try (cbn; intuition discriminate); auto.
  - apply S_clause; [discriminate| |repeat constructor].
    constructor; [apply S_neg; repeat constructor|]. constructor; [apply S_not; [cbn; auto|apply S_atom; repeat constructor]|].
    constructor; [|constructor]. apply (S_and "and" _ [_; _; _]); [cbn; auto|cbn; lia|].
    constructor; [apply S_truth|]. constructor; [apply S_atom; constructor|]. constructor; [apply S_atom; constructor|constructor].
Qed.
Example C59_ex_document : exists outs, (exists n0, forall n, n0 <= n -> read_all n [ex_rule_j; ex_clause_j] = Done outs) /\
  forall D, inhabited D -> ((exists J : stint D, Forall (sem (int_of J) none) outs) <->
                            (exists w : world D, respects w /\ Forall (true_in w) [ex_rule; ex_clause])).
Proof.
  destruct (C59_document_partial [ex_rule; ex_clause] [ex_rule_j; ex_clause_j]) as (outs & (n0 & R) & _ & H).
  { constructor; [exact C59_ex_rule|]. constructor; [exact C59_ex_clause|constructor]. }
  exists outs. split; [exists n0; exact R|exact H].
Qed.
Example C59_ex_question : exists out vs, (exists n0, forall n, n0 <= n -> read n RQuest (JArr [JStr "bird"; JStr "?:X"]) = Done out) /\
  (forall x, In x vs <-> x = "?:X").
Proof.
  destruct (C59_question_partial (FAtom "bird" [TV "?:X"]) (JArr [JStr "bird"; JStr "?:X"])) as (out & vs & R & V & _).
  - cbn. unfold name_ok. repeat split; try discriminate; try reflexivity; try (cbn; intuition discriminate).
  - apply S_atom. repeat constructor.
  - exists out, vs. split; [exact R|]. intros x. rewrite (V x). cbn. intuition.
Qed.
