(** C63: every kept clause gets its turn. *)
From Coq Require Import List ZArith Bool Lia Permutation.
From Verif Require Import VecModel VecSpec QueueModel QueueSpec PickModel PickSpec PickProof PickRun PickInv PickFair PickMore.
Import ListNotations.
Open Scope Z_scope.

(** C63.  A clause kept by the search is chosen as given clause within a fixed number of choices, whatever
    is kept in the meantime: nine times one more than the ratio of choices by weight, for every
    clause of its class kept up to then.  Counted are the choices made when no partial hyperresolvent
    was waiting. *)
Theorem C63_fair_partial : forall cfg tr s c w s1 tr2 s2,
  history cfg tr s -> step cfg s (Kept c w) s1 -> steps cfg s1 tr2 s2 -> fits (tr ++ Kept c w :: tr2) ->
  9 * (Z.max 0 (ratio cfg) + 1) * (Z.of_nat (length (kept_in cfg (class (strat cfg) c) tr)) + 1) <= turns tr2 ->
  In (addr c) (chosen tr2).
Proof. exact fair. Qed.
Print Assumptions C63_fair_partial.
(** Missing: choices of partial hyperresolvents have to be left out of the count.  With them a kept
    clause can wait for any number of choices, in every configuration. *)
Theorem C63_fair_refuted : forall cfg n, good cfg -> Z.of_nat n < index_max - 8 ->
  exists tr s c w s1 tr2 s2, history cfg tr s /\ step cfg s (Kept c w) s1 /\ steps cfg s1 tr2 s2 /\ fits (tr ++ Kept c w :: tr2) /\
    length (chosen tr2) = n /\ ~ In (addr c) (chosen tr2).
Proof.
  intros cfg n G Hn. set (c := {| addr := 100; role := 1; rule := true; lits := [(true, false)] |}).
  pose proof (new_inv_pick cfg (fun _ => 0) G) as I0.
  assert (E : exists s1, push_cl cfg true true (fun _ => 0) (fun _ => 0) (create cfg (fun _ => 0)) c (-1) = Some s1 /\ hyper s1 = hyper (create cfg (fun _ => 0))).
  { unfold push_cl. destruct (iv_blk _ _ _ I0 (class (strat cfg) c)) as [V _ _ _ _ _ _ _ _]. cbn [kept_in flat_map] in V.
    destruct (cv_push_ok _ _ _ (fun _ => 0) 100 V) as (v&EV); [cbv; reflexivity|]. change (addr c) with 100. rewrite EV. cbn [Z.leb Z.compare]. eexists. split; reflexivity. }
  destruct E as (s1&E&HH). assert (S1 : step cfg (create cfg (fun _ => 0)) (Kept c (-1)) s1) by (apply (st_kept cfg _ c (-1) true true (fun _ => 0) (fun _ => 0) s1); [discriminate|exact E]).
  assert (FL : forall m, length (filter is_kept (rounds 200 m)) = m) by (induction m; cbn; [reflexivity|rewrite IHm; reflexivity]).
  assert (F : fits ([Kept c (-1)] ++ rounds 200 n)) by (unfold fits; cbn [app filter is_kept length]; rewrite FL; lia).
  pose proof (step_inv _ [] _ _ _ I0 S1 (fits_app _ _ F)) as I1.
  destruct (rounds_run cfg 200 ltac:(discriminate) n _ s1 I1) as (s2&S2); [|exact F|].
  { destruct (iv_hyp _ _ _ I1) as (pos&rest&H1). assert (rest = []) as -> by (destruct H1 as (_&_&_&K&_); symmetry; exact K). exists pos. exact H1. }
  exists [], (create cfg (fun _ => 0)), c, (-1), s1, (rounds 200 n), s2.
  split; [split; [exact G|exists (fun _ => 0); constructor]|]. split; [exact S1|]. split; [exact S2|]. split; [exact F|].
  rewrite rounds_chosen. split; [apply repeat_length|]. intros X. apply repeat_spec in X. discriminate.
Qed.
Print Assumptions C63_fair_refuted.

(** While a class has a clause that was not yet chosen, at least one of any nine choices is from that class. *)
Theorem C63_turn : forall cfg tr s c w tr2 s2,
  history cfg tr s -> In (Kept c w) tr -> ~ In (addr c) (chosen tr) -> steps cfg s tr2 s2 -> fits (tr ++ tr2) ->
  9 <= turns tr2 -> exists e, In e tr2 /\ from_class (class (strat cfg) c) e.
Proof. exact turn. Qed.
Print Assumptions C63_turn.

(** The search finds nothing left to choose only when every kept clause was chosen. *)
Theorem C63_exhausted : forall cfg tr s s', history cfg tr s -> fits tr -> step cfg s NoneLeft s' ->
  (forall c w, In (Kept c w) tr -> In (addr c) (chosen tr)) /\ (forall c, In (KeptHyper c) tr -> In c (chosen tr)).
Proof. exact dry. Qed.
Print Assumptions C63_exhausted.
(** A choice always comes to an end, without reading outside the vectors. *)
Theorem C63_defined : forall cfg tr s, history cfg tr s -> fits tr -> exists r s', select s = Some (r, s').
Proof. exact select_defined. Qed.
Print Assumptions C63_defined.

(** Only kept clauses are chosen: by age in the order they were kept, by weight each at most once,
    and partial hyperresolvents in the order they were kept. *)
Theorem C63_sources : forall cfg tr s b, history cfg tr s -> fits tr ->
  (exists rest, kept_in cfg b tr = by_age b tr ++ rest) /\
  (exists rest, Permutation (map snd (weighed_in cfg b tr)) (by_weight b tr ++ rest)) /\
  (exists rest, kept_hyper tr = by_hyper tr ++ rest).
Proof. exact sources. Qed.
Print Assumptions C63_sources.
(** A choice by weight is of least weight among the clauses of the class not chosen by weight before. *)
Theorem C63_lightest : forall cfg tr s b c s', history cfg tr s -> fits tr -> step cfg s (Chosen (Light b) c) s' ->
  exists w, In (w, c) (weighed_in cfg b tr) /\
    forall w' c', In (w', c') (weighed_in cfg b tr) -> ~ In c' (by_weight b tr) -> w <= w'.
Proof. exact lightest. Qed.
Print Assumptions C63_lightest.
(** No clause is chosen more than twice for each time it was kept. *)
Theorem C63_once_partial : forall cfg tr s c, history cfg tr s -> fits tr ->
  (count_occ Z.eq_dec (chosen tr) c <= 2 * count_occ Z.eq_dec (kept_all tr) c + count_occ Z.eq_dec (kept_hyper tr) c)%nat.
Proof. exact twice. Qed.
Print Assumptions C63_once_partial.

Definition kc (a r : Z) : cinfo := {| addr := a; role := r; rule := true; lits := [(true, false)] |}.
Definition cfg0 (st : Z) : config := {| strat := st; ratio := 5; els := 4; hels := 4; maxp := 20 |}.
Lemma good0 st : good (cfg0 st).
Proof. unfold good. cbn [cfg0 els hels maxp]. unfold index_max. repeat split; try lia. Qed.

(** Full statement: a clause kept once is chosen at most once ("it gives only previously unpicked
    clauses", clstore.c 1307).  It is chosen again by age after it was chosen by weight. *)
Theorem C63_once_refuted : exists cfg tr s c, history cfg tr s /\ fits tr /\ kept_all tr = [c] /\ kept_hyper tr = [] /\ chosen tr = [c; c].
Proof.
  destruct (exec_history (cfg0 0) [CKeep (kc 100 10) 3; CSelect; CSelect] _ (good0 0) ltac:(vm_compute; reflexivity)) as (s&H).
  eexists (cfg0 0), _, s, 100. split; [exact H|]. split; [cbv; reflexivity|]. repeat split.
Qed.
Print Assumptions C63_once_refuted.

(** The classes of the choices by age *)
Definition classes (tr : list event) : list Z := flat_map (fun e => match e with Chosen (Oldest k) _ => [k] | _ => [] end) tr.
Definition seven (r a : Z) : list cmd := map (fun i => CKeep (kc (a + Z.of_nat i) r) (-1)) (seq 0 7).
(** Full statement: a class is picked as often as its ratio says before the others (clstore.c 835, ratios 6, 4,
    1, 1).  With seven clauses waiting in each class the first two get four and three choices. *)
Theorem C63_ratio_refuted : exists cfg tr s, history cfg tr s /\ fits tr /\
  map (this_ratio (strat cfg)) [0; 1; 2; 3] = [6; 4; 1; 1] /\ (forall b, B4 b -> length (kept_in cfg b tr) = 7%nat) /\
  classes tr = [0; 0; 0; 0; 1; 1; 1; 2; 3; 0].
Proof.
  destruct (exec_history (cfg0 1) (seven 3 100 ++ seven 4 200 ++ seven 5 300 ++ seven 11 400 ++ repeat CSelect 10) _ (good0 1) ltac:(vm_compute; reflexivity)) as (s&H).
  eexists (cfg0 1), _, s. split; [exact H|]. split; [cbv; reflexivity|]. split; [reflexivity|]. split; [|reflexivity].
  intros b [-> |[-> |[-> | ->]]]; reflexivity.
Qed.
Print Assumptions C63_ratio_refuted.

(** The class of a clause under strategy 1, by what its role says (history.h 124-132). *)
Theorem C63_class : forall c,
  (class 1 c = 0 <-> role c = 3) /\ (class 1 c = 1 <-> role c = 1 \/ role c = 4) /\ (class 1 c = 2 <-> role c = 2 \/ role c = 5) /\ class 0 c = 3.
Proof.
  intros c. unfold class, adjusted. cbn [Z.eqb Pos.eqb negb].
  repeat match goal with |- context [role c =? ?k] => destruct (Z.eqb_spec (role c) k) end; lia.
Qed.
Print Assumptions C63_class.
(** A unit without a minus sign, and a unit that is negative or an answer; facts are stored without signs. *)
Definition pos_unit (c : cinfo) : Prop := rule c = false \/ lits c = [] \/ exists a, lits c = [(false, a)].
Definition neg_unit (c : cinfo) : Prop := rule c = true /\ (lits c = [] \/ (exists a, lits c = [(true, a)]) \/ lits c = [(false, true)]).
(** Strategy 2 moves positive units away from the goals to the assumptions, with the axioms; strategy 3
    moves all other clauses than negative units of the goal, and all assumptions, to the axioms;
    strategy 4 treats all clauses as axioms.  Everything else is as under strategy 1. *)
Theorem C63_class_moved : forall c,
  (role c = 1 /\ pos_unit c -> class 2 c = 2) /\ (role c = 10 -> class 2 c = 2) /\
  (~ (role c = 1 /\ pos_unit c) -> role c <> 10 -> class 2 c = class 1 c) /\
  (role c = 1 /\ ~ neg_unit c -> class 3 c = 3) /\ (role c = 2 -> class 3 c = 3) /\
  (~ (role c = 1 /\ ~ neg_unit c) -> role c <> 2 -> class 3 c = class 1 c) /\
  class 4 c = 3.
Proof.
  assert (P : forall c, pos_unit c <-> positive_unit c = true).
  { intros [a r ru l]. unfold pos_unit, positive_unit. cbn [rule lits]. destruct ru; cbn [negb]; [|intuition].
    destruct l as [|[g x] [|y t]].
    - cbn. intuition.
    - cbn. destruct g; cbn; split; intros H; [|discriminate| |]; try (right; right; exists x; reflexivity); try reflexivity.
      destruct H as [H|[H|(z&H)]]; discriminate.
    - replace (1 <? Z.of_nat (length ((g, x) :: y :: t))) with true by (symmetry; apply Z.ltb_lt; cbn [length]; lia).
      split; [intros [H|[H|(z&H)]]; discriminate|discriminate]. }
  assert (N : forall c, neg_unit c <-> negative_cl c = true).
  { intros [a r ru l]. unfold neg_unit, negative_cl. cbn [rule lits]. destruct ru; cbn [negb]; [|split; [intros [H _]|]; discriminate].
    destruct l as [|[g x] [|y t]].
    - cbn. intuition.
    - destruct g, x; cbn; split; intros H; try reflexivity; try discriminate; try (split; [reflexivity|right]).
      + left; exists true; reflexivity. + left; exists false; reflexivity. + right; reflexivity.
      + destruct H as [_ [H|[(z&H)|H]]]; discriminate.
    - replace (1 <? Z.of_nat (length ((g, x) :: y :: t))) with true by (symmetry; apply Z.ltb_lt; cbn [length]; lia).
      split; [intros [_ [H|[(z&H)|H]]]; discriminate|discriminate]. }
  intros c. rewrite (P c), (N c). unfold class, adjusted. cbn [Z.eqb Pos.eqb negb].
  assert (T : forall k, role c = k \/ role c <> k) by (intros k; lia).
  split; [intros [-> ->]; reflexivity|]. split; [intros ->; reflexivity|].
  split.
  { intros A B. apply Z.eqb_neq in B. rewrite B.
    destruct (T 1) as [E|E]; [rewrite E in *; destruct (positive_unit c); [exfalso; apply A; split; reflexivity|reflexivity]|].
    apply Z.eqb_neq in E. rewrite E. cbn [andb]. rewrite ?B, ?E. reflexivity. }
  split; [intros [-> A]; destruct (negative_cl c); [exfalso; apply A; reflexivity|reflexivity]|]. split; [intros ->; reflexivity|].
  split; [|reflexivity].
  intros A B. apply Z.eqb_neq in B. rewrite B.
  destruct (T 1) as [E|E]; [rewrite E in *; destruct (negative_cl c); [reflexivity|exfalso; apply A; split; [reflexivity|discriminate]]|].
  apply Z.eqb_neq in E. rewrite E. cbn [andb]. rewrite ?B, ?E. reflexivity.
Qed.
Print Assumptions C63_class_moved.
(** Full statement: strategy 3 keeps the fully negative goal clauses in the goal class (clstore.c 1046).
    It does so for single literals only. *)
Theorem C63_class_refuted : exists c d, role c = 1 /\ role d = 1 /\ forallb fst (lits c) = true /\ forallb fst (lits d) = true /\
  class 3 c = 1 /\ class 3 d = 3 /\ length (lits d) = 2%nat.
Proof.
  exists (kc 100 1), {| addr := 200; role := 1; rule := true; lits := [(true, false); (true, false)] |}.
  repeat split.
Qed.
Print Assumptions C63_class_refuted.

(** Hypotheses are met: two kept clauses and a partial hyperresolvent, chosen till none is left. *)
Example C63_nonvacuous :
  exists s, history (cfg0 1) [Kept (kc 100 1) 7; Kept (kc 200 11) 2; KeptHyper 300; Chosen Hyper 300; Chosen (Light 1) 100;
                              Chosen (Oldest 1) 100; Chosen (Light 3) 200; Chosen (Oldest 3) 200; NoneLeft] s.
Proof.
  apply (exec_history (cfg0 1) ([CKeep (kc 100 1) 7; CKeep (kc 200 11) 2; CHyper 300] ++ repeat CSelect 6)); [apply good0|vm_compute; reflexivity].
Qed.
(** A goal clause of weight 30 kept after lighter axioms is reached although axioms keep coming. *)
Example C63_reached : exists s tr, history (cfg0 0) tr s /\ In 900 (chosen tr) /\ kept_all tr = [901; 902; 900; 903; 904].
Proof.
  destruct (exec_history (cfg0 0) ([CKeep (kc 901 10) 1; CKeep (kc 902 10) 1; CKeep (kc 900 1) 30] ++
     [CSelect; CSelect; CKeep (kc 903 10) 1; CKeep (kc 904 10) 1; CSelect; CSelect; CSelect; CSelect]) _ (good0 0) ltac:(vm_compute; reflexivity)) as (s&H).
  exists s. eexists. split; [exact H|]. split; [cbn; auto 20|reflexivity].
Qed.
