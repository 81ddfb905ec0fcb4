(** C46: which literals of a clause are used in resolution. *)
From Coq Require Import List ZArith Bool Lia.
From Verif Require Import Terms OrdModel OrdSpec SelModel SelSpec SelEnd.
Import ListNotations.
Open Scope Z_scope.

(** Under every strategy an ordinary literal is left, if the constants of the clause can be ranked
    and every comparison has an ordinary literal of its sign beside it. *)
Theorem C46_some_literal_left_partial : forall word is_uri uid hard s allowall hyperpartial cl,
  (forall b t, min_hardness <= hard b t) -> orderly word is_uri uid (csts cl) -> accompanied cl ->
  (exists l, In l cl /\ ordinary l) ->
  exists i l, ordinary l /\ selected cl (select word is_uri uid hard s allowall hyperpartial cl) i l.
Proof. exact some_left. Qed.
Print Assumptions C46_some_literal_left_partial.
(** Constants of one kind can be ranked. *)
Theorem C46_one_kind_is_orderly : forall word is_uri uid cs, same_kind word is_uri uid cs -> orderly word is_uri uid cs.
Proof. exact kind_orderly. Qed.
Print Assumptions C46_one_kind_is_orderly.

(** The ordering strategy leaves exactly the literals with no bigger one in the clause. *)
Theorem C46_maximal_exactly_partial : forall word is_uri uid hard s hyperpartial cl i l,
  kb s = true -> orderly word is_uri uid (csts cl) -> (forall k, In k cl -> few_vars (atom k)) ->
  (2 <= length cl)%nat -> nth_error cl i = Some l ->
  selected cl (select word is_uri uid hard s false hyperpartial cl) i l <->
  ordinary l /\ forall k, In k cl -> ordinary k -> ~ bigger word is_uri uid (atom k) (atom l).
Proof. exact kb_exact. Qed.
Print Assumptions C46_maximal_exactly_partial.
(** [bigger] is a strict order that every substitution keeps. *)
Theorem C46_bigger_irreflexive : forall word is_uri uid x, ~ bigger word is_uri uid x x.
Proof. exact big_irrefl. Qed.
Print Assumptions C46_bigger_irreflexive.
Theorem C46_bigger_transitive : forall word is_uri uid x y z, orderly word is_uri uid (tcsts x ++ tcsts y ++ tcsts z) ->
  bigger word is_uri uid x y -> bigger word is_uri uid y z -> bigger word is_uri uid x z.
Proof. exact big_trans. Qed.
Print Assumptions C46_bigger_transitive.
Theorem C46_bigger_stable : forall word is_uri uid s x y, (forall i, headed (s i)) ->
  bigger word is_uri uid x y -> bigger word is_uri uid (app s x) (app s y).
Proof. exact big_stable. Qed.
Print Assumptions C46_bigger_stable.

(** The other strategies: all negative literals; one negative, or one positive, of the greatest
    hardness; everything. *)
Theorem C46_negative_hyperresolution : forall word is_uri uid hard s cl i l,
  kb s = false -> hyper s = true -> (2 <= length cl)%nat ->
  (exists k, In k cl /\ ans k = false /\ neg k = true) -> nth_error cl i = Some l ->
  selected cl (select word is_uri uid hard s false false cl) i l <-> neg l = true.
Proof. exact hyper_exact. Qed.
Print Assumptions C46_negative_hyperresolution.
Theorem C46_negative_preferred : forall word is_uri uid hard s hyperpartial cl i l,
  kb s = false -> negpref s = true -> pospref s = false -> hyper s = false -> (2 <= length cl)%nat ->
  (exists k, In k cl /\ ans k = false /\ neg k = true) -> ordinary l ->
  selected cl (select word is_uri uid hard s false hyperpartial cl) i l ->
  neg l = true /\ (forall k, In k cl -> ordinary k -> neg k = true -> hard false (atom k) <= hard false (atom l)) /\
  forall j k, ordinary k -> selected cl (select word is_uri uid hard s false hyperpartial cl) j k -> j = i.
Proof. exact neg_preferred. Qed.
Print Assumptions C46_negative_preferred.
Theorem C46_positive_preferred : forall word is_uri uid hard s hyperpartial cl i l,
  kb s = false -> negpref s = false -> pospref s = true -> hyper s = false -> (2 <= length cl)%nat ->
  (exists k, In k cl /\ ans k = false /\ neg k = false) -> ordinary l ->
  selected cl (select word is_uri uid hard s false hyperpartial cl) i l ->
  neg l = false /\ (forall k, In k cl -> ordinary k -> neg k = false -> hard true (atom k) <= hard true (atom l)) /\
  forall j k, ordinary k -> selected cl (select word is_uri uid hard s false hyperpartial cl) j k -> j = i.
Proof. exact pos_preferred. Qed.
Print Assumptions C46_positive_preferred.
Theorem C46_all_allowed : forall word is_uri uid hard s hyperpartial cl i l,
  nth_error cl i = Some l -> ordinary l -> selected cl (select word is_uri uid hard s true hyperpartial cl) i l.
Proof. exact all_allowed. Qed.
Print Assumptions C46_all_allowed.

(** In a clause with other literals no strategy lets an answer be resolved upon. *)
Theorem C46_answers_left_alone : forall word is_uri uid hard s allowall hyperpartial cl i l,
  (2 <= length cl)%nat -> ans l = true -> neg l = false ->
  ~ selected cl (select word is_uri uid hard s allowall hyperpartial cl) i l.
Proof. exact answers_alone. Qed.
Print Assumptions C46_answers_left_alone.

(* ---- where the full property fails ---- *)
Definition plain (n : bool) (t : term) : lit := {| neg := n; ans := false; spc := false; atom := t |}.
Definition no_flags : flags := {| kb := false; negpref := false; pospref := false; hyper := false; qfocus := false; hardpref := false |}.
Definition kb_flags : flags := {| kb := true; negpref := false; pospref := false; hyper := false; qfocus := false; hardpref := false |}.
Definition neg_flags : flags := {| kb := false; negpref := true; pospref := false; hyper := false; qfocus := false; hardpref := false |}.
(** Long strings: the word is the offset with the tag; offset 160 holds a string, the others are
    names, numbered in the order they were made. *)
Definition lword (c : cst) : Z := match c with CLong o => 8 * o + 4 | CImm w => w | _ => 0 end.
Definition luri (c : cst) : bool := match c with CLong o => negb (o =? 160) | _ => false end.
Definition lid (c : cst) : Z := match c with CLong o => o / 16 | _ => 0 end.
Definition p1 (o : Z) : term := TRec [TCst (CLong 16); TCst (CLong o)].
(** p(b) | p(a) | p("s"), made in the order p, a, "s", b: no literal is left. *)
Definition cyclic : list lit := [plain false (p1 320); plain false (p1 80); plain false (p1 160)].
Theorem C46_ordering_refuted : exists word is_uri uid hard cl,
  (forall b t, min_hardness <= hard b t) /\ (2 <= length cl)%nat /\ (forall l, In l cl -> ordinary l) /\
  (forall c d, In c (csts cl) -> In d (csts cl) -> c <> d -> word c <> word d /\ (is_uri c = true -> is_uri d = true -> uid c <> uid d)) /\
  forall i l, ~ selected cl (select word is_uri uid hard kb_flags false false cl) i l.
Proof.
  exists lword, luri, lid, (fun _ _ => 0), cyclic. split; [intros; unfold min_hardness; lia|]. split; [cbn; lia|].
  split; [intros l [<-|[<-|[<-|[]]]]; split; reflexivity|]. split.
  - intros c d Hc Hd D.
    assert (C : forall e, In e (csts cyclic) -> e = CLong 16 \/ e = CLong 320 \/ e = CLong 80 \/ e = CLong 160) by (cbn; intuition auto).
    destruct (C c Hc) as [->|[->|[->| ->]]], (C d Hd) as [->|[->|[->| ->]]]; try contradiction; vm_compute; split; intros; discriminate.
  - intros i l [_ E]. destruct i as [|[|[|i]]]; vm_compute in E; try discriminate; now destruct i.
Qed.
Print Assumptions C46_ordering_refuted.
(** -$less(X,Y) | p(X) | q(Y) when negative literals are preferred: only the comparison is left. *)
Definition compared : list lit :=
  [{| neg := true; ans := false; spc := true; atom := TRec [TCst (CLong 16); TVar 0; TVar 1] |};
   plain false (TRec [TCst (CLong 32); TVar 0]); plain false (TRec [TCst (CLong 48); TVar 1])].
Theorem C46_comparison_refuted : exists word is_uri uid hard cl,
  (forall b t, min_hardness <= hard b t) /\ orderly word is_uri uid (csts cl) /\ (exists l, In l cl /\ ordinary l) /\
  forall i l, ordinary l -> ~ selected cl (select word is_uri uid hard neg_flags false false cl) i l.
Proof.
  exists lword, (fun _ => false), lid, (fun _ _ => 0), compared. split; [intros; unfold min_hardness; lia|]. split.
  - apply C46_one_kind_is_orderly. split; [|left; reflexivity].
    intros c d Hc Hd E.
    assert (C : forall e, In e (csts compared) -> e = CLong 16 \/ e = CLong 32 \/ e = CLong 48) by (cbn; intuition auto).
    destruct (C c Hc) as [->|[->| ->]], (C d Hd) as [->|[->| ->]]; try reflexivity; vm_compute in E; discriminate.
  - split; [exists (plain false (TRec [TCst (CLong 32); TVar 0])); split; [cbn; auto|split; reflexivity]|].
    intros i l [_ O] [Hi E]. destruct i as [|[|[|i]]]; vm_compute in E; try discriminate; [|now destruct i].
    cbn in Hi. injection Hi as <-. discriminate.
Qed.
Print Assumptions C46_comparison_refuted.

(* ---- the hypotheses are met ---- *)
(** p(f(X)) | -p(X) | q(Y,5), with an answer literal. *)
Definition ex1 : list lit :=
  [plain false (TRec [TCst (CLong 16); TRec [TCst (CLong 32); TVar 0]]); plain true (TRec [TCst (CLong 16); TVar 0]);
   plain false (TRec [TCst (CLong 48); TVar 1; TCst (CImm 43)]);
   {| neg := false; ans := true; spc := false; atom := TRec [TCst (CLong 64); TVar 0] |}].
Example C46_nonvacuous : (forall b t, min_hardness <= (fun (_ : bool) (_ : term) => 7) b t) /\
  orderly lword luri lid (csts ex1) /\ accompanied ex1 /\ (forall k, In k ex1 -> few_vars (atom k)) /\
  select lword luri lid (fun _ _ => 7) kb_flags false false ex1 = [true; false; true; false] /\
  select lword luri lid (fun _ _ => 7) neg_flags false false ex1 = [false; true; false; false] /\
  select lword luri lid (fun _ _ => 7) no_flags false false ex1 = [true; true; true; false] /\
  bigger lword luri lid (TRec [TCst (CLong 16); TRec [TCst (CLong 32); TVar 0]]) (TRec [TCst (CLong 16); TVar 0]).
Proof.
  split; [intros; unfold min_hardness; lia|]. split.
  - exists (fun c => match c with CLong o => o / 16 | _ => 100 end). intros c d Hc Hd D.
    assert (C : forall e, In e (csts ex1) -> e = CLong 16 \/ e = CLong 32 \/ e = CLong 48 \/ e = CLong 64 \/ e = CImm 43) by (cbn; intuition auto).
    destruct (C c Hc) as [->|[->|[->|[->| ->]]]], (C d Hd) as [->|[->|[->|[->| ->]]]]; try contradiction; vm_compute; intuition congruence.
  - split; [|split; [|split; [reflexivity|split; [reflexivity|split; [reflexivity|]]]]].
    + intros l Hl A. exists l. split; [exact Hl|]. split; [|reflexivity]. destruct Hl as [<-|[<-|[<-|[<-|[]]]]]; try discriminate A; split; reflexivity.
    + intros k [<-|[<-|[<-|[<-|[]]]]]; unfold few_vars; cbn; lia.
    + split; [intro v; unfold occurrences; cbn; destruct (Z.eq_dec 0 v); lia|left; cbn; lia].
Qed.
(** Positive preference, hyperresolution. *)
Example C46_nonvacuous_2 :
  let pos := {| kb := false; negpref := false; pospref := true; hyper := false; qfocus := false; hardpref := false |} in
  let hyp := {| kb := false; negpref := false; pospref := false; hyper := true; qfocus := false; hardpref := false |} in
  select lword luri lid (fun _ t => Z.of_nat (leaves t)) pos false false ex1 = [true; false; false; false] /\
  select lword luri lid (fun _ _ => 7) hyp false false ex1 = [false; true; false; false] /\
  select lword luri lid (fun _ _ => 7) kb_flags true false ex1 = [true; true; true; false].
Proof. repeat split. Qed.
