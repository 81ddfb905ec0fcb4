(** C65: rewriting ends, and nothing rewritable is left. *)
From Coq Require Import List ZArith Bool Lia.
From Verif Require Import Terms UnifySpec TermsProof UnifyModel MatchModel RewriteModel RewriteSpec OrdModel OrdSpec OrdProof OrdThm OrdEnd
  NormModel NormSpec NormProof NormEnd NormStop.
Import ListNotations.
Open Scope Z_scope.

(** C65.  In the result of rewriting, no part but a truth constant is an instance of the larger side
    of a kept unit equation - wherever the equations are stored, whatever the hash function. *)
Theorem C65_nothing_left : forall sb comp word hash m loc kb n x s t s',
  terms_ok (loc ++ kb) -> enough word m (loc ++ kb) -> computes_simply comp (fun _ => True) -> clean s ->
  rewrite sb comp word hash m loc kb n x s = WOk t s' ->
  clean s' /\ forall u, part_of u t -> rewritable word (loc ++ kb) u -> truth u.
Proof. intros sb comp word hash m loc kb n x s t s' H1 H2 H3 H4 H5. exact (build_settles word m sb comp hash loc kb H1 H2 _ H3 n x s t s' H4 H5). Qed.
Print Assumptions C65_nothing_left.

Section C.
  Variables (word : cst -> Z) (m : nat) (hash : term -> Z) (loc kb : list (term * term)) (C : list cst) (rv : Z -> Prop).
  Hypothesis Hok : terms_ok (loc ++ kb).
  Hypothesis Hsm : small_equations (loc ++ kb).
  Hypothesis Hcs : constants_from C (loc ++ kb).
  Hypothesis Hvs : variables_from rv (loc ++ kb).
  Lemma rules_fit : forall k l r, In (l, r) (rules_at hash (stored word m loc) (stored word m kb) k) ->
    kbo word l r /\ good C l /\ good C r /\ (forall i, In i (tvars l) -> rv i).
  Proof.
    intros k l r H. assert (X : ord0 word l r = 1 /\ (In (l, r) (loc ++ kb) \/ In (r, l) (loc ++ kb))).
    { unfold rules_at, in_bucket in H. apply in_app_or in H. destruct H as [H|H]; apply filter_In in H; destruct H as [H _]; apply stored_in in H; destruct H as [O [I|I]]; split; auto using in_or_app. }
    destruct X as [O [I|I]]; destruct (Hok _ I) as [H1 H2]; destruct (Hsm _ I) as [F1 F2]; destruct (Hcs _ I) as [C1 C2]; cbn [fst snd] in *.
    - split; [apply ord_kbo; assumption|]. split; [split; assumption|]. split; [split; assumption|]. intros i V. apply (Hvs _ i I). auto.
    - split; [apply ord_kbo; assumption|]. split; [split; assumption|]. split; [split; assumption|]. intros i V. apply (Hvs _ i I). auto.
  Qed.
End C.

(** With equations of at most 1000 variables, and finitely many constants: rewriting ends ... *)
Theorem C65_ends_partial : forall sb comp word hash m loc kb C rv,
  terms_ok (loc ++ kb) -> small_equations (loc ++ kb) -> constants_from C (loc ++ kb) -> variables_from rv (loc ++ kb) ->
  computes_simply comp (fun c => In c C) ->
  forall x, headed x -> incl (tcsts x) C -> apart rv x ->
  exists n0, forall n s, (n0 <= n)%nat -> clean s -> rewrite sb comp word hash m loc kb n x s <> WFuel.
Proof.
  intros sb comp word hash m loc kb C rv H1 H2 H3 H4 H5 x H6 H7 H8.
  destruct (build_halts word C sb comp _ rv (rules_fit word m hash loc kb C rv H1 H2 H3 H4) H5 x (conj H6 H7) H8) as (n0&H). exists n0. intros n s L Cl. exact (H n L s Cl).
Qed.
Print Assumptions C65_ends_partial.

(** ... and gives the term itself or a smaller one, without new variables or constants. *)
Theorem C65_smaller_partial : forall sb comp word hash m loc kb C rv,
  terms_ok (loc ++ kb) -> small_equations (loc ++ kb) -> constants_from C (loc ++ kb) -> variables_from rv (loc ++ kb) ->
  computes_simply comp (fun c => In c C) ->
  forall n x s t s', clean s -> headed x -> few_vars x -> incl (tcsts x) C -> apart rv x ->
  rewrite sb comp word hash m loc kb n x s = WOk t s' ->
  (t = x \/ larger word x t) /\ headed t /\ incl (tvars t) (tvars x) /\ incl (tcsts t) C.
Proof.
  intros sb comp word hash m loc kb C rv H1 H2 H3 H4 H5 n x s t s' Cl H6 F H7 H8 H.
  destruct (build_shrinks word C sb comp _ rv (rules_fit word m hash loc kb C rv H1 H2 H3 H4) H5 n x s t s' Cl (conj H6 H7) H8 H) as (_&[G1 G2]&L).
  pose proof (le_vars word x t L) as V. split; [|auto]. destruct L as [L|L]; [left; exact L|right]. apply larger_ord. apply ord_kbo; auto. unfold few_vars in *. eapply Nat.le_trans; [|exact F]. apply nodup_mono, V.
Qed.
Print Assumptions C65_smaller_partial.

(** When built-in functions always answer, and reading past a boxed constant is harmless, rewriting
    answers with a term in which nothing is left to rewrite. *)
Theorem C65_normal_form_partial : forall comp word hash m loc kb C rv,
  terms_ok (loc ++ kb) -> small_equations (loc ++ kb) -> enough word m (loc ++ kb) ->
  constants_from C (loc ++ kb) -> variables_from rv (loc ++ kb) ->
  computes_simply comp (fun c => In c C) -> (forall fs, comp (TRec fs) <> None) ->
  forall x, headed x -> incl (tcsts x) C -> apart rv x ->
  exists n0, forall n s, (n0 <= n)%nat -> clean s -> exists t s',
    rewrite (fun _ => true) comp word hash m loc kb n x s = WOk t s' /\ clean s' /\
    forall u, part_of u t -> rewritable word (loc ++ kb) u -> truth u.
Proof.
  intros comp word hash m loc kb C rv H1 H2 HE H3 H4 H5 HT x H6 H7 H8.
  pose proof (rules_fit word m hash loc kb C rv H1 H2 H3 H4) as RF.
  destruct (C65_ends_partial (fun _ => true) comp word hash m loc kb C rv H1 H2 H3 H4 H5 x H6 H7 H8) as (n0&H). exists n0. intros n s L Cl. specialize (H n s L Cl).
  assert (P : plain (rewrite (fun _ => true) comp word hash m loc kb n x s)).
  { apply build_plain; [|exact HT]. intros k l r i I V. destruct (RF k l r I) as [K _]. apply (le_vars word l r (or_intror K) i V). }
  destruct (rewrite (fun _ => true) comp word hash m loc kb n x s) as [t s'| | |] eqn:E; try contradiction; try congruence. exists t, s'. split; [reflexivity|].
  apply (C65_nothing_left (fun _ => true) comp word hash m loc kb n x s t s'); auto. intros fs u U. destruct (H5 fs u U) as [Q|[Q|(c&_&Q)]]; eauto.
Qed.
Print Assumptions C65_normal_form_partial.

(** Only the larger side is replaced: equations whose sides the order does not compare are not used. *)
Theorem C65_unordered : forall sb comp word hash m loc kb n x s t s',
  (forall e, In e (loc ++ kb) -> ~ larger word (fst e) (snd e) /\ ~ larger word (snd e) (fst e)) ->
  (forall fs, comp (TRec fs) = Some (TRec fs)) ->
  rewrite sb comp word hash m loc kb n x s = WOk t s' -> t = x.
Proof.
  intros sb comp word hash m loc kb n x s t s' HN HC.
  assert (R : forall k, rules_at hash (stored word m loc) (stored word m kb) k = []).
  { intros k. destruct (rules_at hash (stored word m loc) (stored word m kb) k) as [|[l r] q] eqn:E; [reflexivity|]. exfalso.
    assert (I : In (l, r) (rules_at hash (stored word m loc) (stored word m kb) k)) by (rewrite E; left; reflexivity).
    unfold rules_at, in_bucket in I. apply in_app_or in I. destruct I as [I|I]; apply filter_In in I; destruct I as [I _]; apply stored_in in I; destruct I as [O [I|I]];
      apply larger_ord in O; (assert (J := in_or_app loc kb _ (or_introl I)) || assert (J := in_or_app loc kb _ (or_intror I))); destruct (HN _ J) as [N1 N2]; cbn [fst snd] in *; contradiction. }
  unfold rewrite. generalize (rules_at hash (stored word m loc) (stored word m kb)) R. clear - HC. intros rules R. revert x s t s'.
  induction n as [|n IH]; intros x s t s'; cbn [build_rw]; [discriminate|]. destruct x as [i|c|fs].
  - intros [= <- <-]. reflexivity.
  - destruct n as [|n]; cbn [rewrite_constant]; [discriminate|]. rewrite R. cbn. intros [= <- <-]. reflexivity.
  - assert (L : forall xs s ts s', w_loop (build_rw sb comp rules n) xs s = WsOk ts s' -> ts = xs).
    { induction xs as [|y ys IHy]; intros s0 ts s1; cbn [w_loop]; [intros [= <- <-]; reflexivity|]. destruct (build_rw sb comp rules n y s0) as [t0 s2| | |] eqn:E; try discriminate.
      apply IH in E. subst t0. destruct (w_loop (build_rw sb comp rules n) ys s2) as [ts' s3| | |] eqn:El; try discriminate. intros [= <- <-]. apply IHy in El. subst ts'. reflexivity. }
    destruct (w_loop (build_rw sb comp rules n) fs s) as [ts s1| | |] eqn:El; try discriminate. apply L in El. subst ts. unfold w_computed. rewrite HC. cbn [is_truth]. rewrite R. cbn. intros [= <- <-]. reflexivity.
Qed.
Print Assumptions C65_unordered.

(* ---- the hypotheses are met: f(X,0)=X, a=0, g(X)=g(h(X)) rewrite g(h(f(f(V,a),a))) ---- *)
Definition w0 (c : cst) : Z := match c with CImm k => k | _ => -1 end.
Definition k (i : Z) : term := TCst (CImm i).
Definition kf := k 11. Definition kg := k 12. Definition kh := k 13. Definition ka := k 20. Definition kz := k 30.
Definition loc0 : list (term * term) := [(TRec [kf; TVar 0; kz], TVar 0); (TRec [kg; TVar 0], TRec [kg; TRec [kh; TVar 0]])].
Definition kb0 : list (term * term) := [(ka, kz)].
Definition x0 : term := TRec [kg; TRec [kh; TRec [kf; TRec [kf; TVar 7; ka]; ka]]].
Definition C0 : list cst := [CImm 11; CImm 12; CImm 13; CImm 20; CImm 30].
Definition rv0 (i : Z) : Prop := i = 0.
Definition hash0 (t : term) : Z := match t with TCst (CImm k) => k mod 3 | _ => 0 end.
Example C65_nonvacuous : terms_ok (loc0 ++ kb0) /\ small_equations (loc0 ++ kb0) /\ enough w0 9 (loc0 ++ kb0) /\
  constants_from C0 (loc0 ++ kb0) /\ variables_from rv0 (loc0 ++ kb0) /\ computes_simply Some (fun c => In c C0) /\
  headed x0 /\ incl (tcsts x0) C0 /\ apart rv0 x0 /\ clean empty_vst /\
  larger_side w0 (TRec [kg; TVar 0], TRec [kg; TRec [kh; TVar 0]]) (TRec [kg; TRec [kh; TVar 0]]) /\
  rewritable w0 (loc0 ++ kb0) x0 /\
  exists s', rewrite (fun _ => true) Some w0 hash0 9 loc0 kb0 30 x0 empty_vst = WOk (TRec [kg; TVar 7]) s'.
Proof.
  assert (L : larger_side w0 (TRec [kg; TVar 0], TRec [kg; TRec [kh; TVar 0]]) (TRec [kg; TRec [kh; TVar 0]])) by (right; split; [reflexivity|exists 9%nat; reflexivity]).
  split; [intros e [<-|[<-|[<-|[]]]]; cbn; tauto|]. split; [intros e [<-|[<-|[<-|[]]]]; unfold few_vars; cbn; lia|].
  split; [intros e [<-|[<-|[<-|[]]]]; cbn; discriminate|]. split; [intros e [<-|[<-|[<-|[]]]]; split; intros c H; cbn in H |- *; tauto|].
  split; [intros e i [<-|[<-|[<-|[]]]] H; unfold rv0; cbn in H; intuition congruence|]. split; [intros fs t [= <-]; left; reflexivity|].
  split; [cbn; tauto|]. split; [intros c H; cbn in H |- *; tauto|]. split; [intros i H; unfold rv0; cbn in H; destruct H as [<-|[]]; discriminate|].
  split; [split; [intros i; reflexivity|reflexivity]|]. split; [exact L|].
  split; [eexists; eexists; exists (fun _ => TRec [kf; TRec [kf; TVar 7; ka]; ka]); split; [right; left; reflexivity|]; split; [exact L|reflexivity]|].
  eexists. reflexivity.
Qed.
(** Equations without a larger side: f(X,Y)=f(Y,X) leaves terms alone. *)
Example C65_nonvacuous_unordered : order_eqterms w0 9 nobind (TRec [kf; TVar 0; TVar 1]) (TRec [kf; TVar 1; TVar 0]) = Some 3 /\
  exists s', rewrite (fun _ => true) Some w0 hash0 9 [(TRec [kf; TVar 0; TVar 1], TRec [kf; TVar 1; TVar 0])] [] 30 (TRec [kf; ka; kz]) empty_vst = WOk (TRec [kf; ka; kz]) s'.
Proof. split; [reflexivity|]. eexists. reflexivity. Qed.
(** The result depends on the order in which equations are found: f(a)=b and f(X)=X. *)
Theorem C65_same_result_refuted : exists word hash m e1 e2 n x t1 t2 s1 s2,
  terms_ok [e1; e2] /\ enough word m [e1; e2] /\ t1 <> t2 /\
  rewrite (fun _ => true) Some word hash m [e1; e2] [] n x empty_vst = WOk t1 s1 /\
  rewrite (fun _ => true) Some word hash m [e2; e1] [] n x empty_vst = WOk t2 s2.
Proof.
  exists w0, hash0, 9%nat, (TRec [kf; ka], kz), (TRec [kf; TVar 0], TVar 0), 30%nat, (TRec [kf; ka]), kz, ka. eexists. eexists.
  split; [intros e [<-|[<-|[]]]; cbn; tauto|]. split; [intros e [<-|[<-|[]]]; cbn; discriminate|]. split; [discriminate|]. split; reflexivity.
Qed.
Print Assumptions C65_same_result_refuted.
