(** C42: the ordering of the two sides of an equation. *)
From Coq Require Import List ZArith Bool Lia.
From Verif Require Import Terms UnifyModel UnifySpec OrdModel OrdSpec OrdProof OrdThm OrdEnd.
Import ListNotations.
Open Scope Z_scope.

(** The comparison always ends, with one of its three verdicts. *)
Theorem C42_verdict : forall word b, acyclic b -> forall x y,
  exists n0 r, (r = 1 \/ r = 2 \/ r = 3) /\ forall n, (n0 <= n)%nat -> order_eqterms word n b x y = Some r.
Proof. exact order_ends. Qed.
Print Assumptions C42_verdict.

(** Never both sides larger; swapping the sides swaps the verdict. *)
Theorem C42_asymmetric : forall word b n m x y, acyclic b ->
  order_eqterms word n b x y = Some 1 -> order_eqterms word m b y x <> Some 1.
Proof. exact asym. Qed.
Print Assumptions C42_asymmetric.
Theorem C42_swap : forall word b x y, acyclic b ->
  (exists n, order_eqterms word n b x y = Some 1) <-> (exists n, order_eqterms word n b y x = Some 2).
Proof. exact flip_verdict. Qed.
Print Assumptions C42_swap.

(** No term is larger than itself. *)
Theorem C42_irreflexive : forall word b n x, acyclic b ->
  order_eqterms word n b x x <> Some 1 /\ order_eqterms word n b x x <> Some 2.
Proof. exact irrefl. Qed.
Print Assumptions C42_irreflexive.

(** The verdict stays under every substitution, for terms with at most 1000 different variables. *)
Theorem C42_stable_partial : forall word n x y s,
  headed x -> headed y -> few_vars x -> few_vars y -> (forall i, headed (s i)) ->
  few_vars (app s x) -> few_vars (app s y) ->
  order_eqterms word n nobind x y = Some 1 ->
  exists m, order_eqterms word m nobind (app s x) (app s y) = Some 1.
Proof. exact stable. Qed.
Print Assumptions C42_stable_partial.
(** The same for the substitutions that are made by binding more variables. *)
Theorem C42_stable_bindings_partial : forall word n b b' s s' x y,
  acyclic b -> acyclic b' -> extends b b' -> exhaustive b s -> exhaustive b' s' ->
  (forall i, headed (s' i)) -> headed (app s x) -> headed (app s y) ->
  few_vars (app s x) -> few_vars (app s y) -> few_vars (app s' x) -> few_vars (app s' y) ->
  order_eqterms word n b x y = Some 1 -> exists m, order_eqterms word m b' x y = Some 1.
Proof. exact stable_bank. Qed.
Print Assumptions C42_stable_bindings_partial.

Theorem C42_transitive_partial : forall word n m x y z,
  headed x -> headed y -> headed z -> few_vars x -> few_vars y -> few_vars z ->
  order_eqterms word n nobind x y = Some 1 -> order_eqterms word m nobind y z = Some 1 ->
  exists k, order_eqterms word k nobind x z = Some 1.
Proof. exact trans. Qed.
Print Assumptions C42_transitive_partial.

(** A term is larger than everything inside it. *)
Theorem C42_subterm_partial : forall word t u, headed u -> few_vars u -> inside_of t u ->
  exists n, order_eqterms word n nobind u t = Some 1.
Proof. exact subterm. Qed.
Print Assumptions C42_subterm_partial.

(** Replacing an argument by a smaller one makes the whole smaller. *)
Theorem C42_context_partial : forall word n l r x y,
  headed (TRec (l ++ x :: r)) -> headed (TRec (l ++ y :: r)) ->
  few_vars (TRec (l ++ x :: r)) -> few_vars (TRec (l ++ y :: r)) ->
  order_eqterms word n nobind x y = Some 1 ->
  exists m, order_eqterms word m nobind (TRec (l ++ x :: r)) (TRec (l ++ y :: r)) = Some 1.
Proof. exact context. Qed.
Print Assumptions C42_context_partial.

(** Over finitely many constants rewriting to smaller terms ends. *)
Theorem C42_no_descent_partial : forall word C (f : nat -> term),
  (forall i, headed (f i) /\ few_vars (f i) /\ incl (tcsts (f i)) C) ->
  ~ forall i, exists n, order_eqterms word n nobind (f i) (f (S i)) = Some 1.
Proof. exact descent. Qed.
Print Assumptions C42_no_descent_partial.

(** Two different terms without variables are always comparable, when different constants have
    different words. *)
Theorem C42_ground_total : forall word n x y,
  (forall c d, In c (tcsts x) -> word c = word d -> c = d) -> tvars x = [] -> tvars y = [] ->
  order_eqterms word n nobind x y = Some 3 -> x = y.
Proof. exact ground_linear. Qed.
Print Assumptions C42_ground_total.

(* ---- with more than 1000 variables ---- *)
Definition manyv : list term := map (fun i => TVar (Z.of_nat i)) (seq 0 (Z.to_nat 1000)).
Definition cc : term := TCst (CImm 1).
Definition bigx : term := TRec (cc :: manyv ++ [cc; cc]).
Definition bigy : term := TRec (cc :: manyv ++ [TVar 1000]).
Definition bigs (i : Z) : term := if i =? 1000 then TRec [cc; cc; cc; cc] else TVar i.
Lemma bigs_headed i : headed (bigs i).
Proof. unfold bigs. destruct (i =? 1000); cbn; tauto. Qed.
Theorem C42_stable_refuted : exists word n x y s, headed x /\ headed y /\ (forall i, headed (s i)) /\
  order_eqterms word n nobind x y = Some 1 /\ exists m, order_eqterms word m nobind (app s x) (app s y) = Some 2.
Proof.
  exists (fun _ => 0), 5%nat, bigx, bigy, bigs. split; [vm_compute; tauto|]. split; [vm_compute; tauto|]. split; [exact bigs_headed|].
  split; [vm_compute; reflexivity|]. exists 5%nat. vm_compute. reflexivity.
Qed.
Print Assumptions C42_stable_refuted.

(* ---- the hypotheses are met ---- *)
Definition w0 (c : cst) : Z := match c with CImm k => k | _ => -1 end.
Definition k (i : Z) : term := TCst (CImm i).
Definition fx : term := TRec [k 1; TVar 0; TRec [k 2; TVar 1; TVar 0]].
Definition gx : term := TRec [k 1; TVar 1; TRec [k 2; TVar 0]].
Definition lft : term := TRec [k 1; TVar 0; k 5].
Definition rgt : term := TRec [k 2; TVar 0; k 5].
Definition s1 (i : Z) : term := if i =? 0 then TRec [k 3; TVar 1] else TVar i.
Example C42_nonvacuous_weight : order_eqterms w0 9 nobind fx gx = Some 1 /\ order_eqterms w0 9 nobind gx fx = Some 2.
Proof. split; reflexivity. Qed.
Example C42_nonvacuous_lex : order_eqterms w0 9 nobind lft rgt = Some 1 /\ order_eqterms w0 9 nobind rgt lft = Some 2.
Proof. split; reflexivity. Qed.
Example C42_nonvacuous_neither : order_eqterms w0 9 nobind (TRec [k 1; TVar 0; TVar 1]) (TRec [k 1; TVar 1; TVar 0]) = Some 3.
Proof. reflexivity. Qed.
Example C42_nonvacuous_hyp : headed fx /\ headed gx /\ few_vars fx /\ few_vars gx /\ (forall i, headed (s1 i)) /\ few_vars (app s1 fx) /\ few_vars (app s1 gx).
Proof.
  split; [cbn; tauto|]. split; [cbn; tauto|]. unfold few_vars. rewrite <- !Nat.leb_le. split; [vm_compute; reflexivity|]. split; [vm_compute; reflexivity|].
  split; [intro i; unfold s1; destruct (i =? 0); cbn; tauto|]. split; vm_compute; reflexivity.
Qed.
Example C42_nonvacuous_stable : exists m, order_eqterms w0 m nobind (app s1 fx) (app s1 gx) = Some 1.
Proof. destruct C42_nonvacuous_hyp as (A & B & C & D & F & G & H). now apply (C42_stable_partial w0 9 fx gx s1). Qed.
Definition b1 (i : Z) : option term := if i =? 0 then Some (TRec [k 3; TVar 1]) else None.
Example C42_nonvacuous_bank : acyclic b1 /\ extends nobind b1 /\ exhaustive b1 s1 /\ order_eqterms w0 9 b1 fx gx = Some 1 /\ order_eqterms w0 9 b1 (TVar 0) (TVar 1) = Some 1.
Proof.
  split; [|split; [|split; [|split; reflexivity]]].
  - exists (fun i => if i =? 0 then 1%nat else 0%nat). intros i t j E H. unfold b1 in E. destruct (Z.eqb_spec i 0); [|discriminate]. injection E as <-.
    destruct H as [<-|[]]. cbn. lia.
  - intros i t E. discriminate.
  - split.
    + intros i t E. unfold b1, s1 in *. destruct (Z.eqb_spec i 0); [|discriminate]. injection E as <-. reflexivity.
    + intros i E. unfold b1, s1 in *. destruct (i =? 0); [discriminate|reflexivity].
Qed.
Example C42_nonvacuous_subterm : inside_of (TVar 1) fx /\ inside_of (k 1) fx.
Proof. split; [apply (in_deep _ _ (TRec [k 2; TVar 1; TVar 0])); [right; right; now left|apply in_here; right; now left]|apply in_here; now left]. Qed.
Example C42_nonvacuous_trans : order_eqterms w0 9 nobind fx gx = Some 1 /\ order_eqterms w0 9 nobind gx (TRec [k 2; TVar 0]) = Some 1.
Proof. split; reflexivity. Qed.
Example C42_nonvacuous_descent : exists f : nat -> term, (forall i, headed (f i) /\ few_vars (f i) /\ incl (tcsts (f i)) [CImm 1; CImm 2]) /\
  order_eqterms w0 9 nobind (f 0%nat) (f 1%nat) = Some 1.
Proof.
  exists (fun i => match i with O => TRec [k 1; TVar 0; k 2] | _ => TRec [k 1; TVar 0] end). split; [|reflexivity].
  intros [|i]; (split; [cbn; tauto|]); (split; [unfold few_vars; rewrite <- Nat.leb_le; vm_compute; reflexivity|]); intros c H; cbn in H |- *; tauto.
Qed.
Example C42_nonvacuous_ground : order_eqterms w0 9 nobind (TRec [k 1; k 2]) (TRec [k 1; k 2]) = Some 3 /\ order_eqterms w0 9 nobind (TRec [k 1; k 2]) (TRec [k 1; k 3]) = Some 1.
Proof. split; reflexivity. Qed.
