(** Concrete clauses for the non-vacuity examples and refutations of C08-C11. *)
From Coq Require Import List ZArith Bool Lia Permutation Sorting.Sorted.
From Verif Require Import Terms UnifySpec UnifyModel MatchModel MetaModel MetaProof MetaWordProof SortProof
  SubsumeModel SubsumeSpec SubsumeProof SubsumeTop ClauseMetaProof.
Import ListNotations.
Open Scope Z_scope.

(** A hash in the range of wr_term_basehash (1..999997). *)
Definition bh0 (c : cst) : Z :=
  match c with CLong n => 1000 * (Z.abs n mod 900) + 17 | _ => 5 end.
Lemma bh0_range c : 1 <= bh0 c <= 999997.
Proof. unfold bh0. destruct c; lia. Qed.

Definition k (n : Z) : term := TCst (CLong n).
Definition p (ts : list term) : term := TRec (k 1 :: ts).
Definition q (ts : list term) : term := TRec (k 2 :: ts).
Definition r (ts : list term) : term := TRec (k 3 :: ts).
Definition a := k 10.
Definition b := k 11.
Definition X := TVar 0.
Definition Y := TVar 1.
(** un-prepared literals: meta 0 is positive, [neg_raw] negative *)
Definition pos (t : term) : mlit := (0, t).
Definition neg (t : term) : mlit := (neg_raw, t).
Definition lex0 (x y : term) : Z := 0.
Definition prep (l : list mlit) : list mlit := sort_cl lex0 (fst (calc_clause_meta bh0 l)).

(** p(X,Y) | ~q(Y) subsumes ~q(b) | r(a) | p(a,b) | p(b,b); the first attempt has to be undone. *)
Definition C1 := [pos (p [X; Y]); neg (q [Y])].
Definition D1 := [pos (p [a; a]); neg (q [b]); pos (r [a]); pos (p [a; b])].
(** The default configuration: one answer is wanted; the answer predicate. *)
Definition one0 := true.
Definition ansc : cst := CLong 99.
Definition ansp (ts : list term) : term := TRec (TCst ansc :: ts).
Lemma ex_subsumed : exists s', subsume_cl (fun _ => true) one0 ansc (Rule (prep C1)) (Rule (prep D1)) empty_vst = SDone true s'.
Proof. vm_compute. eexists. reflexivity. Qed.
Definition D2 := [pos (p [a; a]); neg (q [b]); pos (r [a])].
Lemma ex_not_subsumed : exists s', subsume_cl (fun _ => true) one0 ansc (Rule (prep C1)) (Rule (prep D2)) empty_vst = SDone false s'.
Proof. vm_compute. eexists. reflexivity. Qed.

(** p(X) | $ans(a) is said to subsume p(a) | $ans(b), and p(X) | $ans(X) to subsume
    p(a) | q(a) | $ans(b). *)
Definition A1 := [pos (p [X]); pos (ansp [a])].
Definition A2 := [pos (p [a]); pos (ansp [b])].
Definition A3 := [pos (p [X]); pos (ansp [X])].
Definition A4 := [pos (p [a]); neg (q [a]); pos (ansp [b])].
Lemma ex_answers : exists s', subsume_cl (fun _ => true) one0 ansc (Rule (prep A1)) (Rule (prep A2)) empty_vst = SDone true s'.
Proof. vm_compute. eexists. reflexivity. Qed.
Lemma ex_answers_all : exists s', subsume_cl (fun _ => true) false ansc (Rule (prep A1)) (Rule (prep A2)) empty_vst = SDone false s'.
Proof. vm_compute. eexists. reflexivity. Qed.
Lemma ex_answers2 : exists s', subsume_cl (fun _ => true) one0 ansc (Rule (prep A3)) (Rule (prep A4)) empty_vst = SDone true s'.
Proof. vm_compute. eexists. reflexivity. Qed.

Lemma ex_ready (l : list mlit) : In l [C1; D1; D2; A1; A2; A3; A4] ->
  l <> [] /\ forall x, In x l -> hash_fits bh0 (snd x) /\ nonempty (snd x) = true /\ gp (leaves (snd x)) <> [].
Proof.
  intros Hl. simpl in Hl.
  repeat destruct Hl as [<-|Hl]; try contradiction; (split; [discriminate|]; intros x Hx; simpl in Hx;
  repeat destruct Hx as [<-|Hx]; try contradiction;
  (split; [split; [intros c; pose proof (bh0_range c); lia|vm_compute; reflexivity]|split; [reflexivity|discriminate]])).
Qed.

Lemma answers_refuted : exists c1 c2 s',
  stored bh0 c1 /\ stored bh0 c2 /\
  subsume_cl (fun _ => true) true ansc c1 c2 empty_vst = SDone true s' /\
  ~ subsumes (lits_of c1) (lits_of c2).
Proof.
  destruct ex_answers as (s'&E). exists (Rule (prep A1)), (Rule (prep A2)), s'.
  assert (S1 : stored bh0 (Rule (prep A1))) by (apply (prepared_stored bh0 lex0 A1); apply (ex_ready A1); simpl; auto 10).
  assert (S2 : stored bh0 (Rule (prep A2))) by (apply (prepared_stored bh0 lex0 A2); apply (ex_ready A2); simpl; auto 10).
  split; [exact S1|]. split; [exact S2|]. split; [exact E|].
  intros H. destruct ex_answers_all as (s2&E2).
  assert (Hc : clear empty_vst) by (split; reflexivity).
  pose proof (subsume_found bh0 false ansc _ _ empty_vst false s2 S1 S2 Hc E2 H). discriminate.
Qed.

(** ** C08: overflow of the prefix hash *)
(** p(c,...,c,X) with 2199 copies of c is an instance-related pair whose prefix hash
    overflows a C int when c hashes to 999997. *)
Definition bh1 (c : cst) : Z := 999997.
Definition long_prefix (n : nat) (last : term) : term := TRec (repeat (k 1) n ++ [last]).
(* x = p(c^n, X), y = p(c^n, d): the fingerprint of y includes one more hash *)
Lemma overflow_refuted :
  exists x y t, app t x = y /\ nonempty y = true /\ (forall c, 1 <= bh1 c <= 999997) /\
    matchable_lit_meta (litword bh1 false x) (litword bh1 false y) = false.
Proof.
  exists (long_prefix 2148 X), (long_prefix 2148 (k 1)), (fun _ => k 1).
  split; [vm_compute; reflexivity|]. split; [vm_compute; reflexivity|].
  split; [intros; unfold bh1; lia|]. vm_compute. reflexivity.
Qed.

(** ** C11: the clause filter rejects real subsumers *)
Definition G1 := [pos (p [a]); pos (q [b])].
Definition G2 := [pos (p [a]); pos (q [b]); pos (r [X])].
Lemma block_ground_refuted :
  exists C D : list mlit, (forall x, In x (C ++ D) -> usable bh0 (lit_of x)) /\
    ~ In 255 (counters (map lit_of D)) /\
    subsumes (map lit_of C) (map lit_of D) /\
    clmetablock_can_subsume (snd (calc_clause_meta bh0 C)) (snd (calc_clause_meta bh0 D)) = false.
Proof.
  exists G1, G2. split.
  - intros x Hx. simpl in Hx. repeat destruct Hx as [<-|Hx]; try contradiction;
    (split; [split; [intros c; pose proof (bh0_range c); lia|vm_compute; reflexivity]|split; [reflexivity|discriminate]]).
  - split; [vm_compute; intuition discriminate|]. split; [|vm_compute; reflexivity].
    exists TVar, [lit_of (pos (r [X]))]. vm_compute. apply Permutation_refl.
Qed.

(** exactly 255 symbol occurrences *)
Definition B1 := [pos (p [X; X])].
Definition B2 := [pos (p [a; a]); pos (TRec (k 3 :: repeat X 251))].
Lemma block_255_refuted :
  exists C D : list mlit, (forall x, In x (C ++ D) -> usable bh0 (lit_of x)) /\
    (clause_ground (map lit_of C) = true -> clause_ground (map lit_of D) = true) /\
    subsumes (map lit_of C) (map lit_of D) /\
    clmetablock_can_subsume (snd (calc_clause_meta bh0 C)) (snd (calc_clause_meta bh0 D)) = false.
Proof.
  exists B1, B2. split.
  - intros x Hx. simpl in Hx. repeat destruct Hx as [<-|Hx]; try contradiction;
    (split; [split; [intros c; pose proof (bh0_range c); lia|vm_compute; reflexivity]|split; [reflexivity|discriminate]]).
  - split; [vm_compute; discriminate|]. split; [|vm_compute; reflexivity].
    exists (fun _ => a), [lit_of (pos (TRec (k 3 :: repeat X 251)))]. vm_compute. apply Permutation_refl.
Qed.

Lemma block_fact_refuted :
  exists (C : list mlit) (f : term), (forall x, In x C -> usable bh0 (lit_of x)) /\ usable bh0 (false, f) /\ tvars f = [] /\
    subsumes (map lit_of C) [(false, f)] /\
    clmetablock_can_subsume (snd (calc_clause_meta bh0 C)) fact_metablock = false.
Proof.
  exists [pos (p [X; Y])], (p [a; b]). split; [|split].
  - intros x Hx. simpl in Hx. repeat destruct Hx as [<-|Hx]; try contradiction;
    (split; [split; [intros c; pose proof (bh0_range c); lia|vm_compute; reflexivity]|split; [reflexivity|discriminate]]).
  - split; [split; [intros c; pose proof (bh0_range c); lia|vm_compute; reflexivity]|split; [reflexivity|discriminate]].
  - split; [reflexivity|]. split; [|vm_compute; reflexivity].
    exists (fun i => if i =? 0 then a else b), []. vm_compute. apply Permutation_refl.
Qed.

Definition P1 := [pos (p [X; Y]); neg (q [Y])].
Lemma block_example : (forall x, In x D1 -> usable bh0 (lit_of x)) /\ (forall x, In x P1 -> gp (leaves (snd x)) <> []) /\
  (clause_ground (map lit_of P1) = true -> clause_ground (map lit_of D1) = true) /\
  ~ In 255 (counters (map lit_of D1)) /\ subsumes (map lit_of P1) (map lit_of D1).
Proof.
  split; [|split; [|split; [|split]]].
  - intros x Hx. simpl in Hx. repeat destruct Hx as [<-|Hx]; try contradiction;
    (split; [split; [intros c; pose proof (bh0_range c); lia|vm_compute; reflexivity]|split; [reflexivity|discriminate]]).
  - intros x Hx. simpl in Hx. repeat destruct Hx as [<-|Hx]; try contradiction; discriminate.
  - reflexivity.
  - vm_compute. intuition discriminate.
  - exists (fun i => if i =? 0 then a else b), [lit_of (pos (p [a; a])); lit_of (pos (r [a]))].
    vm_compute.
    eapply Permutation_trans; [apply perm_skip, perm_swap|]. eapply Permutation_trans; [apply perm_swap|].
    apply perm_skip. eapply Permutation_trans; [apply perm_swap|]. apply perm_skip. apply perm_swap.
Qed.
