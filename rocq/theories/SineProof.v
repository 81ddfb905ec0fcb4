(** Proofs about the relevance filter. *)
From Coq Require Import List ZArith Bool Lia.
From Verif Require Import SineModel SineSpec.
Import ListNotations.
Open Scope Z_scope.

Section TmInd.
Variable P : tm -> Prop.
Hypothesis Hs : forall u, P (Sym u).
Hypothesis Ho : P Other.
Hypothesis Ha : forall l, (forall x, In x l -> P x) -> P (App l).
Fixpoint tm_ind' (x : tm) : P x :=
  match x return P x with
  | Sym u => Hs u
  | Other => Ho
  | App l => Ha l ((fix go (l : list tm) : forall x, In x l -> P x :=
      match l return forall x, In x l -> P x with
      | [] => fun _ H => match H with end
      | y :: r => fun x H => match H with or_introl E => eq_ind y P (tm_ind' y) x E | or_intror H => go r x H end
      end) l)
  end.
End TmInd.

(* ---- the symbols of a clause ---- *)
Definition terms_symbols (l : list tm) (acc : list Z) : list Z := fold_left (fun a x => term_symbols x a) l acc.
Lemma term_symbols_app l : forall acc, term_symbols (App l) acc = terms_symbols l acc.
Proof. induction l as [|x l IH]; intros acc; [reflexivity|]. cbn. cbn in IH. exact (IH (term_symbols x acc)). Qed.
Lemma terms_in l : (forall x, In x l -> forall acc u, In u (term_symbols x acc) <-> In u acc \/ occursb u x = true) ->
  forall acc u, In u (terms_symbols l acc) <-> In u acc \/ existsb (occursb u) l = true.
Proof.
  induction l as [|x l IH]; intros H acc u; cbn.
  - split; [auto|]. intros [K|K]; [exact K|discriminate].
  - change (fold_left (fun a x => term_symbols x a) l (term_symbols x acc)) with (terms_symbols l (term_symbols x acc)).
    rewrite IH by (intros y Hy; apply H; right; exact Hy). rewrite (H x (or_introl eq_refl)). rewrite orb_true_iff. tauto.
Qed.
Lemma existsb_eqb u l : existsb (Z.eqb u) l = true <-> In u l.
Proof.
  rewrite existsb_exists. split; [intros [v [H E]]; apply Z.eqb_eq in E; subst; exact H|].
  intros H. exists u. split; [exact H|apply Z.eqb_refl].
Qed.
Lemma term_in x : forall acc u, In u (term_symbols x acc) <-> In u acc \/ occursb u x = true.
Proof.
  induction x as [v| |l IH] using tm_ind'; intros acc u.
  - cbn. destruct (existsb (Z.eqb v) acc) eqn:E.
    + apply existsb_eqb in E. split; [auto|]. intros [H|H]; [exact H|]. apply Z.eqb_eq in H. subst. exact E.
    + rewrite in_app_iff. cbn. rewrite Z.eqb_eq. split; [intros [H|[H|[]]]; auto|]. intros [H|H]; auto.
  - cbn. split; [auto|]. intros [H|H]; [exact H|discriminate].
  - rewrite term_symbols_app. cbn [occursb]. apply terms_in. exact IH.
Qed.
Lemma clause_in c acc u : In u (clause_symbols c acc) <-> In u acc \/ has u c = true.
Proof. exact (terms_in (atoms c) (fun x _ => term_in x) acc u). Qed.
Lemma nodup_snoc (l : list Z) u : NoDup l -> ~ In u l -> NoDup (l ++ [u]).
Proof.
  induction l as [|a l IH]; intros N H; cbn; [constructor; [intros []|constructor]|].
  inversion N; subst. constructor; [|apply IH; [assumption|intros K; apply H; right; exact K]].
  rewrite in_app_iff. intros [K|[K|[]]]; [contradiction|]. apply H. left. auto.
Qed.
Lemma terms_nodup l : (forall x, In x l -> forall acc, NoDup acc -> NoDup (term_symbols x acc)) ->
  forall acc, NoDup acc -> NoDup (terms_symbols l acc).
Proof.
  induction l as [|x l IH]; intros H acc N; cbn; [exact N|].
  apply IH; [intros y Hy; apply H; right; exact Hy|]. apply H; [left; reflexivity|exact N].
Qed.
Lemma term_nodup x : forall acc, NoDup acc -> NoDup (term_symbols x acc).
Proof.
  induction x as [v| |l IH] using tm_ind'; intros acc N.
  - cbn. destruct (existsb (Z.eqb v) acc) eqn:E; [exact N|]. apply nodup_snoc; [exact N|]. intros H.
    apply existsb_eqb in H. congruence.
  - exact N.
  - rewrite term_symbols_app. apply terms_nodup; [exact IH|exact N].
Qed.
Lemma clause_nodup c acc : NoDup acc -> NoDup (clause_symbols c acc).
Proof. exact (terms_nodup (atoms c) (fun x _ => term_nodup x) acc). Qed.

(* ---- the counts and the occurrences ---- *)
Lemma bump_all c l : NoDup l -> forall t u,
  scount (fold_left (bump c) l t) u = scount t u + (if existsb (Z.eqb u) l then 1 else 0) /\
  occs (fold_left (bump c) l t) u = occs t u ++ (if existsb (Z.eqb u) l then [c] else []).
Proof.
  induction l as [|v l IH]; intros N t u; cbn; [rewrite app_nil_r, Z.add_0_r; auto|].
  inversion N as [|? ? Nv Nl]; subst. destruct (IH Nl (bump c t v) u) as [E1 E2]. rewrite E1, E2. clear E1 E2.
  unfold bump at 1 2. cbn. unfold upd. destruct (u =? v) eqn:E; cbn.
  - apply Z.eqb_eq in E. subst v. destruct (existsb (Z.eqb u) l) eqn:E2; [apply existsb_eqb in E2; contradiction|].
    split; [lia|]. rewrite app_nil_r. reflexivity.
  - split; reflexivity.
Qed.
Lemma exists_has c u : existsb (Z.eqb u) (clause_symbols c []) = has u c.
Proof.
  destruct (has u c) eqn:E.
  - apply existsb_eqb, clause_in. right. exact E.
  - apply not_true_is_false. intros H. apply existsb_eqb, clause_in in H. destruct H as [[]|H]. congruence.
Qed.
Lemma analyze_from cls : forall t u,
  scount (fold_left (fun t c => fold_left (bump c) (clause_symbols c []) t) cls t) u = scount t u + count cls u /\
  occs (fold_left (fun t c => fold_left (bump c) (clause_symbols c []) t) cls t) u = occs t u ++ filter (has u) cls.
Proof.
  induction cls as [|c cls IH]; intros t u; cbn [fold_left].
  - unfold count. cbn. rewrite app_nil_r, Z.add_0_r. auto.
  - destruct (IH (fold_left (bump c) (clause_symbols c []) t) u) as [E1 E2]. rewrite E1, E2.
    destruct (bump_all c (clause_symbols c []) (clause_nodup c [] (NoDup_nil Z)) t u) as [F1 F2]. rewrite F1, F2.
    rewrite exists_has. unfold count. cbn [filter]. destruct (has u c); cbn [length].
    + split; [lia|]. rewrite <- app_assoc. reflexivity.
    + split; [lia|]. rewrite app_nil_r. reflexivity.
Qed.
Lemma analyze_ok cls u : scount (analyze cls) u = count cls u /\ occs (analyze cls) u = filter (has u) cls.
Proof. destruct (analyze_from cls {| scount := fun _ => 0; occs := fun _ => [] |} u) as [E1 E2]. cbn in E1, E2. split; assumption. Qed.

Definition sym_ok (sc : Z -> Z) (n tol2 common u : Z) : bool :=
  if negb (common =? 0) then (if sc u <? common then false else true) else (if sc u * tol2 <? 2 * n then false else true).
Lemma check_term_ok sc n tol2 common x : check_term sc x n tol2 common = true <-> forall u, occursb u x = true -> sym_ok sc n tol2 common u = true.
Proof.
  induction x as [v| |l IH] using tm_ind'.
  - cbn [check_term occursb]. fold (sym_ok sc n tol2 common v). split.
    + intros H u E. apply Z.eqb_eq in E. subst. exact H.
    + intros H. apply H. apply Z.eqb_refl.
  - cbn. split; [intros _ u H; discriminate|reflexivity].
  - cbn [check_term occursb]. rewrite forallb_forall. split.
    + intros H u E. apply existsb_exists in E. destruct E as [x [Hx E]]. exact (proj1 (IH x Hx) (H x Hx) u E).
    + intros H x Hx. apply (IH x Hx). intros u E. apply H. apply existsb_exists. exists x. split; assumption.
Qed.
Lemma check_cl_ok sc n tol2 common c : check_cl sc c n tol2 common = true <-> forall u, has u c = true -> sym_ok sc n tol2 common u = true.
Proof.
  unfold check_cl. rewrite forallb_forall. split.
  - intros H u E. apply existsb_exists in E. destruct E as [x [Hx E]]. exact (proj1 (check_term_ok sc n tol2 common x) (H x Hx) u E).
  - intros H x Hx. apply check_term_ok. intros u E. apply H. apply existsb_exists. exists x. split; assumption.
Qed.
Lemma check_common cls c n tol2 m : m <> 0 -> (check_cl (scount (analyze cls)) c n tol2 m = true <-> all_common m cls c).
Proof.
  intros M. rewrite check_cl_ok. unfold sym_ok, all_common. apply Z.eqb_neq in M. rewrite M. cbn [negb]. apply Z.eqb_neq in M. split.
  - intros H. split; [exact M|]. intros v Hv. specialize (H v Hv). rewrite (proj1 (analyze_ok cls v)) in H.
    destruct (count cls v <? m) eqn:E; [discriminate|]. apply Z.ltb_ge in E. exact E.
  - intros [_ H] u Hu. specialize (H u Hu). rewrite (proj1 (analyze_ok cls u)). destruct (count cls u <? m) eqn:E; [|reflexivity].
    apply Z.ltb_lt in E. lia.
Qed.
Lemma check_trigger g tol2 cls u c : has u c = true ->
  ((g <? count cls u) && negb (check_cl (scount (analyze cls)) c (count cls u) tol2 0) = false <-> triggers g tol2 cls u c).
Proof.
  intros Hu. unfold triggers. rewrite andb_false_iff, negb_false_iff, Z.ltb_ge, check_cl_ok. unfold sym_ok. cbn [Z.eqb negb]. split.
  - intros H. split; [exact Hu|]. destruct H as [H|H]; [left; exact H|right]. intros v Hv. specialize (H v Hv).
    rewrite (proj1 (analyze_ok cls v)) in H. destruct (count cls v * tol2 <? 2 * count cls u) eqn:E; [discriminate|]. apply Z.ltb_ge in E. lia.
  - intros [_ [H|H]]; [left; exact H|right]. intros v Hv. specialize (H v Hv). rewrite (proj1 (analyze_ok cls v)).
    destruct (count cls v * tol2 <? 2 * count cls u) eqn:E; [|reflexivity]. apply Z.ltb_lt in E. lia.
Qed.
