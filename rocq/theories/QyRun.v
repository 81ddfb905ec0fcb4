(** Running histories of a table with fields in Z, for the examples. *)
From Coq Require Import List ZArith Bool Lia.
From Verif Require Import TtModel TtSpec QyModel QySpec QyPick QyOps.
Import ListNotations.
Open Scope Z_scope.

Notation zdb := (db Z).
Inductive op :=
| Ocreate (p : nat) (r : Z) (len : nat) | Ofill (p : nat) (r : Z) (vs : list Z) | Odelete (r : Z)
| Oset (r : Z) (c : nat) (v : Z) | Oindex (c : nat) (t : option (list (option Z))) (i : Z) | Odrop (i : Z).
Definition all_nodes (d : zdb) : list Z := flat_map (fun h => nodes (tr (hix Z h))) (hdrs Z d).
Definition top (d : zdb) : Z := fold_right Z.max 1 (all_nodes d).
Definition al (d : zdb) (n : nat) : Z := top d + 2 + Z.of_nat n.
Definition newrec (d : zdb) (r : Z) : bool := negb (r =? 0) && negb (existsb (Z.eqb r) (map fst (recs Z d))).
Fixpoint agreesb (t : list (option Z)) (f : list Z) : bool :=
  match t with
  | [] => true
  | None :: t => agreesb t (tl f)
  | Some e :: t => match f with v :: f => (v =? e) && agreesb t f | [] => false end
  end.
Definition settledb (d : zdb) (n : nat) (f : list Z) : bool :=
  forallb (fun h => match htmpl Z h with
                    | None => true
                    | Some t => negb (agreesb t f) || (Nat.ltb (hcol Z h) (length t) && Nat.leb (length t) n)
                    end) (hdrs Z d).
Definition okb (strict : bool) d n f : bool := negb strict || settledb d n f.
Definition allowed (strict : bool) : zdb -> nat -> list Z -> Prop := if strict then settled Z.compare else fun _ _ _ => True.
Definition getrec (d : zdb) (r : Z) : option (list Z) := option_map snd (List.find (fun p => fst p =? r) (recs Z d)).
Definition zero_only {A} (o : option (A * Z)) (e : Z) : option A := match o with Some (d, x) => if x =? e then Some d else None | None => None end.
Definition step (strict : bool) (o : op) (d : zdb) : option zdb :=
  match o with
  | Ocreate p r len => if newrec d r && okb strict d 0 (repeat 0 len) then zero_only (create_record Z Z.compare 0 d p r len (al d)) r else None
  | Ofill p r vs => if newrec d r && forallb (fun n => okb strict d n (firstn n vs ++ repeat 0 (length vs - n))) (seq 1 (length vs))
                    then zero_only (create_filled Z Z.compare 0 d p r vs (al d)) 0 else None
  | Odelete r => match getrec d r with Some _ => zero_only (delete_record Z Z.compare 0 d r) 0 | None => None end
  | Oset r c v => match getrec d r with
                  | Some f => if Nat.ltb c (length f) then zero_only (set_field Z Z.compare 0 Z.eqb d r c v (al d)) 0 else None
                  | None => None
                  end
  | Oindex c t i => if (0 <? i) && (i <? 2 ^ 31) && negb (existsb (Z.eqb i) (map (hid Z) (hdrs Z d)))
                    then option_map fst (create_index Z Z.compare 0 d c t i (top d + 1) (al d)) else None
  | Odrop i => Some (fst (drop_index Z d i))
  end.
Fixpoint run (strict : bool) (l : list op) (d : zdb) : option zdb :=
  match l with [] => Some d | o :: l => match step strict o d with Some d => run strict l d | None => None end end.

Lemma top_ge d h n : In h (hdrs Z d) -> In n (nodes (tr (hix Z h))) -> n <= top d.
Proof.
  intros Hh Hn. assert (Q : In n (all_nodes d)) by (apply in_flat_map; eauto). unfold top. clear Hh Hn. induction (all_nodes d) as [|a l IH]; [contradiction|].
  cbn [fold_right]. destruct Q as [->|Q]; [lia|]. specialize (IH Q). lia.
Qed.
Lemma top_pos d : 1 <= top d.
Proof. unfold top. induction (all_nodes d) as [|a l IH]; cbn [fold_right]; lia. Qed.
Lemma al_fresh d : fresh (al d) d.
Proof.
  pose proof (top_pos d). unfold fresh, al. split; [intro n; lia|]. split; [intros n m; lia|]. intros h n Hh Hn. apply (top_ge d h) in Hn; [lia|exact Hh].
Qed.
Lemma newrec_ok d r : newrec d r = true -> r <> 0 /\ ~ In r (map fst (recs Z d)).
Proof.
  unfold newrec. rewrite andb_true_iff, !negb_true_iff. intros [A B]. apply Z.eqb_neq in A. split; [exact A|]. intro Q. enough (existsb (Z.eqb r) (map fst (recs Z d)) = true) by congruence.
  apply existsb_exists. exists r. split; [exact Q|apply Z.eqb_refl].
Qed.
Lemma agreesb_ok t : forall f, agrees Z.compare t f -> agreesb t f = true.
Proof.
  induction t as [|u t IH]; intros f H; [reflexivity|]. assert (Q : agrees Z.compare t (tl f)).
  { intros i v Hi. destruct (H (S i) v Hi) as (w & A & B). exists w. split; [|exact B]. destruct f; [discriminate|exact A]. }
  cbn [agreesb]. destruct u as [u|]; [|now apply IH]. destruct (H 0%nat u eq_refl) as (w & A & B). destruct f as [|v f]; [discriminate|]. injection A as ->. apply Z.compare_eq in B. subst w.
  rewrite Z.eqb_refl. now apply (IH f).
Qed.
Lemma okb_ok strict d n f : okb strict d n f = true -> allowed strict d n f.
Proof.
  unfold okb, allowed. destruct strict; [|auto]. cbn [negb orb]. intros H h t Hh Ht Ha. unfold settledb in H. rewrite forallb_forall in H. specialize (H h Hh). rewrite Ht in H.
  apply agreesb_ok in Ha. rewrite Ha in H. cbn [negb orb] in H. apply andb_true_iff in H. destruct H as [A B]. apply Nat.ltb_lt in A. apply Nat.leb_le in B. lia.
Qed.
Lemma getrec_in d r f : getrec d r = Some f -> In (r, f) (recs Z d).
Proof.
  unfold getrec. destruct (List.find (fun p => fst p =? r) (recs Z d)) as [[e g]|] eqn:E1; [|discriminate]. intro H. injection H as <-. apply List.find_some in E1. destruct E1 as [A B]. cbn [fst snd] in *.
  apply Z.eqb_eq in B. now subst.
Qed.
Lemma zero_some {A} (o : option (A * Z)) e d : zero_only o e = Some d -> o = Some (d, e).
Proof. unfold zero_only. destruct o as [[d' x]|]; [|discriminate]. destruct (Z.eqb_spec x e) as [->|]; [|discriminate]. congruence. Qed.
Lemma step_change strict o d d' : step strict o d = Some d' -> change Z.compare 0 Z.eqb (allowed strict) d d'.
Proof.
  destruct o as [p r len|p r vs|r|r c v|c t i|i]; cbn [step]; intro H.
  - destruct (newrec d r && _) eqn:E1; [|discriminate]. apply andb_true_iff in E1. destruct E1 as [A B]. apply newrec_ok in A. apply zero_some in H.
    eapply q_create; [apply A|apply A|apply al_fresh|apply okb_ok; exact B|exact H].
  - destruct (newrec d r && _) eqn:E1; [|discriminate]. apply andb_true_iff in E1. destruct E1 as [A B]. apply newrec_ok in A. apply zero_some in H.
    eapply q_fill; [apply A|apply A|apply al_fresh| |exact H]. intros n Hn. apply okb_ok. rewrite forallb_forall in B. apply B. apply in_seq. lia.
  - destruct (getrec d r) as [f|] eqn:E1; [|discriminate]. apply zero_some in H. eapply q_delete; [apply getrec_in; exact E1|exact H].
  - destruct (getrec d r) as [f|] eqn:E1; [|discriminate]. destruct (Nat.ltb c (length f)) eqn:E2; [|discriminate]; apply Nat.ltb_lt in E2. apply zero_some in H. eapply q_set; [apply getrec_in; exact E1|exact E2|apply al_fresh|exact H].
  - destruct ((0 <? i) && (i <? 2 ^ 31) && _) eqn:E1; [|discriminate]. rewrite !andb_true_iff, negb_true_iff in E1. destruct E1 as [[A B] C]. apply Z.ltb_lt in A. apply Z.ltb_lt in B.
    destruct (create_index _ _ _ _ _ _ _ _ _) as [[d1 e]|] eqn:E2; [|discriminate]. cbn in H. injection H as <-. pose proof (top_pos d). eapply q_index; [split; [exact A|exact B]| | | | |exact E2].
    + intro Q. enough (existsb (Z.eqb i) (map (hid Z) (hdrs Z d)) = true) by congruence. apply existsb_exists. exists i. split; [exact Q|apply Z.eqb_refl].
    + lia.
    + apply al_fresh.
    + intro n. unfold al. lia.
  - injection H as <-. eapply q_drop. apply surjective_pairing.
Qed.
Lemma run_history strict l : forall d d', history Z.compare 0 Z.eqb (allowed strict) d -> run strict l d = Some d' -> history Z.compare 0 Z.eqb (allowed strict) d'.
Proof.
  induction l as [|o l IH]; intros d d' H R; cbn [run] in R; [now injection R as <-|]. destruct (step strict o d) as [d1|] eqn:E1; [|discriminate].
  eapply IH; [|exact R]. eapply q_step; [exact H|]. eapply step_change; exact E1.
Qed.
Definition ran (strict : bool) (l : list op) : zdb := match run strict l (no_db Z) with Some d => d | None => no_db Z end.
Lemma ran_history strict l : match run strict l (no_db Z) with Some _ => true | None => false end = true -> history Z.compare 0 Z.eqb (allowed strict) (ran strict l).
Proof. unfold ran. destruct (run strict l (no_db Z)) as [d|] eqn:E1; [|discriminate]. intros _. eapply run_history; [apply q_start|exact E1]. Qed.
(** All rows of a query, one after the other *)
Fixpoint drain (m n : nat) (d : zdb) (q : query Z) : option (list Z) :=
  match m with
  | O => None
  | S m => match fetch Z Z.compare 0 n d q with
           | None => None
           | Some (None, _) => Some []
           | Some (Some r, q) => option_map (cons r) (drain m n d q)
           end
  end.
Definition ask (n : nat) (d : zdb) m args : option (list Z) :=
  match make_query Z Z.compare 0 Z.eqb n d m args 0 with
  | Some (Some q) => drain n n d q
  | _ => None
  end.
