(** As compiled: queries are right as long as records are written before their indexes exist. *)
From Coq Require Import List ZArith Bool Lia.
From Verif Require Import TtModel TtSpec QyModel QySpec QyPick QyHist QyOps QkModel QkSpec QyRun.
Import ListNotations.
Open Scope Z_scope.

Section O.
Context {K : Type}.
Variable cmp : K -> K -> comparison.
Variable null : K.
Hypothesis TO : total_order cmp.
Notation belongs := (belongs cmp).
Notation dgood := (dgood cmp null).
Implicit Types (d : db K) (f : list K) (h g : header K).

Lemma unconcerned_out d f h : unconcerned cmp d f -> In h (hdrs K d) -> belongs h f = false.
Proof.
  intros Hu Hh. destruct (belongs h f) eqn:E; [|reflexivity]. exfalso. apply (Hu h Hh). unfold QyPick.belongs in E. apply andb_true_iff in E. destruct E as [A B]. apply Nat.ltb_lt in A.
  split; [exact A|]. unfold matches in B. destruct (htmpl K h) as [t|]; [|exact I]. exact (match_agrees cmp TO t f B).
Qed.
Lemma qcreate_ok d p r len : dgood d -> r <> 0 -> ~ In r (map fst (recs K d)) -> unconcerned cmp d (repeat null len) -> dgood (create_raw K null d p r len).
Proof.
  intros Hd Hr Hn Hu. destruct (raw_ok cmp null d p r (repeat null len) Hd Hr Hn) as (S0 & O0 & N0 & Z0 & _). unfold create_raw. apply dgood_intro; auto.
  intros h Hh. split; [now apply O0|]. destruct (dgood_hdr cmp null d h Hd Hh) as (_ & I2 & I3). split; [exact I2|]. intro e. rewrite (member_raw cmp d p r (repeat null len) h e), I3.
  rewrite (unconcerned_out d _ h Hu Hh). split; [auto|]. intros [[_ Q]|Q]; [discriminate|exact Q].
Qed.
Lemma qwrite_ok (same : K -> K -> bool) d r f c v : dgood d -> In (r, f) (recs K d) -> unconcerned cmp d f -> unconcerned cmp d (put_nth K c v f) -> dgood (write K d r c v).
Proof.
  intros Hd Hi Hu Hv. pose proof (d_nd _ _ _ Hd) as Hn.
  assert (Hout : forall h, In h (hdrs K d) -> ~ In r (rw h)).
  { intros h Hh Q. apply (proj2 (proj2 (dgood_hdr cmp null d h Hd Hh))) in Q. apply (member_one cmp d r f h Hn Hi) in Q. rewrite (unconcerned_out d f h Hu Hh) in Q. discriminate. }
  destruct (write_ok cmp null same d r c v f (dgood_stat cmp null d Hd) Hn Hi) as (S1 & N1 & O1 & _).
  - intros h Hh. apply (dgood_hdr cmp null d h Hd Hh).
  - intros h Hh _. now apply Hout.
  - apply dgood_intro; auto.
    + unfold write. cbn [with_recs recs]. fold (wr (recs K d) r c v). rewrite wr_fst. apply (d_0 _ _ _ Hd).
    + intros h Hh. split; [now apply O1|]. destruct (dgood_hdr cmp null d h Hd Hh) as (_ & I2 & I3). split; [exact I2|]. intro e. rewrite (member_write cmp d r c v f h e Hn Hi), I3, (unconcerned_out d _ h Hv Hh).
      split; [|intros [[_ Q]|[_ Q]]; [discriminate|exact Q]]. intro Q. right. split; [|exact Q]. intros ->. apply I3 in Q. exact (Hout h Hh Q).
Qed.
Theorem qhistory_good d : qhistory cmp null (unconcerned cmp) d -> dgood d.
Proof.
  induction 1 as [|d d' Hh IH Hc]; [exact (none_ok cmp null (fun _ _ => true))|]. destruct Hc as [d p r len d' Hr Hn Ho E1|d r f c v d' Hi Hl Ho1 Ho2 E1|d r f c v d' Hi Hl E1|d r f d' Hi E1|d c t i root al d' e Hi Hn Hr Hf Hal E1|d i d' e E1].
  - injection E1 as <-. now apply qcreate_ok.
  - injection E1 as <-. now apply (qwrite_ok (fun _ _ => true) d r f).
  - injection E1 as <-. exact IH.
  - destruct (delete_any cmp null (fun _ _ => true) TO d r f IH Hi) as (d1 & d2 & e & E2 & _ & E3). assert (e = 0 /\ d1 = d') as [-> ->] by (split; congruence). destruct (E3 eq_refl) as (-> & G & _). exact G.
  - destruct (index_ok cmp null TO d c t i root al IH Hi Hn Hr Hf Hal) as (d1 & e1 & E2 & G & _). congruence.
  - destruct (drop_ok cmp null (fun _ _ => true) d i IH) as [G _]. rewrite E1 in G. exact G.
Qed.
End O.

(* ---- running histories over Z ---- *)
Definition concernsb (h : header Z) (f : list Z) : bool :=
  Nat.ltb (hcol Z h) (length f) && match htmpl Z h with Some t => agreesb t f | None => true end.
Definition qokb (strict : bool) (d : zdb) f : bool := negb strict || forallb (fun h => negb (concernsb h f)) (hdrs Z d).
Definition qallowed (strict : bool) : zdb -> list Z -> Prop := if strict then unconcerned Z.compare else fun _ _ => True.
Lemma qokb_ok strict d f : qokb strict d f = true -> qallowed strict d f.
Proof.
  unfold qokb, qallowed. destruct strict; [|auto]. cbn [negb orb]. intros H h Hh [A B]. rewrite forallb_forall in H. specialize (H h Hh). apply negb_true_iff in H. unfold concernsb in H.
  apply Nat.ltb_lt in A. rewrite A in H. cbn [andb] in H. destruct (htmpl Z h) as [t|]; [|discriminate]. apply agreesb_ok in B. congruence.
Qed.
Definition qstep (strict : bool) (o : op) (d : zdb) : option zdb :=
  match o with
  | Ocreate p r len => if newrec d r && qokb strict d (repeat 0 len) then Some (fst (qcreate_record Z 0 d p r len)) else None
  | Ofill _ r vs => (* set_new_field of the fields, here one: field number and value *)
      match vs, getrec d r with
      | [c; v], Some f => if Nat.ltb (Z.to_nat c) (length f) && qokb strict d f && qokb strict d (put_nth Z (Z.to_nat c) v f)
                          then Some (fst (qset_new_field Z d r (Z.to_nat c) v)) else None
      | _, _ => None
      end
  | Odelete r => match getrec d r with Some _ => zero_only (delete_record Z Z.compare 0 d r) 0 | None => None end
  | Oset r c v => match getrec d r with
                  | Some f => if Nat.ltb c (length f) then Some (fst (qset_field Z d r c v)) else None
                  | None => None
                  end
  | Oindex c t i => if (0 <? i) && (i <? 2 ^ 31) && negb (existsb (Z.eqb i) (map (hid Z) (hdrs Z d)))
                    then option_map fst (create_index Z Z.compare 0 d c t i (top d + 1) (al d)) else None
  | Odrop i => Some (fst (drop_index Z d i))
  end.
Fixpoint qrun (strict : bool) (l : list op) (d : zdb) : option zdb :=
  match l with [] => Some d | o :: l => match qstep strict o d with Some d => qrun strict l d | None => None end end.
Lemma qstep_change strict o d d' : qstep strict o d = Some d' -> qchange Z.compare 0 (qallowed strict) d d'.
Proof.
  destruct o as [p r len|p r vs|r|r c v|c t i|i]; cbn [qstep]; intro H.
  - destruct (newrec d r && _) eqn:E1; [|discriminate]. apply andb_true_iff in E1. destruct E1 as [A B]. apply newrec_ok in A. injection H as <-.
    eapply k_create; [apply A|apply A|apply qokb_ok; exact B|reflexivity].
  - destruct vs as [|c [|v [|]]]; try discriminate. destruct (getrec d r) as [f|] eqn:E1; [|discriminate]. destruct (Nat.ltb _ _ && _ && _) eqn:E2; [|discriminate].
    rewrite !andb_true_iff in E2. destruct E2 as [[A B] C]. apply Nat.ltb_lt in A. injection H as <-. eapply k_new; [apply getrec_in; exact E1|exact A|apply qokb_ok; exact B|apply qokb_ok; exact C|reflexivity].
  - destruct (getrec d r) as [f|] eqn:E1; [|discriminate]. apply zero_some in H. eapply k_delete; [apply getrec_in; exact E1|exact H].
  - destruct (getrec d r) as [f|] eqn:E1; [|discriminate]. destruct (Nat.ltb c (length f)) eqn:E2; [|discriminate]; apply Nat.ltb_lt in E2. injection H as <-. apply (k_set _ _ _ d r f c v); [apply getrec_in; exact E1|exact E2|reflexivity].
  - destruct ((0 <? i) && (i <? 2 ^ 31) && _) eqn:E1; [|discriminate]. rewrite !andb_true_iff, negb_true_iff in E1. destruct E1 as [[A B] C]. apply Z.ltb_lt in A. apply Z.ltb_lt in B.
    destruct (create_index _ _ _ _ _ _ _ _ _) as [[d1 e]|] eqn:E2; [|discriminate]. cbn in H. injection H as <-. pose proof (top_pos d). eapply k_index; [split; [exact A|exact B]| | | | |exact E2].
    + intro Q. enough (existsb (Z.eqb i) (map (hid Z) (hdrs Z d)) = true) by congruence. apply existsb_exists. exists i. split; [exact Q|apply Z.eqb_refl].
    + lia.
    + apply al_fresh.
    + intro n. unfold al. lia.
  - injection H as <-. eapply k_drop. apply surjective_pairing.
Qed.
Lemma qrun_history strict l : forall d d', qhistory Z.compare 0 (qallowed strict) d -> qrun strict l d = Some d' -> qhistory Z.compare 0 (qallowed strict) d'.
Proof.
  induction l as [|o l IH]; intros d d' H R; cbn [qrun] in R; [now injection R as <-|]. destruct (qstep strict o d) as [d1|] eqn:E1; [|discriminate].
  eapply IH; [|exact R]. eapply k_step; [exact H|]. eapply qstep_change; exact E1.
Qed.
Definition qran (strict : bool) (l : list op) : zdb := match qrun strict l (no_db Z) with Some d => d | None => no_db Z end.
Lemma qran_history strict l : match qrun strict l (no_db Z) with Some _ => true | None => false end = true -> qhistory Z.compare 0 (qallowed strict) (qran strict l).
Proof. unfold qran. destruct (qrun strict l (no_db Z)) as [d|] eqn:E1; [|discriminate]. intros _. eapply qrun_history; [apply k_start|exact E1]. Qed.
