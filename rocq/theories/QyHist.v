(** Updates keep the indexes in step with the records. *)
From Coq Require Import List ZArith Bool Lia Permutation.
From Verif Require Import TtModel TtSpec TtProof TtSeek TtAdd TtDel TtEnd QyModel QySpec QyPick.
Import ListNotations.
Open Scope Z_scope.

Section H.
Context {K : Type}.
Variable cmp : K -> K -> comparison.
Variable null : K.
Hypothesis TO : total_order cmp.
Notation fld := (fld K null).
Notation belongs := (belongs cmp).
Implicit Types (d : db K) (f : list K) (h g : header K) (t : list (option K)).

Definition rw h : list Z := rows (tr (hix K h)).
Definition hsame h g : Prop := hid K g = hid K h /\ hcol K g = hcol K h /\ htmpl K g = htmpl K h.
Definition iok d h : Prop := inv cmp (fld d (hcol K h)) (hix K h).
Definition hids d := map (hid K) (hdrs K d).
Record stat d : Prop := {
  s_ids : NoDup (hids d);
  s_tab : forall c, NoDup (table K d c);
  s_ttab : forall c, NoDup (ttable K d c);
  s_in : forall c i, In i (table K d c) \/ In i (ttable K d c) -> In i (hids d);
  s_col : forall h, In h (hdrs K d) -> (hcol K h <= max_field)%nat;
  s_id : forall h, In h (hdrs K d) -> 0 < hid K h < 2 ^ 31;
  s_tmpl : forall h t, In h (hdrs K d) -> htmpl K h = Some t -> tmpl_ok (hcol K h) t;
  s_gtab : forall h, In h (hdrs K d) -> forall c, In (hid K h) (table K d c) <-> c = hcol K h;
  s_gttab : forall h, In h (hdrs K d) -> forall c, In (hid K h) (ttable K d c) <-> exists t, htmpl K h = Some t /\ fixes t c }.
Definition member d h (e : Z) : Prop := exists f, In (e, f) (recs K d) /\ belongs h f = true.
Lemma dgood_intro d : stat d -> NoDup (map fst (recs K d)) -> ~ In 0 (map fst (recs K d)) ->
  (forall h, In h (hdrs K d) -> iok d h /\ NoDup (rw h) /\ forall e, In e (rw h) <-> member d h e) -> dgood cmp null d.
Proof.
  intros [S1 S2 S3 S4 S5 S6 S7 S8 S9] H1 H2 H3. constructor; auto. intros h Hh. destruct (H3 h Hh) as (I1 & I2 & I3). constructor; auto.
  apply NoDup_Permutation; [exact I2|now apply NoDup_map_fst|]. intro e. rewrite I3, in_map_iff. unfold member. split.
  - intros (f & A1 & A2). exists (e, f). split; [reflexivity|]. apply filter_In. auto.
  - intros ([e' f] & <- & A). apply filter_In in A. exists f. exact A.
Qed.
Lemma dgood_stat d : dgood cmp null d -> stat d.
Proof. intros Hd. constructor; try apply Hd; intros h; intros; try (eapply g_col + eapply g_id + eapply g_tab + eapply g_ttab); try (now apply Hd); eauto. Qed.
Lemma dgood_hdr d h : dgood cmp null d -> In h (hdrs K d) -> iok d h /\ NoDup (rw h) /\ forall e, In e (rw h) <-> member d h e.
Proof. intros Hd Hh. split; [apply (d_hdr _ _ _ Hd h Hh)|]. split; [now apply (rows_nodup cmp null d)|]. intro e. now apply (in_rows cmp null d). Qed.

(* ---- the effect of a walk ---- *)
Definition eff (a : act) (r : Z) h g : Prop :=
  match a with
  | Add => Permutation (rw g) (r :: rw h)
  | Del => (In r (rw h) /\ Permutation (rw h) (r :: rw g)) \/ (~ In r (rw h) /\ rw g = rw h)
  end.
Record urel (s : header K -> bool) (R : header K -> header K -> Prop) d d' : Prop := {
  u_recs : recs K d' = recs K d;
  u_tab : table K d' = table K d;
  u_ttab : ttable K d' = ttable K d;
  u_ids : hids d' = hids d;
  u_hdr : forall h, In h (hdrs K d) -> exists g, In g (hdrs K d') /\ hsame h g /\ (if s h then R h g else g = h) }.
Definition free (al : nat -> Z) (n : nat) d : Prop :=
  (forall m, al m <> 0) /\ (forall m k, al m = al k -> m = k) /\ forall h m, In h (hdrs K d) -> (n <= m)%nat -> ~ In (al m) (nodes (tr (hix K h))).
Lemma hsame_refl h : hsame h h. Proof. repeat split. Qed.
Lemma hsame_trans h1 h2 h3 : hsame h1 h2 -> hsame h2 h3 -> hsame h1 h3.
Proof. unfold hsame. intuition congruence. Qed.
Lemma hsame_belongs h g f : hsame h g -> belongs g f = belongs h f.
Proof. intros (_ & H1 & H2). unfold QyPick.belongs, matches. now rewrite H1, H2. Qed.
Lemma in_uniq (hs : list (header K)) h g : NoDup (map (hid K) hs) -> In h hs -> In g hs -> hid K h = hid K g -> h = g.
Proof. intros Hn H1 H2 E1. pose proof (hget_in hs h Hn H1) as A. pose proof (hget_in hs g Hn H2) as B. congruence. Qed.
Lemma u_back s R d d' g : urel s R d d' -> NoDup (hids d) -> In g (hdrs K d') -> exists h, In h (hdrs K d) /\ hsame h g /\ (if s h then R h g else g = h).
Proof.
  intros U Hn Hg. assert (Hi : In (hid K g) (hids d)) by (rewrite <- (u_ids _ _ _ _ U); now apply in_map). apply in_map_iff in Hi. destruct Hi as (h & H1 & H2).
  destruct (u_hdr _ _ _ _ U h H2) as (g' & G1 & G2 & G3). assert (g' = g) as ->; [|exists h; auto].
  apply (in_uniq (hdrs K d')); auto; [change (NoDup (hids d')); rewrite (u_ids _ _ _ _ U); exact Hn|]. destruct G2 as (G2 & _). congruence.
Qed.
Lemma u_stat s R d d' : urel s R d d' -> stat d -> stat d'.
Proof.
  intros U S0. pose proof (s_ids _ S0) as Hn. constructor.
  - rewrite (u_ids _ _ _ _ U). exact Hn.
  - intro c. rewrite (u_tab _ _ _ _ U). apply S0.
  - intro c. rewrite (u_ttab _ _ _ _ U). apply S0.
  - intros c i. rewrite (u_tab _ _ _ _ U), (u_ttab _ _ _ _ U), (u_ids _ _ _ _ U). apply S0.
  - intros g Hg. destruct (u_back _ _ _ _ g U Hn Hg) as (h & H1 & (_ & -> & _) & _). now apply S0.
  - intros g Hg. destruct (u_back _ _ _ _ g U Hn Hg) as (h & H1 & (-> & _ & _) & _). now apply S0.
  - intros g t Hg. destruct (u_back _ _ _ _ g U Hn Hg) as (h & H1 & (_ & -> & ->) & _). now apply S0.
  - intros g Hg. rewrite (u_tab _ _ _ _ U). destruct (u_back _ _ _ _ g U Hn Hg) as (h & H1 & (-> & -> & _) & _). now apply S0.
  - intros g Hg. rewrite (u_ttab _ _ _ _ U). destruct (u_back _ _ _ _ g U Hn Hg) as (h & H1 & (-> & _ & ->) & _). now apply S0.
Qed.
Lemma u_refl s R d : (forall h, In h (hdrs K d) -> s h = false) -> urel s R d d.
Proof. intro H. constructor; auto. intros h Hh. exists h. split; [exact Hh|]. split; [apply hsame_refl|]. now rewrite (H h Hh). Qed.
Lemma u_iff s s' R d d' : (forall h, In h (hdrs K d) -> s' h = s h) -> urel s R d d' -> urel s' R d d'.
Proof.
  intros H [U1 U2 U3 U4 U5]. constructor; auto. intros h Hh. destruct (U5 h Hh) as (g & G1 & G2 & G3). exists g. rewrite (H h Hh). auto.
Qed.
Definition resp (s : header K -> bool) : Prop := forall h g, hsame h g -> s g = s h.
Lemma u_trans s1 s2 (R : header K -> header K -> Prop) d d1 d2 : resp s2 -> 
  (forall h h1 h2, In h (hdrs K d) -> s1 h = true -> s2 h = true -> R h h1 -> R h1 h2 -> R h h2) -> urel s1 R d d1 -> urel s2 R d1 d2 -> urel (fun h => s1 h || s2 h) R d d2.
Proof.
  intros Hs Hov [U1 U2 U3 U4 U5] [V1 V2 V3 V4 V5]. constructor; try congruence. intros h Hh. destruct (U5 h Hh) as (g & G1 & G2 & G3).
  destruct (V5 g G1) as (k & K1 & K2 & K3). exists k. split; [exact K1|]. split; [eapply hsame_trans; eauto|]. rewrite (Hs h g G2) in K3.
  destruct (s1 h) eqn:E1, (s2 h) eqn:E2; cbn; [eapply Hov; eauto|congruence|congruence|congruence].
Qed.

(* ---- one row in one index ---- *)
Lemma set_ids d i x : hids (set_ix K d i x) = hids d.
Proof. unfold hids, set_ix. cbn [hdrs]. rewrite map_map. apply map_ext. intro h. destruct (hid K h =? i); reflexivity. Qed.
Lemma set_rel (R : header K -> header K -> Prop) d h x : NoDup (hids d) -> In h (hdrs K d) -> R h (with_ix K x h) -> urel (fun g => hid K g =? hid K h) R d (set_ix K d (hid K h) x).
Proof.
  intros Hn Hh HR. constructor; try reflexivity; [apply set_ids|]. intros g Hg. exists (if hid K g =? hid K h then with_ix K x g else g). split.
  - cbn [set_ix hdrs]. apply in_map_iff. exists g. auto.
  - destruct (Z.eqb_spec (hid K g) (hid K h)) as [E1|E1]; [|split; [apply hsame_refl|reflexivity]]. split; [repeat split|]. rewrite (in_uniq _ g h Hn Hg Hh E1). exact HR.
Qed.
Lemma act_ok a al r h d n : NoDup (hids d) -> In h (hdrs K d) -> iok d h -> (a = Add -> free al n d) ->
  exists x n' e, act_row K cmp null a al r h (d, n) = Some ((set_ix K d (hid K h) x, n'), e) /\ (e = 0 \/ e = -2) /\ (n <= n')%nat /\
    (a = Add \/ In r (rw h) -> e = 0) /\ eff a r h (with_ix K x h) /\ inv cmp (fld d (hcol K h)) x /\ (free al n d -> free al n' (set_ix K d (hid K h) x)).
Proof.
  intros Hn Hh Hi Hf. cbn [act_row].
  assert (Hfree : forall x n', (n <= n')%nat -> (forall m, (n' <= m)%nat -> free al n d -> ~ In (al m) (nodes (tr x))) -> free al n d -> free al n' (set_ix K d (hid K h) x)).
  { intros x n' Hle Hx F. pose proof F as (F1 & F2 & F3). split; [exact F1|]. split; [exact F2|]. intros g m Hg Hm. cbn [set_ix hdrs] in Hg. apply in_map_iff in Hg. destruct Hg as (g0 & <- & Hg).
    destruct (hid K g0 =? hid K h); [cbn; now apply Hx|]. apply F3; [exact Hg|lia]. }
  destruct a.
  - destruct (Hf eq_refl) as (F1 & F2 & F3). assert (Hal : ~ In (al n) (ids (tr (hix K h)))) by (rewrite <- nodes_ids; apply F3; [exact Hh|lia]).
    destruct (add_ok cmp (fld d (hcol K h)) TO (hix K h) r (al n) Hi (F1 n) Hal) as (y & -> & Hy & (L & R & E1 & E2) & Hinc).
    exists y, (S n), 0. split; [reflexivity|]. split; [auto|]. split; [lia|]. split; [auto|]. split; [|split; [exact Hy|]].
    + cbn [eff]. unfold rw. cbn [with_ix hix]. rewrite E1, E2. symmetry. apply Permutation_middle.
    + apply Hfree; [lia|]. intros m Hm _ Q. rewrite nodes_ids in Q. apply Hinc in Q. destruct Q as [Q|Q]; [apply F2 in Q; lia|]. rewrite <- nodes_ids in Q. revert Q. apply F3; [exact Hh|lia].
  - destruct (in_dec Z.eq_dec r (rw h)) as [Hr|Hr].
    + destruct (remove_ok cmp (fld d (hcol K h)) TO (hix K h) r Hi Hr) as (y & -> & Hy & (L & R & E1 & E2) & Hinc).
      exists y, n, 0. split; [reflexivity|]. split; [auto|]. split; [lia|]. split; [auto|]. split; [|split; [exact Hy|]].
      * left. split; [exact Hr|]. unfold rw. cbn [with_ix hix]. rewrite E1, E2. symmetry. apply Permutation_middle.
      * apply Hfree; [lia|]. intros m Hm (_ & _ & F3) Q. rewrite nodes_ids in Q. apply Hinc in Q. rewrite <- nodes_ids in Q. revert Q. now apply F3.
    + destruct (remove_absent cmp (fld d (hcol K h)) TO (hix K h) r Hi Hr) as (e & -> & He).
      exists (hix K h), n, (if e <? -2 then -2 else 0). split; [reflexivity|]. split; [destruct (e <? -2); auto|]. split; [lia|]. split; [intros [Q|Q]; [discriminate|contradiction]|]. split; [|split; [exact Hi|]].
      * right. split; [exact Hr|reflexivity].
      * apply Hfree; [lia|]. intros m Hm (_ & _ & F3). now apply F3.
Qed.
(* ---- a walk over a list of indexes ---- *)
Definition wsel (which : header K -> option bool) (l : list Z) h : bool := existsb (Z.eqb (hid K h)) l && match which h with Some b => b | None => false end.
Definition sure (a : act) r (s : header K -> bool) d : Prop := a = Add \/ forall h, In h (hdrs K d) -> s h = true -> In r (rw h).
Definition runs (o : option (st K * Z)) (a : act) al r (s : header K -> bool) (P : Prop) d n : Prop :=
  exists d' n' e, o = Some ((d', n'), e) /\ (e = 0 \/ e = -2) /\ (P -> e = 0) /\
    (e = 0 -> urel s (eff a r) d d' /\ (forall g, In g (hdrs K d') -> iok d' g) /\ (free al n d -> free al n' d')).
Definition wresp (which : header K -> option bool) : Prop := forall h g, hsame h g -> which g = which h.
Lemma wsel_resp which l : wresp which -> resp (wsel which l).
Proof. intros Hw h g H. unfold wsel. rewrite (Hw h g H). destruct H as (-> & _). reflexivity. Qed.
Lemma existsb_in i l : existsb (Z.eqb i) l = true <-> In i l.
Proof. rewrite existsb_exists. split; [intros (x & H1 & H2); apply Z.eqb_eq in H2; congruence|]. intro H. exists i. split; [exact H|apply Z.eqb_refl]. Qed.
Lemma each_run a al r which : wresp which -> forall l d n, NoDup (hids d) -> NoDup l -> incl l (hids d) ->
  (forall h, In h (hdrs K d) -> In (hid K h) l -> which h <> None) -> (forall h, In h (hdrs K d) -> iok d h) -> (a = Add -> free al n d) ->
  runs (each K cmp null a al r which l (d, n)) a al r (wsel which l) (sure a r (wsel which l) d) d n.
Proof.
  intros Hw l. induction l as [|i l IH]; intros d n Hn Hl Hi Hwh Hok Hf.
  - exists d, n, 0. split; [reflexivity|]. split; [auto|]. split; [auto|]. intros _. split; [apply u_refl; reflexivity|]. auto.
  - inversion_clear Hl as [|? ? Hx Hl']. cbn [each fst]. destruct (hget_ex (hdrs K d) i Hn (Hi i (or_introl eq_refl))) as (h & Eh & Hh & Hid). rewrite Eh.
    assert (Hne : which h <> None) by (apply Hwh; [exact Hh|rewrite Hid; now left]). destruct (which h) as [[|]|] eqn:Ew; [| |contradiction].
    + destruct (act_ok a al r h d n Hn Hh (Hok h Hh) Hf) as (x & n1 & e & -> & He & Hle & Hsucc & Heff & Hinv & Hfr). set (d1 := set_ix K d (hid K h) x) in *.
      destruct (Z.eqb_spec e 0) as [->|Hne0].
      2: { exists d1, n1, e. split; [reflexivity|]. split; [auto|]. split; [|intro Q; contradiction]. intros [Q|Q]; apply Hsucc; [auto|]. right. apply Q; [exact Hh|].
           unfold wsel. rewrite Ew, andb_true_r. apply existsb_in. rewrite Hid. now left. }
      pose proof (set_rel (eff a r) d h x Hn Hh Heff) as U1. fold d1 in U1.
      assert (Hn1 : NoDup (hids d1)) by (unfold d1; rewrite set_ids; exact Hn).
      assert (Hok1 : forall g, In g (hdrs K d1) -> iok d1 g).
      { intros g Hg. destruct (u_back _ _ _ _ g U1 Hn Hg) as (g0 & G1 & (G2 & G3 & _) & G4). unfold iok. change (fld d1 (hcol K g)) with (fld d (hcol K g)). rewrite G3.
        cbn [d1 set_ix hdrs] in Hg. apply in_map_iff in Hg. destruct Hg as (g1 & E1 & Hg1). assert (g1 = g0).
        { apply (in_uniq (hdrs K d)); auto. rewrite <- G2, <- E1. destruct (hid K g1 =? hid K h); reflexivity. }
        subst g1. rewrite <- E1. destruct (Z.eqb_spec (hid K g0) (hid K h)) as [Q|Q]; [|now apply Hok]. rewrite (in_uniq _ g0 h Hn G1 Hh Q). exact Hinv. }
      destruct (IH d1 n1) as (d2 & n2 & e2 & E1 & E2 & E3 & E4); auto.
      { unfold d1. rewrite set_ids. intros z Hz. apply Hi. now right. }
      { intros g Hg Hgl. destruct (u_back _ _ _ _ g U1 Hn Hg) as (g0 & G1 & G2 & _). rewrite (Hw g0 g G2). apply Hwh; [exact G1|]. destruct G2 as (<- & _). now right. }
      assert (Hsel : forall g, In g (hdrs K d) -> wsel which (i :: l) g = (hid K g =? hid K h) || wsel which l g).
      { intros g Hg. unfold wsel. cbn [existsb]. rewrite <- Hid. destruct (Z.eqb_spec (hid K g) (hid K h)) as [Q|Q]; [|reflexivity]. rewrite (in_uniq _ g h Hn Hg Hh Q), Ew. reflexivity. }
      assert (Hdis : forall g, In g (hdrs K d) -> (hid K g =? hid K h) = true -> wsel which l g = true -> False).
      { intros g Hg Q1 Q2. apply Z.eqb_eq in Q1. unfold wsel in Q2. apply andb_true_iff in Q2. destruct Q2 as [Q2 _]. apply existsb_in in Q2. apply Hx. rewrite <- Hid, <- Q1. exact Q2. }
      exists d2, n2, e2. split; [exact E1|]. split; [exact E2|]. split.
      * intros [Q|Q]; apply E3; [left; exact Q|]. right. intros g Hg Hs. destruct (u_back _ _ _ _ g U1 Hn Hg) as (g0 & G1 & G2 & G3). rewrite (wsel_resp _ l Hw g0 g G2) in Hs.
        destruct (hid K g0 =? hid K h) eqn:Eg; [exfalso; eapply Hdis; eauto|]. rewrite G3. apply Q; [exact G1|]. rewrite (Hsel g0 G1), Hs. apply orb_true_r.
      * intro Q. destruct (E4 Q) as (U2 & O2 & F2). split; [|split; [exact O2|auto]]. eapply u_iff; [exact Hsel|]. eapply u_trans; [now apply wsel_resp| |exact U1|exact U2].
        intros g h1 h2 Hg Q1 Q2. exfalso. eapply Hdis; eauto.
    + destruct (IH d n) as (d2 & n2 & e2 & E1 & E2 & E3 & E4); auto.
      { intros z Hz. apply Hi. now right. }
      { intros g Hg Hgl. apply Hwh; [exact Hg|now right]. }
      assert (Hsel : forall g, In g (hdrs K d) -> wsel which (i :: l) g = wsel which l g).
      { intros g Hg. unfold wsel. cbn [existsb]. destruct (Z.eqb_spec (hid K g) i) as [Q|Q]; [|reflexivity]. rewrite <- Hid in Q. rewrite (in_uniq _ g h Hn Hg Hh Q), Ew, !andb_false_r. reflexivity. }
      exists d2, n2, e2. split; [exact E1|]. split; [exact E2|]. split.
      * intros [Q|Q]; apply E3; [left; exact Q|]. right. intros g Hg Hs. apply Q; [exact Hg|]. rewrite (Hsel g Hg). exact Hs.
      * intro Q. destruct (E4 Q) as (U2 & O2 & F2). split; [|auto]. eapply u_iff; [exact Hsel|exact U2].
Qed.
(* one walk after the other *)
Lemma eff_twice r h h1 h2 : NoDup (rw h) -> eff Del r h h1 -> eff Del r h1 h2 -> eff Del r h h2.
Proof.
  intros Hn [[A1 A2]|[A1 A2]] B; [|unfold eff in *; rewrite A2 in B; tauto]. left. split; [exact A1|].
  assert (Hx : ~ In r (rw h1)) by (eapply Permutation_NoDup in Hn; [|exact A2]; inversion_clear Hn; auto). destruct B as [[B1 _]|[_ B2]]; [contradiction|]. now rewrite B2.
Qed.
Lemma runs_next a al r s1 s2 (P P1 : Prop) (P2 : db K -> Prop) d n o k : resp s2 -> (a = Add -> free al n d) ->
  (forall h, In h (hdrs K d) -> s1 h = true -> s2 h = true -> a = Del /\ NoDup (rw h)) ->
  runs o a al r s1 P1 d n ->
  (forall d1 n1, urel s1 (eff a r) d d1 -> (forall g, In g (hdrs K d1) -> iok d1 g) -> (a = Add -> free al n1 d1) -> runs (k (d1, n1)) a al r s2 (P2 d1) d1 n1) ->
  (P -> P1 /\ forall d1, urel s1 (eff a r) d d1 -> P2 d1) ->
  runs (next_if K o k) a al r (fun h => s1 h || s2 h) P d n.
Proof.
  intros Hs Hf Hov (d1 & n1 & e1 & -> & E2 & E3 & E4) Hk HP. cbn [next_if]. destruct (Z.eqb_spec e1 0) as [->|Hne].
  - destruct (E4 eq_refl) as (U1 & O1 & F1). destruct (Hk d1 n1 U1 O1) as (d2 & n2 & e2 & -> & G2 & G3 & G4); [auto|].
    exists d2, n2, e2. split; [reflexivity|]. split; [exact G2|]. split; [intro Q; apply G3; now apply HP|]. intro Q. destruct (G4 Q) as (U2 & O2 & F2). split; [|auto].
    eapply u_trans; [exact Hs| |exact U1|exact U2]. intros h h1 h2 Hh Q1 Q2 R1 R2. destruct (Hov h Hh Q1 Q2) as [-> Hnd]. eapply eff_twice; eauto.
  - exists d1, n1, e1. split; [reflexivity|]. split; [exact E2|]. split; [intro Q; apply E3; now apply HP|]. intro Q. contradiction.
Qed.
Lemma runs_iff o a al r s s' P d n : (forall h, In h (hdrs K d) -> s' h = s h) -> runs o a al r s P d n -> runs o a al r s' P d n.
Proof. intros H (d' & n' & e & E1 & E2 & E3 & E4). exists d', n', e. split; [exact E1|]. split; [exact E2|]. split; [exact E3|]. intro Q. destruct (E4 Q) as (U & O). split; [eapply u_iff; eauto|exact O]. Qed.

(* ---- the indexes of a column ---- *)
Definition fixb t (c : nat) : bool := match nth_error t c with Some (Some _) => true | _ => false end.
Lemma fixb_ok t c : fixb t c = true <-> fixes t c.
Proof. unfold fixb, fixes. destruct (nth_error t c) as [[e|]|]; split; intro H; try discriminate; eauto; destruct H; discriminate. Qed.
Definition dep (c : nat) h : bool := Nat.eqb (hcol K h) c || match htmpl K h with Some t => fixb t c | None => false end.
Lemma dep_resp c h g : hsame h g -> dep c g = dep c h.
Proof. intros (_ & H1 & H2). unfold dep. now rewrite H1, H2. Qed.
Lemma in_tab d h c : stat d -> In h (hdrs K d) -> existsb (Z.eqb (hid K h)) (table K d c) = Nat.eqb (hcol K h) c.
Proof.
  intros S0 Hh. destruct (Nat.eqb_spec (hcol K h) c) as [Q|Q].
  - apply existsb_in. now apply (s_gtab _ S0 h Hh).
  - destruct (existsb (Z.eqb (hid K h)) (table K d c)) eqn:E1; [|reflexivity]. apply existsb_in in E1. apply (s_gtab _ S0 h Hh) in E1. congruence.
Qed.
Lemma in_ttab d h c : stat d -> In h (hdrs K d) -> existsb (Z.eqb (hid K h)) (ttable K d c) = match htmpl K h with Some t => fixb t c | None => false end.
Proof.
  intros S0 Hh. pose proof (s_gttab _ S0 h Hh c) as Hi. rewrite <- existsb_in in Hi. destruct (existsb (Z.eqb (hid K h)) (ttable K d c)).
  - destruct (proj1 Hi eq_refl) as (t & -> & Hf). symmetry. now apply fixb_ok.
  - destruct (htmpl K h) as [t|] eqn:Et; [|reflexivity]. destruct (fixb t c) eqn:Ef; [|reflexivity]. apply fixb_ok in Ef. enough (false = true) by discriminate. apply Hi. eauto.
Qed.
Definition fsel c f h : bool := dep c h && belongs h f.
Lemma fsel_resp c f : resp (fsel c f).
Proof. intros h g H. unfold fsel. rewrite (dep_resp c h g H), (hsame_belongs h g f H). reflexivity. Qed.
Lemma tmpl_own d h t : stat d -> In h (hdrs K d) -> htmpl K h = Some t -> fixb t (hcol K h) = false.
Proof. intros S0 Hh Ht. destruct (fixb t (hcol K h)) eqn:E1; [|reflexivity]. apply fixb_ok in E1. destruct (s_tmpl _ S0 h t Hh Ht) as (_ & _ & _ & H). contradiction. Qed.
Lemma field_run a al r c d n f : stat d -> fields K (recs K d) r = f -> (forall h, In h (hdrs K d) -> iok d h) -> (a = Add -> free al n d) ->
  runs (index_field K cmp null a al r c (d, n)) a al r (fsel c f) (sure a r (fsel c f) d) d n.
Proof.
  intros S0 Hr Hok Hf. unfold index_field. cbn [fst]. rewrite Hr. set (which := fun h : header K => Some (Nat.ltb (hcol K h) (length f) && matches K cmp h f)).
  assert (Hw : wresp which) by (intros h g (H1 & H2 & H3); unfold which, matches; rewrite H2, H3; reflexivity).
  set (s1 := fun h : header K => Nat.eqb (hcol K h) c && belongs h f). set (s2 := fun h : header K => match htmpl K h with Some t => fixb t c | None => false end && belongs h f).
  assert (R1 : resp s1) by (intros h g H; unfold s1; rewrite (hsame_belongs h g f H); destruct H as (_ & -> & _); reflexivity).
  assert (R2 : resp s2) by (intros h g H; unfold s2; rewrite (hsame_belongs h g f H); destruct H as (_ & _ & ->); reflexivity).
  assert (W1 : forall d, stat d -> forall h, In h (hdrs K d) -> s1 h = wsel which (table K d c) h) by (intros d0 S1 h Hh; unfold wsel; rewrite (in_tab d0 h c S1 Hh); reflexivity).
  assert (W2 : forall d, stat d -> forall h, In h (hdrs K d) -> s2 h = wsel which (ttable K d c) h) by (intros d0 S1 h Hh; unfold wsel; rewrite (in_ttab d0 h c S1 Hh); reflexivity).
  assert (HD : forall h, In h (hdrs K d) -> s1 h = true -> s2 h = true -> False).
  { intros h Hh Q1 Q2. unfold s1, s2 in *. apply andb_true_iff in Q1, Q2. destruct Q1 as [Q1 _], Q2 as [Q2 _]. apply Nat.eqb_eq in Q1. destruct (htmpl K h) as [t|] eqn:Et; [|discriminate].
    rewrite <- Q1, (tmpl_own d h t S0 Hh Et) in Q2. discriminate. }
  apply runs_iff with (s := fun h => s1 h || s2 h).
  { intros h Hh. unfold fsel, dep, s1, s2. now rewrite andb_orb_distrib_l. }
  apply runs_next with (P1 := sure a r (wsel which (table K d c)) d) (P2 := fun d1 => sure a r (wsel which (ttable K d1 c)) d1); auto.
  - intros h Hh Q1 Q2. exfalso. eapply HD; eauto.
  - apply runs_iff with (s := wsel which (table K d c)); [now apply W1|]. apply each_run; auto; try apply S0.
    + intros i Hi. apply (s_in _ S0 c). auto.
    + intros h _ _. discriminate.
  - intros d1 n1 U O1 F1. pose proof (u_stat _ _ _ _ U S0) as S1. apply runs_iff with (s := wsel which (ttable K d1 c)); [now apply W2|]. cbn [fst]. apply each_run; auto; try apply S1.
    + intros i Hi. apply (s_in _ S1 c). auto.
    + intros h _ _. discriminate.
  - intros HP. assert (HP1 : sure a r s1 d /\ sure a r s2 d).
    { unfold sure, fsel in *. destruct HP as [HP|HP]; [auto|]. split; right; intros h Hh Q; apply HP; auto; unfold s1, s2, dep in *; apply andb_true_iff in Q; destruct Q as [-> ->]; [reflexivity|rewrite orb_true_r; reflexivity]. }
    destruct HP1 as [HP1 HP2]. split.
    + destruct HP1 as [Q|Q]; [left; exact Q|right]. intros h Hh Hs. apply Q; [exact Hh|]. rewrite (W1 d S0 h Hh). exact Hs.
    + intros d1 U. pose proof (u_stat _ _ _ _ U S0) as S1. destruct HP2 as [Q|Q]; [left; exact Q|right]. intros g Hg Hs. rewrite <- (W2 d1 S1 g Hg) in Hs.
      destruct (u_back _ _ _ _ g U (s_ids _ S0) Hg) as (h & H1 & H2 & H3). rewrite (R2 h g H2) in Hs. specialize (Q h H1 Hs). destruct (s1 h) eqn:E1; [exfalso; eapply HD; eauto|]. now rewrite H3.
Qed.
(* ---- all indexes ---- *)
Definition tsel j m f h : bool := match tmpl_turn K cmp j m f h with Some b => b | None => false end.
Lemma turn_resp j m f : wresp (tmpl_turn K cmp j m f).
Proof. intros h g (_ & H1 & H2). unfold tmpl_turn. now rewrite H1, H2. Qed.
Lemma first_fixes t : forall j, first_fixed K t = Some j -> fixes t j.
Proof.
  induction t as [|[e|] t IH]; intros j H; cbn [first_fixed] in H; [discriminate|injection H as <-; exists e; reflexivity|].
  destruct (first_fixed K t) as [k|]; [|discriminate]. injection H as <-. apply (IH k eq_refl).
Qed.
Definition csel j m f h : bool := (Nat.eqb (hcol K h) j && matches K cmp h f) || tsel j m f h.
Lemma csel_resp j m f : resp (csel j m f).
Proof. intros h g H. unfold csel, tsel. rewrite (turn_resp j m f h g H). destruct H as (_ & H1 & H2). unfold matches. now rewrite H1, H2. Qed.
Fixpoint colsel k j m f h : bool := match k with O => false | S k => csel j m f h || colsel k (S j) m f h end.
Lemma colsel_resp k m f : forall j, resp (colsel k j m f).
Proof. induction k as [|k IH]; intros j h g H; cbn [colsel]; [reflexivity|]. rewrite (csel_resp j m f h g H), (IH (S j) h g H). reflexivity. Qed.
Lemma colsel_ex k m f h : forall j, colsel k j m f h = true -> exists i, (j <= i < j + k)%nat /\ csel i m f h = true.
Proof.
  induction k as [|k IH]; intros j H; cbn [colsel] in H; [discriminate|]. apply orb_true_iff in H. destruct H as [H|H]; [exists j; split; [lia|exact H]|].
  destruct (IH (S j) H) as (i & H1 & H2). exists i. split; [lia|exact H2].
Qed.
Lemma colsel_at k m f h i : forall j, (j <= i < j + k)%nat -> csel i m f h = true -> colsel k j m f h = true.
Proof.
  induction k as [|k IH]; intros j Hj Hc; [lia|]. cbn [colsel]. destruct (Nat.eq_dec i j) as [->|Hne]; [now rewrite Hc|]. rewrite (IH (S j)) by (auto; lia). apply orb_true_r.
Qed.
Definition plain f d : Prop := forall h t, In h (hdrs K d) -> htmpl K h = Some t -> match_tmpl K cmp t f = false.
Lemma tsel_tmpl j m f h : tsel j m f h = true -> exists t, htmpl K h = Some t /\ match_tmpl K cmp t f = true /\ first_fixed K t = Some j /\ (hcol K h < m)%nat /\ (length t <= m)%nat.
Proof.
  unfold tsel, tmpl_turn. destruct (htmpl K h) as [t|]; [|discriminate]. rewrite !andb_true_iff. intros [[[H1 H2] H3] H4]. exists t. apply Nat.leb_le in H1. apply Nat.ltb_lt in H4.
  destruct (first_fixed K t) as [i|]; [|discriminate]. apply Nat.eqb_eq in H3. subst i. auto.
Qed.
Lemma u_plain s R d d' f : urel s R d d' -> stat d -> plain f d -> plain f d'.
Proof. intros U S0 H g t Hg Ht. destruct (u_back _ _ _ _ g U (s_ids _ S0) Hg) as (h & H1 & (_ & _ & H2) & _). apply (H h t H1). congruence. Qed.
Lemma u_nodup s a r d d' : urel s (eff a r) d d' -> stat d -> a = Del -> (forall h, In h (hdrs K d) -> NoDup (rw h)) -> forall g, In g (hdrs K d') -> NoDup (rw g).
Proof.
  intros U S0 -> Hn g Hg. destruct (u_back _ _ _ _ g U (s_ids _ S0) Hg) as (h & H1 & _ & H2). pose proof (Hn h H1) as H3. destruct (s h); [|now rewrite H2].
  destruct H2 as [[_ H2]|[_ ->]]; [|exact H3]. eapply Permutation_NoDup in H3; [|exact H2]. now inversion_clear H3.
Qed.
Lemma cols_run a al r m f : forall k j d n, stat d -> (forall h, In h (hdrs K d) -> iok d h) -> (a = Add -> free al n d) -> (a = Del -> forall h, In h (hdrs K d) -> NoDup (rw h)) -> (a = Add -> plain f d) ->
  runs (index_cols K cmp null a al r m f k j (d, n)) a al r (colsel k j m f) (plain f d /\ sure a r (colsel k j m f) d) d n.
Proof.
  induction k as [|k IH]; intros j d n S0 Hok Hf Hnd Hpl.
  - cbn [index_cols colsel]. exists d, n, 0. split; [reflexivity|]. split; [auto|]. split; [auto|]. intros _. split; [apply u_refl; reflexivity|auto].
  - cbn [index_cols fst]. set (w1 := fun h : header K => Some (Nat.eqb (hcol K h) j && matches K cmp h f)).
    assert (Hw1 : wresp w1) by (intros h g (H1 & H2 & H3); unfold w1, matches; rewrite H2, H3; reflexivity).
    set (s1 := fun h : header K => Nat.eqb (hcol K h) j && matches K cmp h f). set (s2 := tsel j m f). set (s3 := colsel k (S j) m f).
    assert (R2 : resp s2) by (intros h g H; unfold s2, tsel; rewrite (turn_resp j m f h g H); reflexivity).
    assert (R3 : resp s3) by apply colsel_resp.
    assert (W1 : forall d, stat d -> forall h, In h (hdrs K d) -> s1 h = wsel w1 (table K d j) h).
    { intros d0 S1 h Hh. unfold wsel, w1, s1. rewrite (in_tab d0 h j S1 Hh). destruct (Nat.eqb (hcol K h) j); reflexivity. }
    assert (W2 : forall d, stat d -> forall h, In h (hdrs K d) -> s2 h = wsel (tmpl_turn K cmp j m f) (ttable K d j) h).
    { intros d0 S1 h Hh. unfold wsel. rewrite (in_ttab d0 h j S1 Hh). change (match tmpl_turn K cmp j m f h with Some b => b | None => false end) with (s2 h). destruct (s2 h) eqn:E1; [|now rewrite andb_false_r].
      apply tsel_tmpl in E1. destruct E1 as (t & -> & _ & E1 & _). apply first_fixes in E1. apply fixb_ok in E1. now rewrite E1. }
    (* a template index that is selected twice *)
    assert (T12 : forall d h, plain f d -> In h (hdrs K d) -> s2 h = true -> False).
    { intros d0 h Hp Hh Q. apply tsel_tmpl in Q. destruct Q as (t & E1 & E2 & _). rewrite (Hp h t Hh E1) in E2. discriminate. }
    assert (T3 : forall d h, plain f d -> In h (hdrs K d) -> s3 h = true -> (S j <= hcol K h)%nat).
    { intros d0 h Hp Hh Q. apply colsel_ex in Q. destruct Q as (i & Hi & Q). unfold csel in Q. apply orb_true_iff in Q. destruct Q as [Q|Q].
      - apply andb_true_iff in Q. destruct Q as [Q _]. apply Nat.eqb_eq in Q. lia.
      - apply tsel_tmpl in Q. destruct Q as (t & E1 & E2 & _). rewrite (Hp h t Hh E1) in E2. discriminate. }
    assert (Hcase : a = Add \/ a = Del) by (destruct a; auto).
    apply runs_iff with (s := fun h => s1 h || (s2 h || s3 h)).
    { intros h Hh. cbn [colsel]. unfold csel. fold (s1 h) (s2 h) (s3 h). now rewrite orb_assoc. }
    apply runs_next with (P1 := sure a r s1 d) (P2 := fun d1 => plain f d1 /\ sure a r s2 d1 /\ sure a r s3 d1).
    + intros h g H. now rewrite (R2 h g H), (R3 h g H).
    + exact Hf.
    + intros h Hh Q1 Q2. destruct Hcase as [Ea|Ea]; [exfalso|split; [exact Ea|now apply Hnd]]. unfold s1 in Q1. apply andb_true_iff in Q1. destruct Q1 as [Q1 _]. apply Nat.eqb_eq in Q1.
      apply orb_true_iff in Q2. destruct Q2 as [Q2|Q2]; [exact (T12 d h (Hpl Ea) Hh Q2)|]. pose proof (T3 d h (Hpl Ea) Hh Q2). lia.
    + assert (Hrun : runs (each K cmp null a al r w1 (table K d j) (d, n)) a al r (wsel w1 (table K d j)) (sure a r (wsel w1 (table K d j)) d) d n).
      { apply each_run; auto; try apply S0; [intros i Hi; apply (s_in _ S0 j); auto|intros h _ _; discriminate]. }
      apply (runs_iff _ _ _ _ _ s1) in Hrun; [|now apply W1]. destruct Hrun as (d' & n' & e & E1 & E2 & E3 & E4). exists d', n', e. split; [exact E1|]. split; [exact E2|]. split; [|exact E4].
      intros [Q|Q]; apply E3; [left; exact Q|right]. intros h Hh Hs. apply Q; [exact Hh|]. rewrite (W1 d S0 h Hh). exact Hs.
    + intros d1 n1 U1 O1 F1. pose proof (u_stat _ _ _ _ U1 S0) as S1. pose proof (fun Ea : a = Del => u_nodup _ _ _ _ _ U1 S0 Ea (Hnd Ea)) as Hnd1. pose proof (fun Ea : a = Add => u_plain _ _ _ _ f U1 S0 (Hpl Ea)) as Hpl1.
      apply runs_next with (P1 := sure a r s2 d1) (P2 := fun d2 => plain f d2 /\ sure a r s3 d2); auto.
      * intros h Hh Q1 Q2. destruct Hcase as [Ea|Ea]; [exfalso|split; [exact Ea|now apply Hnd1]]. exact (T12 d1 h (Hpl1 Ea) Hh Q1).
      * cbn [fst]. assert (Hrun : runs (each K cmp null a al r (tmpl_turn K cmp j m f) (ttable K d1 j) (d1, n1)) a al r (wsel (tmpl_turn K cmp j m f) (ttable K d1 j)) (sure a r (wsel (tmpl_turn K cmp j m f) (ttable K d1 j)) d1) d1 n1).
        { apply each_run; auto; try apply S1; [apply turn_resp|intros i Hi; apply (s_in _ S1 j); auto|]. intros h Hh Hi. apply (s_gttab _ S1 h Hh) in Hi. destruct Hi as (t & Ht & _). unfold tmpl_turn. rewrite Ht. discriminate. }
        apply (runs_iff _ _ _ _ _ s2) in Hrun; [|now apply W2]. destruct Hrun as (d' & n' & e & E1 & E2 & E3 & E4). exists d', n', e. split; [exact E1|]. split; [exact E2|]. split; [|exact E4].
        intros [Q|Q]; apply E3; [left; exact Q|right]. intros h Hh Hs. apply Q; [exact Hh|]. rewrite (W2 d1 S1 h Hh). exact Hs.
      * intros d2 n2 U2 O2 F2. pose proof (u_stat _ _ _ _ U2 S1) as S2. apply IH; auto.
        -- intros Ea. exact (u_nodup _ _ _ _ _ U2 S1 Ea (Hnd1 Ea)).
        -- intros Ea. exact (u_plain _ _ _ _ f U2 S1 (Hpl1 Ea)).
      * intros (P0 & PA & PB). split; [exact PA|]. intros d2 U2. split; [exact (u_plain _ _ _ _ f U2 S1 P0)|]. destruct PB as [Q|Q]; [left; exact Q|right]. intros g Hg Hs.
        destruct (u_back _ _ _ _ g U2 (s_ids _ S1) Hg) as (h & H1 & H2 & H3). rewrite (R3 h g H2) in Hs. specialize (Q h H1 Hs).
        destruct (s2 h) eqn:E1; [exfalso; exact (T12 d1 h P0 H1 E1)|]. now rewrite H3.
    + intros [P0 PS]. assert (PS1 : sure a r s1 d /\ sure a r s3 d).
      { destruct PS as [Q|Q]; [split; left; exact Q|]. split; right; intros h Hh Hs; apply Q; auto; cbn [colsel]; unfold csel; fold (s1 h) (s2 h) (s3 h); rewrite Hs; rewrite ?orb_true_r; reflexivity. }
      destruct PS1 as [PS1 PS3]. split; [exact PS1|]. intros d1 U1. split; [exact (u_plain _ _ _ _ f U1 S0 P0)|]. pose proof (u_stat _ _ _ _ U1 S0) as S1. split.
      * right. intros g Hg Hs. exfalso. exact (T12 d1 g (u_plain _ _ _ _ f U1 S0 P0) Hg Hs).
      * destruct PS3 as [Q|Q]; [left; exact Q|right]. intros g Hg Hs. destruct (u_back _ _ _ _ g U1 (s_ids _ S0) Hg) as (h & H1 & H2 & H3). rewrite (R3 h g H2) in Hs. specialize (Q h H1 Hs).
        destruct (s1 h) eqn:E1; [exfalso|now rewrite H3]. unfold s1 in E1. apply andb_true_iff in E1. destruct E1 as [E1 _]. apply Nat.eqb_eq in E1. pose proof (T3 d h P0 H1 Hs). lia.
Qed.
Lemma rec_run a al r f d n : stat d -> fields K (recs K d) r = f -> (forall h, In h (hdrs K d) -> iok d h) -> (a = Add -> free al n d) -> (a = Del -> forall h, In h (hdrs K d) -> NoDup (rw h)) -> (a = Add -> plain f d) ->
  runs (index_rec K cmp null a al r (d, n)) a al r (fun h => belongs h f) (plain f d /\ sure a r (fun h => belongs h f) d) d n.
Proof.
  intros S0 Hr Hok Hf Hnd Hpl. unfold index_rec. cbn [fst]. rewrite Hr. set (m := Nat.min (length f) (S max_field)).
  assert (Hs : forall h, In h (hdrs K d) -> belongs h f = colsel m 0 m f h).
  { intros h Hh. pose proof (s_col _ S0 h Hh) as Hc. destruct (belongs h f) eqn:E1.
    - symmetry. unfold QyPick.belongs in E1. apply andb_true_iff in E1. destruct E1 as [E1 E2]. apply Nat.ltb_lt in E1. apply colsel_at with (i := hcol K h); [unfold m; lia|]. unfold csel. now rewrite Nat.eqb_refl, E2.
    - destruct (colsel m 0 m f h) eqn:E2; [|reflexivity]. exfalso. apply colsel_ex in E2. destruct E2 as (i & Hi & E2). unfold csel in E2. apply orb_true_iff in E2. unfold QyPick.belongs in E1. destruct E2 as [E2|E2].
      + apply andb_true_iff in E2. destruct E2 as [E2 E3]. apply Nat.eqb_eq in E2. rewrite E3, andb_true_r in E1. apply Nat.ltb_ge in E1. unfold m in Hi. lia.
      + apply tsel_tmpl in E2. destruct E2 as (t & E2 & E3 & _ & E4 & _). unfold matches in E1. rewrite E2, E3, andb_true_r in E1. apply Nat.ltb_ge in E1. unfold m in E4. lia. }
  destruct (cols_run a al r m f m 0 d n S0 Hok Hf Hnd Hpl) as (d' & n' & e & E1 & E2 & E3 & E4). exists d', n', e. split; [exact E1|]. split; [exact E2|]. split.
  - intros [P0 PS]. apply E3. split; [exact P0|]. destruct PS as [Q|Q]; [left; exact Q|right]. intros h Hh Q1. apply Q; [exact Hh|]. now rewrite (Hs h Hh).
  - intro Q. destruct (E4 Q) as (U & O). split; [|exact O]. eapply u_iff; [exact Hs|exact U].
Qed.
End H.
