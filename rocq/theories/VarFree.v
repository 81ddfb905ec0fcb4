(** Freeing keeps the tiling. *)
From Coq Require Import List ZArith Bool Lia.
From Verif Require Import Word64 AllocModel AllocProof VarModel VarSpec VarProof VarSteps VarAlloc.
Import ListNotations.
Open Scope Z_scope.

Section Free.
Variables (baddr : Z -> Z) (k : nat) (X0 : Z -> Prop).
Notation inv := (VarProof.inv k).
Notation good := (VarAlloc.good k X0).
Arguments i_seg {k X L v B F}. Arguments i_pos {k X L v B F}. Arguments i_dis {k X L v B F}. Arguments i_next {k X L v B F}.
Arguments i_head {k X L v B F}. Arguments i_flag {k X L v B F}. Arguments i_dv {k X L v B F}. Arguments i_dv1 {k X L v B F}.
Arguments i_list {k X L v B F}. Arguments i_nd {k X L v B F}. Arguments i_free {k X L v B F}. Arguments i_held {k X L v B F}.
Arguments i_lnd {k X L v B F}. Arguments pos_bound {k X L v B F}.

Definition only (B : bmap) (o : Z) : Prop := forall p s, B p = Some (s, KHole) -> p = o.
Lemma head_bits X L v B F w s c : inv X L v B F -> B w = Some (s, c) -> c <> KHole ->
  is_free (ld v w) = match c with KFree => true | _ => false end /\
  is_special (ld v w) = match c with KStart | KEnd | KVictim => true | _ => false end.
Proof.
  intros H E N. pose proof (i_head H _ _ _ E) as Hh. destruct (i_pos H _ _ _ E) as (_ & P2 & _). unfold ld, is_free, is_special.
  destruct c; cbn [headok] in Hh.
  - destruct Hh as [_ ->]. split; reflexivity.
  - destruct Hh as (_ & -> & _). split; reflexivity.
  - destruct Hh as (_ & _ & ->). destruct fl; rewrite low_bits_c by (apply mod8_mul || lia); split; reflexivity.
  - destruct Hh as [-> _]. rewrite low_bits_c by (exact P2 || lia). split; reflexivity.
  - destruct Hh as [-> _]. rewrite low_bits_c by (exact P2 || lia). split; reflexivity.
  - contradiction.
Qed.

Lemma remark_nohole B w b : nohole B -> nohole (remark B w b).
Proof. intros N p q E. unfold remark in E. destruct (B w) as [[s c]|]; [|exact (N _ _ E)]. destruct c; try exact (N _ _ E).
  apply upd_inv in E. destruct E as [[_ E]|[_ E]]; [discriminate|exact (N _ _ E)]. Qed.
Lemma remark_only B w b o : only B o -> only (remark B w b) o.
Proof. intros N p q E. unfold remark in E. destruct (B w) as [[s c]|]; [|exact (N _ _ E)]. destruct c; try exact (N _ _ E).
  apply upd_inv in E. destruct E as [[_ E]|[_ E]]; [discriminate|exact (N _ _ E)]. Qed.

Lemma free_store_ok L v B F o s : inv (fun x => X0 x \/ x = o + s) L v B F -> B o = Some (s, KHole) -> only B o ->
  exists v', free_store baddr v o s = FOk v' /\ good L v' /\ keeps L v v'.
Proof.
  intros H E NO. destruct (pos_bound H _ _ _ E) as [Bo Bs]. pose proof (bucket_range s ltac:(lia)) as Rs.
  unfold free_store. destruct (dvs v <? s) eqn:Ed.
  - destruct (Z.eq_dec (dv v) 0) as [E0|N0].
    + rewrite E0, Z.eqb_refl. destruct (inv_victim k _ _ _ _ _ _ _ H E E0) as [H1 K1].
      set (u := make_victim v o s) in *. set (B1 := upd B o (Some (s, KVictim))) in *.
      assert (E1 : B1 o = Some (s, KVictim)) by apply upd_eq.
      assert (N1 : nohole B1).
      { intros p q Ep. unfold B1 in Ep. apply upd_inv in Ep. destruct Ep as [[_ Ep]|[Np Ep]]; [discriminate|]. apply Np. exact (NO _ _ Ep). }
      destruct (i_next H1 _ _ _ E1 ltac:(discriminate)) as (s2 & c2 & E2 & _).
      destruct (inv_clear baddr k _ X0 _ _ _ _ (o + s) _ _ H1 E2) as (H3 & D3 & D4 & K3).
      { intros ->. exact (N1 _ _ E2). }
      { intros x [Hx|Hx]; [now left|now right]. }
      eexists. split; [reflexivity|]. split; [|eapply keeps_trans; eassumption].
      eexists. exists F. split; [exact H3|]. now apply remark_nohole.
    + destruct (inv_from_victim k _ _ _ _ _ H N0) as [Ev H1]. set (d := dv v) in *. set (ds := dvs v) in *.
      destruct (pos_bound H _ _ _ Ev) as [Bd Bds]. pose proof (bucket_range ds ltac:(lia)) as Rd.
      assert (Ndo : d <> o) by (intros Eq; rewrite Eq in Ev; congruence).
      set (B1 := upd B d (Some (ds, KHole))) in *.
      assert (E1 : B1 o = Some (s, KHole)) by (unfold B1; rewrite upd_neq by auto; exact E).
      assert (E1d : B1 d = Some (ds, KHole)) by apply upd_eq.
      destruct (inv_victim k _ _ _ _ _ _ _ H1 E1 eq_refl) as [H2 K2].
      change (make_victim (set_dv v 0 0) o s) with (make_victim v o s) in H2, K2.
      set (u := make_victim v o s) in *. set (B2 := upd B1 o (Some (s, KVictim))) in *.
      assert (E2 : B2 o = Some (s, KVictim)) by apply upd_eq.
      assert (E2d : B2 d = Some (ds, KHole)) by (unfold B2; rewrite upd_neq by exact Ndo; exact E1d).
      assert (N2 : only B2 d).
      { intros p q Ep. unfold B2 in Ep. apply upd_inv in Ep. destruct Ep as [[_ Ep]|[Np Ep]]; [discriminate|].
        unfold B1 in Ep. apply upd_inv in Ep. destruct Ep as [[Ep _]|[Np2 Ep]]; [exact Ep|]. destruct Np. exact (NO _ _ Ep). }
      (* the head of the old victim is still there *)
      assert (Mv : is_used (ld u d) = false).
      { assert (Q : ld u d = ds + 3).
        { unfold u, make_victim, ld. cbn [st base set_mem mem set_dv]. pose proof (i_dis H _ _ _ _ _ _ E Ev ltac:(auto)) as D.
          rewrite !store_neq by lia. exact (proj1 (i_head H _ _ _ Ev)). }
        rewrite Q. destruct (i_pos H _ _ _ Ev) as (_ & P2 & _). rewrite is_used_c by (exact P2 || lia). reflexivity. }
      assert (C : exists B3, inv X0 L (clear_mark u (o + s)) B3 F /\ B3 d = Some (ds, KHole) /\ only B3 d /\
                    dv (clear_mark u (o + s)) = o /\ keeps L u (clear_mark u (o + s))).
      { destruct (i_next H2 _ _ _ E2 ltac:(discriminate)) as (s2 & c2 & E3 & _).
        destruct (Z.eq_dec (o + s) d) as [Eo|No].
        - exists B2. unfold clear_mark. rewrite Eo, Mv. split; [|split; [exact E2d|split; [exact N2|split; [reflexivity|apply keeps_refl]]]].
          eapply inv_X_drop with (w := d); [|rewrite E2d; discriminate|lia|exact H2]. intros x [Hx|Hx]; [now left|right; lia].
        - destruct (inv_clear baddr k _ X0 _ _ _ _ (o + s) _ _ H2 E3) as (H3 & D3 & D4 & K3).
          { intros ->. exact (No (N2 _ _ E3)). }
          { intros x [Hx|Hx]; [now left|now right]. }
          eexists. split; [exact H3|]. split; [now apply remark_hole|]. split; [now apply remark_only|]. split; [rewrite D3; reflexivity|exact K3]. }
      destruct C as (B3 & H3 & E3d & N3 & D3 & K3). set (u2 := clear_mark u (o + s)) in *.
      replace (d =? 0) with false by (symmetry; now apply Z.eqb_neq).
      replace (bucket_index ds <? 0) with false by (symmetry; apply Z.ltb_ge; lia).
      destruct (i_next H3 _ _ _ E3d ltac:(discriminate)) as (s4 & c4 & E4 & _).
      destruct (inv_mark baddr k X0 (fun x => X0 x \/ x = d + ds) _ _ _ _ (d + ds) _ _ H3 E4) as (H5 & D5 & D6 & K5).
      { intros ->. apply N3 in E4. lia. }
      { intros x Hx. now left. }
      { now right. }
      destruct (inv_push baddr k _ X0 L _ _ F d ds H5 (remark_hole _ _ _ _ _ E3d)) as (F6 & H6 & _ & _ & K6).
      { intros x [Hx|Hx]; [now left|now right]. }
      eexists. split; [reflexivity|]. split.
      * eexists. exists F6. split; [exact H6|]. intros p q Ep. apply upd_inv in Ep. destruct Ep as [[_ Ep]|[Np Ep]]; [discriminate|].
        apply Np. exact (remark_only _ _ _ _ N3 _ _ Ep).
      * eapply keeps_trans; [|exact K6]. eapply keeps_trans; [|exact K5]. eapply keeps_trans; [|exact K3]. exact K2.
  - replace (bucket_index s <? 0) with false by (symmetry; apply Z.ltb_ge; lia).
    destruct (inv_push baddr k _ X0 L _ _ F o s H E) as (F6 & H6 & _ & _ & K6).
    { intros x [Hx|Hx]; [now left|now right]. }
    eexists. split; [reflexivity|]. split; [|exact K6]. eexists. exists F6. split; [exact H6|].
    intros p q Ep. apply upd_inv in Ep. destruct Ep as [[_ Ep]|[Np Ep]]; [discriminate|]. apply Np. exact (NO _ _ Ep).
Qed.

Lemma free_next_ok L v B F o s : inv (fun x => X0 x \/ x = o + s) L v B F -> B o = Some (s, KHole) -> only B o ->
  exists v', free_next baddr v o s = FOk v' /\ good L v' /\ keeps L v v'.
Proof.
  intros H E NO. destruct (pos_bound H _ _ _ E) as [Bo Bs].
  destruct (i_next H _ _ _ E ltac:(discriminate)) as (s2 & c2 & E2 & Nst).
  assert (Nh : c2 <> KHole) by (intros ->; apply NO in E2; lia).
  destruct (head_bits _ _ _ _ _ _ _ _ H E2 Nh) as [Hb1 Hb2]. destruct (pos_bound H _ _ _ E2) as [Bo2 Bs2].
  unfold free_next. rewrite Hb1, Hb2.
  assert (Gen : c2 <> KFree -> c2 <> KVictim -> exists v', free_store baddr (set_mark v (o + s)) o s = FOk v' /\ good L v' /\ keeps L v v').
  { intros _ _. destruct (inv_mark baddr k _ (fun x => X0 x \/ x = o + s) _ _ _ _ (o + s) _ _ H E2 Nh) as (H5 & D5 & D6 & K5); [auto|now right|].
    destruct (free_store_ok _ _ _ _ _ _ H5 (remark_hole _ _ _ _ _ E) (remark_only _ _ _ _ NO)) as (v' & R & G & K).
    exists v'. split; [exact R|]. split; [exact G|]. eapply keeps_trans; eassumption. }
  assert (Ndv : c2 <> KVictim -> (o + s =? dv v) = false).
  { intro N. apply Z.eqb_neq. intro Eq. destruct (i_dv H) as [[K _]|K]; [lia|]. rewrite <- Eq, E2 in K. injection K as _ K. contradiction. }
  destruct c2; try contradiction.
  - rewrite Ndv by discriminate. cbn [andb]. apply Gen; discriminate.
  - rewrite Ndv by discriminate. cbn [andb]. apply Gen; discriminate.
  - destruct (head_free k _ _ _ _ _ _ _ H E2) as [_ Es]. rewrite Es.
    destruct (inv_unlink baddr k _ _ _ _ _ _ _ H E2) as (u & F1 & -> & H1 & D1 & D2 & K1).
    set (B1 := upd B (o + s) (Some (s2, KHole))) in *.
    assert (E1 : B1 o = Some (s, KHole)) by (unfold B1; rewrite upd_neq by lia; exact E).
    assert (E1' : B1 (o + s) = Some (s2, KHole)) by apply upd_eq.
    pose proof (inv_merge k _ _ _ _ _ _ _ _ H1 E1 E1') as H2.
    set (B2 := upd (upd B1 (o + s) None) o (Some (s + s2, KHole))) in *.
    assert (N2 : B2 (o + s) = None) by (unfold B2; rewrite upd_neq by lia; apply upd_eq).
    assert (H3 : inv (fun x => X0 x \/ x = o + (s + s2)) L u B2 F1).
    { eapply inv_X_drop with (w := o + s); [|rewrite N2; discriminate|lia|exact H2]. intros x [[Hx|Hx]|Hx]; [now left; left|now right|left; right; lia]. }
    destruct (free_store_ok _ _ _ _ _ _ H3 (upd_eq _ _ _)) as (v' & R & G & K).
    { intros p q Ep. unfold B2, B1 in Ep. apply upd_inv in Ep. destruct Ep as [[Ep _]|[Np Ep]]; [exact Ep|].
      apply upd_inv in Ep. destruct Ep as [[_ Ep]|[Np2 Ep]]; [discriminate|]. apply upd_inv in Ep. destruct Ep as [[Ep _]|[_ Ep]]; [contradiction|exact (NO _ _ Ep)]. }
    exists v'. split; [exact R|]. split; [exact G|]. eapply keeps_trans; eassumption.
  - pose proof (i_dv1 H _ _ E2) as Edv. rewrite <- Edv, Z.eqb_refl. cbn [andb].
    assert (N0 : dv v <> 0) by lia. destruct (inv_from_victim k _ _ _ _ _ H N0) as [Ev H1]. rewrite <- Edv in Ev, H1.
    rewrite Ev in E2. injection E2 as Es2.
    set (B1 := upd B (o + s) (Some (dvs v, KHole))) in *.
    assert (E1 : B1 o = Some (s, KHole)) by (unfold B1; rewrite upd_neq by lia; exact E).
    assert (E1' : B1 (o + s) = Some (dvs v, KHole)) by apply upd_eq.
    pose proof (inv_merge k _ _ _ _ _ _ _ _ H1 E1 E1') as H2.
    set (B2 := upd (upd B1 (o + s) None) o (Some (s + dvs v, KHole))) in *.
    assert (N2 : B2 (o + s) = None) by (unfold B2; rewrite upd_neq by lia; apply upd_eq).
    assert (H3 : inv X0 L (set_dv v 0 0) B2 F).
    { eapply inv_X_drop with (w := o + s); [|rewrite N2; discriminate|lia|exact H2]. intros x [Hx|Hx]; [now left|now right]. }
    destruct (inv_victim k _ _ _ _ _ _ _ H3 (upd_eq _ _ _) eq_refl) as [H4 K4].
    eexists. split; [reflexivity|]. split; [|exact K4]. eexists. exists F. split; [exact H4|].
    intros p q Ep. unfold B2, B1 in Ep. apply upd_inv in Ep. destruct Ep as [[_ Ep]|[Np Ep]]; [discriminate|].
    apply upd_inv in Ep. destruct Ep as [[Ep _]|[_ Ep]]; [contradiction|].
    apply upd_inv in Ep. destruct Ep as [[_ Ep]|[Np2 Ep]]; [discriminate|]. apply upd_inv in Ep. destruct Ep as [[Ep _]|[_ Ep]]; [contradiction|].
    apply Np. exact (NO _ _ Ep).
Qed.

Lemma used_size_room n : 0 <= n -> forall c, 0 <= c < 4 -> used_size (8 * n + c) = room n.
Proof.
  intros Hn c Hc. unfold used_size. rewrite pure_size_c by (apply mod8_mul || exact Hc). unfold room.
  destruct (8 * n <=? 32) eqn:E; [apply Z.leb_le in E; lia|apply Z.leb_gt in E].
  rewrite Z.rem_mod_nonneg by lia. rewrite mod8_mul. cbn [Z.eqb negb]. lia.
Qed.

Lemma free_object_ok L1 L2 v o n : good (L1 ++ (o, n) :: L2) v -> (is_used_prevfree (ld v o) = true -> ~ X0 o) ->
  free_object baddr v o = FErr (-4) \/
  exists v', free_object baddr v o = FOk v' /\ good (L1 ++ L2) v' /\ keeps (L1 ++ L2) v v'.
Proof.
  intros (B & F & H & NH) Hst. destruct (i_held H o n) as (s & fl & E); [apply in_or_app; right; now left|].
  destruct (i_head H _ _ _ E) as (Hn & Hs & Hm). unfold free_object. unfold ld at 1. rewrite Hm.
  assert (Hc : 0 <= (if fl then 2 else 0) < 4) by (destruct fl; lia).
  assert (Ef : is_free (8 * n + (if fl then 2 else 0)) = false).
  { unfold is_free. rewrite low_bits_c by (apply mod8_mul || exact Hc). destruct fl; reflexivity. }
  assert (Epf : is_used_prevfree (8 * n + (if fl then 2 else 0)) = fl).
  { unfold is_used_prevfree. rewrite low_bits_c by (apply mod8_mul || exact Hc). destruct fl; reflexivity. }
  assert (El : ld v o = 8 * n + (if fl then 2 else 0)) by exact Hm. rewrite El, Ef, Epf, (used_size_room n Hn _ Hc).
  assert (R32 : 32 <= room n) by (unfold room; lia). replace (room n <? 32) with false by (symmetry; apply Z.ltb_ge; lia).
  rewrite <- Hs in R32 |- *.
  assert (NH' : forall B', B' = upd B o (Some (s, KHole)) -> only B' o).
  { intros B' -> p q Ep. apply upd_inv in Ep. destruct Ep as [[Ep _]|[_ Ep]]; [exact Ep|]. destruct (NH _ _ Ep). }
  destruct (pos_bound H _ _ _ E) as [Bo Bs].
  destruct fl.
  - assert (Hst' : ~ X0 o) by (apply Hst; rewrite El; exact Epf).
    destruct (i_flag H _ _ _ E) as [Hx|(ps & Ep)]; [contradiction|]. destruct (i_pos H _ _ _ Ep) as (P1 & P2 & P3 & _).
    assert (Ef8 : ld v (o - 8) = ps + 1).
    { pose proof (i_head H _ _ _ Ep) as [_ Q]. unfold ld. rewrite <- Q. f_equal. lia. }
    rewrite Ef8. rewrite (pure_size_c ps 1) by (exact P2 || lia).
    destruct (head_free k _ _ _ _ _ _ _ H Ep) as [Q1 Q2]. rewrite Q1. cbn [negb orb].
    destruct (pure_size (o - ps) =? ps) eqn:Eps; cbn [negb]; [|now left]. right.
    destruct (inv_unlink baddr k _ _ _ _ _ _ _ H Ep) as (u & F1 & -> & H1 & D1 & D2 & K1).
    set (B1 := upd B (o - ps) (Some (ps, KHole))) in *.
    assert (E1 : B1 o = Some (s, KUsed n true)) by (unfold B1; rewrite upd_neq by lia; exact E).
    assert (H2 := inv_from_used baddr k _ _ _ _ _ _ _ _ _ _ H1 E1).
    set (B2 := upd B1 o (Some (s, KHole))) in *.
    assert (E2 : B2 (o - ps) = Some (ps, KHole)) by (unfold B2; rewrite upd_neq by lia; apply upd_eq).
    assert (E2' : B2 (o - ps + ps) = Some (s, KHole)) by (replace (o - ps + ps) with o by lia; apply upd_eq).
    pose proof (inv_merge k _ _ _ _ _ _ _ _ H2 E2 E2') as H3.
    set (B3 := upd (upd B2 (o - ps + ps) None) (o - ps) (Some (ps + s, KHole))) in *.
    assert (N3 : B3 o = None).
    { unfold B3. rewrite upd_neq by lia. replace (o - ps + ps) with o by lia. apply upd_eq. }
    assert (H4 : inv (fun x => X0 x \/ x = (o - ps) + (ps + s)) (L1 ++ L2) u B3 F1).
    { eapply inv_X_drop with (w := o); [|rewrite N3; discriminate|lia|exact H3]. intros x [Hx|Hx]; [now left; left|right; lia]. }
    rewrite (Z.add_comm s ps).
    destruct (free_next_ok _ _ _ _ _ _ H4 (upd_eq _ _ _)) as (v' & R & G & K).
    { intros p q Eq. unfold B3, B2, B1 in Eq. apply upd_inv in Eq. destruct Eq as [[Eq _]|[Np Eq]]; [exact Eq|].
      apply upd_inv in Eq. destruct Eq as [[_ Eq]|[Np2 Eq]]; [discriminate|]. apply upd_inv in Eq. destruct Eq as [[Eq _]|[_ Eq]]; [lia|].
      apply upd_inv in Eq. destruct Eq as [[Eq _]|[_ Eq]]; [exact Eq|]. destruct (NH _ _ Eq). }
    exists v'. split; [exact R|]. split; [exact G|]. eapply keeps_trans; [|exact K].
    eapply keeps_sub; [|exact K1]. intros x. rewrite !in_app_iff. cbn. tauto.
  - right. destruct (dv v + dvs v =? o) eqn:Edv.
    + apply Z.eqb_eq in Edv. assert (N0 : dv v <> 0).
      { intro E0. destruct (i_dv H) as [K|K]; [lia|]. rewrite E0 in K. destruct (pos_bound H _ _ _ K). lia. }
      destruct (inv_from_victim k _ _ _ _ _ H N0) as [Ev H1]. destruct (pos_bound H _ _ _ Ev) as [Bd Bds].
      set (B1 := upd B (dv v) (Some (dvs v, KHole))) in *.
      assert (E1 : B1 o = Some (s, KUsed n false)) by (unfold B1; rewrite upd_neq by lia; exact E).
      assert (H2 := inv_from_used baddr k _ _ _ _ _ _ _ _ _ _ H1 E1).
      set (B2 := upd B1 o (Some (s, KHole))) in *.
      assert (E2 : B2 (dv v) = Some (dvs v, KHole)) by (unfold B2; rewrite upd_neq by lia; apply upd_eq).
      assert (E2' : B2 (dv v + dvs v) = Some (s, KHole)) by (rewrite Edv; apply upd_eq).
      pose proof (inv_merge k _ _ _ _ _ _ _ _ H2 E2 E2') as H3.
      rewrite (Z.add_comm s (dvs v)).
      destruct (inv_victim k _ _ _ _ _ _ _ H3 (upd_eq _ _ _) eq_refl) as [H4 K4].
      eexists. split; [reflexivity|]. split; [|exact K4]. eexists. exists F. split; [exact H4|].
      intros p q Ep. unfold B2, B1 in Ep. apply upd_inv in Ep. destruct Ep as [[_ Ep]|[Np Ep]]; [discriminate|].
      apply upd_inv in Ep. destruct Ep as [[Ep _]|[_ Ep]]; [contradiction|].
      apply upd_inv in Ep. destruct Ep as [[_ Ep]|[Np2 Ep]]; [discriminate|].
      apply upd_inv in Ep. destruct Ep as [[Ep _]|[_ Ep]]; [lia|].
      apply upd_inv in Ep. destruct Ep as [[Ep _]|[_ Ep]]; [contradiction|]. exact (NH _ _ Ep).
    + assert (H2 := inv_from_used baddr k _ _ _ _ _ _ _ _ _ _ H E).
      destruct (free_next_ok (L1 ++ L2) v (upd B o (Some (s, KHole))) F o s) as (v' & R & G & K).
      * eapply inv_X; [|exact H2]. intros x Hx. now left.
      * apply upd_eq.
      * apply NH'. reflexivity.
      * exists v'. auto.
Qed.
End Free.
