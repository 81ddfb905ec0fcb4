(** Allocation keeps the tiling. *)
From Coq Require Import List ZArith Bool Lia Sorted.
From Verif Require Import Word64 AllocModel AllocProof VarModel VarSpec VarProof VarSteps.
Import ListNotations.
Open Scope Z_scope.

Section Ops.
Variables (baddr : Z -> Z) (k : nat) (X0 : Z -> Prop).
Notation inv := (VarProof.inv k).
Arguments i_seg {k X L v B F}. Arguments i_pos {k X L v B F}. Arguments i_dis {k X L v B F}. Arguments i_next {k X L v B F}.
Arguments i_head {k X L v B F}. Arguments i_flag {k X L v B F}. Arguments i_dv {k X L v B F}. Arguments i_dv1 {k X L v B F}.
Arguments i_list {k X L v B F}. Arguments i_nd {k X L v B F}. Arguments i_free {k X L v B F}. Arguments i_held {k X L v B F}.
Arguments i_lnd {k X L v B F}. Arguments i_sub {k X L v B F}. Arguments i_end {k X L v B F}. Arguments i_used {k X L v B F}. Arguments pos_bound {k X L v B F}.

Definition nohole (B : bmap) : Prop := forall o s, B o <> Some (s, KHole).
Definition goodx (X : Z -> Prop) (L : held) (v : vdb) : Prop := exists B F, inv X L v B F /\ nohole B.
Definition good (L : held) (v : vdb) : Prop := goodx X0 L v.
(** The mark of the object that follows may be wrong after this. *)
Definition stale (h : how) (o n : Z) (x : Z) : Prop := X0 x \/ (h = FromVarBucket /\ x = o + room n).
Lemma good_stale h o n L v : good L v -> goodx (stale h o n) L v.
Proof. intros (B & F & H & N). exists B, F. split; [|exact N]. eapply inv_X; [|exact H]. intros x Hx. now left. Qed.

Ltac nh := let p := fresh "p" in let q := fresh "q" in let E := fresh "E" in
  intros p q E; repeat (apply upd_inv in E; destruct E as [[? E]|[? E]]; [try discriminate; try congruence|]); try congruence;
  match goal with N : nohole ?B |- _ => exact (N _ _ E) end.

Lemma head_free X L v B F o s : inv X L v B F -> B o = Some (s, KFree) -> is_free (ld v o) = true /\ pure_size (ld v o) = s.
Proof.
  intros H E. pose proof (i_head H _ _ _ E) as [Hh _]. destruct (i_pos H _ _ _ E) as (_ & P2 & _). unfold ld. rewrite Hh.
  unfold is_free. rewrite low_bits_c, pure_size_c by (exact P2 || lia). split; reflexivity.
Qed.

Lemma split_at_ok L v n i : good L v -> 0 <= n -> 0 <= i < 288 -> bkt v i <> 0 ->
  room n + 32 <= pure_size (ld v (bkt v i)) ->
  exists v', split_at baddr v (room n) (8 * n) i = VOk FromSplit (bkt v i) v' /\ good ((bkt v i, n) :: L) v' /\ keeps L v v' /\
    areas (base v') k = areas (base v) k.
Proof.
  intros (B & F & H & NH) Hn Hi N Hs. set (o := bkt v i) in *.
  destruct (inv_pop baddr k X0 L v B F i None H Hi N) as (s & F1 & E & Hb & H1 & D1 & D2 & K1). fold o in E, H1.
  destruct (head_free _ _ _ _ _ _ _ H E) as [Q1 Q2]. rewrite Q2 in Hs.
  destruct (i_pos H _ _ _ E) as (P1 & P2 & P3 & _). destruct (pos_bound H _ _ _ E) as [Bo Bs].
  pose proof (room_mod n Hn) as Rm. assert (R32 : 32 <= room n) by (unfold room; lia).
  unfold split_at, split_free. fold o. rewrite Q1, Q2. cbn [negb].
  pose proof (bucket_range (s - room n) ltac:(lia)) as Rj.
  set (j := bucket_index (s - room n)) in *.
  replace (j <? 0) with false by (symmetry; apply Z.ltb_ge; lia).
  set (u := popped v i None) in *.
  change (set_bkt (st v o (mk_used (room n))) i (ld v (o + 8))) with (st u o (mk_used (room n))).
  set (B1 := upd B o (Some (s, KHole))) in *.
  assert (E1 : B1 o = Some (s, KHole)) by apply upd_eq.
  pose proof (inv_split k _ _ _ _ _ _ _ (room n) H1 E1 R32 ltac:(lia) Rm) as H2.
  set (B2 := upd (upd B1 o (Some (room n, KHole))) (o + room n) (Some (s - room n, KHole))) in *.
  assert (E2 : B2 o = Some (room n, KHole)) by (unfold B2; rewrite upd_neq by lia; apply upd_eq).
  assert (E2' : B2 (o + room n) = Some (s - room n, KHole)) by apply upd_eq.
  assert (H3 := inv_hole_st k _ _ _ _ _ o _ o (mk_used (room n)) H2 E2 ltac:(lia)).
  assert (K3 : keeps L u (st u o (mk_used (room n)))) by (eapply keeps_st; [exact H2|exact E2|lia|now left]).
  destruct (inv_push baddr k _ X0 L _ B2 F1 (o + room n) (s - room n) H3 E2') as (F4 & H4 & D3 & D4 & K4).
  { intros x [Hx|Hx]; [now left|right; lia]. }
  fold j in H4, D3, D4, K4.
  set (w := push_free baddr (st u o (mk_used (room n))) (o + room n) (s - room n) j) in *.
  set (B4 := upd B2 (o + room n) (Some (s - room n, KFree))) in *.
  assert (E4 : B4 o = Some (room n, KHole)) by (unfold B4; rewrite upd_neq by lia; exact E2).
  assert (Em : mk_used (8 * n) = 8 * n).
  { replace (8 * n) with (8 * n + 0) at 1 by lia. apply mk_used_eq; [apply mod8_mul|lia]. }
  assert (H5 := inv_hole_st k _ _ _ _ _ o _ o (8 * n) H4 E4 ltac:(lia)).
  assert (K5 : keeps L w (st w o (8 * n))) by (eapply keeps_st; [exact H4|exact E4|lia|now left]).
  rewrite Em. exists (st w o (8 * n)). split; [reflexivity|]. split; [|split].
  - assert (H6 := inv_to_used k _ _ _ _ _ o _ n H5 E4 Hn eq_refl (store_eq _ _ _)).
    eexists. exists F4. split; [exact H6|]. unfold B4, B2, B1. nh.
  - apply keeps_trans with (v2 := w); [|exact K5]. apply keeps_trans with (v2 := st u o (mk_used (room n))); [|exact K4].
    apply keeps_trans with (v2 := u); assumption.
  - unfold w, push_free, u, popped. destruct (bkt _ j =? 0); reflexivity.
Qed.

Lemma find_split_ok v used : forall n i j, find_split v n i used = Some j -> i <= j < 256 /\ bkt v j <> 0 /\ used + 32 <= pure_size (ld v (bkt v j)).
Proof.
  induction n as [|n IH]; intros i j; cbn [find_split]; [discriminate|].
  destruct (i <? 256) eqn:Ei; [apply Z.ltb_lt in Ei|discriminate].
  destruct (negb (bkt v i =? 0) && (used + 32 <=? pure_size (ld v (bkt v i)))) eqn:Ec.
  - intro Eq. injection Eq as <-. apply andb_prop in Ec. destruct Ec as [E1 E2]. apply negb_true_iff, Z.eqb_neq in E1. apply Z.leb_le in E2. lia.
  - intro Eq. apply IH in Eq. lia.
Qed.
Lemma find_var_ok v used : forall n i r, find_var v n i used = Some r ->
  match r with
  | inl j => i <= j < 288 /\ bkt v j <> 0 /\ pure_size (ld v (bkt v j)) = used
  | inr j => i <= j < 288 /\ bkt v j <> 0 /\ used + 32 <= pure_size (ld v (bkt v j))
  end.
Proof.
  induction n as [|n IH]; intros i r; cbn [find_var]; [discriminate|].
  destruct (i <? 288) eqn:Ei; [apply Z.ltb_lt in Ei|discriminate].
  destruct (bkt v i =? 0) eqn:E0; [intro Eq; apply IH in Eq; destruct r; lia|apply Z.eqb_neq in E0].
  destruct (pure_size (ld v (bkt v i)) =? used) eqn:E1; [intro Eq; injection Eq as <-; apply Z.eqb_eq in E1; lia|].
  destruct (used + 32 <=? pure_size (ld v (bkt v i))) eqn:E2; [intro Eq; injection Eq as <-; apply Z.leb_le in E2; lia|].
  intro Eq; apply IH in Eq; destruct r; lia.
Qed.

Definition alloc_ok_res (L : held) (v : vdb) (n : Z) (r : vres) : Prop :=
  match r with
  | VOk h o v' => keeps L v v' /\ areas (base v') k = areas (base v) k /\ goodx (stale h o n) ((o, n) :: L) v'
  | _ => False
  end.

Lemma mk_used_8 n : mk_used (8 * n) = 8 * n.
Proof. replace (8 * n) with (8 * n + 0) at 1 by lia. apply mk_used_eq; [apply mod8_mul|lia]. Qed.

Lemma split_at_res L v n i : good L v -> 0 <= n -> 0 <= i < 288 -> bkt v i <> 0 ->
  room n + 32 <= pure_size (ld v (bkt v i)) -> alloc_ok_res L v n (split_at baddr v (room n) (8 * n) i).
Proof. intros G Hn Hi N Hs. destruct (split_at_ok L v n i G Hn Hi N Hs) as (v' & -> & G' & K & A). cbn. split; [exact K|]. split; [exact A|now apply good_stale]. Qed.

Lemma alloc_bucket_ok L v n : good L v -> 0 <= n -> room n < 256 -> bkt v (room n) <> 0 ->
  let o := bkt v (room n) in
  alloc_ok_res L v n (VOk FromBucket o (clear_mark (st (pop_free baddr v (room n)) o (mk_used (8 * n))) (o + room n))).
Proof.
  intros (B & F & H & NH) Hn Hr N o. assert (R32 : 32 <= room n) by (unfold room; lia).
  destruct (inv_pop baddr k X0 L v B F (room n) (Some (baddr (room n))) H ltac:(lia) N) as (s & F1 & E & Hb & H1 & D1 & D2 & K1). fold o in E, H1.
  destruct (pos_bound H _ _ _ E) as [Bo Bs].
  assert (Es : s = room n) by (apply bucket_exact; [exact Hb|lia|lia]). subst s.
  change (pop_free baddr v (room n)) with (popped v (room n) (Some (baddr (room n)))).
  set (u := popped v (room n) (Some (baddr (room n)))) in *. rewrite mk_used_8.
  set (B1 := upd B o (Some (room n, KHole))) in *.
  assert (E1 : B1 o = Some (room n, KHole)) by apply upd_eq.
  assert (H2 := inv_hole_st k _ _ _ _ _ o _ o (8 * n) H1 E1 ltac:(lia)).
  assert (K2 : keeps L u (st u o (8 * n))) by (eapply keeps_st; [exact H1|exact E1|lia|now left]).
  assert (H3 := inv_to_used k _ _ _ _ _ o _ n H2 E1 Hn eq_refl (store_eq _ _ _)).
  set (B3 := upd B1 o (Some (room n, KUsed n false))) in *.
  assert (E3 : B3 o = Some (room n, KUsed n false)) by apply upd_eq.
  assert (NH3 : nohole B3) by (unfold B3, B1; nh).
  destruct (i_next H3 _ _ _ E3 ltac:(discriminate)) as (s4 & c4 & E4 & _).
  destruct (inv_clear baddr k _ X0 _ _ _ _ (o + room n) _ _ H3 E4) as (H5 & D3 & D4 & K5).
  { intros ->. exact (NH3 _ _ E4). }
  { intros x [Hx|Hx]; [now left|now right]. }
  cbn [alloc_ok_res]. split; [|split; [|apply good_stale]].
  - apply keeps_trans with (v2 := u); [exact K1|]. apply keeps_trans with (v2 := st u o (8 * n)); [exact K2|].
    eapply keeps_sub; [|exact K5]. intros x Hx. now right.
  - unfold clear_mark. destruct (is_used _); unfold u, popped; destruct (ld v (bkt v (room n) + 8) =? 0); reflexivity.
  - eexists. exists F1. split; [exact H5|]. intros p q Ep. unfold remark in Ep. rewrite E4 in Ep.
    destruct c4; try exact (NH3 _ _ Ep). apply upd_inv in Ep. destruct Ep as [[_ Ep]|[_ Ep]]; [discriminate|exact (NH3 _ _ Ep)].
Qed.

Lemma some_inj (A : Type) (a b : A) : Some a = Some b -> a = b. Proof. congruence. Qed.
Lemma alloc_victim_ok L v n r : good L v -> 0 <= n -> alloc_victim v (room n) (8 * n) = Some r -> alloc_ok_res L v n r.
Proof.
  intros (B & F & H & NH) Hn. unfold alloc_victim.
  destruct ((room n <=? dvs v) && negb (dv v =? 0)) eqn:Ec; [|discriminate].
  apply andb_prop in Ec. destruct Ec as [Ec1 Ec2]. apply Z.leb_le in Ec1. apply negb_true_iff, Z.eqb_neq in Ec2.
  destruct (inv_from_victim k _ _ _ _ _ H Ec2) as [E H1]. set (o := dv v) in *. set (s := dvs v) in *.
  assert (R32 : 32 <= room n) by (unfold room; lia). pose proof (room_mod n Hn) as Rm.
  destruct (i_pos H _ _ _ E) as (P1 & P2 & _).
  set (B1 := upd B o (Some (s, KHole))) in *.
  assert (E1 : B1 o = Some (s, KHole)) by apply upd_eq.
  destruct (room n =? s) eqn:Es.
  - apply Z.eqb_eq in Es. intro Eq. apply some_inj in Eq. subst r. rewrite mk_used_8.
    assert (H2 := inv_hole_st k _ _ _ _ _ o _ o (8 * n) H1 E1 ltac:(lia)).
    assert (H3 := inv_to_used k _ _ _ _ _ o _ n H2 E1 Hn (eq_sym Es) (store_eq _ _ _)).
    cbn [alloc_ok_res]. split; [|split; [reflexivity|apply good_stale]].
    + change (keeps L (set_dv v 0 0) (st (set_dv v 0 0) o (8 * n))). eapply keeps_st; [exact H1|exact E1|lia|now left].
    + eexists. exists F. split; [exact H3|]. unfold B1. nh.
  - destruct (room n + 32 <=? s) eqn:El; [apply Z.leb_le in El|discriminate]. intro Eq. apply some_inj in Eq. subst r. rewrite mk_used_8.
    pose proof (inv_split k _ _ _ _ _ _ _ (room n) H1 E1 R32 ltac:(lia) Rm) as H2.
    set (B2 := upd (upd B1 o (Some (room n, KHole))) (o + room n) (Some (s - room n, KHole))) in *.
    assert (E2 : B2 o = Some (room n, KHole)) by (unfold B2; rewrite upd_neq by lia; apply upd_eq).
    assert (E2' : B2 (o + room n) = Some (s - room n, KHole)) by apply upd_eq.
    destruct (i_pos H2 _ _ _ E2') as (_ & P2' & _). rewrite mk_special_eq by exact P2'.
    set (v0 := set_dv v 0 0) in *.
    set (v1 := st v0 (o + room n) (s - room n + 3)).
    set (v2 := st v1 (o + room n + 8) 1).
    set (v3 := st v2 o (8 * n)).
    assert (H3 : inv X0 L v1 B2 F) by (eapply inv_hole_st; [exact H2|exact E2'|lia]).
    assert (H4 : inv X0 L v2 B2 F) by (eapply inv_hole_st; [exact H3|exact E2'|lia]).
    assert (H5 : inv X0 L v3 B2 F) by (eapply inv_hole_st; [exact H4|exact E2|lia]).
    assert (K : keeps L v v3).
    { apply keeps_trans with (v2 := v1); [change (keeps L v0 v1); eapply keeps_st; [exact H2|exact E2'|lia|now left]|].
      apply keeps_trans with (v2 := v2); [eapply keeps_st; [exact H3|exact E2'|lia|right; discriminate]|].
      eapply keeps_st; [exact H4|exact E2|lia|now left]. }
    assert (M3 : mem (base v3) o = 8 * n) by apply store_eq.
    assert (M3' : mem (base v3) (o + room n) = s - room n + 3).
    { unfold v3, v2, v1. cbn [st base set_mem mem]. rewrite !store_neq by lia. apply store_eq. }
    assert (M3'' : mem (base v3) (o + room n + 8) = 1).
    { unfold v3, v2. cbn [st base set_mem mem]. rewrite store_neq by lia. apply store_eq. }
    assert (H6 := inv_to_used k _ _ _ _ _ o _ n H5 E2 Hn eq_refl M3).
    set (B6 := upd B2 o (Some (room n, KUsed n false))) in *.
    assert (E6 : B6 (o + room n) = Some (s - room n, KHole)) by (unfold B6; rewrite upd_neq by lia; exact E2').
    assert (H7 := inv_to_victim k _ _ _ _ _ _ _ H6 E6 eq_refl M3' M3'').
    cbn [alloc_ok_res]. split; [exact K|]. split; [reflexivity|]. apply good_stale.
    eexists. exists F. split; [exact H7|]. unfold B6, B2, B1. nh.
Qed.

Lemma alloc_var_ok L v n r : good L v -> 0 <= n < 2 ^ 36 -> alloc_var baddr v (room n) (8 * n) = Some r -> alloc_ok_res L v n r.
Proof.
  intros G Hn. unfold alloc_var.
  assert (Ru : 0 <= room n < 2 ^ 40) by (unfold room; lia).
  pose proof (bucket_range _ Ru) as Rb.
  replace (bucket_index (room n) <? 0) with false by (symmetry; apply Z.ltb_ge; lia).
  destruct (find_var v 288 (bucket_index (room n)) (room n)) as [[i|i]|] eqn:Ef; [| |discriminate].
  - apply find_var_ok in Ef. destruct Ef as (Hi & Ni & Es). intro Eq. apply some_inj in Eq. subst r. rewrite mk_used_8.
    destruct G as (B & F & H & NH).
    destruct (inv_pop baddr k X0 L v B F i (Some (baddr i)) H ltac:(lia) Ni) as (s & F1 & E & Hb & H1 & D1 & D2 & K1).
    destruct (i_pos H _ _ _ E) as (P1 & _).
    destruct (head_free _ _ _ _ _ _ _ H E) as [_ Q2]. rewrite Q2 in Es. subst s.
    change (pop_free baddr v i) with (popped v i (Some (baddr i))).
    set (u := popped v i (Some (baddr i))) in *. set (o := bkt v i) in *.
    assert (E1 : upd B o (Some (room n, KHole)) o = Some (room n, KHole)) by apply upd_eq.
    assert (H2 := inv_hole_st k _ _ _ _ _ o _ o (8 * n) H1 E1 ltac:(lia)).
    assert (H3 := inv_to_used k _ _ _ _ _ o _ n H2 E1 (proj1 Hn) eq_refl (store_eq _ _ _)).
    cbn [alloc_ok_res]. split; [|split].
    3: { eexists. exists F1. split; [eapply inv_X; [|exact H3]; intros x [Hx|Hx]; [now left|right; auto]|]. nh. }
    2: { unfold u, popped. destruct (ld v (bkt v i + 8) =? 0); reflexivity. }
    apply keeps_trans with (v2 := u); [exact K1|].
    eapply keeps_st; [exact H1|exact E1|lia|now left].
  - apply find_var_ok in Ef. destruct Ef as (Hi & Ni & Es). intro Eq. apply some_inj in Eq. subst r. apply split_at_res; auto; lia.
Qed.

Lemma alloc_here_ok L v n r : good L v -> 0 <= n < 2 ^ 36 -> alloc_here baddr v (room n) (8 * n) = Some r -> alloc_ok_res L v n r.
Proof.
  intros G Hn. unfold alloc_here. assert (R32 : 32 <= room n) by (unfold room; lia).
  destruct ((room n <? 256) && negb (bkt v (room n) =? 0)) eqn:Ec.
  - apply andb_prop in Ec. destruct Ec as [E1 E2]. apply Z.ltb_lt in E1. apply negb_true_iff, Z.eqb_neq in E2.
    intro Eq. apply some_inj in Eq. subst r. apply alloc_bucket_ok; auto; lia.
  - destruct (find_split v 3 (room n + 1) (room n)) as [i|] eqn:Ef.
    + apply find_split_ok in Ef. intro Eq. apply some_inj in Eq. subst r. apply split_at_res; auto; lia.
    + destruct (alloc_victim v (room n) (8 * n)) as [r'|] eqn:Ev.
      * intro Eq. injection Eq as <-. apply alloc_victim_ok; auto; lia.
      * unfold alloc_search. destruct (find_split v 256 (room n + 1) (room n)) as [i|] eqn:Ef2.
        -- apply find_split_ok in Ef2. intro Eq. apply some_inj in Eq. subst r. apply split_at_res; auto; lia.
        -- intro Eq. apply alloc_var_ok; auto.
Qed.

(* ---- new subareas ---- *)
Lemma inv_base (X X' : Z -> Prop) L v B F d : inv X L v B F -> segok d k -> (forall x, X x -> X' x) ->
  (forall a, In a (subs (areas (base v) k)) -> In a (subs (areas d k))) ->
  (forall a, In a (subs (areas d k)) -> In a (subs (areas (base v) k)) \/ X' (- sa_aoffset a)) ->
  (forall o s c p, B o = Some (s, c) -> o <= p < o + s -> mem d p = mem (base v) p) ->
  inv X' L (with_base v d) B F.
Proof.
  intros [h1 h2 h3 h4 h5 h6 h7 h8 h9 h10 h11 h12 h13 h14 h15 h16] Hd HX Ha Hn Hm.
  constructor; try assumption.
  - intros o s c E. destruct (h2 _ _ _ E) as (P1 & P2 & P3 & a & Ia & Q). repeat split; auto. exists a. split; [now apply Ha|exact Q].
  - intros o s c E. destruct (h2 _ _ _ E) as (P1 & _). apply headok_frame with (m := mem (base v)); [..|now apply h5]; try intros _;
      apply (Hm _ _ _ _ E); lia.
  - intros o s n E. destruct (h6 _ _ _ E); auto.
  - intros i Hi. apply dll_frame with (m := mem (base v)); [|now apply h9]. intros y Hy. apply h11 in Hy; [|exact Hi].
    destruct Hy as (s & E & _). destruct (h2 _ _ _ E) as (P1 & _). split; apply (Hm _ _ _ _ E); lia.
  - intros a Ia. destruct (Hn a Ia) as [Io|K]; [|now left]. destruct (h14 a Io); auto.
  - intros o s E. destruct (h15 _ _ E) as (a & Ia & Q). exists a. split; [now apply Ha|exact Q].
Qed.
Lemma keeps_base X L v B F d : inv X L v B F ->
  (forall o s c p, B o = Some (s, c) -> o <= p < o + s -> mem d p = mem (base v) p) -> keeps L v (with_base v d).
Proof. intros H Hm. apply keeps_mem with (1 := H). intros o s n fl w E Hw. apply (Hm _ _ _ _ E). lia. Qed.

Definition clear_of (B : bmap) (lo hi : Z) : Prop := forall o s c, B o = Some (s, c) -> o + s <= lo \/ hi <= o.
Lemma inv_outside X L v B F w x lo hi : inv X L v B F -> clear_of B lo hi -> lo <= w < hi ->
  inv X L (st v w x) B F /\ keeps L v (st v w x).
Proof.
  intros H C Hw. change (st v w x) with (with_base v (set_mem (base v) (store (mem (base v)) w x))).
  assert (Hm : forall o s c p, B o = Some (s, c) -> o <= p < o + s -> store (mem (base v)) w x p = mem (base v) p).
  { intros o s c p E Hp. apply store_neq. destruct (C _ _ _ E); lia. }
  split; [apply inv_base with (X := X); auto; apply segok_mem; exact (i_seg H)|eapply keeps_base; [exact H|exact Hm]].
Qed.

Lemma inv_add (X X' : Z -> Prop) L v B F a : inv X L v B F -> (forall x, X x -> X' x \/ x = - sa_aoffset a) -> In a (subs (areas (base v) k)) ->
  let A := sa_aoffset a in let S := sa_asize a in
  clear_of B A (A + S) -> 96 <= S -> mem (base v) A = 35 -> mem (base v) (A + S - 32) = 35 ->
  mem (base v) (A + S - 32 + 8) = 0 ->
  inv X' L v (upd (upd (upd B A (Some (32, KStart))) (A + S - 32) (Some (32, KEnd))) (A + 32) (Some (S - 64, KHole))) F.
Proof.
  intros H HX Ia A S C HS M1 M2 M3.
  destruct (i_seg H) as [_ _ _ S4 _ _ _]. destruct (S4 _ Ia) as (Q1 & Q2 & Q3 & Q4 & Q5 & Q6 & Q7). fold A in Q1, Q2, Q7. fold S in Q3, Q4, Q6, Q7. clear S4.
  set (B' := upd (upd (upd B A (Some (32, KStart))) (A + S - 32) (Some (32, KEnd))) (A + 32) (Some (S - 64, KHole))).
  assert (Cc : forall p x, B' p = Some x -> (p = A + 32 /\ x = (S - 64, KHole)) \/ (p = A + S - 32 /\ x = (32, KEnd)) \/ (p = A /\ x = (32, KStart)) \/
            (B p = Some x /\ (p + fst x <= A \/ A + S <= p))).
  { intros p x Ep. apply upd_inv in Ep. destruct Ep as [[-> Ep]|[_ Ep]]; [injection Ep as <-; auto|].
    apply upd_inv in Ep. destruct Ep as [[-> Ep]|[_ Ep]]; [injection Ep as <-; auto|].
    apply upd_inv in Ep. destruct Ep as [[-> Ep]|[_ Ep]]; [injection Ep as <-; auto|].
    right. right. right. destruct x as [sx cx]. split; [exact Ep|exact (C _ _ _ Ep)]. }
  assert (K1 : forall p x, B p = Some x -> B' p = Some x).
  { intros p [sx cx] Ep. pose proof (C _ _ _ Ep) as D. destruct (i_pos H _ _ _ Ep) as (Z1 & _). unfold B'. rewrite !upd_neq; [exact Ep|lia..]. }
  assert (K2 : forall p x, B' p = Some x -> (snd x <> KHole /\ snd x <> KEnd /\ snd x <> KStart) -> B p = Some x).
  { intros p x Ep N. apply Cc in Ep. destruct Ep as [[_ ->]|[[_ ->]|[[_ ->]|[Ep _]]]]; cbn in N; try tauto. }
  constructor.
  - exact (i_seg H).
  - intros p sp cp Ep. apply Cc in Ep. destruct Ep as [[-> Ep]|[[-> Ep]|[[-> Ep]|[Ep _]]]]; [..|exact (i_pos H _ _ _ Ep)]; injection Ep as -> ->.
    + split; [lia|]. split; [rewrite Zminus_mod, Q6; reflexivity|]. split; [rewrite Zplus_mod, Q2; reflexivity|]. exists a. fold A S. repeat split; auto; lia.
    + split; [lia|]. split; [reflexivity|]. split; [replace (A + S - 32) with (A + (S - 32)) by lia; rewrite Zplus_mod, Zminus_mod, Q2, Q6; reflexivity|].
      exists a. fold A S. repeat split; auto; lia.
    + split; [lia|]. split; [reflexivity|]. split; [exact Q2|]. exists a. fold A S. repeat split; auto; try lia; try (intro Q; now destruct Q).
  - intros p sp cp q sq cq Ep Eq N. apply Cc in Ep. apply Cc in Eq.
    destruct Ep as [[-> Ep]|[[-> Ep]|[[-> Ep]|[Ep Dp]]]]; destruct Eq as [[-> Eq]|[[-> Eq]|[[-> Eq]|[Eq Dq]]]];
      try (injection Ep as -> ->); try (injection Eq as -> ->); try (exfalso; now apply N); try lia;
      try (destruct (i_pos H _ _ _ Eq) as (Z1 & _); cbn in Dq; lia); try (destruct (i_pos H _ _ _ Ep) as (Z1 & _); cbn in Dp; lia).
    exact (i_dis H _ _ _ _ _ _ Ep Eq N).
  - intros p sp cp Ep N. apply Cc in Ep. destruct Ep as [[-> Ep]|[[-> Ep]|[[-> Ep]|[Ep _]]]]; try (injection Ep as -> ->).
    + exists 32, KEnd. split; [|discriminate]. replace (A + 32 + (S - 64)) with (A + S - 32) by lia. unfold B'. rewrite upd_neq by lia. apply upd_eq.
    + now destruct N.
    + exists (S - 64), KHole. split; [apply upd_eq|discriminate].
    + destruct (i_next H _ _ _ Ep N) as (s3 & c3 & E3 & N3). exists s3, c3. split; [now apply K1|exact N3].
  - intros p sp cp Ep. apply Cc in Ep. destruct Ep as [[-> Ep]|[[-> Ep]|[[-> Ep]|[Ep _]]]]; [..|exact (i_head H _ _ _ Ep)]; injection Ep as -> ->.
    + exact I.
    + split; [reflexivity|]. split; [exact M2|exact M3].
    + split; [reflexivity|exact M1].
  - intros p sp n Ep. apply K2 in Ep; [|repeat split; discriminate]. destruct (i_flag H _ _ _ Ep) as [K|(s' & K)]; [|right; eauto].
    destruct (HX _ K) as [K'|K']; [now left|]. destruct (pos_bound H _ _ _ Ep) as [Bp _]. lia.
  - destruct (i_dv H) as [K|K]; [now left|right]. auto.
  - intros p sp Ep. apply K2 in Ep; [|repeat split; discriminate]. exact (i_dv1 H _ _ Ep).
  - exact (i_list H).
  - exact (i_nd H).
  - intros i p Hi. rewrite (i_free H i p Hi). split; intros (sp & Ep & Hb); exists sp; (split; [|exact Hb]).
    + now apply K1.
    + apply K2 in Ep; [exact Ep|repeat split; discriminate].
  - intros p n Hp. destruct (i_held H _ _ Hp) as (sp & fl & Ep). exists sp, fl. now apply K1.
  - exact (i_lnd H).
  - intros b Ib. assert (D : sa_aoffset b = A \/ sa_aoffset b <> A) by lia. destruct D as [D|D].
    + right. rewrite D. unfold B'. rewrite !upd_neq by lia. apply upd_eq.
    + destruct (i_sub H b Ib) as [K|K]; [|right; auto]. destruct (HX _ K) as [K'|K']; [now left|]. fold A in K'. lia.
  - intros p sp Ep. apply Cc in Ep. destruct Ep as [[_ Ep]|[[-> Ep]|[[_ Ep]|[Ep _]]]]; try discriminate; [|exact (i_end H _ _ Ep)].
    injection Ep as ->. exists a. split; [exact Ia|]. fold A S. lia.
  - intros p sp n fl Ep. apply K2 in Ep; [|repeat split; discriminate]. exact (i_used H _ _ _ _ Ep).
Qed.

(** The rest of init_subarea_freespace, once the old victim is out of the way. *)
Definition lay_out (v : vdb) (a : subarea) : vdb :=
  let size := sa_asize a in
  let offset := sa_aoffset a in
  let v := st v offset (mk_special 32) in
  let v := st v (offset + 8) 0 in
  let v := st v (offset + 16) 0 in
  let v := st v (offset + 32 - 8) 32 in
  let e := offset + size - 32 in
  let v := st v e (mk_special 32) in
  let v := st v (e + 8) 0 in
  let v := st v (e + 16) 0 in
  let v := st v (e + 32 - 8) 32 in
  let freeoffset := offset + 32 in
  let freesize := size - 64 in
  let v := st v freeoffset (mk_special freesize) in
  let v := st v (freeoffset + 8) 1 in
  set_dv v freeoffset freesize.
Lemma lay_out_ok (X : Z -> Prop) L v B F a : inv X L v B F -> nohole B -> (forall x, X x -> X0 x \/ x = - sa_aoffset a) -> dv v = 0 -> In a (subs (areas (base v) k)) ->
  clear_of B (sa_aoffset a) (sa_aoffset a + sa_asize a) -> 96 <= sa_asize a ->
  good L (lay_out v a) /\ keeps L v (lay_out v a).
Proof.
  intros H NH HX Hd Ia C HS. destruct (i_seg H) as [_ _ _ S4 _ _ _]. destruct (S4 _ Ia) as (Q1 & Q2 & Q3 & Q4 & Q5 & Q6 & Q7). clear S4.
  set (A := sa_aoffset a) in *. set (S := sa_asize a) in *. unfold lay_out. fold A S.
  change (mk_special 32) with 35.
  assert (Sm : (S - 64) mod 8 = 0) by (rewrite Zminus_mod, Q6; reflexivity). rewrite mk_special_eq by exact Sm.
  set (v1 := st v A 35). set (v2 := st v1 (A + 8) 0). set (v3 := st v2 (A + 16) 0). set (v4 := st v3 (A + 32 - 8) 32).
  set (v5 := st v4 (A + S - 32) 35). set (v6 := st v5 (A + S - 32 + 8) 0). set (v7 := st v6 (A + S - 32 + 16) 0). set (v8 := st v7 (A + S - 32 + 32 - 8) 32).
  destruct (inv_outside _ _ _ _ _ A 35 A (A + S) H C ltac:(lia)) as [H1 K1]. fold v1 in H1, K1.
  destruct (inv_outside _ _ _ _ _ (A + 8) 0 A (A + S) H1 C ltac:(lia)) as [H2 K2]. fold v2 in H2, K2.
  destruct (inv_outside _ _ _ _ _ (A + 16) 0 A (A + S) H2 C ltac:(lia)) as [H3 K3]. fold v3 in H3, K3.
  destruct (inv_outside _ _ _ _ _ (A + 32 - 8) 32 A (A + S) H3 C ltac:(lia)) as [H4 K4]. fold v4 in H4, K4.
  destruct (inv_outside _ _ _ _ _ (A + S - 32) 35 A (A + S) H4 C ltac:(lia)) as [H5 K5]. fold v5 in H5, K5.
  destruct (inv_outside _ _ _ _ _ (A + S - 32 + 8) 0 A (A + S) H5 C ltac:(lia)) as [H6 K6]. fold v6 in H6, K6.
  destruct (inv_outside _ _ _ _ _ (A + S - 32 + 16) 0 A (A + S) H6 C ltac:(lia)) as [H7 K7]. fold v7 in H7, K7.
  destruct (inv_outside _ _ _ _ _ (A + S - 32 + 32 - 8) 32 A (A + S) H7 C ltac:(lia)) as [H8 K8]. fold v8 in H8, K8.
  assert (M1 : mem (base v8) A = 35).
  { unfold v8, v7, v6, v5, v4, v3, v2, v1. cbn [st base set_mem mem]. rewrite !store_neq by lia. apply store_eq. }
  assert (M2 : mem (base v8) (A + S - 32) = 35).
  { unfold v8, v7, v6, v5. cbn [st base set_mem mem]. rewrite !store_neq by lia. apply store_eq. }
  assert (M3 : mem (base v8) (A + S - 32 + 8) = 0).
  { unfold v8, v7, v6. cbn [st base set_mem mem]. rewrite !store_neq by lia. apply store_eq. }
  assert (H9 := inv_add _ X0 _ _ _ _ a H8 HX Ia C HS M1 M2 M3). fold A S in H9.
  set (B9 := upd (upd (upd B A (Some (32, KStart))) (A + S - 32) (Some (32, KEnd))) (A + 32) (Some (S - 64, KHole))) in *.
  assert (E9 : B9 (A + 32) = Some (S - 64, KHole)) by apply upd_eq.
  destruct (inv_victim k _ _ _ _ _ _ _ H9 E9 Hd) as [H10 K10].
  unfold make_victim in H10, K10. rewrite mk_special_eq in H10, K10 by exact Sm.
  assert (KK : keeps L v v8).
  { exact (keeps_trans _ _ _ _ K1 (keeps_trans _ _ _ _ K2 (keeps_trans _ _ _ _ K3 (keeps_trans _ _ _ _ K4 (keeps_trans _ _ _ _ K5 (keeps_trans _ _ _ _ K6 (keeps_trans _ _ _ _ K7 K8))))))). }
  split.
  - eexists. exists F. split; [exact H10|]. unfold B9. nh.
  - apply keeps_trans with (v2 := v8); [exact KK|exact K10].
Qed.

Lemma init_freespace_eq v a r first : subs (areas (base v) k) = a :: r ->
  init_freespace baddr k v first =
  if negb first && negb (dv v =? 0) && (32 <=? dvs v) then
    if bucket_index (dvs v) <? 0 then None else Some (lay_out (push_free baddr v (dv v) (dvs v) (bucket_index (dvs v))) a)
  else Some (lay_out v a).
Proof.
  intro E. unfold init_freespace. rewrite E. destruct (negb first && negb (dv v =? 0) && (32 <=? dvs v)); [|reflexivity].
  destruct (bucket_index (dvs v) <? 0); reflexivity.
Qed.

Lemma lay_out_dv v a x y : lay_out (set_dv v x y) a = lay_out v a. Proof. reflexivity. Qed.
Lemma push_set_dv v o s i x y : push_free baddr (set_dv v x y) o s i = set_dv (push_free baddr v o s i) x y.
Proof. unfold push_free. cbn [bkt set_dv]. destruct (bkt v i =? 0); reflexivity. Qed.
Lemma push_areas v o s i : areas (base (push_free baddr v o s i)) k = areas (base v) k.
Proof. unfold push_free. destruct (bkt v i =? 0); reflexivity. Qed.

Lemma init_freespace_ok (X : Z -> Prop) L v B F a r : inv X L v B F -> nohole B -> (forall x, X x -> X0 x \/ x = - sa_aoffset a) -> subs (areas (base v) k) = a :: r ->
  clear_of B (sa_aoffset a) (sa_aoffset a + sa_asize a) -> 96 <= sa_asize a ->
  exists v', init_freespace baddr k v false = Some v' /\ good L v' /\ keeps L v v' /\ areas (base v') k = areas (base v) k.
Proof.
  intros H NH HX Es C HS. rewrite (init_freespace_eq _ _ _ _ Es). cbn [negb andb].
  assert (Ia : In a (subs (areas (base v) k))) by (rewrite Es; now left).
  destruct (Z.eq_dec (dv v) 0) as [E0|N0].
  - rewrite E0, Z.eqb_refl. cbn [negb andb]. exists (lay_out v a). destruct (lay_out_ok _ _ _ _ _ _ H NH HX E0 Ia C HS). auto.
  - destruct (inv_from_victim k _ _ _ _ _ H N0) as [E H1]. destruct (pos_bound H _ _ _ E) as [Bo Bs].
    replace (dv v =? 0) with false by (symmetry; now apply Z.eqb_neq).
    replace (32 <=? dvs v) with true by (symmetry; apply Z.leb_le; lia). cbn [negb andb].
    pose proof (bucket_range (dvs v) ltac:(lia)) as R.
    replace (bucket_index (dvs v) <? 0) with false by (symmetry; apply Z.ltb_ge; lia).
    eexists. split; [reflexivity|].
    assert (E1 : upd B (dv v) (Some (dvs v, KHole)) (dv v) = Some (dvs v, KHole)) by apply upd_eq.
    destruct (inv_push baddr k X X L (set_dv v 0 0) _ F (dv v) (dvs v) H1 E1) as (F2 & H2 & D1 & D2 & K2); [auto|].
    rewrite push_set_dv in H2, K2, D1, D2.
    set (u := push_free baddr v (dv v) (dvs v) (bucket_index (dvs v))) in *.
    set (B2 := upd (upd B (dv v) (Some (dvs v, KHole))) (dv v) (Some (dvs v, KFree))) in *.
    assert (C2 : clear_of B2 (sa_aoffset a) (sa_aoffset a + sa_asize a)).
    { intros p s c Ep. unfold B2 in Ep. apply upd_inv in Ep. destruct Ep as [[-> Ep]|[N Ep]].
      - injection Ep as <- <-. exact (C _ _ _ E).
      - apply upd_inv in Ep. destruct Ep as [[-> Ep]|[_ Ep]]; [contradiction|exact (C _ _ _ Ep)]. }
    assert (Eu : areas (base u) k = areas (base v) k) by apply push_areas.
    destruct (lay_out_ok X L (set_dv u 0 0) B2 F2 a H2) as [G K]; [unfold B2; nh|exact HX|reflexivity|change (In a (subs (areas (base u) k))); rewrite Eu; exact Ia|exact C2|exact HS|].
    rewrite lay_out_dv in G, K. split; [exact G|]. split; [|exact Eu].
    apply keeps_trans with (v2 := set_dv u 0 0); [exact K2|exact K].
Qed.

Lemma w64_small z : 0 <= z < 2 ^ 62 -> w64 z = z.
Proof. intro H. apply w64_id. unfold in64, int_min, int_max. lia. Qed.

Lemma init_subarea_seg d size d' : segok d k -> init_subarea d k size = Some d' -> 8192 <= size < 2 ^ 60 ->
  exists a, subs (areas d' k) = a :: subs (areas d k) /\ segok d' k /\ mem d' = mem d /\ sa_aoffset a = dfree d /\ 8100 <= sa_asize a /\
    dfree d <= dfree d' /\ (forall j, j <> k -> areas d' j = areas d j).
Proof.
  intros [S1 S2 S3 S4 S5 S6 S7] E Hs. unfold init_subarea in E.
  replace (size <? 8192) with false in E by (symmetry; apply Z.ltb_ge; lia).
  destruct (alloc_chunk d size) as [[o d1]|] eqn:Ec; [|discriminate]. unfold alloc_chunk in Ec.
  rewrite w64_small in Ec by lia.
  replace (dfree d + size <? 0) with false in Ec by (symmetry; apply Z.ltb_ge; lia).
  destruct (pad8_ok (dfree d + size)) as [Pp1 Pp2].
  destruct (dsize d <=? dfree d + size + pad8 (dfree d + size)) eqn:El; [discriminate|]. apply Z.leb_gt in El.
  injection Ec as <- <-. rewrite (pad8_0 (dfree d) S3) in E.
  injection E as <-. rewrite areas_set_same. cbn [subs areas mem dfree set_area].
  assert (M : 0 <= size mod 32 < 32) by (apply Z.mod_pos_bound; lia).
  eexists. split; [reflexivity|]. cbn [sa_aoffset sa_asize]. rewrite !Z.sub_0_r, Z.add_0_r.
  split; [|split; [reflexivity|split; [reflexivity|split; [lia|split; [lia|]]]]].
  2: { intros j Nj. destruct (Nat.eqb j k) eqn:Ej; [apply Nat.eqb_eq in Ej; contradiction|reflexivity]. }
  assert (M8 : (size - size mod 32) mod 8 = 0).
  { pose proof (Z.div_mod size 32 ltac:(lia)). replace (size - size mod 32) with ((4 * (size / 32)) * 8) by lia. now apply Z.mod_mul. }
  constructor; cbn [dfree dsize areas set_area mem]; try lia; try exact Pp2.
  - intros s. rewrite Nat.eqb_refl. cbn [subs]. intros [<-|Hin]; cbn [sa_aoffset sa_asize sa_size].
    + rewrite ?Z.add_0_r, ?Z.sub_0_r. repeat split; try exact M8; lia.
    + destruct (S4 _ Hin) as (Q1 & Q2 & Q3 & Q4 & Q5 & Q6 & Q7). repeat split; auto; lia.
  - rewrite Nat.eqb_refl. cbn [subs]. constructor; [|exact S5]. apply Forall_forall. intros s Hin.
    destruct (S4 _ Hin) as (Q1 & Q2 & Q3 & Q4 & Q5 & Q6 & Q7). unfold sub_apart. cbn. lia.
  - intros s. rewrite Nat.eqb_refl. cbn [subs]. intros [<-|Hin]; cbn [sa_offset sa_aoffset sa_size].
    + rewrite ?Z.add_0_r. lia.
    + destruct (S6 _ Hin). split; [assumption|lia].
  - rewrite Nat.eqb_refl. cbn [subs]. constructor; [exact S7|]. apply Forall_forall. intros s Hin. destruct (S6 _ Hin). cbn. lia.
Qed.

Lemma clear_new X L v B F : inv X L v B F -> forall hi, clear_of B (dfree (base v)) hi.
Proof.
  intros H hi o s c E. destruct (i_pos H _ _ _ E) as (_ & _ & _ & a & Ia & A1 & A2 & _).
  destruct (i_seg H) as [_ _ _ S4 _ _ _]. destruct (S4 _ Ia) as (_ & _ & _ & _ & _ & _ & Q). lia.
Qed.

Lemma grow_ok min : forall n z, 0 < z -> 8192 <= min < 2 ^ 41 -> min <= z * 2 ^ Z.of_nat n -> z < 2 ^ 42 ->
  exists z', grow (S n) z min = Some z' /\ min <= z' < 2 ^ 42.
Proof.
  induction n as [|n IH]; intros z Hz Hm Hn Hb.
  - cbn in Hn. exists z. cbn [grow]. replace (z <? min) with false by (symmetry; apply Z.ltb_ge; lia). rewrite andb_false_r. split; [reflexivity|lia].
  - replace (grow (S (S n)) z min) with (if (0 <=? z) && (z <? min) then grow (S n) (shl64 z 1) min else Some z) by reflexivity.
    replace (0 <=? z) with true by (symmetry; apply Z.leb_le; lia). cbn [andb].
    destruct (z <? min) eqn:E; [apply Z.ltb_lt in E|apply Z.ltb_ge in E; exists z; split; [reflexivity|lia]].
    unfold shl64. rewrite w64_small by lia. apply IH; try lia.
    rewrite Nat2Z.inj_succ, Z.pow_succ_r in Hn by lia. nia.
Qed.
Lemma shrink_ok d min : 8192 <= min -> forall n z, 0 <= z < 2 ^ Z.of_nat n * 4096 -> z < 2 ^ 60 ->
  exists r, shrink k (S n) d z min = Some r /\
    match r with Some d' => exists z', init_subarea d k z' = Some d' /\ 8192 <= z' < 2 ^ 60 | None => True end.
Proof.
  intro Hm. induction n as [|n IH]; intros z Hz Hb.
  - cbn in Hz. cbn [shrink]. replace (z <? min) with true by (symmetry; apply Z.ltb_lt; lia). exists None. auto.
  - replace (shrink k (S (S n)) d z min) with (if z <? min then Some None else match init_subarea d k z with Some d' => Some (Some d') | None => shrink k (S n) d (shr z 1) min end) by reflexivity.
    destruct (z <? min) eqn:E; [exists None; auto|apply Z.ltb_ge in E].
    destruct (init_subarea d k z) as [d'|] eqn:Ed; [exists (Some d'); split; [reflexivity|]; exists z; split; [exact Ed|lia]|].
    unfold shr. rewrite Z.shiftr_div_pow2 by lia. change (2 ^ 1) with 2.
    rewrite Nat2Z.inj_succ, Z.pow_succ_r in Hz by lia.
    pose proof (Z.div_mod z 2 ltac:(lia)). pose proof (Z.mod_pos_bound z 2 ltac:(lia)). apply IH; lia.
Qed.

Lemma extend_ok L v n : good L v -> 0 <= n < 2 ^ 36 ->
  match extend_varlen baddr k v (room n) with
  | XOk v' => good L v' /\ keeps L v v' /\ length (subs (areas (base v') k)) = S (length (subs (areas (base v) k))) /\
              (forall a, In a (subs (areas (base v) k)) -> In a (subs (areas (base v') k))) /\
              (length (subs (areas (base v) k)) < 64)%nat
  | XFail => subs (areas (base v) k) = [] \/ True
  | _ => False
  end.
Proof.
  intros (B & F & H & NH) Hn. unfold extend_varlen.
  destruct (subs (areas (base v) k)) as [|s r] eqn:Es; [now left|].
  destruct (64 <=? Z.of_nat (length (s :: r))) eqn:El; [now right|]. apply Z.leb_gt in El.
  assert (Is : In s (subs (areas (base v) k))) by (rewrite Es; now left).
  pose proof (sg_in _ _ (i_seg H)) as S4. destruct (S4 _ Is) as (_ & _ & _ & Q4 & Q5 & _ & _).
  rewrite (w64_small (room n + 8 + 64)) by (unfold room; lia).
  set (min := if room n + 8 + 64 <? 8192 then 8192 else room n + 8 + 64).
  assert (Hmin : 8192 <= min < 2 ^ 41).
  { unfold min. destruct (room n + 8 + 64 <? 8192) eqn:E; [lia|apply Z.ltb_ge in E]. unfold room in *. lia. }
  unfold shl64 at 1. rewrite (w64_small (sa_size s * 2 ^ 1)) by lia.
  destruct (grow_ok min 63 (sa_size s * 2 ^ 1)) as (z & -> & Hz); try lia.
  destruct (shrink_ok (base v) min ltac:(lia) 63 z) as (rr & -> & Hr); try lia.
  destruct rr as [d'|]; [|now right].
  destruct Hr as (z' & Ed & Hz').
  destruct (init_subarea_seg (base v) z' d' (i_seg H) Ed Hz') as (a & Ea & Sd & Em & Ao & As & _ & _).
  assert (H1 : inv (fun x => X0 x \/ x = - sa_aoffset a) L (with_base v d') B F).
  { apply inv_base with (X := X0); auto.
    - intros b Hb. rewrite Ea. now right.
    - intros b Hb. rewrite Ea in Hb. destruct Hb as [<-|Hb]; [right; now right|now left].
    - intros o' s' c' p _ _. now rewrite Em. }
  assert (K1 : keeps L v (with_base v d')) by (eapply keeps_base; [exact H|]; intros o' s' c' p _ _; now rewrite Em).
  destruct (init_freespace_ok _ L (with_base v d') B F a (subs (areas (base v) k)) H1 NH (fun x Hx => Hx) Ea) as (v' & -> & G & K & A).
  { rewrite Ao. exact (clear_new _ _ _ _ _ H _). }
  { lia. }
  split; [exact G|]. split; [eapply keeps_trans; eassumption|]. rewrite A. cbn [with_base base]. rewrite Ea, Es. cbn [length].
  split; [reflexivity|]. split; [intros b Hb; now right|]. cbn in El. lia.
Qed.

Definition gints_res (L : held) (v : vdb) (n : Z) (r : vres) : Prop :=
  match r with
  | VOk h o v' => keeps L v v' /\ (forall a, In a (subs (areas (base v) k)) -> In a (subs (areas (base v') k))) /\
      goodx (stale h o n) ((o, n) :: L) v'
  | VFail v' => good L v' /\ keeps L v v' /\ (forall a, In a (subs (areas (base v) k)) -> In a (subs (areas (base v') k)))
  | VFuel | VUB => False
  end.
Lemma alloc_gints_ok L n : 0 <= n < 2 ^ 36 -> forall f v, good L v -> (65 <= f + length (subs (areas (base v) k)))%nat -> (1 <= f)%nat ->
  gints_res L v n (alloc_gints baddr k f v n).
Proof.
  intro Hn. induction f as [|f IH]; intros v G Hl Hf; [lia|]. cbn [alloc_gints].
  rewrite w64_small by lia. replace (n * 8) with (8 * n) by lia.
  replace (8 * n <? 0) with false by (symmetry; apply Z.ltb_ge; lia). rewrite used_bytes_room.
  destruct (alloc_here baddr v (room n) (8 * n)) as [r|] eqn:Er.
  - pose proof (alloc_here_ok L v n r G Hn Er) as R. unfold alloc_ok_res in R. destruct r; try contradiction. cbn.
    destruct R as (R1 & R2 & R3). rewrite R2. auto.
  - pose proof (extend_ok L v n G Hn) as R. destruct (extend_varlen baddr k v (room n)) as [v'| | |]; try contradiction.
    + destruct R as (G' & K & El & Hsub & Hlt). specialize (IH v' G').
      destruct f as [|f]; [lia|]. specialize (IH ltac:(lia) ltac:(lia)).
      destruct (alloc_gints baddr k (S f) v' n); cbn in *; try contradiction.
      * destruct IH as (I1 & I2 & I3). split; [eapply keeps_trans; eassumption|]. split; [auto|exact I3].
      * destruct IH as (I1 & I2 & I3). split; [exact I1|]. split; [eapply keeps_trans; eassumption|auto].
    + cbn. split; [exact G|]. split; [apply keeps_refl|auto].
Qed.
End Ops.
