(** The area as a tiling of blocks, and the primitive changes of it. *)
From Coq Require Import List ZArith Bool Lia Sorted.
From Verif Require Import Word64 AllocModel VarModel VarSpec.
Import ListNotations.
Open Scope Z_scope.

(* ---- bits ---- *)
Lemma pure_size_eq h : pure_size h = h - h mod 4.
Proof.
  unfold pure_size.
  assert (E : Z.land h (Z.lnot 3) = Z.ldiff h (Z.ones 2)) by (rewrite Z.ldiff_land; reflexivity).
  rewrite E, Z.ldiff_ones_r by lia.
  rewrite Z.shiftl_mul_pow2, Z.shiftr_div_pow2 by lia. change (2 ^ 2) with 4.
  pose proof (Z.div_mod h 4 ltac:(lia)). lia.
Qed.
Lemma low_bits_eq h : low_bits h = h mod 4.
Proof. unfold low_bits. change 3 with (Z.ones 2). now rewrite Z.land_ones by lia. Qed.
Lemma bit0_eq h : Z.land h 1 = h mod 2.
Proof. change 1 with (Z.ones 1) at 1. now rewrite Z.land_ones by lia. Qed.
Lemma mod8_4 s : s mod 8 = 0 -> s mod 4 = 0.
Proof. intro H. pose proof (Z.div_mod s 8 ltac:(lia)). rewrite H in *.
  replace s with (0 + (2 * (s / 8)) * 4) by lia. now rewrite Z.mod_add by lia. Qed.
Lemma mod4_c s c : s mod 4 = 0 -> 0 <= c < 4 -> (s + c) mod 4 = c.
Proof. intros H Hc. rewrite Z.add_mod by lia. rewrite H. cbn [Z.add]. rewrite Z.mod_mod by lia. now apply Z.mod_small. Qed.
Lemma lor_c s c : s mod 4 = 0 -> 0 <= c < 4 -> Z.lor s c = s + c.
Proof.
  intros H Hc. rewrite <- Z.lxor_lor, <- Z.add_nocarry_lxor; try reflexivity;
  assert (E : Z.land s c = 0).
  { assert (E1 : c = Z.land c (Z.ones 2)) by (rewrite Z.land_ones by lia; symmetry; now apply Z.mod_small).
    rewrite E1, Z.land_comm, <- Z.land_assoc, (Z.land_comm (Z.ones 2)), Z.land_ones by lia.
    change (2 ^ 2) with 4. rewrite H. now rewrite Z.land_0_r. }
  all: try exact E.
  { assert (E1 : c = Z.land c (Z.ones 2)) by (rewrite Z.land_ones by lia; symmetry; now apply Z.mod_small).
    rewrite E1, Z.land_comm, <- Z.land_assoc, (Z.land_comm (Z.ones 2)), Z.land_ones by lia.
    change (2 ^ 2) with 4. rewrite H. now rewrite Z.land_0_r. }
Qed.
Lemma mk_free_eq s : s mod 8 = 0 -> mk_free s = s + 1.
Proof. intro H. apply mod8_4 in H. unfold mk_free. rewrite pure_size_eq, H, Z.sub_0_r. apply lor_c; lia. Qed.
Lemma mk_special_eq s : s mod 8 = 0 -> mk_special s = s + 3.
Proof. intro H. apply mod8_4 in H. unfold mk_special. apply lor_c; lia. Qed.
Lemma mk_used_eq s c : s mod 8 = 0 -> 0 <= c < 4 -> mk_used (s + c) = s.
Proof. intros H Hc. apply mod8_4 in H. unfold mk_used. rewrite pure_size_eq, mod4_c by lia. lia. Qed.
Lemma mk_prevfree_eq s c : s mod 8 = 0 -> 0 <= c < 4 -> mk_prevfree (s + c) = s + 2.
Proof. intros H Hc. apply mod8_4 in H. unfold mk_prevfree. rewrite pure_size_eq, mod4_c by lia.
  rewrite lor_c; try lia. replace (s + c - c) with s by lia. exact H. Qed.
Lemma pure_size_c s c : s mod 8 = 0 -> 0 <= c < 4 -> pure_size (s + c) = s.
Proof. intros H Hc. apply mod8_4 in H. rewrite pure_size_eq, mod4_c by lia. lia. Qed.
Lemma low_bits_c s c : s mod 8 = 0 -> 0 <= c < 4 -> low_bits (s + c) = c.
Proof. intros H Hc. apply mod8_4 in H. rewrite low_bits_eq. now apply mod4_c. Qed.
Lemma is_used_c s c : s mod 8 = 0 -> 0 <= c < 4 -> is_used (s + c) = (c =? 0) || (c =? 2).
Proof.
  intros H Hc. unfold is_used. rewrite bit0_eq.
  pose proof (Z.div_mod s 8 ltac:(lia)) as D. rewrite H in D.
  replace (s + c) with (c + (4 * (s / 8)) * 2) by lia. rewrite Z.mod_add by lia.
  assert (c = 0 \/ c = 1 \/ c = 2 \/ c = 3) as [->|[->|[->| ->]]] by lia; reflexivity.
Qed.

(* ---- buckets ---- *)
Lemma var_index_range n i c s : 0 < c -> s < c * 2 ^ (Z.of_nat n - 1) -> (0 < n)%nat ->
  256 + i <= var_index n i c s < 256 + i + Z.of_nat n.
Proof.
  revert i c. induction n as [|n IH]; intros i c Hc Hs Hn; [lia|].
  cbn [var_index]. destruct (s <? c) eqn:E; [lia|]. apply Z.ltb_ge in E.
  destruct n as [|n]; [cbn in Hs; lia|].
  assert (Hr : s < c * 2 * 2 ^ (Z.of_nat (S n) - 1)).
  { replace (Z.of_nat (S (S n)) - 1) with (Z.succ (Z.of_nat (S n) - 1)) in Hs by lia.
    rewrite Z.pow_succ_r in Hs by lia. nia. }
  specialize (IH (i + 1) (c * 2) ltac:(lia) Hr ltac:(lia)). lia.
Qed.
Lemma bucket_range s : 0 <= s < 2 ^ 40 -> 0 <= bucket_index s < 288.
Proof.
  intro H. unfold bucket_index. destruct (s <? 256) eqn:E; [apply Z.ltb_lt in E; lia|].
  pose proof (var_index_range 32 0 512 s ltac:(lia)) as R. cbn -[var_index] in R.
  change (512 * Z.pow_pos 2 31) with (2 ^ 40) in R. lia.
Qed.
Lemma bucket_exact s i : bucket_index s = i -> i < 256 -> 0 <= s < 2 ^ 40 -> s = i.
Proof.
  intros H Hi Hs. unfold bucket_index in H. destruct (s <? 256) eqn:E; [exact H|].
  pose proof (var_index_range 32 0 512 s ltac:(lia)) as R. cbn -[var_index] in R.
  change (512 * Z.pow_pos 2 31) with (2 ^ 40) in R. lia.
Qed.

(* ---- blocks ---- *)
Inductive kind := KStart | KEnd | KUsed (n : Z) (fl : bool) | KFree | KVictim | KHole.
Definition bmap := Z -> option (Z * kind).
Definition upd (B : bmap) (o : Z) (x : option (Z * kind)) : bmap := fun p => if p =? o then x else B p.
Lemma upd_eq B o x : upd B o x o = x. Proof. unfold upd. now rewrite Z.eqb_refl. Qed.
Lemma upd_neq B o x p : p <> o -> upd B o x p = B p.
Proof. intro H. unfold upd. destruct (p =? o) eqn:E; [apply Z.eqb_eq in E; contradiction|reflexivity]. Qed.
Lemma upd_inv B o x p y : upd B o x p = y -> (p = o /\ x = y) \/ (p <> o /\ B p = y).
Proof. unfold upd. destruct (p =? o) eqn:E; intro H; [apply Z.eqb_eq in E|apply Z.eqb_neq in E]; auto. Qed.

Definition headok (m : memory) (o s : Z) (c : kind) : Prop :=
  match c with
  | KStart => s = 32 /\ m o = 35
  | KEnd => s = 32 /\ m o = 35 /\ m (o + 8) = 0
  | KUsed n fl => 0 <= n /\ s = room n /\ m o = 8 * n + (if fl then 2 else 0)
  | KFree => m o = s + 1 /\ m (o + s - 8) = s + 1
  | KVictim => m o = s + 3 /\ m (o + 8) = 1
  | KHole => True
  end.
Fixpoint dllt (m : memory) (p c : Z) (l : list Z) : Prop :=
  match l with
  | [] => c = 0
  | o :: r => c = o /\ m (o + 16) = p /\ dllt m o (m (o + 8)) r
  end.
Definition dll (m : memory) (c : Z) (l : list Z) : Prop :=
  match l with
  | [] => c = 0
  | o :: r => c = o /\ dllt m o (m (o + 8)) r
  end.
Definition sub_apart (a b : subarea) : Prop :=
  sa_aoffset a + sa_asize a <= sa_aoffset b \/ sa_aoffset b + sa_asize b <= sa_aoffset a.
Record segok (d : db) (k : nat) : Prop := {
  sg_free : 0 < dfree d <= dsize d;
  sg_size : dsize d <= 2 ^ 40;
  sg_mod : dfree d mod 8 = 0;
  sg_in : forall s, In s (subs (areas d k)) -> 0 < sa_aoffset s /\ sa_aoffset s mod 8 = 0 /\ 64 < sa_asize s /\
            sa_asize s <= sa_size s <= 2 ^ 40 /\ 8192 <= sa_size s /\ sa_asize s mod 8 = 0 /\
            sa_aoffset s + sa_asize s <= dfree d;
  sg_apart : ForallOrdPairs sub_apart (subs (areas d k));
  sg_chunk : forall s, In s (subs (areas d k)) -> sa_offset s = sa_aoffset s /\ sa_offset s + sa_size s <= dfree d;
  sg_order : StronglySorted (fun a b => sa_offset b + sa_size b <= sa_offset a) (subs (areas d k))
}.

Section Inv.
Variables (baddr : Z -> Z) (k : nat).
Record inv (X : Z -> Prop) (L : held) (v : vdb) (B : bmap) (F : Z -> list Z) : Prop := {
  i_seg : segok (base v) k;
  i_pos : forall o s c, B o = Some (s, c) -> 32 <= s /\ s mod 8 = 0 /\ o mod 8 = 0 /\
            exists a, In a (subs (areas (base v) k)) /\ sa_aoffset a <= o /\ o + s <= sa_aoffset a + sa_asize a /\
              (c <> KStart -> sa_aoffset a < o);
  i_dis : forall o s c o' s' c', B o = Some (s, c) -> B o' = Some (s', c') -> o <> o' -> o + s <= o' \/ o' + s' <= o;
  i_next : forall o s c, B o = Some (s, c) -> c <> KEnd -> exists s' c', B (o + s) = Some (s', c') /\ c' <> KStart;
  i_head : forall o s c, B o = Some (s, c) -> headok (mem (base v)) o s c;
  i_flag : forall o s n, B o = Some (s, KUsed n true) -> X o \/ exists s', B (o - s') = Some (s', KFree);
  i_dv : (dv v = 0 /\ dvs v = 0) \/ B (dv v) = Some (dvs v, KVictim);
  i_dv1 : forall o s, B o = Some (s, KVictim) -> o = dv v;
  i_list : forall i, 0 <= i < 288 -> dll (mem (base v)) (bkt v i) (F i);
  i_nd : forall i, 0 <= i < 288 -> NoDup (F i);
  i_free : forall i o, 0 <= i < 288 -> (In o (F i) <-> exists s, B o = Some (s, KFree) /\ bucket_index s = i);
  i_held : forall o n, In (o, n) L -> exists s fl, B o = Some (s, KUsed n fl);
  i_lnd : NoDup (map fst L);
  i_sub : forall a, In a (subs (areas (base v) k)) -> X (- sa_aoffset a) \/ B (sa_aoffset a) = Some (32, KStart);
  i_end : forall o s, B o = Some (s, KEnd) -> exists a, In a (subs (areas (base v) k)) /\ o + s = sa_aoffset a + sa_asize a;
  i_used : forall o s n fl, B o = Some (s, KUsed n fl) -> In (o, n) L
}.
Arguments i_seg {X L v B F}. Arguments i_pos {X L v B F}. Arguments i_dis {X L v B F}. Arguments i_next {X L v B F}.
Arguments i_head {X L v B F}. Arguments i_flag {X L v B F}. Arguments i_dv {X L v B F}. Arguments i_dv1 {X L v B F}.
Arguments i_list {X L v B F}. Arguments i_nd {X L v B F}. Arguments i_free {X L v B F}. Arguments i_held {X L v B F}.
Arguments i_lnd {X L v B F}. Arguments i_sub {X L v B F}. Arguments i_end {X L v B F}. Arguments i_used {X L v B F}.

Lemma pos_bound {X L v B F} (H : inv X L v B F) o s c : B o = Some (s, c) -> 0 < o /\ 32 <= s < 2 ^ 40.
Proof.
  intro E. destruct (i_pos H _ _ _ E) as (P1 & _ & _ & a & Ia & P2 & P3 & _).
  destruct (i_seg H) as [S1 S2 S3 S4 _]. destruct (S4 _ Ia) as (Q1 & _ & _ & _ & _ & _ & Q2). lia.
Qed.
Lemma room_mod n : 0 <= n -> room n mod 8 = 0.
Proof. intro H. unfold room. destruct (Z.max_spec 32 (8 * n)) as [[_ ->]|[_ ->]]; [|reflexivity].
  rewrite Z.mul_comm. now apply Z.mod_mul. Qed.
Lemma used_bytes_room n : used_bytes (8 * n) = room n.
Proof. unfold used_bytes, room. destruct (8 * n <=? 32) eqn:E; [apply Z.leb_le in E|apply Z.leb_gt in E]; lia. Qed.

(* ---- lists ---- *)
Lemma dllt_frame m m' p c l :
  (forall x, In x l -> m' (x + 8) = m (x + 8) /\ m' (x + 16) = m (x + 16)) -> dllt m p c l -> dllt m' p c l.
Proof.
  revert p c. induction l as [|x l IH]; cbn; intros p c Hx H; [exact H|].
  destruct H as (-> & H1 & H2). destruct (Hx x (or_introl eq_refl)) as [E1 E2].
  rewrite E1, E2. repeat split; auto.
Qed.
Lemma dll_frame m m' c l :
  (forall x, In x l -> m' (x + 8) = m (x + 8) /\ m' (x + 16) = m (x + 16)) -> dll m c l -> dll m' c l.
Proof.
  destruct l as [|x l]; cbn; intros Hx H; [exact H|]. destruct H as (-> & H).
  destruct (Hx x (or_introl eq_refl)) as [E1 _]. rewrite E1. split; [reflexivity|].
  apply dllt_frame with (m := m); [intros; apply Hx; now right|exact H].
Qed.
Lemma store_eq m o x : store m o x o = x. Proof. unfold store. now rewrite Z.eqb_refl. Qed.
Lemma store_neq m o x p : p <> o -> store m o x p = m p.
Proof. intro H. unfold store. destruct (p =? o) eqn:E; [apply Z.eqb_eq in E; contradiction|reflexivity]. Qed.

Lemma headok_frame m m' o s c : m' o = m o -> m' (o + s - 8) = m (o + s - 8) -> (c = KEnd \/ c = KVictim -> m' (o + 8) = m (o + 8)) ->
  headok m o s c -> headok m' o s c.
Proof. intros E1 E2 E3. destruct c; cbn; rewrite ?E1, ?E2, ?E3 by auto; auto. Qed.

(** Writing inside a hole. *)
Lemma inv_hole_st X L v B F o s w x : inv X L v B F -> B o = Some (s, KHole) -> o <= w < o + s ->
  inv X L (st v w x) B F.
Proof.
  intros H E Hw. destruct H as [h1 h2 h3 h4 h5 h6 h7 h8 h9 h10 h11 h12 h13 h14 h15 h16].
  constructor; try assumption.
  - destruct h1. constructor; assumption.
  - intros o' s' c' E'. cbn. destruct (Z.eq_dec o' o) as [->|N].
    { rewrite E in E'. injection E' as <- <-. exact I. }
    destruct (h3 _ _ _ _ _ _ E E' ltac:(auto)) as [D|D]; destruct (h2 _ _ _ E') as (P1 & _).
    all: apply headok_frame with (m := mem (base v)); [apply store_neq; lia|apply store_neq; lia|intros _; apply store_neq; lia|now apply h5].
  - intros i Hi. cbn. apply dll_frame with (m := mem (base v)); [|now apply h9].
    intros y Hy. apply h11 in Hy; [|exact Hi]. destruct Hy as (sy & Ey & _).
    assert (N : o <> y) by (intros ->; rewrite E in Ey; discriminate).
    destruct (h3 _ _ _ _ _ _ E Ey N) as [D|D]; destruct (h2 _ _ _ Ey) as (P1 & _);
    split; apply store_neq; lia.
Qed.

(** Writing a word of a held object other than the head. *)
Lemma inv_write X L v B F o n j x : inv X L v B F -> In (o, n) L -> 1 <= j < n ->
  inv X L (st v (o + 8 * j) x) B F.
Proof.
  intros H Hin Hj. destruct (i_held H _ _ Hin) as (s & fl & E).
  destruct H as [h1 h2 h3 h4 h5 h6 h7 h8 h9 h10 h11 h12 h13 h14 h15 h16].
  pose proof (h5 _ _ _ E) as Hh. cbn -[Z.mul] in Hh. destruct Hh as (Hn & Hs & Hm). unfold room in Hs.
  assert (Hw : o + 8 <= o + 8 * j < o + s) by lia. remember (o + 8 * j) as w eqn:Ew. clear Ew.
  constructor; try assumption.
  - destruct h1. constructor; assumption.
  - intros o' s' c' E'. change (mem (base (st v w x))) with (store (mem (base v)) w x). destruct (Z.eq_dec o' o) as [->|N].
    { rewrite E in E'. injection E' as <- <-. pose proof (h5 _ _ _ E) as Hh. unfold headok in *.
      rewrite store_neq by lia. exact Hh. }
    destruct (h3 _ _ _ _ _ _ E E' ltac:(auto)) as [D|D]; destruct (h2 _ _ _ E') as (P1 & _).
    all: apply headok_frame with (m := mem (base v)); [apply store_neq; lia|apply store_neq; lia|intros _; apply store_neq; lia|now apply h5].
  - intros i Hi. cbn. apply dll_frame with (m := mem (base v)); [|now apply h9].
    intros y Hy. apply h11 in Hy; [|exact Hi]. destruct Hy as (sy & Ey & _).
    assert (N : o <> y) by (intros ->; rewrite E in Ey; discriminate).
    destruct (h3 _ _ _ _ _ _ E Ey N) as [D|D]; destruct (h2 _ _ _ Ey) as (P1 & _);
    split; apply store_neq; lia.
Qed.

(* ---- changing the kind of a block ---- *)
Definition plain (c : kind) : Prop := c <> KStart /\ c <> KEnd.
Lemma upd_kind_pos (P : Z -> Z -> kind -> Prop) B o s c c' :
  (forall o s c, B o = Some (s, c) -> P o s c) -> B o = Some (s, c) -> (P o s c -> P o s c') ->
  forall o1 s1 c1, upd B o (Some (s, c')) o1 = Some (s1, c1) -> P o1 s1 c1.
Proof.
  intros H E Hc o1 s1 c1 E1. apply upd_inv in E1. destruct E1 as [[-> E1]|[_ E1]]; [injection E1 as <- <-|]; auto.
Qed.
Lemma shape_kind X L v B F o s c c' : inv X L v B F -> B o = Some (s, c) -> plain c -> plain c' ->
  let B' := upd B o (Some (s, c')) in
  (forall o s c, B' o = Some (s, c) -> 32 <= s /\ s mod 8 = 0 /\ o mod 8 = 0 /\
     exists a, In a (subs (areas (base v) k)) /\ sa_aoffset a <= o /\ o + s <= sa_aoffset a + sa_asize a /\
              (c <> KStart -> sa_aoffset a < o)) /\
  (forall o s c o' s' c', B' o = Some (s, c) -> B' o' = Some (s', c') -> o <> o' -> o + s <= o' \/ o' + s' <= o) /\
  (forall o s c, B' o = Some (s, c) -> c <> KEnd -> exists s' c', B' (o + s) = Some (s', c') /\ c' <> KStart) /\
  (forall a, In a (subs (areas (base v) k)) -> X (- sa_aoffset a) \/ B' (sa_aoffset a) = Some (32, KStart)) /\
  (forall o s, B' o = Some (s, KEnd) -> exists a, In a (subs (areas (base v) k)) /\ o + s = sa_aoffset a + sa_asize a).
Proof.
  intros H E [P1 P2] [P1' P2'] B'.
  assert (S45 : (forall a, In a (subs (areas (base v) k)) -> X (- sa_aoffset a) \/ B' (sa_aoffset a) = Some (32, KStart)) /\
    (forall o s, B' o = Some (s, KEnd) -> exists a, In a (subs (areas (base v) k)) /\ o + s = sa_aoffset a + sa_asize a)).
  { split.
    - intros a Ia. destruct (i_sub H a Ia) as [K|K]; [now left|right]. unfold B'. rewrite upd_neq; [exact K|].
      intro Eq. rewrite Eq, E in K. injection K as _ K. contradiction.
    - intros o1 s1 E1. apply upd_inv in E1. destruct E1 as [[_ E1]|[_ E1]]; [injection E1 as _ E1; contradiction|exact (i_end H _ _ E1)]. }
  split; [|split; [|split; [|exact S45]]]; clear S45.
  - apply (upd_kind_pos (fun o s c => 32 <= s /\ s mod 8 = 0 /\ o mod 8 = 0 /\
     exists a, In a (subs (areas (base v) k)) /\ sa_aoffset a <= o /\ o + s <= sa_aoffset a + sa_asize a /\
              (c <> KStart -> sa_aoffset a < o)) B o s c); [apply (i_pos H)|exact E|].
    intros (Q1 & Q2 & Q3 & a & Q4 & Q5 & Q6 & Q7). repeat split; auto. exists a. repeat split; auto.
  - intros o1 s1 c1 o2 s2 c2 E1 E2 N. apply upd_inv in E1. apply upd_inv in E2.
    destruct E1 as [[-> E1]|[N1 E1]]; destruct E2 as [[-> E2]|[N2 E2]].
    + contradiction.
    + injection E1 as <- <-. exact (i_dis H _ _ _ _ _ _ E E2 N).
    + injection E2 as <- <-. exact (i_dis H _ _ _ _ _ _ E1 E N).
    + exact (i_dis H _ _ _ _ _ _ E1 E2 N).
  - assert (K : forall o1 s1 c1, B o1 = Some (s1, c1) -> c1 <> KEnd -> exists s' c0, B' (o1 + s1) = Some (s', c0) /\ c0 <> KStart).
    { intros o1 s1 c1 E1 N1. destruct (i_next H _ _ _ E1 N1) as (s2 & c2 & E2 & N2).
      unfold B'. destruct (Z.eq_dec (o1 + s1) o) as [->|N]; [rewrite upd_eq; eauto|rewrite upd_neq by exact N; eauto]. }
    intros o1 s1 c1 E1 N1. apply upd_inv in E1. destruct E1 as [[-> E1]|[_ E1]].
    + injection E1 as <- <-. exact (K _ _ _ E P2).
    + exact (K _ _ _ E1 N1).
Qed.

(** A change of kind that moves nothing between the lists. *)
Lemma inv_kind X L v B F o s c c' L' v' : inv X L v B F -> B o = Some (s, c) -> plain c -> plain c' ->
  c <> KFree -> c' <> KFree ->
  mem (base v') = mem (base v) -> bkt v' = bkt v -> segok (base v') k -> areas (base v') k = areas (base v) k ->
  headok (mem (base v)) o s c' ->
  (forall n, c' = KUsed n true -> X o \/ exists s', B (o - s') = Some (s', KFree)) ->
  ((dv v' = 0 /\ dvs v' = 0) \/ upd B o (Some (s, c')) (dv v') = Some (dvs v', KVictim)) ->
  (forall o1 s1, upd B o (Some (s, c')) o1 = Some (s1, KVictim) -> o1 = dv v') ->
  (forall o1 n, In (o1, n) L' -> exists s1 fl, upd B o (Some (s, c')) o1 = Some (s1, KUsed n fl)) -> NoDup (map fst L') ->
  (forall o1 s1 n fl, upd B o (Some (s, c')) o1 = Some (s1, KUsed n fl) -> In (o1, n) L') ->
  inv X L' v' (upd B o (Some (s, c'))) F.
Proof.
  intros H E Pc Pc' Nc Nc' Em Eb Hs Ea Hh Hf Hd1 Hd2 HL HN HU.
  destruct (shape_kind X L v B F o s c c' H E Pc Pc') as (S1 & S2 & S3 & S4 & S5).
  constructor; try assumption.
  - rewrite Ea. exact S1.
  - rewrite Em. apply (upd_kind_pos (headok (mem (base v))) B o s c); [apply (i_head H)|exact E|intros _; exact Hh].
  - intros o1 s1 n1 E1.
    assert (K : X o1 \/ exists s', B (o1 - s') = Some (s', KFree)).
    { apply upd_inv in E1. destruct E1 as [[-> E1]|[_ E1]]; [injection E1 as <- ->; eapply Hf; reflexivity|exact (i_flag H _ _ _ E1)]. }
    destruct K as [K|(s2 & K)]; [now left|right]. exists s2. rewrite upd_neq; [exact K|].
    intro Eo. rewrite Eo, E in K. injection K as _ K. contradiction.
  - rewrite Em, Eb. apply (i_list H).
  - apply (i_nd H).
  - intros i y Hi. rewrite (i_free H i y Hi). split; intros (s1 & E1 & Hb); exists s1; (split; [|exact Hb]).
    + rewrite upd_neq; [exact E1|]. intros ->. rewrite E in E1. injection E1 as _ E1. contradiction.
    + apply upd_inv in E1. destruct E1 as [[-> E1]|[_ E1]]; [injection E1 as _ E1; contradiction|exact E1].
  - rewrite Ea. exact S4.
  - rewrite Ea. exact S5.
Qed.

(** What is written in the held objects, the head words apart. *)
Definition keeps (L : held) (v v' : vdb) : Prop := forall o n j, In (o, n) L -> 1 <= j < n -> ld v' (o + 8 * j) = ld v (o + 8 * j).
Lemma keeps_refl L v : keeps L v v. Proof. intros o n j _ _. reflexivity. Qed.
Lemma keeps_trans L v1 v2 v3 : keeps L v1 v2 -> keeps L v2 v3 -> keeps L v1 v3.
Proof. intros H1 H2 o n j Hi Hj. rewrite (H2 _ _ _ Hi Hj). exact (H1 _ _ _ Hi Hj). Qed.
Lemma keeps_sub L L' v v' : (forall x, In x L' -> In x L) -> keeps L v v' -> keeps L' v v'.
Proof. intros H1 H2 o n j Hi Hj. apply (H2 _ n); auto. Qed.
Lemma keeps_mem X L v v' B F : inv X L v B F ->
  (forall o s n fl w, B o = Some (s, KUsed n fl) -> o < w < o + s -> mem (base v') w = mem (base v) w) -> keeps L v v'.
Proof.
  intros H K o n j Hi Hj. destruct (i_held H _ _ Hi) as (s & fl & E). unfold ld. apply (K _ _ _ _ _ E).
  pose proof (i_head H _ _ _ E) as Hh. destruct Hh as (_ & -> & _). unfold room. lia.
Qed.
Lemma keeps_st X L v B F y s c w x : inv X L v B F -> B y = Some (s, c) -> y <= w < y + s -> (w = y \/ forall n fl, c <> KUsed n fl) ->
  keeps L v (st v w x).
Proof.
  intros H E Hw Hc. apply keeps_mem with (1 := H). intros o1 s1 n fl w1 E1 Hw1. cbn. apply store_neq. intros ->.
  destruct (Z.eq_dec o1 y) as [->|N].
  - destruct Hc as [->|Hc]; [lia|]. rewrite E in E1. injection E1 as _ ->. now apply (Hc n fl).
  - destruct (i_dis H _ _ _ _ _ _ E1 E N); lia.
Qed.

Definition updF (F : Z -> list Z) (j : Z) (l : list Z) : Z -> list Z := fun i => if i =? j then l else F i.
(** Moving a block into or out of its list. *)
Lemma inv_relink (X X' : Z -> Prop) L v B F o s c c' v' l j : inv X L v B F -> B o = Some (s, c) ->
  (c = KHole /\ c' = KFree \/ c = KFree /\ c' = KHole) ->
  j = bucket_index s ->
  (forall w, ~ (o <= w < o + s) -> (forall y, In y (F j) -> w <> y + 8 /\ w <> y + 16) -> mem (base v') w = mem (base v) w) ->
  headok (mem (base v')) o s c' ->
  (forall i, i <> j -> bkt v' i = bkt v i) -> dv v' = dv v -> dvs v' = dvs v -> segok (base v') k ->
  areas (base v') k = areas (base v) k ->
  dll (mem (base v')) (bkt v' j) l -> NoDup l ->
  (forall y, In y l <-> exists s1, upd B o (Some (s, c')) y = Some (s1, KFree) /\ bucket_index s1 = j) ->
  (forall x, X x -> X' x \/ (c' = KFree /\ x = o + s)) -> (c' = KHole -> X' (o + s)) ->
  inv X' L v' (upd B o (Some (s, c'))) (updF F j l) /\ keeps L v v'.
Proof.
  intros H E Hc Hj Hm Hh Hb Hd1 Hd2 Hs Ea Hl Hnd Hin HX HX'.
  assert (Pc : plain c /\ plain c') by (destruct Hc as [[-> ->]|[-> ->]]; repeat split; discriminate).
  destruct Pc as [Pc Pc'].
  destruct (shape_kind X L v B F o s c c' H E Pc Pc') as (S1 & S2 & S3 & S4 & S5).
  assert (Nv : c <> KVictim /\ c' <> KVictim) by (destruct Hc as [[-> ->]|[-> ->]]; split; discriminate).
  destruct (pos_bound H _ _ _ E) as [Bo Bs]. pose proof (bucket_range s ltac:(lia)) as Hjr. rewrite <- Hj in Hjr.
  assert (Fr : forall y, In y (F j) -> exists s1, B y = Some (s1, KFree)).
  { intros y Hy. apply (i_free H) in Hy; [|exact Hjr]. destruct Hy as (s1 & E1 & _). eauto. }
  (* words of other blocks *)
  assert (Ot : forall o1 s1 c1 w, B o1 = Some (s1, c1) -> o1 <> o -> o1 <= w < o1 + s1 ->
            (c1 <> KFree \/ (w <> o1 + 8 /\ w <> o1 + 16) \/ ~ In o1 (F j)) -> mem (base v') w = mem (base v) w).
  { intros o1 s1 c1 w E1 N1 Hw Hc1. apply Hm.
    - destruct (i_dis H _ _ _ _ _ _ E E1 ltac:(auto)); lia.
    - intros y Hy. destruct (Fr y Hy) as (sy & Ey). destruct (Z.eq_dec y o1) as [->|Ny].
      + rewrite E1 in Ey. injection Ey as _ ->. destruct Hc1 as [Hc1|[Hc1|Hc1]]; [contradiction|exact Hc1|contradiction].
      + destruct (i_pos H _ _ _ Ey) as (Py & _). destruct (i_dis H _ _ _ _ _ _ Ey E1 Ny); lia. }
  split.
  2: { apply keeps_mem with (1 := H). intros o1 s1 n fl w E1 Hw. apply (Ot _ _ _ _ E1); [|lia|left; discriminate].
       intros ->. rewrite E in E1. injection E1 as _ ->. destruct Hc as [[? _]|[? _]]; discriminate. }
  constructor; try assumption.
  - rewrite Ea. exact S1.
  - intros o1 s1 c1 E1. apply upd_inv in E1. destruct E1 as [[-> E1]|[N1 E1]]; [injection E1 as <- <-; exact Hh|].
    destruct (i_pos H _ _ _ E1) as (P1 & _).
    apply headok_frame with (m := mem (base v)); [..|exact (i_head H _ _ _ E1)].
    + apply (Ot _ _ _ _ E1 N1); [lia|right; left; lia].
    + apply (Ot _ _ _ _ E1 N1); [lia|right; left; lia].
    + intros Hk. apply (Ot _ _ _ _ E1 N1); [lia|left; destruct Hk as [->| ->]; discriminate].
  - intros o1 s1 n1 E1. apply upd_inv in E1. destruct E1 as [[-> E1]|[N1 E1]].
    { injection E1 as _ E1. destruct Hc as [[-> ->]|[-> ->]]; discriminate. }
    destruct (i_flag H _ _ _ E1) as [K|(s2 & K)].
    + destruct (HX _ K) as [K'|[K1 K2]]; [now left|right]. subst o1. exists s. replace (o + s - s) with o by lia.
      rewrite upd_eq, K1. reflexivity.
    + destruct (Z.eq_dec (o1 - s2) o) as [Eo|No]; [|right; exists s2; rewrite upd_neq by exact No; exact K].
      rewrite Eo, E in K. injection K as <- Ek. destruct Hc as [[Hc1 Hc2]|[Hc1 Hc2]]; [congruence|].
      left. replace o1 with (o + s) by lia. auto.
  - rewrite Hd1, Hd2. destruct (i_dv H) as [K|K]; [now left|right]. rewrite upd_neq; [exact K|].
    intro Eo. rewrite Eo, E in K. injection K as _ K. destruct Nv; contradiction.
  - intros o1 s1 E1. rewrite Hd1. apply upd_inv in E1. destruct E1 as [[-> E1]|[_ E1]]; [injection E1 as _ E1; destruct Nv; contradiction|].
    exact (i_dv1 H _ _ E1).
  - intros i Hi. unfold updF. destruct (i =? j) eqn:Ei; [apply Z.eqb_eq in Ei; subst i; exact Hl|apply Z.eqb_neq in Ei].
    rewrite Hb by exact Ei. apply dll_frame with (m := mem (base v)); [|now apply (i_list H)].
    intros y Hy. apply (i_free H) in Hy; [|exact Hi]. destruct Hy as (sy & Ey & By).
    destruct (i_pos H _ _ _ Ey) as (Py & _).
    assert (Ny : y <> o).
    { intros ->. rewrite E in Ey. injection Ey as <- Ek. congruence. }
    assert (Nj : ~ In y (F j)).
    { intro Hy. apply (i_free H) in Hy; [|exact Hjr]. destruct Hy as (sy' & Ey' & By'). rewrite Ey in Ey'.
      injection Ey' as <-. congruence. }
    split; apply (Ot _ _ _ _ Ey Ny); try lia; right; right; exact Nj.
  - intros i Hi. unfold updF. destruct (i =? j); [exact Hnd|now apply (i_nd H)].
  - intros i y Hi. unfold updF. destruct (i =? j) eqn:Ei; [apply Z.eqb_eq in Ei; subst i; apply Hin|apply Z.eqb_neq in Ei].
    rewrite (i_free H i y Hi). split; intros (s1 & E1 & Hb1); exists s1; (split; [|exact Hb1]).
    + rewrite upd_neq; [exact E1|]. intros ->. rewrite E in E1. injection E1 as <- E1. congruence.
    + apply upd_inv in E1. destruct E1 as [[-> E1]|[_ E1]]; [injection E1 as <- E1; congruence|exact E1].
  - intros o1 n Hn. destruct (i_held H _ _ Hn) as (s1 & fl & E1). exists s1, fl. rewrite upd_neq; [exact E1|].
    intros ->. rewrite E in E1. injection E1 as _ ->. destruct Hc as [[Hc _]|[Hc _]]; discriminate.
  - exact (i_lnd H).
  - rewrite Ea. intros a Ia. destruct (S4 a Ia) as [K|K]; [|now right]. destruct (HX _ K) as [K'|[_ K']]; [now left|].
    destruct (sg_in _ _ (i_seg H) a Ia) as (Q1 & _). lia.
  - rewrite Ea. exact S5.
  - intros o1 s1 n fl E1. apply upd_inv in E1. destruct E1 as [[-> E1]|[_ E1]]; [|exact (i_used H _ _ _ _ E1)].
    injection E1 as _ E1. destruct Hc as [[_ ->]|[_ ->]]; discriminate.
Qed.
End Inv.
