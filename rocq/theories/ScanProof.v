(** The scan follows the tiling of the area. *)
From Coq Require Import List ZArith Bool Lia Sorted.
From Verif Require Import Word64 AllocModel VarModel VarSpec VarProof VarSteps VarAlloc VarFree VarEnd ScanModel ScanSpec.
Import ListNotations.
Open Scope Z_scope.

Lemma sorted_snoc (A : Type) (R : A -> A -> Prop) l x : StronglySorted R l -> (forall y, In y l -> R y x) -> StronglySorted R (l ++ [x]).
Proof.
  induction 1 as [|a l H IH Hf]; intro Hx; cbn; [constructor; constructor|]. constructor.
  - apply IH. intros y Hy. apply Hx. now right.
  - rewrite Forall_forall in Hf |- *. intros y Hy. apply in_app_iff in Hy. destruct Hy as [Hy|[<-|[]]]; [now apply Hf|apply Hx; now left].
Qed.
Lemma sorted_rev (A : Type) (R : A -> A -> Prop) l : StronglySorted R l -> StronglySorted (fun a b => R b a) (rev l).
Proof.
  induction 1 as [|a l H IH Hf]; cbn; [constructor|]. apply sorted_snoc; [exact IH|].
  intros y Hy. apply in_rev in Hy. rewrite Forall_forall in Hf. now apply Hf.
Qed.
Lemma sorted_mid (A : Type) (R : A -> A -> Prop) l1 a l2 : StronglySorted R (l1 ++ a :: l2) ->
  (forall b, In b l1 -> R b a) /\ (forall b, In b l2 -> R a b).
Proof.
  induction l1 as [|x l1 IH]; cbn; intro H; apply StronglySorted_inv in H; destruct H as [H Hf]; rewrite Forall_forall in Hf.
  - split; [intros b []|exact Hf].
  - destruct (IH H) as [I1 I2]. split; [|exact I2]. intros b [<-|Hb]; [apply Hf; apply in_app_iff; right; now left|now apply I1].
Qed.
Lemma after_ok l o a0 : In a0 l -> sa_aoffset a0 <= o < sa_offset a0 + sa_size a0 ->
  exists l1 a r, l = l1 ++ a :: r /\ after l o = Some r /\ sa_aoffset a <= o < sa_offset a + sa_size a.
Proof.
  induction l as [|b l IH]; intros Hin Ho; [destruct Hin|]. cbn [after].
  destruct ((sa_aoffset b <=? o) && (o <? sa_offset b + sa_size b)) eqn:E.
  - apply andb_prop in E. destruct E as [E1 E2]. apply Z.leb_le in E1. apply Z.ltb_lt in E2.
    exists [], b, l. split; [reflexivity|]. split; [reflexivity|lia].
  - destruct Hin as [->|Hin].
    + apply andb_false_iff in E. destruct E as [E|E]; [apply Z.leb_gt in E|apply Z.ltb_ge in E]; lia.
    + destruct (IH Hin Ho) as (l1 & a & r & -> & E1 & E2). exists (b :: l1), a, r. auto.
Qed.

Section Scan.
Variables (k : nat).
Notation inv := (VarProof.inv k).
Arguments i_seg {k X L v B F}. Arguments i_pos {k X L v B F}. Arguments i_dis {k X L v B F}. Arguments i_next {k X L v B F}.
Arguments i_head {k X L v B F}. Arguments i_held {k X L v B F}.
Arguments i_sub {k X L v B F}. Arguments i_end {k X L v B F}. Arguments i_used {k X L v B F}. Arguments pos_bound {k X L v B F}.
Variables (X : Z -> Prop) (L : held) (v : vdb) (B : bmap) (F : Z -> list Z).
Hypothesis H : inv X L v B F.
Hypothesis NH : nohole B.
Hypothesis HX : forall x, X x -> 0 < x.

Lemma start_at a : In a (subs (areas (base v) k)) -> B (sa_aoffset a) = Some (32, KStart).
Proof. intro Ia. destruct (i_sub H a Ia) as [K|K]; [|exact K]. apply HX in K. destruct (sg_in _ _ (i_seg H) a Ia) as (Q & _). lia. Qed.
Lemma record_block q : record_at L q -> exists s n fl, B q = Some (s, KUsed n fl).
Proof. intros (n & Hin). destruct (i_held H _ _ Hin) as (s & fl & E). eauto. Qed.
(** A record not before the block at [p], which is not a record, is not before its end. *)
Lemma pass p s c q : B p = Some (s, c) -> (forall n fl, c <> KUsed n fl) -> record_at L q -> p <= q -> p + s <= q.
Proof.
  intros E N Hq Hp. destruct (record_block q Hq) as (s1 & n & fl & E1).
  assert (D : p <> q) by (intros ->; rewrite E in E1; injection E1 as _ E1; now apply (N n fl)).
  destruct (i_pos H _ _ _ E1) as (P1 & _). destruct (i_dis H _ _ _ _ _ _ E E1 D); lia.
Qed.
Lemma below_free p s c : B p = Some (s, c) -> 0 < p < dfree (base v).
Proof.
  intro E. destruct (i_pos H _ _ _ E) as (P1 & _ & _ & a & Ia & A1 & A2 & _). destruct (pos_bound H _ _ _ E) as [Bp _].
  destruct (sg_in _ _ (i_seg H) a Ia) as (_ & _ & _ & _ & _ & _ & Q). lia.
Qed.

Lemma walk_ok : forall f o sz s c o0, B (o + sz) = Some (s, c) -> c <> KStart -> o0 < o + sz ->
  (forall q, record_at L q -> o0 < q -> o + sz <= q) -> dfree (base v) - (o + sz) < Z.of_nat f ->
  first_after (record_at L) o0 (walk k v f o sz).
Proof.
  induction f as [|f IH]; intros o sz s c o0 E Nst Ho Hq Hf.
  { destruct (below_free _ _ _ E). lia. }
  set (p := o + sz) in *. destruct (i_pos H _ _ _ E) as (P1 & P2 & P3 & _).
  assert (Nh : c <> KHole) by (intros ->; exact (NH _ _ E)).
  pose proof (used_head k _ _ _ _ _ _ _ _ H E Nh) as U. pose proof (head_bits k _ _ _ _ _ _ _ _ H E Nh) as [Fr _].
  pose proof (i_head H _ _ _ E) as Hh. cbn [walk]. fold p. rewrite U, Fr.
  assert (Step : forall s', s' = s -> c <> KEnd -> (forall n fl, c <> KUsed n fl) -> first_after (record_at L) o0 (walk k v f p s')).
  { intros s' -> Ne Nu. destruct (i_next H _ _ _ E Ne) as (s2 & c2 & E2 & N2).
    apply (IH p s s2 c2 o0 E2 N2); [lia| |lia].
    intros q Hr Hlt. apply (pass p s c q E Nu Hr). now apply Hq. }
  destruct c as [| |n fl| | |]; [contradiction|..|contradiction].
  - (* the end of a subarea *)
    cbn [headok] in Hh. destruct Hh as (-> & _ & H8). unfold ld. rewrite H8. cbn [Z.eqb].
    destruct (i_end H _ _ E) as (a0 & Ia0 & Ea0).
    destruct (sg_in _ _ (i_seg H) a0 Ia0) as (_ & _ & G1 & G2 & _).
    destruct (sg_chunk _ _ (i_seg H) a0 Ia0) as [G3 _].
    assert (Ic : In a0 (chunks k v)) by (apply -> in_rev; exact Ia0).
    destruct (after_ok (chunks k v) p a0 Ic ltac:(lia)) as (l1 & a & r & El & Ea & Hr). rewrite Ea.
    pose proof (sorted_rev _ _ _ (sg_order _ _ (i_seg H))) as So. fold (chunks k v) in So. rewrite El in So.
    destruct (sorted_mid _ _ _ _ _ So) as [Sl Sr]. cbn in Sl, Sr.
    assert (Chk : forall b, In b (chunks k v) -> In b (subs (areas (base v) k)) /\ sa_offset b = sa_aoffset b /\ sa_asize b <= sa_size b /\ 64 < sa_asize b).
    { intros b Ib. apply in_rev in Ib. split; [exact Ib|]. split; [exact (proj1 (sg_chunk _ _ (i_seg H) b Ib))|].
      destruct (sg_in _ _ (i_seg H) b Ib) as (_ & _ & K1 & K2 & _). lia. }
    assert (Ia : In a (chunks k v)) by (rewrite El; apply in_app_iff; right; now left).
    destruct (Chk a Ia) as (_ & Ca & _).
    assert (Eq : a0 = a).
    { rewrite El in Ic. apply in_app_iff in Ic. destruct Ic as [Ic|[Ic|Ic]]; [|auto|].
      - specialize (Sl _ Ic). lia.
      - specialize (Sr _ Ic). lia. }
    subst a0.
    assert (Later : forall q, record_at L q -> o0 < q -> exists b, In b r /\ sa_aoffset b <= q).
    { intros q Hrq Hlt. pose proof (pass p 32 KEnd q E ltac:(discriminate) Hrq (Hq q Hrq Hlt)) as Hp.
      destruct (record_block q Hrq) as (s1 & n1 & fl1 & E1). destruct (i_pos H _ _ _ E1) as (R1 & _ & _ & b & Ib & R2 & R3 & _).
      assert (Icb : In b (chunks k v)) by (apply -> in_rev; exact Ib). destruct (Chk b Icb) as (_ & Cb & Cb2 & _).
      rewrite El in Icb. apply in_app_iff in Icb. destruct Icb as [Icb|[<-|Icb]].
      - specialize (Sl _ Icb). lia.
      - lia.
      - exists b. auto. }
    destruct r as [|a1 r].
    + intros q Hrq. destruct (Z_lt_le_dec o0 q) as [Hlt|Hle]; [|exact Hle]. destruct (Later q Hrq Hlt) as (b & [] & _).
    + assert (Ia1 : In a1 (chunks k v)) by (rewrite El; apply in_app_iff; right; right; now left).
      destruct (Chk a1 Ia1) as (Is1 & C1 & _). pose proof (start_at a1 Is1) as E1.
      pose proof (i_head H _ _ _ E1) as [_ M1]. rewrite M1. change (used_size 35) with 32.
      destruct (i_next H _ _ _ E1 ltac:(discriminate)) as (s2 & c2 & E2 & N2).
      pose proof (Sr a1 (or_introl eq_refl)) as S1.
      apply (IH (sa_aoffset a1) 32 s2 c2 o0 E2 N2); [lia| |lia].
      intros q Hrq Hlt. destruct (Later q Hrq Hlt) as (b & Ib & Hb).
      apply (pass (sa_aoffset a1) 32 KStart q E1 ltac:(discriminate) Hrq).
      destruct Ib as [<-|Ib]; [exact Hb|].
      assert (Icb : In b (chunks k v)) by (rewrite El; apply in_app_iff; right; right; now right).
      destruct (Chk b Icb) as (_ & Cb & _).
      replace (l1 ++ a :: a1 :: r) with ((l1 ++ [a]) ++ a1 :: r) in So by (rewrite <- app_assoc; reflexivity).
      destruct (sorted_mid _ _ _ _ _ So) as [_ Sr1]. specialize (Sr1 _ Ib). cbn in Sr1. destruct (Chk a1 Ia1) as (_ & _ & Z1 & Z2). lia.
  - (* a record *)
    split; [exists n; exact (i_used H _ _ _ _ E)|]. split; [exact Ho|]. intros q Hrq Hlt. now apply Hq.
  - (* a free block *)
    apply Step; [|discriminate|discriminate]. exact (proj2 (head_free k _ _ _ _ _ _ _ H E)).
  - (* the designated victim *)
    cbn [headok] in Hh. destruct Hh as [Hh H8]. unfold ld. rewrite H8, Hh. cbn [Z.eqb Pos.eqb].
    apply Step; [|discriminate|discriminate]. unfold used_size. rewrite pure_size_c by (exact P2 || lia).
    destruct (s <=? 32) eqn:Es; [apply Z.leb_le in Es; lia|]. rewrite Z.rem_mod_nonneg by lia. rewrite P2. reflexivity.
Qed.

Definition enough (f : nat) : Prop := dfree (base v) <= Z.of_nat f.
Lemma next_raw_ok f o : record_at L o -> enough f -> first_after (record_at L) o (next_raw k v f o).
Proof.
  intros Ho Hf. destruct (record_block o Ho) as (s & n & fl & E). unfold next_raw.
  pose proof (i_head H _ _ _ E) as (Hn & Hs & Hm). unfold ld. rewrite Hm, (used_size_room n Hn) by (destruct fl; lia). rewrite <- Hs.
  destruct (i_next H _ _ _ E ltac:(discriminate)) as (s2 & c2 & E2 & N2). destruct (i_pos H _ _ _ E) as (P1 & _).
  destruct (pos_bound H _ _ _ E) as [Bo _].
  apply (walk_ok f o s s2 c2 o E2 N2); [lia| |unfold enough in Hf; lia].
  intros q Hq Hlt. destruct (record_block q Hq) as (s1 & n1 & fl1 & E1). destruct (i_pos H _ _ _ E1) as (Q1 & _).
  destruct (i_dis H _ _ _ _ _ _ E E1 ltac:(lia)); lia.
Qed.
Hypothesis Hne : subs (areas (base v) k) <> [].
Lemma first_raw_ok f : enough f -> first_after (record_at L) 0 (first_raw k v f).
Proof.
  intro Hf. unfold first_raw. destruct (chunks k v) as [|a r] eqn:Ec.
  { destruct Hne. unfold chunks in Ec. apply (f_equal (@rev subarea)) in Ec. rewrite rev_involutive in Ec. exact Ec. }
  assert (Ia : In a (subs (areas (base v) k))) by (apply in_rev; fold (chunks k v); rewrite Ec; now left).
  pose proof (start_at a Ia) as E. pose proof (i_head H _ _ _ E) as [_ Hm].
  unfold next_raw, ld. rewrite Hm. change (used_size 35) with 32.
  destruct (i_next H _ _ _ E ltac:(discriminate)) as (s2 & c2 & E2 & N2). destruct (pos_bound H _ _ _ E) as [Bo _].
  apply (walk_ok f (sa_aoffset a) 32 s2 c2 0 E2 N2); [lia| |unfold enough in Hf; lia].
  intros q Hq Hlt. apply (pass _ _ _ q E ltac:(discriminate) Hq).
  destruct (record_block q Hq) as (s1 & n1 & fl1 & E1). destruct (i_pos H _ _ _ E1) as (Q1 & _ & _ & b & Ib & R2 & R3 & _).
  assert (Icb : In b (chunks k v)) by (apply -> in_rev; exact Ib). rewrite Ec in Icb. destruct Icb as [<-|Icb]; [exact R2|].
  pose proof (sorted_rev _ _ _ (sg_order _ _ (i_seg H))) as So. fold (chunks k v) in So. rewrite Ec in So.
  destruct (sorted_mid _ _ [] a r So) as [_ Sr]. specialize (Sr _ Icb). cbn in Sr.
  destruct (sg_chunk _ _ (i_seg H) b Ib) as [G3 _]. destruct (sg_chunk _ _ (i_seg H) a Ia) as [G4 _].
  destruct (sg_in _ _ (i_seg H) a Ia) as (_ & _ & K1 & K2 & _). lia.
Qed.
Definition data_at (o : Z) : Prop := record_at L o /\ special_record v o = false.
Lemma record_range o : record_at L o -> 0 < o < dfree (base v).
Proof. intro Ho. destruct (record_block o Ho) as (s & n & fl & E). exact (below_free _ _ _ E). Qed.
Lemma next_record_ok f : enough f -> forall g o, record_at L o -> dfree (base v) - o <= Z.of_nat g ->
  first_after data_at o (next_record k v g f o).
Proof.
  intro Hf. induction g as [|g IH]; intros o Ho Hg.
  { pose proof (record_range o Ho). lia. }
  cbn [next_record]. pose proof (next_raw_ok f o Ho Hf) as N. destruct (next_raw k v f o) as [o'| | |]; cbn in N; try contradiction.
  - destruct N as (N1 & N2 & N3). destruct (special_record v o') eqn:Es.
    + specialize (IH o' N1 ltac:(lia)). destruct (next_record k v g f o') as [o2| | |]; cbn in IH |- *; try contradiction.
      * destruct IH as (I1 & I2 & I3). split; [exact I1|]. split; [lia|]. intros q [Hq1 Hq2] Hlt.
        assert (q <> o') by (intros ->; congruence). specialize (N3 q Hq1 Hlt). apply I3; [split; assumption|lia].
      * intros q [Hq1 Hq2]. destruct (Z_lt_le_dec o q) as [Hlt|Hle]; [|exact Hle]. specialize (N3 q Hq1 Hlt).
        specialize (IH q (conj Hq1 Hq2)). assert (q <> o') by (intros ->; congruence). lia.
    + cbn. split; [split; assumption|]. split; [exact N2|]. intros q [Hq1 _] Hlt. now apply N3.
  - cbn. intros q [Hq _]. now apply N.
Qed.
Lemma first_record_ok g f : enough f -> enough g -> first_after data_at 0 (first_record k v g f).
Proof.
  intros Hf Hg. unfold first_record. pose proof (first_raw_ok f Hf) as N.
  destruct (first_raw k v f) as [o'| | |]; cbn in N; try contradiction.
  - destruct N as (N1 & N2 & N3). destruct (special_record v o') eqn:Es.
    + pose proof (next_record_ok f Hf g o' N1) as IH. unfold enough in Hg. specialize (IH ltac:(lia)).
      destruct (next_record k v g f o') as [o2| | |]; cbn in IH |- *; try contradiction.
      * destruct IH as (I1 & I2 & I3). split; [exact I1|]. split; [lia|]. intros q [Hq1 Hq2] Hlt.
        assert (q <> o') by (intros ->; congruence). specialize (N3 q Hq1 Hlt). apply I3; [split; assumption|lia].
      * intros q [Hq1 Hq2]. destruct (Z_lt_le_dec 0 q) as [Hlt|Hle]; [|exact Hle]. specialize (N3 q Hq1 Hlt).
        specialize (IH q (conj Hq1 Hq2)). assert (q <> o') by (intros ->; congruence). lia.
    + cbn. split; [split; assumption|]. split; [exact N2|]. intros q [Hq1 _] Hlt. now apply N3.
  - cbn. intros q [Hq _]. now apply N.
Qed.

(** A loop over first and next. *)
Lemma all_ok (P : Z -> Prop) next hi : (forall o, P o -> 0 < o < hi) -> (forall o, P o -> first_after P o (next o)) ->
  forall g r o, first_after P o r -> 0 <= o -> hi - o <= Z.of_nat g ->
  exists l, all_from next g r = Some l /\ StronglySorted Z.lt l /\ forall q, In q l <-> P q /\ o < q.
Proof.
  intros Hr Hn. induction g as [|g IH]; intros r o Ha Ho Hg.
  - destruct r as [q| | |]; cbn in Ha; try contradiction.
    + destruct Ha as (A1 & A2 & _). specialize (Hr q A1). lia.
    + exists []. split; [reflexivity|]. split; [constructor|]. intro q. split; [intros []|]. intros [Hq Hlt]. specialize (Ha q Hq). lia.
  - destruct r as [q| | |]; cbn in Ha; try contradiction.
    + destruct Ha as (A1 & A2 & A3). cbn [all_from]. destruct (IH (next q) q (Hn q A1) ltac:(lia) ltac:(lia)) as (l & El & Sl & Il).
      rewrite El. exists (q :: l). split; [reflexivity|]. split.
      * constructor; [exact Sl|]. apply Forall_forall. intros x Hx. now apply Il in Hx.
      * intro x. split.
        -- intros [<-|Hx]; [split; assumption|]. apply Il in Hx. destruct Hx. split; [assumption|lia].
        -- intros [Hx Hlt]. specialize (A3 x Hx Hlt). destruct (Z.eq_dec x q) as [->|Nx]; [now left|right]. apply Il. split; [assumption|lia].
    + exists []. split; [reflexivity|]. split; [constructor|]. intro q. split; [intros []|]. intros [Hq Hlt]. specialize (Ha q Hq). lia.
Qed.
End Scan.
