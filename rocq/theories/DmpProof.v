(** Lemmas for C55: checking a file, writing it, loading it. *)
From Coq Require Import Bool Arith ZArith Lia List.
From Verif Require Import DmpModel DmpSpec DmpCrc DmpBase.
Import ListNotations.
Open Scope Z_scope.
Local Opaque crc_table.

(** * Checking *)
Lemma bufsize_Z : Z.of_nat bufsize = 8192.
Proof. reflexivity. Qed.
Lemma update_nil crc : update_crc32 [] crc = crc.
Proof. unfold update_crc32. cbn. apply Z.lnot_involutive. Qed.
Lemma read_on_all fuel : forall rest fs crc, (length rest <= fuel)%nat ->
  read_on fuel rest fs crc = Some (fs + Z.of_nat (length rest), update_crc32 rest crc).
Proof.
  pose proof bufsize_Z as Hs.
  induction fuel as [|fuel IH]; intros [|x rest] fs crc H; cbn [length] in H; try lia.
  - cbn. now rewrite update_nil, Z.add_0_r.
  - cbn. now rewrite update_nil, Z.add_0_r.
  - cbn [read_on]. rewrite IH by (rewrite skipn_length; cbn [length]; lia).
    rewrite update_app, firstn_skipn, firstn_length, skipn_length. do 2 f_equal. lia.
Qed.
Definition ok (f : list Z) : Prop :=
  (bufsize <= length f)%nat /\ compatible f = true /\ Z.of_nat (length f) = get64 f o_free /\
  update_crc32 (put f o_checksum (bytes 4 0)) 0 = get32 f o_checksum.
Lemma near_start f o : (bufsize <= length f)%nat -> (o + 8 <= 32)%nat ->
  get64 (firstn bufsize f) o = get64 f o /\ get32 (firstn bufsize f) o = get32 f o.
Proof.
  pose proof bufsize_Z. intros H1 H2. split; [apply get64_ext|apply get32_ext]; unfold among; intros i Hi; rewrite nth_firstn;
    (destruct (Nat.ltb_spec i bufsize); [reflexivity|lia]).
Qed.
Lemma put_pieces f : (bufsize <= length f)%nat ->
  put (firstn bufsize f) o_checksum (bytes 4 0) ++ skipn bufsize f = put f o_checksum (bytes 4 0).
Proof.
  pose proof bufsize_Z. intros Hf. apply ext_nth. intros i. unfold o_checksum.
  rewrite nth_app. rewrite put_length by (rewrite bytes_length, firstn_length; lia).
  rewrite firstn_length, Nat.min_l by lia. rewrite nth_skipn, nth_put, nth_put by (rewrite bytes_length, ?firstn_length; lia).
  rewrite bytes_length, nth_firstn.
  destruct (Nat.ltb_spec i bufsize); [reflexivity|].
  destruct (Nat.ltb_spec i (12 + 4)); [lia|]. rewrite andb_false_r. f_equal. lia.
Qed.
Lemma check_cases f :
  (ok f /\ check_dump (Some f) = Some (0, get64 f o_free, get64 f o_size)) \/
  (~ ok f /\ exists e a b, e < 0 /\ check_dump (Some f) = Some (e, a, b)).
Proof.
  pose proof bufsize_Z as Hs. unfold check_dump. rewrite firstn_length.
  destruct (Nat.ltb_spec (Nat.min bufsize (length f)) bufsize) as [H|H].
  { right. split; [intros (H1 & _); lia|]. eexists _, _, _. split; [|reflexivity]. lia. }
  assert (Hl : (bufsize <= length f)%nat) by lia.
  assert (Hc : compatible (firstn bufsize f) = compatible f).
  { unfold compatible. unfold o_mark, o_version, o_features.
    rewrite !(fun o H => proj2 (near_start f o Hl H)) by lia. reflexivity. }
  rewrite Hc. destruct (compatible f) eqn:E; cbn [negb].
  2:{ right. split; [intros (_ & H2 & _); congruence|]. eexists _, _, _. split; [|reflexivity]. lia. }
  rewrite read_on_all by (rewrite skipn_length; lia).
  rewrite update_app, put_pieces by exact Hl.
  unfold o_free, o_size, o_checksum in *.
  rewrite !(fun o H => proj1 (near_start f o Hl H)) by lia. rewrite (fun H => proj2 (near_start f 12 Hl H)) by lia.
  rewrite skipn_length. replace (Z.of_nat bufsize + Z.of_nat (length f - bufsize)) with (Z.of_nat (length f)) by lia.
  destruct (Z.eqb_spec (Z.of_nat (length f)) (get64 f 24)) as [E1|E1]; cbn [negb].
  2:{ right. split; [intros (_ & _ & H3 & _); contradiction|]. eexists _, _, _. split; [|reflexivity]. lia. }
  destruct (Z.eqb_spec (update_crc32 (put f 12 (bytes 4 0)) 0) (get32 f 12)) as [E2|E2]; cbn [negb].
  - left. split; [|reflexivity]. repeat split; assumption.
  - right. split; [intros (_ & _ & _ & H4); contradiction|]. eexists _, _, _. split; [|reflexivity]. lia.
Qed.
Definition refuses (f : list Z) : Prop := exists e a b, e < 0 /\ check_dump (Some f) = Some (e, a, b).
Lemma not_ok_refuses f : ~ ok f -> refuses f.
Proof. intros H. destruct (check_cases f) as [[H1 _]|[_ H1]]; [contradiction|exact H1]. Qed.
Lemma accept_ok f a b : check_dump (Some f) = Some (0, a, b) -> ok f.
Proof.
  intros H. destruct (check_cases f) as [[H1 _]|[_ (e & a' & b' & He & H1)]]; [exact H1|].
  rewrite H in H1. injection H1 as <- _ _. lia.
Qed.

(** ** Damage *)
Lemma truncated f k : ok f -> (k < length f)%nat -> ~ ok (firstn k f).
Proof.
  pose proof bufsize_Z. intros (H1 & _ & H3 & _) Hk (K1 & _ & K3 & _).
  rewrite firstn_length in *. unfold o_free in *.
  assert (E : get64 (firstn k f) 24 = get64 f 24).
  { apply get64_ext. unfold among. intros i Hi. rewrite nth_firstn. destruct (Nat.ltb_spec i k); [reflexivity|lia]. }
  rewrite E, <- H3 in K3. lia.
Qed.
Lemma extended f x : ok f -> x <> [] -> ~ ok (f ++ x).
Proof.
  pose proof bufsize_Z. intros (H1 & _ & H3 & _) Hx (K1 & _ & K3 & _). unfold o_free in *.
  assert (E : get64 (f ++ x) 24 = get64 f 24).
  { apply get64_ext. unfold among. intros i Hi. apply nth_error_app1. lia. }
  rewrite E, <- H3, app_length in K3. destruct x; [contradiction|]. cbn [length] in K3. lia.
Qed.
Lemma Forall_sub {P : Z -> Prop} a k (l : list Z) : Forall P l -> Forall P (firstn k (skipn a l)).
Proof.
  rewrite !Forall_forall. intros H x Hx. apply H. rewrite <- (firstn_skipn a l). apply in_or_app. right.
  rewrite <- (firstn_skipn k (skipn a l)). apply in_or_app. now left.
Qed.
Lemma split3 (l : list Z) p k : l = firstn p l ++ firstn k (skipn p l) ++ skipn k (skipn p l).
Proof. now rewrite firstn_skipn, firstn_skipn. Qed.
Lemma same_crc_same z z' p : Forall byte z -> Forall byte z' -> differ_within z z' p 4 ->
  update_crc32 z 0 = update_crc32 z' 0 -> z = z'.
Proof.
  intros Hz Hz' [Hl Hd] H. unfold among in Hd.
  assert (H1 : firstn p z = firstn p z').
  { apply ext_nth. intros i. rewrite !nth_firstn. destruct (Nat.ltb_spec i p); [|reflexivity]. apply Hd. lia. }
  assert (H2 : skipn 4 (skipn p z) = skipn 4 (skipn p z')).
  { apply ext_nth. intros i. rewrite !nth_skipn. apply Hd. lia. }
  assert (H3 : length (firstn 4 (skipn p z)) = length (firstn 4 (skipn p z')))
    by (rewrite !firstn_length, !skipn_length; lia).
  rewrite (split3 z p 4), (split3 z' p 4) in H. rewrite <- H1, <- H2 in H.
  apply window_detected in H; [|exact H3|rewrite firstn_length; lia|rewrite <- split3; exact Hz|].
  - rewrite (split3 z p 4), (split3 z' p 4). now rewrite H1, H2, H.
  - rewrite H1, H2, <- split3. exact Hz'.
Qed.
Lemma zeroed_nth f i : (16 <= length f)%nat -> ~ among i 12 4 -> nth_error (put f 12 (bytes 4 0)) i = nth_error f i.
Proof. intros H Hi. apply nth_put_out; rewrite bytes_length; [lia|exact Hi]. Qed.
Lemma zeroed_in f f' i : (16 <= length f)%nat -> (16 <= length f')%nat -> among i 12 4 ->
  nth_error (put f 12 (bytes 4 0)) i = nth_error (put f' 12 (bytes 4 0)) i.
Proof.
  intros H H' Hi. unfold among in Hi. rewrite !nth_put by (rewrite bytes_length; lia). rewrite !bytes_length.
  destruct (Nat.leb_spec 12 i); [|lia]. destruct (Nat.ltb_spec i (12 + 4)); [reflexivity|lia].
Qed.
Lemma window_refused f f' p : Forall byte f -> Forall byte f' -> ok f -> differ_within f f' p 4 ->
  (forall i, among i 12 4 -> nth_error f i = nth_error f' i) -> f <> f' -> ~ ok f'.
Proof.
  pose proof bufsize_Z. intros Hb Hb' (H1 & _ & _ & H4) Hd Hc Hne (K1 & _ & _ & K4). apply Hne. clear Hne.
  unfold o_checksum in *. destruct Hd as [Hl Hd].
  assert (E : get32 f' 12 = get32 f 12) by (apply get32_ext; intros i Hi; symmetry; apply Hc, Hi).
  assert (Z1 : put f 12 (bytes 4 0) = put f' 12 (bytes 4 0)).
  { apply (same_crc_same _ _ p).
    - apply put_byte; [rewrite bytes_length; lia|exact Hb|apply bytes_byte].
    - apply put_byte; [rewrite bytes_length; lia|exact Hb'|apply bytes_byte].
    - split; [rewrite !put_length by (rewrite bytes_length; lia); exact Hl|].
      intros i Hi. destruct (Nat.leb_spec 12 i) as [A|A], (Nat.ltb_spec i 16) as [B|B].
      + apply zeroed_in; [lia|lia|unfold among; lia].
      + rewrite !zeroed_nth by (try lia; unfold among; lia). apply Hd, Hi.
      + rewrite !zeroed_nth by (try lia; unfold among; lia). apply Hd, Hi.
      + rewrite !zeroed_nth by (try lia; unfold among; lia). apply Hd, Hi.
    - congruence. }
  apply ext_nth. intros i. destruct (Nat.leb_spec 12 i) as [A|A], (Nat.ltb_spec i 16) as [B|B].
  - apply Hc. unfold among. lia.
  - rewrite <- (zeroed_nth f), <- (zeroed_nth f') by (try lia; unfold among; lia). now rewrite Z1.
  - rewrite <- (zeroed_nth f), <- (zeroed_nth f') by (try lia; unfold among; lia). now rewrite Z1.
  - rewrite <- (zeroed_nth f), <- (zeroed_nth f') by (try lia; unfold among; lia). now rewrite Z1.
Qed.
Lemma zeroed_same f f' : (16 <= length f)%nat -> differ_within f f' 12 4 ->
  put f 12 (bytes 4 0) = put f' 12 (bytes 4 0).
Proof.
  intros H [Hl Hd]. apply ext_nth. intros i.
  destruct (Nat.leb_spec 12 i) as [A|A], (Nat.ltb_spec i 16) as [B|B].
  - apply zeroed_in; [lia|lia|unfold among; lia].
  - rewrite !zeroed_nth by (try lia; unfold among; lia). apply Hd. unfold among. lia.
  - rewrite !zeroed_nth by (try lia; unfold among; lia). apply Hd. unfold among. lia.
  - rewrite !zeroed_nth by (try lia; unfold among; lia). apply Hd. unfold among. lia.
Qed.
Lemma checksum_same f f' : Forall byte f -> Forall byte f' -> ok f -> ok f' -> differ_within f f' 12 4 -> f = f'.
Proof.
  pose proof bufsize_Z. intros Hb Hb' (H1 & _ & _ & H4) (K1 & _ & _ & K4) Hd. unfold o_checksum in *.
  pose proof (zeroed_same f f' ltac:(lia) Hd) as Z1. destruct Hd as [Hl Hd].
  assert (E : get32 f 12 = get32 f' 12) by congruence.
  apply get32_inj in E; [|lia|lia|assumption|assumption].
  apply ext_nth. intros i. unfold among in Hd.
  destruct (Nat.leb_spec 12 i) as [A|A], (Nat.ltb_spec i 16) as [B|B]; try (apply Hd; lia).
  apply (f_equal (fun l => nth_error l (i - 12))) in E. rewrite !nth_firstn, !nth_skipn in E.
  destruct (Nat.ltb_spec (i - 12) 4); [|lia]. replace (12 + (i - 12))%nat with i in E by lia. exact E.
Qed.

(** * Writing *)
Lemma put_one f o x : (o < length f)%nat -> put f o [x] = firstn o f ++ x :: skipn (S o) f.
Proof. intros H. unfold put. cbn [length]. now rewrite Nat.add_1_r. Qed.
Lemma written_data l : forall f k,
  fold_left write_at (firstn k (combine (seq (length f) (length l)) l)) f = f ++ firstn k l.
Proof.
  induction l as [|x l IH]; intros f k.
  - cbn. destruct k; cbn; now rewrite app_nil_r.
  - destruct k as [|k]; [cbn; now rewrite app_nil_r|].
    cbn [length seq combine firstn fold_left]. unfold write_at at 2. cbn [fst snd].
    rewrite Nat.ltb_irrefl.
    replace (S (length f)) with (length (f ++ [x])) by (rewrite app_length; cbn; lia).
    rewrite IH, <- app_assoc. reflexivity.
Qed.
Lemma put_nil f o : put f o [] = f.
Proof. unfold put. cbn. rewrite Nat.add_0_r. apply firstn_skipn. Qed.
Lemma put_cons f o x l : (o + S (length l) <= length f)%nat -> put (put f o [x]) (S o) l = put f o (x :: l).
Proof.
  intros H. apply ext_nth. intros i.
  assert (L1 : length (put f o [x]) = length f) by (apply put_length; cbn; lia).
  rewrite nth_put by (rewrite L1; lia). rewrite nth_put by (cbn; lia). rewrite nth_put by (cbn; lia). cbn [length].
  destruct (Nat.leb_spec (S o) i), (Nat.ltb_spec i (S o + length l)), (Nat.leb_spec o i),
    (Nat.ltb_spec i (o + 1)), (Nat.ltb_spec i (o + S (length l))); cbn [andb]; try lia; try reflexivity.
  - replace (i - o)%nat with (S (i - S o)) by lia. reflexivity.
  - replace (i - o)%nat with 0%nat by lia. reflexivity.
Qed.
Lemma written_over l : forall f o k, (o + length l <= length f)%nat ->
  fold_left write_at (firstn k (combine (seq o (length l)) l)) f = put f o (firstn k l).
Proof.
  induction l as [|x l IH]; intros f o k H.
  - cbn. destruct k; cbn; now rewrite put_nil.
  - destruct k as [|k]; [cbn; now rewrite put_nil|].
    cbn [length] in *. cbn [seq combine firstn fold_left]. unfold write_at at 2. cbn [fst snd].
    destruct (Nat.ltb_spec o (length f)); [|lia].
    rewrite IH by (rewrite put_length by (cbn; lia); lia).
    apply put_cons. rewrite firstn_length. lia.
Qed.
Lemma file_after_eq k m0 m1 m2 : (16 <= used m0)%nat -> (used m0 <= length m2)%nat ->
  file_after k m0 m1 m2 =
  if Nat.leb k (used m0) then firstn k (firstn (used m0) m2)
  else put (firstn (used m0) m2) o_checksum (firstn (k - used m0) (bytes 4 (update_crc32 (firstn (used m0) m1) 0))).
Proof.
  intros H H2. unfold file_after, writes, o_checksum.
  set (n := used m0) in *. set (c := update_crc32 (firstn n m1) 0).
  assert (Ld : length (firstn n m2) = n) by (rewrite firstn_length; lia).
  assert (Lc : length (combine (seq 0 (length (firstn n m2))) (firstn n m2)) = n)
    by (rewrite combine_length, seq_length, Ld; lia).
  rewrite firstn_app, Lc, fold_left_app.
  pose proof (written_data (firstn n m2) [] k) as W. cbn [length app] in W. rewrite W.
  destruct (Nat.leb_spec k n).
  - replace (k - n)%nat with 0%nat by lia. reflexivity.
  - rewrite (firstn_all2 (n := k) (firstn n m2)) by lia.
    pose proof (written_over (bytes 4 c) (firstn n m2) 12 (k - n)) as V. rewrite bytes_length in V.
    apply V. lia.
Qed.

Lemma lnot_int32 z : int32 z -> int32 (Z.lnot z).
Proof. unfold int32, Z.lnot. lia. Qed.
Lemma fold_int32 l : forall s, Forall byte l -> int32 s -> int32 (fold_left crc_step l s).
Proof.
  induction l as [|b l IH]; intros s Hl Hs; [exact Hs|]. inversion Hl as [|? ? B R]; subst. cbn. apply IH; [exact R|].
  rewrite step_M by exact B. apply M_int32, lxor_int32; [exact Hs|apply byte_int32, B].
Qed.
Lemma crc_int32 l : Forall byte l -> int32 (update_crc32 l 0).
Proof.
  intros H. unfold update_crc32. apply lnot_int32, fold_int32; [exact H|]. apply lnot_int32, int32_0.
Qed.

Section Write.
  Variables hsize o_locks o_extdbs : nat.
  Hypothesis Layout : header_layout hsize o_locks o_extdbs.
  Variable m : list Z.
  Variables n ql st mx : nat.
  Hypothesis D : database hsize o_locks o_extdbs m n ql st mx.

  Definition data := firstn n m.
  Definition crc := update_crc32 data 0.
  Definition whole := put data 12 (bytes 4 crc).
  Lemma n_big : 8192 <= Z.of_nat n.
  Proof. destruct Layout as (L1 & _). pose proof (d_fits _ _ _ _ _ _ _ _ D). lia. Qed.
  Lemma used_n : used m = n.
  Proof. unfold used. unfold o_free. rewrite (holds_get64 _ _ _ (d_free _ _ _ _ _ _ _ _ D)). lia. Qed.
  Lemma data_length : length data = n.
  Proof. unfold data. rewrite firstn_length. pose proof (d_fits _ _ _ _ _ _ _ _ D). lia. Qed.
  Lemma data_bytes : Forall byte data.
  Proof. unfold data. apply (Forall_sub 0 n m). exact (d_bytes _ _ _ _ _ _ _ _ D). Qed.
  Lemma crc_range : - 2 ^ (8 * Z.of_nat 4 - 1) <= crc < 2 ^ (8 * Z.of_nat 4 - 1).
  Proof. exact (crc_int32 data data_bytes). Qed.
  Lemma whole_length : length whole = n.
  Proof. pose proof n_big. unfold whole. rewrite put_length; [apply data_length|rewrite bytes_length, data_length; lia]. Qed.
  Lemma data_nth i : (i < n)%nat -> nth_error data i = nth_error m i.
  Proof. intros H. unfold data. rewrite nth_firstn. destruct (Nat.ltb_spec i n); [reflexivity|lia]. Qed.
  Lemma whole_nth i : (i < n)%nat -> ~ among i 12 4 -> nth_error whole i = nth_error m i.
  Proof.
    pose proof n_big. intros H1 H2. unfold whole. rewrite nth_put_out; [apply data_nth, H1| |].
    - rewrite bytes_length, data_length. lia.
    - rewrite bytes_length. exact H2.
  Qed.
  Lemma data_holds o k z : holds m o k z -> (o + k <= n)%nat -> holds data o k z.
  Proof. intros H Ho. eapply holds_ext; [exact H|]. unfold among. intros i Hi. apply data_nth. lia. Qed.
  (** the start of the file, checksum apart *)
  Lemma same_header f : (forall i, (i < 40)%nat -> ~ among i 12 4 -> nth_error f i = nth_error m i) ->
    compatible f = true /\ get64 f o_free = Z.of_nat n /\ get64 f o_size = Z.of_nat (length m).
  Proof.
    intros H. unfold compatible, o_mark, o_version, o_features, o_free, o_size.
    assert (G : forall o z, holds m o 4 z -> (o + 4 <= 12)%nat -> get32 f o = z).
    { intros o z Hz Ho. apply holds_get32. eapply holds_ext; [exact Hz|]. unfold among in *. intros i Hi. apply H; lia. }
    rewrite (G _ _ (d_mark _ _ _ _ _ _ _ _ D)), (G _ _ (d_version _ _ _ _ _ _ _ _ D)),
      (G _ _ (d_features _ _ _ _ _ _ _ _ D)) by lia.
    split; [reflexivity|]. split.
    - apply holds_get64. eapply holds_ext; [exact (d_free _ _ _ _ _ _ _ _ D)|]. unfold among in *. intros i Hi. apply H; lia.
    - apply holds_get64. eapply holds_ext; [exact (d_size _ _ _ _ _ _ _ _ D)|]. unfold among in *. intros i Hi. apply H; lia.
  Qed.
  Lemma zero_data f : length f = n -> (forall i, (i < n)%nat -> ~ among i 12 4 -> nth_error f i = nth_error m i) ->
    put f 12 (bytes 4 0) = data.
  Proof.
    pose proof n_big as Hn. intros Hl H. apply ext_nth. intros i.
    destruct (Nat.ltb_spec i n) as [Hi|Hi].
    - rewrite data_nth by exact Hi.
      destruct (Nat.leb_spec 12 i) as [A|A], (Nat.ltb_spec i 16) as [B|B].
      + destruct (d_checksum _ _ _ _ _ _ _ _ D) as [_ Hc]. specialize (Hc (i - 12)%nat ltac:(lia)).
        replace (12 + (i - 12))%nat with i in Hc by lia. rewrite Hc.
        rewrite nth_put by (rewrite bytes_length; lia). rewrite bytes_length.
        destruct (Nat.leb_spec 12 i); [|lia]. destruct (Nat.ltb_spec i (12 + 4)); [|lia]. cbn [andb].
        apply bytes_nth. lia.
      + rewrite nth_put_out by (rewrite bytes_length; unfold among; lia). apply H; unfold among; lia.
      + rewrite nth_put_out by (rewrite bytes_length; unfold among; lia). apply H; unfold among; lia.
      + rewrite nth_put_out by (rewrite bytes_length; unfold among; lia). apply H; unfold among; lia.
    - transitivity (@None Z); [|symmetry]; apply nth_error_None.
      + rewrite put_length by (rewrite bytes_length; lia). lia.
      + rewrite data_length. lia.
  Qed.
  Lemma whole_ok : ok whole /\ get64 whole o_free = Z.of_nat n /\ get64 whole o_size = Z.of_nat (length m).
  Proof.
    pose proof n_big as Hn. pose proof whole_length as Hl.
    destruct (same_header whole) as (H1 & H2 & H3).
    { intros i Hi. apply whole_nth. lia. }
    split; [|split; assumption]. split; [pose proof bufsize_Z; lia|]. split; [exact H1|]. split; [congruence|].
    unfold o_checksum. rewrite (zero_data whole Hl) by (intros i Hi; apply whole_nth; exact Hi).
    symmetry. apply holds_get32. unfold whole. apply holds_put; [rewrite data_length; lia|exact crc_range].
  Qed.
  Lemma after_all k : (n + 4 <= k)%nat -> file_after k m m m = whole.
  Proof.
    pose proof n_big as Hn. pose proof (d_fits _ _ _ _ _ _ _ _ D) as Hf. intros Hk.
    rewrite file_after_eq by (rewrite used_n; lia). rewrite used_n. destruct (Nat.leb_spec k n); [lia|].
    unfold whole, crc, o_checksum. f_equal. apply firstn_all2. rewrite bytes_length. lia.
  Qed.
  Lemma whole_bytes : Forall byte whole.
  Proof.
    pose proof n_big. unfold whole. apply put_byte; [rewrite bytes_length, data_length; lia|apply data_bytes|apply bytes_byte].
  Qed.
  Lemma after_some k : ok (file_after k m m m) -> file_after k m m m = whole.
  Proof.
    pose proof n_big as Hn. pose proof (d_fits _ _ _ _ _ _ _ _ D) as Hf. pose proof bufsize_Z as Hz.
    rewrite file_after_eq by (rewrite used_n; lia). rewrite used_n.
    fold data. fold crc. unfold o_checksum.
    intros Hok. apply checksum_same; [| |exact Hok|apply whole_ok|].
    - destruct (Nat.leb k n); [apply (Forall_sub 0 k data), data_bytes|].
      apply put_byte; [rewrite firstn_length, bytes_length, data_length; lia|apply data_bytes|].
      apply (Forall_sub 0 (k - n) (bytes 4 crc)), bytes_byte.
    - apply whole_bytes.
    - destruct (Nat.leb_spec k n) as [Hk|Hk].
      + destruct Hok as (K1 & _ & K3 & _). rewrite firstn_length, data_length in *.
        destruct (same_header (firstn k data)) as (_ & H2 & _).
        { intros i Hi _. rewrite nth_firstn. destruct (Nat.ltb_spec i k); [apply data_nth; lia|lia]. }
        assert (k = n) by lia. subst k.
        assert (E : firstn n data = data) by (apply firstn_all2; rewrite data_length; lia).
        rewrite E. split; [rewrite data_length, whole_length; reflexivity|].
        intros i Hi. destruct (Nat.ltb_spec i n).
        * rewrite data_nth, whole_nth by assumption. reflexivity.
        * transitivity (@None Z); [|symmetry]; apply nth_error_None; rewrite ?data_length, ?whole_length; lia.
      + split.
        * rewrite put_length by (rewrite firstn_length, bytes_length, data_length; lia).
          rewrite data_length, whole_length. reflexivity.
        * intros i Hi. unfold whole. rewrite !nth_put_out; rewrite ?firstn_length, ?bytes_length, ?data_length; try lia.
          -- reflexivity.
          -- exact Hi.
          -- unfold among in *. lia.
  Qed.
End Write.

(** * Loading *)
Lemma set64_nat m o v : (o + 8 <= length m)%nat -> set64 m (Z.of_nat o) v = Some (put m o (bytes 8 v)).
Proof.
  intros H. unfold set64. destruct (Z.leb_spec 0 (Z.of_nat o)); [|lia].
  destruct (Z.leb_spec (Z.of_nat o + 8) (Z.of_nat (length m))); [|lia]. cbn [andb]. now rewrite Nat2Z.id.
Qed.
Definition small (z : Z) : Prop := - 2 ^ 63 <= z < 2 ^ 63.
Lemma small_holds m o z : (o + 8 <= length m)%nat -> small z -> holds (put m o (bytes 8 z)) o 8 z.
Proof. intros H Hz. apply holds_put; [exact H|exact Hz]. Qed.
Lemma put8_out m o z i : (o + 8 <= length m)%nat -> ~ among i o 8 -> nth_error (put m o (bytes 8 z)) i = nth_error m i.
Proof. intros H Hi. apply nth_put_out; rewrite bytes_length; assumption. Qed.
Lemma put8_length m o z : (o + 8 <= length m)%nat -> length (put m o (bytes 8 z)) = length m.
Proof. intros H. apply put_length. now rewrite bytes_length. Qed.
Lemma chain_all c : forall m s, (s + 128 * c <= length m)%nat -> small (Z.of_nat (length m)) ->
  exists m', chain_cells c m (Z.of_nat s) = Some m' /\ length m' = length m /\
    (forall j, (j < c)%nat -> holds m' (s + 128 * j) 8 (Z.of_nat (s + 128 * S j))) /\
    (forall i, (forall j, (j < c)%nat -> ~ among i (s + 128 * j) 8) -> nth_error m' i = nth_error m i).
Proof.
  induction c as [|c IH]; intros m s H Hs.
  - exists m. split; [reflexivity|]. split; [reflexivity|]. split; [intros j Hj; lia|reflexivity].
  - cbn [chain_cells]. rewrite set64_nat by lia.
    replace (Z.of_nat s + 128) with (Z.of_nat (s + 128)) by lia.
    set (m1 := put m s (bytes 8 (Z.of_nat (s + 128)))).
    assert (L1 : length m1 = length m) by (apply put8_length; lia).
    destruct (IH m1 (s + 128)%nat) as (m' & E & L & Hc & Ho); [lia|now rewrite L1|].
    rewrite E. exists m'. split; [reflexivity|]. split; [congruence|]. split.
    + intros [|j] Hj.
      * assert (H1 : holds m1 s 8 (Z.of_nat (s + 128))) by (apply small_holds; [lia|unfold small in *; lia]).
        replace (s + 128 * 0)%nat with s by lia. replace (s + 128 * 1)%nat with (s + 128)%nat by lia.
        eapply holds_ext; [exact H1|]. intros i Hi. apply Ho. unfold among in *. intros j Hj' Hi'. lia.
      * specialize (Hc j ltac:(lia)).
        replace (s + 128 * S j)%nat with (s + 128 + 128 * j)%nat by lia.
        replace (s + 128 * S (S j))%nat with (s + 128 + 128 * S j)%nat by lia. exact Hc.
    + intros i Hi. rewrite Ho.
      * apply put8_out; [lia|]. specialize (Hi 0%nat ltac:(lia)). now replace (s + 128 * 0)%nat with s in Hi by lia.
      * intros j Hj Hi'. apply (Hi (S j)); [lia|]. unfold among in *. lia.
Qed.

Section Load.
  Variables hsize o_locks o_extdbs : nat.
  Hypothesis Layout : header_layout hsize o_locks o_extdbs.

  Lemma init_locks_all m n ql st mx : lock_area hsize o_locks m n ql st mx -> (n <= length m)%nat ->
    small (Z.of_nat (length m)) ->
    exists m', init_locks o_locks m = Done 0 m' /\ length m' = length m /\ no_locks o_locks m' ql st mx /\
      forall i, ~ lock_state o_locks ql st mx i -> nth_error m' i = nth_error m i.
  Proof.
    intros [Lq Ls Lm [Lw1 Lw2] [Lc1 Lc2]] Hn Hsm. destruct Layout as (_ & La & Lb & Lc).
    unfold init_locks. rewrite (holds_get64 _ _ _ Ls), (holds_get64 _ _ _ Lm).
    destruct (Z.leb_spec (Z.of_nat mx) 0); [lia|]. rewrite Nat2Z.id.
    destruct (chain_all mx m st) as (m1 & E1 & L1 & C1 & O1); [lia|exact Hsm|]. rewrite E1.
    replace (Z.of_nat st + (Z.of_nat mx - 1) * 128) with (Z.of_nat (st + 128 * (mx - 1))) by lia.
    rewrite set64_nat by lia.
    set (m2 := put m1 (st + 128 * (mx - 1)) (bytes 8 0)).
    assert (L2 : length m2 = length m) by (unfold m2; rewrite put8_length; lia).
    assert (O2 : forall i, ~ among i (st + 128 * (mx - 1)) 8 -> nth_error m2 i = nth_error m1 i)
      by (intros i Hi; apply put8_out; [lia|exact Hi]).
    assert (F : forall i, (i < st)%nat -> nth_error m2 i = nth_error m i).
    { intros i Hi. rewrite O2 by (unfold among; lia). apply O1. unfold among. intros j Hj Hi'. lia. }
    assert (S2 : holds m2 (o_locks + 16) 8 (Z.of_nat st)).
    { eapply holds_ext; [exact Ls|]. unfold among. intros i Hi. apply F. lia. }
    rewrite (holds_get64 _ _ _ S2).
    set (m3 := put m2 (o_locks + 32) (bytes 8 (Z.of_nat st))).
    assert (L3 : length m3 = length m) by (unfold m3; rewrite put8_length; lia).
    assert (O3 : forall i, ~ among i (o_locks + 32) 8 -> nth_error m3 i = nth_error m2 i)
      by (intros i Hi; apply put8_out; [lia|exact Hi]).
    set (m4 := put m3 o_locks (bytes 8 0)).
    assert (L4 : length m4 = length m) by (unfold m4; rewrite put8_length; lia).
    assert (O4 : forall i, ~ among i o_locks 8 -> nth_error m4 i = nth_error m3 i)
      by (intros i Hi; apply put8_out; [lia|exact Hi]).
    assert (Q4 : holds m4 (o_locks + 8) 8 (Z.of_nat ql)).
    { eapply holds_ext; [exact Lq|]. unfold among. intros i Hi. rewrite O4, O3 by (unfold among; lia). apply F. lia. }
    rewrite (holds_get64 _ _ _ Q4), set64_nat by lia.
    set (m5 := put m4 ql (bytes 8 0)).
    assert (O5 : forall i, ~ among i ql 8 -> nth_error m5 i = nth_error m4 i)
      by (intros i Hi; apply put8_out; [lia|exact Hi]).
    assert (Z0 : small 0) by (unfold small; change (2 ^ 63) with 9223372036854775808; lia).
    assert (Zs : small (Z.of_nat st)) by (unfold small in *; lia).
    exists m5. split; [reflexivity|]. split; [unfold m5; rewrite put8_length; lia|]. split.
    - constructor.
      + eapply holds_ext; [exact (small_holds m3 o_locks 0 ltac:(lia) Z0)|].
        unfold among. intros i Hi. apply O5. unfold among. lia.
      + apply small_holds; [lia|exact Z0].
      + eapply holds_ext; [exact (small_holds m2 (o_locks + 32) _ ltac:(lia) Zs)|].
        unfold among. intros i Hi. rewrite O5, O4 by (unfold among; lia). reflexivity.
      + intros j Hj. eapply holds_ext; [apply (C1 j); lia|].
        unfold among. intros i Hi. rewrite O5, O4, O3, O2 by (unfold among; lia). reflexivity.
      + eapply holds_ext; [exact (small_holds m1 (st + 128 * (mx - 1)) 0 ltac:(lia) Z0)|].
        unfold among. intros i Hi. rewrite O5, O4, O3 by (unfold among; lia). reflexivity.
    - intros i Hi. unfold lock_state in Hi.
      assert (N : forall j, (j < mx)%nat -> ~ among i (st + 128 * j) 8).
      { intros j Hj Hi'. apply Hi. right. right. right. exists j. split; assumption. }
      assert (N' : ~ among i (st + 128 * (mx - 1)) 8) by (apply N; lia).
      rewrite O5, O4, O3, O2 by tauto.
      apply O1, N.
  Qed.

  Lemma import_all m n ql st mx m2 : database hsize o_locks o_extdbs m n ql st mx ->
    holds m2 16 8 (Z.of_nat (length m2)) -> (n <= length m2)%nat ->
    exists m3, import_dump hsize o_locks o_extdbs m2 (Some (whole m n)) = Done 0 m3 /\
      length m3 = length m2 /\
      (forall i, (n <= i)%nat -> nth_error m3 i = nth_error m2 i) /\
      (forall i, (i < n)%nat -> ~ among i 16 8 -> ~ lock_state o_locks ql st mx i -> nth_error m3 i = nth_error m i) /\
      holds m3 16 8 (Z.of_nat (length m2)) /\ no_locks o_locks m3 ql st mx.
  Proof.
    intros D Hs2 Hn2. pose proof (n_big _ _ _ Layout _ _ _ _ _ D) as Hn.
    pose proof (whole_length _ _ _ Layout _ _ _ _ _ D) as Lw.
    pose proof (d_fits _ _ _ _ _ _ _ _ D) as Hf.
    destruct (whole_ok _ _ _ Layout _ _ _ _ _ D) as (_ & G1 & _).
    pose proof Layout as (La1 & La2 & La3 & La4).
    assert (W : forall i, (i < n)%nat -> ~ among i 12 4 -> nth_error (whole m n) i = nth_error m i)
      by (intros i; exact (whole_nth _ _ _ Layout _ _ _ _ _ D i)).
    unfold import_dump. destruct (Nat.ltb_spec (length (whole m n)) hsize); [lia|]. cbn [negb andb].
    assert (X : get64 (whole m n) o_extdbs = 0).
    { apply holds_get64. eapply holds_ext; [exact (d_alone _ _ _ _ _ _ _ _ D)|].
      unfold among. intros i Hi. apply W; unfold among; lia. }
    rewrite X, G1. cbn [Z.eqb negb]. unfold o_size. rewrite (holds_get64 _ _ _ Hs2).
    destruct (Z.ltb_spec (Z.of_nat (length m2)) (Z.of_nat n)); [lia|].
    destruct (Z.ltb_spec 0 (Z.of_nat n)); [|lia]. rewrite Nat2Z.id.
    destruct (Nat.ltb_spec (length m2) n); [lia|]. rewrite Lw.
    destruct (Nat.ltb_spec n n); [lia|].
    rewrite (firstn_all2 (n := n) (whole m n)) by lia.
    set (b := whole m n ++ skipn n m2).
    assert (Lb : length b = length m2) by (unfold b; rewrite app_length, skipn_length; lia).
    set (b1 := put b 16 (bytes 8 (Z.of_nat (length m2)))).
    assert (Lb1 : length b1 = length m2) by (unfold b1; rewrite put8_length; lia).
    unfold o_checksum. set (b2 := put b1 12 (bytes 4 0)).
    assert (Lb2 : length b2 = length m2) by (unfold b2; rewrite put_length; rewrite ?bytes_length; lia).
    assert (B2 : forall i, (i < n)%nat -> ~ among i 16 8 -> nth_error b2 i = nth_error m i).
    { intros i Hi H16. destruct (Nat.leb_spec 12 i) as [A|A], (Nat.ltb_spec i 16) as [B|B].
      - unfold b2. rewrite nth_put by (rewrite bytes_length; lia). rewrite bytes_length.
        destruct (Nat.leb_spec 12 i); [|lia]. destruct (Nat.ltb_spec i (12 + 4)); [|lia]. cbn [andb].
        destruct (d_checksum _ _ _ _ _ _ _ _ D) as [_ Hc]. specialize (Hc (i - 12)%nat ltac:(lia)).
        replace (12 + (i - 12))%nat with i in Hc by lia. rewrite Hc. apply bytes_nth. lia.
      - unfold b2. rewrite nth_put_out by (rewrite bytes_length; unfold among; lia).
        unfold b1. rewrite put8_out by (try lia; exact H16). unfold b. rewrite nth_error_app1 by lia.
        apply W; unfold among; lia.
      - unfold b2. rewrite nth_put_out by (rewrite bytes_length; unfold among; lia).
        unfold b1. rewrite put8_out by (try lia; exact H16). unfold b. rewrite nth_error_app1 by lia.
        apply W; unfold among; lia.
      - unfold b2. rewrite nth_put_out by (rewrite bytes_length; unfold among; lia).
        unfold b1. rewrite put8_out by (try lia; exact H16). unfold b. rewrite nth_error_app1 by lia.
        apply W; unfold among; lia. }
    assert (B2' : forall i, (n <= i)%nat -> nth_error b2 i = nth_error m2 i).
    { intros i Hi. unfold b2. rewrite nth_put_out by (rewrite bytes_length; unfold among; lia).
      unfold b1. rewrite put8_out by (unfold among; lia). unfold b. rewrite nth_error_app2 by lia.
      rewrite Lw, nth_skipn. f_equal. lia. }
    assert (Sm : small (Z.of_nat (length m2))) by (destruct Hs2 as [Hs2 _]; exact Hs2).
    assert (H16 : holds b2 16 8 (Z.of_nat (length m2))).
    { eapply holds_ext; [exact (small_holds b 16 _ ltac:(lia) Sm)|].
      unfold among. intros i Hi. unfold b2. apply (nth_put_out b1); rewrite bytes_length; unfold among; lia. }
    pose proof (d_locks _ _ _ _ _ _ _ _ D) as [Kq Ks Km [Kw1 Kw2] [Kc1 Kc2]].
    assert (LA : lock_area hsize o_locks b2 n ql st mx).
    { constructor; try (split; assumption).
      - eapply holds_ext; [exact Kq|]. unfold among. intros i Hi. apply B2; unfold among; lia.
      - eapply holds_ext; [exact Ks|]. unfold among. intros i Hi. apply B2; unfold among; lia.
      - eapply holds_ext; [exact Km|]. unfold among. intros i Hi. apply B2; unfold among; lia. }
    destruct (init_locks_all b2 n ql st mx LA ltac:(lia) ltac:(now rewrite Lb2)) as (m3 & E & L3 & N3 & O3).
    assert (LS : forall i, lock_state o_locks ql st mx i -> (32 <= i < n)%nat).
    { intros i [H'|[H'|[H'|(j & Hj & H')]]]; unfold among in H'; nia. }
    exists m3. split; [exact E|]. split; [lia|]. split; [|split; [|split; [|exact N3]]].
    - intros i Hi. rewrite O3; [apply B2', Hi|]. intros H'. apply LS in H'. lia.
    - intros i Hi H16' H2'. rewrite O3 by exact H2'. apply B2; assumption.
    - eapply holds_ext; [exact H16|]. unfold among. intros i Hi. apply O3. intros H'. apply LS in H'. lia.
  Qed.
End Load.
