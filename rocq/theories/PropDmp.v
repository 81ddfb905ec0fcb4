(** C55: database files.  What wg_dump writes is accepted by wg_check_dump and gives the same database
    when loaded; a file cut short or damaged within four bytes is refused. *)
From Coq Require Import Bool Arith ZArith Lia List.
From Verif Require Import DmpModel DmpSpec DmpCrc DmpBase DmpProof.
Import ListNotations.
Open Scope Z_scope.

(** The system does all it is asked to do. *)
Definition all_well (w : world) (n : nat) : Prop :=
  opened w = true /\ locked w = true /\ written w = true /\ sum_written w = true /\ unlocked w = true /\
  (n + 4 <= reached w)%nat.
(** The file is accepted: the segment needs [a] bytes, and the one written had [b]. *)
Definition accepted (f : list Z) (a b : nat) : Prop :=
  check_dump (Some f) = Some (0, Z.of_nat a, Z.of_nat b).
(** The file is refused, with an error. *)
Definition refused (f : list Z) : Prop := exists e a b, e < 0 /\ check_dump (Some f) = Some (e, a, b).

(** Written, checked and loaded into any segment with room for it, a database is the same again byte by
    byte: only the size of the segment and the state of the locks, all of which are free, are new.  The
    rest of the segment is left alone. *)
Theorem C55_dump_and_load_partial hsize o_locks o_extdbs m n ql st mx w old :
  header_layout hsize o_locks o_extdbs -> database hsize o_locks o_extdbs m n ql st mx -> all_well w n ->
  exists f,
    dump w old m m m = (0, Some f) /\ length f = n /\ accepted f n (length m) /\
    forall m2, holds m2 16 8 (Z.of_nat (length m2)) -> (n <= length m2)%nat ->
      exists m3,
        import_dump hsize o_locks o_extdbs m2 (Some f) = Done 0 m3 /\ length m3 = length m2 /\
        (forall i, (n <= i)%nat -> nth_error m3 i = nth_error m2 i) /\
        (forall i, (i < n)%nat -> ~ among i 16 8 -> ~ lock_state o_locks ql st mx i ->
          nth_error m3 i = nth_error m i) /\
        holds m3 16 8 (Z.of_nat (length m2)) /\ no_locks o_locks m3 ql st mx.
Proof.
  intros L D (W1 & W2 & W3 & W4 & W5 & W6). exists (whole m n).
  split.
  { unfold dump. rewrite W1, W2, W3, W4, W5. cbn [negb andb].
    rewrite (after_all _ _ _ L _ _ _ _ _ D) by exact W6. reflexivity. }
  split; [exact (whole_length _ _ _ L _ _ _ _ _ D)|].
  split.
  { destruct (whole_ok _ _ _ L _ _ _ _ _ D) as (H1 & H2 & H3). unfold accepted.
    destruct (check_cases (whole m n)) as [[_ H]|[H _]]; [|contradiction]. now rewrite H, H2, H3. }
  intros m2 Hs Hn. exact (import_all _ _ _ L m n ql st mx m2 D Hs Hn).
Qed.

(** Whenever writing stops, the file left behind is refused unless it is the complete one. *)
Theorem C55_stopped_writing hsize o_locks o_extdbs m n ql st mx k :
  header_layout hsize o_locks o_extdbs -> database hsize o_locks o_extdbs m n ql st mx ->
  refused (file_after k m m m) \/ file_after k m m m = file_after (n + 4) m m m.
Proof.
  intros L D. destruct (check_cases (file_after k m m m)) as [[H _]|[_ H]]; [right|left; exact H].
  rewrite (after_all _ _ _ L _ _ _ _ _ D (n + 4)) by lia. exact (after_some _ _ _ L _ _ _ _ _ D k H).
Qed.

(** A file that was accepted is refused once it is cut short or made longer, once its checksum is
    changed, and once any of four neighbouring bytes other than the checksum are. *)
Theorem C55_damage f a b : Forall byte f -> accepted f a b ->
  (forall k, (k < length f)%nat -> refused (firstn k f)) /\
  (forall x, x <> [] -> refused (f ++ x)) /\
  (forall f', Forall byte f' -> differ_within f f' 12 4 -> f <> f' -> refused f') /\
  (forall f' p, Forall byte f' -> differ_within f f' p 4 ->
    (forall i, among i 12 4 -> nth_error f i = nth_error f' i) -> f <> f' -> refused f').
Proof.
  intros Hb Ha. apply accept_ok in Ha. split; [|split; [|split]].
  - intros k Hk. apply not_ok_refuses, truncated; assumption.
  - intros x Hx. apply not_ok_refuses, extended; assumption.
  - intros f' Hb' Hd Hne. apply not_ok_refuses. intros Hok. apply Hne. exact (checksum_same f f' Hb Hb' Ha Hok Hd).
  - intros f' p Hb' Hd Hc Hne. apply not_ok_refuses. exact (window_refused f f' p Hb Hb' Ha Hd Hc Hne).
Qed.

(** An accepted file has the mark, version and features of this program, and the length it needs. *)
Theorem C55_accepted_header f a b : Forall byte f -> accepted f a b ->
  holds f 0 4 1232319011 /\ holds f 4 4 131073 /\ holds f 8 4 47 /\ length f = a.
Proof.
  intros Hb Ha. pose proof (accept_ok _ _ _ Ha) as Hok. pose proof bufsize_Z.
  destruct (check_cases f) as [[_ E]|[N _]]; [|contradiction]. destruct Hok as (H1 & H2 & H3 & _).
  unfold compatible in H2. apply andb_prop in H2 as [H2 H2c]. apply andb_prop in H2 as [H2a H2b].
  apply Z.eqb_eq in H2a, H2b, H2c.
  split; [|split; [|split]].
  - apply get32_holds; [exact Hb|lia| |exact H2a]. unfold magic. cbn. lia.
  - apply get32_holds; [exact Hb|lia| |exact H2b]. unfold version. cbn. lia.
  - apply get32_holds; [exact Hb|lia| |exact H2c]. unfold features. cbn. lia.
  - unfold accepted in Ha. rewrite E in Ha. injection Ha as Ha _. lia.
Qed.

(** What wg_dump reports: success only if the file was opened, the lock got and given back and both
    writes said to have worked; a lock not given back as a fatal error; a file that was not opened is
    as before. *)
Theorem C55_reported w old m0 m1 m2 e file : dump w old m0 m1 m2 = (e, file) ->
  (e = 0 <-> opened w = true /\ locked w = true /\ written w = true /\ sum_written w = true /\ unlocked w = true) /\
  (e = -2 <-> opened w = true /\ locked w = true /\ unlocked w = false) /\
  (e = 0 \/ e = -1 \/ e = -2) /\ (opened w = false -> file = old).
Proof.
  unfold dump. destruct (opened w), (locked w), (written w), (sum_written w), (unlocked w); cbn [negb andb];
    intros E; injection E as <- <-; intuition (try discriminate; try reflexivity; try lia).
Qed.

(** Loading that fails with -1 leaves the segment as it was; -2 comes only from a file that is shorter
    than it says. *)
Theorem C55_failed_load hsize o_locks o_extdbs m file e m' :
  import_dump hsize o_locks o_extdbs m file = Done e m' ->
  e = 0 \/ (e = -1 /\ m' = m) \/
  (e = -2 /\ exists f z, file = Some f /\ z = get64 f 24 /\ Z.of_nat (length f) < z).
Proof.
  unfold import_dump. destruct file as [f|]; [|intros [= <- <-]; auto].
  destruct (Nat.ltb (length f) hsize) eqn:Sh; cbn [negb andb].
  - destruct (get64 m o_size <? -1); cbn; intros [= <- <-]; auto.
  - destruct (get64 f o_extdbs =? 0); cbn [negb]; [|intros [= <- <-]; auto].
    destruct (get64 m o_size <? get64 f o_free); [intros [= <- <-]; auto|].
    destruct (Z.ltb_spec 0 (get64 f o_free)); [|intros [= <- <-]; auto].
    destruct (Nat.ltb (length m) (Z.to_nat (get64 f o_free))); [discriminate|].
    destruct (Nat.ltb_spec (length f) (Z.to_nat (get64 f o_free))).
    + intros [= <- <-]. right. right. split; [reflexivity|]. exists f, (get64 f 24). unfold o_free in *.
      split; [reflexivity|]. split; [reflexivity|lia].
    + unfold init_locks. intros H1.
      repeat match type of H1 with
      | (if ?b then _ else _) = _ => destruct b; try discriminate
      | match ?x with Some _ => _ | None => _ end = _ => destruct x; try discriminate
      end.
      injection H1 as <- _. now left.
Qed.

Lemma not_accepted f e x y : check_dump (Some f) = Some (e, x, y) -> e <> 0 -> ~ exists a b, accepted f a b.
Proof. intros H He (a & b & Ha). unfold accepted in Ha. rewrite H in Ha. injection Ha as Ha _ _. contradiction. Qed.
Lemma not_refused f a b : accepted f a b -> ~ refused f.
Proof. intros Ha (e & x & y & He & H). unfold accepted in Ha. rewrite H in Ha. injection Ha as Ha _ _. lia. Qed.
Lemma differ_nth (f f' : list Z) i x y : nth_error f i = Some x -> nth_error f' i = Some y -> x <> y -> f <> f'.
Proof. intros H H' Hne E. subst f'. rewrite H in H'. injection H' as H'. contradiction. Qed.
Lemma dump_ok w old m0 m1 m2 : opened w = true -> locked w = true -> written w = true -> sum_written w = true ->
  unlocked w = true -> dump w old m0 m1 m2 = (0, Some (file_after (reached w) m0 m1 m2)).
Proof. intros W1 W2 W3 W4 W5. unfold dump. rewrite W1, W2, W3, W4, W5. reflexivity. Qed.
Lemma dump_unlocked w old m0 m1 m2 : opened w = true -> locked w = false -> dump w old m0 m1 m2 = (-1, Some []).
Proof. intros W1 W2. unfold dump. rewrite W1, W2. reflexivity. Qed.

(** * An example, and what is not true *)
Definition at_ := Z.to_nat.
Definition exh := at_ 8192.
Definition set_ (m : list Z) (o : Z) (k : nat) (v : Z) := put m (at_ o) (bytes k v).
Definition ex_base (size free : Z) : list Z :=
  set_ (set_ (set_ (set_ (set_ (set_ (set_ (set_ (set_ (repeat 0 (at_ size))
    0 4 1232319011) 4 4 131073) 8 4 47) 16 8 size) 24 8 free)
    108 8 8192) 116 8 8320) 124 8 2) 8580 8 123456789.
Definition exm := ex_base 8700 8600.
Definition holdsb (t : list Z) (o k : nat) (z : Z) : bool :=
  (- 2 ^ (8 * Z.of_nat k - 1) <=? z) && (z <? 2 ^ (8 * Z.of_nat k - 1)) &&
  forallb (fun j => match nth_error t (o + j) with Some b => b =? (z / 256 ^ Z.of_nat j) mod 256 | None => false end) (seq 0 k).
Lemma holdsb_holds t o k z : holdsb t o k z = true -> holds t o k z.
Proof.
  unfold holdsb. rewrite !andb_true_iff, Z.leb_le, Z.ltb_lt, forallb_forall. intros [H1 H2]. split; [exact H1|].
  intros j Hj. specialize (H2 j). rewrite in_seq in H2. specialize (H2 ltac:(lia)).
  destruct (nth_error t (o + j)); [|discriminate]. apply Z.eqb_eq in H2. now rewrite H2.
Qed.
Lemma bytesb_bytes t : forallb (fun b => (0 <=? b) && (b <? 256)) t = true -> Forall byte t.
Proof.
  rewrite forallb_forall, Forall_forall. intros H x Hx. specialize (H x Hx).
  rewrite andb_true_iff, Z.leb_le, Z.ltb_lt in H. exact H.
Qed.
Lemma ex_layout : header_layout exh (at_ 100) (at_ 140).
Proof. unfold header_layout, exh, at_. lia. Qed.
Lemma ex_length : Z.of_nat (length exm) = 8700.
Proof. vm_compute. reflexivity. Qed.
Lemma ex_database : database exh (at_ 100) (at_ 140) exm (at_ 8600) (at_ 8192) (at_ 8320) 2.
Proof.
  pose proof ex_length as Hl. constructor.
  - apply bytesb_bytes. vm_compute. reflexivity.
  - apply holdsb_holds. vm_compute. reflexivity.
  - apply holdsb_holds. vm_compute. reflexivity.
  - apply holdsb_holds. vm_compute. reflexivity.
  - apply holdsb_holds. vm_compute. reflexivity.
  - apply holdsb_holds. vm_compute. reflexivity.
  - apply holdsb_holds. vm_compute. reflexivity.
  - unfold exh, at_. lia.
  - apply holdsb_holds. vm_compute. reflexivity.
  - constructor.
    + apply holdsb_holds. vm_compute. reflexivity.
    + apply holdsb_holds. vm_compute. reflexivity.
    + apply holdsb_holds. vm_compute. reflexivity.
    + unfold exh, at_. lia.
    + unfold at_. lia.
Qed.
Lemma ex_value : holds exm (at_ 8580) 8 123456789.
Proof. apply holdsb_holds. vm_compute. reflexivity. Qed.
Lemma ex_tail : holds exm (at_ 100) 8 0.
Proof. apply holdsb_holds. vm_compute. reflexivity. Qed.
Definition fine : world := {| opened := true; locked := true; written := true; sum_written := true; reached := at_ 9000; unlocked := true |}.
Lemma fine_well : all_well fine (at_ 8600).
Proof. unfold all_well, fine, at_. cbn [opened locked written sum_written reached unlocked]. repeat split; lia. Qed.
Lemma ex_used : used exm = at_ 8600.
Proof. exact (used_n _ _ _ _ _ _ _ _ ex_database). Qed.
Definition exf : list Z := whole exm (at_ 8600).
Lemma ex_file_bytes : Forall byte exf.
Proof. exact (whole_bytes _ _ _ ex_layout _ _ _ _ _ ex_database). Qed.
Lemma ex_file_length : length exf = at_ 8600.
Proof. exact (whole_length _ _ _ ex_layout _ _ _ _ _ ex_database). Qed.
Lemma ex_file_nth i : (i < at_ 8600)%nat -> ~ among i 12 4 -> nth_error exf i = nth_error exm i.
Proof. exact (whole_nth _ _ _ ex_layout _ _ _ _ _ ex_database i). Qed.
Lemma ex_lengths : length exm = at_ 8700.
Proof. pose proof ex_length. unfold at_. lia. Qed.
Local Opaque exm.
Lemma same_file (a b : list Z) (x : Z) : (x, Some a) = (x, Some b) -> b = a.
Proof. intros H. injection H as ->. reflexivity. Qed.
Example C55_ex_roundtrip : exists f, dump fine None exm exm exm = (0, Some f) /\ accepted f (at_ 8600) (at_ 8700) /\ f = exf.
Proof.
  destruct (C55_dump_and_load_partial _ _ _ _ _ _ _ _ fine None ex_layout ex_database fine_well) as (f & E & _ & A & _).
  exists f. split; [exact E|]. split; [rewrite <- ex_lengths; exact A|].
  rewrite (dump_ok fine None exm exm exm eq_refl eq_refl eq_refl eq_refl eq_refl) in E. apply same_file in E. subst f.
  apply (after_all _ _ _ ex_layout _ _ _ _ _ ex_database). unfold fine, at_. cbn [reached]. lia.
Qed.
Example C55_ex_accepted : accepted exf (at_ 8600) (length exm) /\ length exf = at_ 8600.
Proof. destruct C55_ex_roundtrip as (f & _ & A & ->). split; [rewrite ex_lengths; exact A|exact ex_file_length]. Qed.
(** A file that is not as long as it says is refused. *)
Lemma wrong_length f : get64 f o_free <> Z.of_nat (length f) -> ~ ok f.
Proof. intros H (_ & _ & E & _). apply H. symmetry. exact E. Qed.
Lemma says f : (forall i, (i < 40)%nat -> ~ among i 12 4 -> nth_error f i = nth_error exm i) -> get64 f o_free = 8600.
Proof.
  intros H. destruct (same_header _ _ _ _ _ _ _ _ ex_database f H) as (_ & E & _). rewrite E. unfold at_. lia.
Qed.
Lemma start_says k : (40 <= k)%nat -> get64 (firstn k exm) o_free = 8600.
Proof.
  intros Hk. apply says. intros i Hi _. rewrite nth_firstn. destruct (Nat.ltb_spec i k); [reflexivity|lia].
Qed.
Lemma part_of k : (40 <= k)%nat -> (k < at_ 8600)%nat -> ~ ok (file_after k exm exm exm).
Proof.
  intros H1 H2. pose proof ex_used as U. pose proof ex_lengths as L. unfold at_ in *.
  rewrite file_after_eq by lia. destruct (Nat.leb_spec k (used exm)); [|lia].
  rewrite firstn_firstn. replace (Nat.min k (used exm)) with k by lia.
  apply wrong_length. rewrite start_says by exact H1. rewrite firstn_length. lia.
Qed.
Example C55_ex_stopped : refused (file_after (at_ 8192) exm exm exm).
Proof. apply not_ok_refuses, part_of; unfold at_; lia. Qed.
Definition exm2 : list Z := set_ (repeat 9 (at_ 9100)) 16 8 9100.
Lemma exm2_length : length exm2 = at_ 9100.
Proof. unfold exm2, set_. rewrite put_length; rewrite repeat_length; [reflexivity|]. rewrite bytes_length. unfold at_. lia. Qed.
Example C55_ex_load : exists m3, import_dump exh (at_ 100) (at_ 140) exm2 (Some exf) = Done 0 m3 /\
  get64 m3 16 = 9100 /\ get64 m3 (at_ 8580) = 123456789 /\ get64 m3 (at_ 8320) = 8448 /\ nth_error m3 (at_ 9000) = Some 9.
Proof.
  destruct (C55_dump_and_load_partial _ _ _ _ _ _ _ _ fine None ex_layout ex_database fine_well) as (f & E & _ & _ & H).
  destruct C55_ex_roundtrip as (f' & E' & _ & F). rewrite E in E'. apply same_file in E'. rewrite E' in F. clear E' f'. subst f.
  pose proof exm2_length as L2.
  assert (H2 : holds exm2 16 8 (Z.of_nat (length exm2))).
  { rewrite L2. unfold exm2, set_. change (Z.of_nat (at_ 9100)) with 9100. apply holds_put; [rewrite repeat_length; unfold at_; lia|cbn; lia]. }
  destruct (H exm2 H2 ltac:(rewrite L2; unfold at_; lia)) as (m3 & A & _ & B & C & D1 & N).
  exists m3. split; [exact A|]. split; [rewrite (holds_get64 _ _ _ D1), L2; reflexivity|]. split; [|split].
  - assert (X : holds exm (at_ 8580) 8 123456789) by exact ex_value. apply holds_get64. eapply holds_ext; [exact X|].
    intros i Hi. unfold among, at_ in *. apply C; [lia|unfold among; lia|]. unfold lock_state, among. intros [Y|[Y|[Y|(j & Y1 & Y2)]]]; lia.
  - pose proof (n_chain _ _ _ _ _ N 0 ltac:(lia)) as X. rewrite Nat.mul_0_r, Nat.add_0_r in X.
    rewrite (holds_get64 _ _ _ X). unfold at_. lia.
  - rewrite B by (unfold at_; lia). unfold exm2, set_. rewrite nth_put_out.
    + apply nth_error_repeat. unfold at_. lia.
    + rewrite bytes_length, repeat_length. unfold at_. lia.
    + rewrite bytes_length. unfold among, at_. lia.
Qed.
Example C55_ex_failed_load :
  import_dump exh (at_ 100) (at_ 140) (set_ (repeat 9 (at_ 8500)) 16 8 8500) (Some exf)
  = Done (-1) (set_ (repeat 9 (at_ 8500)) 16 8 8500).
Proof.
  set (m := set_ (repeat 9 (at_ 8500)) 16 8 8500).
  assert (S : get64 m o_size = 8500).
  { apply holds_get64. apply holds_put; [rewrite repeat_length; unfold o_size, at_; lia|cbn; lia]. }
  assert (F : get64 exf o_free = 8600).
  { apply says. intros i Hi Hn. apply ex_file_nth; [unfold at_; lia|exact Hn]. }
  unfold import_dump. rewrite S, F. destruct (Nat.ltb_spec (length exf) exh) as [X|X].
  - rewrite ex_file_length in X. unfold exh, at_ in X. lia.
  - cbn [negb andb]. destruct (get64 exf (at_ 140) =? 0); reflexivity.
Qed.

(** Not every damage is found: a change of five neighbouring bytes, far from the header, can be
    accepted. *)
Definition was : list Z := [21; 205; 91; 7; 0].
Definition hit : list Z := [20; 91; 107; 0; 119].
Definition exf' : list Z := put exf (at_ 8580) hit.
Lemma hit_fits : (at_ 8580 + length hit <= length exf)%nat.
Proof. rewrite ex_file_length. unfold at_. cbn [hit length]. lia. Qed.
Lemma exf'_length : length exf' = at_ 8600.
Proof. unfold exf'. rewrite put_length by exact hit_fits. exact ex_file_length. Qed.
Lemma hit_bytes : Forall byte hit.
Proof. apply bytesb_bytes. reflexivity. Qed.
Lemma exf'_bytes : Forall byte exf'.
Proof. apply put_byte; [exact hit_fits|exact ex_file_bytes|exact hit_bytes]. Qed.
Lemma exf'_nth i : ~ among i (at_ 8580) 5 -> nth_error exf' i = nth_error exf i.
Proof. intros H. apply nth_put_out; [exact hit_fits|exact H]. Qed.
Lemma exf_was j : (j < 5)%nat -> nth_error exf (at_ 8580 + j) = nth_error was j.
Proof.
  intros Hj. destruct ex_value as [_ X]. rewrite ex_file_nth by (unfold among, at_; lia). rewrite X by lia.
  destruct j as [|[|[|[|[|j]]]]]; try reflexivity. lia.
Qed.
Lemma crc_same : update_crc32 (put exf' 12 (bytes 4 0)) 0 = update_crc32 (put exf 12 (bytes 4 0)) 0.
Proof.
  set (z := put exf 12 (bytes 4 0)).
  assert (Lz : length z = at_ 8600).
  { unfold z. rewrite put_length; [exact ex_file_length|]. rewrite bytes_length, ex_file_length. unfold at_. lia. }
  assert (Bz : Forall byte z).
  { apply put_byte; [rewrite bytes_length, ex_file_length; unfold at_; lia|exact ex_file_bytes|apply bytes_byte]. }
  assert (Fz : (at_ 8580 + length hit <= length z)%nat) by (rewrite Lz; unfold at_; cbn [hit length]; lia).
  assert (E' : put exf' 12 (bytes 4 0) = put z (at_ 8580) hit).
  { apply ext_nth. intros i.
    rewrite (nth_put z) by exact Fz. rewrite (nth_put exf') by (rewrite bytes_length, exf'_length; unfold at_; lia).
    unfold z, exf'. rewrite (nth_put exf 12) by (rewrite bytes_length, ex_file_length; unfold at_; lia).
    rewrite (nth_put exf (at_ 8580)) by exact hit_fits. rewrite bytes_length. change (length hit) with 5%nat.
    destruct (Nat.leb_spec 12 i) as [A|A]; cbn [andb].
    - destruct (Nat.ltb_spec i (12 + 4)) as [B|B]; [|reflexivity].
      destruct (Nat.leb_spec (at_ 8580) i) as [C|C]; [unfold at_ in C; lia|reflexivity].
    - destruct (Nat.leb_spec (at_ 8580) i) as [C|C]; [unfold at_ in C; lia|reflexivity]. }
  assert (E : z = firstn (at_ 8580) z ++ was ++ skipn (at_ 8580 + length hit) z).
  { apply ext_nth. intros i. rewrite nth_app. rewrite firstn_length, Lz, nth_firstn.
    replace (Nat.min (at_ 8580) (at_ 8600)) with (at_ 8580) by (unfold at_; lia).
    destruct (Nat.ltb_spec i (at_ 8580)) as [A|A]; [reflexivity|].
    rewrite nth_app, nth_skipn. change (length was) with 5%nat. change (length hit) with 5%nat.
    destruct (Nat.ltb_spec (i - at_ 8580) 5) as [B|B].
    - unfold z. rewrite zeroed_nth; [|rewrite ex_file_length; unfold at_; lia|unfold among, at_ in *; lia].
      rewrite <- (exf_was (i - at_ 8580) B). f_equal. lia.
    - f_equal. lia. }
  rewrite E'. unfold put. symmetry. rewrite E at 1. apply pattern_same.
  - reflexivity.
  - rewrite <- E. exact Bz.
  - change (Forall byte (put z (at_ 8580) hit)). apply put_byte; [exact Fz|exact Bz|exact hit_bytes].
  - vm_compute. reflexivity.
Qed.
Lemma exf'_accepted : accepted exf' (at_ 8600) (at_ 8700).
Proof.
  assert (N : forall i, (i < 40)%nat -> nth_error exf' i = nth_error exf i).
  { intros i Hi. apply exf'_nth. unfold among, at_. lia. }
  assert (H : forall i, (i < 40)%nat -> ~ among i 12 4 -> nth_error exf' i = nth_error exm i).
  { intros i Hi Hn. rewrite N by exact Hi. apply ex_file_nth; [unfold at_; lia|exact Hn]. }
  destruct (same_header _ _ _ _ _ _ _ _ ex_database exf' H) as (H1 & H2 & H3).
  assert (K : ok exf').
  { split; [rewrite exf'_length; unfold bufsize, at_; lia|]. split; [exact H1|]. split; [rewrite exf'_length, H2; reflexivity|].
    unfold o_checksum. rewrite crc_same. destruct (accept_ok _ _ _ (proj1 C55_ex_accepted)) as (_ & _ & _ & X).
    unfold o_checksum in X. rewrite X. symmetry. apply get32_ext. intros i Hi. apply N. unfold among in Hi. lia. }
  unfold accepted. destruct (check_cases exf') as [[_ E]|[X _]]; [|contradiction]. rewrite E, H2, H3, ex_lengths. reflexivity.
Qed.
Lemma exf_8580 : nth_error exf (at_ 8580) = Some 21.
Proof. pose proof (exf_was 0 ltac:(lia)) as H. rewrite Nat.add_0_r in H. exact H. Qed.
Lemma exf'_8580 : nth_error exf' (at_ 8580) = Some 20.
Proof.
  unfold exf'. rewrite nth_put by exact hit_fits. rewrite Nat.leb_refl, Nat.sub_diag.
  destruct (Nat.ltb_spec (at_ 8580) (at_ 8580 + length hit)) as [A|A]; [reflexivity|]. cbn [hit length] in A. lia.
Qed.
Lemma exf'_within : differ_within exf exf' (at_ 8580) 5.
Proof.
  split; [rewrite exf'_length; exact ex_file_length|]. intros i Hi. symmetry. apply exf'_nth, Hi.
Qed.
Theorem C55_five_bytes_refuted :
  ~ (forall f f' a b p, Forall byte f -> Forall byte f' -> accepted f a b -> differ_within f f' p 5 ->
      (32 <= p)%nat -> f <> f' -> refused f').
Proof.
  intros H. apply (not_refused exf' _ _ exf'_accepted).
  apply (H exf exf' (at_ 8600) (length exm) (at_ 8580) ex_file_bytes exf'_bytes (proj1 C55_ex_accepted) exf'_within).
  - unfold at_. lia.
  - apply (differ_nth _ _ _ _ _ exf_8580 exf'_8580). lia.
Qed.

Lemma not_ok_accepted f : ~ ok f -> ~ exists a b, accepted f a b.
Proof. intros H (a & b & A). apply H. exact (accept_ok _ _ _ A). Qed.
(** That wg_dump returned 0 does not mean that there is a usable file.  First, the results of the last
    flush and of closing the file are not looked at: bytes still in the buffer may be lost. *)
Definition lossy : world := {| opened := true; locked := true; written := true; sum_written := true; reached := at_ 8192; unlocked := true |}.
Theorem C55_success_refuted :
  ~ (forall hsize o_locks o_extdbs m n ql st mx w old f,
      header_layout hsize o_locks o_extdbs -> database hsize o_locks o_extdbs m n ql st mx ->
      dump w old m m m = (0, Some f) -> exists a b, accepted f a b).
Proof.
  intros H. apply (not_ok_accepted (file_after (reached lossy) exm exm exm)).
  - apply part_of; unfold lossy, at_; cbn [reached]; lia.
  - exact (H _ _ _ _ _ _ _ _ lossy None _ ex_layout ex_database
      (dump_ok lossy None exm exm exm eq_refl eq_refl eq_refl eq_refl eq_refl)).
Qed.
(** Second, the size is read before the lock is taken: if another process has the lock for writing and
    the database grows, the file written is too short by its own account. *)
Definition exm0 := ex_base 8700 8590.
Lemma ex_database0 : database exh (at_ 100) (at_ 140) exm0 (at_ 8590) (at_ 8192) (at_ 8320) 2.
Proof.
  assert (Hl : Z.of_nat (length exm0) = 8700) by (vm_compute; reflexivity).
  constructor.
  - apply bytesb_bytes. vm_compute. reflexivity.
  - apply holdsb_holds. vm_compute. reflexivity.
  - apply holdsb_holds. vm_compute. reflexivity.
  - apply holdsb_holds. vm_compute. reflexivity.
  - apply holdsb_holds. vm_compute. reflexivity.
  - apply holdsb_holds. vm_compute. reflexivity.
  - apply holdsb_holds. vm_compute. reflexivity.
  - unfold exh, at_. lia.
  - apply holdsb_holds. vm_compute. reflexivity.
  - constructor.
    + apply holdsb_holds. vm_compute. reflexivity.
    + apply holdsb_holds. vm_compute. reflexivity.
    + apply holdsb_holds. vm_compute. reflexivity.
    + unfold exh, at_. lia.
    + unfold at_. lia.
Qed.
Lemma growing_check : ~ ok (file_after (reached fine) exm0 exm exm).
Proof.
  assert (U : used exm0 = at_ 8590) by exact (used_n _ _ _ _ _ _ _ _ ex_database0). pose proof ex_lengths as L.
  rewrite file_after_eq by (rewrite U; unfold at_ in *; lia). rewrite U.
  destruct (Nat.leb_spec (reached fine) (at_ 8590)) as [X|X]; [unfold fine, at_ in X; cbn [reached] in X; lia|].
  set (s := firstn _ (bytes 4 _)).
  assert (Ls : (length s <= 4)%nat) by (unfold s; rewrite firstn_length, bytes_length; lia).
  assert (Lf : length (firstn (at_ 8590) exm) = at_ 8590) by (rewrite firstn_length; unfold at_ in *; lia).
  apply wrong_length. unfold o_checksum. rewrite put_length by (rewrite Lf; unfold at_; lia). rewrite Lf.
  rewrite says; [unfold at_; lia|]. intros i Hi Hn. rewrite nth_put_out.
  - rewrite nth_firstn. destruct (Nat.ltb_spec i (at_ 8590)); [reflexivity|unfold at_ in *; lia].
  - rewrite Lf. unfold at_. lia.
  - unfold among in *. lia.
Qed.
Theorem C55_growing_refuted :
  ~ (forall hsize o_locks o_extdbs m0 m1 n0 n1 ql st mx w old f,
      header_layout hsize o_locks o_extdbs ->
      database hsize o_locks o_extdbs m0 n0 ql st mx -> database hsize o_locks o_extdbs m1 n1 ql st mx ->
      all_well w n1 -> dump w old m0 m1 m1 = (0, Some f) -> exists a b, accepted f a b).
Proof.
  intros H. apply (not_ok_accepted _ growing_check).
  exact (H _ _ _ _ _ _ _ _ _ _ fine None _ ex_layout ex_database0 ex_database fine_well
    (dump_ok fine None exm0 exm exm eq_refl eq_refl eq_refl eq_refl eq_refl)).
Qed.
(** Third, another process that asks for a lock while the file is being written changes the lock area,
    which is part of what is written, after the checksum was computed. *)
Definition exm' := set_ exm 100 8 8448.
Lemma exm'_fits : (at_ 100 + length (bytes 8 8448) <= length exm)%nat.
Proof. rewrite bytes_length, ex_lengths. unfold at_. lia. Qed.
Lemma exm'_length : length exm' = at_ 8700.
Proof. unfold exm', set_. rewrite put_length by exact exm'_fits. exact ex_lengths. Qed.
Lemma exm'_nth i : ~ among i (at_ 100) 4 -> nth_error exm' i = nth_error exm i.
Proof.
  intros Hi. unfold exm', set_. rewrite nth_put by exact exm'_fits. rewrite bytes_length.
  destruct (Nat.leb_spec (at_ 100) i) as [A|A]; [|reflexivity].
  destruct (Nat.ltb_spec i (at_ 100 + 8)) as [B|B]; [|reflexivity]. cbn [andb].
  destruct ex_tail as [_ X]. specialize (X (i - at_ 100)%nat ltac:(lia)).
  replace (at_ 100 + (i - at_ 100))%nat with i in X by lia. rewrite X, bytes_nth by lia. f_equal.
  unfold among in Hi. remember (i - at_ 100)%nat as j. assert (J : (4 <= j < 8)%nat) by (unfold at_ in *; lia).
  destruct j as [|[|[|[|[|[|[|[|j]]]]]]]]; try reflexivity; lia.
Qed.
Lemma request_check : ~ ok (file_after (reached fine) exm exm exm').
Proof.
  pose proof ex_used as U. pose proof exm'_length as L.
  rewrite file_after_eq by (rewrite U, ?L; unfold at_; lia). rewrite U.
  destruct (Nat.leb_spec (reached fine) (at_ 8600)) as [X|X]; [unfold fine, at_ in X; cbn [reached] in X; lia|].
  set (s := update_crc32 _ 0). rewrite (firstn_all2 (bytes 4 s)) by (rewrite bytes_length; unfold fine, at_; cbn [reached]; lia).
  assert (Ef : exf = put (firstn (at_ 8600) exm) 12 (bytes 4 s)) by reflexivity.
  set (f' := put (firstn (at_ 8600) exm') o_checksum (bytes 4 s)).
  assert (Lf : length (firstn (at_ 8600) exm') = at_ 8600) by (rewrite firstn_length, L; unfold at_; lia).
  assert (Lf0 : length (firstn (at_ 8600) exm) = at_ 8600) by (rewrite firstn_length, ex_lengths; unfold at_; lia).
  assert (Fit : (12 + length (bytes 4 s) <= at_ 8600)%nat) by (rewrite bytes_length; unfold at_; lia).
  assert (Bm : Forall byte exm').
  { apply put_byte; [exact exm'_fits|exact (d_bytes _ _ _ _ _ _ _ _ ex_database)|apply bytes_byte]. }
  assert (N : forall i, ~ among i (at_ 100) 4 -> nth_error f' i = nth_error exf i).
  { intros i Hi. unfold f', o_checksum. rewrite Ef, !nth_put by (rewrite ?Lf, ?Lf0; exact Fit).
    destruct (Nat.leb 12 i && Nat.ltb i (12 + length (bytes 4 s))); [reflexivity|].
    rewrite !nth_firstn. destruct (Nat.ltb i (at_ 8600)); [apply exm'_nth, Hi|reflexivity]. }
  apply (window_refused exf f' (at_ 100)).
  - exact ex_file_bytes.
  - apply put_byte; [rewrite Lf; exact Fit|apply (Forall_sub 0 (at_ 8600) exm'), Bm|apply bytes_byte].
  - exact (accept_ok _ _ _ (proj1 C55_ex_accepted)).
  - split; [rewrite ex_file_length; unfold f', o_checksum; rewrite put_length by (rewrite Lf; exact Fit); symmetry; exact Lf|].
    intros i Hi. symmetry. apply N, Hi.
  - intros i Hi. symmetry. apply N. unfold among, at_ in *. lia.
  - apply (differ_nth exf f' (at_ 101) 0 33).
    + rewrite ex_file_nth by (unfold among, at_; lia). destruct ex_tail as [_ Y]. specialize (Y 1%nat ltac:(lia)). exact Y.
    + unfold f', o_checksum. rewrite nth_put_out; [|rewrite Lf; exact Fit|rewrite bytes_length; unfold among, at_; lia].
      rewrite nth_firstn. destruct (Nat.ltb_spec (at_ 101) (at_ 8600)) as [A|A]; [|unfold at_ in A; lia].
      unfold exm', set_. rewrite nth_put by exact exm'_fits. rewrite bytes_length. reflexivity.
    + lia.
Qed.
Theorem C55_lock_request_refuted :
  ~ (forall hsize o_locks o_extdbs m1 m2 n ql st mx w old f,
      header_layout hsize o_locks o_extdbs -> database hsize o_locks o_extdbs m1 n ql st mx ->
      length m2 = length m1 -> (forall i, ~ lock_state o_locks ql st mx i -> nth_error m2 i = nth_error m1 i) ->
      all_well w n -> dump w old m1 m1 m2 = (0, Some f) -> exists a b, accepted f a b).
Proof.
  intros H. apply (not_ok_accepted _ request_check).
  refine (H _ _ _ exm exm' _ _ _ _ fine None _ ex_layout ex_database _ _ fine_well
    (dump_ok fine None exm exm exm' eq_refl eq_refl eq_refl eq_refl eq_refl)).
  - rewrite exm'_length, ex_lengths. reflexivity.
  - intros i Hi. unfold exm', set_. apply nth_put_out; [exact exm'_fits|]. rewrite bytes_length. intros Hi'. apply Hi. left. exact Hi'.
Qed.
(** When the lock cannot be got, nothing is written, but the old file is gone. *)
Definition busy : world := {| opened := true; locked := false; written := true; sum_written := true; reached := 0; unlocked := true |}.
Theorem C55_old_file_refuted :
  ~ (forall hsize o_locks o_extdbs m n ql st mx w old a b e f,
      header_layout hsize o_locks o_extdbs -> database hsize o_locks o_extdbs m n ql st mx ->
      accepted old a b -> locked w = false -> dump w (Some old) m m m = (e, Some f) -> f = old).
Proof.
  intros H.
  pose proof (H exh (at_ 100) (at_ 140) exm (at_ 8600) (at_ 8192) (at_ 8320) 2%nat busy exf _ _ (-1) [] ex_layout ex_database (proj1 C55_ex_accepted) eq_refl
    (dump_unlocked busy (Some exf) exm exm exm eq_refl eq_refl)) as E.
  apply (f_equal (@length Z)) in E. rewrite (proj2 C55_ex_accepted) in E. unfold at_ in E. cbn [length] in E. lia.
Qed.

Print Assumptions C55_dump_and_load_partial.
Print Assumptions C55_stopped_writing.
Print Assumptions C55_damage.
Print Assumptions C55_accepted_header.
Print Assumptions C55_reported.
Print Assumptions C55_failed_load.
Print Assumptions C55_five_bytes_refuted.
Print Assumptions C55_success_refuted.
Print Assumptions C55_growing_refuted.
Print Assumptions C55_lock_request_refuted.
Print Assumptions C55_old_file_refuted.
