(** C73: the journal is read back as the operations that were logged, also when it is cut off. *)
From Coq Require Import ZArith Lia List Bool Arith.
From Verif Require Import JnModel.
Import ListNotations.
Open Scope Z_scope.

(** ** Specification: the entry an operation stands for *)
Definition word (z : Z) : Prop := 0 <= z < 2 ^ 64.
Definition entry_of (o : op) : option entry :=
  match o with
  | OCreate l off => Some (ECre l off)
  | ODelete off => Some (EDel off)
  | OSet off col enc => Some (ESet off col enc)
  | OMeta off meta => Some (EMeta off meta)
  | OInt data enc => if fits_small data then None else Some (EInt (le_bytes 8 data) enc)
  | ODouble bits enc => Some (EDouble (le_bytes 8 bits) enc)
  | OStr type s ext enc => Some (EStr type s ext enc)
  | OUri s p enc => Some (EStr 7 s p enc)
  end.
(** Operations with values in 64 bits; the integers that need memory and the URIs are refuted below *)
Definition logged (o : op) : Prop :=
  match o with
  | OCreate l off => word l /\ word off
  | ODelete off => word off
  | OSet off col enc => word off /\ word col /\ word enc
  | OMeta off meta => word off /\ word meta
  | OInt data enc => False
  | ODouble bits enc => word enc
  | OStr type s ext enc => In type [5; 6; 7; 8; 13] /\ word (Z.of_nat (length s)) /\ word (Z.of_nat (length ext)) /\ word enc
  | OUri s p enc => False
  end.

(** ** Variable length integers *)
Lemma get_enc : forall n v f, 0 <= v < 256 * 128 ^ Z.of_nat n -> get_from n (enc_from n v ++ f) = Some (v, f).
Proof.
  induction n as [|n IH]; intros v f H.
  - cbn [enc_from get_from app]. rewrite Z.mod_small by (cbn in H; lia). reflexivity.
  - cbn [enc_from]. rewrite Z.geb_leb. pose proof (Z.mod_pos_bound v 128 ltac:(lia)) as B. destruct (Z.leb_spec 128 v) as [L|L].
    + cbn [app get_from]. rewrite Z.geb_leb. replace (128 <=? v mod 128 + 128) with true by (symmetry; apply Z.leb_le; lia).
      rewrite IH.
      * f_equal. f_equal. replace (v mod 128 + 128) with (v mod 128 + 1 * 128) by lia. rewrite Z.mod_add, Z.mod_mod by lia.
        pose proof (Z.div_mod v 128 ltac:(lia)). lia.
      * split; [apply Z.div_pos; lia|]. apply Z.div_lt_upper_bound; [lia|]. rewrite Nat2Z.inj_succ, Z.pow_succ_r in H by lia. lia.
    + cbn [app get_from]. rewrite Z.mod_small by lia. rewrite Z.geb_leb. replace (128 <=? v) with false by (symmetry; apply Z.leb_gt; lia). reflexivity.
Qed.
Lemma varint_read v f : word v -> fget_varint (enc_varint v ++ f) = Some (v, f).
Proof.
  intros H. unfold fget_varint, enc_varint. unfold word in H. rewrite Z.mod_small by exact H. apply get_enc.
  change (256 * 128 ^ Z.of_nat 8) with (2 ^ 64). exact H.
Qed.
(** Every 64-bit integer, followed by anything, is read back; at most nine bytes are written *)
Theorem C73_varint : forall v f, word v ->
  fget_varint (enc_varint v ++ f) = Some (v, f) /\ (1 <= length (enc_varint v) <= 9)%nat /\ Forall (fun c => 0 <= c < 256) (enc_varint v).
Proof.
  intros v f H. split; [apply varint_read, H|]. unfold enc_varint. generalize (v mod 2 ^ 64). clear. intros v.
  assert (G : forall n v, (1 <= length (enc_from n v) <= S n)%nat /\ Forall (fun c => 0 <= c < 256) (enc_from n v)).
  { induction n as [|n IH]; intros w; cbn [enc_from].
    - split; [cbn; lia|]. constructor; [apply Z.mod_pos_bound; lia|constructor].
    - pose proof (Z.mod_pos_bound w 128 ltac:(lia)). destruct (w >=? 128).
      + destruct (IH (w / 128)) as [A B]. split; [cbn [length]; lia|]. constructor; [lia|exact B].
      + split; [cbn; lia|]. constructor; [lia|constructor]. }
  destruct (G 8%nat v) as [A B]. split; [lia|exact B].
Qed.

Lemma take_app a f : take (Z.of_nat (length a)) (a ++ f) = Some (a, f).
Proof.
  unfold take. rewrite app_length. replace (Z.of_nat (length a + length f) <? Z.of_nat (length a)) with false by (symmetry; apply Z.ltb_ge; lia).
  rewrite Nat2Z.id, firstn_app, firstn_all, Nat.sub_diag, skipn_app, skipn_all, Nat.sub_diag. cbn. rewrite app_nil_r. reflexivity.
Qed.
Lemma le_len n z : length (le_bytes n z) = n.
Proof. revert z. induction n as [|n IH]; intros z; [reflexivity|]. cbn. rewrite IH. reflexivity. Qed.
Lemma read_one o f : logged o -> exists e, entry_of o = Some e /\ read_entry (written o ++ f) = Some (e, f).
Proof.
  destruct o as [l off|off|off col enc|off meta|data enc|bits enc|type s ext enc|s p enc]; cbn [logged entry_of]; intros H; try contradiction; eexists; (split; [reflexivity|]).
  - destruct H as [A B]. cbn [written]. unfold log_create_record, log_encval. cbn [app]. unfold read_entry.
    change (Z.land 64 224 =? 64) with true. cbn iota. rewrite <- app_assoc, varint_read by exact A. rewrite varint_read by exact B. reflexivity.
  - cbn [written]. unfold log_delete_record. cbn [app]. unfold read_entry. change (Z.land 128 224) with 128. cbn [Z.eqb Pos.eqb]. rewrite varint_read by exact H. reflexivity.
  - destruct H as (A & B & C). cbn [written]. unfold log_set_field. cbn [app]. unfold read_entry. change (Z.land 192 224) with 192. cbn [Z.eqb Pos.eqb].
    rewrite <- app_assoc, varint_read by exact A. rewrite <- app_assoc, varint_read by exact B. rewrite varint_read by exact C. reflexivity.
  - destruct H as (A & B). cbn [written]. unfold log_set_meta. cbn [app]. unfold read_entry. change (Z.land 32 224) with 32. cbn [Z.eqb Pos.eqb].
    rewrite <- app_assoc, varint_read by exact A. rewrite varint_read by exact B. reflexivity.
  - cbn [written]. unfold log_encode_double, log_encval. cbn [app]. unfold read_entry. change (Z.land T_DOUBLE 224) with 0. change (Z.land T_DOUBLE 31) with T_DOUBLE. cbn [Z.eqb].
    unfold read_encode. change (T_DOUBLE =? T_INT) with false. change (T_DOUBLE =? T_DOUBLE) with true. cbn iota.
    rewrite <- app_assoc. pose proof (take_app (le_bytes 8 bits) (enc_varint enc ++ f)) as T. rewrite le_len in T. change (Z.of_nat 8) with 8 in T. rewrite T.
    rewrite varint_read by exact H. reflexivity.
  - destruct H as (T & A & B & C). cbn [written]. unfold log_encode_str, log_encval. cbn [app]. unfold read_entry.
    assert (X : Z.land type 224 = 0 /\ Z.land type 31 = type /\ (type =? T_INT) = false /\ (type =? T_DOUBLE) = false /\
                ((type =? 5) || (type =? 6) || (type =? 7) || (type =? 8) || (type =? 13)) = true).
    { cbn in T. repeat (destruct T as [ <-|T]; [repeat split; reflexivity|]). contradiction. }
    destruct X as (X1 & X2 & X3 & X4 & X5). rewrite X1, X2. cbn [Z.eqb]. unfold read_encode. rewrite X3, X4, X5.
    rewrite <- !app_assoc. rewrite varint_read by exact A. rewrite varint_read by exact B. rewrite take_app, take_app, varint_read by exact C. reflexivity.
Qed.

(** ** Reading a longer file goes the same way *)
Lemma get_ext : forall n f g v r, get_from n f = Some (v, r) -> get_from n (f ++ g) = Some (v, r ++ g).
Proof.
  induction n as [|n IH]; intros [|c f] g v r H; cbn [get_from app] in *; try discriminate.
  - injection H as <- <-. reflexivity.
  - destruct (c >=? 128); [|injection H as <- <-; reflexivity]. destruct (get_from n f) as [[t f']|] eqn:E; [|discriminate]. rewrite (IH _ g _ _ E). injection H as <- <-. reflexivity.
Qed.
Lemma take_ext n f g a r : take n f = Some (a, r) -> take n (f ++ g) = Some (a, r ++ g).
Proof.
  unfold take. rewrite app_length. destruct (Z.ltb_spec (Z.of_nat (length f)) n) as [L|L]; [discriminate|]. intros H. injection H as <- <-.
  replace (Z.of_nat (length f + length g) <? n) with false by (symmetry; apply Z.ltb_ge; lia).
  rewrite firstn_app, skipn_app. replace (Z.to_nat n - length f)%nat with 0%nat by lia. cbn. rewrite app_nil_r. reflexivity.
Qed.
Ltac ext g :=
  repeat match goal with
  | H : match ?x with Some _ => _ | None => None end = Some _ |- _ =>
      let E := fresh "E" in destruct x as [[? ?]|] eqn:E; [|discriminate];
      first [apply (get_ext _ _ g) in E | apply (take_ext _ _ g) in E]; unfold fget_varint in *; rewrite E; clear E
  end;
  match goal with H : Some _ = Some _ |- _ => injection H as <- <-; reflexivity end.
Lemma read_ext f g e r : read_entry f = Some (e, r) -> read_entry (f ++ g) = Some (e, r ++ g).
Proof.
  destruct f as [|c f]; [discriminate|]. cbn [app]. unfold read_entry, read_encode, fget_varint. intros H.
  destruct (Z.land c 224 =? 64); [ext g|]. destruct (Z.land c 224 =? 128); [ext g|]. destruct (Z.land c 224 =? 0).
  - destruct (Z.land c 31 =? T_INT); [ext g|]. destruct (Z.land c 31 =? T_DOUBLE); [ext g|].
    destruct ((Z.land c 31 =? 5) || (Z.land c 31 =? 6) || (Z.land c 31 =? 7) || (Z.land c 31 =? 8) || (Z.land c 31 =? 13)); ext g.
  - destruct (Z.land c 224 =? 192); [ext g|]. destruct (Z.land c 224 =? 32); [ext g|discriminate].
Qed.
Lemma read_shorter f e r : read_entry f = Some (e, r) -> forall m, r = [] -> f <> [] -> firstn m f <> f -> read_entry (firstn m f) = None.
Proof.
  intros H m -> N Q. destruct (read_entry (firstn m f)) as [[e' r']|] eqn:E; [|reflexivity]. exfalso.
  apply (read_ext _ (skipn m f)) in E. rewrite firstn_skipn, H in E. injection E as _ E. symmetry in E. apply app_eq_nil in E as [_ E].
  apply Q. rewrite <- (firstn_skipn m f) at 2. rewrite E, app_nil_r. reflexivity.
Qed.
Lemma written_ne o : logged o -> written o <> [].
Proof. intros H E. destruct (read_one o [] H) as (e & _ & R). rewrite E in R. discriminate. Qed.

(** Every cut of the journal: the entries of the operations written whole are read, in order, and nothing
    else; the reading ends without an error just when the cut is between operations.
    Missing: integers of more than 60 bits and URIs (refuted below). *)
Theorem C73_crash_partial : forall ops n, Forall logged ops ->
  exists k es ok, read_journal (firstn n (journal ops)) = (es, ok) /\ (k <= length ops)%nat /\
    map Some es = map entry_of (firstn k ops) /\
    (length (journal (firstn k ops)) <= n)%nat /\
    (k < length ops -> n < length (journal (firstn (S k) ops)))%nat /\
    (ok = true <-> firstn n (journal ops) = journal (firstn k ops)).
Proof.
  intros ops n F. unfold read_journal.
  assert (G : forall ops, Forall logged ops -> forall n fuel, (length (firstn n (journal ops)) <= fuel)%nat ->
    exists k es ok, read_from fuel (firstn n (journal ops)) = (es, ok) /\ (k <= length ops)%nat /\
    map Some es = map entry_of (firstn k ops) /\ (length (journal (firstn k ops)) <= n)%nat /\
    (k < length ops -> n < length (journal (firstn (S k) ops)))%nat /\
    (ok = true <-> firstn n (journal ops) = journal (firstn k ops))).
  { clear. induction ops as [|o ops IH]; intros F n fuel Hf.
    - exists 0%nat, [], true. cbn [firstn journal map concat]. rewrite firstn_nil. split; [destruct fuel; reflexivity|]. split; [cbn; lia|]. split; [reflexivity|].
      split; [cbn; lia|]. split; [cbn; lia|]. split; reflexivity.
    - inversion F as [|? ? Fo Fr]; subst. pose proof (written_ne o Fo) as Ne. destruct (read_one o [] Fo) as (e & Ee & R0). rewrite app_nil_r in R0.
      assert (J : journal (o :: ops) = written o ++ journal ops) by reflexivity. rewrite J in *.
      destruct (Nat.le_gt_cases (length (written o)) n) as [L|L].
      + rewrite firstn_app, (firstn_all2 (written o)) by exact L. rewrite firstn_app, (firstn_all2 (written o)), app_length in Hf by exact L.
        destruct fuel as [|fuel]; [destruct (written o); [contradiction|cbn in Hf; lia]|].
        destruct (IH Fr (n - length (written o))%nat fuel) as (k & es & ok & A & B & C & D & E & G).
        { assert (1 <= length (written o))%nat by (destruct (written o); [contradiction|cbn [length]; lia]). lia. }
        destruct (read_one o (firstn (n - length (written o)) (journal ops)) Fo) as (e' & Ee' & R). rewrite Ee in Ee'. injection Ee' as <-.
        exists (S k), (e :: es), ok. cbn [read_from]. destruct (written o ++ firstn (n - length (written o)) (journal ops)) as [|c rest] eqn:Q; [apply app_eq_nil in Q as [Q _]; contradiction|].
        rewrite R, A. rewrite <- Q. split; [reflexivity|]. split; [cbn; lia|]. split; [cbn [map firstn]; rewrite C, Ee; reflexivity|].
        change (journal (firstn (S k) (o :: ops))) with (written o ++ journal (firstn k ops)). rewrite app_length.
        split; [lia|]. split.
        * intros X. change (journal (firstn (S (S k)) (o :: ops))) with (written o ++ journal (firstn (S k) ops)). rewrite app_length. cbn [length] in X. specialize (E ltac:(lia)). lia.
        * rewrite G. split; [intros ->; reflexivity|]. apply app_inv_head.
      + rewrite firstn_app. replace (n - length (written o))%nat with 0%nat by lia. cbn [firstn]. rewrite app_nil_r.
        exists 0%nat, []. destruct n as [|n].
        * exists true. split; [destruct fuel; reflexivity|]. split; [lia|]. split; [reflexivity|]. split; [cbn; lia|]. split.
          -- intros _. cbn [firstn]. unfold journal. cbn [map concat]. rewrite app_nil_r. exact L.
          -- split; reflexivity.
        * exists false. assert (Fx : firstn (S n) (written o) <> written o) by (intros X; apply (f_equal (@length Z)) in X; rewrite firstn_length in X; lia).
          assert (Nx : firstn (S n) (written o) <> []) by (destruct (written o); [contradiction|discriminate]).
          pose proof (read_shorter _ _ _ R0 (S n) eq_refl Ne Fx) as RN.
          split.
          { destruct fuel as [|fuel]; destruct (firstn (S n) (written o)) as [|c rest] eqn:Q; try contradiction; [reflexivity|]. cbn [read_from].
            rewrite RN. reflexivity. }
          split; [lia|]. split; [reflexivity|]. split; [cbn; lia|]. split.
          -- intros _. cbn [firstn]. unfold journal. cbn [map concat]. rewrite app_nil_r. exact L.
          -- split; [discriminate|]. cbn [firstn journal map concat]. intros X. contradiction. }
  apply (G ops F n). lia.
Qed.
(** The whole journal: all operations are read back *)
Theorem C73_journal_partial : forall ops, Forall logged ops ->
  exists es, read_journal (journal ops) = (es, true) /\ map Some es = map entry_of ops.
Proof.
  intros ops F. destruct (C73_crash_partial ops (length (journal ops)) F) as (k & es & ok & A & B & C & D & E & G). rewrite firstn_all in *.
  assert (K : k = length ops).
  { destruct (Nat.eq_dec k (length ops)) as [X|X]; [exact X|]. specialize (E ltac:(lia)).
    rewrite <- (firstn_skipn (S k) ops) in E at 1. unfold journal in E at 1. rewrite map_app, concat_app, app_length in E. unfold journal in E. lia. }
  subst k. rewrite firstn_all in *. exists es. split; [|exact C]. rewrite A. f_equal. apply G. reflexivity.
Qed.

(** Integers of more than 60 bits are logged through an int: none of them survives.  The entry holds
    another number, or only the result is written, to be read as the start of an entry. *)
Theorem C73_integers_refuted : forall data enc, fits_small data = false -> word enc ->
  int_of_long data <> data /\
  (journal [OInt data enc] = enc_varint enc \/
   read_journal (journal [OInt data enc]) = ([EInt (le_bytes 4 (int_of_long data)) enc], true)).
Proof.
  intros data enc F W. split.
  - intros E. unfold int_of_long in E. pose proof (Z.mod_pos_bound (data + 2 ^ 31) (2 ^ 32) ltac:(lia)) as B. unfold fits_small in F.
    apply andb_false_iff in F. destruct F as [F|F]; [apply Z.leb_gt in F|apply Z.ltb_ge in F]; lia.
  - unfold journal. cbn [map concat written]. rewrite F, app_nil_r. unfold log_encode_int. destruct (fits_small_int (int_of_long data)) eqn:Q; [left; reflexivity|right].
    unfold read_journal. set (b := le_bytes 4 (int_of_long data)). assert (Lb : Z.of_nat (length b) = 4) by (unfold b; rewrite le_len; reflexivity).
    assert (R : read_entry ((T_INT :: b) ++ log_encval enc) = Some (EInt b enc, [])).
    { cbn [app]. unfold read_entry. change (Z.land T_INT 224) with 0. change (Z.land T_INT 31) with T_INT. cbn [Z.eqb]. unfold read_encode.
      change (T_INT =? T_INT) with true. cbn iota. rewrite <- Lb, take_app. unfold log_encval. rewrite <- (app_nil_r (enc_varint enc)), varint_read by exact W. reflexivity. }
    cbn [app length read_from] in *. rewrite R. destruct (length (b ++ log_encval enc)); reflexivity.
Qed.
Example integers_both : journal [OInt (2 ^ 62) 1000] = log_encval 1000 /\
  read_journal (journal [OInt (2 ^ 62) 65]) = ([], false) /\
  read_journal (journal [OInt (2 ^ 60 + 2 ^ 30) 1000]) = ([EInt (le_bytes 4 (2 ^ 30)) 1000], true).
Proof. repeat split; vm_compute; reflexivity. Qed.
(** Encoding a URI appends a result without an entry: what follows is read as something else.  Here the
    encoding of a URI is read as the deletion of the record at 1. *)
Theorem C73_uri_refuted :
  read_journal (journal [OUri [104; 116; 116; 112] [] 128; ODelete 200]) = ([EDel 1; EDel 200], true) /\
  journal [OUri [104; 116; 116; 112] [] 128; ODelete 200] = [128; 1; 128; 200; 1].
Proof. split; vm_compute; reflexivity. Qed.

Definition sample : list op :=
  [OCreate 3 4096; OStr 5 [104; 105] [] 70000; OSet 4096 0 70000; ODouble (2 ^ 62) 90003; OSet 4096 1 90003; OMeta 4096 16; ODelete 4096].
Example sample_logged : Forall logged sample.
Proof. unfold sample. repeat (apply Forall_cons; [cbn; unfold word; cbn; lia || (split; [tauto|lia])|]). apply Forall_nil. Qed.
Example sample_cut : read_journal (firstn 12 (journal sample)) = ([ECre 3 4096; EStr 5 [104; 105] [] 70000], true) /\
  snd (read_journal (firstn 13 (journal sample))) = false.
Proof. split; vm_compute; reflexivity. Qed.

Print Assumptions C73_varint.
Print Assumptions C73_crash_partial.
Print Assumptions C73_journal_partial.
Print Assumptions C73_integers_refuted.
Print Assumptions C73_uri_refuted.
