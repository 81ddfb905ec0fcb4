(** Lemmas about the field operations without a write lock. *)
From Coq Require Import List ZArith Bool Lia.
From Verif Require Import Word64 EncModel EncProof AtModel AtSpec.
Import ListNotations.
Open Scope Z_scope.

Lemma imm_iff : forall w, isimmediatedata w = true <-> immediate w.
Proof.
  intros w. unfold isimmediatedata, isptr, isfullint, immediate. rewrite land3.
  destruct (Z.eqb_spec w 0) as [E|E]; simpl; [tauto|].
  destruct (Z.eqb_spec (w mod 4) 3) as [F|F]; simpl.
  - rewrite F. simpl. tauto.
  - split; [discriminate|tauto].
Qed.

Lemma imm_false : forall w, isimmediatedata w = false <-> ~ immediate w.
Proof. intros w. rewrite <- imm_iff. destruct (isimmediatedata w); split; try discriminate; try tauto; intros; intro; discriminate. Qed.

Lemma int_iff : forall w, issmallint w = true <-> is_int w.
Proof. intros w. unfold issmallint, is_int. rewrite land7. apply Z.eqb_eq. Qed.

Lemma int_word_inv : forall w, is_int w -> w = int_word (decode_smallint w).
Proof.
  intros w H. unfold is_int in H. unfold int_word, decode_smallint, shr. rewrite Z.shiftr_div_pow2 by lia.
  change (2 ^ 3) with 8. pose proof (Z.div_mod w 8). lia.
Qed.

Lemma int_word_is : forall v, is_int (int_word v).
Proof. intros v. unfold is_int, int_word. rewrite Z.add_comm, Z.mul_comm, Z_mod_plus_full. reflexivity. Qed.

Lemma int_word_imm : forall v, immediate (int_word v).
Proof.
  intros v. right. unfold int_word. replace (8 * v + 3) with (3 + 2 * v * 4) by lia.
  rewrite Z_mod_plus_full. reflexivity.
Qed.

Lemma int_word_inj : forall v v', int_word v = int_word v' -> v = v'.
Proof. unfold int_word. intros. lia. Qed.

Lemma fits32 : forall i, - 2 ^ 31 <= i < 2 ^ 31 -> fits_smallint32 i = true <-> short i.
Proof.
  intros i H. unfold fits_smallint32, short, shl32, shr. rewrite Z.eqb_eq.
  destruct (w32_cong (i * 2 ^ 3)) as (q & E). pose proof (w32_in (i * 2 ^ 3)) as B.
  rewrite Z.shiftr_div_pow2 by lia. change (2 ^ 3) with 8 in *. change (2 ^ 32) with (536870912 * 8) in E.
  replace (i * 8 + q * (536870912 * 8)) with ((i + q * 536870912) * 8) in E by lia.
  rewrite E, Z.div_mul by lia. split; intros S; lia.
Qed.

Lemma enc32s : forall i, short i -> encode_smallint32 i = int_word i.
Proof.
  intros i H. unfold short in H. unfold encode_smallint32, shl32, int_word.
  rewrite w32_id by lia. rewrite (lor_tag _ 3 3); [lia|lia|lia|].
  apply Z.mod_mul. lia.
Qed.

Lemma write_stored : forall m f w, stored m f w (write m f w).
Proof.
  intros m f w. unfold stored, write. rewrite Nat.eqb_refl. split; [reflexivity|].
  intros g H. apply Nat.eqb_neq in H. rewrite H. reflexivity.
Qed.

Lemma set_nth_length : forall l k p, length (set_nth k p l) = length l.
Proof. induction l as [|q l IH]; intros [|k] p; simpl; auto. Qed.
Lemma set_nth_same : forall l k p q, nth_error l k = Some q -> nth_error (set_nth k p l) k = Some p.
Proof. induction l as [|x l IH]; intros [|k] p q H; simpl in *; try discriminate; auto. apply (IH k p q H). Qed.
Lemma set_nth_other : forall l k j p, j <> k -> nth_error (set_nth k p l) j = nth_error l j.
Proof. induction l as [|x l IH]; intros [|k] [|j] p H; simpl; auto; try lia. Qed.

Section P.
Variable indexed : nat -> bool.
Notation move := (move indexed).
Notation step := (step indexed).
Notation reaches := (reaches indexed).

Definition place_ok (a : place) : Prop :=
  match a with
  | Between => True
  | Round c _ => tame_call c /\ match c with Set_ _ _ | Add _ _ => True | _ => False end
  | Swap c _ f old new => indexed f = false /\
      match c with
      | Set_ g d => g = f /\ d = new /\ immediate d /\ immediate old /\ tame_word d
      | Add g n => g = f /\ tame_call c /\ exists v, old = int_word v /\ short (v + n) /\ new = int_word (v + n)
      | _ => False
      end
  end.

Definition proc_ok (p : process) : Prop := Forall tame_call (todo p) /\ place_ok (at_ p).

Lemma short_tame : forall v, short v -> tame_word (int_word v).
Proof. intros v S v' E. apply int_word_inj in E. subst v'. unfold short in S. lia. Qed.

Lemma write_tame : forall m f w, (forall g, tame_word (m g)) -> tame_word w -> forall g, tame_word (write m f w g).
Proof. intros m f w H W g. unfold write. destruct (Nat.eqb g f); auto. Qed.

Lemma tests_none : forall f d o, update_tests indexed f d o = None ->
  immediate d /\ immediate o /\ indexed f = false.
Proof.
  intros f d o H. unfold update_tests in H.
  destruct (isimmediatedata d) eqn:A; simpl in H; [|discriminate].
  destruct (isimmediatedata o) eqn:B; simpl in H; [|discriminate].
  destruct (indexed f) eqn:C; [discriminate|].
  rewrite imm_iff in A, B. auto.
Qed.

Lemma tests_some : forall f d o e, update_tests indexed f d o = Some e ->
  (~ immediate d /\ e = -10) \/ (immediate d /\ ~ immediate o /\ e = -11) \/
  (immediate d /\ immediate o /\ indexed f = true /\ e = -13).
Proof.
  intros f d o e H. unfold update_tests in H.
  destruct (isimmediatedata d) eqn:A; simpl in H.
  2:{ injection H as <-. left. rewrite imm_false in A. auto. }
  destruct (isimmediatedata o) eqn:B; simpl in H.
  2:{ injection H as <-. right. left. rewrite imm_iff in A. rewrite imm_false in B. auto. }
  destruct (indexed f) eqn:C; [|discriminate]. injection H as <-. right. right. rewrite imm_iff in A, B. auto.
Qed.

(** One step of a process: the memory stays tame, the place stays right, and a call that returns has been
    done at once. *)
Lemma move_ok : forall m p m' p' e, (forall f, tame_word (m f)) -> proc_ok p ->
  move m p = Some (m', p', e) ->
  (forall f, tame_word (m' f)) /\ proc_ok p' /\
  match e with Some (c, r) => does indexed short m c r m' | None => m' = m end.
Proof.
  intros m [td a] m' p' e T (FT & PO) M. unfold AtModel.move in M. cbn [todo at_] in M.
  destruct a as [|c i|c i f old new]; simpl in PO.
  - destruct td as [|c r]; [discriminate|]. simpl in FT. inversion FT as [|x y FC FR]; subst x y.
    destruct c as [f|f d o|f d|f n].
    + injection M as <- <- <-. split; [exact T|]. split; [split; [exact FR|exact Logic.I]|]. constructor.
    + destruct (update_tests indexed f d o) as [e0|] eqn:U.
      * injection M as <- <- <-. split; [exact T|]. split; [split; [exact FR|exact Logic.I]|].
        destruct (tests_some _ _ _ _ U) as [(A & ->)|[(A & B & ->)|(A & B & C & ->)]].
        -- apply update_new; exact A.
        -- apply update_old; [exact A|exact B].
        -- apply update_index; [exact A|exact B|exact C].
      * destruct (tests_none _ _ _ U) as (A & B & C). simpl in FC.
        destruct (Z.eqb_spec (m f) o) as [E|E]; injection M as <- <- <-.
        -- split; [apply write_tame; [exact T|exact FC]|]. split; [split; [exact FR|exact Logic.I]|].
           apply update_ok; [exact A|exact B|exact C|exact E|apply write_stored].
        -- split; [exact T|]. split; [split; [exact FR|exact Logic.I]|].
           apply update_changed; [exact A|exact B|exact C|exact E].
    + injection M as <- <- <-. split; [exact T|]. split; [split; [exact FR|split; [exact FC|exact Logic.I]]|reflexivity].
    + injection M as <- <- <-. split; [exact T|]. split; [split; [exact FR|split; [exact FC|exact Logic.I]]|reflexivity].
  - destruct PO as (FC & PO). simpl in FT. destruct c as [f|f d o|f d|f n]; try contradiction.
    + destruct (update_tests indexed f d (m f)) as [e0|] eqn:U; injection M as <- <- <-.
      * split; [exact T|]. split; [split; [exact FT|exact Logic.I]|].
        destruct (tests_some _ _ _ _ U) as [(A & ->)|[(A & B & ->)|(A & B & C & ->)]].
        -- apply set_new; exact A.
        -- apply set_old; [exact A|exact B].
        -- apply set_index; [exact A|exact B|exact C].
      * destruct (tests_none _ _ _ U) as (A & B & C). split; [exact T|]. split; [|reflexivity].
        split; [exact FT|]. simpl. split; [exact C|]. split; [reflexivity|]. split; [reflexivity|].
        split; [exact A|]. split; [exact B|exact FC].
    + cbv zeta in M. destruct (issmallint (m f)) eqn:I; cbn [negb] in M.
      2:{ injection M as <- <- <-. split; [exact T|]. split; [split; [exact FT|exact Logic.I]|].
          apply add_old. intros H. apply int_iff in H. congruence. }
      apply int_iff in I. pose proof (int_word_inv _ I) as W. set (v := decode_smallint (m f)) in *.
      pose proof (T f v W) as TV. simpl in FC.
      destruct (w32_cong (v + n)) as (q & CG). pose proof (w32_in (v + n)) as IN.
      destruct (fits_smallint32 (w32 (v + n))) eqn:F; cbn [negb] in M.
      * apply (proj1 (fits32 (w32 (v + n)) ltac:(lia))) in F. rewrite (enc32s _ F) in M.
        assert (EQ : w32 (v + n) = v + n) by (unfold short in F; lia).
        rewrite EQ in *.
        destruct (update_tests indexed f (int_word (v + n)) (m f)) as [e0|] eqn:U; injection M as <- <- <-.
        -- split; [exact T|]. split; [split; [exact FT|exact Logic.I]|].
           destruct (tests_some _ _ _ _ U) as [(A & ->)|[(A & B & ->)|(A & B & C & ->)]].
           ++ exfalso. apply A, int_word_imm.
           ++ exfalso. apply B. rewrite W. apply int_word_imm.
           ++ apply (add_index indexed short m f n v W F C).
        -- destruct (tests_none _ _ _ U) as (A & B & C). split; [exact T|]. split; [|reflexivity].
           split; [exact FT|]. simpl. split; [exact C|]. split; [reflexivity|]. split; [exact FC|]. exists v. auto.
      * injection M as <- <- <-. split; [exact T|]. split; [split; [exact FT|exact Logic.I]|].
        apply (add_large indexed short m f n v W). intros S.
        assert (EQ : w32 (v + n) = v + n) by (apply w32_id; unfold short in S; lia).
        rewrite EQ in F. apply (proj2 (fits32 (v + n) ltac:(unfold short in S; lia))) in S. congruence.
  - destruct PO as (C & PO). simpl in FT. destruct (Z.eqb_spec (m f) old) as [E|E].
    + injection M as <- <- <-. destruct c as [g|g d o|g d|g n]; try contradiction.
      * destruct PO as (-> & -> & A & B & TW). split; [apply write_tame; [exact T|exact TW]|].
        split; [split; [exact FT|exact Logic.I]|]. apply set_ok; [exact A|rewrite E; exact B|exact C|apply write_stored].
      * destruct PO as (-> & _ & v & A & B & ->). split; [apply write_tame; [exact T|apply short_tame; exact B]|].
        split; [split; [exact FT|exact Logic.I]|].
        apply (add_ok indexed short m f n v); [congruence|exact B|exact C|apply write_stored].
    + destruct (Nat.ltb 1000 i); injection M as <- <- <-.
      * split; [exact T|]. split; [split; [exact FT|exact Logic.I]|]. destruct c as [g|g d o|g d|g n]; try contradiction.
        -- destruct PO as (-> & _ & A & _). apply set_tries; [exact A|exact C].
        -- destruct PO as (-> & _). apply add_tries; exact C.
      * split; [exact T|]. split; [|reflexivity]. split; [exact FT|]. simpl.
        destruct c as [g|g d o|g d|g n]; try contradiction.
        -- destruct PO as (-> & -> & _ & _ & TW). split; [exact TW|exact Logic.I].
        -- split; [|exact Logic.I]. exact (proj1 (proj2 PO)).
Qed.

(** The whole system. *)
Definition sys_ok (m0 : memory) (s : system) : Prop :=
  (forall f, tame_word (mem s f)) /\ Forall proc_ok (procs s) /\ one_by_one indexed short m0 (log s) (mem s).

Lemma forall_set_nth : forall (P : process -> Prop) l k p, Forall P l -> P p -> Forall P (set_nth k p l).
Proof.
  intros P. induction l as [|q l IH]; intros [|k] p F Q; simpl; auto.
  - inversion F; subst; constructor; auto.
  - inversion F; subst; constructor; auto.
Qed.

Lemma step_ok : forall m0 s t, sys_ok m0 s -> step s t -> sys_ok m0 t.
Proof.
  intros m0 s t (T & F & O) S. destruct S as [s k p m' p' e K M].
  rewrite Forall_forall in F. pose proof (F p (nth_error_In _ _ K)) as P. rewrite <- Forall_forall in F.
  destruct (move_ok _ _ _ _ _ T P M) as (T' & P' & D). split; [exact T'|]. split; [apply forall_set_nth; assumption|].
  simpl. destruct e as [(c, r)|].
  - exact (one_more indexed short m0 (log s) (mem s) k c r m' O D).
  - rewrite app_nil_r. subst m'. exact O.
Qed.

Lemma start_ok : forall m0 programs, tame m0 programs -> sys_ok m0 (start m0 programs).
Proof.
  intros m0 programs (T & F). split; [exact T|]. split; [|constructor]. simpl.
  rewrite Forall_map. rewrite Forall_forall in *. intros l I. split; [exact (F l I)|exact Logic.I].
Qed.

Lemma reaches_ok : forall m0 programs s, tame m0 programs -> reaches (start m0 programs) s -> sys_ok m0 s.
Proof.
  intros m0 programs s T R. remember (start m0 programs) as s0 eqn:E. induction R as [s|s t u R IH S].
  - subst s. apply start_ok; exact T.
  - exact (step_ok m0 t u (IH E) S).
Qed.

(** Calls return in the order of the program. *)
Definition pending (p : process) : list call :=
  match at_ p with Between => todo p | Round c _ | Swap c _ _ _ _ => c :: todo p end.

Lemma move_pending : forall m p m' p' e, move m p = Some (m', p', e) ->
  pending p = match e with Some (c, _) => c :: pending p' | None => pending p' end /\
  (e <> None -> at_ p' = Between).
Proof.
  intros m [td a] m' p' e M. unfold AtModel.move in M. cbn [todo at_] in M.
  destruct a as [|c i|c i f old new].
  - destruct td as [|c r]; [discriminate|]. destruct c as [f|f d o|f d|f n].
    + injection M as <- <- <-. split; reflexivity.
    + destruct (update_tests indexed f d o); [|destruct (m f =? o)]; injection M as <- <- <-; split; reflexivity.
    + injection M as <- <- <-. split; [reflexivity|]. intros X; contradiction.
    + injection M as <- <- <-. split; [reflexivity|]. intros X; contradiction.
  - destruct c as [f|f d o|f d|f n]; try discriminate.
    + destruct (update_tests indexed f d (m f)); injection M as <- <- <-; (split; [reflexivity|]); auto; intros X; contradiction.
    + cbv zeta in M. destruct (issmallint (m f)); cbn [negb] in M; [|injection M as <- <- <-; split; reflexivity].
      destruct (fits_smallint32 (w32 (decode_smallint (m f) + n))); cbn [negb] in M; [|injection M as <- <- <-; split; reflexivity].
      destruct (update_tests indexed f (encode_smallint32 (w32 (decode_smallint (m f) + n))) (m f)); injection M as <- <- <-;
        (split; [reflexivity|]); auto; intros X; contradiction.
  - destruct (m f =? old); [injection M as <- <- <-; split; reflexivity|].
    destruct (Nat.ltb 1000 i); injection M as <- <- <-; (split; [reflexivity|]); auto; intros X; contradiction.
Qed.

Lemma of_process_app : forall k a b, of_process k (a ++ b) = of_process k a ++ of_process k b.
Proof. intros. unfold of_process. rewrite filter_app, map_app. reflexivity. Qed.

Lemma reaches_order : forall m0 programs s, reaches (start m0 programs) s ->
  forall k p, nth_error (procs s) k = Some p ->
  nth_error programs k = Some (of_process k (log s) ++ pending p).
Proof.
  intros m0 programs s R. remember (start m0 programs) as s0 eqn:E. induction R as [s|s t u R IH S]; intros k p K.
  - subst s. simpl in *. rewrite nth_error_map in K. destruct (nth_error programs k) as [l|]; [|discriminate].
    injection K as <-. reflexivity.
  - specialize (IH E). destruct S as [t j q m' q' e J M]. simpl in *.
    destruct (move_pending _ _ _ _ _ M) as (PE & _). rewrite of_process_app.
    destruct (Nat.eq_dec k j) as [->|N].
    + rewrite (set_nth_same _ _ q' _ J) in K. injection K as <-. rewrite (IH j q J), PE. f_equal.
      destruct e as [(c, r)|].
      * assert (X : of_process j [(j, c, r)] = [c]) by (unfold of_process; simpl; rewrite Nat.eqb_refl; reflexivity).
        rewrite X, <- app_assoc. reflexivity.
      * simpl. rewrite app_nil_r. reflexivity.
    + rewrite (set_nth_other _ _ _ _ N) in K. rewrite (IH k p K). f_equal. f_equal.
      assert (X : of_process k (match e with Some (c, r) => [(j, c, r)] | None => [] end) = []).
      { destruct e as [(c, r)|]; [|reflexivity]. unfold of_process. simpl.
        destruct (Nat.eqb_spec j k); [congruence|reflexivity]. }
      rewrite X, app_nil_r. reflexivity.
Qed.

(** Many tries. *)
Lemma changes_app : forall k f a b, changes k f (a ++ b) = (changes k f a + changes k f b)%nat.
Proof. intros. unfold changes. rewrite filter_app, app_length. reflexivity. Qed.

Definition tries (m : memory) (l : list (nat * call * Z)) (k : nat) (a : place) : Prop :=
  match a with
  | Between => True
  | Round c i => (i <= changes k (field_of c) l)%nat
  | Swap c i f old new => f = field_of c /\ (i <= changes k f l)%nat /\
      (m f = old \/ (S i <= changes k f l)%nat)
  end.

Definition shape (a : place) : Prop :=
  match a with
  | Between => True
  | Round c _ => match c with Set_ _ _ | Add _ _ => True | _ => False end
  | Swap c _ f _ _ => f = field_of c /\ match c with Set_ _ _ | Add _ _ => True | _ => False end
  end.

Lemma move_shape : forall m p m' p' e, shape (at_ p) -> move m p = Some (m', p', e) -> shape (at_ p').
Proof.
  intros m [td a] m' p' e SH M. unfold AtModel.move in M. cbn [todo at_ shape] in M, SH.
  destruct a as [|c i|c i f old new].
  - destruct td as [|c r]; [discriminate|]. destruct c as [f|f d o|f d|f n].
    + injection M as <- <- <-. exact Logic.I.
    + destruct (update_tests indexed f d o); [|destruct (m f =? o)]; injection M as <- <- <-; exact Logic.I.
    + injection M as <- <- <-. exact Logic.I.
    + injection M as <- <- <-. exact Logic.I.
  - destruct c as [f|f d o|f d|f n]; try discriminate.
    + destruct (update_tests indexed f d (m f)); injection M as <- <- <-; simpl; auto.
    + cbv zeta in M. destruct (issmallint (m f)); cbn [negb] in M; [|injection M as <- <- <-; exact Logic.I].
      destruct (fits_smallint32 (w32 (decode_smallint (m f) + n))); cbn [negb] in M; [|injection M as <- <- <-; exact Logic.I].
      destruct (update_tests indexed f (encode_smallint32 (w32 (decode_smallint (m f) + n))) (m f)); injection M as <- <- <-;
        simpl; auto.
  - destruct (m f =? old); [injection M as <- <- <-; exact Logic.I|].
    destruct (Nat.ltb 1000 i); injection M as <- <- <-; simpl; [exact Logic.I|exact (proj2 SH)].
Qed.

Lemma write_ne : forall m f w g, write m f w g <> m g -> g = f.
Proof. intros m f w g H. unfold write in H. destruct (Nat.eqb_spec g f); [assumption|contradiction]. Qed.

Lemma move_changes : forall m p m' p' e g, shape (at_ p) -> move m p = Some (m', p', e) -> m' g <> m g ->
  exists c, e = Some (c, 0) /\ field_of c = g /\ forall f, c <> Get f.
Proof.
  intros m [td a] m' p' e g SH M N. unfold AtModel.move in M. cbn [todo at_ shape] in M, SH.
  destruct a as [|c i|c i f old new].
  - destruct td as [|c r]; [discriminate|]. destruct c as [f|f d o|f d|f n].
    + injection M as <- <- <-. contradiction.
    + destruct (update_tests indexed f d o); [injection M as <- <- <-; contradiction|].
      destruct (m f =? o); injection M as <- <- <-; [|contradiction].
      apply write_ne in N. subst g. eexists. split; [reflexivity|]. split; [reflexivity|]. intros; discriminate.
    + injection M as <- <- <-. contradiction.
    + injection M as <- <- <-. contradiction.
  - destruct c as [f|f d o|f d|f n]; try discriminate.
    + destruct (update_tests indexed f d (m f)); injection M as <- <- <-; contradiction.
    + cbv zeta in M. destruct (issmallint (m f)); cbn [negb] in M; [|injection M as <- <- <-; contradiction].
      destruct (fits_smallint32 (w32 (decode_smallint (m f) + n))); cbn [negb] in M; [|injection M as <- <- <-; contradiction].
      destruct (update_tests indexed f (encode_smallint32 (w32 (decode_smallint (m f) + n))) (m f)); injection M as <- <- <-;
        contradiction.
  - destruct SH as (-> & SH). destruct (m (field_of c) =? old).
    + injection M as <- <- <-. apply write_ne in N. subst g. exists c. split; [reflexivity|]. split; [reflexivity|].
      intros f ->. contradiction.
    + destruct (Nat.ltb 1000 i); injection M as <- <- <-; contradiction.
Qed.

(** A process's own step keeps its count. *)
Lemma move_tries : forall m p m' p' e l k, shape (at_ p) -> tries m l k (at_ p) -> move m p = Some (m', p', e) ->
  match e with
  | Some (c, r) => at_ p' = Between /\
      (r = -17 -> (forall f, c <> Get f) -> (1002 <= changes k (field_of c) l)%nat)
  | None => m' = m /\ tries m l k (at_ p')
  end.
Proof.
  intros m [td a] m' p' e l k SH TR M. unfold AtModel.move in M. cbn [todo at_ shape tries] in M, SH, TR.
  destruct a as [|c i|c i f old new].
  - destruct td as [|c r]; [discriminate|]. destruct c as [f|f d o|f d|f n].
    + injection M as <- <- <-. split; [reflexivity|]. intros _ H. exfalso. exact (H f eq_refl).
    + destruct (update_tests indexed f d o) as [e0|] eqn:U.
      * injection M as <- <- <-. split; [reflexivity|]. intros ->.
        destruct (tests_some _ _ _ _ U) as [(_ & X)|[(_ & _ & X)|(_ & _ & _ & X)]]; discriminate.
      * destruct (m f =? o); injection M as <- <- <-; (split; [reflexivity|]); intros X; discriminate.
    + injection M as <- <- <-. split; [reflexivity|]. simpl. lia.
    + injection M as <- <- <-. split; [reflexivity|]. simpl. lia.
  - destruct c as [f|f d o|f d|f n]; try discriminate.
    + destruct (update_tests indexed f d (m f)) as [e0|] eqn:U; injection M as <- <- <-.
      * split; [reflexivity|]. intros ->.
        destruct (tests_some _ _ _ _ U) as [(_ & X)|[(_ & _ & X)|(_ & _ & _ & X)]]; discriminate.
      * split; [reflexivity|]. simpl. auto.
    + cbv zeta in M. destruct (issmallint (m f)); cbn [negb] in M; [|injection M as <- <- <-; split; [reflexivity|intros X; discriminate]].
      destruct (fits_smallint32 (w32 (decode_smallint (m f) + n))); cbn [negb] in M;
        [|injection M as <- <- <-; split; [reflexivity|intros X; discriminate]].
      destruct (update_tests indexed f (encode_smallint32 (w32 (decode_smallint (m f) + n))) (m f)) as [e0|] eqn:U; injection M as <- <- <-.
      * split; [reflexivity|]. intros ->.
        destruct (tests_some _ _ _ _ U) as [(_ & X)|[(_ & _ & X)|(_ & _ & _ & X)]]; discriminate.
      * split; [reflexivity|]. simpl. auto.
  - destruct TR as (-> & TR1 & TR2). destruct (Z.eqb_spec (m (field_of c)) old) as [E|E].
    + injection M as <- <- <-. split; [reflexivity|]. intros X; discriminate.
    + destruct TR2 as [X|TR2]; [contradiction|].
      destruct (Nat.ltb_spec 1000 i); injection M as <- <- <-.
      * split; [reflexivity|]. intros _ _. lia.
      * split; [reflexivity|]. exact TR2.
Qed.

Definition tries_inv (s : system) : Prop :=
  (forall k p, nth_error (procs s) k = Some p -> shape (at_ p) /\ tries (mem s) (log s) k (at_ p)) /\
  (forall l k c l', log s = l ++ (k, c, -17) :: l' -> (forall f, c <> Get f) ->
     (1002 <= changes k (field_of c) l)%nat).

Lemma app_last_split : forall (A : Type) (l : list A) x a y b, l ++ [x] = a ++ y :: b ->
  (b = nil /\ l = a /\ x = y) \/ exists b', b = b' ++ [x] /\ l = a ++ y :: b'.
Proof.
  intros A l x a y b H. destruct b as [|z b] using rev_ind.
  - left. apply app_inj_tail in H. destruct H as (-> & ->). auto.
  - right. clear IHb. rewrite app_comm_cons, app_assoc in H. apply app_inj_tail in H.
    destruct H as (-> & ->). exists b. auto.
Qed.

Lemma tries_step : forall s t, tries_inv s -> step s t -> tries_inv t.
Proof.
  intros s t (I1 & I2) S. destruct S as [s j q m' q' e J M].
  destruct (I1 j q J) as (SH & TR). pose proof (move_tries _ _ _ _ _ _ _ SH TR M) as MT.
  pose proof (move_shape _ _ _ _ _ SH M) as SH'. split; simpl.
  - intros k p K. destruct (Nat.eq_dec k j) as [->|N].
    + rewrite (set_nth_same _ _ q' _ J) in K. injection K as <-. split; [exact SH'|].
      destruct e as [(c, r)|].
      * destruct MT as (B & _). rewrite B. exact Logic.I.
      * destruct MT as (-> & MT). rewrite app_nil_r. exact MT.
    + rewrite (set_nth_other _ _ _ _ N) in K. destruct (I1 k p K) as (SK & TK). split; [exact SK|].
      assert (MONO : forall f l, (changes k f (log s) <= changes k f (log s ++ l))%nat)
        by (intros; rewrite changes_app; lia).
      destruct (at_ p) as [|c i|c i f old new]; simpl in *; [exact Logic.I| |].
      * match goal with |- (_ <= changes k ?f (log s ++ ?l))%nat => specialize (MONO f l) end. lia.
      * destruct TK as (-> & TK1 & TK2). split; [reflexivity|].
        split; [match goal with |- (_ <= changes k ?f (log s ++ ?l))%nat => specialize (MONO f l) end; lia|].
        destruct TK2 as [TK2|TK2].
        -- destruct (Z.eq_dec (m' (field_of c)) (mem s (field_of c))) as [Q|Q]; [left; congruence|right].
           destruct (move_changes _ _ _ _ _ _ SH M Q) as (c' & -> & FC & NG).
           rewrite changes_app. assert (X : changes k (field_of c) [(j, c', 0)] = 1%nat).
           { unfold changes. simpl. destruct c' as [g|g d o|g d|g n]; [exfalso; exact (NG g eq_refl)| | |];
               simpl in FC; rewrite FC, Nat.eqb_refl; (destruct (Nat.eqb_spec j k); [congruence|reflexivity]). }
           rewrite X. lia.
        -- right. match goal with |- (_ <= changes k ?f (log s ++ ?l))%nat => specialize (MONO f l) end. lia.
  - intros l k c l' E NG. destruct e as [(c0, r0)|].
    + destruct (app_last_split _ _ _ _ _ _ E) as [(-> & <- & Q)|(b' & -> & Q)].
      * injection Q as -> -> ->. destruct MT as (_ & MT). exact (MT eq_refl NG).
      * exact (I2 l k c b' Q NG).
    + rewrite app_nil_r in E. exact (I2 l k c l' E NG).
Qed.

Lemma tries_reaches : forall m0 programs s, reaches (start m0 programs) s -> tries_inv s.
Proof.
  intros m0 programs s R. remember (start m0 programs) as s0 eqn:E. induction R as [s|s t u R IH S].
  - subst s. split; simpl.
    + intros k p K. rewrite nth_error_map in K. destruct (nth_error programs k); [|discriminate].
      injection K as <-. split; exact Logic.I.
    + intros l k c l' X. destruct l; discriminate.
  - exact (tries_step t u (IH E) S).
Qed.

(** Every call ends. *)
Definition weight (p : process) : Z :=
  3000 * Z.of_nat (length (todo p)) +
   match at_ p with
   | Between => 0
   | Round _ i => 2 + 2 * Z.max 0 (1002 - Z.of_nat i)
   | Swap _ i _ _ _ => 1 + 2 * Z.max 0 (1002 - Z.of_nat i)
   end.
Fixpoint total (l : list process) : Z := match l with nil => 0 | p :: r => weight p + total r end.

Lemma total_set : forall l k p q, nth_error l k = Some q -> total (set_nth k p l) + weight q = total l + weight p.
Proof.
  induction l as [|x l IH]; intros [|k] p q H; cbn [nth_error set_nth total] in *; try discriminate.
  - injection H as ->. lia.
  - specialize (IH k p q H). lia.
Qed.

Lemma weight_pos : forall p, 0 <= weight p.
Proof. intros [td [|c i|c i f old new]]; unfold weight; cbn [todo at_]; lia. Qed.

Lemma total_pos : forall l, 0 <= total l.
Proof. induction l as [|x l IH]; cbn [total]; [lia|]. pose proof (weight_pos x). lia. Qed.

Lemma move_weight : forall m p m' p' e, move m p = Some (m', p', e) -> weight p' < weight p.
Proof.
  intros m [td a] m' p' e M. unfold AtModel.move in M. cbn [todo at_] in M. unfold weight.
  destruct a as [|c i|c i f old new].
  - destruct td as [|c r]; [discriminate|]. destruct c as [f|f d o|f d|f n].
    + injection M as <- <- <-. cbn [todo at_ length]. lia.
    + destruct (update_tests indexed f d o); [|destruct (m f =? o)]; injection M as <- <- <-; cbn [todo at_ length]; lia.
    + injection M as <- <- <-. cbn [todo at_ length]. lia.
    + injection M as <- <- <-. cbn [todo at_ length]. lia.
  - destruct c as [f|f d o|f d|f n]; try discriminate.
    + destruct (update_tests indexed f d (m f)); injection M as <- <- <-; cbn [todo at_]; lia.
    + cbv zeta in M. destruct (issmallint (m f)); cbn [negb] in M; [|injection M as <- <- <-; cbn [todo at_]; lia].
      destruct (fits_smallint32 (w32 (decode_smallint (m f) + n))); cbn [negb] in M; [|injection M as <- <- <-; cbn [todo at_]; lia].
      destruct (update_tests indexed f (encode_smallint32 (w32 (decode_smallint (m f) + n))) (m f)); injection M as <- <- <-;
        cbn [todo at_]; lia.
  - destruct (m f =? old); [injection M as <- <- <-; cbn [todo at_]; lia|].
    destruct (Nat.ltb_spec 1000 i); injection M as <- <- <-; cbn [todo at_]; lia.
Qed.

Lemma steps_bound : forall n s t, steps indexed n s t -> Z.of_nat n <= total (procs s).
Proof.
  intros n s t H. induction H as [s|n s t u S H IH]; [apply total_pos|].
  destruct S as [s k p m' p' e K M]. cbn [procs] in IH.
  pose proof (total_set _ _ p' _ K). pose proof (move_weight _ _ _ _ _ M). lia.
Qed.

(** A process at a place it can be at has a step unless it is done. *)
Lemma move_some : forall m p, shape (at_ p) -> move m p = None -> at_ p = Between /\ todo p = nil.
Proof.
  intros m [td a] SH M. unfold AtModel.move in M. cbn [todo at_ shape] in *.
  destruct a as [|c i|c i f old new].
  - destruct td as [|[f|f d o|f d|f n] r]; try discriminate; auto.
    destruct (update_tests indexed f d o); [discriminate|]. destruct (m f =? o); discriminate.
  - destruct c as [f|f d o|f d|f n]; try contradiction.
    + destruct (update_tests indexed f d (m f)); discriminate.
    + cbv zeta in M. destruct (issmallint (m f)); cbn [negb] in M; [|discriminate].
      destruct (fits_smallint32 (w32 (decode_smallint (m f) + n))); cbn [negb] in M; [|discriminate].
      destruct (update_tests indexed f (encode_smallint32 (w32 (decode_smallint (m f) + n))) (m f)); discriminate.
  - destruct (m f =? old); [discriminate|]. destruct (Nat.ltb 1000 i); discriminate.
Qed.

Lemma procs_length : forall m programs s, reaches (start m programs) s -> length (procs s) = length programs.
Proof.
  intros m programs s R. remember (start m programs) as s0 eqn:E. induction R as [s|s t u R IH S].
  - subst s. simpl. apply map_length.
  - specialize (IH E). destruct S. simpl. rewrite set_nth_length. exact IH.
Qed.

Lemma total_start : forall m programs, total (procs (start m programs)) = 3000 * Z.of_nat (length (concat programs)).
Proof.
  intros m programs. unfold start. cbn [procs]. induction programs as [|l r IH]; [reflexivity|].
  cbn [map total concat]. rewrite IH, app_length. unfold weight. cbn [todo at_]. lia.
Qed.

Lemma stuck_done : forall m programs s k program, reaches (start m programs) s -> (forall t, ~ step s t) ->
  nth_error programs k = Some program -> of_process k (log s) = program.
Proof.
  intros m programs s k program R ST K.
  destruct (nth_error (procs s) k) as [p|] eqn:P.
  - destruct (move (mem s) p) as [[[m' p'] e]|] eqn:M.
    + exfalso. eapply ST. apply (step_move indexed s k p m' p' e P M).
    + destruct (move_some (mem s) p (proj1 (proj1 (tries_reaches m programs s R) k p P)) M) as (A & T).
      pose proof (reaches_order m programs s R k p P) as Q. unfold pending in Q. rewrite A, T, app_nil_r in Q. congruence.
  - exfalso. apply nth_error_None in P. rewrite (procs_length m programs s R) in P. apply nth_error_None in P. congruence.
Qed.

Lemma in_of_process : forall l k c r, In (k, c, r) l -> In c (of_process k l).
Proof.
  intros l k c r I. unfold of_process. apply in_map_iff. exists (k, c, r). split; [reflexivity|].
  apply filter_In. split; [exact I|]. simpl. apply Nat.eqb_refl.
Qed.

Lemma log_index : forall m programs s, reaches (start m programs) s ->
  forall k c r, In (k, c, r) (log s) -> (k < length (procs s))%nat.
Proof.
  intros m programs s R. remember (start m programs) as s0 eqn:E. induction R as [s|s t u R IH S]; intros k c r I.
  - subst s. destruct I.
  - specialize (IH E). destruct S as [t j q m' q' e J M]. simpl in *. rewrite set_nth_length.
    apply in_app_or in I. destruct I as [I|I]; [exact (IH k c r I)|].
    destruct e as [(c0, r0)|]; [|destruct I]. destruct I as [I|I]; [|destruct I]. injection I as -> _ _.
    apply nth_error_Some. congruence.
Qed.

Lemma log_program : forall m programs s, reaches (start m programs) s ->
  forall k c r, In (k, c, r) (log s) -> exists program, In program programs /\ In c program.
Proof.
  intros m programs s R k c r I. pose proof (log_index m programs s R k c r I) as L. apply nth_error_Some in L.
  destruct (nth_error (procs s) k) as [p|] eqn:P; [|contradiction].
  pose proof (reaches_order m programs s R k p P) as Q. eexists. split; [exact (nth_error_In _ _ Q)|].
  apply in_or_app. left. exact (in_of_process _ _ _ _ I).
Qed.

(** The counter. *)
Lemma added_app : forall f a b, added f (a ++ b) = added f a + added f b.
Proof.
  intros f a b. induction a as [|[[k c] r] a IH]; [reflexivity|]. simpl.
  destruct c as [g|g d o|g d|g n]; try exact IH. destruct r; try exact IH.
  destruct (Nat.eqb g f); lia.
Qed.

Lemma counter : forall m0 l m f v, one_by_one indexed short m0 l m -> m0 f = int_word v ->
  (forall k c r, In (k, c, r) l -> field_of c = f -> match c with Get _ | Add _ _ => True | _ => False end) ->
  m f = int_word (v + added f l).
Proof.
  intros m0 l m f v O E H. induction O as [|l m1 k c r m2 O IH D].
  - simpl. rewrite Z.add_0_r. exact E.
  - assert (IH' : m1 f = int_word (v + added f l)).
    { apply IH. intros k' c' r' I. apply (H k' c' r'). apply in_or_app. auto. }
    rewrite added_app.
    assert (HC : field_of c = f -> match c with Get _ | Add _ _ => True | _ => False end).
    { apply (H k c r). apply in_or_app. right. left. reflexivity. }
    inversion D; subst; simpl in HC |- *; rewrite ?Z.add_0_r; try exact IH'.
    + destruct (Nat.eq_dec f0 f) as [->|N]; [exfalso; exact (HC eq_refl)|].
      match goal with X : stored _ _ _ _ |- _ => rewrite (proj2 X f ltac:(congruence)) end. exact IH'.
    + destruct (Nat.eq_dec f0 f) as [->|N]; [exfalso; exact (HC eq_refl)|].
      match goal with X : stored _ _ _ _ |- _ => rewrite (proj2 X f ltac:(congruence)) end. exact IH'.
    + destruct (Nat.eqb_spec f0 f) as [->|N].
      * match goal with X : stored _ _ _ _ |- _ => rewrite (proj1 X) end. f_equal.
        match goal with X : m1 f = int_word v0 |- _ => rewrite IH' in X; apply int_word_inj in X end. lia.
      * match goal with X : stored _ _ _ _ |- _ => rewrite (proj2 X f ltac:(congruence)) end. rewrite Z.add_0_r. exact IH'.
Qed.
End P.
