(** C76: the document of a record is found, and deleting a document deletes just its records. *)
From Coq Require Import ZArith Lia List Bool Arith.
From Verif Require Import DocModel.
Import ListNotations.
Open Scope Z_scope.

(** ** Finding *)
(** [y] refers to [x] in a field; [n] such steps lead from [x] up to [y] *)
Definition refers (m : heap) (y x : Z) : Prop := exists r, m y = Some r /\ In (Ref x) (fields r).
Inductive up (m : heap) : nat -> Z -> Z -> Prop :=
| up_0 : forall x, up m 0 x x
| up_S : forall n x y z, refers m y x -> up m n y z -> up m (S n) x z.
Definition is_doc (m : heap) (x : Z) : Prop := exists r, m x = Some r /\ doc r = true.
(** The backlinks are those of the fields *)
Definition linked (m : heap) : Prop := forall x r y, m x = Some r -> (In y (back r) <-> refers m y x).
(** A document on the way stops the search: [n] steps over records that are not documents *)
Inductive upto (m : heap) : nat -> Z -> Z -> Prop :=
| upto_0 : forall x, is_doc m x -> upto m 0 x x
| upto_S : forall n x y z, ~ is_doc m x -> refers m y x -> upto m n y z -> upto m (S n) x z.

Lemma first_spec f : forall l, match first_some f l with Some y => exists x, In x l /\ f x = Some y | None => forall x, In x l -> f x = None end.
Proof.
  induction l as [|x l IH]; cbn [first_some]; [intros x []|]. destruct (f x) as [y|] eqn:E; [exists x; split; [left; reflexivity|exact E]|].
  destruct (first_some f l) as [y|]; [destruct IH as (z & I & F); exists z; split; [right; exact I|exact F]|]. intros z [ <-|I]; [exact E|apply IH, I].
Qed.
Lemma find_spec m : linked m -> forall d x r, m x = Some r ->
  match find d m x with Some y => exists n, (n <= d)%nat /\ upto m n x y | None => forall n y, (n <= d)%nat -> ~ upto m n x y end.
Proof.
  intros L. induction d as [|d IH]; intros x r E; cbn [find]; rewrite E.
  - destruct (doc r) eqn:D; [exists 0%nat; split; [lia|]; constructor; exists r; split; assumption|].
    intros n y N U. inversion U as [? (r' & E' & D')|]; subst; [congruence|lia].
  - destruct (doc r) eqn:D; [exists 0%nat; split; [lia|]; constructor; exists r; split; assumption|].
    assert (ND : ~ is_doc m x) by (intros (r' & E' & D'); congruence).
    pose proof (first_spec (find d m) (back r)) as F. destruct (first_some (find d m) (back r)) as [y|].
    + destruct F as (z & I & F). apply (L x r z E) in I. destruct I as (rz & Ez & Iz). pose proof (IH z rz Ez) as G. rewrite F in G. destruct G as (n & Ln & U).
      exists (S n). split; [lia|]. econstructor; [exact ND| |exact U]. exists rz. split; assumption.
    + intros n y N U. inversion U as [? (r' & E' & D')|n' ? z ? ND' R U']; subst; [congruence|].
      assert (I : In z (back r)) by (apply (L x r z E), R). destruct R as (rz & Ez & Iz). pose proof (IH z rz Ez) as G. rewrite (F z I) in G. apply (G n' y); [lia|exact U'].
Qed.
(** For every database with correct backlinks, cycles and shared records included: the answer is a
    document that contains the record, at most six steps up with no document in between, and
    there is an answer when there is such a document; a record in one document only is found in it *)
Theorem C76_find : forall m x r, linked m -> m x = Some r ->
  (forall y, find_document m x = Some y -> is_doc m y /\ exists n, (n <= 6)%nat /\ up m n x y) /\
  (find_document m x = None <-> forall n y, (n <= 6)%nat -> is_doc m y -> ~ up m n x y) /\
  (forall y, is_doc m y -> (exists n, (n <= 6)%nat /\ up m n x y) -> (forall n z, is_doc m z -> up m n x z -> z = y) -> find_document m x = Some y).
Proof.
  intros m x r L E. assert (T : forall n a b, upto m n a b -> is_doc m b /\ up m n a b).
  { clear. induction 1 as [a D|n a b c ND R U [D IH]]; [split; [exact D|constructor]|split; [exact D|econstructor; eassumption]]. }
  assert (B : forall n a b, up m n a b -> is_doc m b -> exists k c, (k <= n)%nat /\ upto m k a c).
  { clear. induction 1 as [a|n a b c R U IH]; intros D; [exists 0%nat, a; split; [lia|constructor; exact D]|]. destruct (IH D) as (k & e & K & V).
    assert (X : is_doc m a \/ ~ is_doc m a) by (unfold is_doc; destruct (m a) as [ra|]; [destruct (doc ra) eqn:Q; [left; exists ra; split; [reflexivity|exact Q]|right; intros (r' & E1 & E2); congruence]|right; intros (r' & E1 & _); discriminate]).
    destruct X as [X|X]; [exists 0%nat, a; split; [lia|constructor; exact X]|]. exists (S k), e. split; [lia|]. econstructor; eassumption. }
  pose proof (find_spec m L 6 x r E) as F. unfold find_document. change (REC_DEPTH - 1)%nat with 6%nat. destruct (find 6 m x) as [w|] eqn:Q.
  - destruct F as (n & N & U). destruct (T _ _ _ U) as [D V]. split; [|split].
    + intros y H. injection H as <-. split; [exact D|]. exists n. split; assumption.
    + split; [discriminate|]. intros H. destruct (H n w N D V).
    + intros y Dy _ H. rewrite (H n w D V). reflexivity.
  - split; [discriminate|]. assert (G : forall n y, (n <= 6)%nat -> is_doc m y -> ~ up m n x y).
    { intros n y N D U. destruct (B _ _ _ U D) as (k & c & K & V). apply (F k c); [lia|exact V]. }
    split; [split; [intros _; exact G|reflexivity]|]. intros y D (n & N & U). destruct (G n y N D U).
Qed.

(** ** Deleting *)
Definition refs (l : list val) : list Z := flat_map (fun v => match v with Ref o => [o] | Imm _ => [] end) l.
Inductive forest (P : Z -> list Z -> Prop) : list Z -> list Z -> Prop :=
| forest_nil : forest P [] []
| forest_cons : forall c cs ns ns', P c ns -> forest P cs ns' -> forest P (c :: cs) (ns ++ ns').
(** The records [ns] below and with [off], at most [d] levels; [b]: the backlinks of [off]; every other
    record is referred to only by the one above it *)
Fixpoint tree (m : heap) (d : nat) (b : list Z) (off : Z) (ns : list Z) : Prop :=
  match d with
  | O => False
  | S d => exists r ns', m off = Some r /\ back r = b /\ ns = off :: ns' /\ forest (tree m d [off]) (refs (fields r)) ns'
  end.
Lemma upd_same m k x : upd m k x k = x.
Proof. unfold upd. rewrite Z.eqb_refl. reflexivity. Qed.
Lemma upd_other m k x j : j <> k -> upd m k x j = m j.
Proof. intros N. unfold upd. destruct (Z.eqb_spec j k); [contradiction|reflexivity]. Qed.
Lemma forest_impl (P Q : Z -> list Z -> Prop) cs ns : forest P cs ns -> (forall c l, (forall x, In x l -> In x ns) -> P c l -> Q c l) -> forest Q cs ns.
Proof.
  induction 1 as [|c cs l l' H F IH]; intros I; constructor.
  - apply I; [|exact H]. intros x X. apply in_or_app. left. exact X.
  - apply IH. intros c' k S. apply I. intros x X. apply in_or_app. right. apply S, X.
Qed.
Lemma tree_ext m m' : forall d b off ns, (forall x, In x ns -> m' x = m x) -> tree m d b off ns -> tree m' d b off ns.
Proof.
  induction d as [|d IH]; intros b off ns S T; [exact T|]. destruct T as (r & ns' & E & B & -> & F). exists r, ns'. split; [rewrite S by (left; reflexivity); exact E|].
  split; [exact B|]. split; [reflexivity|]. apply (forest_impl _ _ _ _ F). intros c l I H. apply IH; [|exact H]. intros x X. apply S. right. apply I, X.
Qed.
Lemma skipn_S : forall (l : list val) i, (i < length l)%nat -> skipn i l = nth i l (Imm 0) :: skipn (S i) l.
Proof. induction l as [|x l IH]; intros i L; [cbn in L; lia|]. destruct i as [|i]; [reflexivity|]. cbn [skipn nth]. rewrite IH by (cbn in L; lia). reflexivity. Qed.
Lemma set_nth_len : forall l i v, length (set_nth i v l) = length l.
Proof. induction l as [|x l IH]; intros [|i] v; cbn; try reflexivity. rewrite IH. reflexivity. Qed.
Lemma set_nth_skip : forall l i v, skipn (S i) (set_nth i v l) = skipn (S i) l.
Proof. induction l as [|x l IH]; intros i v; [destruct i; reflexivity|]. destruct i as [|i]; [reflexivity|]. cbn [set_nth]. change (skipn (S (S i)) (x :: l)) with (skipn (S i) l). rewrite <- (IH i v). reflexivity. Qed.
Lemma nodup_l : forall (k l : list Z), NoDup (k ++ l) -> NoDup k.
Proof. induction k as [|a k IH]; intros l N; [constructor|]. inversion N as [|? ? A B]; subst. constructor; [intros X; apply A, in_or_app; left; exact X|exact (IH l B)]. Qed.
Lemma nodup_r : forall (k l : list Z), NoDup (k ++ l) -> NoDup l.
Proof. induction k as [|a k IH]; intros l N; [exact N|]. inversion N as [|? ? A B]; subst. exact (IH l B). Qed.
Definition gone (m m' : heap) (ns : list Z) : Prop := (forall x, In x ns -> m' x = None) /\ (forall x, ~ In x ns -> m' x = m x).

Lemma loop_ok dl (d : nat) off :
  (forall m c ns, tree m d [] c ns -> NoDup ns -> exists m', dl m c = (Done, m') /\ gone m m' ns) ->
  forall n i m r ns, m off = Some r -> length (fields r) = (i + n)%nat -> forest (tree m d [off]) (refs (skipn i (fields r))) ns -> NoDup (off :: ns) ->
  exists m' r', loop dl n i off m = (Done, m') /\ m' off = Some r' /\ back r' = back r /\
    (forall x, In x ns -> m' x = None) /\ (forall x, x <> off -> ~ In x ns -> m' x = m x).
Proof.
  intros D. induction n as [|n IH]; intros i m r ns E Ln F N.
  - rewrite skipn_all2 in F by lia. inversion F; subst. exists m, r. cbn. split; [reflexivity|]. split; [exact E|]. split; [reflexivity|]. split; [intros x []|reflexivity].
  - rewrite skipn_S in F by lia. cbn [loop]. rewrite E. destruct (nth i (fields r) (Imm 0)) as [z|c] eqn:Q.
    + apply (IH (S i) m r ns E); [lia|exact F|exact N].
    + cbn [refs flat_map app] in F. fold (refs (skipn (S i) (fields r))) in F. inversion F as [|? ? l l' T F']; subst.
      destruct d as [|d]; [destruct T|]. destruct T as (rc & nc & Ec & Bc & -> & Fc). inversion N as [|? ? Noff N']; subst.
      assert (NA : ~ In off (c :: nc)) by (intros X; apply Noff; apply (in_or_app (c :: nc) l'); left; exact X).
      assert (NB : ~ In off l') by (intros X; apply Noff; apply (in_or_app (c :: nc) l'); right; exact X).
      assert (Nc : c <> off) by (intros ->; apply NA; left; reflexivity).
      pose proof (nodup_l (c :: nc) l' N') as Nl.
      assert (DJ : forall x, In x l' -> ~ In x (c :: nc)).
      { intros x X Y. clear -N' X Y. change (NoDup ((c :: nc) ++ l')) in N'. revert N' Y. generalize (c :: nc) as k. induction k as [|a k IH]; intros N' Y; [destruct Y|]. cbn in N'. inversion N' as [|? ? A B]; subst.
        destruct Y as [ <-|Y]; [apply A, in_or_app; right; exact X|apply IH; assumption]. }
      unfold clear_field. rewrite upd_other by exact Nc. rewrite Ec, Bc. cbn [remove1]. rewrite Z.eqb_refl.
      set (r1 := mkR (set_nth i (Imm 0) (fields r)) (doc r) (back r)). set (m1 := upd (upd m off (Some r1)) c (Some (mkR (fields rc) (doc rc) []))).
      assert (M1 : forall x, x <> off -> x <> c -> m1 x = m x) by (intros x A B; unfold m1; rewrite !upd_other by assumption; reflexivity).
      assert (T1 : tree m1 (S d) [] c (c :: nc)).
      { exists (mkR (fields rc) (doc rc) []), nc. split; [apply upd_same|]. split; [reflexivity|]. split; [reflexivity|]. apply (forest_impl _ _ _ _ Fc). intros c' k I H.
        apply (tree_ext m); [|exact H]. intros x X. apply I in X. apply M1; [intros ->; apply NA; right; exact X|]. intros ->. inversion Nl; contradiction. }
      destruct (D m1 c (c :: nc) T1 Nl) as (m2 & E2 & G1 & G2). rewrite E2.
      assert (Eo : m2 off = Some r1).
      { rewrite G2 by exact NA. unfold m1. rewrite upd_other by (intros X; apply Nc; symmetry; exact X). apply upd_same. }
      destruct (IH (S i) m2 r1 l' Eo) as (m' & r' & A & B & C & G & H).
      * cbn [r1 fields]. rewrite set_nth_len. lia.
      * cbn [r1 fields]. rewrite set_nth_skip. apply (forest_impl _ _ _ _ F'). intros c' k I H. apply (tree_ext m); [|exact H]. intros x X. apply I in X.
        rewrite G2 by (apply DJ, X). apply M1; [intros ->; exact (NB X)|intros ->; apply (DJ c X); left; reflexivity].
      * constructor; [exact NB|]. exact (nodup_r (c :: nc) l' N').
      * exists m', r'. split; [exact A|]. split; [exact B|]. split; [exact C|]. split.
        -- intros x X. apply (in_app_or (c :: nc) l') in X as [X|X]; [|apply G, X]. rewrite H; [apply G1, X| |].
           ++ intros ->. exact (NA X).
           ++ intros Y. exact (DJ x Y X).
        -- intros x A1 A2. rewrite H; [|exact A1|intros Y; apply A2, (in_or_app (c :: nc) l'); right; exact Y]. rewrite G2 by (intros Y; apply A2, (in_or_app (c :: nc) l'); left; exact Y).
           apply M1; [exact A1|]. intros ->. apply A2. left. reflexivity.
Qed.
Lemma del_ok : forall d m off ns, tree m d [] off ns -> NoDup ns -> exists m', del d m off = (Done, m') /\ gone m m' ns.
Proof.
  induction d as [|d IH]; intros m off ns T N; [destruct T|]. destruct T as (r & ns' & E & B & -> & F). cbn [del]. rewrite E.
  destruct (loop_ok (del d) d off IH (length (fields r)) 0 m r ns' E eq_refl F N) as (m1 & r1 & A & C & D & G & H). rewrite A.
  unfold delete_record. rewrite C, D, B. exists (upd m1 off None). split; [reflexivity|]. inversion N as [|? ? No _]; subst. split.
  - intros x [ <-|X]; [apply upd_same|]. rewrite upd_other by (intros ->; contradiction). apply G, X.
  - intros x X. rewrite upd_other by (intros ->; apply X; left; reflexivity). apply H; [intros ->; apply X; left; reflexivity|intros Y; apply X; right; exact Y].
Qed.
(** A document of at most seven levels whose records belong to it alone: deleting it succeeds, its
    records are gone and nothing else is changed.
    Missing: documents with more levels or with records that others refer to (refuted below). *)
Theorem C76_delete_partial : forall m off ns, tree m 7 [] off ns -> NoDup ns ->
  exists m', delete_document m off = (Done, m') /\ (forall x, In x ns -> m' x = None) /\ (forall x, ~ In x ns -> m' x = m x).
Proof. intros m off ns T N. exact (del_ok 7 m off ns T N). Qed.

(** Afterwards the backlinks are again those of the fields *)
Definition inside (m : heap) (b : list Z) (off : Z) (ns : list Z) : Prop :=
  (forall y r x, In y ns -> m y = Some r -> In (Ref x) (fields r) -> In x ns) /\ In off ns /\
  (forall x r, In x ns -> m x = Some r -> (x = off /\ back r = b) \/ (exists p, In p ns /\ back r = [p])).
Lemma refs_in x l : In (Ref x) l -> In x (refs l).
Proof. intros I. apply in_flat_map. exists (Ref x). split; [exact I|left; reflexivity]. Qed.
Lemma tree_inside m : forall d b off ns, tree m d b off ns -> inside m b off ns.
Proof.
  induction d as [|d IH]; intros b off ns T; [destruct T|]. destruct T as (r & ns' & E & B & -> & F).
  assert (G : (forall y q x, In y ns' -> m y = Some q -> In (Ref x) (fields q) -> In x ns') /\ (forall c, In c (refs (fields r)) -> In c ns') /\
              (forall x q, In x ns' -> m x = Some q -> exists p, (p = off \/ In p ns') /\ back q = [p])).
  { clear E. revert F. generalize (refs (fields r)) as cs. clear r B. intros cs F. induction F as [|c cs l l' H F (A1 & A2 & A3)]; [split; [intros y q x []|split; [intros c []|intros x q []]]|].
    destruct (IH _ _ _ H) as (B1 & B2 & B3). split; [|split].
    - intros y q x Y Q I. apply in_app_or in Y as [Y|Y]; apply in_or_app; [left; exact (B1 y q x Y Q I)|right; exact (A1 y q x Y Q I)].
    - intros k [ <-|K]; apply in_or_app; [left; exact B2|right; exact (A2 k K)].
    - intros x q X Q. apply in_app_or in X as [X|X].
      + destruct (B3 x q X Q) as [[_ Z]|(p & P & Z)]; [exists off; split; [left; reflexivity|exact Z]|exists p; split; [right; apply in_or_app; left; exact P|exact Z]].
      + destruct (A3 x q X Q) as (p & [P|P] & Z); exists p; (split; [|exact Z]); [left; exact P|right; apply in_or_app; right; exact P]. }
  destruct G as (G1 & G2 & G3). split; [|split; [left; reflexivity|]].
  - intros y q x [ <-|Y] Q I; [right; apply G2; assert (q = r) as -> by congruence; apply refs_in, I|right; exact (G1 y q x Y Q I)].
  - intros x q [ <-|X] Q; [left; split; [reflexivity|congruence]|]. right. destruct (G3 x q X Q) as (p & [P|P] & Z); exists p; (split; [|exact Z]); [left; symmetry; exact P|right; exact P].
Qed.
Theorem C76_delete_linked_partial : forall m off ns, linked m -> tree m 7 [] off ns -> NoDup ns -> linked (snd (delete_document m off)).
Proof.
  intros m off ns L T N. destruct (del_ok 7 m off ns T N) as (m' & E & G1 & G2). unfold delete_document. change REC_DEPTH with 7%nat. rewrite E. cbn [snd].
  destruct (tree_inside m 7 [] off ns T) as (I1 & I2 & I3). intros x r y X.
  assert (NX : ~ In x ns) by (intros Y; rewrite (G1 x Y) in X; discriminate). rewrite (G2 x NX) in X.
  rewrite (L x r y X). split; intros (q & Q & I).
  - destruct (in_dec Z.eq_dec y ns) as [Y|Y]; [destruct (NX (I1 y q x Y Q I))|]. exists q. split; [rewrite (G2 y Y); exact Q|exact I].
  - destruct (in_dec Z.eq_dec y ns) as [Y|Y]; [rewrite (G1 y Y) in Q; discriminate|]. rewrite (G2 y Y) in Q. exists q. split; assumption.
Qed.

(** ** Every delete, whether it succeeds or not *)
(** The backlinks are those of the fields, one for each; no field refers to a record that is not there *)
Definition ref_count (x : Z) (l : list val) : nat := count_occ Z.eq_dec (refs l) x.
Definition exact (m : heap) : Prop :=
  (forall x r y, m x = Some r -> count_occ Z.eq_dec (back r) y = match m y with Some q => ref_count x (fields q) | None => 0%nat end) /\
  (forall y q x, m y = Some q -> In (Ref x) (fields q) -> m x <> None).
(** Records disappear or lose references; nothing else changes *)
Definition kept (v v' : val) : Prop := v' = v \/ (v' = Imm 0 /\ exists c, v = Ref c).
Definition shrunk (m m' : heap) : Prop := forall x r', m' x = Some r' -> exists r, m x = Some r /\ doc r' = doc r /\ Forall2 kept (fields r) (fields r').
Lemma kept_refl l : Forall2 kept l l.
Proof. induction l; constructor; [left; reflexivity|assumption]. Qed.
Lemma kept_trans : forall a b c, Forall2 kept a b -> Forall2 kept b c -> Forall2 kept a c.
Proof.
  intros a b c H. revert c. induction H as [|x y a b K H IH]; intros c G; inversion G as [|? z ? c' K' G']; subst; constructor; [|apply IH, G'].
  destruct K as [ -> |[ -> X]]; [exact K'|]. destruct K' as [ -> |[ -> [d D]]]; [right; split; [reflexivity|exact X]|discriminate].
Qed.
Lemma shrunk_refl m : shrunk m m.
Proof. intros x r E. exists r. split; [exact E|]. split; [reflexivity|apply kept_refl]. Qed.
Lemma shrunk_trans a b c : shrunk a b -> shrunk b c -> shrunk a c.
Proof.
  intros H G x r E. destruct (G x r E) as (q & Q & D & K). destruct (H x q Q) as (p & P & D' & K'). exists p. split; [exact P|]. split; [congruence|exact (kept_trans _ _ _ K' K)].
Qed.
Lemma kept_nth : forall l l' i c, Forall2 kept l l' -> nth i l' (Imm 0) = Ref c -> nth i l (Imm 0) = Ref c.
Proof.
  intros l l' i c H. revert i. induction H as [|x y l l' K H IH]; intros i E; [destruct i; discriminate|]. destruct i as [|i]; [|apply IH, E].
  cbn in *. destruct K as [ -> |[ -> _]]; [exact E|discriminate].
Qed.
Lemma kept_len l l' : Forall2 kept l l' -> length l' = length l.
Proof. induction 1; cbn; congruence. Qed.
Lemma set_kept : forall l i c, nth i l (Imm 0) = Ref c -> Forall2 kept l (set_nth i (Imm 0) l).
Proof.
  induction l as [|x l IH]; intros i c E; [destruct i; constructor|]. destruct i as [|i]; cbn in *; constructor; [right; split; [reflexivity|exists c; exact E]|apply kept_refl|left; reflexivity|exact (IH i c E)].
Qed.
Lemma set_nth_nth : forall l i, nth i (set_nth i (Imm 0) l) (Imm 0) = Imm 0.
Proof. induction l as [|x l IH]; intros [|i]; cbn; try reflexivity. apply IH. Qed.
Lemma set_count : forall l i c x, nth i l (Imm 0) = Ref c -> ref_count x l = (ref_count x (set_nth i (Imm 0) l) + if Z.eq_dec c x then 1 else 0)%nat.
Proof.
  unfold ref_count. induction l as [|v l IH]; intros i c x E; [destruct i; discriminate|]. destruct i as [|i].
  - cbn in E. subst v. cbn [set_nth refs flat_map app count_occ]. destruct (Z.eq_dec c x); fold (refs l); lia.
  - cbn [nth] in E. cbn [set_nth]. destruct v as [z|o]; cbn [refs flat_map app count_occ]; fold (refs l); fold (refs (set_nth i (Imm 0) l)); pose proof (IH i c x E) as H; [exact H|].
    destruct (Z.eq_dec o x); rewrite H; lia.
Qed.
Lemma set_in l i x : In (Ref x) (set_nth i (Imm 0) l) -> In (Ref x) l.
Proof. revert i. induction l as [|v l IH]; intros i H; [destruct i; exact H|]. destruct i as [|i]; cbn in *; destruct H as [H|H]; [discriminate|right; exact H|left; exact H|right; exact (IH i H)]. Qed.
Lemma remove1_count : forall l x, match remove1 x l with
  | Some b => forall y, count_occ Z.eq_dec l y = (count_occ Z.eq_dec b y + if Z.eq_dec x y then 1 else 0)%nat
  | None => count_occ Z.eq_dec l x = 0%nat end.
Proof.
  induction l as [|a l IH]; intros x; [reflexivity|]. cbn [remove1]. destruct (Z.eqb_spec a x) as [ -> |N].
  - intros y. cbn [count_occ]. destruct (Z.eq_dec x y); lia.
  - pose proof (IH x) as H. destruct (remove1 x l) as [b|]; cbn [option_map].
    + intros y. cbn [count_occ]. rewrite (H y). destruct (Z.eq_dec a y); lia.
    + cbn [count_occ]. destruct (Z.eq_dec a x); [contradiction|exact H].
Qed.
Lemma clear_ok m off r i c : exact m -> m off = Some r -> nth i (fields r) (Imm 0) = Ref c ->
  exists m1 r1, clear_field m off r i c = Some m1 /\ exact m1 /\ shrunk m m1 /\ m1 off = Some r1 /\ nth i (fields r1) (Imm 0) = Imm 0 /\ m1 c <> None.
Proof.
  intros [W1 W2] E Q.
  assert (I : In (Ref c) (fields r)). { rewrite <- Q. apply nth_In. destruct (Nat.lt_ge_cases i (length (fields r))) as [L|L]; [exact L|]. rewrite nth_overflow in Q by exact L. discriminate. }
  pose proof (W2 off r c E I) as NC. destruct (m c) as [qc|] eqn:Ec; [|contradiction]. clear NC.
  set (fs := set_nth i (Imm 0) (fields r)). set (r0 := mkR fs (doc r) (back r)).
  assert (X : exists rc, upd m off (Some r0) c = Some rc /\ back rc = back qc).
  { unfold upd. destruct (Z.eqb_spec c off) as [ -> |N]; [exists r0; split; [reflexivity|]; cbn; congruence|exists qc; split; [exact Ec|reflexivity]]. }
  destruct X as (rc & X1 & X2). pose proof (remove1_count (back qc) off) as RC. pose proof (W1 c qc off Ec) as CO. rewrite E in CO.
  pose proof (set_count (fields r) i c c Q) as SC. destruct (Z.eq_dec c c) as [_|]; [|contradiction].
  unfold clear_field. fold fs. fold r0. rewrite X1, X2. destruct (remove1 off (back qc)) as [b|]; [|lia].
  set (m1 := upd (upd m off (Some r0)) c (Some (mkR (fields rc) (doc rc) b))).
  assert (M : forall x, m1 x = match m x with None => None | Some q => Some (mkR (if x =? off then fs else fields q) (doc q) (if x =? c then b else back q)) end).
  { intros x. unfold m1. unfold upd in X1 |- *. destruct (Z.eqb_spec x c) as [ -> |Nc].
    - rewrite Ec. destruct (Z.eqb_spec c off) as [Eo|No].
      + assert (rc = r0) as -> by congruence. assert (qc = r) as -> by congruence. reflexivity.
      + assert (rc = qc) as -> by congruence. reflexivity.
    - destruct (Z.eqb_spec x off) as [ -> |No]; [rewrite E; reflexivity|]. destruct (m x) as [[f d k]|]; reflexivity. }
  exists m1, (mkR fs (doc r) (if off =? c then b else back r)). split; [reflexivity|]. split; [split|split; [|split; [|split]]].
  - intros x q y Hx. rewrite M in Hx. destruct (m x) as [qx|] eqn:Ex; [|discriminate]. injection Hx as <-. cbn [back fields]. rewrite M.
    pose proof (W1 x qx y Ex) as H. pose proof (set_count (fields r) i c x Q) as SX. fold fs in SX.
    destruct (Z.eqb_spec x c) as [ -> |Nx].
    + assert (qx = qc) as -> by congruence. pose proof (RC y) as Hy. destruct (Z.eq_dec c c) as [_|]; [|contradiction].
      destruct (m y) as [qy|] eqn:Ey.
      * cbn [fields]. destruct (Z.eqb_spec y off) as [ -> |Ny].
        -- assert (qy = r) as -> by congruence. destruct (Z.eq_dec off off) as [_|]; [|contradiction]. lia.
        -- destruct (Z.eq_dec off y) as [ -> |]; [contradiction|]. lia.
      * destruct (Z.eq_dec off y) as [ <- |]; [congruence|]. lia.
    + destruct (Z.eq_dec c x) as [ -> |]; [contradiction|]. destruct (m y) as [qy|] eqn:Ey; [|exact H]. cbn [fields]. destruct (Z.eqb_spec y off) as [ -> |Ny]; [|exact H].
      assert (qy = r) as -> by congruence. lia.
  - intros y q x Hy Hi. rewrite M in Hy. destruct (m y) as [qy|] eqn:Ey; [|discriminate]. injection Hy as <-. cbn [fields] in Hi.
    assert (Hi' : In (Ref x) (fields qy)) by (destruct (Z.eqb_spec y off) as [ -> |]; [assert (qy = r) as -> by congruence; exact (set_in _ _ _ Hi)|exact Hi]).
    pose proof (W2 y qy x Ey Hi') as K. rewrite M. destruct (m x); [discriminate|contradiction].
  - intros x r' Hx. rewrite M in Hx. destruct (m x) as [qx|] eqn:Ex; [|discriminate]. injection Hx as <-. exists qx. split; [reflexivity|]. split; [reflexivity|]. cbn [fields].
    destruct (Z.eqb_spec x off) as [ -> |]; [|apply kept_refl]. assert (qx = r) as -> by congruence. exact (set_kept _ _ _ Q).
  - rewrite M, E, Z.eqb_refl. reflexivity.
  - apply set_nth_nth.
  - rewrite M, Ec. discriminate.
Qed.
Definition safe (m : heap) (x : outcome * heap) : Prop := exact (snd x) /\ shrunk m (snd x).
Lemma loop_safe dl off : (forall m c, exact m -> safe m (dl m c)) ->
  forall n i m, exact m -> (forall r, m off = Some r -> length (fields r) = (i + n)%nat) ->
  safe m (loop dl n i off m) /\
  (forall m', loop dl n i off m = (Done, m') -> forall r, m' off = Some r -> forall j c, (i <= j)%nat -> nth j (fields r) (Imm 0) <> Ref c).
Proof.
  intros D. induction n as [|n IH]; intros i m W L; cbn [loop].
  - split; [split; [exact W|apply shrunk_refl]|]. intros m' H r E j c J. injection H as <-. rewrite nth_overflow by (rewrite (L r E); lia). discriminate.
  - destruct (m off) as [r|] eqn:E; [|split; [split; [exact W|apply shrunk_refl]|discriminate]].
    assert (next : forall m2 r2, exact m2 -> shrunk m m2 -> (forall q, m2 off = Some q -> Forall2 kept (fields r2) (fields q)) -> nth i (fields r2) (Imm 0) <> Ref 0 -> (forall c, nth i (fields r2) (Imm 0) <> Ref c) ->
      safe m (loop dl n (S i) off m2) /\ (forall m', loop dl n (S i) off m2 = (Done, m') -> forall r, m' off = Some r -> forall j c, (i <= j)%nat -> nth j (fields r) (Imm 0) <> Ref c)).
    { intros m2 r2 W2 S2 K2 _ N2. destruct (IH (S i) m2 W2) as [[A1 A2] B].
      - intros q Hq. destruct (S2 off q Hq) as (r' & R1 & _ & R2). rewrite E in R1. injection R1 as <-. rewrite (kept_len _ _ R2), (L r eq_refl). lia.
      - split; [split; [exact A1|exact (shrunk_trans _ _ _ S2 A2)]|]. intros m' H q Hq j c J. destruct (Nat.eq_dec j i) as [ -> |Nj]; [|apply (B m' H q Hq); lia].
        intros Z. rewrite H in A2. destruct (A2 off q Hq) as (q2 & Q1 & _ & Q2). apply (N2 c). apply (kept_nth _ _ _ _ (K2 q2 Q1)). exact (kept_nth _ _ _ _ Q2 Z). }
    destruct (nth i (fields r) (Imm 0)) as [z|c] eqn:Q.
    + apply (next m r W (shrunk_refl m)); [|rewrite Q; discriminate|intros c; rewrite Q; discriminate]. intros q Hq. rewrite E in Hq. injection Hq as <-. apply kept_refl.
    + destruct (clear_ok m off r i c W E Q) as (m1 & r1 & C & W1 & S1 & E1 & N1 & _). rewrite C. destruct (D m1 c W1) as [W2 S2].
      destruct (dl m1 c) as [o m2]. cbn [snd] in *. pose proof (shrunk_trans _ _ _ S1 S2) as S3.
      destruct o; [|split; [split; assumption|discriminate]|split; [split; assumption|discriminate]].
      apply (next m2 r1 W2 S3); [|rewrite N1; discriminate|intros k; rewrite N1; discriminate]. intros q Hq. destruct (S2 off q Hq) as (q1 & Q1 & _ & K). rewrite E1 in Q1. injection Q1 as <-. exact K.
Qed.
Lemma del_safe : forall d m off, exact m -> safe m (del d m off).
Proof.
  induction d as [|d IH]; intros m off W; cbn [del]; [split; [exact W|apply shrunk_refl]|]. destruct (m off) as [r|] eqn:E; [|split; [exact W|apply shrunk_refl]].
  destruct (loop_safe (del d) off IH (length (fields r)) 0 m W) as [[A1 A2] B]; [intros q Hq; rewrite E in Hq; injection Hq as <-; reflexivity|].
  destruct (loop (del d) (length (fields r)) 0 off m) as [o m1]. cbn [snd] in *. destruct o; [|split; assumption|split; assumption]. unfold delete_record.
  destruct (m1 off) as [r1|] eqn:E1; [|split; assumption]. destruct (back r1) as [|p l] eqn:Bk; [|split; assumption]. pose proof (B m1 eq_refl r1 E1) as NR. destruct A1 as [W1 W2].
  assert (F : forall x, ~ In (Ref x) (fields r1)) by (intros x I; apply (In_nth _ _ (Imm 0)) in I as (j & _ & J); exact (NR j x (Nat.le_0_l j) J)).
  assert (F0 : refs (fields r1) = []).
  { clear -F. induction (fields r1) as [|v l IH]; [reflexivity|]. destruct v as [z|o]; [|destruct (F o (or_introl eq_refl))]. cbn. apply IH. intros x I. apply (F x). right. exact I. }
  unfold safe. cbn [snd]. split; [split|].
  - intros x q y Hx. unfold upd in Hx |- *. destruct (Z.eqb_spec x off) as [|Nx]; [discriminate|]. rewrite (W1 x q y Hx). destruct (Z.eqb_spec y off) as [ -> |]; [|reflexivity].
    rewrite E1. unfold ref_count. rewrite F0. reflexivity.
  - intros y q x Hy I. unfold upd in Hy |- *. destruct (Z.eqb_spec y off) as [|Ny]; [discriminate|]. destruct (Z.eqb_spec x off) as [ -> |]; [|exact (W2 y q x Hy I)].
    pose proof (W1 off r1 y E1) as H. rewrite Bk, Hy in H. cbn in H. assert (P : (ref_count off (fields q) > 0)%nat) by (apply count_occ_In, refs_in, I). lia.
  - intros x q Hx. unfold upd in Hx. destruct (Z.eqb_spec x off) as [|Nx]; [discriminate|]. exact (A2 x q Hx).
Qed.
(** For every database with correct backlinks and every record: however deleting ends, the backlinks are correct
    afterwards, and records have only disappeared or had references cleared *)
Theorem C76_links_stay : forall m off, exact m -> exact (snd (delete_document m off)) /\ shrunk m (snd (delete_document m off)).
Proof. intros m off W. exact (del_safe 7 m off W). Qed.
(** A document that refers to itself through a record: the document is freed while it is being deleted *)
Definition ring : heap := fun x => if x =? 1 then Some (mkR [Ref 2; Imm 3] true [2]) else if x =? 2 then Some (mkR [Ref 1] false [1]) else None.
Theorem C76_cycle_refuted : exact ring /\ fst (delete_document ring 1) = Freed.
Proof.
  split; [|reflexivity]. split.
  - intros x r y E. unfold ring in E |- *. destruct (Z.eqb_spec x 1) as [ -> |]; [|destruct (Z.eqb_spec x 2) as [ -> |]; [|discriminate]]; injection E as <-; cbn [back];
    (destruct (Z.eqb_spec y 1) as [ -> |]; [reflexivity|]; destruct (Z.eqb_spec y 2) as [ -> |]; [reflexivity|]); cbn [count_occ]; match goal with |- context [Z.eq_dec ?a ?b] => destruct (Z.eq_dec a b); [congruence|reflexivity] end.
  - intros y q x E I. unfold ring in E |- *. destruct (Z.eqb_spec y 1) as [ -> |]; [|destruct (Z.eqb_spec y 2) as [ -> |]; [|discriminate]]; injection E as <-; cbn in I.
    + destruct I as [I|[I|[]]]; [|discriminate]. injection I as <-. discriminate.
    + destruct I as [I|[]]. injection I as <-. discriminate.
Qed.

(** When deleting fails, part of the document is gone: here the second of three records is also referred
    to from outside, and the document has lost its reference to it and its first part *)
Definition shared : heap := fun x =>
  if x =? 1 then Some (mkR [Ref 2; Ref 3] true []) else if x =? 2 then Some (mkR [Imm 5] false [1])
  else if x =? 3 then Some (mkR [Imm 6] false [1; 9]) else if x =? 9 then Some (mkR [Ref 3] false []) else None.
Theorem C76_failed_delete_refuted :
  linked shared /\ fst (delete_document shared 1) = Fail /\ snd (delete_document shared 1) 2 = None /\
  snd (delete_document shared 1) 1 = Some (mkR [Imm 0; Imm 0] true []).
Proof.
  split; [|vm_compute; repeat split; reflexivity]. intros x r y E. unfold shared in E.
  assert (R : forall z, refers shared y z <-> (y = 1 /\ (z = 2 \/ z = 3)) \/ (y = 9 /\ z = 3)).
  { intros z. unfold refers, shared. split.
    - intros (q & Q & I). destruct (Z.eqb_spec y 1) as [->|]; [injection Q as <-; cbn in I; destruct I as [I|[I|[]]]; injection I as <-; lia|].
      destruct (Z.eqb_spec y 2); [injection Q as <-; cbn in I; destruct I as [I|[]]; discriminate|]. destruct (Z.eqb_spec y 3); [injection Q as <-; cbn in I; destruct I as [I|[]]; discriminate|].
      destruct (Z.eqb_spec y 9) as [->|]; [|discriminate]. injection Q as <-. cbn in I. destruct I as [I|[]]. injection I as <-. lia.
    - intros [[-> [ -> | -> ]]|[-> ->]]; (eexists; split; [reflexivity|cbn; tauto]). }
  rewrite R. destruct (Z.eqb_spec x 1) as [->|]; [injection E as <-; cbn; lia|]. destruct (Z.eqb_spec x 2) as [->|]; [injection E as <-; cbn; lia|].
  destruct (Z.eqb_spec x 3) as [->|]; [injection E as <-; cbn; lia|]. destruct (Z.eqb_spec x 9) as [->|]; [injection E as <-; cbn; lia|discriminate].
Qed.
(** A document of eight levels: the record at the end is not found in it, and deleting fails with the
    levels cut apart *)
Definition deep : heap := fun x =>
  if (1 <=? x) && (x <=? 8) then Some (mkR [if x =? 8 then Imm 5 else Ref (x + 1)] (x =? 1) (if x =? 1 then [] else [x - 1])) else None.
Theorem C76_deep_refuted :
  up deep 7 8 1 /\ is_doc deep 1 /\ find_document deep 8 = None /\ fst (delete_document deep 1) = Fail /\
  snd (delete_document deep 1) 1 = Some (mkR [Imm 0] true []).
Proof.
  split.
  - assert (R : forall x, 1 <= x < 8 -> refers deep x (x + 1)).
    { intros x X. unfold refers, deep. replace ((1 <=? x) && (x <=? 8)) with true by (symmetry; apply andb_true_iff; split; apply Z.leb_le; lia).
      eexists. split; [reflexivity|]. cbn [fields]. destruct (Z.eqb_spec x 8); [lia|]. left. reflexivity. }
    apply (up_S _ 6 _ 7); [apply (R 7); lia|]. apply (up_S _ 5 _ 6); [apply (R 6); lia|]. apply (up_S _ 4 _ 5); [apply (R 5); lia|]. apply (up_S _ 3 _ 4); [apply (R 4); lia|].
    apply (up_S _ 2 _ 3); [apply (R 3); lia|]. apply (up_S _ 1 _ 2); [apply (R 2); lia|]. apply (up_S _ 0 _ 1); [apply (R 1); lia|]. apply up_0.
  - split; [eexists; split; reflexivity|]. vm_compute. repeat split; reflexivity.
Qed.

(** A document with two parts, one of them with a part of its own, next to another record *)
Definition small : heap := fun x =>
  if x =? 1 then Some (mkR [Ref 2; Imm 7; Ref 3] true []) else if x =? 2 then Some (mkR [Ref 4] false [1])
  else if x =? 3 then Some (mkR [Imm 6] false [1]) else if x =? 4 then Some (mkR [] false [2]) else if x =? 9 then Some (mkR [Imm 1] false []) else None.
Example small_tree : tree small 7 [] 1 [1; 2; 4; 3] /\ NoDup [1; 2; 4; 3].
Proof.
  split; [|repeat constructor; cbn; intuition discriminate].
  exists (mkR [Ref 2; Imm 7; Ref 3] true []), [2; 4; 3]. split; [reflexivity|]. split; [reflexivity|]. split; [reflexivity|]. cbn [refs flat_map fields app].
  apply (forest_cons _ 2 [3] [2; 4] [3]).
  - exists (mkR [Ref 4] false [1]), [4]. split; [reflexivity|]. split; [reflexivity|]. split; [reflexivity|]. cbn [refs flat_map fields app]. apply (forest_cons _ 4 [] [4] []); [|constructor].
    exists (mkR [] false [2]), []. split; [reflexivity|]. split; [reflexivity|]. split; [reflexivity|]. constructor.
  - apply (forest_cons _ 3 [] [3] []); [|constructor]. exists (mkR [Imm 6] false [1]), []. split; [reflexivity|]. split; [reflexivity|]. split; [reflexivity|]. constructor.
Qed.
Example small_linked : linked small /\ find_document small 4 = Some 1.
Proof.
  split; [|reflexivity]. assert (R : forall y z, refers small y z <-> (y = 1 /\ (z = 2 \/ z = 3)) \/ (y = 2 /\ z = 4)).
  { intros y z. unfold refers, small. split.
    - intros (q & Q & I). destruct (Z.eqb_spec y 1) as [->|]; [injection Q as <-; cbn in I; destruct I as [I|[I|[I|[]]]]; try discriminate; injection I as <-; lia|].
      destruct (Z.eqb_spec y 2) as [->|]; [injection Q as <-; cbn in I; destruct I as [I|[]]; injection I as <-; lia|].
      destruct (Z.eqb_spec y 3); [injection Q as <-; cbn in I; destruct I as [I|[]]; discriminate|]. destruct (Z.eqb_spec y 4); [injection Q as <-; destruct I|].
      destruct (Z.eqb_spec y 9); [injection Q as <-; cbn in I; destruct I as [I|[]]; discriminate|discriminate].
    - intros [[-> [ -> | -> ]]|[-> ->]]; (eexists; split; [reflexivity|cbn; tauto]). }
  intros x r y E. rewrite R. unfold small in E.
  destruct (Z.eqb_spec x 1) as [->|]; [injection E as <-; cbn; lia|]. destruct (Z.eqb_spec x 2) as [->|]; [injection E as <-; cbn; lia|].
  destruct (Z.eqb_spec x 3) as [->|]; [injection E as <-; cbn; lia|]. destruct (Z.eqb_spec x 4) as [->|]; [injection E as <-; cbn; lia|].
  destruct (Z.eqb_spec x 9) as [->|]; [injection E as <-; cbn; lia|discriminate].
Qed.
Example small_runs : find_document small 4 = Some 1 /\ find_document small 9 = None /\ fst (delete_document small 1) = Done /\ snd (delete_document small 1) 9 = small 9.
Proof. vm_compute. repeat split; reflexivity. Qed.

Print Assumptions C76_find.
Print Assumptions C76_delete_partial.
Print Assumptions C76_delete_linked_partial.
Print Assumptions C76_links_stay.
Print Assumptions C76_cycle_refuted.
Print Assumptions C76_failed_delete_refuted.
Print Assumptions C76_deep_refuted.
