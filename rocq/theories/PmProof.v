(** The partners found for a given clause. *)
From Coq Require Import List ZArith Bool Lia.
From Verif Require Import Word64 Terms UnifySpec UnifyModel TermsProof UnifyProof MatchModel MetaModel BuildModel DeriveModel DeriveProof HashModel HashSpec HashProof OrdSpec OrdModel OrdProof OrdEnd PmModel PmSpec PmBase.
Import ListNotations.
Open Scope Z_scope.

Lemma nodup_app {A} (l l' : list A) : NoDup (l ++ l') -> NoDup l /\ NoDup l'.
Proof.
  induction l as [|a l IH]; cbn [List.app]; intros H; [split; [constructor|exact H]|]. inversion H as [|? ? H1 H2]; subst.
  destruct (IH H2) as [A1 A2]. split; [|exact A2]. constructor; [|exact A1]. intros C. apply H1, in_or_app. left. exact C.
Qed.
(** With a large enough bound, the result is there and does not depend on the bound. *)
Definition settles {A} (F : nat -> res A) : Prop := exists n0 r, forall n, (n0 <= n)%nat -> F n = Ok r.
Lemma settles_ok {A} (a : A) : settles (fun _ => Ok a).
Proof. exists 0%nat, a. reflexivity. Qed.
Lemma settles_ext {A} (F G : nat -> res A) : (forall n, F n = G n) -> settles F -> settles G.
Proof. intros H (n0&r&E). exists n0, r. intros n Hn. rewrite <- H. apply E, Hn. Qed.
Lemma settles_bind {A B} (F : nat -> res A) (G : nat -> A -> res B) : settles F ->
  (forall a, (exists n, F n = Ok a) -> settles (fun n => G n a)) -> settles (fun n => bind (F n) (G n)).
Proof.
  intros (n0&r&E) H. destruct (H r (ex_intro _ n0 (E n0 (le_n n0)))) as (n1&r1&E1). exists (Nat.max n0 n1), r1.
  intros n Hn. rewrite (E n) by lia. cbn [bind]. apply E1. lia.
Qed.
Lemma settles_gather {A B} (F : nat -> A -> res (list B)) l : (forall x, In x l -> settles (fun n => F n x)) -> settles (fun n => gather (F n) l).
Proof.
  induction l as [|a l IH]; intros H; cbn [gather]; [apply settles_ok|].
  apply (settles_bind (fun n => F n a)); [apply H; left; reflexivity|]. intros r _.
  apply (settles_bind (fun n => gather (F n) l)); [apply IH; intros x Hx; apply H; right; exact Hx|]. intros r' _. apply settles_ok.
Qed.
Lemma settles_gather_i {A B} (F : nat -> Z -> A -> res (list B)) l : forall i,
  (forall k x, nth_error l k = Some x -> settles (fun n => F n (i + Z.of_nat k) x)) -> settles (fun n => gather_i (F n) i l).
Proof.
  induction l as [|a l IH]; intros i H; cbn [gather_i]; [apply settles_ok|].
  apply (settles_bind (fun n => F n i a)); [specialize (H 0%nat a eq_refl); rewrite Z.add_0_r in H; exact H|]. intros r _.
  apply (settles_bind (fun n => gather_i (F n) (i + 1) l)); [|intros r' _; apply settles_ok].
  apply IH. intros k x Hx. specialize (H (S k) x Hx). replace (i + 1 + Z.of_nat k) with (i + Z.of_nat (S k)) by lia. exact H.
Qed.
Section F.
  Variable dhash : dblv -> Z.
  Variable ltext : Z -> list Z.
  Variable word : cst -> Z.
  Variable den : Z -> term.
  Variable cls : Z -> scl.
  Variable fld : Z -> Z -> list nat -> Z.
  Variable eqc : cst.
  Variables nested backsubsumed : Z -> bool.
  Variable answer_lit : term -> bool.
  Notation entered := (entered dhash ltext word cls fld eqc).
  Notation all_para := (all_para dhash ltext cls fld).
  Notation all_eq := (all_eq dhash ltext word cls fld eqc).
  Notation store := (store dhash ltext word cls fld eqc).
  Notation head_key := (head_key dhash ltext).
  Notation larger := (larger word).

  (** * What the indexes hold *)
  Lemma para_ok o c rs : exists ps, all_para o c rs = Ok ps.
  Proof.
    unfold PmModel.all_para. destruct (kept_out o (cls c)); [eauto|].
    generalize (cl_lits (cls c)) as l. intros l. generalize 0 as i.
    induction l as [|x l IH]; intros i; cbn [gather_i]; [eauto|].
    destruct (IH (i + 1)) as [r E]. destruct (negb (rs i) && negb (o_queryfocus o)); cbn [bind]; rewrite E; cbn [bind]; eauto.
  Qed.

  Definition holds_para (o : popts) (h : list (Z * (Z -> bool))) (hp : list entry) : Prop :=
    forall e, In e hp <-> exists c rs ps, In (c, rs) h /\ all_para o c rs = Ok ps /\ In e ps.
  Definition holds_eq (o : popts) (h : list (Z * (Z -> bool))) (he : list entry) : Prop :=
    (forall e, In e he -> exists c rs n es, In (c, rs) h /\ all_eq o n c rs = Ok es /\ In e es) /\
    (forall c rs, In (c, rs) h -> exists n es, all_eq o n c rs = Ok es /\ incl es he).

  Lemma entered_lists o used h x : entered o used h x ->
    exists up ue hp he, lists 1000000 up hp (ix_para x) /\ lists 1000000 ue he (ix_eq x) /\
      incl up used /\ incl ue used /\ holds_para o h hp /\ holds_eq o h he.
  Proof.
    induction 1 as [nd nd'|used h x n c rs ap ae x' H (up&ue&hp&he&Lp&Le&Ip&Ie&Hp&He) Hnd Hfr Es].
    - exists [], [], [], []. cbn [ix_para ix_eq]. split; [apply l_new|]. split; [apply l_new|].
      split; [intros a []|]. split; [intros a []|]. split.
      + intros e. split; [intros []|]. intros (c&rs&ps&[]&_).
      + split; [intros e []|intros c rs []].
    - unfold PmModel.store in Es. apply bind_ok in Es as (ps&Eps&Es). apply bind_ok in Es as (es&Ees&Es).
      apply bind_ok in Es as (lp&Elp&Es). apply bind_ok in Es as (le&Ele&Es). injection Es as <-. cbn [ix_para ix_eq].
      destruct (add_all_lists _ _ _ _ _ _ _ Lp (proj1 (nodup_app _ _ Hnd))
        ltac:(intros a Ha; destruct (Hfr a ltac:(apply in_or_app; left; exact Ha)) as [A B]; split; [exact A|]; intros C; apply B, Ip, C) Elp)
        as (up'&Lp'&Ip').
      assert (Hnd2 : NoDup (flat ae)) by exact (proj2 (nodup_app _ _ Hnd)).
      destruct (add_all_lists _ _ _ _ _ _ _ Le Hnd2
        ltac:(intros a Ha; destruct (Hfr a ltac:(apply in_or_app; right; exact Ha)) as [A B]; split; [exact A|]; intros C; apply B, Ie, C) Ele)
        as (ue'&Le'&Ie').
      exists up', ue', (rev ps ++ hp), (rev es ++ he). split; [exact Lp'|]. split; [exact Le'|].
      split; [intros a Ha; destruct (Ip' a Ha) as [A|A]; apply in_or_app; [left; exact A|right; apply in_or_app; right; apply Ip, A]|].
      split; [intros a Ha; destruct (Ie' a Ha) as [A|A]; apply in_or_app; right; apply in_or_app; [left; exact A|right; apply Ie, A]|].
      split.
      + intros e. rewrite in_app_iff, <- in_rev. rewrite (Hp e). split.
        * intros [A|(c'&rs'&ps'&A&B&C)]; [exists c, rs, ps; split; [left; reflexivity|]; split; assumption|].
          exists c', rs', ps'. split; [right; exact A|]. split; assumption.
        * intros (c'&rs'&ps'&[A|A]&B&C); [|right; exists c', rs', ps'; auto].
          injection A as <- <-. rewrite Eps in B. injection B as <-. left; exact C.
      + destruct He as [H1 H2]. split.
        * intros e He. apply in_app_or in He as [He|He].
          -- apply in_rev in He. exists c, rs, n, es. split; [left; reflexivity|]. split; assumption.
          -- destruct (H1 e He) as (c'&rs'&n'&es'&A&B). exists c', rs', n', es'. split; [right; exact A|exact B].
        * intros c' rs' [A|A].
          -- injection A as <- <-. exists n, es. split; [exact Ees|]. intros e He. apply in_or_app. left. apply in_rev in He. exact He.
          -- destruct (H2 c' rs' A) as (n'&es'&B&C). exists n', es'. split; [exact B|]. intros e He. apply in_or_app. right. apply C, He.
  Qed.

  Section Found.
    Variables o ok : popts.
    Variables h hk : list (Z * (Z -> bool)).
    Variable used : list Z.
    Variable x : pidx.
    Variable kb : option pidx.
    Hypothesis Hx : entered o used h x.
    Hypothesis Hk : kb_entered dhash ltext word cls fld eqc ok hk kb.

    Lemma found_para n key r : both n (ix_para x) (option_map ix_para kb) key = Ok r ->
      forall e, In e r <-> exists oo c rs ps, stored o h ok hk oo c rs /\ all_para oo c rs = Ok ps /\ In (key, e) ps.
    Proof.
      destruct (entered_lists _ _ _ _ Hx) as (up&ue&hp&he&Lp&_&_&_&Hp&_). unfold both. intros E e.
      apply bind_ok in E as (r1&E1&E). destruct (listed_ok _ _ _ _ _ _ _ Lp E1) as [_ ->]. unfold stored.
      assert (A : In e (under key hp) <-> exists c rs ps, In (c, rs) h /\ all_para o c rs = Ok ps /\ In (key, e) ps)
        by (rewrite in_under; apply Hp).
      unfold kb_entered in Hk. destruct kb as [k|]; cbn [option_map] in E.
      - destruct Hk as [usedk Hk']. destruct (entered_lists _ _ _ _ Hk') as (up'&ue'&hp'&he'&Lp'&_&_&_&Hp'&_).
        apply bind_ok in E as (r2&E2&E). destruct (listed_ok _ _ _ _ _ _ _ Lp' E2) as [_ ->]. injection E as <-.
        rewrite in_app_iff, A, in_under, (Hp' (key, e)). split.
        + intros [(c&rs&ps&B)|(c&rs&ps&B)]; [exists o|exists ok]; exists c, rs, ps; intuition.
        + intros (oo&c&rs&ps&[[-> B]|[-> B]]&C); [left|right]; exists c, rs, ps; intuition.
      - injection E as <-. rewrite A. split.
        + intros (c&rs&ps&B). exists o, c, rs, ps. intuition.
        + intros (oo&c&rs&ps&[[-> B]|[-> B]]&C); [exists c, rs, ps; intuition|]. rewrite Hk in B. destruct B.
    Qed.
    Lemma found_eq n key r : both n (ix_eq x) (option_map ix_eq kb) key = Ok r ->
      (forall e, In e r -> exists oo c rs m es, stored o h ok hk oo c rs /\ all_eq oo m c rs = Ok es /\ In (key, e) es) /\
      (forall oo c rs, stored o h ok hk oo c rs -> exists m es, all_eq oo m c rs = Ok es /\ forall e, In (key, e) es -> In e r).
    Proof.
      destruct (entered_lists _ _ _ _ Hx) as (up&ue&hp&he&_&Le&_&_&_&[H1 H2]). unfold both. intros E.
      apply bind_ok in E as (r1&E1&E). destruct (listed_ok _ _ _ _ _ _ _ Le E1) as [_ ->]. unfold stored.
      unfold kb_entered in Hk. destruct kb as [k|]; cbn [option_map] in E.
      - destruct Hk as [usedk Hk']. destruct (entered_lists _ _ _ _ Hk') as (up'&ue'&hp'&he'&_&Le'&_&_&_&[H1' H2']).
        apply bind_ok in E as (r2&E2&E). destruct (listed_ok _ _ _ _ _ _ _ Le' E2) as [_ ->]. injection E as <-. split.
        + intros e He. apply in_app_or in He as [He|He]; apply in_under in He; [destruct (H1 _ He) as (c&rs&m&es&A&B)|destruct (H1' _ He) as (c&rs&m&es&A&B)].
          * exists o, c, rs, m, es. intuition.
          * exists ok, c, rs, m, es. intuition.
        + intros oo c rs [[-> B]|[-> B]]; [destruct (H2 _ _ B) as (m&es&C&D)|destruct (H2' _ _ B) as (m&es&C&D)]; exists m, es;
            (split; [exact C|]); intros e He; apply in_or_app; [left|right]; apply in_under, D, He.
      - injection E as <-. split.
        + intros e He. apply in_under in He. destruct (H1 _ He) as (c&rs&m&es&A&B). exists o, c, rs, m, es. intuition.
        + intros oo c rs [[-> B]|[-> B]]; [|rewrite Hk in B; destruct B]. destruct (H2 _ _ B) as (m&es&C&D). exists m, es.
          split; [exact C|]. intros e He. apply in_under, D, He.
    Qed.
    Lemma both_settles (f : pidx -> hlist) key : f = ix_para \/ f = ix_eq -> is_slot 1000000 key ->
      settles (fun n => both n (f x) (option_map f kb) key).
    Proof.
      intros Hf Hs. destruct (entered_lists _ _ _ _ Hx) as (up&ue&hp&he&Lp&Le&_).
      assert (A : exists u H, lists 1000000 u H (f x)) by (destruct Hf as [-> | ->]; eauto). destruct A as (u&H&L).
      unfold both. apply settles_bind.
      { exists (length H), (under key H). intros n Hn. apply (listed_defined _ _ _ _ n key L Hs Hn). }
      intros r _. unfold kb_entered in Hk. destruct kb as [k|]; cbn [option_map]; [|apply settles_ok].
      destruct Hk as [usedk Hk']. destruct (entered_lists _ _ _ _ Hk') as (up'&ue'&hp'&he'&Lp'&Le'&_).
      assert (A : exists u H, lists 1000000 u H (f k)) by (destruct Hf as [-> | ->]; eauto). destruct A as (u'&H'&L').
      apply settles_bind; [|intros r' _; apply settles_ok].
      exists (length H'), (under key H'). intros n Hn. apply (listed_defined _ _ _ _ n key L' Hs Hn).
    Qed.
  End Found.

  (** * The order of the sides *)
  Notation ord0 := (OrdProof.ord0 word).
  Lemma now_ord n a b r : order_now word n a b = Ok r -> r = ord0 a b.
  Proof.
    unfold order_now. destruct (order_eqterms word n (fun _ => None) a b) as [q|] eqn:E; [|discriminate]. intros H. injection H as <-.
    apply (order_plain word n), E.
  Qed.
  Lemma larger_ord a b : larger a b <-> ord0 a b = 1.
  Proof.
    split.
    - intros [n E]. symmetry. apply (order_plain word n), E.
    - intros E. exact (ord_verdict word a b 1 E).
  Qed.
  Lemma ord_other a b : (ord0 a b = 1 /\ ord0 b a = 2) \/ (ord0 a b = 2 /\ ord0 b a = 1) \/ (ord0 a b = 3 /\ ord0 b a = 3).
  Proof.
    pose proof (ord_flip word a b) as F. destruct (ord_range word a b) as [E|[E|E]]; rewrite E in *; cbn in F; auto.
  Qed.
  Lemma usable_ord oo a b : usable word oo a b <-> not_var a /\ ord0 a b <> 2 /\ (oo = true -> ord0 a b = 1).
  Proof.
    unfold usable. rewrite !larger_ord. pose proof (ord_other a b). intuition lia.
  Qed.
  Lemma not_var_b a : not_var a <-> is_var a = false.
  Proof. destruct a; cbn; intuition discriminate. Qed.

  Lemma takes_part_b o c : takes_part o c <-> kept_out o c = false.
  Proof.
    unfold takes_part, kept_out, satellite. destruct (o_hyper o); [|cbn; split; [reflexivity|discriminate]].
    destruct (o_relaxed o); [cbn; split; [reflexivity|discriminate]|]. destruct c as [w a|l]; cbn [andb negb].
    - split; auto.
    - split.
      + intros H. specialize (H eq_refl eq_refl). apply negb_false_iff, forallb_forall. intros x Hx. rewrite (H x Hx). reflexivity.
      + intros H _ _ x Hx. apply negb_false_iff in H. rewrite forallb_forall in H. specialize (H x Hx). destruct (meta_is_neg (lmeta x)); [discriminate|reflexivity].
  Qed.

  (** * Entries *)
  Lemma para_in o c rs ps : all_para o c rs = Ok ps -> (forall i l, literal (cls c) i l -> headed (latom l)) ->
    forall k w c' path, In (k, (w, c', path)) ps <->
      c' = c /\ takes_part o (cls c) /\ o_rewrite_only o = false /\
      exists j l q u, literal (cls c) j l /\ j <= 255 /\ (rs j = true \/ o_queryfocus o = true) /\ place (o_deep o) (latom l) q u /\
        k = head_key u /\ w = fld c j q /\ path = encode_termpath j (number q (latom l)).
  Proof.
    intros E Hh k w c' path. rewrite takes_part_b. unfold PmModel.all_para in E. destruct (kept_out o (cls c)) eqn:Ek.
    { injection E as <-. split; [intros []|]. intros (_&A&_). discriminate. }
    assert (P : forall j l, literal (cls c) j l -> forall e, In e (para_entries dhash ltext fld o c j l) <->
       o_rewrite_only o = false /\ j <= 255 /\ exists q u, place (o_deep o) (latom l) q u /\
         e = (head_key u, (fld c j q, c, encode_termpath j (number q (latom l))))).
    { intros j l Hl e. unfold para_entries. destruct (o_rewrite_only o); [split; [intros []|intros (A&_); discriminate]|].
      unfold maxlitnr. destruct (Z.ltb_spec 255 j); [split; [intros []|intros (_&A&_); lia]|]. rewrite in_map_iff. split.
      - intros ([[p q] u]&<-&Hi). apply spos_places in Hi as [A ->]; [|exact (Hh _ _ Hl)]. cbn [fst snd]. split; [reflexivity|]. split; [assumption|]. exists q, u. split; [exact A|reflexivity].
      - intros (_&_&q&u&A&->). exists (number q (latom l), q, u). split; [reflexivity|]. apply spos_places; [exact (Hh _ _ Hl)|]. split; [exact A|reflexivity]. }
    split.
    - intros Hi. destruct (gather_i_in _ _ _ _ E _ Hi) as (n&l&rx&A&B&C). rewrite Z.add_0_l in B.
      assert (Hl : literal (cls c) (Z.of_nat n) l) by (split; [lia|rewrite Nat2Z.id; exact A]).
      destruct (negb (rs (Z.of_nat n)) && negb (o_queryfocus o)) eqn:Er; [injection B as <-; destruct C|]. injection B as <-.
      apply (P _ _ Hl) in C as (R&J&q&u&Hp&D). injection D as -> -> -> ->. split; [reflexivity|]. split; [reflexivity|]. split; [exact R|].
      exists (Z.of_nat n), l, q, u. split; [exact Hl|]. split; [exact J|]. split; [|auto].
      destruct (rs (Z.of_nat n)); [left; reflexivity|]. destruct (o_queryfocus o); [right; reflexivity|discriminate].
    - intros (->&_&R&j&l&q&u&[Hj Hl]&J&Hr&Hp&->&->&->). destruct (gather_i_all _ _ _ _ E _ _ Hl) as (rx&A&B).
      rewrite Z.add_0_l, Z2Nat.id in A by exact Hj.
      assert (Er : negb (rs j) && negb (o_queryfocus o) = false) by (destruct Hr as [-> | ->]; [reflexivity|apply andb_false_r]). rewrite Er in A.
      injection A as <-. apply B, (P j l (conj Hj Hl)). split; [exact R|]. split; [exact J|]. exists q, u. split; [exact Hp|reflexivity].
  Qed.

  Lemma equation_sides l left a b : equation eqc l left a b ->
    meta_is_neg (lmeta l) = false /\ equality_atom eqc (latom l) = Some true /\ is_rec (latom l) = true /\
    eq_sides (latom l) = Some (if left then (a, b) else (b, a)).
  Proof.
    intros (A&rest&E). split; [exact A|]. rewrite E. cbn [equality_atom eq_sides is_rec]. destruct (cst_eq_dec eqc eqc) as [_|C]; [|contradiction].
    split; [reflexivity|]. split; [reflexivity|]. destruct left; reflexivity.
  Qed.
  Lemma sides_equation l a b : meta_is_neg (lmeta l) = false -> equality_atom eqc (latom l) = Some true -> eq_sides (latom l) = Some (a, b) ->
    equation eqc l true a b /\ equation eqc l false b a.
  Proof.
    intros A B C. unfold equation. destruct (latom l) as [i|d|[|[i|d|gs] [|u [|v rest]]]]; try discriminate. cbn in B, C.
    destruct (cst_eq_dec d eqc) as [->|]; [|discriminate]. injection C as -> ->. split; (split; [exact A|]); exists rest; reflexivity.
  Qed.

  Lemma eq_in_some o n c rs es : all_eq o n c rs = Ok es ->
    forall k w c' path, In (k, (w, c', path)) es ->
      c' = c /\ exists j l left a b, literal (cls c) j l /\ equation eqc l left a b /\ not_var a /\
        (o_queryfocus o = false -> usable word (o_ordered_only o) a b) /\
        k = head_key a /\ w = fld c j [if left then 1%nat else 2%nat] /\ path = encode_termpath j (if left then 1 else 0).
  Proof.
    intros E k w c' path Hi. unfold PmModel.all_eq in E. destruct (kept_out o (cls c)); [injection E as <-; destruct Hi|].
    destruct (gather_i_in _ _ _ _ E _ Hi) as (m&l&rx&A&B&C). rewrite Z.add_0_l in B. set (j := Z.of_nat m) in *.
    assert (Hl : literal (cls c) j l) by (split; [lia|unfold j; rewrite Nat2Z.id; exact A]).
    destruct (negb (rs j) && negb (o_queryfocus o)); [injection B as <-; destruct C|]. unfold eq_entries in B.
    destruct (o_posunit o && negb (ncl (cls c) =? 1)); [injection B as <-; destruct C|].
    destruct (meta_is_neg (lmeta l)) eqn:Em; [injection B as <-; destruct C|].
    destruct (equality_atom eqc (latom l)) as [[|]|] eqn:Ee; [|injection B as <-; destruct C|discriminate].
    destruct (eq_sides (latom l)) as [[a b]|] eqn:Es; [|injection B as <-; destruct C].
    apply bind_ok in B as (r&Er&B). destruct (o_ordered_only o && ((r =? 0) || (r =? 3))) eqn:Eo; [injection B as <-; destruct C|].
    destruct (o_rewrite_only o); [injection B as <-; destruct C|]. injection B as <-.
    destruct (sides_equation l a b Em Ee Es) as [S1 S2]. unfold stored_order in Er. pose proof (ord_other a b) as OO.
    apply in_app_or in C as [C|C].
    - destruct (((r =? 1) || (r =? 3)) && negb (is_var a)) eqn:Eb; [|destruct C]. destruct C as [C|[]]. injection C as <- <- <- <-.
      split; [reflexivity|]. exists j, l, true, a, b. apply andb_true_iff in Eb as [Eb1 Eb2]. apply negb_true_iff in Eb2.
      split; [exact Hl|]. split; [exact S1|]. split; [apply not_var_b, Eb2|]. split; [|auto]. intros Q. rewrite Q in Er. apply now_ord in Er.
      apply usable_ord. split; [apply not_var_b, Eb2|]. apply orb_true_iff in Eb1. rewrite !Z.eqb_eq in Eb1. split; [lia|].
      intros O. rewrite O in Eo. cbn [andb] in Eo. apply orb_false_iff in Eo. rewrite !Z.eqb_neq in Eo. lia.
    - destruct (((r =? 2) || (r =? 3)) && negb (is_var b)) eqn:Eb; [|destruct C]. destruct C as [C|[]]. injection C as <- <- <- <-.
      split; [reflexivity|]. exists j, l, false, b, a. apply andb_true_iff in Eb as [Eb1 Eb2]. apply negb_true_iff in Eb2.
      split; [exact Hl|]. split; [exact S2|]. split; [apply not_var_b, Eb2|]. split; [|auto]. intros Q. rewrite Q in Er. apply now_ord in Er.
      apply usable_ord. split; [apply not_var_b, Eb2|]. apply orb_true_iff in Eb1. rewrite !Z.eqb_eq in Eb1. split; [lia|].
      intros O. rewrite O in Eo. cbn [andb] in Eo. apply orb_false_iff in Eo. rewrite !Z.eqb_neq in Eo. lia.
  Qed.
  Lemma eq_in_all o n c rs es : all_eq o n c rs = Ok es ->
    takes_part o (cls c) -> o_rewrite_only o = false -> (o_posunit o = true -> length (cl_lits (cls c)) = 1%nat) ->
    ~ (o_queryfocus o = true /\ o_ordered_only o = true) ->
    forall j l left a b, literal (cls c) j l -> (rs j = true \/ o_queryfocus o = true) -> equation eqc l left a b ->
      usable word (o_ordered_only o) a b ->
      In (head_key a, (fld c j [if left then 1%nat else 2%nat], c, encode_termpath j (if left then 1 else 0))) es.
  Proof.
    intros E Ht Hw Hu Hq j l left a b [Hj Hl] Hr He Ha. apply takes_part_b in Ht. unfold PmModel.all_eq in E. rewrite Ht in E.
    destruct (gather_i_all _ _ _ _ E _ _ Hl) as (rx&A&B). rewrite Z.add_0_l, Z2Nat.id in A by exact Hj. apply B. clear B E.
    assert (Er : negb (rs j) && negb (o_queryfocus o) = false) by (destruct Hr as [-> | ->]; [reflexivity|apply andb_false_r]). rewrite Er in A.
    destruct (equation_sides _ _ _ _ He) as (E1&E2&_&E3). unfold eq_entries in A. rewrite E1, E2, E3, Hw in A.
    assert (Eu : o_posunit o && negb (ncl (cls c) =? 1) = false).
    { destruct (o_posunit o); [|reflexivity]. unfold ncl. rewrite (Hu eq_refl). reflexivity. }
    rewrite Eu in A. apply usable_ord in Ha as (N&O1&O2). apply not_var_b in N. unfold stored_order in A. pose proof (ord_other a b) as OO.
    destruct left.
    - apply bind_ok in A as (r&Er'&A).
      assert (R : r = 1 \/ (r = 3 /\ o_ordered_only o = false)).
      { destruct (o_queryfocus o) eqn:Eq; [injection Er' as <-; right; split; [reflexivity|]; destruct (o_ordered_only o); [exfalso; apply Hq; auto|reflexivity]|].
        apply now_ord in Er'. destruct (o_ordered_only o); [left; rewrite Er'; apply O2; reflexivity|]. lia. }
      rewrite N in A. destruct R as [-> |[-> R]]; [rewrite andb_false_r in A|rewrite R in A]; cbn [Z.eqb andb orb negb] in A; injection A as <-; left; reflexivity.
    - apply bind_ok in A as (r&Er'&A).
      assert (R : r = 2 \/ (r = 3 /\ o_ordered_only o = false)).
      { destruct (o_queryfocus o) eqn:Eq; [injection Er' as <-; right; split; [reflexivity|]; destruct (o_ordered_only o); [exfalso; apply Hq; auto|reflexivity]|].
        apply now_ord in Er'. destruct (o_ordered_only o); [left; specialize (O2 eq_refl); lia|]. lia. }
      rewrite N in A. destruct R as [-> |[-> R]]; [rewrite andb_false_r in A|rewrite R in A]; cbn [Z.eqb andb orb negb] in A; injection A as <-; first [apply in_or_app; right; left; reflexivity | left; reflexivity].
  Qed.

  (** * One candidate *)
  Section G.
    Variable o : popts.
    Notation passed := (passed_over cls nested backsubsumed answer_lit o).
    Lemma passed_ok g c : passed (nonans answer_lit g) c = false <-> not_excluded o nested backsubsumed answer_lit cls g c.
    Proof.
      unfold passed_over, not_excluded. rewrite !orb_false_iff. split.
      - intros [[[A B] C] D]. split; [|split; [|split]].
        + intros E. rewrite E in A. exact A.
        + intros E. rewrite E in B. exact B.
        + intros E. destruct (cls c) as [w a|l]; [exact I|]. apply Z.eqb_neq in E. rewrite E in C. cbn [negb andb is_rule] in C.
          apply Z.ltb_ge in C. exact C.
        + intros E. apply Z.eqb_neq in E. rewrite E in D. cbn [negb andb] in D. apply andb_false_iff in D. rewrite !Z.ltb_ge in D. exact D.
      - intros (A&B&C&D). split; [split; [split|]|].
        + destruct (o_nonested o); [exact (A eq_refl)|reflexivity].
        + destruct (o_backsubsume o); [exact (B eq_refl)|reflexivity].
        + destruct (Z.eqb_spec (o_arglen o) 0) as [E|E]; [reflexivity|]. specialize (C E). destruct (cls c) as [w a|l]; [reflexivity|].
          cbn [negb andb is_rule]. apply Z.ltb_ge. exact C.
        + destruct (Z.eqb_spec (o_shortlen o) 0) as [E|E]; [reflexivity|]. specialize (D E). cbn [negb andb]. apply andb_false_iff. rewrite !Z.ltb_ge. exact D.
    Qed.
    Lemma empty_acyclic : acyclic (bank empty_vst).
    Proof. exact nobind_acyclic. Qed.
    Lemma unifies n a t r s : unify_term n a t empty_vst = Done r s -> (r = true <-> unifiable a t).
    Proof.
      intros E. rewrite (unify_complete _ _ _ _ _ _ empty_acyclic E). unfold unifiable. split.
      - intros (u&_&H). exists u. exact H.
      - intros [u H]. exists u. split; [intros i v X; discriminate|exact H].
    Qed.
    Lemma unifies_general n a t s sg : unify_term n a t empty_vst = Done true s -> exhaustive (bank s) sg -> most_general sg a t.
    Proof.
      intros E Hs. split.
      - destruct (unify_acyclic _ _ _ _ _ _ empty_acyclic E) as [Ha _]. pose proof (unify_uspec n (fun _ => True) a t empty_vst empty_acyclic) as U.
        unfold unify_term in E. rewrite E in U. destruct U as (_&_&U); auto. apply (proj1 (U sg)). exact (proj1 Hs).
      - intros u Hu. apply (unify_mgu _ _ _ _ _ empty_acyclic E sg u Hs); [intros i v X; discriminate|exact Hu].
    Qed.

    Notation try_from := (try_from word den cls nested backsubsumed answer_lit o).
    Notation try_into := (try_into den cls nested backsubsumed answer_lit o).
    (** The instance of the equation is the other way round. *)
    Definition reversed (a b t : term) : Prop := exists s, most_general s a t /\ larger (app s b) (app s a).
    Lemma try_from_all n g i left a b r w c path res : try_from n (nonans answer_lit g) i left a b r (w, c, path) = Ok res ->
      r = ord0 a b -> usable word (o_ordered_only o) a b ->
      not_excluded o nested backsubsumed answer_lit cls g c -> unifiable a (den w) ->
      In (AFrom i left a b c (den w) path) res \/ reversed a b (den w).
    Proof.
      intros E Er Hu Hx Hun. apply usable_ord in Hu as (_&O1&O2). unfold PmModel.try_from in E. rewrite (proj2 (passed_ok g c) Hx) in E.
      destruct (unify_term n a (den w) empty_vst) as [q s|] eqn:Eu; [|discriminate].
      assert (Q : q = true) by (apply (unifies _ _ _ _ _ Eu); exact Hun). subst q.
      destruct (unify_acyclic _ _ _ _ _ _ empty_acyclic Eu) as [Ha _].
      destruct (exhaustive_exists _ Ha) as [sg Hs]. pose proof (ord_other (app sg a) (app sg b)) as OS. pose proof (ord_other a b) as OO.
      destruct (if r =? 3 then order_eqterms word n (bank s) a b else Some r) as [after|] eqn:Ea; [|discriminate].
      destruct (Z.eqb_spec r 3) as [R3|R3].
      - apply (order_ok word (bank s) sg Hs) in Ea. destruct (o_ordered_only o); [specialize (O2 eq_refl); lia|].
        cbn [negb andb orb] in E. destruct ((after =? 3) || (after =? 1)) eqn:Eb; [injection E as <-; left; left; reflexivity|].
        right. exists sg. split; [exact (unifies_general _ _ _ _ _ Eu Hs)|]. apply larger_ord. apply orb_false_iff in Eb. rewrite !Z.eqb_neq in Eb. lia.
      - injection Ea as <-. assert (R1 : r = 1) by lia. clear Er R3. subst r. cbn [Z.eqb orb andb] in E. left.
        destruct (o_ordered_only o); cbn [negb andb orb] in E; injection E as <-; left; reflexivity.
    Qed.
    Lemma try_from_in n g i left a b r e res at0 : try_from n g i left a b r e = Ok res -> In at0 res ->
      exists w c path, e = (w, c, path) /\ at0 = AFrom i left a b c (den w) path /\ unifiable a (den w).
    Proof.
      destruct e as [[w c] path]. unfold PmModel.try_from. intros E Hi. destruct (passed g c); [injection E as <-; destruct Hi|].
      destruct (unify_term n a (den w) empty_vst) as [[|] s|] eqn:Eu; [|injection E as <-; destruct Hi|discriminate].
      destruct (if r =? 3 then _ else _) as [after|]; [|discriminate]. destruct ((_ && _) || _); injection E as <-; [|destruct Hi].
      destruct Hi as [Hi|[]]. exists w, c, path. split; [reflexivity|]. split; [symmetry; exact Hi|]. apply (unifies _ _ _ _ _ Eu). reflexivity.
    Qed.
    Lemma try_from_settles g i left a b r e : settles (fun n => try_from n g i left a b r e).
    Proof.
      destruct e as [[w c] path]. unfold PmModel.try_from. destruct (passed g c); [apply settles_ok|].
      destruct (unify_total empty_vst a (den w) empty_acyclic) as (n1&q&s&E); [intros k Hk; contradiction|].
      destruct (unify_acyclic _ _ _ _ _ _ empty_acyclic (E n1 (le_n n1))) as [Ha _].
      destruct (order_ends word (bank s) Ha a b) as (n2&v&_&F). destruct q.
      - set (v' := if r =? 3 then v else r).
        exists (Nat.max n1 n2), (if (o_ordered_only o && (v' =? 1)) || (negb (o_ordered_only o) && ((v' =? 3) || (v' =? 1))) then [AFrom i left a b c (den w) path] else []).
        intros n Hn. rewrite (E n) by lia. rewrite (F n) by lia. unfold v'.
        destruct (r =? 3); match goal with |- context [if ?k then Ok _ else _] => destruct k end; reflexivity.
      - exists n1, []. intros n Hn. rewrite (E n Hn). reflexivity.
    Qed.

    Lemma try_into_all n g i p t w c path res : try_into n (nonans answer_lit g) i p t (w, c, path) = Ok res ->
      not_excluded o nested backsubsumed answer_lit cls g c ->
      (o_posunit o = true -> match cls c with SFact _ _ => True | r => nonans answer_lit r <= 1 end) ->
      unifiable t (den w) ->
      forall j l left a b, literal (cls c) j l -> j <= 255 -> equation eqc l left a b -> den w = a -> path = encode_termpath j (if left then 1 else 0) ->
      res = [AInto (encode_termpath i p) t c j left a b].
    Proof.
      intros E Hx Hp Hun j l left a b [Hj Hl] J He Hd ->. unfold PmModel.try_into in E. rewrite (proj2 (passed_ok g c) Hx) in E.
      assert (P : o_posunit o && is_rule (cls c) && (1 <? nonans answer_lit (cls c)) = false).
      { destruct (o_posunit o); [|reflexivity]. specialize (Hp eq_refl). destruct (cls c); [reflexivity|]. cbn [andb is_rule]. apply Z.ltb_ge. exact Hp. }
      rewrite P in E. destruct (unify_term n t (den w) empty_vst) as [q s|] eqn:Eu; [|discriminate].
      assert (Q : q = true) by (apply (unifies _ _ _ _ _ Eu); exact Hun). subst q. cbv zeta in E.
      destruct (termpath_roundtrip j (if left then 1 else 0) ltac:(lia) ltac:(destruct left; lia)) as [R1 R2]. rewrite R1, R2 in E.
      assert (Y : match cls c with SFact _ a0 => Some a0 | SRule l0 => option_map latom (nth_error l0 (Z.to_nat j)) end = Some (latom l)).
      { destruct (cls c) as [w0 a0|l0]; cbn [cl_lits] in Hl.
        - destruct (Z.to_nat j) as [|k]; cbn in Hl; [injection Hl as <-; reflexivity|destruct k; discriminate].
        - rewrite Hl. reflexivity. }
      rewrite Y in E. destruct (equation_sides _ _ _ _ He) as (_&_&_&E3). rewrite E3 in E. destruct left; cbn in E; injection E as <-; rewrite Hd; reflexivity.
    Qed.
    Lemma try_into_in n g i p t e res at0 : try_into n g i p t e = Ok res -> In at0 res ->
      exists w c path left y, e = (w, c, path) /\ at0 = AInto (encode_termpath i p) t c (decode_litnr path) left (den w) y /\ unifiable t (den w) /\
        forall j l lf a b, literal (cls c) j l -> j <= 255 -> equation eqc l lf a b -> path = encode_termpath j (if lf then 1 else 0) ->
          decode_litnr path = j /\ left = lf /\ y = b.
    Proof.
      destruct e as [[w c] path]. unfold PmModel.try_into. intros E Hi. destruct (passed g c); [injection E as <-; destruct Hi|].
      destruct (o_posunit o && is_rule (cls c) && (1 <? nonans answer_lit (cls c))); [injection E as <-; destruct Hi|].
      destruct (unify_term n t (den w) empty_vst) as [[|] s|] eqn:Eu; [|injection E as <-; destruct Hi|discriminate]. cbv zeta in E.
      destruct (match cls c with SFact _ a0 => _ | SRule l0 => _ end) as [ya|] eqn:Ey; [|discriminate].
      destruct (eq_sides ya) as [[a0 b0]|] eqn:Es; [|discriminate]. injection E as <-. destruct Hi as [Hi|[]].
      exists w, c, path, (negb (decode_pos path =? 0)), (if negb (decode_pos path =? 0) then b0 else a0).
      split; [reflexivity|]. split; [symmetry; exact Hi|]. split; [apply (unifies _ _ _ _ _ Eu); reflexivity|].
      intros j l lf a b [Hj Hl] J He ->.
      destruct (termpath_roundtrip j (if lf then 1 else 0) ltac:(lia) ltac:(destruct lf; lia)) as [R1 R2]. rewrite R1 in *. rewrite R2.
      assert (Y : ya = latom l).
      { destruct (cls c) as [w0 a1|l0]; cbn [cl_lits] in Hl.
        - destruct (Z.to_nat j) as [|k]; cbn in Hl; [injection Hl as <-; injection Ey as <-; reflexivity|destruct k; discriminate].
        - rewrite Hl in Ey. injection Ey as <-. reflexivity. }
      subst ya. destruct (equation_sides _ _ _ _ He) as (_&_&_&E3). rewrite E3 in Es. split; [reflexivity|].
      destruct lf; cbn; injection Es as -> ->; split; reflexivity.
    Qed.
    Lemma try_into_settles g i p t w c path :
      (exists j l left a b, literal (cls c) j l /\ j <= 255 /\ equation eqc l left a b /\ path = encode_termpath j (if left then 1 else 0)) ->
      settles (fun n => try_into n g i p t (w, c, path)).
    Proof.
      intros (j&l&left&a&b&[Hj Hl]&J&He&->). unfold PmModel.try_into. destruct (passed g c); [apply settles_ok|].
      destruct (o_posunit o && is_rule (cls c) && (1 <? nonans answer_lit (cls c))); [apply settles_ok|].
      destruct (unify_total empty_vst t (den w) empty_acyclic) as (n1&q&s&E); [intros k Hk; contradiction|].
      destruct (termpath_roundtrip j (if left then 1 else 0) ltac:(lia) ltac:(destruct left; lia)) as [R1 R2].
      assert (Y : match cls c with SFact _ a0 => Some a0 | SRule l0 => option_map latom (nth_error l0 (Z.to_nat j)) end = Some (latom l)).
      { destruct (cls c) as [w0 a0|l0]; cbn [cl_lits] in Hl.
        - destruct (Z.to_nat j) as [|k]; cbn in Hl; [injection Hl as <-; reflexivity|destruct k; discriminate].
        - rewrite Hl. reflexivity. }
      destruct (equation_sides _ _ _ _ He) as (_&_&_&E3).
      destruct q.
      - exists n1, [AInto (encode_termpath i p) t c j left (den w) b]. intros n Hn. rewrite (E n Hn). cbv zeta. rewrite R1, R2, Y, E3. destruct left; reflexivity.
      - exists n1, []. intros n Hn. rewrite (E n Hn). reflexivity.
    Qed.
  End G.

  (** * The given clause *)
  Section H.
    Variables o ok : popts.
    Variables h hk : list (Z * (Z -> bool)).
    Variable used : list Z.
    Variable x : pidx.
    Variable kb : option pidx.
    Hypothesis Hx : entered o used h x.
    Hypothesis Hk : kb_entered dhash ltext word cls fld eqc ok hk kb.
    Hypothesis Hf : fields_read den cls fld (h ++ hk).
    Hypothesis Hh : forall oo c rs i l, stored o h ok hk oo c rs -> literal (cls c) i l -> headed (latom l).

    Lemma read oo c rs j l q u : stored o h ok hk oo c rs -> literal (cls c) j l -> sub q (latom l) = Some u -> den (fld c j q) = u.
    Proof.
      intros Hs Hl Hq. apply (Hf c rs j l q u); [|exact Hl|exact Hq]. apply in_or_app. destruct Hs as [[_ H]|[_ H]]; [left|right]; exact H.
    Qed.
    Lemma sub_headed : forall q t u, headed t -> sub q t = Some u -> headed u.
    Proof.
      induction q as [|k q IH]; intros t u Ht E; cbn [sub] in E; [injection E as <-; exact Ht|]. destruct t as [i|c|fs]; try discriminate.
      apply headed_rec in Ht as (c&args&->&Ha). destruct k as [|k]; [discriminate|]. cbn [nth_error] in E.
      destruct (nth_error args k) as [v|] eqn:En; [|discriminate]. apply (IH v u); [|exact E].
      rewrite Forall_forall in Ha. apply Ha. eapply nth_error_In, En.
    Qed.
    Lemma side_headed l left a b : headed (latom l) -> equation eqc l left a b -> headed a /\ headed b.
    Proof.
      intros Ht (_&rest&E). rewrite E in Ht. apply headed_rec in Ht as (c&args&E'&Ha). injection E' as _ <-.
      apply Forall_cons_iff in Ha as [H1 Ha]. apply Forall_cons_iff in Ha as [H2 _]. destruct left; split; assumption.
    Qed.
    Lemma side_sub l left a b : equation eqc l left a b -> sub [if left then 1%nat else 2%nat] (latom l) = Some a.
    Proof. intros (_&rest&->). destruct left; reflexivity. Qed.

    Notation from_side := (from_side dhash ltext word den cls nested backsubsumed answer_lit o).
    Notation from_sides := (from_sides dhash ltext word den cls nested backsubsumed answer_lit o).
    Notation from_all := (from_all dhash ltext word den cls eqc nested backsubsumed answer_lit o).
    Notation into_all := (into_all dhash ltext den cls nested backsubsumed answer_lit o).

    (** A side that may be used is looked up, both ways round. *)
    Lemma sides_all n kp given i a b (left : bool) res : from_sides n x kp given i a b = Ok res ->
      let u := if left then a else b in let v := if left then b else a in
      usable word (o_ordered_only o) u v -> ~ (o_queryfocus o = true /\ o_ordered_only o = true) ->
      exists r1, from_side n x kp given i left u v (ord0 u v) = Ok r1 /\ incl r1 res.
    Proof.
      intros E u v Hu Hq. apply usable_ord in Hu as (_&O1&O2). unfold PmModel.from_sides in E. apply bind_ok in E as (r&Er&E).
      pose proof (ord_other a b) as OO. unfold stored_order in Er.
      assert (R : (o_queryfocus o = true /\ o_ordered_only o = false /\ r = 3) \/ r = ord0 a b).
      { destruct (o_queryfocus o); [left; injection Er as <-; destruct (o_ordered_only o); [exfalso; apply Hq; auto|auto]|right; apply now_ord in Er; exact Er]. }
      destruct left; unfold u, v in *; clear u v.
      - assert (R3 : (r =? 0) = false) by (apply Z.eqb_neq; lia). rewrite R3 in E.
        assert (R2 : (r =? 2) = false) by (apply Z.eqb_neq; lia). rewrite R2 in E.
        assert (R4 : o_ordered_only o && (r =? 3) = false).
        { destruct (o_ordered_only o); [|reflexivity]. specialize (O2 eq_refl). cbn [andb]. apply Z.eqb_neq. destruct R as [(_&R&_)|R]; [discriminate|lia]. }
        rewrite R4 in E. apply bind_ok in E as (r'&Er'&E). apply now_ord in Er'. subst r'. apply bind_ok in E as (t&Et&E).
        apply bind_ok in E as (t'&_&E). injection E as <-. exists t. split; [exact Et|]. intros z Hz. apply in_or_app. left. exact Hz.
      - assert (S : forall q res', second_round dhash ltext word den cls nested backsubsumed answer_lit o n x kp given i a b q = Ok res' ->
           (q = 2 \/ (q = 3 /\ o_ordered_only o = false)) -> from_side n x kp given i false b a (ord0 b a) = Ok res').
        { intros q res' E' Q. unfold second_round in E'. destruct Q as [-> |[-> Q]]; cbn [Z.eqb] in E'.
          - rewrite andb_false_r in E'. apply bind_ok in E' as (r'&Er'&E'). apply now_ord in Er'. subst r'. exact E'.
          - rewrite Q in E'. cbn [andb] in E'. apply bind_ok in E' as (r'&Er'&E'). apply now_ord in Er'. subst r'. exact E'. }
        assert (R3 : (r =? 0) = false) by (apply Z.eqb_neq; lia). rewrite R3 in E.
        destruct (Z.eqb_spec r 2) as [->|R2].
        + exists res. split; [apply (S 2); [exact E|left; reflexivity]|intros z Hz; exact Hz].
        + assert (Ho : o_ordered_only o = false).
          { destruct (o_ordered_only o); [|reflexivity]. specialize (O2 eq_refl). destruct R as [(_&R&_)|R]; [discriminate|lia]. }
          rewrite Ho in E. cbn [andb] in E. apply bind_ok in E as (r'&Er'&E). apply now_ord in Er'. apply bind_ok in E as (t&_&E).
          apply bind_ok in E as (t'&Et'&E). injection E as <-. exists t'. split; [apply (S r'); [exact Et'|]|].
          * assert (C : r' = 2 \/ r' = 3) by lia. destruct C as [C|C]; [left; exact C|right; split; [exact C|exact Ho]].
          * intros z Hz. apply in_or_app. right. exact Hz.
    Qed.

    Lemma sides_in n kp given i a b res at0 : from_sides n x kp given i a b = Ok res -> In at0 res ->
      exists (left : bool) r q, from_side n x kp given i left (if left then a else b) (if left then b else a) r = Ok q /\ In at0 q.
    Proof.
      assert (S : forall q res', second_round dhash ltext word den cls nested backsubsumed answer_lit o n x kp given i a b q = Ok res' -> In at0 res' ->
        exists r q, from_side n x kp given i false b a r = Ok q /\ In at0 q).
      { intros q res' E Hi. unfold second_round in E. destruct (q =? 0); [injection E as <-; destruct Hi|]. destruct (q =? 1); [injection E as <-; destruct Hi|].
        destruct (o_ordered_only o && (q =? 3)); [injection E as <-; destruct Hi|]. apply bind_ok in E as (r&_&E). eauto. }
      intros E Hi. unfold PmModel.from_sides in E. apply bind_ok in E as (r&_&E). destruct (r =? 0); [injection E as <-; destruct Hi|].
      destruct (r =? 2); [destruct (S _ _ E Hi) as (r1&q1&A&B); exists false, r1, q1; auto|].
      destruct (o_ordered_only o && (r =? 3)); [injection E as <-; destruct Hi|].
      apply bind_ok in E as (r'&_&E). apply bind_ok in E as (t&Et&E). apply bind_ok in E as (t'&Et'&E). injection E as <-.
      apply in_app_or in Hi as [Hi|Hi]; [exists true, r', t; auto|]. destruct (S _ _ Et' Hi) as (r1&q1&A&B). exists false, r1, q1; auto.
    Qed.

    Theorem from_complete n g rs res i lg left a b oo c rs' j l q u :
      from_all n x (option_map ix_para kb) g rs = Ok res ->
      literal g i lg -> rs i = true -> equation eqc lg left a b -> headed (latom lg) -> usable word (o_ordered_only o) a b ->
      takes_part o g -> (o_posunit o = true -> length (cl_lits g) = 1%nat) ->
      ~ (o_queryfocus o = true /\ o_ordered_only o = true) ->
      stored o h ok hk oo c rs' -> takes_part oo (cls c) -> o_rewrite_only oo = false ->
      literal (cls c) j l -> j <= 255 -> (rs' j = true \/ o_queryfocus oo = true) -> place (o_deep oo) (latom l) q u ->
      not_excluded o nested backsubsumed answer_lit cls g c -> unifiable a u ->
      In (AFrom i left a b c u (encode_termpath j (number q (latom l)))) res \/ reversed a b u.
    Proof.
      intros E [Hi Hl] Hr He Hhd Hu Ht Hp Hq Hs Ht' Hw Hlit J Hr' Hpl Hex Hun. unfold PmModel.from_all in E.
      assert (P : o_posunit o && negb (ncl g =? 1) = false).
      { destruct (o_posunit o); [|reflexivity]. unfold ncl. rewrite (Hp eq_refl). reflexivity. }
      rewrite P, (proj1 (takes_part_b o g) Ht) in E. destruct (gather_i_all _ _ _ _ E _ _ Hl) as (r1&E1&I1).
      rewrite Z.add_0_l, Z2Nat.id in E1 by exact Hi. unfold from_lit in E1. destruct (equation_sides _ _ _ _ He) as (S1&S2&S3&S4).
      rewrite Hr, S1, S2, S3, S4 in E1. cbn [negb] in E1.
      assert (E1' : from_sides n x (option_map ix_para kb) (nonans answer_lit g) i (if left then a else b) (if left then b else a) = Ok r1)
        by (destruct left; exact E1).
      destruct (sides_all _ _ _ _ _ _ left _ E1') as (r2&E2&I2).
      - destruct left; exact Hu.
      - exact Hq.
      - replace (if left then if left then a else b else if left then b else a) with a in E2 by (destruct left; reflexivity).
        replace (if left then if left then b else a else if left then a else b) with b in E2 by (destruct left; reflexivity).
        unfold PmModel.from_side in E2. pose proof Hu as Hu'. destruct Hu' as (Nv&_). rewrite (proj1 (not_var_b a) Nv) in E2.
        apply bind_ok in E2 as (cand&Ec&E2). destruct (para_ok oo c rs') as [ps Eps].
        assert (Hw' : den (fld c j q) = u) by (apply (read oo c rs' j l q u Hs Hlit), (pl_sub _ _ _ _ Hpl)).
        assert (Hin : In (fld c j q, c, encode_termpath j (number q (latom l))) cand).
        { apply (found_para _ _ _ _ _ _ _ Hx Hk _ _ _ Ec). exists oo, c, rs', ps. split; [exact Hs|]. split; [exact Eps|].
          apply (para_in _ _ _ _ Eps (fun k m => Hh oo c rs' k m Hs)). split; [reflexivity|]. split; [exact Ht'|]. split; [exact Hw|].
          exists j, l, q, u. split; [exact Hlit|]. split; [exact J|]. split; [exact Hr'|]. split; [exact Hpl|].
          split; [|split; reflexivity]. apply key_meet; [exact (proj1 (side_headed _ _ _ _ Hhd He))| |exact Nv|exact (pl_nonvar _ _ _ _ Hpl)|exact Hun].
          apply (sub_headed q (latom l)); [apply (Hh oo c rs' j l Hs Hlit)|apply (pl_sub _ _ _ _ Hpl)]. }
        destruct (gather_all _ _ _ E2 _ Hin) as (r3&E3&I3).
        destruct (try_from_all _ _ _ _ _ _ _ _ _ _ _ _ E3 eq_refl Hu Hex ltac:(rewrite Hw'; exact Hun)) as [A|A].
        + left. rewrite Hw' in A. apply I1, I2, I3, A.
        + right. rewrite Hw' in A. exact A.
    Qed.
    Theorem from_sound n g rs res at0 :
      from_all n x (option_map ix_para kb) g rs = Ok res -> In at0 res ->
      exists i lg left a b oo c rs' j l q u,
        at0 = AFrom i left a b c u (encode_termpath j (number q (latom l))) /\
        literal g i lg /\ rs i = true /\ equation eqc lg left a b /\ not_var a /\
        stored o h ok hk oo c rs' /\ literal (cls c) j l /\ j <= 255 /\ (rs' j = true \/ o_queryfocus oo = true) /\
        place (o_deep oo) (latom l) q u /\ unifiable a u.
    Proof.
      intros E Hi. unfold PmModel.from_all in E. destruct (o_posunit o && negb (ncl g =? 1)); [injection E as <-; destruct Hi|].
      destruct (kept_out o g); [injection E as <-; destruct Hi|]. destruct (gather_i_in _ _ _ _ E _ Hi) as (m&lg&r1&Hl&E1&H1).
      rewrite Z.add_0_l in E1. set (i := Z.of_nat m) in *.
      assert (Hlg : literal g i lg) by (split; [lia|unfold i; rewrite Nat2Z.id; exact Hl]). unfold from_lit in E1.
      destruct (rs i) eqn:Er; cbn [negb] in E1; [|injection E1 as <-; destruct H1].
      destruct (meta_is_neg (lmeta lg)) eqn:Em; [injection E1 as <-; destruct H1|]. destruct (negb (is_rec (latom lg))); [injection E1 as <-; destruct H1|].
      destruct (equality_atom eqc (latom lg)) as [[|]|] eqn:Ee; [|injection E1 as <-; destruct H1|discriminate].
      destruct (eq_sides (latom lg)) as [[a b]|] eqn:Es; [|injection E1 as <-; destruct H1].
      destruct (sides_equation lg a b Em Ee Es) as [S1 S2]. destruct (sides_in _ _ _ _ _ _ _ _ E1 H1) as (left&r&r2&E2&H2).
      set (u := if left then a else b) in *. set (v := if left then b else a) in *.
      assert (He : equation eqc lg left u v) by (unfold u, v; destruct left; assumption).
      unfold PmModel.from_side in E2. destruct (is_var u) eqn:Ev; [injection E2 as <-; destruct H2|].
      apply bind_ok in E2 as (cand&Ec&E2). destruct (gather_in _ _ _ E2 _ H2) as (e&r3&He3&E3&H3).
      destruct (try_from_in _ _ _ _ _ _ _ _ _ _ _ E3 H3) as (w&c&path&->&->&Hun).
      apply (found_para _ _ _ _ _ _ _ Hx Hk _ _ _ Ec) in He3 as (oo&c'&rs'&ps&Hs&Eps&Hin).
      apply (para_in _ _ _ _ Eps (fun k m => Hh oo c' rs' k m Hs)) in Hin as (->&_&_&j&l&q&t&Hlit&J&Hr'&Hpl&_&->&->).
      rewrite (read oo c' rs' j l q t Hs Hlit (pl_sub _ _ _ _ Hpl)) in *.
      exists i, lg, left, u, v, oo, c', rs', j, l, q, t. repeat (split; [first [reflexivity|assumption|apply not_var_b; assumption]|]). exact Hun.
    Qed.

    Theorem into_complete n g rs res i lg q u oo c rs' j l left a b :
      into_all n x (option_map ix_eq kb) g rs = Ok res ->
      literal g i lg -> i <= 255 -> rs i = true -> headed (latom lg) -> place (o_deep o) (latom lg) q u -> takes_part o g ->
      stored o h ok hk oo c rs' -> takes_part oo (cls c) -> o_rewrite_only oo = false ->
      literal (cls c) j l -> j <= 255 -> (rs' j = true \/ o_queryfocus oo = true) ->
      equation eqc l left a b -> usable word (o_ordered_only oo) a b ->
      ~ (o_queryfocus oo = true /\ o_ordered_only oo = true) ->
      (o_posunit oo = true -> length (cl_lits (cls c)) = 1%nat) ->
      (o_posunit o = true -> match cls c with SFact _ _ => True | r => nonans answer_lit r <= 1 end) ->
      not_excluded o nested backsubsumed answer_lit cls g c -> unifiable u a ->
      In (AInto (encode_termpath i (number q (latom lg))) u c j left a b) res.
    Proof.
      intros E [Hi Hl] I Hr Hhd Hpl Ht Hs Ht' Hw Hlit J Hr' He Hu Hq Hp1 Hp2 Hex Hun. unfold PmModel.into_all in E.
      rewrite (proj1 (takes_part_b o g) Ht) in E. destruct (gather_i_all _ _ _ _ E _ _ Hl) as (r1&E1&I1).
      rewrite Z.add_0_l, Z2Nat.id in E1 by exact Hi. unfold into_lit in E1. rewrite Hr in E1. cbn [negb] in E1. unfold maxlitnr in E1.
      destruct (Z.ltb_spec 255 i); [lia|].
      destruct (gather_all _ _ _ E1 (number q (latom lg), q, u)) as (r2&E2&I2).
      { apply spos_places; [exact Hhd|]. split; [exact Hpl|reflexivity]. }
      unfold into_pos in E2. cbn [fst snd] in E2. apply bind_ok in E2 as (cand&Ec&E2).
      destruct (found_eq _ _ _ _ _ _ _ Hx Hk _ _ _ Ec) as [_ F]. destruct (F oo c rs' Hs) as (m&es&Ees&Hin).
      assert (Hrd : den (fld c j [if left then 1%nat else 2%nat]) = a) by (apply (read oo c rs' j l _ a Hs Hlit), (side_sub l left a b He)).
      assert (Hk' : head_key u = head_key a).
      { apply key_meet; [| |exact (pl_nonvar _ _ _ _ Hpl)|exact (proj1 Hu)|exact Hun].
        - apply (sub_headed q (latom lg) u Hhd (pl_sub _ _ _ _ Hpl)).
        - exact (proj1 (side_headed l left a b (Hh oo c rs' j l Hs Hlit) He)). }
      assert (Hc : In (fld c j [if left then 1%nat else 2%nat], c, encode_termpath j (if left then 1 else 0)) cand).
      { apply Hin. rewrite Hk'. apply (eq_in_all oo m c rs' es Ees Ht' Hw Hp1 Hq j l left a b Hlit Hr' He Hu). }
      destruct (gather_all _ _ _ E2 _ Hc) as (r3&E3&I3).
      rewrite (try_into_all _ _ _ _ _ _ _ _ _ _ E3 Hex Hp2 ltac:(rewrite Hrd; exact Hun) j l left a b Hlit J He Hrd eq_refl) in I3.
      apply I1, I2, I3. left. reflexivity.
    Qed.
    Theorem into_sound n g rs res at0 : (forall i l, literal g i l -> headed (latom l)) ->
      (forall oo c rs', stored o h ok hk oo c rs' -> (length (cl_lits (cls c)) <= 256)%nat) ->
      into_all n x (option_map ix_eq kb) g rs = Ok res -> In at0 res ->
      exists i lg q u oo c rs' j l left a b,
        at0 = AInto (encode_termpath i (number q (latom lg))) u c j left a b /\
        literal g i lg /\ i <= 255 /\ rs i = true /\ place (o_deep o) (latom lg) q u /\
        stored o h ok hk oo c rs' /\ literal (cls c) j l /\ equation eqc l left a b /\ not_var a /\
        (o_queryfocus oo = false -> usable word (o_ordered_only oo) a b) /\ unifiable u a.
    Proof.
      intros Hg Hlen E Hi. unfold PmModel.into_all in E. destruct (kept_out o g); [injection E as <-; destruct Hi|].
      destruct (gather_i_in _ _ _ _ E _ Hi) as (m&lg&r1&Hl&E1&H1). rewrite Z.add_0_l in E1. set (i := Z.of_nat m) in *.
      assert (Hlg : literal g i lg) by (split; [lia|unfold i; rewrite Nat2Z.id; exact Hl]). unfold into_lit in E1.
      destruct (rs i) eqn:Er; cbn [negb] in E1; [|injection E1 as <-; destruct H1]. unfold maxlitnr in E1.
      destruct (Z.ltb_spec 255 i); [injection E1 as <-; destruct H1|].
      destruct (gather_in _ _ _ E1 _ H1) as ([[p q] u]&r2&Hp&E2&H2). apply spos_places in Hp as [Hpl ->]; [|exact (Hg _ _ Hlg)].
      unfold into_pos in E2. cbn [fst snd] in E2. apply bind_ok in E2 as (cand&Ec&E2).
      destruct (gather_in _ _ _ E2 _ H2) as (e&r3&He3&E3&H3).
      destruct (try_into_in _ _ _ _ _ _ _ _ _ E3 H3) as (w&c&path&left&y&->&->&Hun&Hd).
      destruct (found_eq _ _ _ _ _ _ _ Hx Hk _ _ _ Ec) as [F _]. destruct (F _ He3) as (oo&c'&rs'&n'&es&Hs&Ees&Hin).
      destruct (eq_in_some _ _ _ _ _ Ees _ _ _ _ Hin) as (->&j&l&lf&a&b&Hlit&He&Nv&Hu&_&->&->).
      assert (J : j <= 255).
      { destruct Hlit as [J0 J1]. pose proof (Hlen oo c' rs' Hs) as L. assert (J2 : (Z.to_nat j < length (cl_lits (cls c')))%nat) by (apply nth_error_Some; congruence). lia. }
      destruct (Hd j l lf a b Hlit J He eq_refl) as (Ej&->&->). rewrite Ej.
      rewrite (read oo c' rs' j l _ a Hs Hlit (side_sub l lf a b He)) in *.
      exists i, lg, q, u, oo, c', rs', j, l, lf, a, b. repeat (split; [first [reflexivity|assumption]|]). exact Hun.
    Qed.

    Hypothesis Hd : forall d, - 2 ^ 31 <= dhash d < 2 ^ 31.
    Lemma good_slot t : good_symbol dhash ltext t -> is_slot 1000000 (head_key t).
    Proof.
      intros H. apply key_slot; [exact Hd|]. destruct t as [i|c|[|[i|c|gs] fs]]; cbn [key_value good_symbol] in *; try exact H; try lia; pose proof (int_hash_range (w32 i)); lia.
    Qed.
    Lemma now_settles a b : settles (fun n => order_now word n a b).
    Proof.
      destruct (order_ends word nobind nobind_acyclic a b) as (n0&r&_&E). exists n0, r. intros n Hn. unfold order_now.
      change (fun _ : Z => @None term) with nobind. rewrite (E n Hn). reflexivity.
    Qed.
    Lemma from_settles g rs : well_formed g -> good_symbols dhash ltext g -> settles (fun n => from_all n x (option_map ix_para kb) g rs).
    Proof.
      intros Hw Hg. unfold PmModel.from_all. destruct (o_posunit o && negb (ncl g =? 1)); [apply settles_ok|].
      destruct (kept_out o g); [apply settles_ok|]. apply (settles_gather_i (fun n => from_lit dhash ltext word den cls eqc nested backsubsumed answer_lit o n x (option_map ix_para kb) (nonans answer_lit g) rs)).
      intros k l Hl. rewrite Z.add_0_l. set (i := Z.of_nat k).
      assert (Hlit : literal g i l) by (split; [lia|unfold i; rewrite Nat2Z.id; exact Hl]). unfold from_lit.
      destruct (negb (rs i)); [apply settles_ok|]. destruct (meta_is_neg (lmeta l)) eqn:Em; [apply settles_ok|].
      destruct (Hw i l Hlit) as [Hr _]. rewrite Hr. cbn [negb].
      destruct (equality_atom eqc (latom l)) as [[|]|] eqn:Ee; [|apply settles_ok|destruct (latom l) as [?|?|[|[?|?|?] ?]]; discriminate].
      destruct (eq_sides (latom l)) as [[a b]|] eqn:Es; [|apply settles_ok].
      destruct (sides_equation l a b Em Ee Es) as [S1 S2]. apply side_sub in S1, S2. apply (Hg i l _ _ Hlit) in S1, S2.
      assert (Side : forall left u v r, good_symbol dhash ltext u -> settles (fun n => from_side n x (option_map ix_para kb) (nonans answer_lit g) i left u v r)).
      { intros left u v r Hu. unfold PmModel.from_side. destruct (is_var u); [apply settles_ok|]. apply settles_bind.
        - apply (both_settles _ _ _ _ _ _ _ Hx Hk ix_para (head_key u)); [left; reflexivity|apply good_slot, Hu].
        - intros cand _. apply (settles_gather (fun n => PmModel.try_from word den cls nested backsubsumed answer_lit o n (nonans answer_lit g) i left u v r)).
          intros e _. apply try_from_settles. }
      assert (Second : forall r, settles (fun n => second_round dhash ltext word den cls nested backsubsumed answer_lit o n x (option_map ix_para kb) (nonans answer_lit g) i a b r)).
      { intros r. unfold second_round. destruct (r =? 0); [apply settles_ok|]. destruct (r =? 1); [apply settles_ok|].
        destruct (o_ordered_only o && (r =? 3)); [apply settles_ok|]. apply (settles_bind (fun n => order_now word n b a)); [apply now_settles|].
        intros r' _. apply Side, S2. }
      unfold PmModel.from_sides. apply (settles_bind (fun n => stored_order word o n a b)).
      { unfold stored_order. destruct (o_queryfocus o); [apply settles_ok|apply now_settles]. }
      intros r _. destruct (r =? 0); [apply settles_ok|]. destruct (r =? 2); [apply Second|]. destruct (o_ordered_only o && (r =? 3)); [apply settles_ok|].
      apply (settles_bind (fun n => order_now word n a b)); [apply now_settles|]. intros r' _.
      apply (settles_bind (fun n => from_side n x (option_map ix_para kb) (nonans answer_lit g) i true a b r')); [apply Side, S1|]. intros t _.
      apply (settles_bind (fun n => second_round dhash ltext word den cls nested backsubsumed answer_lit o n x (option_map ix_para kb) (nonans answer_lit g) i a b r')); [apply Second|].
      intros t' _. apply settles_ok.
    Qed.
    Lemma into_settles g rs : well_formed g -> good_symbols dhash ltext g ->
      (forall oo c rs', stored o h ok hk oo c rs' -> (length (cl_lits (cls c)) <= 256)%nat) ->
      settles (fun n => into_all n x (option_map ix_eq kb) g rs).
    Proof.
      intros Hw Hg Hlen. unfold PmModel.into_all. destruct (kept_out o g); [apply settles_ok|].
      apply (settles_gather_i (fun n => into_lit dhash ltext den cls nested backsubsumed answer_lit o n x (option_map ix_eq kb) (nonans answer_lit g) rs)).
      intros k l Hl. rewrite Z.add_0_l. set (i := Z.of_nat k).
      assert (Hlit : literal g i l) by (split; [lia|unfold i; rewrite Nat2Z.id; exact Hl]). unfold into_lit.
      destruct (negb (rs i)); [apply settles_ok|]. destruct (maxlitnr <? i); [apply settles_ok|].
      apply (settles_gather (fun n => into_pos dhash ltext den cls nested backsubsumed answer_lit o n x (option_map ix_eq kb) (nonans answer_lit g) i)).
      intros [[p q] u] Hp. apply spos_places in Hp as [Hpl ->]; [|exact (proj2 (Hw i l Hlit))]. unfold into_pos. cbn [fst snd].
      apply settles_bind.
      - apply (both_settles _ _ _ _ _ _ _ Hx Hk ix_eq (head_key u)); [right; reflexivity|apply good_slot, (Hg i l q u Hlit (pl_sub _ _ _ _ Hpl))].
      - intros cand [n En]. destruct (found_eq _ _ _ _ _ _ _ Hx Hk _ _ _ En) as [F _].
        apply (settles_gather (fun n => PmModel.try_into den cls nested backsubsumed answer_lit o n (nonans answer_lit g) i (number q (latom l)) u)).
        intros [[w c] path] He. apply try_into_settles. destruct (F _ He) as (oo&c'&rs'&n'&es&Hs&Ees&Hin).
        destruct (eq_in_some _ _ _ _ _ Ees _ _ _ _ Hin) as (->&j&m&lf&a&b&Hlm&Heq&_&_&_&_&->).
        exists j, m, lf, a, b. split; [exact Hlm|]. split; [|split; [exact Heq|reflexivity]].
        destruct Hlm as [J0 J1]. pose proof (Hlen oo c' rs' Hs) as L. assert (J2 : (Z.to_nat j < length (cl_lits (cls c')))%nat) by (apply nth_error_Some; congruence). lia.
    Qed.

    Lemma eq_settles c rs : well_formed (cls c) -> settles (fun n => all_eq o n c rs).
    Proof.
      intros Hw. unfold PmModel.all_eq. destruct (kept_out o (cls c)); [apply settles_ok|].
      apply (settles_gather_i (fun n i l => if negb (rs i) && negb (o_queryfocus o) then Ok [] else eq_entries dhash ltext word fld eqc o n c (ncl (cls c)) i l)).
      intros k l Hl. rewrite Z.add_0_l. set (i := Z.of_nat k).
      assert (Hlit : literal (cls c) i l) by (split; [lia|unfold i; rewrite Nat2Z.id; exact Hl]).
      destruct (negb (rs i) && negb (o_queryfocus o)); [apply settles_ok|]. unfold eq_entries.
      destruct (o_posunit o && negb (ncl (cls c) =? 1)); [apply settles_ok|]. destruct (meta_is_neg (lmeta l)); [apply settles_ok|].
      destruct (Hw i l Hlit) as [Hr _].
      destruct (equality_atom eqc (latom l)) as [[|]|] eqn:Ee; [|apply settles_ok|destruct (latom l) as [?|?|[|[?|?|?] ?]]; discriminate].
      destruct (eq_sides (latom l)) as [[a b]|]; [|apply settles_ok].
      apply (settles_bind (fun n => stored_order word o n a b)).
      { unfold stored_order. destruct (o_queryfocus o); [apply settles_ok|apply now_settles]. }
      intros r _. destruct (o_ordered_only o && ((r =? 0) || (r =? 3))); [apply settles_ok|]. destruct (o_rewrite_only o); apply settles_ok.
    Qed.
    Lemma store_settles c rs : well_formed (cls c) -> good_symbols dhash ltext (cls c) ->
      exists k, forall ap ae, (k <= length ap)%nat -> (k <= length ae)%nat -> (forall a, In a (flat ap ++ flat ae) -> a <> 0) ->
      settles (fun n => store o n x c rs ap ae).
    Proof.
      intros Hw Hg. destruct (eq_settles c rs Hw) as (n0&es&Ees). destruct (para_ok o c rs) as [ps Eps].
      exists (Nat.max (length ps) (length es)). intros ap ae La Le Hz.
      destruct (entered_lists _ _ _ _ Hx) as (up&ue&hp&he&Lp&Le'&_).
      assert (Kp : forall e, In e ps -> is_slot (vlen (ix_para x)) (fst e)).
      { intros [k [[w c'] path]] He. rewrite (vlen_lists _ _ _ _ Lp). cbn [fst].
        apply (para_in _ _ _ _ Eps (fun i l H => proj2 (Hw i l H))) in He as (->&_&_&j&l&q&u&Hlit&_&_&Hpl&->&_).
        apply good_slot, (Hg j l q u Hlit (pl_sub _ _ _ _ Hpl)). }
      assert (Ke : forall e, In e es -> is_slot (vlen (ix_eq x)) (fst e)).
      { intros [k [[w c'] path]] He. rewrite (vlen_lists _ _ _ _ Le'). cbn [fst].
        destruct (eq_in_some _ _ _ _ _ (Ees n0 (le_n n0)) _ _ _ _ He) as (->&j&l&left&a&b&Hlit&Heq&_&_&->&_).
        apply good_slot, (Hg j l _ a Hlit (side_sub l left a b Heq)). }
      destruct (add_all_defined ps (ix_para x) ap (Nat.le_trans _ _ _ (Nat.le_max_l _ _) La) ltac:(intros a Ha; apply Hz, in_or_app; left; exact Ha) Kp) as [lp Elp].
      destruct (add_all_defined es (ix_eq x) ae (Nat.le_trans _ _ _ (Nat.le_max_r _ _) Le) ltac:(intros a Ha; apply Hz, in_or_app; right; exact Ha) Ke) as [le Ele].
      exists n0, {| ix_para := lp; ix_eq := le |}. intros n Hn. unfold PmModel.store. rewrite Eps. cbn [bind]. rewrite (Ees n Hn). cbn [bind].
      rewrite Elp. cbn [bind]. rewrite Ele. reflexivity.
    Qed.
  End H.
End F.
